(** * Certificates: theorems. *)
From Coq Require Import List NArith Bool Lia ZArith ZifyN ZifyNat ZifyBool Wellfounded.
From Verif Require Import CertModel CertSpec CertBits CertInv CertStep CertProps.
Import ListNotations.
Open Scope N_scope.

Section Thms.
Variable D : N.
Hypothesis D1 : 1 <= D. Hypothesis D2 : D <= 255.

Lemma start_trok log h i w : (forall r, In r i -> src D log r h 0) -> (forall r, In r w -> src D log r (h - 1) 0) -> 1 <= h ->
  start_trav h i w = TTrav (Tr (h - 1) i w [] [] [] []) /\ trok D log (Tr (h - 1) i w [] [] [] []).
Proof.
  intros A B C. unfold start_trav. replace (h =? 0) with false by lia. split; [reflexivity|].
  repeat split; cbn [t_h t_dir t_wit t_pend t_c t_i t_w]; auto; try contradiction. intros r Hr. replace (h - 1 + 1) with h by lia. auto.
Qed.

Lemma certify_inv s t p s' : inv D s -> step D (LCertify t p) s = Some s' -> inv D s'.
Proof.
  intros (Ci&Ti&Li) E. cbn [step] in E. destruct (s_thr s t) eqn:Et; try discriminate.
  destruct (certify_deeper (s_cell s p) (D + 1) true) as [c' r] eqn:Ec.
  destruct (cinv_certify D D1 D2 _ _ _ _ _ Ci Ec) as [Ci' Hb].
  assert (hh : D + 1 < 4096) by lia.
  assert (Hc : forall q, hgt (c_word (s_cell s q)) <= hgt (c_word (upd (s_cell s) p c' q)) /\
     fS (c_word (upd (s_cell s) p c' q)) = fS (c_word (s_cell s q)) /\ fD (c_word (upd (s_cell s) p c' q)) = fD (c_word (s_cell s q)) /\
     c_deps (upd (s_cell s) p c' q) = c_deps (s_cell s q)).
  { intros q. destruct (N.eq_dec q p) as [->|Hn]; [rewrite !upd_same|rewrite !upd_other by exact Hn; repeat split; lia].
    destruct (certify_spec _ _ _ _ _ (i_w _ _ _ Ci p) hh Ec) as [(A1&->&_)|(A1&A2&A3&A4&A5&A6&A7&A8&A9)]; repeat split; try assumption; lia. }
  assert (Hincl : incl (s_log s) (ECertify p :: s_log s)) by (intros x Hx; right; exact Hx).
  assert (Hlog : forall q i w, In (EDeps q i w) (ECertify p :: s_log s) -> In (EDeps q i w) (s_log s)) by (intros q i w [X|X]; [discriminate|exact X]).
  assert (S0 : src0 D (ECertify p :: s_log s) p (D + 1)) by (exists p, 0; split; [left; reflexivity|]; split; [constructor|lia]).
  destruct r as [|i w|]; [| |congruence]; injection E as <-.
  - split; [exact Ci'|]. split.
    + eapply (tinv_pres D s _ t TIdle Ti); [|exact Hincl| |exact I].
      * intros u. cbn [add_ev set_cell s_thr]. rewrite <- Et. symmetry. apply upd_id.
      * intros q. apply Hc.
    + eapply (low_pres s _ t TIdle Li); [|intros; left; apply Hlog; assumption|auto|intros q; apply Hc| |].
      * intros u. cbn [add_ev set_cell s_thr]. rewrite <- Et. symmetry. apply upd_id.
      * intros tr q k X. congruence.
      * intros q i w Hin Hlt. unfold word in Hlt. cbn [add_ev set_cell s_cell] in Hlt.
        destruct (N.eq_dec q p) as [->|Hn]; [|rewrite upd_other in Hlt by exact Hn; lia]. rewrite upd_same in Hlt.
        exfalso. destruct (certify_spec _ _ _ _ _ (i_w _ _ _ Ci p) hh Ec) as [(A1&->&_)|(A1&A2&A3&A4&A5&A6&A7&A8&A9)]; [lia|].
        assert (F : fD (c_word (s_cell s p)) = true) by (apply (i_dep _ _ _ Ci); eauto).
        rewrite F, (i_ds _ _ _ Ci _ F), (i_dep2 _ _ _ Ci _ _ _ Hin) in A9. cbn [andb] in A9. replace (1 <? D + 1) with true in A9 by lia. discriminate.
  - destruct (certify_spec _ _ _ _ _ (i_w _ _ _ Ci p) hh Ec) as [(_&_&X)|(A1&A2&A3&A4&A5&A6&A7&A8&A9)]; [discriminate|].
    destruct (fS (c_word (s_cell s p)) && fD (c_word (s_cell s p)) && (1 <? D + 1)) eqn:G; [|discriminate].
    rewrite !andb_true_iff in G. destruct G as [[_ G] _]. apply (i_dep _ _ _ Ci) in G. destruct G as (i0&w0&G).
    rewrite (i_dep2 _ _ _ Ci _ _ _ G) in A9. injection A9 as -> ->.
    set (w' := if 2 <? D + 1 then w0 else []).
    destruct (start_trok (ECertify p :: s_log s) D i0 w') as [Es Tk]; [| |exact D1|].
    { intros r Hr. eapply src0_inc; [exact S0|right; exact G|exact Hr|lia]. }
    { intros r Hr. unfold w' in Hr. destruct (2 <? D + 1) eqn:G2; [|destruct Hr]. eapply src0_wit; [exact S0|right; exact G|exact Hr|lia]. }
    rewrite Es. split; [exact Ci'|]. split.
    + eapply (tinv_pres D s _ t _ Ti); [intros u; reflexivity|exact Hincl|intros q; apply Hc|exact Tk].
    + eapply (low_pres s _ t _ Li); [intros u; reflexivity|intros; left; apply Hlog; assumption|auto|intros q; apply Hc| |].
      * intros tr q k X. congruence.
      * intros q i w Hin Hlt. unfold word in Hlt. cbn [add_ev set_cell set_thr s_cell] in Hlt.
        destruct (N.eq_dec q p) as [->|Hn]; [|rewrite upd_other in Hlt by exact Hn; lia].
        assert (X : c_deps (s_cell s p) = Some (i, w)) by (apply (i_dep2 _ _ _ Ci); exact Hin). rewrite (i_dep2 _ _ _ Ci _ _ _ G) in X. injection X as -> ->.
        unfold word. cbn [add_ev set_cell set_thr s_cell]. rewrite upd_same, A2.
        split; intros r Hr; intros _.
        -- right. exists t, (Tr (D - 1) i w' [] [] [] []). cbn [set_thr s_thr]. rewrite upd_same. split; [reflexivity|]. left. cbn. split; [lia|exact Hr].
        -- destruct (2 <? D + 1) eqn:G2; [|left; lia]. right. exists t, (Tr (D - 1) i w' [] [] [] []). cbn [set_thr s_thr]. rewrite upd_same. split; [reflexivity|].
           right; left. cbn [t_h t_wit]. split; [lia|exact Hr].
Qed.

Lemma setdeps_inv s t p i w s' : inv D s -> step D (LSetDeps t p i w) s = Some s' -> inv D s'.
Proof.
  intros (Ci&Ti&Li) E. cbn [step] in E. destruct (s_thr s t) eqn:Et; try discriminate. rewrite land_started in E.
  destruct (lor_word (c_word (s_cell s p)) INIT_STARTED (i_w _ _ _ Ci p) eq_refl eq_refl) as (L1&L2&L3&L4&L5&L6).
  change (fS INIT_STARTED) with true in L4. change (fD INIT_STARTED) with false in L5. rewrite orb_true_r in L4. rewrite orb_false_r in L5.
  set (cl := upd (s_cell s) p (Cell (N.lor (c_word (s_cell s p)) INIT_STARTED) (c_deps (s_cell s p)))) in *.
  assert (Hc : forall q, hgt (c_word (cl q)) = hgt (c_word (s_cell s q)) /\ (fS (c_word (s_cell s q)) = true -> fS (c_word (cl q)) = true) /\
     fD (c_word (cl q)) = fD (c_word (s_cell s q)) /\ c_deps (cl q) = c_deps (s_cell s q)).
  { intros q. unfold cl. destruct (N.eq_dec q p) as [->|Hn]; [rewrite !upd_same; cbn [c_word c_deps]; auto|rewrite !upd_other by exact Hn; auto]. }
  destruct (fS (c_word (s_cell s p))) eqn:Fs; cbn [negb] in E; injection E as <-.
  - split; [apply (cinv_started D _ _ p _ [EPanic p] Ci eq_refl); auto|]. split.
    + eapply (tinv_pres D s _ t TIdle Ti); [|intros x Hx; right; exact Hx| |exact I].
      * intros u. cbn. rewrite <- Et. symmetry. apply upd_id.
      * intros q. unfold word. cbn [add_ev set_cell s_cell]. fold cl. destruct (Hc q) as (_&A&B&C). split; [|auto].
        unfold cl. destruct (N.eq_dec q p) as [->|Hn]; [rewrite upd_same; cbn [c_word]; congruence|rewrite upd_other by exact Hn; reflexivity].
    + eapply (low_pres s _ t TIdle Li); [|intros q i0 w0 [X|X]; [discriminate|left; exact X]|auto|intros q; apply N.eq_le_incl; symmetry; apply Hc| |].
      * intros u. cbn. rewrite <- Et. symmetry. apply upd_id.
      * intros tr q k X. congruence.
      * intros q i0 w0 _ X. exfalso. unfold word in X. cbn [add_ev set_cell s_cell] in X. fold cl in X. destruct (Hc q) as (Y&_). rewrite Y in X. exact (N.lt_irrefl _ X).
  - split; [apply (cinv_started D _ _ p _ [] Ci eq_refl); auto|]. destruct Ti as [S1 S2 U T]. split.
    + assert (Fd : fD (c_word (s_cell s p)) = false).
      { destruct (fD (c_word (s_cell s p))) eqn:X; [|reflexivity]. apply (i_ds _ _ _ Ci) in X. congruence. }
      split.
      * intros u q i0 w0. unfold word. cbn [set_thr set_cell s_thr s_cell]. fold cl. destruct (Hc q) as (_&A&B&_).
        destruct (N.eq_dec u t) as [->|Hn]; [rewrite upd_same; intros X; injection X as <- <- <-|rewrite upd_other by exact Hn; intros X].
        -- rewrite B. split; [|exact Fd]. unfold cl. rewrite upd_same. cbn [c_word]. exact L4.
        -- destruct (S1 _ _ _ _ X) as [Y1 Y2]. rewrite B. auto.
      * intros u q i0 w0. unfold word. cbn [set_thr set_cell s_thr s_cell]. fold cl. destruct (Hc q) as (_&A&B&C0).
        destruct (N.eq_dec u t) as [->|Hn]; [rewrite upd_same; discriminate|rewrite upd_other by exact Hn; intros X].
        destruct (S2 _ _ _ _ X) as (Y1&Y2&Y3). rewrite B, C0. auto.
      * assert (Hno : forall u, setting (s_thr s u) <> Some p).
        { intros u X. destruct (s_thr s u) eqn:Eu; cbn in X; try discriminate; injection X as ->.
          - destruct (S1 _ _ _ _ Eu). unfold word in *. congruence.
          - destruct (S2 _ _ _ _ Eu). unfold word in *. congruence. }
        intros u u' q. cbn [set_thr s_thr]. destruct (N.eq_dec u t) as [->|Hn], (N.eq_dec u' t) as [->|Hn']; rewrite ?upd_same, ?upd_other by assumption.
        -- reflexivity.
        -- cbn [setting]. intros X Y. injection X as <-. destruct (Hno _ Y).
        -- cbn [setting]. intros X Y. injection Y as <-. destruct (Hno _ X).
        -- apply U.
      * intros u tr. cbn [set_thr set_cell s_thr s_log]. destruct (N.eq_dec u t) as [->|Hn]; [rewrite upd_same; discriminate|rewrite upd_other by exact Hn]. apply T.
    + eapply (low_pres s _ t _ Li); [intros u; reflexivity|auto|auto|intros q; apply N.eq_le_incl; symmetry; apply Hc| |].
      * intros tr q k X. congruence.
      * intros q i0 w0 _ X. exfalso. unfold word in X. cbn [set_thr set_cell s_cell] in X. fold cl in X. destruct (Hc q) as (Y&_). rewrite Y in X. exact (N.lt_irrefl _ X).
Qed.

Lemma write_inv s t s' : inv D s -> step D (LWrite t) s = Some s' -> inv D s'.
Proof.
  intros (Ci&Ti&Li) E. cbn [step] in E. destruct (s_thr s t) as [|p i w|p i w|] eqn:Et; try discriminate. injection E as <-.
  destruct (i_set1 _ _ Ti _ _ _ _ Et) as [Fs Fd]. split; [apply (cinv_write D); assumption|].
  set (cl := upd (s_cell s) p (Cell (c_word (s_cell s p)) (Some (i, w)))) in *.
  assert (Hc : forall q, c_word (cl q) = c_word (s_cell s q) /\ (q <> p -> c_deps (cl q) = c_deps (s_cell s q))).
  { intros q. unfold cl. destruct (N.eq_dec q p) as [->|Hn]; [rewrite !upd_same; split; [reflexivity|congruence]|rewrite !upd_other by exact Hn; auto]. }
  destruct Ti as [S1 S2 U T]. split.
  - assert (Hu : forall u, setting (s_thr s u) = Some p -> u = t) by (intros u X; apply (U u t p X); rewrite Et; reflexivity).
    split.
    + intros u q i0 w0. unfold word. cbn [set_thr set_cell s_thr s_cell]. destruct (Hc q) as (A&_). fold cl. rewrite A.
      destruct (N.eq_dec u t) as [->|Hn]; [rewrite upd_same; discriminate|rewrite upd_other by exact Hn; apply S1].
    + intros u q i0 w0. unfold word. cbn [set_thr set_cell s_thr s_cell]. destruct (Hc q) as (A&B). fold cl. rewrite A.
      destruct (N.eq_dec u t) as [->|Hn]; [rewrite upd_same; intros X; injection X as <- <- <-|rewrite upd_other by exact Hn; intros X].
      * split; [exact Fs|]. split; [exact Fd|]. unfold cl. rewrite upd_same. reflexivity.
      * assert (q <> p) by (intros ->; apply Hn, Hu; rewrite X; reflexivity). rewrite B by assumption. eapply S2; exact X.
    + intros u u' q. cbn [set_thr s_thr].
      assert (G : forall v, setting (upd (s_thr s) t (TSet2 p i w) v) = setting (s_thr s v)).
      { intros v. destruct (N.eq_dec v t) as [->|Hn]; [rewrite upd_same, Et; reflexivity|rewrite upd_other by exact Hn; reflexivity]. }
      cbn [set_cell s_thr]. rewrite !G. apply U.
    + intros u tr. cbn [set_thr set_cell s_thr s_log]. destruct (N.eq_dec u t) as [->|Hn]; [rewrite upd_same; discriminate|rewrite upd_other by exact Hn]. apply T.
  - eapply (low_pres s _ t _ Li); [intros u; reflexivity|auto|auto| | |].
    + intros q. unfold word. cbn [set_thr set_cell s_cell]. fold cl. destruct (Hc q) as [-> _]. lia.
    + intros tr q k X. congruence.
    + intros q i0 w0 _ X. exfalso. unfold word in X. cbn [set_thr set_cell s_cell] in X. fold cl in X. destruct (Hc q) as (Y&_). rewrite Y in X. lia.
Qed.

Lemma complete_inv s t s' : inv D s -> step D (LComplete t) s = Some s' -> inv D s'.
Proof.
  intros (Ci&Ti&Li) E. cbn [step] in E. destruct (s_thr s t) as [|p i w|p i w|] eqn:Et; try discriminate.
  destruct (i_set2 _ _ Ti _ _ _ _ Et) as (Fs&Fd&Ed). unfold word in Fs, Fd.
  assert (Ci' := cinv_complete D _ _ _ _ _ Ci Fs Fd Ed).
  destruct (lor_word (c_word (s_cell s p)) INIT_COMPLETED (i_w _ _ _ Ci p) eq_refl eq_refl) as (L1&L2&L3&L4&L5&L6).
  set (cl := upd (s_cell s) p (Cell (N.lor (c_word (s_cell s p)) INIT_COMPLETED) (c_deps (s_cell s p)))) in *.
  rewrite land_height in E. set (h := hgt (c_word (s_cell s p))) in *.
  assert (Hc : forall q, hgt (c_word (cl q)) = hgt (c_word (s_cell s q)) /\ c_deps (cl q) = c_deps (s_cell s q) /\
     (q <> p -> c_word (cl q) = c_word (s_cell s q))).
  { intros q. unfold cl. destruct (N.eq_dec q p) as [->|Hn]; [rewrite !upd_same; cbn [c_word c_deps]; repeat split; auto; congruence|rewrite !upd_other by exact Hn; auto]. }
  assert (Hu : forall u, setting (s_thr s u) = Some p -> u = t) by (intros u X; apply (i_uniq _ _ Ti u t p X); rewrite Et; reflexivity).
  assert (Hincl : incl (s_log s) (EDeps p i w :: s_log s)) by (intros x Hx; right; exact Hx).
  assert (Tpres : forall x, match x with TIdle => True | TTrav tr => trok D (EDeps p i w :: s_log s) tr | _ => False end ->
     tinv D (St cl (upd (s_thr s) t x) (s_dead s) (EDeps p i w :: s_log s))).
  { intros x Hx. destruct Ti as [S1 S2 U T]. split.
    - intros u q i0 w0. unfold word. cbn [s_thr s_cell]. destruct (N.eq_dec u t) as [->|Hn]; [rewrite upd_same; intros ->; contradiction|rewrite upd_other by exact Hn; intros X].
      assert (Hqp : q <> p) by (intros ->; apply Hn, Hu; rewrite X; reflexivity). destruct (Hc q) as (_&_&Hw0). rewrite (Hw0 Hqp). eapply S1; exact X.
    - intros u q i0 w0. unfold word. cbn [s_thr s_cell]. destruct (N.eq_dec u t) as [->|Hn]; [rewrite upd_same; intros ->; contradiction|rewrite upd_other by exact Hn; intros X].
      assert (Hqp : q <> p) by (intros ->; apply Hn, Hu; rewrite X; reflexivity). destruct (Hc q) as (_&Hd0&Hw0). rewrite (Hw0 Hqp), Hd0. eapply S2; exact X.
    - intros u u' q. cbn [s_thr]. destruct (N.eq_dec u t) as [->|Hn]; [rewrite upd_same; destruct x; cbn; try contradiction; discriminate|rewrite upd_other by exact Hn].
      destruct (N.eq_dec u' t) as [->|Hn']; [rewrite upd_same; destruct x; cbn; try contradiction; discriminate|rewrite upd_other by exact Hn'; apply U].
    - intros u tr. cbn [s_thr s_log]. destruct (N.eq_dec u t) as [->|Hn]; [rewrite upd_same; intros ->; exact Hx|rewrite upd_other by exact Hn].
      intros X. eapply trok_mono; [exact Hincl|]. eapply T; eauto. }
  assert (Lpres : forall x, let s1 := St cl (upd (s_thr s) t x) (s_dead s) (EDeps p i w :: s_log s) in
     (forall r, In r i -> need s1 r (h - 1)) -> (forall r, In r w -> need s1 r (h - 2)) -> low s1).
  { intros x s1 N1 N2. eapply (low_pres s s1 t x Li); [intros u; reflexivity| |auto| | |].
    - intros q i0 w0 [X|X]; [|left; exact X]. injection X as <- <- <-. right. unfold word, s1. cbn [s_cell]. destruct (Hc p) as (->&_). split; assumption.
    - intros q. unfold word, s1. cbn [s_cell]. destruct (Hc q) as (->&_). apply N.le_refl.
    - intros tr q k X. congruence.
    - intros q i0 w0 _ X. exfalso. unfold word, s1 in X. cbn [s_cell] in X. destruct (Hc q) as (Y&_). rewrite Y in X. exact (N.lt_irrefl _ X). }
  clear L2 L3 L4 L5 L6.
  destruct (1 <? h) eqn:G; injection E as <-.
  - assert (S0 : src0 D (EDeps p i w :: s_log s) p h) by (eapply src0_mono; [exact Hincl|]; apply (i_up _ _ _ Ci); fold h; lia).
    set (w' := if 2 <? h then w else []).
    destruct (start_trok (EDeps p i w :: s_log s) (h - 1) i w') as [Es Tk]; [| |lia|].
    { intros r Hr. eapply src0_inc; [exact S0|left; reflexivity|exact Hr|lia]. }
    { intros r Hr. unfold w' in Hr. destruct (2 <? h) eqn:G2; [|destruct Hr]. eapply src0_wit; [exact S0|left; reflexivity|exact Hr|lia]. }
    rewrite Es. split; [exact Ci'|]. split; [apply Tpres; exact Tk|]. apply Lpres.
    + intros r Hr _. right. exists t, (Tr (h - 1 - 1) i w' [] [] [] []). cbn [s_thr]. rewrite upd_same. split; [reflexivity|]. left. cbn. split; [lia|exact Hr].
    + intros r Hr _. destruct (2 <? h) eqn:G2; [|left; lia]. right. exists t, (Tr (h - 1 - 1) i w' [] [] [] []). cbn [s_thr]. rewrite upd_same. split; [reflexivity|].
      right; left. cbn [t_h t_wit]. split; [lia|exact Hr].
  - split; [exact Ci'|]. split; [apply Tpres; exact I|]. apply Lpres; intros r _ _; left; lia.
Qed.

Lemma commit_inv s p s' : inv D s -> step D (LCommit p) s = Some s' -> inv D s'.
Proof.
  intros (Ci&Ti&Li) E. cbn [step] in E. injection E as <-.
  destruct (lor_word (c_word (s_cell s p)) COMMITTED (i_w _ _ _ Ci p) eq_refl eq_refl) as (L1&L2&L3&L4&L5&L6).
  change (fS COMMITTED) with false in L4. change (fD COMMITTED) with false in L5. rewrite orb_false_r in L4, L5.
  assert (Hc : forall q, let cl := upd (s_cell s) p (Cell (N.lor (c_word (s_cell s p)) COMMITTED) (c_deps (s_cell s p))) in
     hgt (c_word (cl q)) = hgt (c_word (s_cell s q)) /\ fS (c_word (cl q)) = fS (c_word (s_cell s q)) /\
     fD (c_word (cl q)) = fD (c_word (s_cell s q)) /\ c_deps (cl q) = c_deps (s_cell s q)).
  { intros q. cbn zeta. destruct (N.eq_dec q p) as [->|Hn]; [rewrite !upd_same; cbn [c_word c_deps]; auto|rewrite !upd_other by exact Hn; auto]. }
  split; [apply (cinv_commit D); exact Ci|].
  destruct Ti as [S1 S2 U T]. split.
  - split.
    + intros u q i w. unfold word. cbn [add_ev set_cell s_thr s_cell]. destruct (Hc q) as (_&->&->&_). apply S1.
    + intros u q i w. unfold word. cbn [add_ev set_cell s_thr s_cell]. destruct (Hc q) as (_&->&->&->). apply S2.
    + exact U.
    + intros u tr X. eapply trok_mono; [|eapply T; exact X]. intros e He. right. exact He.
  - intros q i w [X|Hin]; [discriminate|]. destruct (Li q i w Hin) as [A B].
    assert (G : forall r k, need s r k -> need (add_ev (set_cell s p (Cell (N.lor (c_word (s_cell s p)) COMMITTED) (c_deps (s_cell s p))))
       (ECommit p (negb (N.land (c_word (s_cell s p)) NOT_FLAGS =? 0) && (N.land (c_word (s_cell s p)) COMMITTED =? 0)))) r k).
    { intros r k N Hd. destruct (N Hd) as [Y|Y]; [left; unfold word; cbn [add_ev set_cell s_cell]; destruct (Hc r) as (->&_); exact Y|right; exact Y]. }
    unfold word. cbn [add_ev set_cell s_cell]. destruct (Hc q) as (->&_). split; intros r Hr; apply G; auto.
Qed.

Theorem step_inv s l s' : inv D s -> step D l s = Some s' -> inv D s'.
Proof.
  intros Hi E. destruct l as [t p|t p i w|t|t|t x|p|p].
  - eapply certify_inv; eauto.
  - eapply setdeps_inv; eauto.
  - eapply write_inv; eauto.
  - eapply complete_inv; eauto.
  - cbn in E. destruct (s_thr s t) eqn:Et; try discriminate. eapply trav_inv; eauto.
  - eapply commit_inv; eauto.
  - cbn in E. injection E as <-. destruct Hi as (Ci&[S1 S2 U T]&Li). split; [exact Ci|]. split; [split; assumption|].
    intros q i w Hin. destruct (Li q i w Hin) as [A B].
    assert (G : forall r k, need s r k -> need (St (s_cell s) (s_thr s) (upd (s_dead s) p true) (s_log s)) r k).
    { intros r k N Hd. cbn [s_dead] in Hd. apply N. unfold upd in Hd. destruct (r =? p); [discriminate|exact Hd]. }
    split; intros r Hr; apply G; auto.
Qed.

Lemma inv0 : inv D state0.
Proof.
  split; [|split].
  - assert (H0 : hgt 0 = 0) by reflexivity.
    split; intros p; cbn [s_cell s_log state0 cell0 c_word c_deps]; rewrite ?H0.
    + reflexivity.
    + apply N.le_0_l.
    + split; [discriminate|intros []].
    + split; [discriminate|lia].
    + discriminate.
    + split; [discriminate|intros (i&w&[])].
    + intros i w [].
    + intros [].
    + intros X. destruct (N.lt_irrefl _ X).
    + split; [discriminate|intros (b&[])].
    + split; [apply Nat.le_0_l|reflexivity].
    + intros [].
  - split; cbn; intros; discriminate.
  - intros p i w [].
Qed.

Lemma reachable_inv s : reachable D s -> inv D s.
Proof. intros H. induction H; [apply inv0|eapply step_inv; eauto]. Qed.
End Thms.
