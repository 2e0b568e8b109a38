(** * Certificates: the invariant is preserved. *)
From Coq Require Import List NArith Bool Lia ZArith ZifyN ZifyNat ZifyBool.
From Verif Require Import CertModel CertSpec CertBits CertInv.
Import ListNotations.
Open Scope N_scope.

Section Step.
Variable D : N.
Hypothesis D1 : 1 <= D. Hypothesis D2 : D <= 255.

Lemma trok_mono log log' t : incl log log' -> trok D log t -> trok D log' t.
Proof.
  intros H (A1&A2&A3&A4&A5&A6). repeat split; intros; try (eapply src_mono; [exact H|]; auto).
  - apply (A3 _ _ H0).
  - apply (A3 _ _ H0).
Qed.

Lemma tinv_pres s s' tid x : tinv D s -> (forall u, s_thr s' u = upd (s_thr s) tid x u) -> incl (s_log s) (s_log s') ->
  (forall p, fS (word s' p) = fS (word s p) /\ fD (word s' p) = fD (word s p) /\ c_deps (s_cell s' p) = c_deps (s_cell s p)) ->
  match x with TIdle => True | TTrav tr => trok D (s_log s') tr | _ => False end -> tinv D s'.
Proof.
  intros [S1 S2 U T] Et Hl Hc Hx. split.
  - intros t p i w. rewrite !Et. destruct (Hc p) as (->&->&_). destruct (N.eq_dec t tid) as [->|Hn]; [rewrite upd_same; intros ->; contradiction|rewrite upd_other by exact Hn; apply S1].
  - intros t p i w. rewrite !Et. destruct (Hc p) as (->&->&->). destruct (N.eq_dec t tid) as [->|Hn]; [rewrite upd_same; intros ->; contradiction|rewrite upd_other by exact Hn; apply S2].
  - intros t t' p. rewrite !Et. destruct (N.eq_dec t tid) as [->|Hn]; [rewrite upd_same; destruct x; cbn; try contradiction; discriminate|rewrite upd_other by exact Hn].
    destruct (N.eq_dec t' tid) as [->|Hn']; [rewrite upd_same; destruct x; cbn; try contradiction; discriminate|rewrite upd_other by exact Hn'; apply U].
  - intros t tr. rewrite !Et. destruct (N.eq_dec t tid) as [->|Hn]; [rewrite upd_same; intros ->; exact Hx|rewrite upd_other by exact Hn].
    intros E. eapply trok_mono; [exact Hl|]. eapply T; eauto.
Qed.

Lemma low_pres s s' tid x : low s -> (forall u, s_thr s' u = upd (s_thr s) tid x u) ->
  (forall p i w, In (EDeps p i w) (s_log s') -> In (EDeps p i w) (s_log s) \/
     ((forall r, In r i -> need s' r (hgt (word s' p) - 1)) /\ (forall r, In r w -> need s' r (hgt (word s' p) - 2)))) ->
  (forall r, s_dead s' r = false -> s_dead s r = false) ->
  (forall p, hgt (word s p) <= hgt (word s' p)) ->
  (forall tr r k, s_thr s tid = TTrav tr -> 1 <= k -> s_dead s' r = false -> cov tr r k -> need s' r k) ->
  (forall p i w, In (EDeps p i w) (s_log s) -> hgt (word s p) < hgt (word s' p) ->
     (forall r, In r i -> need s' r (hgt (word s' p) - 1)) /\ (forall r, In r w -> need s' r (hgt (word s' p) - 2))) ->
  low s'.
Proof.
  clear D1 D2. intros L Et Hl Hd Hh Hc Hr p i w Hin. destruct (Hl _ _ _ Hin) as [Hin'|X]; [clear Hin; rename Hin' into Hin|exact X]. destruct (N.lt_ge_cases (hgt (word s p)) (hgt (word s' p))) as [C|C]; [apply (Hr p i w Hin C)|].
  assert (E : hgt (word s' p) = hgt (word s p)) by (specialize (Hh p); lia). rewrite E.
  assert (G : forall r k, need s r k -> need s' r k).
  { intros r k N Hdr. destruct (N (Hd _ Hdr)) as [A|(t&tr&A&B)]; [left; specialize (Hh r); lia|].
    destruct (N.eq_dec k 0) as [->|Hk]; [left; lia|].
    destruct (N.eq_dec t tid) as [->|Hn]; [apply (Hc tr); auto; lia|].
    right. exists t, tr. rewrite !Et, upd_other by exact Hn. auto. }
  destruct (L p i w Hin) as [A B]. split; intros; apply G; auto.
Qed.

Lemma upd_id {A} (f : N -> A) k x : upd f k (f k) x = f x.
Proof. unfold upd. destruct (x =? k) eqn:E; [apply N.eqb_eq in E; subst; reflexivity|reflexivity]. Qed.

(** certify_deeper(p, h) in a traversal followed by [x] of thread [tid]. *)
Lemma raise_step s tid t p h c' r x : inv D s -> s_thr s tid = TTrav t -> src D (s_log s) p h 0 ->
  certify_deeper (s_cell s p) h false = (c', r) ->
  let s' := set_thr (set_cell s p c') tid x in
  match x with TIdle => True | TTrav tr => trok D (s_log s) tr | _ => False end ->
  (forall k q, 1 <= k -> s_dead s q = false -> cov t q k -> need s' q k) ->
  (forall i w q, In (EDeps p i w) (s_log s) -> 1 < h -> r = RSome i (if 2 <? h then w else []) ->
     (In q i -> need s' q (h - 1)) /\ (In q w -> 2 < h -> need s' q (h - 2))) ->
  inv D s' /\ r <> RBad.
Proof.
  intros (Ci&Ti&Li) Ht Hs E s' Hx Hcov Hnew.
  assert (hD : h <= D) by (destruct Hs as (q&d&_&_&X1&X2); lia).
  destruct (cinv_raise D D1 D2 _ _ _ _ _ _ Ci Hs E) as [Ci' Hb].
  split; [|exact Hb]. assert (hh : h < 4096) by lia.
  assert (Hcell : forall q, hgt (word s q) <= hgt (word s' q) /\ fS (word s' q) = fS (word s q) /\ fD (word s' q) = fD (word s q) /\ c_deps (s_cell s' q) = c_deps (s_cell s q)).
  { intros q. unfold word, s'. cbn [set_thr set_cell s_cell]. destruct (N.eq_dec q p) as [->|Hn]; [rewrite !upd_same|rewrite !upd_other by exact Hn; repeat split; lia].
    destruct (certify_spec _ _ _ _ _ (i_w _ _ _ Ci p) hh E) as [(A1&->&->)|(A1&A2&A3&A4&A5&A6&A7&A8&A9)]; [repeat split; lia|]. repeat split; try assumption; lia. }
  split; [exact Ci'|]. split.
  - eapply (tinv_pres s s' tid x Ti); [intros ?; reflexivity|apply incl_refl| |exact Hx]. intros q. destruct (Hcell q) as (_&A&B&C). auto.
  - eapply (low_pres s s' tid x Li); [intros ?; reflexivity|auto|auto|intros q; apply Hcell| |].
    + intros tr q k E1. rewrite Ht in E1. injection E1 as <-. intros. apply Hcov; auto.
    + intros q i w Hin Hlt. unfold word, s' in Hlt. cbn [set_thr set_cell s_cell] in Hlt.
      destruct (N.eq_dec q p) as [->|Hn]; [|rewrite upd_other in Hlt by exact Hn; lia].
      rewrite upd_same in Hlt. destruct (raise_refs D _ _ _ _ _ _ _ _ Ci hh E Hin Hlt) as [Eh Hr].
      assert (Ew : hgt (word s' p) = h) by (unfold word, s'; cbn [set_thr set_cell s_cell]; rewrite upd_same; auto). rewrite Ew.
      assert (Z : forall q0, need s' q0 0) by (intros q0 _; left; lia).
      destruct Hr as [[G1 G2]|[G1 G2]].
      * split; intros q0 Hq; [apply (Hnew i w q0 Hin G1 G2); exact Hq|].
        destruct (N.le_gt_cases h 2) as [G3|G3]; [replace (h - 2) with 0 by lia; apply Z|apply (Hnew i w q0 Hin G1 G2); assumption].
      * replace (h - 1) with 0 by lia. replace (h - 2) with 0 by lia. split; intros; apply Z.
Qed.

(** A step of a thread that changes no cell. *)
Lemma local_step s tid t x : inv D s -> s_thr s tid = TTrav t ->
  let s' := set_thr s tid x in
  match x with TIdle => True | TTrav tr => trok D (s_log s) tr | _ => False end ->
  (forall k q, 1 <= k -> s_dead s q = false -> cov t q k -> need s' q k) -> inv D s'.
Proof.
  intros (Ci&Ti&Li) Ht s' Hx Hcov. split; [exact Ci|]. split.
  - eapply (tinv_pres s s' tid x Ti); [intros ?; reflexivity|apply incl_refl|auto|exact Hx].
  - eapply (low_pres s s' tid x Li); [intros ?; reflexivity|auto|auto|intros; apply N.le_refl| |].
    + intros tr q k E1. rewrite Ht in E1. injection E1 as <-. intros. apply Hcov; auto.
    + intros p i w _ X. unfold word, s' in X. cbn in X. lia.
Qed.

Lemma need_cov s tid tr r k : s_thr s tid = TTrav tr -> cov tr r k -> need s r k.
Proof. intros A B _. right. exists tid, tr. auto. Qed.

Ltac thr_eq := cbn [set_thr s_thr]; apply upd_same.

Lemma trav_inv s tid t x s' : inv D s -> s_thr s tid = TTrav t -> trav_step s tid x t = Some s' -> inv D s'.
Proof.
  intros Hi Ht E. assert (Tk := i_tr _ _ (proj1 (proj2 Hi)) _ _ Ht). destruct t as [h dir wit pend c i w].
  destruct Tk as (K1&K2&K3&K4&K5&K6). cbn [t_h t_dir t_wit t_pend t_c t_i t_w] in *.
  unfold trav_step in E. cbn [t_h t_dir t_wit t_pend t_c t_i t_w] in E.
  destruct pend as [|[k d] rest].
  2:{ (* extend_next *)
    injection E as <-.
    destruct (K3 k d (or_introl eq_refl)) as [Hk Sd].
    set (ins := fun l => if memb d l then l else if s_dead s d then l else d :: l).
    assert (I1 : forall l q, In q (ins l) -> In q l \/ q = d).
    { intros l q. unfold ins. destruct (memb d l); [auto|]. destruct (s_dead s d); [auto|]. intros [<-|X]; auto. }
    assert (I2 : forall l q, In q l -> In q (ins l)).
    { intros l q. unfold ins. destruct (memb d l); [auto|]. destruct (s_dead s d); [auto|]. right. assumption. }
    assert (I3 : forall l, s_dead s d = false -> In d (ins l)).
    { intros l X. unfold ins. destruct (memb d l) eqn:M; [apply memb_in; exact M|]. rewrite X. left. reflexivity. }
    eapply local_step; [exact Hi|exact Ht| |].
    - assert (K3' : forall j r, In (j, r) rest -> (j <= 2)%nat /\ src D (s_log s) r h (N.of_nat j)) by (intros; apply K3; right; assumption).
      destruct k as [|[|k]]; (split; [|split; [|split; [|split; [|split]]]]); cbn [t_h t_dir t_wit t_pend t_c t_i t_w]; auto;
        intros q Hq; apply I1 in Hq; destruct Hq as [Hq|Hq]; auto; subst q; try exact Sd.
      replace (N.of_nat (S (S k))) with 2 in Sd by lia. exact Sd.
    - intros kk q Hkk Hdq Hc. eapply need_cov; [thr_eq|]. unfold cov in Hc |- *. cbn [t_h t_dir t_wit t_pend t_c t_i t_w] in Hc.
      destruct Hc as [Hc|[Hc|[(j&[Hc|Hc]&Hj)|[Hc|[Hc|Hc]]]]].
      + left. destruct k as [|[|k]]; exact Hc.
      + right; left. destruct k as [|[|k]]; exact Hc.
      + injection Hc as -> ->. right; right; right. destruct j as [|[|j]]; cbn [t_h t_dir t_wit t_pend t_c t_i t_w].
        * left. split; [lia|]. apply I3, Hdq.
        * right; left. split; [lia|]. apply I3, Hdq.
        * right; right. split; [lia|]. apply I3, Hdq.
      + right; right; left. exists j. destruct k as [|[|k]]; cbn [t_h t_dir t_wit t_pend t_c t_i t_w]; auto.
      + right; right; right; left. destruct k as [|[|k]]; cbn [t_h t_dir t_wit t_pend t_c t_i t_w]; split; try apply Hc; try (apply I2, Hc).
      + right; right; right; right; left. destruct k as [|[|k]]; cbn [t_h t_dir t_wit t_pend t_c t_i t_w]; split; try apply Hc; try (apply I2, Hc).
      + right; right; right; right; right. destruct k as [|[|k]]; cbn [t_h t_dir t_wit t_pend t_c t_i t_w]; split; try apply Hc; try (apply I2, Hc). }
  destruct dir as [|d rest].
  2:{ (* direct includes *)
    assert (Sd : src D (s_log s) d (h + 1) 0) by (apply K1; left; reflexivity).
    assert (K1' : forall r, In r rest -> src D (s_log s) r (h + 1) 0) by (intros; apply K1; right; assumption).
    assert (Cov : forall p kk q, cov (Tr h (d :: rest) wit [] c i w) q kk -> (kk <= h + 1 /\ q = d) \/ cov (Tr h rest wit p c i w) q kk).
    { intros p kk q Hc. unfold cov in *. cbn [t_h t_dir t_wit t_pend t_c t_i t_w] in *.
      destruct Hc as [(A&[B|B])|[Hc|[(j&[]&_)|[Hc|[Hc|Hc]]]]]; [left; auto|right; auto 7..]. }
    destruct (s_dead s d) eqn:Hd.
    { injection E as <-. eapply local_step; [exact Hi|exact Ht| |].
      - repeat split; cbn [t_h t_dir t_wit t_pend t_c t_i t_w]; auto; try contradiction.
      - intros kk q Hkk Hdq Hc. destruct (Cov [] _ _ Hc) as [[_ ->]|X]; [congruence|]. eapply need_cov; [thr_eq|exact X]. }
    destruct (certify_deeper (s_cell s d) (h + 1) false) as [c' r] eqn:Ec.
    assert (hD : h + 1 <= D) by (destruct Sd as (q&dd&_&_&X1&X2); lia).
    assert (Hh : h + 1 <= hgt (c_word c')).
    { assert (hh : h + 1 < 4096) by lia.
      destruct (certify_spec _ _ _ _ _ (i_w _ _ _ (proj1 Hi) d) hh Ec) as [(A1&->&_)|(A1&A2&_)]; lia. }
    assert (Hnd : forall x kk, kk <= h + 1 -> need (set_thr (set_cell s d c') tid x) d kk).
    { intros x' kk Hkk _. left. unfold word. cbn [set_thr set_cell s_cell]. rewrite upd_same. lia. }
    destruct r as [|i' w'|].
    - injection E as <-.
      refine (proj1 (raise_step s tid _ d (h + 1) c' RNone _ Hi Ht Sd Ec _ _ _)).
      + repeat split; cbn [t_h t_dir t_wit t_pend t_c t_i t_w]; auto; try contradiction.
      + intros kk q Hkk Hdq Hc. destruct (Cov [] _ _ Hc) as [[X ->]|X]; [apply Hnd, X|]. eapply need_cov; [thr_eq|exact X].
      + intros; discriminate.
    - injection E as <-.
      (* refs of d *)
      assert (Hdep : exists w0, In (EDeps d i' w0) (s_log s) /\ (w' = w0 \/ w' = []) /\ 1 < h + 1 /\ (In 0 [0] -> w' = if 2 <? h + 1 then w0 else [])).
      { assert (hh : h + 1 < 4096) by lia. destruct (certify_spec _ _ _ _ _ (i_w _ _ _ (proj1 Hi) d) hh Ec) as [(_&_&X)|(_&_&_&_&_&_&_&_&X)]; [discriminate|].
        destruct (fS (c_word (s_cell s d)) && fD (c_word (s_cell s d)) && (1 <? h + 1)) eqn:G; [|discriminate].
        rewrite !andb_true_iff in G. destruct G as [[_ G] G1]. apply (i_dep _ _ _ (proj1 Hi)) in G. destruct G as (i0&w0&G).
        rewrite (i_dep2 _ _ _ (proj1 Hi) _ _ _ G) in X. injection X as -> ->. exists w0. split; [exact G|]. split; [destruct (2 <? h + 1); auto|]. split; [lia|reflexivity]. }
      destruct Hdep as (w0&He&Hw&Hgt1&Hww). specialize (Hww (or_introl eq_refl)).
      refine (proj1 (raise_step s tid _ d (h + 1) c' (RSome i' w') _ Hi Ht Sd Ec _ _ _)).
      + repeat split; cbn [t_h t_dir t_wit t_pend t_c t_i t_w]; auto.
        * apply enqueue_in in H. destruct H as [[-> _]|[-> _]]; lia.
        * apply enqueue_in in H. destruct H as [[-> H]|[-> H]].
          -- eapply src0_inc; [apply src_src0; exact Sd|exact He|exact H|lia].
          -- destruct Hw as [->| ->]; [|destruct H]. destruct (src_src0 _ _ _ _ Sd) as (q&dd&A&B&C). exists q, (dd + 2). split; [exact A|].
             split; [eapply back_wit; eauto; exact I|lia].
      + intros kk q Hkk Hdq Hc. destruct (Cov (enqueue 0 i' w') _ _ Hc) as [[X ->]|X]; [apply Hnd, X|]. eapply need_cov; [thr_eq|exact X].
      + intros i1 w1 q Hin Hgt Er. injection Er as -> Ew. split.
        * intros Hq. eapply need_cov; [thr_eq|]. right; right; left. exists O. cbn [t_h t_pend]. split; [apply in_enqueue_i; exact Hq|lia].
        * intros Hq H2. eapply need_cov; [thr_eq|]. right; right; left. exists 1%nat. cbn [t_h t_pend]. split; [|lia].
          apply (in_enqueue_w 0). rewrite Ew. replace (2 <? h + 1) with true by lia. exact Hq.
    - exfalso. destruct (cinv_raise D D1 D2 _ _ _ _ _ _ (proj1 Hi) Sd Ec) as [_ X]. congruence. }
  destruct wit as [|a wit].
  2:{ injection E as <-. eapply local_step; [exact Hi|exact Ht| |].
    - repeat split; cbn [t_h t_dir t_wit t_pend t_c t_i t_w]; auto; try contradiction.
      + change ((0%nat, a) :: map (pair 0%nat) wit) with (map (pair 0%nat) (a :: wit)) in H. apply in_map_iff in H. destruct H as (y&Ey&Hy). injection Ey as <- <-. lia.
      + change ((0%nat, a) :: map (pair 0%nat) wit) with (map (pair 0%nat) (a :: wit)) in H. apply in_map_iff in H. destruct H as (y&Ey&Hy). injection Ey as <- <-. apply K2, Hy.
    - intros kk q Hkk Hdq Hc. eapply need_cov; [thr_eq|]. unfold cov in Hc |- *. cbn [t_h t_dir t_wit t_pend t_c t_i t_w] in Hc |- *.
      destruct Hc as [(_&[])|[Hc|[(j&[]&_)|[Hc|[Hc|Hc]]]]]; [|auto 7..].
      right; right; left. exists O. split; [|lia].
      change ((0%nat, a) :: map (pair 0%nat) wit) with (map (pair 0%nat) (a :: wit)). apply in_map. apply Hc. }
  destruct (h =? 0) eqn:H0.
  { injection E as <-. eapply local_step; [exact Hi|exact Ht|exact I|]. apply N.eqb_eq in H0. subst h.
    intros kk q Hkk Hdq Hc. unfold cov in Hc. cbn [t_h t_dir t_wit t_pend t_c t_i t_w] in Hc. exfalso.
    destruct Hc as [(_&[])|[(_&[])|[(j&[]&_)|[Hc|[Hc|Hc]]]]]; lia. }
  assert (H0' : 1 <= h) by lia.
  destruct c as [|a c].
  { destruct i as [|b i], w as [|e w].
    { injection E as <-. eapply local_step; [exact Hi|exact Ht|exact I|].
      intros kk q Hkk Hdq Hc. unfold cov in Hc. cbn [t_h t_dir t_wit t_pend t_c t_i t_w In] in Hc. exfalso.
      destruct Hc as [(_&[])|[(_&[])|[(j&[]&_)|[(_&[])|[(_&[])|(_&[])]]]]]. }
    all: destruct (h =? 1) eqn:H1; [injection E as <-; apply N.eqb_eq in H1; subst h; eapply local_step; [exact Hi|exact Ht|exact I|];
         intros kk q Hkk Hdq Hc; unfold cov in Hc; cbn [t_h t_dir t_wit t_pend t_c t_i t_w] in Hc; exfalso;
         destruct Hc as [(_&[])|[(_&[])|[(j&[]&_)|[(_&[])|[Hc|Hc]]]]]; lia|].
    all: injection E as <-; eapply local_step; [exact Hi|exact Ht| |].
    all: try (intros kk q Hkk Hdq Hc; eapply need_cov; [thr_eq|]; unfold cov in Hc |- *; cbn [t_h t_dir t_wit t_pend t_c t_i t_w] in Hc |- *;
         destruct Hc as [(_&[])|[(_&[])|[(j&[]&_)|[(_&[])|[Hc|Hc]]]]];
         [right; right; right; left; split; [lia|apply Hc]|right; right; right; right; left; split; [lia|apply Hc]]).
    all: assert (Sh : forall r b, src D (s_log s) r h (b + 1) -> src D (s_log s) r (h - 1) b)
           by (intros r b0 (q&dd&A&B&C&F); exists q, dd; split; [exact A|]; split; [exact B|]; lia).
    all: repeat split; cbn [t_h t_dir t_wit t_pend t_c t_i t_w]; auto; try contradiction; intros r Hr; apply Sh; auto. }
  (* drain *)
  destruct (memb x (a :: c)) eqn:M; cbn [negb] in E; [|destruct i, w; discriminate].
  apply memb_in in M.
  assert (Sx : src D (s_log s) x h 0) by (apply K4, M).
  destruct (certify_deeper (s_cell s x) h false) as [c' r] eqn:Ec.
  assert (hD : h <= D) by (destruct Sx as (q&dd&_&_&X1&X2); lia).
  assert (hh : h < 4096) by lia.
  assert (Hh : h <= hgt (c_word c')).
  { destruct (certify_spec _ _ _ _ _ (i_w _ _ _ (proj1 Hi) x) hh Ec) as [(A1&->&_)|(A1&A2&_)]; lia. }
  assert (Hnd : forall y kk, kk <= h -> need (set_thr (set_cell s x c') tid y) x kk).
  { intros y kk Hkk _. left. unfold word. cbn [set_thr set_cell s_cell]. rewrite upd_same. lia. }
  assert (Cov : forall p kk q, cov (Tr h [] [] [] (a :: c) i w) q kk -> (kk <= h /\ q = x) \/ cov (Tr h [] [] p (remove1 x (a :: c)) i w) q kk).
  { intros p kk q Hc. unfold cov in *. cbn [t_h t_dir t_wit t_pend t_c t_i t_w] in *.
    destruct Hc as [(_&[])|[(_&[])|[(j&[]&_)|[Hc|[Hc|Hc]]]]]; [|right; auto 8..].
    destruct (N.eq_dec q x) as [->|Hn]; [left; split; [apply Hc|reflexivity]|]. right. right; right; right; left. split; [apply Hc|]. apply remove1_keep; [apply Hc|exact Hn]. }
  assert (E' : match r with
               | RNone => Some (set_thr (set_cell s x c') tid (TTrav (Tr h [] [] [] (remove1 x (a :: c)) i w)))
               | RSome i' w' => Some (set_thr (set_cell s x c') tid (TTrav (Tr h [] [] (enqueue 1 i' w') (remove1 x (a :: c)) i w)))
               | RBad => Some (add_ev (set_thr (set_cell s x c') tid TIdle) (EBad x))
               end = Some s') by (destruct i, w; exact E). clear E.
  destruct r as [|i' w'|].
  - injection E' as <-.
    refine (proj1 (raise_step s tid _ x h c' RNone _ Hi Ht Sx Ec _ _ _)).
    + repeat split; cbn [t_h t_dir t_wit t_pend t_c t_i t_w]; auto; try contradiction. intros r Hr. apply K4. eapply remove1_in; exact Hr.
    + intros kk q Hkk Hdq Hc. destruct (Cov [] _ _ Hc) as [[X ->]|X]; [apply Hnd, X|]. eapply need_cov; [thr_eq|exact X].
    + intros; discriminate.
  - injection E' as <-.
    assert (Hdep : exists w0, In (EDeps x i' w0) (s_log s) /\ (w' = w0 \/ w' = []) /\ 1 < h /\ (w' <> [] -> 2 < h)).
    { destruct (certify_spec _ _ _ _ _ (i_w _ _ _ (proj1 Hi) x) hh Ec) as [(_&_&X)|(_&_&_&_&_&_&_&_&X)]; [discriminate|].
      destruct (fS (c_word (s_cell s x)) && fD (c_word (s_cell s x)) && (1 <? h)) eqn:G; [|discriminate].
      rewrite !andb_true_iff in G. destruct G as [[_ G] G1]. apply (i_dep _ _ _ (proj1 Hi)) in G. destruct G as (i0&w0&G).
      rewrite (i_dep2 _ _ _ (proj1 Hi) _ _ _ G) in X. injection X as -> ->. exists w0. split; [exact G|].
      destruct (2 <? h) eqn:G2; (split; [auto|]); (split; [lia|]); [lia|congruence]. }
    destruct Hdep as (w0&He&Hw&Hgt1&Hgt2).
    refine (proj1 (raise_step s tid _ x h c' (RSome i' w') _ Hi Ht Sx Ec _ _ _)).
    + split; [|split; [|split; [|split; [|split]]]]; cbn [t_h t_dir t_wit t_pend t_c t_i t_w]; try contradiction.
      * intros j q H. apply enqueue_in in H. destruct (src_src0 _ _ _ _ Sx) as (q0&dd&A&B&C). destruct H as [[-> H]|[-> H]]; (split; [lia|]).
        -- exists q0, (dd + 1). split; [exact A|]. split; [eapply back_inc; eauto; exact I|lia].
        -- destruct Hw as [->| ->]; [|destruct H]. exists q0, (dd + 2). split; [exact A|]. split; [eapply back_wit; eauto; exact I|lia].
      * intros r Hr. apply K4. eapply remove1_in; exact Hr.
      * exact K5.
      * exact K6.
    + intros kk q Hkk Hdq Hc. destruct (Cov (enqueue 1 i' w') _ _ Hc) as [[X ->]|X]; [apply Hnd, X|]. eapply need_cov; [thr_eq|exact X].
    + intros i1 w1 q Hin Hgt Er. injection Er as -> Ew. split.
      * intros Hq. eapply need_cov; [thr_eq|]. right; right; left. exists 1%nat. cbn [t_h t_pend]. split; [apply (in_enqueue_i 1); exact Hq|lia].
      * intros Hq H2. eapply need_cov; [thr_eq|]. right; right; left. exists 2%nat. cbn [t_h t_pend]. split; [|lia].
        apply (in_enqueue_w 1). rewrite Ew. replace (2 <? h) with true by lia. exact Hq.
  - exfalso. destruct (cinv_raise D D1 D2 _ _ _ _ _ _ (proj1 Hi) Sx Ec) as [_ X]. congruence.
Qed.
End Step.
