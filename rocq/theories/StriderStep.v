(** * Block strider: the invariant is kept by every step. *)
From Coq Require Import List NArith Lia Bool.
From Verif Require Import StriderModel StriderSpec StriderInv.
Import ListNotations.
Open Scope N_scope.

Lemma com_prep c x w b : is_committed c (WPrep x :: w) b = is_committed c w b.
Proof. reflexivity. Qed.
Lemma com_hand c x w b : is_committed c (WHand x :: w) b = is_committed c w b.
Proof. reflexivity. Qed.
Lemma com_shard c x w b : b <> x -> is_committed c (WShard x :: w) b = is_committed c w b.
Proof.
  intros Hn. unfold is_committed. cbn [last_mc existsb is_wshard].
  destruct (is_mc b); [reflexivity|].
  destruct (blk_eqb b x) eqn:E; [|reflexivity].
  apply blk_eqb_spec in E. contradiction.
Qed.

(** The facts about a block that is about to be prepared or handled. *)
Lemma below_prep c w x : log_ok c w -> below c w x ->
  forall p, lin c x p -> fresh c p -> In (WPrep p) w.
Proof.
  intros Hw Hb p L F. apply (hand_prep c w p Hw). apply (Hb p L). apply needs_top, F.
Qed.

Lemma below_hand c w x : below c w x -> forall p, lin c x p -> fresh c p -> In (WHand p) w.
Proof. intros Hb p L F. apply (Hb p L). apply needs_top, F. Qed.

Lemma master_prep c w m : wf_cfg c -> log_ok c w -> next_ok c (last_mc c w) m = true ->
  forall p, lin c m p -> fresh c p -> In (WPrep p) w.
Proof.
  intros W Hw Hn p L F. rewrite (next_lin _ _ _ _ Hn L) in *.
  apply (hand_prep c w _ Hw). apply last_mc_hand; auto.
Qed.

Lemma master_hand c w m : wf_cfg c -> log_ok c w -> next_ok c (last_mc c w) m = true ->
  forall p, lin c m p -> fresh c p -> In (WHand p) w.
Proof.
  intros W Hw Hn p L F. rewrite (next_lin _ _ _ _ Hn L) in *. apply last_mc_hand; auto.
Qed.

Lemma tops_mc c m t : wf_cfg c -> In t (c_tops c m) -> is_mc t = false.
Proof. intros (_&_&W&_). apply W. Qed.

Lemma tops_nodup c m : wf_cfg c -> NoDup (map b_shard (c_tops c m)).
Proof. intros (_&_&_&W&_). apply W. Qed.

Lemma find_shard ts t b : NoDup (map b_shard ts) -> In t ts -> b_shard b = b_shard t ->
  find (fun x => b_shard x =? b_shard b) (rev ts) = Some t.
Proof.
  intros Hn Hi Hs.
  assert (Hn' : NoDup (map b_shard (rev ts))).
  { rewrite map_rev. apply NoDup_rev. exact Hn. }
  apply in_rev in Hi. revert Hn' Hi. generalize (rev ts) as l.
  induction l as [|y l IH]; intros Hn' Hi; [destruct Hi|].
  cbn. cbn in Hn'. inversion Hn' as [|? ? Hni Hnd]; subst.
  destruct Hi as [->|Hi].
  - rewrite Hs, N.eqb_refl. reflexivity.
  - destruct (b_shard y =? b_shard b) eqn:E; [|apply IH; auto].
    exfalso. apply N.eqb_eq in E. apply Hni. rewrite E, Hs. apply in_map. exact Hi.
Qed.

Lemma is_top_spec c m t b : wf_cfg c -> In t (c_tops c m) -> needs c t b ->
  is_top (c_tops c m) b = true <-> In b (c_tops c m).
Proof.
  intros W Ht Hn. unfold is_top.
  rewrite (find_shard _ t b (tops_nodup c m W) Ht (needs_shard _ _ _ Hn)). split.
  - intros E. apply N.leb_le in E. destruct (needs_seq _ _ _ W Hn) as [->|Q]; [exact Ht|lia].
  - intros Hb. assert (E : b = t).
    { assert (F := find_shard _ b b (tops_nodup c m W) Hb eq_refl).
      rewrite (find_shard _ t b (tops_nodup c m W) Ht (needs_shard _ _ _ Hn)) in F. congruence. }
    subst. apply N.leb_le. lia.
Qed.

Lemma elem_mc c m t b : wf_cfg c -> In t (c_tops c m) -> needs c t b -> is_mc b = false.
Proof.
  intros W Ht Hn. assert (H := tops_mc c m t W Ht). unfold is_mc in *.
  rewrite (needs_shard _ _ _ Hn). exact H.
Qed.

(** [EPrep0] of a line element *)
Lemma prep0_ok c tr w m t b :
  wf_cfg c -> w = log_of tr -> next_ok c (last_mc c w) m = true ->
  In t (c_tops c m) -> elem_ok c w t b ->
  (forall p, lin c b p -> fresh c p -> In (WPrep p) w \/ In (EPrep1 p false) (since tr)) ->
  ev_ok c (EPrep0 b m (is_top (c_tops c m) b)) tr.
Proof.
  intros W -> Hm Ht [Hn Hc] Hp. cbn. split; [exact Hm|]. split; [exact Hc|]. split; [|exact Hp].
  intros _. split; [exact (is_top_spec c m t b W Ht Hn)|]. exists t. auto.
Qed.

(** Taking the head of a line off *)
Lemma head_next c w t x l : stack c t (x :: l) -> below c w x -> In (WHand x) w -> head_ok c w t l.
Proof.
  intros Hs Hb Hh. assert (D := done_of_below _ _ _ Hb Hh). destruct l as [|y l]; cbn.
  - cbn in Hs. subst. exact D.
  - cbn in Hs. destruct Hs as [L _]. intros p Lp. rewrite <- (lin_fun _ _ _ _ L Lp). exact D.
Qed.

Lemma elem_after_commit c w t x l : wf_cfg c -> stack c t (x :: l) ->
  Forall (elem_ok c w t) l -> Forall (elem_ok c (WShard x :: w) t) l.
Proof.
  intros W Hs He. assert (Q := stack_seq c t _ W Hs x l eq_refl).
  rewrite Forall_forall in *. intros y Hy. destruct (He y Hy) as [N C]. split; [exact N|].
  rewrite com_shard; [exact C|]. intros ->. specialize (Q _ Hy). cbn in Q. lia.
Qed.

Lemma new_dl_inv c w t : dl_inv c w t (MkDl t [] 0 false).
Proof. constructor; cbn; auto. discriminate. Qed.

Lemma new_line_inv c w sn t d : dl_inv c w t d -> d_done d = true -> line_inv c w sn t (new_line (d_acc d)).
Proof.
  intros [] D. constructor; cbn; auto; try discriminate.
Qed.

Lemma f2_map {A B} (R : A -> B -> Prop) (f : A -> B) l : (forall a, R a (f a)) -> Forall2 R l (map f l).
Proof. intros H. induction l; cbn; constructor; auto. Qed.

(** ** Download *)
Lemma dl_iter_inv c w m t d ok f d' :
  wf_cfg c -> log_ok c w -> In t (c_tops c m) -> dl_inv c w t d -> d_done d = false ->
  dl_iter c w d ok = DStep f d' ->
  dl_inv c w t d' /\
  (forall b, f = Some b -> is_committed c w b = false /\ 0 < b_seq b /\ needs c t b).
Proof.
  intros W Hw Ht [Hst Hel Hsh Hcur _] Hd E. specialize (Hcur Hd).
  unfold dl_iter in E.
  destruct ((0 <? b_seq (d_cur d)) && negb (is_committed c w (d_cur d))) eqn:G.
  - apply andb_true_iff in G. destruct G as [G1 G2]. apply N.ltb_lt in G1. apply negb_true_iff in G2.
    assert (Fr : fresh c (d_cur d)).
    { split; [exact G1|]. destruct (c_com0 c (d_cur d)) eqn:F; [|reflexivity].
      unfold is_committed in G2. assert (M : is_mc (d_cur d) = false).
      { unfold is_mc. rewrite Hsh. exact (tops_mc c m t W Ht). }
      rewrite M, F in G2. discriminate. }
    assert (Nd : needs c t (d_cur d)).
    { destruct (d_acc d) as [|x acc] eqn:Ea.
      - rewrite Hcur in *. apply needs_top, Fr.
      - rewrite Forall_forall in Hel. destruct (Hel x (or_introl eq_refl)) as [Nx _].
        eapply needs_prev; eauto. }
    assert (St : stack c t (d_cur d :: d_acc d)).
    { destruct (d_acc d) as [|x acc] eqn:Ea; cbn; auto. }
    assert (El : Forall (elem_ok c w t) (d_cur d :: d_acc d)).
    { constructor; [split; assumption|exact Hel]. }
    destruct ok; [|discriminate].
    destruct (bi_split (c_info c (d_cur d)) || bi_merge (c_info c (d_cur d))) eqn:Sp.
    + injection E as <- <-. split.
      * constructor; cbn [d_acc d_cur d_done]; auto; [discriminate|].
        intros _. intros p (A&B&_). rewrite A, B in Sp. discriminate.
      * intros b Eb. injection Eb as <-. auto.
    + destruct (bi_prev (c_info c (d_cur d))) as [q h|] eqn:Ep; [|discriminate].
      destruct (max_depth <=? d_depth d + 1); [discriminate|].
      injection E as <- <-. split.
      * constructor; cbn [d_acc d_cur d_done]; auto; try discriminate.
        intros _. apply orb_false_iff in Sp. destruct Sp as [S1 S2].
        split; [exact S1|]. split; [exact S2|]. split; [reflexivity|exact Ep].
      * intros b Eb. injection Eb as <-. auto.
  - injection E as <- <-. split; [|discriminate].
    assert (Dn : all_handled c w (d_cur d)).
    { apply andb_false_iff in G. destruct G as [G|G].
      - apply N.ltb_ge in G. apply not_fresh_done. intros [F _]. lia.
      - apply negb_false_iff in G. eapply committed_done; eauto.
        unfold is_mc. rewrite Hsh. exact (tops_mc c m t W Ht). }
    constructor; cbn [d_acc d_cur d_done]; auto.
    intros _. destruct (d_acc d) as [|x acc]; cbn.
    + rewrite Hcur in Dn. exact Dn.
    + intros p L. rewrite (lin_fun _ _ _ _ L Hcur). exact Dn.
Qed.

Arguments phase_inv : simpl never.

(** ** Writes in the background of a set of lines *)
Lemma lines_mono c w w' sn sn' ts (ls : list line) : incl w w' -> incl sn sn' ->
  (forall b, is_committed c w' b = is_committed c w b) ->
  Forall2 (line_inv c w sn) ts ls -> Forall2 (line_inv c w' sn') ts ls.
Proof.
  intros Hi Hs Hc. apply f2_mono. intros t l. apply line_mono; auto.
Qed.

Lemma dls_mono c w w' ts (ls : list dl) : incl w w' ->
  (forall b, is_committed c w' b = is_committed c w b) ->
  Forall2 (dl_inv c w) ts ls -> Forall2 (dl_inv c w') ts ls.
Proof. intros Hi Hc. apply f2_mono. intros t l. apply dl_mono; auto. Qed.

Lemma tops_handled_mono c w w' m : incl w w' ->
  (forall t, In t (c_tops c m) -> all_handled c w t) ->
  forall t, In t (c_tops c m) -> all_handled c w' t.
Proof. intros Hi H t Ht. eapply all_handled_mono; [exact Hi|auto]. Qed.

(** ** One step *)
Ltac inj H := injection H as <-.

Lemma inv0 c : inv c (sst0 c).
Proof. constructor; cbn; auto. unfold phase_inv; cbn; auto. Qed.

Lemma mp_ok_keep c s m w : incl (s_wal s) w ->
  cur_ok c s m -> last_mc c w = last_mc c (s_wal s) ->
  next_ok c (last_mc c w) m = true /\ pf_ok c m (s_pf s) /\ (s_mp s = POk -> In (WPrep m) w).
Proof. intros Hi (A&B&C) E. rewrite E. repeat split; auto. Qed.

Lemma incl_cons1 {A} (x : A) l : incl l (x :: l).
Proof. apply incl_tl, incl_refl. Qed.

Section Step.
Variable c : scfg.
Hypothesis W : wf_cfg c.

Lemma step_next s ok s' : inv c s -> sstep c s (LNext ok) = Some s' -> inv c s'.
Proof.
  intros [Iw Il It Ip] E. cbn in E. unfold phase_inv in Ip.
  destruct (s_ph s) as [p| | | | | |] eqn:Ph; try discriminate. destruct Ip as [Ep Pf].
  destruct (s_pf s) as [q|q m| |] eqn:Pq; try discriminate.
  - destruct ok; inj E.
    + destruct Pf as [-> Nx]. constructor; cbn; auto.
      * split; [|exact It]. rewrite <- Iw. rewrite Ep in Nx. split; [exact Nx|].
        split; [exact (next_not_committed _ _ _ Nx)|]. split; [tauto|].
        intros r L F. left. exact (master_prep c _ m W Il Nx r L F).
      * unfold phase_inv; cbn. split.
        -- split; [cbn; congruence|]. split; [cbn; reflexivity|]. discriminate.
        -- apply f2_map. intros t. apply new_dl_inv.
    + constructor; cbn; auto; try exact Logic.I.
  - inj E. constructor; cbn; auto; try exact Logic.I.
  - inj E. constructor; cbn; auto; try exact Logic.I.
Qed.

Lemma step_down s i ok s' : inv c s -> sstep c s (LDown i ok) = Some s' -> inv c s'.
Proof.
  intros [Iw Il It Ip] E. cbn in E. unfold phase_inv in Ip.
  destruct (s_ph s) as [|m ds| | | | |] eqn:Ph; try discriminate. destruct Ip as [Cu Hf].
  destruct (nth_error ds i) as [d|] eqn:En; [|discriminate].
  destruct (d_done d) eqn:Ed; [discriminate|].
  destruct (f2_upd _ (dl_inv c (s_wal s)) _ _ _ _ Hf En (tops_nodup c m W)) as (t&Ht&Hd&Hup).
  destruct (dl_iter c (s_wal s) d ok) as [|f d'] eqn:Ei; inj E.
  - (* the failing iteration still asked for an uncommitted block *)
    unfold dl_iter in Ei.
    destruct ((0 <? b_seq (d_cur d)) && negb (is_committed c (s_wal s) (d_cur d))) eqn:G; [|discriminate].
    apply andb_true_iff in G. destruct G as [G1 G2]. apply N.ltb_lt in G1. apply negb_true_iff in G2.
    assert (Nd : needs c t (d_cur d)).
    { destruct Hd as [Hst Hel Hsh Hcur _]. specialize (Hcur Ed).
      assert (Fr : fresh c (d_cur d)).
      { split; [exact G1|]. destruct (c_com0 c (d_cur d)) eqn:F; [|reflexivity].
        unfold is_committed in G2. assert (M : is_mc (d_cur d) = false).
        { unfold is_mc. rewrite Hsh. exact (tops_mc c m t W Ht). }
        rewrite M, F in G2. discriminate. }
      destruct (d_acc d) as [|x acc] eqn:Ea.
      - rewrite Hcur in *. apply needs_top, Fr.
      - rewrite Forall_forall in Hel. destruct (Hel x (or_introl eq_refl)) as [Nx _].
        eapply needs_prev; eauto. }
    constructor; cbn; auto; try exact Logic.I. split; [|exact It]. rewrite <- Iw.
    split; [exact G2|]. split; [exact G1|]. split; [apply Cu|]. exists t. auto.
  - destruct (dl_iter_inv c _ m t d ok f d' W Il Ht Hd Ed Ei) as [Hd' Hfe].
    assert (F2 : Forall2 (dl_inv c (s_wal s)) (c_tops c m) (set_nth i d' ds)) by (apply Hup; auto).
    destruct f as [b|].
    + constructor; cbn; auto.
      * split; [|exact It]. rewrite <- Iw. destruct (Hfe b eq_refl) as (A&B&D).
        split; [exact A|]. split; [exact B|]. split; [apply Cu|]. exists t. auto.
      * unfold phase_inv; cbn. split; [exact Cu|exact F2].
    + constructor; cbn; auto. unfold phase_inv; cbn. split; [exact Cu|exact F2].
Qed.

Lemma lines_of_dls w sn ts ds : Forall2 (dl_inv c w) ts ds ->
  (forall x, In x ds -> d_done x = true) ->
  Forall2 (line_inv c w sn) ts (map (fun d => new_line (d_acc d)) ds).
Proof.
  induction 1 as [|t d ts ds' Hd Hf IH]; intros Ad; cbn; constructor.
  - apply new_line_inv; [exact Hd|]. apply Ad. left. reflexivity.
  - apply IH. intros x Hx. apply Ad. right. exact Hx.
Qed.

Lemma lines_done w sn ts ls : Forall2 (line_inv c w sn) ts ls ->
  (forall x, In x ls -> line_done x = true) ->
  forall t, In t ts -> all_handled c w t.
Proof.
  induction 1 as [|t l ts ls' Hl Hf IH]; intros Ad t' Ht'; [destruct Ht'|].
  destruct Ht' as [->|Ht'].
  - specialize (Ad l (or_introl eq_refl)). unfold line_done in Ad. apply andb_true_iff in Ad.
    destruct Ad as [St Ad]. destruct Hl as [T1 T2 T3 T4 T5 T6 T7].
    destruct (l_next l) eqn:Ex; [discriminate|]. destruct (l_cur l) eqn:Ec; [discriminate|].
    unfold full in T3. rewrite Ex, Ec, (T5 St eq_refl) in T3. exact T3.
  - apply IH; auto. intros x Hx. apply Ad. right. exact Hx.
Qed.

Lemma step_downall s s' : inv c s -> sstep c s LDownAll = Some s' -> inv c s'.
Proof.
  intros [Iw Il It Ip] E. cbn in E. unfold phase_inv in Ip.
  destruct (s_ph s) as [|m ds| | | | |] eqn:Ph; try discriminate. destruct Ip as [Cu Hf].
  destruct (all_done_d ds) eqn:Ad; [|discriminate]. inj E.
  constructor; cbn; auto. unfold phase_inv; cbn. split; [exact Cu|].
  unfold all_done_d in Ad. rewrite forallb_forall in Ad. eapply lines_of_dls; eauto.
Qed.

(** Steps that only touch line [i]: what has to be shown about the new line. *)
Lemma step_begin s i s' : inv c s -> sstep c s (LBegin i) = Some s' -> inv c s'.
Proof.
  intros [Iw Il It Ip] E. cbn in E. unfold phase_inv in Ip.
  destruct (s_ph s) as [| |m ls| | | |] eqn:Ph; try discriminate. destruct Ip as [Cu Hf].
  destruct (nth_error ls i) as [l|] eqn:En; [|discriminate].
  destruct (l_started l) eqn:Es; [discriminate|].
  set (sn := since (s_tr s)) in *.
  destruct (f2_upd _ (line_inv c (s_wal s) sn) _ _ _ _ Hf En (tops_nodup c m W)) as (t&Ht&Hl&_).
  destruct Hl as [S1 S2 S3 S4 S5 S6 S7]. destruct (S4 Es) as [N0 C0].
  unfold full in S1, S2, S3. rewrite N0, C0 in S1, S2, S3. cbn in S1, S2, S3.
  destruct (l_rest l) as [|b rest] eqn:Er; cbn in E; inj E.
  - destruct (f2_upd _ (line_inv c (s_wal s) sn) _ _ _ _ Hf En (tops_nodup c m W)) as (t1&Ht1&Hl1&Hup).
    constructor; cbn; auto. unfold phase_inv; cbn. split; [exact Cu|]. apply Hup; [auto|].
    destruct Hl1 as [T1 T2 T3 T4 T5 T6 T7]. unfold full in T1, T2, T3. rewrite N0, C0, Er in T1, T2, T3.
    constructor; cbn; auto; try discriminate.
  - pose proof S2 as S2'. inversion S2' as [|? ? Hb _]; subst.
    constructor; cbn; auto.
    + split; [|exact It]. eapply (prep0_ok c _ _ m t _ W Iw (proj1 Cu) Ht); eauto.
      intros p L F. left. eapply below_prep; eauto.
    + unfold phase_inv; cbn. split; [exact Cu|].
      destruct (f2_upd _ (line_inv c (s_wal s)
          (EPrep0 b m (is_top (c_tops c m) b) :: sn)) _ _ _ _ Hf En (tops_nodup c m W)) as (t1&Ht1&Hl1&Hup).
      apply Hup.
      * intros t' x _ _. apply line_mono; auto using incl_refl, incl_cons1.
      * destruct Hl1 as [T1 T2 T3 T4 T5 T6 T7]. unfold full in T1, T2, T3. rewrite N0, C0, Er in T1, T2, T3.
        constructor; cbn; auto; try discriminate.
        intros b0 st Eb. injection Eb as <- <-. try exact Logic.I.
Qed.

Lemma step_prep s i ok s' : inv c s -> sstep c s (LPrep i ok) = Some s' -> inv c s'.
Proof.
  intros [Iw Il It Ip] E. cbn in E. unfold phase_inv in Ip.
  destruct (s_ph s) as [| |m ls| | | |] eqn:Ph; try discriminate. destruct Ip as [Cu Hf].
  destruct (nth_error ls i) as [l|] eqn:En; [|discriminate].
  destruct (l_next l) as [[b [| |]]|] eqn:Ex; try discriminate.
  set (sn := since (s_tr s)) in *.
  destruct ok; inj E.
  - destruct (f2_upd _ (line_inv c (WPrep b :: s_wal s) (EPrep1 b true :: sn)) _ _ _ _ Hf En (tops_nodup c m W))
      as (t&Ht&Hl&Hup).
    constructor; cbn; auto.
    + rewrite Iw. reflexivity.
    + split; [|exact Il]. destruct Hl as [T1 T2 T3 T4 T5 T6 T7].
      unfold full in T1, T3. rewrite Ex in T1, T3.
      destruct (l_cur l) as [[x st]|] eqn:Ec; cbn in T1, T3.
      * intros p L F. destruct (T6 _ _ eq_refl) as (A&_). destruct T1 as [L' _].
        rewrite (lin_fun _ _ _ _ L L'). exact A.
      * eapply below_prep; eauto.
    + unfold phase_inv; cbn. split.
      * apply (mp_ok_keep c s m (WPrep b :: s_wal s)); auto using incl_cons1.
      * apply Hup.
        -- intros t' x _ _. apply line_mono; auto using incl_refl, incl_cons1.
        -- apply (line_mono c _ (WPrep b :: s_wal s) _ (EPrep1 b true :: sn)) in Hl;
             [|apply incl_cons1|apply incl_cons1|reflexivity].
           destruct Hl as [T1 T2 T3 T4 T5 T6 T7]. unfold full in T1, T2, T3. rewrite Ex in T1, T2, T3.
           constructor; unfold full; cbn [l_started l_rest l_next l_cur]; auto; try discriminate.
           ++ intros St. destruct (T4 St). congruence.
           ++ intros b0 st Eb. injection Eb as <- <-. left. reflexivity.
  - destruct (f2_upd _ (line_inv c (s_wal s) (EPrep1 b false :: sn)) _ _ _ _ Hf En (tops_nodup c m W))
      as (t&Ht&Hl&Hup).
    constructor; cbn; auto.
    unfold phase_inv; cbn. split; [exact Cu|].
    apply Hup.
    + intros t' x _ _. apply line_mono; auto using incl_refl, incl_cons1.
    + apply (line_mono c _ (s_wal s) _ (EPrep1 b false :: sn)) in Hl;
        [|apply incl_refl|apply incl_cons1|reflexivity].
      destruct Hl as [T1 T2 T3 T4 T5 T6 T7]. unfold full in T1, T2, T3. rewrite Ex in T1, T2, T3.
      constructor; unfold full; cbn [l_started l_rest l_next l_cur]; auto; try discriminate.
      * intros St. destruct (T4 St). congruence.
      * intros b0 st Eb. injection Eb as <- <-. left. reflexivity.
Qed.

Lemma step_take s i s' : inv c s -> sstep c s (LTake i) = Some s' -> inv c s'.
Proof.
  intros [Iw Il It Ip] E. cbn in E. unfold phase_inv in Ip.
  destruct (s_ph s) as [| |m ls| | | |] eqn:Ph; try discriminate. destruct Ip as [Cu Hf].
  destruct (nth_error ls i) as [l|] eqn:En; [|discriminate].
  destruct (l_cur l) as [[x st]|] eqn:Ec; [discriminate|].
  destruct (l_next l) as [[b st]|] eqn:Ex; [|discriminate].
  set (sn := since (s_tr s)) in *.
  destruct (f2_upd _ (line_inv c (s_wal s) sn) _ _ _ _ Hf En (tops_nodup c m W)) as (t&Ht&Hl&_).
  destruct Hl as [S1 S2 S3 S4 S5 S6 S7].
  unfold full in S1, S2, S3. rewrite Ex, Ec in S1, S2, S3. cbn [o2l app] in S1, S2, S3.
  assert (Est : l_started l = true).
  { destruct (l_started l); [reflexivity|]. destruct (S4 eq_refl). congruence. }
  (* the prepare event of the block after [b] *)
  assert (Pev : forall y rest, l_rest l = y :: rest ->
            (In (WPrep b) (s_wal s) \/ In (EPrep1 b false) sn) ->
            ev_ok c (EPrep0 y m (is_top (c_tops c m) y)) (s_tr s)).
  { intros y rest Er Hp. rewrite Er in S1, S2. cbn in S1. destruct S1 as [L _].
    inversion S2 as [|? ? _ S2']; subst. inversion S2' as [|? ? Hy _]; subst.
    eapply (prep0_ok c _ _ m t _ W Iw (proj1 Cu) Ht); eauto.
    intros p Lp _. rewrite (lin_fun _ _ _ _ Lp L). exact Hp. }
  destruct st; try discriminate.
  - (* prepared *)
    assert (Hp : In (WPrep b) (s_wal s)) by exact (S7 _ _ Ex).
    assert (Hev : forall tr', log_of tr' = log_of (s_tr s) -> ev_ok c (EHand0 b m) tr').
    { intros tr' El. cbn. rewrite El, <- Iw. split; [apply Cu|].
      inversion S2 as [|? ? [Hb1 Hb2] _]; subst. split; [exact Hb2|]. split; [exact Hp|].
      split; [exact (below_hand _ _ _ S3)|]. intros Ebm. exfalso.
      assert (M := elem_mc c m t b W Ht Hb1). rewrite Ebm in M. destruct (next_seq _ _ _ (proj1 Cu)). congruence. }
    destruct (l_rest l) as [|y rest] eqn:Er; cbn in E; inj E.
    + constructor; cbn; auto.
      * split; [|exact It]. apply Hev. reflexivity.
      * unfold phase_inv; cbn. split; [exact Cu|].
        destruct (f2_upd _ (line_inv c (s_wal s) (EHand0 b m :: sn)) _ _ _ _ Hf En (tops_nodup c m W))
          as (t1&Ht1&Hl1&Hup).
        apply Hup.
        -- intros t' x _ _. apply line_mono; auto using incl_refl, incl_cons1.
        -- destruct Hl1 as [T1 T2 T3 T4 T5 T6 T7]. unfold full in T1, T2, T3.
           rewrite Ex, Ec, Er in T1, T2, T3.
           constructor; unfold full; cbn [l_started l_rest l_next l_cur]; auto; try discriminate.
           intros b0 st0 Eb. injection Eb as <- <-. split; [exact Hp|].
           split; [congruence|]. intros [X|X]; discriminate.
    + constructor; cbn; auto.
      * split; [apply Hev; reflexivity|]. split; [|exact It]. eapply Pev; eauto.
      * unfold phase_inv; cbn. split; [exact Cu|].
        destruct (f2_upd _ (line_inv c (s_wal s)
           (EHand0 b m :: EPrep0 y m (is_top (c_tops c m) y) :: sn)) _ _ _ _ Hf En (tops_nodup c m W))
          as (t1&Ht1&Hl1&Hup).
        apply Hup.
        -- intros t' x _ _. apply line_mono; auto using incl_refl. apply incl_tl, incl_cons1.
        -- destruct Hl1 as [T1 T2 T3 T4 T5 T6 T7]. unfold full in T1, T2, T3.
           rewrite Ex, Ec, Er in T1, T2, T3.
           constructor; unfold full; cbn [l_started l_rest l_next l_cur]; auto; try discriminate.
           ++ intros b0 st0 Eb. injection Eb as <- <-. split; [exact Hp|].
              split; [congruence|]. intros [X|X]; discriminate.
           ++ intros b0 st0 Eb. injection Eb as <- <-. try exact Logic.I.
  - (* prepare failed *)
    assert (Hp : In (EPrep1 b false) sn) by exact (S7 _ _ Ex).
    destruct (l_rest l) as [|y rest] eqn:Er; cbn in E; inj E.
    + constructor; cbn; auto; try exact Logic.I.
    + constructor; cbn; auto; try exact Logic.I. split; [|exact It]. eapply Pev; eauto.
Qed.

Lemma step_hand s i ok s' : inv c s -> sstep c s (LHand i ok) = Some s' -> inv c s'.
Proof.
  intros [Iw Il It Ip] E. cbn in E. unfold phase_inv in Ip.
  destruct (s_ph s) as [| |m ls| | | |] eqn:Ph; try discriminate. destruct Ip as [Cu Hf].
  destruct (nth_error ls i) as [l|] eqn:En; [|discriminate].
  destruct (l_cur l) as [[b [| | |]]|] eqn:Ec; try discriminate.
  set (sn := since (s_tr s)) in *.
  destruct ok; inj E; [|constructor; cbn; auto; try exact Logic.I].
  destruct (f2_upd _ (line_inv c (WHand b :: s_wal s) (EHand1 b m :: sn)) _ _ _ _ Hf En (tops_nodup c m W))
    as (t&Ht&Hl&Hup).
  constructor; cbn; auto.
  - rewrite Iw. reflexivity.
  - split; [|exact Il]. destruct Hl as [T1 T2 T3 T4 T5 T6 T7].
    unfold full in T2, T3. rewrite Ec in T2, T3. cbn in T2, T3.
    destruct (T6 _ _ Ec) as (A&_). split; [exact A|]. split; [exact (below_hand _ _ _ T3)|].
    inversion T2 as [|? ? [Hb1 _] _]; subst.
    rewrite (elem_mc c m t b W Ht Hb1). discriminate.
  - unfold phase_inv; cbn. split.
    + apply (mp_ok_keep c s m (WHand b :: s_wal s)); auto using incl_cons1.
    + apply Hup.
      * intros t' x _ _. apply line_mono; auto using incl_refl, incl_cons1.
      * apply (line_mono c _ (WHand b :: s_wal s) _ (EHand1 b m :: sn)) in Hl;
          [|apply incl_cons1|apply incl_cons1|reflexivity].
        destruct Hl as [T1 T2 T3 T4 T5 T6 T7]. unfold full in T1, T2, T3. rewrite Ec in T1, T2, T3.
        constructor; unfold full; cbn [l_started l_rest l_next l_cur]; auto; try discriminate.
        -- intros _. apply T5. destruct (l_started l); [reflexivity|]. destruct (T4 eq_refl). congruence.
        -- intros b0 st0 Eb. injection Eb as <- <-. destruct (T6 _ _ Ec) as (A&_).
           split; [exact A|]. split; [intros _; left; reflexivity|]. intros [X|X]; discriminate.
Qed.

Lemma step_gc s i s' : inv c s -> sstep c s (LGc i) = Some s' -> inv c s'.
Proof.
  intros [Iw Il It Ip] E. cbn in E. unfold phase_inv in Ip.
  destruct (s_ph s) as [| |m ls| | | |] eqn:Ph; try discriminate. destruct Ip as [Cu Hf].
  destruct (nth_error ls i) as [l|] eqn:En; [|discriminate].
  destruct (l_cur l) as [[b [| | |]]|] eqn:Ec; try discriminate.
  set (sn := since (s_tr s)) in *. inj E.
  destruct (f2_upd _ (line_inv c (s_wal s) (EGc b :: sn)) _ _ _ _ Hf En (tops_nodup c m W))
    as (t&Ht&Hl&Hup).
  constructor; cbn; auto. unfold phase_inv; cbn. split; [exact Cu|]. apply Hup.
  - intros t' x _ _. apply line_mono; auto using incl_refl, incl_cons1.
  - apply (line_mono c _ (s_wal s) _ (EGc b :: sn)) in Hl;
      [|apply incl_refl|apply incl_cons1|reflexivity].
    destruct Hl as [T1 T2 T3 T4 T5 T6 T7]. unfold full in T1, T2, T3. rewrite Ec in T1, T2, T3.
    constructor; unfold full; cbn [l_started l_rest l_next l_cur]; auto; try discriminate.
    + intros _. apply T5. destruct (l_started l); [reflexivity|]. destruct (T4 eq_refl). congruence.
    + intros b0 st0 Eb. injection Eb as <- <-. destruct (T6 _ _ Ec) as (A&B&_).
      split; [exact A|]. split; [intros _; apply B; discriminate|]. intros _. left. reflexivity.
Qed.

Lemma step_join s i ok s' : inv c s -> sstep c s (LJoin i ok) = Some s' -> inv c s'.
Proof.
  intros [Iw Il It Ip] E. cbn in E. unfold phase_inv in Ip.
  destruct (s_ph s) as [| |m ls| | | |] eqn:Ph; try discriminate. destruct Ip as [Cu Hf].
  destruct (nth_error ls i) as [l|] eqn:En; [|discriminate].
  destruct (l_cur l) as [[b [| | |]]|] eqn:Ec; try discriminate.
  set (sn := since (s_tr s)) in *. destruct ok; inj E; [|constructor; cbn; auto; try exact Logic.I].
  destruct (f2_upd _ (line_inv c (s_wal s) sn) _ _ _ _ Hf En (tops_nodup c m W))
    as (t&Ht&Hl&Hup).
  constructor; cbn; auto. unfold phase_inv; cbn. split; [exact Cu|]. apply Hup; [auto|].
  destruct Hl as [T1 T2 T3 T4 T5 T6 T7]. unfold full in T1, T2, T3. rewrite Ec in T1, T2, T3.
  constructor; unfold full; cbn [l_started l_rest l_next l_cur]; auto; try discriminate.
  + intros _. apply T5. destruct (l_started l); [reflexivity|]. destruct (T4 eq_refl). congruence.
  + intros b0 st0 Eb. injection Eb as <- <-. destruct (T6 _ _ Ec) as (A&B&D).
    split; [exact A|]. split; [intros _; apply B; discriminate|]. intros _. apply D. left. reflexivity.
Qed.

Lemma step_commit s i h s' : inv c s -> sstep c s (LCommit i h) = Some s' -> inv c s'.
Proof.
  intros [Iw Il It Ip] E. cbn in E. unfold phase_inv in Ip.
  destruct (s_ph s) as [| |m ls| | | |] eqn:Ph; try discriminate. destruct Ip as [Cu Hf].
  destruct (nth_error ls i) as [l|] eqn:En; [|discriminate].
  destruct (l_cur l) as [[b [| | |]]|] eqn:Ec; try discriminate.
  set (sn := since (s_tr s)) in *.
  destruct (f2_upd _ (line_inv c (s_wal s) sn) _ _ _ _ Hf En (tops_nodup c m W)) as (t0&Ht0&Hl0&_).
  assert (Hd : all_handled c (s_wal s) b /\ In (WHand b) (s_wal s) /\ In (EGc b) sn /\ is_mc b = false).
  { destruct Hl0 as [T1 T2 T3 T4 T5 T6 T7]. unfold full in T2, T3. rewrite Ec in T2, T3. cbn in T2, T3.
    destruct (T6 _ _ Ec) as (_&B&D). assert (Hh : In (WHand b) (s_wal s)) by (apply B; discriminate).
    inversion T2 as [|? ? [Hb1 _] _]; subst.
    split; [exact (done_of_below _ _ _ T3 Hh)|]. split; [exact Hh|].
    split; [apply D; right; reflexivity|]. exact (elem_mc c m t0 b W Ht0 Hb1). }
  destruct Hd as (Hd&Hh&Hg&Hmc).
  assert (Hev : ev_ok c (EComS b h) (s_tr s)).
  { cbn. rewrite <- Iw. auto. }
  destruct h; inj E.
  - destruct (f2_upd _ (line_inv c (WShard b :: s_wal s) (EComS b true :: sn)) _ _ _ _ Hf En (tops_nodup c m W))
      as (t&Ht&Hl&Hup).
    assert (Hsh : b_shard b = b_shard t).
    { destruct Hl as [T1 T2 T3 T4 T5 T6 T7]. unfold full in T2. rewrite Ec in T2. cbn in T2.
      inversion T2 as [|? ? [Hb1 _] _]; subst. eapply needs_shard; eauto. }
    constructor; cbn; auto.
    + rewrite Iw. reflexivity.
    + unfold phase_inv; cbn. split.
      * apply (mp_ok_keep c s m (WShard b :: s_wal s)); auto using incl_cons1.
      * apply Hup.
        -- intros t' x _ Hne. apply line_mono; auto using incl_refl, incl_cons1.
           intros y Hy. apply com_shard. intros ->. congruence.
        -- destruct Hl as [T1 T2 T3 T4 T5 T6 T7]. unfold full in T1, T2, T3. rewrite Ec in T1, T2, T3.
           cbn [o2l app] in T1, T2, T3.
           constructor; unfold full; cbn [l_started l_rest l_next l_cur o2l app]; auto; try discriminate.
           ++ exact (stack_tl _ _ _ _ T1).
           ++ inversion T2 as [|? ? _ T2']; subst. eapply elem_after_commit; eauto.
           ++ apply (head_mono c (s_wal s)); [apply incl_cons1|]. eapply head_next; eauto.
           ++ intros _. apply T5. destruct (l_started l); [reflexivity|]. destruct (T4 eq_refl). congruence.
           ++ intros b0 st Eb. specialize (T7 _ _ Eb). destruct st; auto; right; exact T7.
  - destruct (f2_upd _ (line_inv c (s_wal s) (EComS b false :: sn)) _ _ _ _ Hf En (tops_nodup c m W))
      as (t&Ht&Hl&Hup).
    constructor; cbn; auto.
    unfold phase_inv; cbn. split; [exact Cu|]. apply Hup.
    + intros t' x _ Hne. apply line_mono; auto using incl_refl, incl_cons1.
    + destruct Hl as [T1 T2 T3 T4 T5 T6 T7]. unfold full in T1, T2, T3. rewrite Ec in T1, T2, T3.
      cbn [o2l app] in T1, T2, T3.
      constructor; unfold full; cbn [l_started l_rest l_next l_cur o2l app]; auto; try discriminate.
      * exact (stack_tl _ _ _ _ T1).
      * inversion T2 as [|? ? _ T2']; subst. exact T2'.
      * eapply head_next; eauto.
      * intros _. apply T5. destruct (l_started l); [reflexivity|]. destruct (T4 eq_refl). congruence.
      * intros b0 st Eb. specialize (T7 _ _ Eb). destruct st; auto; right; exact T7.
Qed.

Lemma step_procall s s' : inv c s -> sstep c s LProcAll = Some s' -> inv c s'.
Proof.
  intros [Iw Il It Ip] E. cbn in E. unfold phase_inv in Ip.
  destruct (s_ph s) as [| |m ls| | | |] eqn:Ph; try discriminate. destruct Ip as [Cu Hf].
  destruct (forallb line_done ls) eqn:Ad; [|discriminate]. inj E.
  constructor; cbn; auto. unfold phase_inv; cbn. split; [exact Cu|]. split.
  - rewrite forallb_forall in Ad. eapply lines_done; eauto.
  - split; [congruence|]. split; [congruence|]. intros [X|X]; discriminate.
Qed.

Lemma step_prepm s ok s' : inv c s -> sstep c s (LPrepM ok) = Some s' -> inv c s'.
Proof.
  intros [Iw Il It Ip] E. cbn in E. unfold phase_inv in Ip.
  destruct (s_mp s) eqn:Mp; try discriminate.
  assert (Wp : forall m, cur_ok c s m -> wr_ok c (WPrep m) (s_wal s)).
  { intros m Cu. cbn. apply master_prep; auto. apply Cu. }
  destruct (s_ph s) as [|m ds|m ls|m st| | |] eqn:Ph; try discriminate; inj E;
    destruct Ip as [Cu Hf]; destruct ok;
    (constructor; cbn;
     [rewrite ?Iw; reflexivity
     |first [exact Il|split; [exact (Wp m Cu)|exact Il]]
     |split; [exact Logic.I|exact It]
     |unfold phase_inv; cbn; rewrite Ph]).
  - split; [|eapply dls_mono; eauto using incl_cons1]. destruct Cu as (A&B&D).
    split; [exact A|]. split; [exact B|]. intros _. left. reflexivity.
  - split; [|exact Hf]. destruct Cu as (A&B&D).
    split; [exact A|]. split; [exact B|]. discriminate.
  - split; [|apply (lines_mono c (s_wal s) _ (since (s_tr s))); auto using incl_cons1]. destruct Cu as (A&B&D).
    split; [exact A|]. split; [exact B|]. intros _. left. reflexivity.
  - split; [|apply (lines_mono c (s_wal s) _ (since (s_tr s))); auto using incl_cons1, incl_refl]. destruct Cu as (A&B&D).
    split; [exact A|]. split; [exact B|]. discriminate.
  - destruct Cu as (A&B&D). destruct Hf as (F1&F2&F3&F4).
    split; [split; [exact A|]; split; [exact B|]; intros _; left; reflexivity|].
    split; [eapply tops_handled_mono; [|exact F1]; apply incl_cons1|].
    split; [intros X; right; auto|]. split; [intros X Y; right; auto|]. intros X. right. auto.
  - destruct Cu as (A&B&D). destruct Hf as (F1&F2&F3&F4).
    split; [split; [exact A|]; split; [exact B|]; discriminate|].
    split; [exact F1|]. split; [auto|]. split; [auto|]. intros X. right. auto.
Qed.

Lemma step_takem s s' : inv c s -> sstep c s LTakeM = Some s' -> inv c s'.
Proof.
  intros [Iw Il It Ip] E. cbn in E. unfold phase_inv in Ip.
  destruct (s_ph s) as [| | |m [| | | |]| | |] eqn:Ph; try discriminate.
  destruct Ip as (Cu&F1&F2&F3&F4).
  destruct (s_mp s) eqn:Mp; try discriminate; inj E.
  - constructor; cbn; auto.
    + split; [|exact It]. rewrite <- Iw. destruct Cu as (A&B&D).
      split; [exact A|]. split; [exact (next_not_committed _ _ _ A)|]. split; [auto|].
      split; [exact (master_hand _ _ _ W Il A)|]. intros _. exact F1.
    + unfold phase_inv; cbn. split; [exact Cu|]. split; [exact F1|].
      split; [intros _; apply Cu, Mp|]. split; [congruence|]. intros [X|X]; discriminate.
  - constructor; cbn; auto; try exact Logic.I.
Qed.

Lemma step_handm s ok s' : inv c s -> sstep c s (LHandM ok) = Some s' -> inv c s'.
Proof.
  intros [Iw Il It Ip] E. cbn in E. unfold phase_inv in Ip.
  destruct (s_ph s) as [| | |m [| | | |]| | |] eqn:Ph; try discriminate.
  destruct Ip as (Cu&F1&F2&F3&F4).
  destruct ok; inj E; [|constructor; cbn; auto; try exact Logic.I].
  constructor; cbn; auto.
  - rewrite Iw. reflexivity.
  - split; [|exact Il]. split; [apply F2; discriminate|]. destruct Cu as (A&B&D).
    split; [exact (master_hand _ _ _ W Il A)|]. intros _. split; [exact A|exact F1].
  - unfold phase_inv; cbn. split.
    + apply (mp_ok_keep c s m (WHand m :: s_wal s)); auto using incl_cons1.
    + split; [eapply tops_handled_mono; [|exact F1]; apply incl_cons1|].
      split; [intros _; right; apply F2; discriminate|]. split; [intros _ _; left; reflexivity|].
      intros [X|X]; discriminate.
Qed.

Lemma step_gcm s s' : inv c s -> sstep c s LGcM = Some s' -> inv c s'.
Proof.
  intros [Iw Il It Ip] E. cbn in E. unfold phase_inv in Ip.
  destruct (s_ph s) as [| | |m [| | | |]| | |] eqn:Ph; try discriminate.
  destruct Ip as (Cu&F1&F2&F3&F4). inj E.
  constructor; cbn; auto. unfold phase_inv; cbn. split; [exact Cu|]. split; [exact F1|].
  split; [intros _; apply F2; discriminate|]. split; [intros _ _; apply F3; discriminate|].
  intros _. left. reflexivity.
Qed.

Lemma step_joinm s ok s' : inv c s -> sstep c s (LJoinM ok) = Some s' -> inv c s'.
Proof.
  intros [Iw Il It Ip] E. cbn in E. unfold phase_inv in Ip.
  destruct (s_ph s) as [| | |m [| | | |]| | |] eqn:Ph; try discriminate.
  destruct Ip as (Cu&F1&F2&F3&F4). inj E. destruct ok; constructor; cbn; auto; try exact Logic.I.
  unfold phase_inv; cbn. split; [exact Cu|]. split; [exact F1|].
  split; [intros _; apply F2; discriminate|]. split; [intros _ _; apply F3; discriminate|].
  intros _. apply F4. left. reflexivity.
Qed.

Lemma step_commitm s s' : inv c s -> sstep c s LCommitM = Some s' -> inv c s'.
Proof.
  intros [Iw Il It Ip] E. cbn in E. unfold phase_inv in Ip.
  destruct (s_ph s) as [| | |m [| | | |]| | |] eqn:Ph; try discriminate.
  destruct Ip as (Cu&F1&F2&F3&F4). inj E. destruct Cu as (A&B&D).
  assert (Hh : In (WHand m) (s_wal s)) by (apply F3; discriminate).
  constructor; cbn; auto.
  - rewrite Iw. reflexivity.
  - split; [|exact It]. rewrite <- Iw. repeat split; auto.
  - unfold phase_inv; cbn. auto.
Qed.

Lemma step_clean s ok s' : inv c s -> sstep c s (LClean ok) = Some s' -> inv c s'.
Proof.
  intros [Iw Il It Ip] E. cbn in E. unfold phase_inv in Ip.
  destruct (s_ph s) as [| | | |m| |] eqn:Ph; try discriminate. destruct Ip as [Em Pf].
  assert (Hev : ev_ok c (EClean (b_seq m)) (s_tr s)).
  { cbn. rewrite <- Iw, <- Em. reflexivity. }
  destruct ok; inj E; constructor; cbn; auto; try exact Logic.I.
  unfold phase_inv; cbn. auto.
Qed.

Lemma log_ok_skip l n : log_ok c l -> log_ok c (skipn n l).
Proof.
  revert n. induction l as [|x l IH]; intros n H; destruct n; cbn; auto. apply IH, H.
Qed.

Lemma step_crash s n s' : inv c s -> sstep c s (LCrash n) = Some s' -> inv c s'.
Proof.
  intros [Iw Il It Ip] E. cbn in E. inj E. constructor; cbn.
  - rewrite Iw. reflexivity.
  - apply log_ok_skip, Il.
  - auto.
  - unfold phase_inv; cbn. auto.
Qed.

Lemma pf_indep s f : inv c s -> (forall p, pf_ok c p (s_pf s) -> pf_ok c p f) -> inv c (set_pf s f).
Proof.
  intros [Iw Il It Ip] H. constructor; cbn; auto. unfold phase_inv in *. cbn.
  destruct (s_ph s); auto; unfold cur_ok in *; cbn; intuition.
Qed.

Theorem inv_step s l s' : inv c s -> sstep c s l = Some s' -> inv c s'.
Proof.
  intros I0 E. destruct l.
  - cbn in E. destruct (s_pf s) eqn:Pf; try discriminate.
    destruct (next_ok c p m) eqn:Nx; [|discriminate]. inj E. apply pf_indep; [exact I0|].
    rewrite Pf. cbn. intros q <-. auto.
  - cbn in E. destruct (s_pf s) eqn:Pf; try discriminate. inj E.
    apply pf_indep; [exact I0|]. cbn. auto.
  - cbn in E. destruct (s_pf s) eqn:Pf; try discriminate. inj E.
    apply pf_indep; [exact I0|]. cbn. auto.
  - eapply step_next; eauto.
  - eapply step_down; eauto.
  - eapply step_downall; eauto.
  - eapply step_begin; eauto.
  - eapply step_prep; eauto.
  - eapply step_take; eauto.
  - eapply step_hand; eauto.
  - eapply step_gc; eauto.
  - eapply step_join; eauto.
  - eapply step_commit; eauto.
  - eapply step_procall; eauto.
  - eapply step_prepm; eauto.
  - eapply step_takem; eauto.
  - eapply step_handm; eauto.
  - eapply step_gcm; eauto.
  - eapply step_joinm; eauto.
  - eapply step_commitm; eauto.
  - eapply step_clean; eauto.
  - eapply step_crash; eauto.
Qed.

Theorem reach_inv s : reach c s -> inv c s.
Proof.
  induction 1 as [|s l s' _ IH E]; [apply inv0|eapply inv_step; eauto].
Qed.
End Step.
