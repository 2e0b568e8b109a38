(** * MBufHist: histories and transactions of a buffer, and sums of groups (C59, C60) *)

From Coq Require Import List NArith ZArith Bool PeanoNat Permutation Lia.
From Verif Require Import AMap MBufModel MBufSpec MBufBasics MBufInv MBufSlots MBufLoops MBufStep2 MBufIndex MBufFill MBufTx MBufThms.
Import ListNotations.

(** ** Thinned lists *)
Lemma thinned_refl l : thinned l l.
Proof. induction l; now constructor. Qed.
Lemma thinned_trans a b c : thinned a b -> thinned b c -> thinned a c.
Proof.
  intros H1 H2. revert a H1. induction H2 as [|m k l H IH|m k l E H IH]; intros a H1.
  - assumption.
  - inversion H1; subst; [constructor; auto|apply Th_drop; auto].
  - apply Th_drop; auto.
Qed.
Lemma thinned_app a b c d : thinned a b -> thinned c d -> thinned (a ++ c) (b ++ d).
Proof. intros H1 H2. induction H1; cbn [app]; [assumption|now constructor|now apply Th_drop]. Qed.
Lemma thinned_filter fl l : thinned (filter (keep fl) l) l.
Proof.
  induction l as [|m l IH]; [constructor|]. cbn [filter]. destruct (keep fl m) eqn:K; [now constructor|].
  apply Th_drop; [|assumption]. unfold keep in K. apply negb_false_iff in K. now apply skip_is_ext in K.
Qed.
Lemma thinned_int k l : thinned k l -> filter is_int k = filter is_int l.
Proof.
  induction 1 as [|m k l H IH|m k l E H IH]; [reflexivity| |].
  - cbn [filter]. now rewrite IH.
  - cbn [filter]. unfold is_int at 2. now rewrite E.
Qed.

(** ** C59: over any history, an account's messages come out in the order they were added *)
Theorem in_order a b added out b' : wf_buffer b -> account_run a b added out b' ->
  wf_buffer b' /\ thinned (out ++ waiting a b') (waiting a b ++ added).
Proof.
  intros WB. induction 1 as [|added out b1 m H [WB1 IH]|added out b1 fl chk n V sk g r c H [WB1 IH] HV WG E Hc|added out b1 rm H [WB1 IH] OI Ha].
  - split; [assumption|]. rewrite app_nil_r. apply thinned_refl.
  - split; [now apply add_wf|]. rewrite add_waiting, !app_assoc. apply thinned_app; [assumption|apply thinned_refl].
  - destruct (fill_total fl chk n V sk g b1 HV WB1 WG) as (r1 & E1 & WB2 & _). assert (r1 = r) as -> by congruence.
    split; [assumption|].
    destruct (fill_accounts fl chk n V sk g b1 r HV WB1 WG E a) as (p & q & Hw & Hg & Hw' & _).
    assert (c = filter (keep fl) p) as -> by (apply (app_inv_head (collected a g)); congruence).
    eapply thinned_trans; [|exact IH]. rewrite Hw, <- app_assoc. apply thinned_app; [apply thinned_refl|].
    apply thinned_app; [apply thinned_filter|]. destruct Hw' as [->| ->]; [apply thinned_refl|apply thinned_filter].
  - split; [now apply remove_wf|]. rewrite remove_waiting, Ha. assumption.
Qed.
Theorem internals_in_order a b added out b' : wf_buffer b -> account_run a b added out b' ->
  filter is_int (out ++ waiting a b') = filter is_int (waiting a b ++ added).
Proof. intros WB H. apply thinned_int. now apply (in_order a b added out b'). Qed.

(** ** C60: transactions *)

(** Histories never fail. *)
Theorem run_total os : forall b, wf_buffer b -> run_ok b os ->
  exists b', brun b os = Some b' /\ wf_buffer b'.
Proof.
  induction os as [|o os IH]; intros b WB OK; cbn [brun]; [eauto|]. destruct OK as [O1 O2].
  assert (exists b', bstep b o = Some b' /\ wf_buffer b') as (b' & E & WB').
  { destruct o as [m|fl chk n V sk g|rm]; cbn [bstep op_ok] in *.
    - eexists. split; [reflexivity|now apply add_wf].
    - destruct O1 as [HV WG]. destruct (fill_total fl chk n V sk g b HV WB WG) as (r & E & W & _). rewrite E. eauto.
    - eexists. split; [reflexivity|now apply remove_wf]. }
  rewrite E. apply IH; auto.
Qed.

Lemma tx_add b0 m b : tx_from (Some b0) b -> tx_from (Some b0) (add_message m b).
Proof.
  intros T.
  assert (T1 : forall i e n, tx_from (Some b0) (mkB (b_msgs b) i e n (b_tx b)))
    by (intros i e n; apply tx_from_same; [assumption|auto]).
  unfold add_message. destruct (is_ext m); cbn [b_msgs]; destruct (mget (m_acc m) (b_msgs b)) as [l|] eqn:El;
  unfold set_msgs; cbn [b_msgs b_int b_ext b_min b_tx].
  1,3: match goal with |- tx_from _ (mkB ?m ?i ?e ?n (b_tx (save ?a ?l ?b1))) =>
         apply (tx_from_save (Some b0) a l b1 m i e n); [apply T1|exact El|] end;
       intros k Hk; cbn [save b_msgs]; rewrite (aget_aset N.eqb Neqs); destruct (Neqs k (m_acc m)); [contradiction|reflexivity].
  all: apply (tx_from_same (Some b0) b); [assumption|];
       intros k v Hk; rewrite (aget_aset N.eqb Neqs); destruct (Neqs k (m_acc m)) as [->|]; [congruence|assumption].
Qed.

Lemma tx_retain b0 rm l : forall b k b', tx_from (Some b0) b -> (forall a v, In (a, v) l -> mget a (b_msgs b) = Some v) ->
  retain_accounts rm l b = (k, b') ->
  tx_from (Some b0) b' /\ b_msgs b' = b_msgs b /\
  (forall x x', b_tx b = Some x -> b_tx b' = Some x' -> forall a, mget a (x_saved x) <> None -> mget a (x_saved x') <> None) /\
  (forall x', b_tx b' = Some x' -> forall a v, In (a, v) l -> rm a = true -> mget a (x_saved x') <> None).
Proof.
  induction l as [|[a v] l IH]; intros b k b' T CU E; cbn [retain_accounts] in E.
  - injection E as _ <-. split; [assumption|]. split; [reflexivity|]. split; [intros x x' E1 E2; assert (x = x') by congruence; subst; auto|].
    intros x' _ k0 v [].
  - destruct (rm a) eqn:R.
    + match type of E with retain_accounts _ _ ?bb = _ => set (b1 := bb) in * end.
      assert (T1 : tx_from (Some b0) b1).
      { apply (tx_from_save (Some b0) a v b); [assumption|apply CU; now left|]. auto. }
      destruct (IH b1 k b' T1) as (P1 & P2 & P3 & P4); [|assumption|].
      { intros a1 v1 H. apply CU. now right. }
      split; [assumption|]. split; [assumption|].
      destruct T as (x & Ex & _). destruct T1 as (x1 & Ex1 & _).
      assert (SV : x_saved x1 = match mget a (x_saved x) with Some _ => x_saved x | None => mset a v (x_saved x) end).
      { unfold b1 in Ex1. cbn [b_tx save] in Ex1. rewrite Ex in Ex1. injection Ex1 as <-. reflexivity. }
      assert (MO : forall c, mget c (x_saved x) <> None -> mget c (x_saved x1) <> None).
      { intros c Hc. rewrite SV. destruct (mget a (x_saved x)); [assumption|]. rewrite (aget_aset N.eqb Neqs). destruct (N.eqb c a); [discriminate|assumption]. }
      split.
      * intros y x' Ey Ex' c Hc. assert (y = x) as -> by congruence. apply (P3 x1 x' Ex1 Ex'). now apply MO.
      * intros x' Ex' c w [[= -> ->]|Hin] Rc.
        -- apply (P3 x1 x' Ex1 Ex'). rewrite SV. destruct (mget c (x_saved x)) eqn:Eq; [now rewrite Eq|].
           rewrite (aget_aset N.eqb Neqs), N.eqb_refl. discriminate.
        -- exact (P4 x' Ex' c w Hin Rc).
    + destruct (retain_accounts rm l b) as [k1 b1] eqn:E1. injection E as _ <-.
      destruct (IH b k1 b1 T) as (P1 & P2 & P3 & P4); [|assumption|].
      { intros a1 v1 H. apply CU. now right. }
      split; [assumption|]. split; [assumption|]. split; [assumption|].
      intros x' Ex' c w [[= -> ->]|Hin] Rc; [congruence|exact (P4 x' Ex' c w Hin Rc)].
Qed.

Lemma tx_remove b0 rm b : NoDup (akeys (b_msgs b)) -> tx_from (Some b0) b -> tx_from (Some b0) (remove_int_messages rm b).
Proof.
  intros ND T. unfold remove_int_messages. destruct (retain_accounts rm (b_msgs b) b) as [k b'] eqn:E.
  destruct (tx_retain b0 rm (b_msgs b) b k b' T) as (P1 & P2 & _ & P4); [|assumption|].
  { intros a v H. now apply (aget_in N.eqb Neqs _ _ _ ND). }
  destruct (retain_spec _ _ _ _ _ E) as (-> & _).
  destruct P1 as (x & Ex & X1 & X2 & X3 & X4 & X5). exists x. cbn [set_msgs b_tx b_msgs].
  split; [assumption|]. split; [assumption|]. split; [assumption|]. split; [assumption|]. split; [assumption|].
  intros a l Ha. destruct (X5 a l Ha) as [H|[H1 H2]]; [now left|right]. split; [assumption|].
  rewrite filter_get. rewrite P2 in H2. destruct (rm a) eqn:R; [|assumption].
  destruct (P4 x Ex a l); auto. now apply (aget_some_in N.eqb Neqs).
Qed.

Lemma tx_run b0 os : wf_buffer b0 -> forall b b', wf_buffer b -> run_ok b os -> tx_from (Some b0) b ->
  brun b os = Some b' -> tx_from (Some b0) b'.
Proof.
  intros W0. induction os as [|o os IH]; intros b b' WB OK T E; cbn [brun] in E; [congruence|]. destruct OK as [O1 O2].
  destruct (bstep b o) as [b1|] eqn:E1; [|discriminate].
  assert (WB1 : wf_buffer b1 /\ tx_from (Some b0) b1).
  { destruct o as [m|fl chk n V sk g|rm]; cbn [bstep op_ok] in *.
    - injection E1 as <-. split; [now apply add_wf|now apply tx_add].
    - destruct O1 as [HV WG]. destruct (fill_main fl chk n V sk (Some b0) b g HV WB WG T) as (r & f & Ef & O).
      rewrite Ef in E1. injection E1 as <-.
      destruct (fill_total fl chk n V sk g b HV WB WG) as (r2 & Ef2 & W2 & _).
      assert (r2 = r) as Er by congruence. rewrite Er in W2.
      split; [assumption|]. rewrite (ou_buf _ _ _ _ _ _ _ _ _ _ O). destruct (ou_inv _ _ _ _ _ _ _ _ _ _ O) as [C S].
      apply tx_from_finish.
      + rewrite (ci_keys _ _ _ _ _ _ _ C). apply (wb_keys _ WB).
      + intros b1 [= <-] a l H. now apply (wb_acc _ W0) in H.
      + apply (ci_tx _ _ _ _ _ _ _ C).
    - injection E1 as <-. split; [now apply remove_wf|]. apply tx_remove; [apply (wb_keys _ WB)|assumption]. }
  destruct WB1 as [WB1 T1]. exact (IH b1 b' WB1 (O2 b1 eq_refl) T1 E).
Qed.

Lemma mset_new (m : amap N (list msg)) a v : ~ In a (akeys m) -> mset a v m = m ++ [(a, v)].
Proof.
  induction m as [|[k u] m IH]; cbn [aset akeys map fst In app]; intros H; [reflexivity|].
  destruct (Neqs a k) as [->|Hn]; [destruct H; now left|]. rewrite IH; [reflexivity|tauto].
Qed.
Lemma restore_all m0 : forall saved cur acc, NoDup (akeys (acc ++ m0)) ->
  (forall a l, In (a, l) m0 -> mget a saved = Some l \/ (mget a saved = None /\ mget a cur = Some l)) ->
  restore_accounts (akeys m0) saved cur acc = Some (acc ++ m0).
Proof.
  induction m0 as [|[a l] m0 IH]; intros saved cur acc ND H; cbn [akeys map fst restore_accounts].
  - now rewrite app_nil_r.
  - assert (NI : ~ In a (akeys acc) /\ ~ In a (akeys m0)).
    { unfold akeys in *. rewrite map_app in ND. cbn [map fst] in ND. apply NoDup_remove_2 in ND.
      rewrite in_app_iff in ND. tauto. }
    destruct NI as [N1 N2].
    assert (ND' : NoDup (akeys ((acc ++ [(a, l)]) ++ m0))) by (rewrite <- app_assoc; exact ND).
    assert (OT : forall b v, In (b, v) m0 -> b <> a).
    { intros b v Hb ->. apply N2. unfold akeys. apply in_map_iff. exists (a, v). auto. }
    destruct (H a l (or_introl eq_refl)) as [Hs|[Hs Hc]]; rewrite Hs; [|rewrite Hc]; rewrite mset_new by assumption;
    fold (akeys m0); (rewrite IH; [now rewrite <- app_assoc|assumption|]);
    intros b v Hb; pose proof (OT b v Hb) as Hn; rewrite (aget_adel N.eqb Neqs); destruct (Neqs b a); try contradiction;
    apply H; now right.
Qed.

(** After any operations, [rollback] gives back exactly the buffer [begin] found: the same
    messages in the same order, the same accounts in the same order, the same counters. *)
Theorem rollback_restores b b1 os b2 : wf_buffer b -> b_begin b = Some b1 -> run_ok b1 os -> brun b1 os = Some b2 ->
  b_rollback b2 = Some b.
Proof.
  intros WB B OK E. unfold b_begin in B. destruct (b_tx b) as [x|] eqn:Et; [discriminate|]. injection B as <-.
  assert (T : tx_from (Some b) (mkB (b_msgs b) (b_int b) (b_ext b) (b_min b)
                (Some (mkTx (b_int b) (b_ext b) (b_min b) (akeys (b_msgs b)) [])))).
  { eexists. split; [reflexivity|]. cbn. repeat (split; [reflexivity|]). intros a l H. right. auto. }
  assert (W1 : wf_buffer (mkB (b_msgs b) (b_int b) (b_ext b) (b_min b)
                (Some (mkTx (b_int b) (b_ext b) (b_min b) (akeys (b_msgs b)) []))))
    by (destruct WB; constructor; assumption).
  destruct (tx_run b os WB _ b2 W1 OK T E) as (x & Ex & X1 & X2 & X3 & X4 & X5).
  unfold b_rollback. rewrite Ex, X4. rewrite (restore_all (b_msgs b) _ _ []).
  - cbn [app]. rewrite X1, X2, X3. destruct b; cbn in Et |- *. now subst.
  - apply (wb_keys _ WB).
  - intros a l H. apply X5. now apply (aget_in N.eqb Neqs _ _ _ (wb_keys _ WB)).
Qed.

(** A transaction that is committed leaves what the same operations leave without one. *)
Lemma strip_step b o : bstep (strip_b b) o = match bstep b o with Some b' => Some (strip_b b') | None => None end.
Proof.
  destruct o as [m|fl chk n V sk g|rm]; cbn [bstep].
  - unfold add_message. destruct (is_ext m); cbn [strip_b b_msgs b_int b_ext b_min b_tx];
    destruct (mget (m_acc m) (b_msgs b)); reflexivity.
  - rewrite strip_fill. destruct (fill fl chk n V sk g b); reflexivity.
  - f_equal. unfold remove_int_messages. change (b_msgs (strip_b b)) with (b_msgs b). generalize (b_msgs b) as l.
    assert (R : forall l b, retain_accounts rm l (strip_b b) = (fst (retain_accounts rm l b), strip_b (snd (retain_accounts rm l b)))).
    { clear. induction l as [|[a v] l IH]; intros b; cbn [retain_accounts]; [reflexivity|]. destruct (rm a).
      - rewrite <- IH. reflexivity.
      - rewrite IH. destruct (retain_accounts rm l b); reflexivity. }
    intros l. rewrite R. destruct (retain_accounts rm l b); reflexivity.
Qed.
Lemma strip_run os : forall b, brun (strip_b b) os = match brun b os with Some b' => Some (strip_b b') | None => None end.
Proof.
  induction os as [|o os IH]; intros b; cbn [brun]; [reflexivity|]. rewrite strip_step.
  destruct (bstep b o); [apply IH|reflexivity].
Qed.
Theorem commit_keeps b b1 os b2 b3 : b_begin b = Some b1 -> brun b1 os = Some b2 -> b_commit b2 = Some b3 ->
  brun b os = Some b3.
Proof.
  intros B E C. unfold b_begin in B. destruct (b_tx b) as [x|] eqn:Et; [discriminate|]. injection B as <-.
  pose proof (strip_run os (mkB (b_msgs b) (b_int b) (b_ext b) (b_min b)
                (Some (mkTx (b_int b) (b_ext b) (b_min b) (akeys (b_msgs b)) [])))) as S.
  rewrite E in S. unfold b_commit in C. destruct (b_tx b2); [|discriminate]. injection C as <-.
  unfold strip_b at 1 in S. cbn in S. destruct b as [m i e n t]. cbn in *. subst t. exact S.
Qed.
(** Both always succeed at the end of a transaction. *)
Theorem tx_end_total b b1 os b2 : wf_buffer b -> b_begin b = Some b1 -> run_ok b1 os -> brun b1 os = Some b2 ->
  exists b3, b_commit b2 = Some b3.
Proof.
  intros WB B OK E. pose proof (rollback_restores b b1 os b2 WB B OK E) as R.
  unfold b_rollback in R. unfold b_commit. destruct (b_tx b2); [eauto|discriminate].
Qed.
