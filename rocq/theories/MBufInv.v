(** * MBufInv: what stays true while a group is filled *)

From Coq Require Import List NArith ZArith Bool PeanoNat Permutation Lia.
From Verif Require Import AMap MBufModel MBufSpec MBufBasics.
Import ListNotations.

(** ** The backups of a transaction *)

(** [b] goes on from [o] in a transaction started there; or there is none. *)
Definition tx_from (o : option buffer) (b : buffer) : Prop :=
  match o with
  | None => b_tx b = None
  | Some b0 =>
      exists x, b_tx b = Some x /\ x_int x = b_int b0 /\ x_ext x = b_ext b0 /\ x_min x = b_min b0 /\
        x_order x = akeys (b_msgs b0) /\
        forall a l, mget a (b_msgs b0) = Some l ->
          mget a (x_saved x) = Some l \/ (mget a (x_saved x) = None /\ mget a (b_msgs b) = Some l)
  end.

(** Any change of one account after [save]. *)
Lemma tx_from_save o a l b m i e n :
  tx_from o b -> mget a (b_msgs b) = Some l ->
  (forall k, k <> a -> mget k m = mget k (b_msgs b)) ->
  tx_from o (mkB m i e n (b_tx (save a l b))).
Proof.
  intros T E K. destruct o as [b0|]; cbn [tx_from] in *.
  - destruct T as (x & Ex & X1 & X2 & X3 & X4 & X5). unfold save. cbn [b_tx]. rewrite Ex.
    eexists. split; [reflexivity|]. cbn [x_int x_ext x_min x_order x_saved b_msgs].
    split; [assumption|]. split; [assumption|]. split; [assumption|]. split; [assumption|].
    intros k v Hk. destruct (Neqs k a) as [->|Hn].
    + destruct (X5 _ _ Hk) as [Hs|[Hs Hc]]; rewrite Hs.
      * now left.
      * left. rewrite (aget_aset N.eqb Neqs), N.eqb_refl. congruence.
    + destruct (X5 _ _ Hk) as [Hs|[Hs Hc]].
      * left. destruct (mget a (x_saved x)); [assumption|]. rewrite (aget_aset N.eqb Neqs).
        destruct (Neqs k a); [contradiction|assumption].
      * right. split; [|now rewrite K].
        destruct (mget a (x_saved x)); [assumption|]. rewrite (aget_aset N.eqb Neqs).
        destruct (Neqs k a); [contradiction|assumption].
  - unfold save. cbn [b_tx]. now rewrite T.
Qed.
Lemma tx_from_same o b m i e n :
  tx_from o b -> (forall a l, mget a (b_msgs b) = Some l -> mget a m = Some l) ->
  tx_from o (mkB m i e n (b_tx b)).
Proof.
  intros T K. destruct o as [b0|]; cbn [tx_from b_tx b_msgs] in *; [|assumption].
  destruct T as (x & Ex & X1 & X2 & X3 & X4 & X5). exists x.
  split; [assumption|]. split; [assumption|]. split; [assumption|]. split; [assumption|]. split; [assumption|].
  intros a l H. destruct (X5 _ _ H) as [Hs|[Hs Hc]]; auto.
Qed.

Lemma save_msgs a l b : b_msgs (save a l b) = b_msgs b.
Proof. reflexivity. Qed.

(** ** The invariants *)
Section Inv.
Variable fl : filt.
Variable chk : N -> bool.
Variable V : nat.
Variable skipped : list N.
Variable o : option buffer.
Variable b0 : buffer.
Variable g0 : group.

Notation ref := (refused skipped chk).

Record CINV (f : fstate) : Prop := {
  ci_keys : akeys (b_msgs (f_buf f)) = akeys (b_msgs b0);
  ci_acc : forall a, account_moved fl (ref a) (waiting a b0) (collected a g0)
                       (waiting a (f_buf f)) (of_acc a (f_msgs f));
  ci_tot : exists mv ex,
      Permutation (all_msgs (b_msgs b0)) (all_msgs (b_msgs (f_buf f)) ++ mv ++ ex) /\
      Permutation (all_msgs (f_msgs f)) (all_msgs (g_msgs g0) ++ mv) /\
      f_keys f = map m_key (filter is_int mv) /\ f_count f = length mv /\ f_expired f = length ex /\
      Forall (fun m => should_skip fl m = true) ex /\ Forall (fun m => keep fl m = true) mv /\
      b_int (f_buf f) = (b_int b0 - Z.of_nat (nint mv))%Z /\
      b_ext (f_buf f) = (b_ext b0 - Z.of_nat (next mv) - Z.of_nat (length ex))%Z;
  ci_min : b_min (f_buf f) = b_min b0;
  ci_skip0 : forall a, In a skipped -> In a (f_skip f);
  ci_skip : forall a, In a (f_skip f) -> ref a;
  ci_ne : forall a l, mget a (f_msgs f) = Some l -> l <> [];
  ci_nd : NoDup (akeys (f_msgs f));
  ci_tx : tx_from o (f_buf f) }.

(** A step of one account. *)
Lemma acc_take Rf w g w' g' p r :
  account_moved fl Rf w g w' g' -> w' = p ++ r -> ~ Rf ->
  account_moved fl Rf w g r (g' ++ filter (keep fl) p).
Proof.
  intros (p1 & r1 & -> & -> & H & _) -> NR. destruct H as [H|H].
  - exists (p1 ++ p), r. subst r1. rewrite app_assoc, filter_app, app_assoc.
    split; [reflexivity|]. split; [reflexivity|]. split; [now left|]. intros X; contradiction.
  - (* the rest was filtered before *)
    assert (exists p2 r2, r1 = p2 ++ r2 /\ filter (keep fl) p2 = p /\ filter (keep fl) r2 = r) as (p2 & r2 & -> & <- & <-).
    { clear - H. revert r1 H. induction p as [|m p IH]; intros r1 H.
      - exists [], r1. cbn. auto.
      - induction r1 as [|x r1 IHr]; cbn [filter] in H; [discriminate|].
        destruct (keep fl x) eqn:K.
        + cbn in H. injection H as -> H. destruct (IH _ H) as (p2 & r2 & -> & <- & <-).
          exists (x :: p2), r2. cbn [filter]. rewrite K. auto.
        + destruct (IHr H) as (p2 & r2 & -> & E1 & E2). exists (x :: p2), r2. cbn [filter]. rewrite K. auto. }
    exists (p1 ++ p2), r2. rewrite app_assoc, !filter_app, filter_filter_id, app_assoc.
    split; [reflexivity|]. split; [reflexivity|]. split; [now right|]. intros X; contradiction.
Qed.
Lemma acc_trim Rf w g w' g' :
  account_moved fl Rf w g w' g' -> account_moved fl Rf w g (filter (keep fl) w') g'.
Proof.
  intros (p & r & -> & -> & H & NR). exists p, r. split; [reflexivity|]. split; [reflexivity|].
  split; [|assumption]. right. destruct H as [->| ->]; [reflexivity|]. apply filter_filter_id.
Qed.

Lemma keys_after (m : amap N (list msg)) a l l' : mget a m = Some l -> akeys (mset a l' m) = akeys m.
Proof. apply akeys_set_same. Qed.

Lemma perm_shuffle (c e mv ex : list msg) : Permutation (c ++ e ++ mv ++ ex) (mv ++ c ++ ex ++ e).
Proof.
  transitivity (c ++ mv ++ ex ++ e); [|apply Permutation_app_swap_app].
  apply Permutation_app_head. rewrite (Permutation_app_comm e (mv ++ ex)), <- app_assoc. reflexivity.
Qed.

(** The totals after a part [p] of the messages of [a] has left the buffer. *)
Lemma perm_take (m : amap N (list msg)) a p r : mget a m = Some (p ++ r) ->
  Permutation (all_msgs m) (all_msgs (mset a r m) ++ filter (keep fl) p ++ expired fl p).
Proof.
  intros E. destruct (all_split a m) as (R & H1 & H2). rewrite H1. unfold of_acc. rewrite E.
  rewrite (H2 r). rewrite <- (keep_expired fl p). rewrite <- app_assoc.
  rewrite (Permutation_app_comm p). rewrite <- app_assoc. reflexivity.
Qed.
Lemma perm_trim (m : amap N (list msg)) a l : mget a m = Some l ->
  Permutation (all_msgs m) (all_msgs (mset a (filter (keep fl) l) m) ++ expired fl l).
Proof.
  intros E. destruct (all_split a m) as (R & H1 & H2). rewrite H1. unfold of_acc. rewrite E.
  rewrite (H2 (filter (keep fl) l)). rewrite (keep_expired fl l) at 1. rewrite <- !app_assoc.
  apply Permutation_app_head. apply Permutation_app_comm.
Qed.
Lemma perm_put (m : amap N (list msg)) a c :
  Permutation (all_msgs (mset a (of_acc a m ++ c) m)) (all_msgs m ++ c).
Proof.
  destruct (all_split a m) as (R & H1 & H2). rewrite (H2 _), H1. rewrite <- !app_assoc.
  apply Permutation_app_head, Permutation_app_comm.
Qed.

Lemma waiting_set a k l b i e n t : waiting k (mkB (mset a l (b_msgs b)) i e n t) = if N.eqb k a then l else waiting k b.
Proof. unfold waiting. cbn [b_msgs]. apply of_acc_set. Qed.

Lemma waiting_get a l b : mget a (b_msgs b) = Some l -> waiting a b = l.
Proof. unfold waiting, of_acc. now intros ->. Qed.

Lemma cinv_try_skip a f : CINV f -> CINV (try_skip fl a f).
Proof.
  intros IV. destruct (try_skip_cases fl a f) as [|l E]; [assumption|].
  destruct IV as [K A T M S0 S NE ND TX].
  constructor; cbn [f_buf f_msgs f_keys f_count f_expired f_skip].
  - unfold set_account. cbn [b_msgs]. rewrite save_msgs, (keys_after _ _ _ _ E). exact K.
  - intros k. unfold set_account. rewrite save_msgs, waiting_set.
    destruct (Neqs k a) as [->|Hn]; [|apply A]. rewrite <- (waiting_get _ _ _ E). apply acc_trim, A.
  - destruct T as (mv & ex & T1 & T2 & T3 & T4 & T5 & T6 & T7 & T8 & T9).
    exists mv, (ex ++ expired fl l). unfold set_account. cbn [b_msgs b_int b_ext save].
    split; [|split; [exact T2|split; [exact T3|split; [exact T4|split; [|split; [|split; [exact T7|split]]]]]]].
    + rewrite T1. rewrite (perm_trim _ _ _ E) at 1. rewrite <- !app_assoc.
      apply Permutation_app_head. rewrite (Permutation_app_comm (expired fl l)). rewrite <- !app_assoc. reflexivity.
    + rewrite app_length. lia.
    + apply Forall_app. split; [exact T6|apply expired_all].
    + rewrite T8. lia.
    + rewrite T9, app_length. lia.
  - exact M.
  - exact S0.
  - exact S.
  - exact NE.
  - exact ND.
  - unfold set_account. apply tx_from_save; [exact TX|exact E|].
    intros k Hk. cbn [b_msgs save]. rewrite (aget_aset N.eqb Neqs). destruct (Neqs k a); [contradiction|reflexivity].
Qed.

Lemma cinv_move a cx f : CINV f -> ~ ref a ->
  CINV (fst (move fl a cx f)).
Proof.
  intros IV NR. pose proof (move_cases fl a cx f (ci_ne _ IV a)) as MV.
  destruct IV as [K A T M S0 S NE ND TX].
  remember (fst (move fl a cx f)) as f' eqn:Ef. remember (snd (move fl a cx f)) as cx' eqn:Ecx. clear Ef Ecx.
  destruct MV as [E|l E Hz|l E Hc Hk|l p r c s E El Ec Hne Hle Hlt Es].
  - now constructor.
  - constructor; cbn [f_buf set_buf f_msgs f_keys f_count f_expired f_skip]; auto.
    unfold save. cbn. change (tx_from o (mkB (b_msgs (f_buf f)) (b_int (f_buf f)) (b_ext (f_buf f)) (b_min (f_buf f)) (b_tx (save a l (f_buf f))))).
    apply tx_from_save; auto.
  - pose proof (keep_expired fl l) as PL. rewrite Hk in PL. cbn [app] in PL.
    constructor; cbn [f_buf f_msgs f_keys f_count f_expired f_skip].
    + unfold set_account. cbn [b_msgs]. rewrite save_msgs, (keys_after _ _ _ _ E). exact K.
    + intros k. unfold set_account. rewrite save_msgs, waiting_set.
      destruct (Neqs k a) as [->|Hn]; [|apply A].
      assert (W : waiting a (f_buf f) = l ++ []) by (rewrite app_nil_r; now apply waiting_get).
      pose proof (acc_take _ _ _ _ _ l [] (A a) W NR) as X. rewrite Hk, app_nil_r in X. exact X.
    + destruct T as (mv & ex & T1 & T2 & T3 & T4 & T5 & T6 & T7 & T8 & T9).
      exists mv, (ex ++ expired fl l). unfold set_account. cbn [b_msgs b_int b_ext save].
      split; [|split; [exact T2|split; [exact T3|split; [exact T4|split; [|split; [|split; [exact T7|split]]]]]]].
      * rewrite T1. rewrite (perm_trim _ _ _ E) at 1. rewrite Hk. rewrite <- !app_assoc.
        apply Permutation_app_head. rewrite (Permutation_app_comm (expired fl l)). rewrite <- !app_assoc. reflexivity.
      * rewrite app_length. lia.
      * apply Forall_app. split; [exact T6|apply expired_all].
      * rewrite T8. lia.
      * rewrite T9, app_length. lia.
    + exact M.
    + exact S0.
    + exact S.
    + exact NE.
    + exact ND.
    + unfold set_account. apply tx_from_save; [exact TX|exact E|].
      intros k Hn. cbn [b_msgs save]. rewrite (aget_aset N.eqb Neqs). destruct (Neqs k a); [contradiction|reflexivity].
  - rewrite El in E.
    constructor; cbn [f_buf f_msgs f_keys f_count f_expired f_skip].
    + unfold set_account. cbn [b_msgs]. rewrite save_msgs, (keys_after _ _ _ _ E). exact K.
    + intros k. unfold set_account. rewrite save_msgs, waiting_set, of_acc_set.
      destruct (Neqs k a) as [->|Hn]; [|apply A]. rewrite Ec.
      eapply acc_take; [apply A| |exact NR]. now apply waiting_get.
    + destruct T as (mv & ex & T1 & T2 & T3 & T4 & T5 & T6 & T7 & T8 & T9).
      exists (mv ++ c), (ex ++ expired fl p). unfold set_account. cbn [b_msgs b_int b_ext save].
      split; [|split; [|split; [|split; [|split; [|split; [|split; [|split]]]]]]].
      * rewrite T1. rewrite (perm_take _ _ _ _ E) at 1. rewrite <- Ec. rewrite <- !app_assoc.
        apply Permutation_app_head. apply perm_shuffle.
      * rewrite perm_put, T2, <- app_assoc. reflexivity.
      * rewrite filter_app, map_app, T3. reflexivity.
      * rewrite app_length, T4. reflexivity.
      * rewrite app_length. lia.
      * apply Forall_app. split; [exact T6|apply expired_all].
      * apply Forall_app. split; [exact T7|rewrite Ec; apply kept_all].
      * rewrite T8, nint_app. lia.
      * rewrite T9, next_app, app_length. lia.
    + exact M.
    + exact S0.
    + exact S.
    + intros k v. rewrite (aget_aset N.eqb Neqs). destruct (Neqs k a) as [->|Hn]; [|apply NE].
      intros [= <-]. destruct (of_acc a (f_msgs f)); [exact Hne|discriminate].
    + now apply (aset_nodup N.eqb Neqs).
    + unfold set_account. subst l. apply tx_from_save; [exact TX|exact E|].
      intros k Hn. cbn [b_msgs save]. rewrite (aget_aset N.eqb Neqs). destruct (Neqs k a); [contradiction|reflexivity].
Qed.

Lemma cinv_slots f s l : CINV f -> CINV (set_last l (set_slots s f)).
Proof. intros [K A T M S0 S NE ND TX]. constructor; assumption. Qed.
Lemma cinv_slots1 f s : CINV f -> CINV (set_slots s f).
Proof. intros [K A T M S0 S NE ND TX]. constructor; assumption. Qed.

Lemma check_skip_spec a f sk f' : CINV f -> check_skip chk a f = (sk, f') ->
  CINV f' /\ f_slots f' = f_slots f /\ f_upds f' = f_upds f /\ f_last f' = f_last f /\ f_msgs f' = f_msgs f /\
  f_buf f' = f_buf f /\ (sk = true <-> ref a) /\ f_keys f' = f_keys f /\ f_count f' = f_count f.
Proof.
  intros IV E. unfold check_skip in E. destruct (existsb (N.eqb a) (f_skip f)) eqn:Ex.
  - injection E as <- <-. split; [assumption|]. repeat (split; [reflexivity|]). split; [|split; reflexivity]. split; [|reflexivity].
    intros _. apply existsb_exists in Ex as (x & Hx & Ea). apply N.eqb_eq in Ea. subst x. now apply (ci_skip _ IV).
  - assert (NI : ~ In a (f_skip f)).
    { intros Hin. apply Bool.not_true_iff_false in Ex. apply Ex. apply existsb_exists. exists a. split; [assumption|apply N.eqb_refl]. }
    destruct (chk a) eqn:Ec; injection E as <- <-.
    + split.
      { destruct IV as [K A T M S0 S NE ND TX]. constructor; cbn [set_skip f_buf f_msgs f_keys f_count f_expired f_skip]; auto.
        - intros k Hk. right. now apply S0.
        - intros k [<-|Hk]; [now right|now apply S]. }
      repeat (split; [reflexivity|]). split; [|split; reflexivity]. split; [|reflexivity]. intros _. now right.
    + split; [assumption|]. repeat (split; [reflexivity|]). split; [|split; reflexivity]. split; [discriminate|].
      intros [H|H]; [|congruence]. destruct (NI (ci_skip0 _ IV a H)).
Qed.

End Inv.
