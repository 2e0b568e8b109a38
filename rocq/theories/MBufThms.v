(** * MBufThms: C59 and C61, one call of [fill_message_group], for every buffer and group *)

From Coq Require Import List NArith ZArith Bool PeanoNat Permutation Lia.
From Verif Require Import AMap MBufModel MBufSpec MBufBasics MBufInv MBufSlots MBufLoops MBufStep2 MBufIndex MBufFill MBufTx.
Import ListNotations.

Lemma wf_strip b : wf_buffer b <-> wf_buffer (strip_b b).
Proof. split; intros [H1 H2 H3 H4 H5]; constructor; assumption. Qed.

Lemma fill_out fl chk SC V skipped g b : 1 <= V -> wf_buffer b -> wf_group V g ->
  exists r f, fill fl chk SC V skipped g b = Some r /\ OUT fl chk SC V skipped None (strip_b b) g (strip_r r) f.
Proof.
  intros HV WB WG. apply wf_strip in WB.
  destruct (fill_main fl chk SC V skipped None (strip_b b) g HV WB WG eq_refl) as (r0 & f & E & O).
  rewrite strip_fill in E. destruct (fill fl chk SC V skipped g b) as [r|]; [|discriminate].
  injection E as <-. exists r, f. auto.
Qed.

(** ** C59 *)

(** A call never fails: no counter underflows, every slot it looks up exists, its loops end. And
    what it leaves can be used for the next call. *)
Theorem fill_total fl chk SC V skipped g b : 1 <= V -> wf_buffer b -> wf_group V g ->
  exists r, fill fl chk SC V skipped g b = Some r /\ wf_buffer (r_buf r) /\ wf_group V (r_group r).
Proof.
  intros HV WB WG. destruct (fill_out fl chk SC V skipped g b HV WB WG) as (r & f & E & O).
  exists r. split; [assumption|]. split.
  - apply wf_strip. change (wf_buffer (r_buf (strip_r r))). exact (out_buffer _ _ _ _ _ _ _ _ HV (proj1 (wf_strip b) WB) _ _ O).
  - change (wf_group V (r_group (strip_r r))). exact (out_group _ _ _ _ _ _ _ _ HV (proj1 (wf_strip b) WB) WG _ _ O).
Qed.

(** For every account: the group gets a prefix of what waits for it, without the expired messages,
    after what it had; the rest keeps waiting, in order. A refused account gets nothing. *)
Theorem fill_accounts fl chk SC V skipped g b r : 1 <= V -> wf_buffer b -> wf_group V g ->
  fill fl chk SC V skipped g b = Some r -> forall a,
  account_moved fl (refused skipped chk a) (waiting a b) (collected a g) (waiting a (r_buf r)) (collected a (r_group r)).
Proof.
  intros HV WB WG E a. destruct (fill_out fl chk SC V skipped g b HV WB WG) as (r1 & f & E1 & O).
  assert (r1 = r) as -> by congruence. destruct (ou_inv _ _ _ _ _ _ _ _ _ _ O) as [C S].
  change (waiting a (r_buf r)) with (waiting a (r_buf (strip_r r))). rewrite (ou_buf _ _ _ _ _ _ _ _ _ _ O).
  rewrite waiting_finish by (rewrite (ci_keys _ _ _ _ _ _ _ C); apply (wb_keys _ WB)).
  unfold collected at 2. change (g_msgs (r_group r)) with (g_msgs (r_group (strip_r r))). rewrite (ou_msgs _ _ _ _ _ _ _ _ _ _ O).
  exact (ci_acc _ _ _ _ _ _ _ C a).
Qed.

(** Over all accounts: every message stays, is put into the group, or is dropped as expired, once;
    the reported keys and numbers are those of the messages put into the group and dropped. *)
Theorem fill_conserves fl chk SC V skipped g b r : 1 <= V -> wf_buffer b -> wf_group V g ->
  fill fl chk SC V skipped g b = Some r ->
  exists moved dropped,
    Permutation (all_msgs (b_msgs b)) (all_msgs (b_msgs (r_buf r)) ++ moved ++ dropped) /\
    Permutation (all_msgs (g_msgs (r_group r))) (all_msgs (g_msgs g) ++ moved) /\
    r_keys r = map m_key (filter is_int moved) /\ r_count r = length moved /\ r_expired r = length dropped /\
    Forall (fun m => should_skip fl m = true) dropped /\ Forall (fun m => should_skip fl m = false) moved.
Proof.
  intros HV WB WG E. destruct (fill_out fl chk SC V skipped g b HV WB WG) as (r1 & f & E1 & O).
  assert (r1 = r) as -> by congruence. destruct (ou_inv _ _ _ _ _ _ _ _ _ _ O) as [C S].
  destruct (ci_tot _ _ _ _ _ _ _ C) as (mv & ex & T1 & T2 & T3 & T4 & T5 & T6 & T7 & _).
  destruct (ou_res _ _ _ _ _ _ _ _ _ _ O) as (_ & R2 & R3 & R4). cbn [strip_r r_keys r_count r_expired] in R2, R3, R4.
  exists mv, ex. change (b_msgs (r_buf r)) with (b_msgs (r_buf (strip_r r))). rewrite (ou_buf _ _ _ _ _ _ _ _ _ _ O).
  unfold finish. cbn [b_msgs]. fold (nonempty (b_msgs (f_buf f))). rewrite nonempty_all.
  change (g_msgs (r_group r)) with (g_msgs (r_group (strip_r r))). rewrite (ou_msgs _ _ _ _ _ _ _ _ _ _ O).
  split; [exact T1|]. split; [exact T2|]. split; [congruence|]. split; [congruence|]. split; [congruence|].
  split; [exact T6|]. eapply Forall_impl; [|exact T7]. intros m H. unfold keep in H. now apply negb_true_iff in H.
Qed.

(** There are never more slots than asked for or present before; the accounts known to be skipped
    are those given and those the check refused. *)
Theorem fill_slots fl chk SC V skipped g b r : 1 <= V -> wf_buffer b -> wf_group V g ->
  fill fl chk SC V skipped g b = Some r ->
  length (g_slots (r_group r)) <= Nat.max SC (length (g_slots g)) /\
  (forall a, In a skipped -> In a (r_skip r)) /\ (forall a, In a (r_skip r) -> refused skipped chk a).
Proof.
  intros HV WB WG E. destruct (fill_out fl chk SC V skipped g b HV WB WG) as (r1 & f & E1 & O).
  assert (r1 = r) as -> by congruence. destruct (ou_inv _ _ _ _ _ _ _ _ _ _ O) as [C S].
  change (g_slots (r_group r)) with (g_slots (r_group (strip_r r))). rewrite (ou_slots _ _ _ _ _ _ _ _ _ _ O).
  split; [apply (ou_len _ _ _ _ _ _ _ _ _ _ O)|].
  destruct (ou_res _ _ _ _ _ _ _ _ _ _ O) as (R1 & _). cbn [strip_r r_skip] in R1. rewrite R1.
  split; [exact (ci_skip0 _ _ _ _ _ _ _ C)|exact (ci_skip _ _ _ _ _ _ _ C)].
Qed.

(** The caller asks for the filter only when the least chain time is below the threshold: when it
    is not, no waiting message is expired. *)
Theorem cheap_check_sound b t : wf_buffer b -> (t <= min_ext_chain_time b)%N ->
  forall a m, In m (waiting a b) -> should_skip (SkipExpired t) m = false.
Proof.
  intros WB H a m Hm. unfold should_skip. destruct (m_ext m) as [ct|] eqn:E; [|reflexivity].
  assert (In m (all_msgs (b_msgs b))) as Hin.
  { unfold waiting, of_acc in Hm. destruct (mget a (b_msgs b)) as [l|] eqn:El; [|destruct Hm].
    apply (aget_some_in N.eqb Neqs) in El. unfold all_msgs. apply in_concat. exists l. split; [|assumption].
    apply in_map_iff. exists (a, l). auto. }
  destruct (wb_min _ WB m ct Hin E) as (c & Ec & Hc). unfold min_ext_chain_time in H. rewrite Ec in H.
  apply N.ltb_ge. now apply N.le_trans with c.
Qed.

(** An expired message is kept only behind a message the account just got into the group. *)
Theorem fill_drops_expired fl chk SC V skipped g b r : 1 <= V -> wf_buffer b -> wf_group V g ->
  fill fl chk SC V skipped g b = Some r -> forall a,
  length (collected a g) < length (collected a (r_group r)) \/
  forall m, In m (waiting a (r_buf r)) -> should_skip fl m = false.
Proof.
  intros HV WB WG E a. destruct (fill_out fl chk SC V skipped g b HV WB WG) as (r1 & f & E1 & O).
  assert (r1 = r) as -> by congruence. destruct (ou_inv _ _ _ _ _ _ _ _ _ _ O) as [C S].
  change (waiting a (r_buf r)) with (waiting a (r_buf (strip_r r))). rewrite (ou_buf _ _ _ _ _ _ _ _ _ _ O).
  rewrite waiting_finish by (rewrite (ci_keys _ _ _ _ _ _ _ C); apply (wb_keys _ WB)).
  unfold collected at 2. change (g_msgs (r_group r)) with (g_msgs (r_group (strip_r r))). rewrite (ou_msgs _ _ _ _ _ _ _ _ _ _ O).
  destruct (ou_cln _ _ _ _ _ _ _ _ _ _ O a) as [H|H]; auto.
Qed.

(** ** C61: nothing that could be taken is left out *)
Theorem fill_maximal fl chk SC V skipped g b r : 1 <= V -> wf_buffer b -> wf_group V g ->
  fill fl chk SC V skipped g b = Some r ->
  forall a, waiting a (r_buf r) <> [] -> ~ refused skipped chk a ->
  in_full_slot V a (r_group r) \/
  (SC <= length (g_slots (r_group r)) /\ forall id s, sget id (g_slots (r_group r)) = Some s -> s_count s = V).
Proof.
  intros HV WB WG E a W NR. destruct (fill_out fl chk SC V skipped g b HV WB WG) as (r1 & f & E1 & O).
  assert (r1 = r) as -> by congruence. destruct (ou_inv _ _ _ _ _ _ _ _ _ _ O) as [C S].
  change (waiting a (r_buf r)) with (waiting a (r_buf (strip_r r))) in W. rewrite (ou_buf _ _ _ _ _ _ _ _ _ _ O) in W.
  rewrite waiting_finish in W by (rewrite (ci_keys _ _ _ _ _ _ _ C); apply (wb_keys _ WB)).
  unfold in_full_slot. change (g_slots (r_group r)) with (g_slots (r_group (strip_r r))). rewrite (ou_slots _ _ _ _ _ _ _ _ _ _ O).
  destruct (ou_max _ _ _ _ _ _ _ _ _ _ O a W NR) as [H|[H1 H2]]; [now left|right; auto].
Qed.

(** ** Other changes of a buffer *)
Lemma wf_empty : wf_buffer b_empty.
Proof. constructor; cbn; try constructor; try discriminate; contradiction. Qed.
Lemma wf_group_empty V : wf_group V g_empty.
Proof.
  constructor; cbn; try constructor; try discriminate; try contradiction; try reflexivity.
  - intros (i & s & E & _). discriminate.
  - intros id [|n]; contradiction.
Qed.

Lemma add_msgs m b : b_msgs (add_message m b) = mset (m_acc m) (of_acc (m_acc m) (b_msgs b) ++ [m]) (b_msgs b).
Proof.
  unfold add_message, of_acc. destruct (is_ext m); cbn [b_msgs]; destruct (mget (m_acc m) (b_msgs b)); reflexivity.
Qed.
Lemma add_waiting m b a : waiting a (add_message m b) = waiting a b ++ (if N.eqb a (m_acc m) then [m] else []).
Proof.
  unfold waiting. rewrite add_msgs, of_acc_set. destruct (Neqs a (m_acc m)) as [->|]; rewrite ?app_nil_r; reflexivity.
Qed.

Theorem add_wf m b : wf_buffer b -> wf_buffer (add_message m b).
Proof.
  intros [K A I1 E1 M].
  assert (ALL : Permutation (all_msgs (b_msgs (add_message m b))) (all_msgs (b_msgs b) ++ [m]))
    by (rewrite add_msgs; apply perm_put).
  pose proof (add_msgs m b) as KE.
  assert (CN : b_int (add_message m b) = (b_int b + Z.of_nat (nint [m]))%Z /\ b_ext (add_message m b) = (b_ext b + Z.of_nat (next [m]))%Z /\
               b_min (add_message m b) = if is_ext m then update_min (m_ext m) (b_min b) else b_min b).
  { unfold add_message, nint, next, is_int. cbn [filter]. destruct (is_ext m); cbn [negb length];
    cbn [b_msgs]; destruct (mget (m_acc m) (b_msgs b)); cbn [b_int b_ext b_min set_msgs save b_msgs];
    (split; [lia|split; [lia|reflexivity]]). }
  destruct CN as (N1 & N2 & N3).
  constructor.
  - rewrite KE. now apply (aset_nodup N.eqb Neqs).
  - intros a l. rewrite KE, (aget_aset N.eqb Neqs). destruct (Neqs a (m_acc m)) as [->|]; [|apply A].
    intros [= <-]. split; [intros H; apply app_eq_nil in H; destruct H; discriminate|].
    apply Forall_app. split; [|constructor; [reflexivity|constructor]].
    unfold of_acc. destruct (mget (m_acc m) (b_msgs b)) as [v|] eqn:Ev; [now apply A in Ev|constructor].
  - rewrite N1, I1, (nint_perm _ _ ALL), nint_app. lia.
  - rewrite N2, E1, (next_perm _ _ ALL), next_app. lia.
  - intros x ct Hx Hct. apply (Permutation_in _ ALL) in Hx. rewrite N3. apply in_app_or in Hx as [Hx|[<-|[]]].
    + destruct (M x ct Hx Hct) as (c & Ec & Hc). rewrite Ec. destruct (is_ext m); [|eauto].
      unfold update_min. destruct (m_ext m) as [c1|]; [|eauto]. destruct (N.ltb_spec c1 c) as [H|H]; [|eauto].
      exists c1. split; [reflexivity|]. apply N.le_trans with c; [now apply N.lt_le_incl|assumption].
    + unfold is_ext. rewrite Hct. cbn [update_min]. destruct (b_min b) as [c|]; [|exists ct; split; [reflexivity|apply N.le_refl]].
      destruct (N.ltb_spec ct c) as [H|H]; eexists; (split; [reflexivity|]); [apply N.le_refl|assumption].
Qed.

(** Removing accounts whose messages are internal. *)
Definition only_int (rm : N -> bool) (b : buffer) : Prop :=
  forall a m, rm a = true -> In m (waiting a b) -> is_int m = true.

Lemma retain_spec rm l : forall b k b', retain_accounts rm l b = (k, b') ->
  k = filter (fun e : N * list msg => negb (rm (fst e))) l /\ b_msgs b' = b_msgs b /\ b_ext b' = b_ext b /\ b_min b' = b_min b /\
  b_int b' = (b_int b - Z.of_nat (length (all_msgs (filter (fun e : N * list msg => rm (fst e)) l))))%Z.
Proof.
  induction l as [|[a v] l IH]; intros b k b' E; cbn [retain_accounts] in E.
  - injection E as <- <-. cbn. repeat split; lia.
  - cbn [filter fst]. destruct (rm a) eqn:R; cbn [negb].
    + apply IH in E as (H1 & H2 & H3 & H4 & H5). cbn [b_msgs b_ext b_min b_int save] in *.
      split; [assumption|]. split; [assumption|]. split; [assumption|]. split; [assumption|].
      rewrite H5. unfold all_msgs. cbn [map snd concat]. rewrite app_length. lia.
    + destruct (retain_accounts rm l b) as [k1 b1] eqn:E1. injection E as <- <-.
      destruct (IH _ _ _ E1) as (-> & H). auto.
Qed.

Lemma filter_split (h : N * list msg -> bool) (m : amap N (list msg)) :
  Permutation (all_msgs m) (all_msgs (filter (fun e => negb (h e)) m) ++ all_msgs (filter h m)).
Proof.
  unfold all_msgs. induction m as [|e m IH]; [constructor|]. cbn [filter map concat].
  destruct (h e); cbn [negb map concat].
  - rewrite IH at 1. apply Permutation_app_swap_app.
  - rewrite <- app_assoc. now apply Permutation_app_head.
Qed.

Lemma filter_get (rm : N -> bool) (m : amap N (list msg)) a :
  mget a (filter (fun e : N * list msg => negb (rm (fst e))) m) = if rm a then None else mget a m.
Proof.
  induction m as [|[k v] m IH]; cbn [filter fst aget]; [now destruct (rm a)|].
  destruct (rm k) eqn:R; cbn [negb].
  - rewrite IH. destruct (Neqs a k) as [->|]; [now rewrite R|reflexivity].
  - cbn [aget]. rewrite IH. destruct (Neqs a k) as [->|]; [now rewrite R|reflexivity].
Qed.

Theorem remove_waiting rm b a : waiting a (remove_int_messages rm b) = if rm a then [] else waiting a b.
Proof.
  unfold remove_int_messages. destruct (retain_accounts rm (b_msgs b) b) as [k b'] eqn:E.
  destruct (retain_spec _ _ _ _ _ E) as (-> & _). unfold waiting, of_acc. cbn [set_msgs b_msgs]. rewrite filter_get.
  now destruct (rm a).
Qed.

Theorem remove_wf rm b : wf_buffer b -> only_int rm b -> wf_buffer (remove_int_messages rm b).
Proof.
  intros [K A I1 E1 M] OI.
  unfold remove_int_messages. destruct (retain_accounts rm (b_msgs b) b) as [k b'] eqn:E.
  destruct (retain_spec _ _ _ _ _ E) as (-> & H2 & H3 & H4 & H5).
  set (rest := filter (fun e : N * list msg => negb (rm (fst e))) (b_msgs b)) in *.
  set (gone := filter (fun e : N * list msg => rm (fst e)) (b_msgs b)) in *.
  assert (P : Permutation (all_msgs (b_msgs b)) (all_msgs rest ++ all_msgs gone)) by (apply (filter_split (fun e => rm (fst e)))).
  assert (GI : Forall (fun m => is_int m = true) (all_msgs gone)).
  { apply Forall_forall. intros m Hm. unfold all_msgs in Hm. apply in_concat in Hm as (l & Hl & Hm).
    apply in_map_iff in Hl as ((a & l') & <- & Hl). cbn [snd] in Hm. unfold gone in Hl. apply filter_In in Hl as [Hl R].
    cbn [fst] in R. apply (OI a m R). apply (aget_in N.eqb Neqs _ _ _ K) in Hl. unfold waiting, of_acc. now rewrite Hl. }
  assert (GN : nint (all_msgs gone) = length (all_msgs gone) /\ next (all_msgs gone) = 0).
  { clear -GI. induction GI as [|m l H _ [IH1 IH2]]; [split; reflexivity|]. unfold nint, next in *. cbn [filter]. rewrite H.
    unfold is_int in H. apply negb_true_iff in H. rewrite H. cbn [length]. lia. }
  constructor; unfold set_msgs; cbn [b_msgs b_int b_ext b_min].
  - unfold rest. clear -K. unfold akeys in *. induction (b_msgs b) as [|[a v] m IH]; [constructor|]. cbn [map fst] in K.
    inversion K as [|? ? NI ND]; subst. cbn [filter fst]. destruct (negb (rm a)); [|now apply IH]. cbn [map fst].
    constructor; [|now apply IH]. intros H. apply NI. apply in_map_iff in H as ((x & y) & E & H).
    apply filter_In in H as [H _]. apply in_map_iff. exists (x, y). auto.
  - intros a l. unfold rest. rewrite filter_get. destruct (rm a); [discriminate|]. apply A.
  - rewrite H5, I1, (nint_perm _ _ P), nint_app. lia.
  - rewrite H3, E1, (next_perm _ _ P), next_app. lia.
  - rewrite H4. intros m ct Hm. apply M. apply (Permutation_in _ (Permutation_sym P)), in_or_app. now left.
Qed.

(** A buffer is full when it holds that many messages. *)
Theorem is_full_exact max b : wf_buffer b ->
  (b_is_full max b = true <-> (max <= Z.of_nat (length (all_msgs (b_msgs b))))%Z).
Proof.
  intros WB. unfold b_is_full, msgs_count. rewrite Z.leb_le, (wb_int _ WB), (wb_ext _ WB).
  rewrite <- (int_ext_len (all_msgs (b_msgs b))). lia.
Qed.
