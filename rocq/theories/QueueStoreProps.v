(** Properties C05-C10 and C31: the persistent internal message queue.
    Vocabulary (QueueStoreSpec.v): [msg_at], [stat_at], [tail_at], [info_at], [ptr_at] are point reads of the
    queue tables; [reach z tr q] says that [q] is reached from the empty queue by the history [tr]. *)
From Verif Require Import QueueStoreModel QueueStoreSpec QueueStoreProofs QueueStoreInv QueueStoreOps QueueStoreApply QueueStoreHist QueueHistory QueueExtra QueueMore QueueKeysProofs.
From Coq Require Import ZifyBool ZifyN ZifyNat Lia.
Local Open Scope N_scope.

(** *** C05: what a restart discards *)
Theorem C05_clear_messages : forall z tr q parts tops, reach z tr q ->
  Forall (fun p => p < 2 ^ 16) parts -> Forall sh_ok tops ->
  exists st', clear_uncommitted parts tops (q_st q) = Some st' /\
   (forall s, ptr_at st' s = ptr_at (q_st q) s) /\ st_mc st' = st_mc (q_st q) /\
   (forall p s k, p < 2 ^ 16 -> sh_ok s -> qk_ok k ->
      msg_at st' p s k =
      if existsb (N.eqb p) parts && discarded (q_st q) tops s k then None else msg_at (q_st q) p s k).
Proof.
  intros z tr q parts tops Hr Hp Ht. pose proof (qi_st _ (reach_inv _ _ _ Hr)) as Hi.
  destruct (clear_spec (q_st q) parts tops Hi Hp Ht) as (st' & A & _ & B & C & D & _).
  exists st'. split; [exact A|]. split; [exact B|]. split; [exact C|]. intros p s k H1 H2 H3. apply D. repeat split; auto; apply H3 || apply H2.
Qed.
Print Assumptions C05_clear_messages.

Theorem C05_clear_diffs : forall z tr q parts tops st', reach z tr q ->
  Forall (fun p => p < 2 ^ 16) parts -> Forall sh_ok tops -> parts <> [] ->
  clear_uncommitted parts tops (q_st q) = Some st' ->
  (forall s k, sh_ok s -> qk_ok k -> tail_at st' s k =
      if discarded (q_st q) tops s k then None else tail_at (q_st q) s k) /\
  (forall s n, sh_ok s -> n < 2 ^ 32 -> info_at st' s n =
      match info_at (q_st q) s n with
      | Some d => if discarded (q_st q) tops s (di_max d) then None else Some d
      | None => None end).
Proof.
  intros z tr q parts tops st' Hr Hp Ht Hne Hc. pose proof (qi_st _ (reach_inv _ _ _ Hr)) as Hi.
  destruct (clear_spec (q_st q) parts tops Hi Hp Ht) as (st2 & A & _ & _ & _ & _ & B & C & _).
  assert (st2 = st') by congruence. subst st2. split; intros; [apply B|apply C]; auto.
Qed.
Print Assumptions C05_clear_diffs.

(** Statistics: everything at or below the pointer is kept; everything above is removed, except possibly a record whose
    max key is exactly the first key above the pointer (see the refutation below). Missing for the full C05: that one key. *)
Theorem C05_clear_statistics_partial : forall z tr q parts tops st', reach z tr q ->
  Forall (fun p => p < 2 ^ 16) parts -> Forall sh_ok tops -> clear_uncommitted parts tops (q_st q) = Some st' ->
  forall s p k d, sh_ok s -> p < 2 ^ 16 -> qk_ok k -> ra_ok d ->
  (existsb (N.eqb p) parts && discarded (q_st q) tops s k = false -> stat_at st' s p k d = stat_at (q_st q) s p k d) /\
  (existsb (N.eqb p) parts && discarded (q_st q) tops s k = true -> qk_ltb k qk_max = true ->
   (forall pt, ptr_at (q_st q) s = Some pt -> k <> next_value (pv_key pt)) ->
   (ptr_at (q_st q) s = None -> k <> qk_min) -> stat_at st' s p k d = None).
Proof.
  intros z tr q parts tops st' Hr Hp Ht Hc s p k d H1 H2 H3 H4. apply clear_stats; auto.
  - exact (qi_st _ (reach_inv _ _ _ Hr)).
  - exact (conj H1 (conj H2 (conj H3 H4))).
Qed.
Print Assumptions C05_clear_statistics_partial.

(** *** C06: deleting ranges *)
(** a range hits a key of its shard and partition *)
Definition range_hits (s : shard) (k : qkey) (r : qrange) : bool := sh_eqb (qr_shard r) s && in_keys (qr_from r) (qr_to r) k.
Definition range_hits_part (p : N) (s : shard) (k : qkey) (r : qrange) : bool := (qr_part r =? p) && range_hits s k r.

Theorem C06_delete_exact : forall z tr q ranges, reach z tr q ->
  Forall (fun r => sh_ok (qr_shard r) /\ qr_part r < 2 ^ 16 /\ qk_ok (qr_from r) /\ qk_ok (qr_to r) /\
                   qk_leb (qr_from r) (qr_to r) = true) ranges ->
  exists st', delete ranges (q_st q) = Some st' /\ (forall s, ptr_at st' s = ptr_at (q_st q) s) /\
   (forall p s k, p < 2 ^ 16 -> sh_ok s -> qk_ok k ->
      msg_at st' p s k = if existsb (range_hits_part p s k) ranges then None else msg_at (q_st q) p s k) /\
   (forall s k, sh_ok s -> qk_ok k ->
      tail_at st' s k = if existsb (range_hits s k) ranges then None else tail_at (q_st q) s k) /\
   (forall s n, sh_ok s -> n < 2 ^ 32 -> info_at st' s n =
      match info_at (q_st q) s n with
      | Some d => if existsb (range_hits s (di_max d)) ranges then None else Some d
      | None => None end).
Proof.
  intros z tr q ranges Hr Hok. pose proof (qi_st _ (reach_inv _ _ _ Hr)) as Hi.
  destruct (delete_total ranges (q_st q) (inv_wf _ Hi)) as (st' & E & _). exists st'. split; [exact E|].
  split. { intros s. apply ptr_at_same. apply (delete_ptrs _ _ _ _ E). }
  split; [|split].
  - intros p s k H1 H2 H3. rewrite (delete_msgs ranges (q_st q) st' p s k (inv_wf _ Hi) Hok); [|exact (conj H1 (conj H2 H3))|exact E].
    replace (existsb (range_hits_part p s k) ranges) with (existsb (covers_msg p s k) ranges); [reflexivity|].
    clear. induction ranges as [|r l IH]; cbn [existsb]; auto. rewrite IH. f_equal. unfold covers_msg, range_hits_part, range_hits.
    now rewrite andb_assoc.
  - intros s k H1 H2. exact (delete_tails ranges (q_st q) st' s k (inv_wf _ Hi) Hok (conj H1 H2) E).
  - intros s n H1 H2. exact (delete_infos ranges (q_st q) st' s n Hi Hok H1 H2 E).
Qed.
Print Assumptions C06_delete_exact.

(** *** C07: statistics of a deleted range *)
(** exact effect: inside the open interval everything goes; at the two end points it depends on the sign of the
    workchain of the destination, because the end point keys are built with the minimum and maximum address while
    the workchain is stored as an unsigned byte. Missing for the full C07: the end points. *)
Theorem C07_statistics_partial : forall z tr q r st' s p k d, reach z tr q ->
  sh_ok (qr_shard r) -> qr_part r < 2 ^ 16 -> qk_ok (qr_from r) -> qk_ok (qr_to r) -> qk_ltb (qr_from r) (qr_to r) = true ->
  sh_ok s -> p < 2 ^ 16 -> qk_ok k -> ra_ok d ->
  delete [r] (q_st q) = Some st' ->
  stat_at st' s p k d =
    if sh_eqb (qr_shard r) s && (qr_part r =? p) &&
       ((qk_ltb (qr_from r) k && qk_ltb k (qr_to r)) ||
        (qk_ltb (qr_from r) k && qk_leb k (qr_to r) && (0 <=? ra_wc d)%Z) ||
        (qk_leb (qr_from r) k && qk_ltb k (qr_to r) && (ra_wc d <? 0)%Z))
    then None else stat_at (q_st q) s p k d.
Proof.
  intros z tr q r st' s p k d Hr H1 H2 H3 H4 H5 H6 H7 H8 H9 Hd. pose proof (qi_st _ (reach_inv _ _ _ Hr)) as Hi.
  assert (Hle : qk_leb (qr_from r) (qr_to r) = true) by (clear - H5; qk).
  exact (delete_one_stats (q_st q) (q_st q) r st' s p k d (inv_wf _ Hi) (conj H1 (conj H2 (conj H3 (conj H4 Hle)))) H5
           (conj H6 (conj H7 (conj H8 H9))) Hd).
Qed.
Print Assumptions C07_statistics_partial.

(** ** A concrete history used below *)
Definition shA : shard := SH 0 (2 ^ 63).
Definition shM : shard := SH (-1) (2 ^ 63).
Definition acc0 (n : N) : raddr := RA 0 n.
Definition accm (n : N) : raddr := RA (-1) n.
Definition mkm (lt : N) (src dst : raddr) : qkey * msg := (QK lt lt, MSG (QK lt lt) src dst 7).
Definition dA1 : qdiff := QD [mkm 5 (acc0 1) (acc0 2); mkm 10 (acc0 1) (accm 3)] [(shM, QK 5 5); (shA, QK 10 10)] rt_empty.
Definition dM1 : qdiff := QD [mkm 15 (accm 3) (acc0 1); mkm 20 (accm 3) (accm 4)] [(shM, QK 20 20); (shA, QK 10 10)] rt_empty.
Definition dM2 : qdiff := QD [mkm 25 (accm 3) (acc0 1)] [(shM, QK 30 0); (shA, QK 10 10)] rt_empty.
Definition opA1 := OpApply dA1 shA 1 101 (from_diff dA1 shA (QK 5 5) (QK 10 10)) (Some ZBoth).
Definition opM1 := OpApply dM1 shM 1 201 (from_diff dM1 shM (QK 15 15) (QK 20 20)) (Some ZBoth).
Definition opM2 := OpApply dM2 shM 2 202 (from_diff dM2 shM (QK 25 25) (QK 25 25)) (Some ZUncommitted).
Definition cm1 := OpCommit [TB shM 1 1 true; TB shA 1 1 true] [0; 1].
Definition cm2 := OpCommit [TB shM 2 2 true; TB shA 1 1 false] [0; 1].
Definition hist1 := [opA1; opM1; cm1].
Definition hist2 := [opA1; opM1; cm1; opM2].
Definition hist3 := [opA1; opM1; cm1; OpGc; opM2; cm2].
Definition state_of (h : list qop) : qstate := match run_check (q_init 0) [] h with Some (q, _) => q | None => q_init 0 end.
Definition trace_of (h : list qop) : list (qstate * qop) := match run_check (q_init 0) [] h with Some (_, t) => t | None => [] end.
Lemma state_of_reach h : match run_check (q_init 0) [] h with Some _ => true | None => false end = true ->
  reach 0 (trace_of h) (state_of h).
Proof.
  intros H. destruct (run_check (q_init 0) [] h) as [[q t]|] eqn:E; [|discriminate].
  unfold trace_of, state_of. rewrite E. eapply run_check_reach; [constructor|exact E].
Qed.
Example hist1_reach : reach 0 (trace_of hist1) (state_of hist1).
Proof. apply state_of_reach. vm_compute. reflexivity. Qed.
Example hist2_reach : reach 0 (trace_of hist2) (state_of hist2).
Proof. apply state_of_reach. vm_compute. reflexivity. Qed.
Example hist3_reach : reach 0 (trace_of hist3) (state_of hist3).
Proof. apply state_of_reach. vm_compute. reflexivity. Qed.

Definition ismsg (st : store) p s k : bool := match msg_at st p s k with Some _ => true | None => false end.
Definition isstat (st : store) s p k d : bool := match stat_at st s p k d with Some _ => true | None => false end.

(** C05 example: the uncommitted diff M2 is discarded by a restart, the committed messages stay *)
Example C05_example :
  ismsg (q_st (state_of hist2)) 0 shM (QK 25 25) = true /\ ismsg (q_st (state_of hist2)) 0 shM (QK 20 20) = true /\
  match clear_uncommitted [0; 1] [shM; shA] (q_st (state_of hist2)) with
  | Some st => ismsg st 0 shM (QK 25 25) = false /\ ismsg st 0 shM (QK 20 20) = true /\ ismsg st 0 shA (QK 5 5) = true
  | None => False end.
Proof. vm_compute. repeat split. Qed.

(** C05 refutation at the boundary: the first key above the pointer (20,20) is (20,21); a diff with that max key is
    uncommitted, yet its statistics for a workchain 0 destination survive the restart. *)
Definition dM2b : qdiff := QD [(QK 20 21, MSG (QK 20 21) (accm 3) (acc0 1) 7)] [(shM, QK 20 20)] rt_empty.
Definition opM2b := OpApply dM2b shM 2 203 (from_diff dM2b shM (QK 20 21) (QK 20 21)) (Some ZUncommitted).
Theorem C05_clear_statistics_refuted : exists z tr q parts tops st' s p k d, reach z tr q /\
  Forall (fun p => p < 2 ^ 16) parts /\ Forall sh_ok tops /\ clear_uncommitted parts tops (q_st q) = Some st' /\
  sh_ok s /\ p < 2 ^ 16 /\ qk_ok k /\ ra_ok d /\ In p parts /\ discarded (q_st q) tops s k = true /\ stat_at st' s p k d <> None.
Proof.
  destruct (clear_uncommitted [0; 1] [shM; shA] (q_st (state_of [opA1; opM1; cm1; opM2b]))) as [st'|] eqn:E; [|vm_compute in E; discriminate].
  exists 0, (trace_of [opA1; opM1; cm1; opM2b]), (state_of [opA1; opM1; cm1; opM2b]), [0; 1], [shM; shA], st', shM, 0, (QK 20 21), (acc0 1).
  split. { apply state_of_reach. vm_compute. reflexivity. }
  split. { repeat constructor. } split. { repeat constructor; vm_compute; congruence. }
  split; [exact E|]. vm_compute in E. injection E as <-.
  split; [repeat split; vm_compute; congruence|]. split; [reflexivity|]. split; [split; vm_compute; reflexivity|].
  split; [repeat split; vm_compute; congruence|]. split; [left; reflexivity|]. split; [vm_compute; reflexivity|]. vm_compute. congruence.
Qed.
Print Assumptions C05_clear_statistics_refuted.

(** C06 example: deleting [6,10] of shard A removes exactly the message (10,10) and diff A1 *)
Example C06_example :
  match delete [QR shA 0 (QK 6 0) (QK 10 10)] (q_st (state_of hist1)) with
  | Some st => ismsg st 0 shA (QK 10 10) = false /\ ismsg st 0 shA (QK 5 5) = true /\ ismsg st 0 shM (QK 15 15) = true /\
               info_at st shA 1 = None /\ info_at st shM 1 <> None
  | None => False end.
Proof. vm_compute. repeat split; congruence. Qed.

(** C07 refutation: GC of shard M up to and including (20,20), the max key of diff M1, leaves the statistics record
    for the masterchain destination in place (while the record for the workchain 0 destination is removed). *)
Theorem C07_statistics_refuted : exists z tr q r st' s p k d, reach z tr q /\ delete [r] (q_st q) = Some st' /\
  sh_ok (qr_shard r) /\ qk_ok (qr_from r) /\ qk_ok (qr_to r) /\ qr_shard r = s /\ qr_part r = p /\
  qk_leb (qr_from r) k = true /\ qk_leb k (qr_to r) = true /\ ra_ok d /\
  stat_at (q_st q) s p k d <> None /\ stat_at st' s p k d <> None.
Proof.
  destruct (delete [QR shM 0 (QK 0 0) (QK 20 20)] (q_st (state_of hist1))) as [st'|] eqn:E; [|vm_compute in E; discriminate].
  exists 0, (trace_of hist1), (state_of hist1), (QR shM 0 (QK 0 0) (QK 20 20)), st', shM, 0, (QK 20 20), (accm 4).
  split; [exact hist1_reach|]. split; [exact E|]. vm_compute in E. injection E as <-.
  split; [repeat split; vm_compute; congruence|]. split; [split; vm_compute; reflexivity|]. split; [split; vm_compute; reflexivity|].
  do 2 (split; [reflexivity|]). do 2 (split; [vm_compute; reflexivity|]).
  split; [repeat split; vm_compute; congruence|]. split; vm_compute; congruence.
Qed.
Print Assumptions C07_statistics_refuted.

(** *** C08: histories *)
Theorem C08_pointer_monotone : forall z tr q ext q' s p, reach z tr q -> continues z tr q ext q' -> sh_ok s ->
  ptr_at (q_st q) s = Some p ->
  exists p', ptr_at (q_st q') s = Some p' /\ qk_leb (pv_key p) (pv_key p') = true /\ pv_seqno p <= pv_seqno p'.
Proof. intros; eapply ptr_monotone; eauto. Qed.
Print Assumptions C08_pointer_monotone.

Theorem C08_committed_message_survives : forall z tr q ext q' p s k v, reach z tr q -> continues z tr q ext q' ->
  p < 2 ^ 16 -> sh_ok s -> qk_ok k -> msg_at (q_st q) p s k = Some v ->
  (exists pt, ptr_at (q_st q) s = Some pt /\ qk_leb k (pv_key pt) = true) ->
  msg_at (q_st q') p s k = Some v \/
  ((exists qg, In (qg, OpGc) ext) /\ scheduled (ext ++ tr) p s k).
Proof. intros z tr q ext q' p s k v H1 H2 H3 H4 H5. exact (committed_survives z tr q ext q' p s k v H1 H2 (conj H3 (conj H4 H5))). Qed.
Print Assumptions C08_committed_message_survives.

(** a diff reported as applied was applied, with all its messages readable (unless scheduled for deletion) *)
Theorem C08_diff_integrity : forall z tr q s n di, reach z tr q -> sh_ok s -> n < 2 ^ 32 ->
  info_at (q_st q) s n = Some di -> diff_present tr q s n di.
Proof. intros z tr q s n di H. exact (info_diff_present z tr q H s n di). Qed.
Print Assumptions C08_diff_integrity.

Example C08_example : exists tr q ext q', reach 0 tr q /\ continues 0 tr q ext q' /\ length ext = 3%nat /\
  (exists pt, ptr_at (q_st q) shA = Some pt /\ qk_leb (QK 5 5) (pv_key pt) = true) /\
  msg_at (q_st q) 0 shA (QK 5 5) <> None /\ msg_at (q_st q') 0 shA (QK 5 5) <> None.
Proof.
  exists (trace_of hist1), (state_of hist1).
  set (q1 := qstep (state_of hist1) opM2). set (q2 := qstep q1 OpRestart).
  exists [(q2, OpClear [0; 1] [shM; shA]); (q1, OpRestart); (state_of hist1, opM2)], (qstep q2 (OpClear [0;1] [shM; shA])).
  pose proof hist1_reach as R0.
  assert (E0 : op_env (state_of hist1) opM2). { apply op_envb_ok; [eapply reach_inv; eauto|vm_compute; reflexivity]. }
  split; [exact R0|]. split.
  { constructor; [|split; repeat constructor; vm_compute; congruence]. constructor; [|exact I]. constructor; [constructor|exact E0]. }
  split; [reflexivity|]. split; [eexists; split; vm_compute; reflexivity|]. split; vm_compute; congruence.
Qed.

(** *** C09: application *)
(** the diff with the greatest seqno of a shard *)
Definition latest (st : store) (s : shard) (n : N) (d : dinfo) : Prop :=
  n < 2 ^ 32 /\ info_at st s n = Some d /\ forall n' d', n' < 2 ^ 32 -> info_at st s n' = Some d' -> n' <= n.
(** a diff is in the zone the sequence check looks at *)
Definition in_zone (z : zone) (st : store) (s : shard) (d : dinfo) : Prop :=
  match z with
  | ZBoth => True
  | ZCommitted => exists p, ptr_at st s = Some p /\ qk_leb (di_max d) (pv_key p) = true
  | ZUncommitted => forall p, ptr_at st s = Some p -> qk_ltb (pv_key p) (di_max d) = true
  end.

Theorem C09_accepted : forall z tr q d s n h ds c st', reach z tr q -> diff_ok d s n ds -> chain_ok d s n ds (q_st q) ->
  apply_diff d s n h ds c (q_st q) = Applied st' ->
  info_at (q_st q) s n = None /\
  (forall zn last ld, c = Some zn -> latest (q_st q) s last ld -> in_zone zn (q_st q) s ld -> n = last + 1) /\
  (forall p k m, ptr_at (q_st q) s = Some p -> oget qk_cmp k (qd_msgs d) = Some m -> qk_ltb (pv_key p) k = true) /\
  info_at st' s n = Some (written_info n ds h d) /\
  last_applied s st' = Some n /\
  (forall k m, oget qk_cmp k (qd_msgs d) = Some m ->
     msg_at st' (part_of (qd_router d) m) s k = Some (msg_header (m_dst m), m)) /\
  (forall s', ptr_at st' s' = ptr_at (q_st q) s').
Proof.
  intros z tr q d s n h ds c st' Hr Hok Hch Ha. pose proof (qi_st _ (reach_inv _ _ _ Hr)) as Hi.
  destruct (apply_store _ _ _ _ _ _ _ _ Ha) as (E & Hnone & _ & _).
  pose proof (dk_s _ _ _ _ Hok) as Hs. pose proof (dk_n _ _ _ _ Hok) as Hn.
  assert (Hn32 : n < 2 ^ 32) by (unfold u32_max in Hn; lia).
  destruct (write_diff_spec d s n h ds (q_st q) (inv_wf _ Hi) Hok) as (W & Hp & Hm & _ & Hinfo & _).
  rewrite <- E in *. split; [exact Hnone|]. split.
  { intros zn last ld -> (Hl1 & Hl2 & Hl3) Hz. eapply apply_seq; eauto. }
  split. { intros p k m Hpt Hg. exact (apply_above _ _ _ _ _ _ _ _ _ (inv_wf _ Hi) Hok Ha Hpt k m Hg). }
  assert (Hself : info_at st' s n = Some (written_info n ds h d)).
  { rewrite Hinfo by auto. destruct (sh_eqb_spec s s); [|congruence]. now rewrite N.eqb_refl. }
  split; [exact Hself|]. split.
  { apply last_applied_some; auto. { rewrite E. apply write_diff_inv; auto. }
    split; auto. split; eauto. intros n' d' Hn' Hd'. rewrite Hinfo in Hd' by auto.
    destruct (sh_eqb_spec s s); [|congruence]. cbn [andb] in Hd'. destruct (n' =? n) eqn:En; [lia|].
    pose proof (co_info _ _ _ _ _ Hch n' d' Hn' Hd'). lia. }
  split; [|exact Hp].
  intros k m Hg. destruct (diff_msg_ok _ _ _ _ _ _ Hok Hg) as [Hmk _]. rewrite Hm by auto. rewrite Hg.
  destruct (sh_eqb_spec s s); [|congruence]. now rewrite N.eqb_refl.
Qed.
Print Assumptions C09_accepted.

(** at most once: after diff (s, n) was applied, any later attempt for the same (s, n) changes nothing - it is skipped when
    the hash is the same and rejected otherwise - unless the diff was discarded as uncommitted by a restart, or
    garbage collected after all tops had processed it *)
Theorem C09_at_most_once : forall z tr q d s n h ds c st' ext q' d' h' ds' c',
  reach z tr q -> op_env q (OpApply d s n h ds c) -> apply_diff d s n h ds c (q_st q) = Applied st' ->
  let tr1 := (q, OpApply d s n h ds c) :: tr in
  continues z tr1 (qstep q (OpApply d s n h ds c)) ext q' ->
  (apply_diff d' s n h' ds' c' (q_st q') = if h' =? h then Skipped else Rejected) \/
  (exists q1 parts tops, In (q1, OpClear parts tops) ext /\ discarded (q_st q1) tops s (ds_max ds) = true) \/
  (exists q1 p, In (q1, OpGc) ext /\ scheduled (ext ++ tr1) p s (ds_max ds)).
Proof.
  intros z tr q d s n h ds c st' ext q' d' h' ds' c' Hr He Ha tr1 Hc.
  pose proof He as [Hok Hch]. specialize (Hch (ex_intro _ _ Ha)).
  destruct (C09_accepted _ _ _ _ _ _ _ _ _ _ Hr Hok Hch Ha) as (_ & _ & _ & Hself & _).
  pose proof (dk_n _ _ _ _ Hok) as Hn. assert (Hn32 : n < 2 ^ 32) by (unfold u32_max in Hn; lia).
  assert (Hi0 : info_at (q_st (qstep q (OpApply d s n h ds c))) s n = Some (written_info n ds h d)).
  { cbn [qstep]. rewrite Ha. exact Hself. }
  assert (Hr1 : reach z tr1 (qstep q (OpApply d s n h ds c))) by (constructor; auto).
  destruct (info_persists _ _ _ _ _ _ _ _ Hr1 Hc (dk_s _ _ _ _ Hok) Hn32 Hi0) as [H|[H|H]]; auto.
  left. unfold apply_diff. unfold info_at in H. rewrite H. cbn [written_info di_hash]. rewrite N.eqb_sym. reflexivity.
Qed.
Print Assumptions C09_at_most_once.

Example C09_example : exists st', apply_diff dM2 shM 2 202 (from_diff dM2 shM (QK 25 25) (QK 25 25)) (Some ZBoth) (q_st (state_of hist1)) = Applied st' /\
  op_env (state_of hist1) (OpApply dM2 shM 2 202 (from_diff dM2 shM (QK 25 25) (QK 25 25)) (Some ZBoth)) /\
  (exists d, latest (q_st (state_of hist1)) shM 1 d).
Proof.
  eexists. split; [vm_compute; reflexivity|]. pose proof (reach_inv _ _ _ hist1_reach) as Hq. split.
  { apply op_envb_ok; [exact Hq|vm_compute; reflexivity]. }
  destruct (info_at (q_st (state_of hist1)) shM 1) as [d|] eqn:E; [|vm_compute in E; discriminate].
  exists d. assert (L : last_applied shM (q_st (state_of hist1)) = Some 1) by (vm_compute; reflexivity).
  apply last_applied_some in L; [|exact (qi_st _ Hq)|repeat split; vm_compute; congruence].
  destruct L as (L1 & (d1 & L2) & L3). split; [exact L1|]. split; [exact E|exact L3].
Qed.

(** the check only looks at the zone: when the last diff of the shard is committed and the check is for uncommitted
    diffs, a diff that skips a seqno is accepted (diff M3 right after the committed diff M1) *)
Definition opM3 := OpApply dM2 shM 3 202 (from_diff dM2 shM (QK 25 25) (QK 25 25)) (Some ZUncommitted).
Theorem C09_gap_refuted : exists z tr q d s n h ds zn st' last ld, reach z tr q /\ op_env q (OpApply d s n h ds (Some zn)) /\
  apply_diff d s n h ds (Some zn) (q_st q) = Applied st' /\ latest (q_st q) s last ld /\ n <> last + 1.
Proof.
  exists 0, (trace_of hist1), (state_of hist1), dM2, shM, 3, 202, (from_diff dM2 shM (QK 25 25) (QK 25 25)), ZUncommitted.
  destruct C09_example as (_ & _ & _ & d & Hd).
  eexists. exists 1, d. split; [exact hist1_reach|]. split.
  { apply op_envb_ok; [exact (reach_inv _ _ _ hist1_reach)|vm_compute; reflexivity]. }
  split; [vm_compute; reflexivity|]. split; [exact Hd|]. lia.
Qed.
Print Assumptions C09_gap_refuted.

(** *** C10: garbage collection bounds *)
(** a commit that succeeds and is newer than the masterchain pointer: the bound it schedules for source shard [s]
    in partition [p] is the minimum of the processed-to positions reported by the top diffs it found *)
Theorem C10_commit_bound : forall z tr q tops parts q', reach z tr q -> op_env q (OpCommit tops parts) ->
  commit_diff tops parts q = Ok q' -> mc_newer tops (q_st q) = true ->
  (forall b, In b tops -> tb_updated b = true -> q_zero q < tb_ref b -> exists d, found (q_st q) b d) /\
  (forall p s, In p parts -> (exists b d k', In b tops /\ found (q_st q) b d /\ In (s, k') (di_processed d)) ->
     exists k, aget ps_eqb (p, s) (q_until q') = Some k /\
        (exists b d, In b tops /\ found (q_st q) b d /\ In (s, k) (di_processed d)) /\
        (forall b d k', In b tops -> found (q_st q) b d -> In (s, k') (di_processed d) -> qk_leb k k' = true)) /\
  (forall p s, (~ In p parts \/ ~ exists b d k', In b tops /\ found (q_st q) b d /\ In (s, k') (di_processed d)) ->
     forall k, aget ps_eqb (p, s) (q_until q') = Some k -> aget ps_eqb (p, s) (q_until q) = Some k) /\
  (forall s v, sh_ok s -> ptr_at (q_st q') s = Some v <->
     (exists b d, In b tops /\ tb_shard b = s /\ found (q_st q) b d /\ v = PV (di_max d) (tb_seqno b)) \/
     ((forall b d, In b tops -> tb_shard b = s -> ~ found (q_st q) b d) /\ ptr_at (q_st q) s = Some v)) /\
  (forall p s k, msg_at (q_st q') p s k = msg_at (q_st q) p s k).
Proof.
  intros z tr q tops parts q' Hr (Ht & Hp & _) Hc Hnew.
  destruct (commit_diff_spec tops parts q q' (reach_inv _ _ _ Hr) Ht Hp Hc) as (_ & _ & _ & Hm & _ & _ & H).
  destruct (H Hnew) as (A & B & C & D). split; [exact A|]. split; [exact D|]. split; [|split; [|exact Hm]].
  - intros p s Hnot k Hk. destruct (C p s k Hk) as [(X & (b & d & Y) & _)|X]; auto.
    destruct Hnot as [Hnot|Hnot]; [contradiction|]. exfalso. apply Hnot. exists b, d, k. exact Y.
  - intros s v Hs. exact (B s Hs v).
Qed.
Print Assumptions C10_commit_bound.

(** the collector only removes a message that a commit of the history scheduled *)
Theorem C10_gc_only_scheduled : forall z tr q p s k, reach z tr q -> p < 2 ^ 16 -> sh_ok s -> qk_ok k ->
  msg_at (q_st (gc_task q)) p s k = msg_at (q_st q) p s k \/
  (msg_at (q_st (gc_task q)) p s k = None /\ scheduled tr p s k).
Proof.
  intros z tr q p s k Hr H1 H2 H3. destruct (gc_task_spec q (reach_inv _ _ _ Hr)) as (_ & _ & Hm & _).
  destruct (Hm p s k (conj H1 (conj H2 H3))) as [H|(H & b & Hb & Hle)]; auto. right. split; auto.
  eapply scheduled_le; eauto. eapply until_scheduled; eauto.
Qed.
Print Assumptions C10_gc_only_scheduled.

(** the positions reached by the collector never move backwards *)
Theorem C10_gc_position_monotone : forall q p s a, aget ps_eqb (p, s) (q_gc q) = Some a ->
  exists b, aget ps_eqb (p, s) (q_gc (gc_task q)) = Some b /\ qk_leb a b = true.
Proof.
  intros q p s a Ha. unfold gc_task. pose proof (gc_state_mono (q_until q) (q_st q) (q_gc q) (p, s) a Ha) as H.
  destruct (fold_left gc_one (q_until q) (q_st q, q_gc q)) as [st gcs]. exact H.
Qed.
Print Assumptions C10_gc_position_monotone.

Example C10_example : op_env (state_of [opA1; opM1]) cm1 /\ (exists q', commit_diff [TB shM 1 1 true; TB shA 1 1 true] [0; 1] (state_of [opA1; opM1]) = Ok q' /\
  aget ps_eqb (0, shM) (q_until q') = Some (QK 5 5) /\ aget ps_eqb (1, shA) (q_until q') = Some (QK 10 10)) /\
  mc_newer [TB shM 1 1 true; TB shA 1 1 true] (q_st (state_of [opA1; opM1])) = true.
Proof.
  split. { apply op_envb_ok; [|vm_compute; reflexivity]. apply (reach_inv 0 (trace_of [opA1; opM1])). apply state_of_reach. vm_compute. reflexivity. }
  split; [eexists; split; [vm_compute; reflexivity|split; vm_compute; reflexivity]|vm_compute; reflexivity].
Qed.

(** refutation of the unrestricted claim "a message above the processed-to position of some top shard is never
    deleted": shard A's only diff reports it has processed masterchain messages up to (5,5). Everything of shard A is
    processed, so the collector removes A's diff. The next masterchain commit does not find the (not updated) diff of A any more
    and schedules masterchain messages up to (30,0): the message (15,15) addressed to shard A is deleted although
    shard A never processed it. *)
Theorem C10_missing_top_refuted : exists z tr q b d p k pos,
  reach z tr q /\
  (* top block of shard A, committed earlier in this history with its diff [d], is still the top in the last commit *)
  (exists q0 q1 b0 t0 t1 ps, In (q0, OpCommit (t0 ++ [b0]) ps) tr /\ In (q1, OpCommit (t1 ++ [b]) ps) tr /\
     tb_shard b0 = tb_shard b /\ tb_seqno b0 = tb_seqno b /\ found (q_st q0) b0 d) /\
  In (shM, pos) (di_processed d) /\ qk_ltb pos k = true /\
  (exists m, msg_at (q_st q) p shM k = Some (msg_header (m_dst m), m) /\ ra_wc (m_dst m) = sh_wc (tb_shard b)) /\
  msg_at (q_st (gc_task q)) p shM k = None.
Proof.
  exists 0, (trace_of hist3), (state_of hist3), (TB shA 1 1 false).
  destruct (info_at (q_st (state_of [opA1; opM1])) shA 1) as [d|] eqn:Ed; [|vm_compute in Ed; discriminate].
  exists d, 0, (QK 15 15), (QK 5 5). split; [exact hist3_reach|].
  split. { exists (state_of [opA1; opM1]), (state_of [opA1; opM1; cm1; OpGc; opM2]), (TB shA 1 1 true), [TB shM 1 1 true], [TB shM 2 2 true], [0; 1].
    split; [vm_compute; tauto|]. split; [vm_compute; tauto|]. split; [reflexivity|]. split; [reflexivity|]. exact Ed. }
  vm_compute in Ed. injection Ed as <-. split; [left; reflexivity|]. split; [reflexivity|]. split.
  { exists (MSG (QK 15 15) (accm 3) (acc0 1) 7). split; vm_compute; reflexivity. }
  vm_compute. reflexivity.
Qed.
Print Assumptions C10_missing_top_refuted.

(** *** C31: statistics stored with a diff are exact counts *)
Theorem C31_diff_statistics_count : forall d s mn mx p dst s',
  stat_get (ds_stats (from_diff d s mn mx)) p dst = count_msgs d p dst /\
  shc_get (ds_counts (from_diff d s mn mx)) s' = count_wc d s'.
Proof. exact from_diff_counts. Qed.
Print Assumptions C31_diff_statistics_count.

Theorem C31_stored_statistics : forall z tr q d s n h mn mx, reach z tr q ->
  diff_ok d s n (from_diff d s mn mx) -> Forall (fun e => ra_ok (m_dst (snd e))) (qd_msgs d) ->
  forall s' p k dst, sh_ok s' -> p < 2 ^ 16 -> qk_ok k -> ra_ok dst ->
  stat_at (write_diff s n (from_diff d s mn mx) h d (q_st q)) s' p k dst =
    if sh_eqb s s' && match qk_cmp mx k with Eq => true | _ => false end && (0 <? count_msgs d p dst)
    then Some (le 8 (count_msgs d p dst)) else stat_at (q_st q) s' p k dst.
Proof.
  intros z tr q d s n h mn mx Hr Hok Hra s' p k dst H1 H2 H3 H4.
  exact (write_diff_stats (q_st q) d s n h mn mx (inv_wf _ (qi_st _ (reach_inv _ _ _ Hr))) Hok Hra s' p k dst (conj H1 (conj H2 (conj H3 H4)))).
Qed.
Print Assumptions C31_stored_statistics.

Example C31_example : count_msgs dM1 0 (acc0 1) = 1 /\ count_msgs dM1 0 (accm 4) = 1 /\ count_msgs dM1 1 (accm 4) = 0 /\
  isstat (q_st (state_of hist1)) shM 0 (QK 20 20) (accm 4) = true.
Proof. vm_compute. repeat split. Qed.
