(** Specification vocabulary for the queue properties: observations of the store, the environment's
    obligations, histories. Only uses the model. *)
From Verif Require Export QueueStoreModel.
Local Open Scope N_scope.

(** ** Observations: point reads of the queue tables *)
Definition msg_at (st : store) (p : N) (s : shard) (k : qkey) : option (bytes * msg) :=
  kv_get (enc_mkey (MK p s k)) (st_msgs st).

Definition stat_at (st : store) (s : shard) (p : N) (k : qkey) (d : raddr) : option bytes :=
  kv_get (enc_statkey (SK s p k d)) (st_stats st).

Definition tail_at (st : store) (s : shard) (k : qkey) : option bytes :=
  kv_get (enc_tailkey (TK s k)) (st_tails st).

Definition info_at (st : store) (s : shard) (n : N) : option dinfo :=
  kv_get (enc_infokey (IK s n)) (st_infos st).

Definition ptr_at (st : store) (s : shard) : option ptrval :=
  match kv_get (enc_ptrkey s) (st_ptrs st) with
  | Some v => match dec_ptrval v with Some (p, _) => Some p | None => None end
  | None => None
  end.

(** inclusive key interval *)
Definition in_keys (from to k : qkey) : bool := qk_leb from k && qk_leb k to.

(** ** What a restart discards: keys above the commit pointer of their shard, and everything of a top
    shard that has no pointer *)
Definition discarded (st : store) (tops : list shard) (s : shard) (k : qkey) : bool :=
  match ptr_at st s with
  | Some p => qk_ltb (pv_key p) k
  | None => existsb (sh_eqb s) tops
  end.

(** partition of a message under the router of its diff *)
Definition part_of (rt : router) (m : msg) : N := get_partition rt (Some (IStd (m_src m))) (IStd (m_dst m)).

(** ** Well-formed input of an apply operation *)
Record diff_ok (d : qdiff) (s : shard) (n : N) (ds : dstats) : Prop := {
  dk_s : sh_ok s;
  dk_n : 0 < n < u32_max;
  dk_sorted : osorted qk_cmp (qd_msgs d);
  dk_msgs : Forall (fun e => qk_ok (fst e) /\ part_of (qd_router d) (snd e) < 2 ^ 16) (qd_msgs d);
  dk_proc : Forall (fun f => sh_ok (fst f) /\ qk_ok (snd f)) (qd_processed d);
  dk_shard : ds_shard ds = s;
  dk_max : qk_ok (ds_max ds) /\ qk_ltb (ds_max ds) qk_max = true;
  dk_le : Forall (fun e => qk_leb (fst e) (ds_max ds) = true) (qd_msgs d) }.

(** the diff info record a diff is stored with *)
Definition written_info (n : N) (ds : dstats) (hash : N) (d : qdiff) : dinfo :=
  DI (ds_min ds) (ds_max ds) (ds_counts ds) hash (qd_processed d)
     (to_router_partitions_src (qd_router d)) (to_router_partitions_dst (qd_router d)) n.

(** the diff extends the chain of its shard: blocks of a shard come with increasing seqnos and disjoint,
    increasing message key ranges *)
Record chain_ok (d : qdiff) (s : shard) (n : N) (ds : dstats) (st : store) : Prop := {
  co_info : forall n' d', n' < 2 ^ 32 -> info_at st s n' = Some d' ->
     n' < n /\ qk_ltb (di_max d') (ds_max ds) = true /\
     Forall (fun e => qk_ltb (di_max d') (fst e) = true) (qd_msgs d);
  co_ptr : forall p, ptr_at st s = Some p ->
     (n <= pv_seqno p -> qk_leb (ds_max ds) (pv_key p) = true) /\
     (pv_seqno p < n -> qk_ltb (pv_key p) (ds_max ds) = true) /\
     (n = pv_seqno p -> ds_max ds = pv_key p) }.

(** the diff of a top block is in the store *)
Definition found (st : store) (b : topb) (d : dinfo) : Prop := info_at st (tb_shard b) (tb_seqno b) = Some d.

(** the masterchain block of a commit, and whether the commit is newer than the masterchain pointer *)
Definition mc_of (tops : list topb) : option topb := find (fun b => is_mc (tb_shard b)) tops.

Definition mc_newer (tops : list topb) (st : store) : bool :=
  match mc_of tops with
  | Some mc => match ptr_at st (tb_shard mc) with Some p => pv_seqno p <? tb_seqno mc | None => true end
  | None => false
  end.

Definition top_ok (b : topb) : Prop := sh_ok (tb_shard b) /\ tb_seqno b < 2 ^ 32.

(** ** Histories
    What the callers of the queue guarantee for one operation in one state. *)
Definition op_env (q : qstate) (o : qop) : Prop :=
  match o with
  | OpApply d s n h ds c =>
      diff_ok d s n ds /\
      ((exists st', apply_diff d s n h ds c (q_st q) = Applied st') -> chain_ok d s n ds (q_st q))
  | OpCommit tops parts =>
      Forall top_ok tops /\ Forall (fun p => p < 2 ^ 16) parts /\
      (mc_newer tops (q_st q) = true -> forall b p, In b tops ->
         ptr_at (q_st q) (tb_shard b) = Some p -> pv_seqno p <= tb_seqno b)
  | OpClear parts tops => Forall (fun p => p < 2 ^ 16) parts /\ Forall sh_ok tops
  | OpGc | OpRestart => True
  end.

(** [reach z tr q]: [q] is reached from an empty queue by the operations in [tr] (latest first), each
    recorded with the state it was executed in. *)
Inductive reach (z : N) : list (qstate * qop) -> qstate -> Prop :=
| reach_init : reach z [] (q_init z)
| reach_step tr q o : reach z tr q -> op_env q o -> reach z ((q, o) :: tr) (qstep q o).

(** continuing a history *)
Inductive continues (z : N) (tr : list (qstate * qop)) (q : qstate) : list (qstate * qop) -> qstate -> Prop :=
| cont_refl : continues z tr q [] q
| cont_step ext q1 o : continues z tr q ext q1 -> op_env q1 o -> continues z tr q ((q1, o) :: ext) (qstep q1 o).

(** some executed commit found the diffs of its top blocks and every one of them that reports a
    processed-to position for source shard [s] is at or beyond [k] (at least one does) *)
Definition scheduled (tr : list (qstate * qop)) (p : N) (s : shard) (k : qkey) : Prop :=
  exists q tops parts, In (q, OpCommit tops parts) tr /\ commit_diff tops parts q <> Err /\ In p parts /\
    (exists b d k', In b tops /\ found (q_st q) b d /\ In (s, k') (di_processed d)) /\
    (forall b d k', In b tops -> found (q_st q) b d -> In (s, k') (di_processed d) -> qk_leb k k' = true).

(** all messages of the applied diff are readable, except those scheduled for deletion *)
Definition diff_present (tr : list (qstate * qop)) (q : qstate) (s : shard) (n : N) (di : dinfo) : Prop :=
  exists q0 d h ds c, In (q0, OpApply d s n h ds c) tr /\ diff_ok d s n ds /\ di = written_info n ds h d /\
    forall k m, oget qk_cmp k (qd_msgs d) = Some m ->
      msg_at (q_st q) (part_of (qd_router d) m) s k = Some (msg_header (m_dst m), m) \/
      scheduled tr (part_of (qd_router d) m) s k.

(** ** Statistics of a diff *)
Definition count_msgs (d : qdiff) (p : N) (dst : raddr) : N :=
  N.of_nat (length (filter (fun e => (part_of (qd_router d) (snd e) =? p) && ra_eqb (m_dst (snd e)) dst) (qd_msgs d))).

Definition count_wc (d : qdiff) (s : shard) : N :=
  N.of_nat (length (filter (fun e => sh_eqb (sh_full (ra_wc (m_dst (snd e)))) s) (qd_msgs d))).

Definition stat_get (st : amap N (amap raddr N)) (p : N) (dst : raddr) : N :=
  match aget N.eqb p st with Some a => match aget ra_eqb dst a with Some c => c | None => 0 end | None => 0 end.

Definition shc_get (c : amap shard N) (s : shard) : N := match aget sh_eqb s c with Some n => n | None => 0 end.
