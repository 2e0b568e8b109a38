(** What a well-formed queue diff is, independently of the reader. *)
From Verif Require Export TlModel.
From Coq Require Export Sorting.Sorted.
Local Open Scope N_scope.

(** message hashes: strictly ascending and non-zero *)
Definition asc (p : N) (l : list N) : Prop := StronglySorted N.lt (p :: l).
(** processed-to map: a BTreeMap (strictly ascending shards) of at most 1000 valid shards *)
Definition proc_wf (valid : shard -> bool) (m : omap shard qkey) : Prop :=
  osorted sh_ord m /\ Forall (fun e => (sh_ok (fst e) /\ valid (fst e) = true) /\ qk_ok (snd e)) m /\ N.of_nat (length m) <= 1000.
(** accounts of a partition: a BTreeSet of at most ten million addresses *)
Definition accts_wf (s : raset) : Prop :=
  osorted ra_cmp s /\ Forall (fun e => ra_ok (fst e)) s /\ N.of_nat (length s) <= 10000000.
(** partitions: a BTreeMap over u16 indices *)
Definition parts_wf (m : rparts) : Prop :=
  osorted N.compare m /\ Forall (fun e => fst e < 2 ^ 16 /\ accts_wf (snd e)) m.
(** a QueueDiff whose fields are in range and which has min_message <= max_message *)
Definition diff_wf (valid : shard -> bool) (d : wdiff) : Prop :=
  wd_prev d < 2 ^ 256 /\ (sh_ok (wd_shard d) /\ valid (wd_shard d) = true) /\ wd_seqno d < 2 ^ 32 /\ proc_wf valid (wd_proc d) /\
  qk_ok (wd_min d) /\ qk_ok (wd_max d) /\ qk_cmp (wd_max d) (wd_min d) <> Lt /\
  (N.of_nat (length (wd_msgs d)) <= 10000000 /\ asc 0 (wd_msgs d) /\ Forall (fun h => h < 2 ^ 256) (wd_msgs d)) /\
  parts_wf (wd_src d) /\ parts_wf (wd_dst d).


(** any wire content: numbers of the declared widths, no order or size rule (a list stands for a TL vector) *)
Definition parts_range (m : rparts) : Prop :=
  N.of_nat (length m) < 2 ^ 32 /\
  Forall (fun e => fst e < 2 ^ 32 /\ N.of_nat (length (snd e)) < 2 ^ 32 /\ Forall (fun a => ra_ok (fst a)) (snd e)) m.
Definition diff_range (d : wdiff) : Prop :=
  wd_prev d < 2 ^ 256 /\ sh_ok (wd_shard d) /\ wd_seqno d < 2 ^ 32 /\
  (N.of_nat (length (wd_proc d)) < 2 ^ 32 /\ Forall (fun e => sh_ok (fst e) /\ qk_ok (snd e)) (wd_proc d)) /\
  qk_ok (wd_min d) /\ qk_ok (wd_max d) /\
  (N.of_nat (length (wd_msgs d)) < 2 ^ 32 /\ Forall (fun h => h < 2 ^ 256) (wd_msgs d)) /\
  parts_range (wd_src d) /\ parts_range (wd_dst d).

(** a list of diffs, newest first: seqnos descend and every diff names the hash of the next (older) one *)
Definition chain (ds : list wdiff) : Prop :=
  forall i d e, nth_error ds i = Some d -> nth_error ds (S i) = Some e -> wd_seqno e < wd_seqno d /\ wd_hash e = wd_prev d.
(** its recorded hash is the hash of its bytes *)
Definition hashed (diff_id : N) (H : bytes -> N) (d : wdiff) : Prop := wd_hash d = H (w_diff diff_id d).
Definition diffs_wf (valid : shard -> bool) (diff_id : N) (H : bytes -> N) (ds : list wdiff) : Prop :=
  1 <= N.of_nat (length ds) <= 1000 /\ Forall (fun d => diff_wf valid d /\ hashed diff_id H d) ds /\ chain ds.
