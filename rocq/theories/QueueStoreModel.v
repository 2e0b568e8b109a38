(** The persistent internal message queue: storage transactions, snapshots, and the queue
    operations on top of it.
    Models: collator/src/storage/transaction.rs, collator/src/storage/snapshot.rs,
    collator/src/internal_queue/state/storage.rs, collator/src/internal_queue/queue.rs,
    collator/src/internal_queue/gc.rs. *)
From Verif Require Export KV QueueKeysModel RouterModel.
Local Open Scope N_scope.

(** An enqueued internal message (collator/src/internal_queue/types/message.rs): its (lt, hash)
    key, standard source and destination, and the rest of the message as an opaque number.
    Simplification: only standard addresses; BOC (de)serialization of the message is the identity. *)
Record msg := MSG { m_key : qkey; m_src : raddr; m_dst : raddr; m_body : N }.

(** derived [Ord] on ShardIdent (tycho-types): signed workchain, then prefix *)
Definition sh_ord (a b : shard) : comparison :=
  cmp_then (Z.compare (sh_wc a) (sh_wc b)) (sh_prefix a ?= sh_prefix b).

(** BTreeMap<ShardIdent, QueueKey> *)
Definition processed_to := omap shard qkey.

(** collator/src/storage/models.rs:236-245 DiffInfo. Stored structurally here; its TL codec is
    modelled and proved separately (QueueTlModel.v). *)
Record dinfo := DI {
  di_min : qkey; di_max : qkey; di_counts : amap shard N; di_hash : N;
  di_processed : processed_to; di_src : rparts; di_dst : rparts; di_seqno : N }.

(** The column families (collator/src/storage/db.rs, tables.rs) used by the queue. *)
Record store := ST {
  st_msgs : kv (bytes * msg);     (* shard_int_messages: 9-byte header and the message *)
  st_stats : kv bytes;            (* int_msg_statistics *)
  st_tails : kv bytes;            (* int_msg_diffs_tail *)
  st_infos : kv dinfo;            (* int_msg_diff_info *)
  st_ptrs : kv bytes;             (* int_msg_commit_pointer *)
  st_mc : option (shard * N) }.   (* int_msg_var: last committed mc block (short id) *)
Definition st_empty : store := ST [] [] [] [] [] None.

(** [IntAddr::prefix] of a standard address: its first 8 account bytes, big endian *)
Definition ra_prefix (a : raddr) : N := ra_acc a / 2 ^ 192.
(** transaction.rs:58-63: [workchain as i8 as u8], prefix little endian, then the message *)
Definition msg_header (d : raddr) : bytes := to_u 8 (ra_wc d) :: le 8 (ra_prefix d).

(** transaction.rs:50-66 insert_message *)
Definition insert_message (k : mkey) (m : msg) (st : store) : store :=
  ST (kv_put (enc_mkey k) (msg_header (m_dst m), m) (st_msgs st))
     (st_stats st) (st_tails st) (st_infos st) (st_ptrs st) (st_mc st).
(** transaction.rs:35-38 insert_statistics *)
Definition insert_statistics (k : statkey) (count : N) (st : store) : store :=
  ST (st_msgs st) (kv_put (enc_statkey k) (le 8 count) (st_stats st))
     (st_tails st) (st_infos st) (st_ptrs st) (st_mc st).
(** transaction.rs:40-43 insert_diff_tail *)
Definition insert_diff_tail (k : tailkey) (v : bytes) (st : store) : store :=
  ST (st_msgs st) (st_stats st) (kv_put (enc_tailkey k) v (st_tails st))
     (st_infos st) (st_ptrs st) (st_mc st).
(** transaction.rs:45-48 insert_diff_info *)
Definition insert_diff_info (k : infokey) (v : dinfo) (st : store) : store :=
  ST (st_msgs st) (st_stats st) (st_tails st) (kv_put (enc_infokey k) v (st_infos st))
     (st_ptrs st) (st_mc st).

(** transaction.rs:70-86 commit_messages *)
Definition commit_messages (ps : amap shard ptrval) (st : store) : store :=
  ST (st_msgs st) (st_stats st) (st_tails st) (st_infos st)
     (fold_left (fun m e => kv_put (enc_ptrkey (fst e)) (enc_ptrval (snd e)) m) ps (st_ptrs st))
     (st_mc st).
(** transaction.rs:292-302 *)
Definition set_last_mc (b : shard * N) (st : store) : store :=
  ST (st_msgs st) (st_stats st) (st_tails st) (st_infos st) (st_ptrs st) (Some b).

(** models.rs:219-224 QueueRange *)
Record qrange := QR { qr_shard : shard; qr_part : N; qr_from : qkey; qr_to : qkey }.

(** transaction.rs:374-388 delete_range: range delete plus delete of the end key *)
Definition del_incl {V} (lo hi : bytes) (m : kv V) : kv V := kv_del hi (kv_del_range lo hi m).

(** transaction.rs:305-372: walk the tails of the snapshot from [from_key] while key <= to_key;
    min/max of the little-endian seqno. [None] is the [ensure!] on the value length. *)
Definition tails_in (lo hi : bytes) (m : kv bytes) : kv bytes :=
  filter (fun e => lex_leb lo (fst e) && lex_leb (fst e) hi) m.
Definition collect_step (acc : option (N * N)) (e : bytes * bytes) : option (N * N) :=
  match acc with
  | None => None
  | Some (mn, mx) =>
      if (length (snd e) <? 4)%nat then None
      else let s := de_le (firstn 4 (snd e)) in
           Some (if s <? mn then s else mn, if mx <? s then s else mx)
  end.
Definition collect_seqno (lo hi : bytes) (m : kv bytes) : option (N * N) :=
  fold_left collect_step (tails_in lo hi m) (Some (u32_max, 0)).

(** transaction.rs:178-269: one range of [delete]; [snap] is the snapshot taken before the batch *)
Definition delete_one (snap : store) (acc : option store) (r : qrange) : option store :=
  match acc with
  | None => None
  | Some st =>
      let msgs := del_incl (enc_mkey (MK (qr_part r) (qr_shard r) (qr_from r)))
                           (enc_mkey (MK (qr_part r) (qr_shard r) (qr_to r))) (st_msgs st) in
      let stats := del_incl (enc_statkey (SK (qr_shard r) (qr_part r) (qr_from r) ra_min))
                            (enc_statkey (SK (qr_shard r) (qr_part r) (qr_to r) ra_max)) (st_stats st) in
      let tlo := enc_tailkey (TK (qr_shard r) (qr_from r)) in
      let thi := enc_tailkey (TK (qr_shard r) (qr_to r)) in
      match collect_seqno tlo thi (st_tails snap) with
      | None => None
      | Some (mn, mx) =>
          let tails := del_incl tlo thi (st_tails st) in
          let infos := if negb (mn =? u32_max) && negb (mx =? 0)
                       then del_incl (enc_infokey (IK (qr_shard r) mn))
                                     (enc_infokey (IK (qr_shard r) mx)) (st_infos st)
                       else st_infos st in
          Some (ST msgs stats tails infos (st_ptrs st) (st_mc st))
      end
  end.
(** transaction.rs:162-288 delete *)
Definition delete (ranges : list qrange) (st : store) : option store :=
  fold_left (delete_one st) ranges (Some st).

(** snapshot.rs:290-331 read_commit_pointers. [None]: the deserializer panics. *)
Fixpoint decode_ptrs (m : kv bytes) : option (amap shard ptrval) :=
  match m with
  | [] => Some []
  | (k, v) :: r =>
      match dec_ptrkey k, dec_ptrval v, decode_ptrs r with
      | Some (s, _), Some (p, _), Some ps => Some ((s, p) :: ps)
      | _, _, _ => None
      end
  end.
Definition read_ptrs (st : store) : option (amap shard ptrval) := decode_ptrs (st_ptrs st).

(** transaction.rs:115-160 clear_uncommitted: the ranges *)
Definition clear_ranges (parts : list N) (ps : amap shard ptrval) (tops : list shard) : list qrange :=
  flat_map (fun e => map (fun p => QR (fst e) p (next_value (pv_key (snd e))) qk_max) parts) ps ++
  flat_map (fun s => if amem sh_eqb s ps then []
                     else map (fun p => QR s p qk_min qk_max) parts) tops.
(** state/storage.rs:367-377 *)
Definition clear_uncommitted (parts : list N) (tops : list shard) (st : store) : option store :=
  match read_ptrs st with
  | None => None
  | Some ps => delete (clear_ranges parts ps tops) st
  end.

(** snapshot.rs:38-67 get_last_applied_diff_seqno *)
Definition last_applied (s : shard) (st : store) : option N :=
  match kv_last (enc_infokey (IK s 0)) (enc_infokey (IK s u32_max)) (st_infos st) with
  | Some (k, _) => match dec_infokey k with Some (ik, _) => Some (ik_seqno ik) | None => None end
  | None => None
  end.

(** types/diff.rs:81-85 *)
Inductive zone := ZCommitted | ZUncommitted | ZBoth.

(** state/storage.rs:267-312 get_diff_info (outer [None]: a panic/err while reading pointers) *)
Definition get_diff_info (s : shard) (seqno : N) (z : zone) (st : store) : option (option dinfo) :=
  match kv_get (enc_infokey (IK s seqno)) (st_infos st) with
  | None => Some None
  | Some d =>
      match z with
      | ZBoth => Some (Some d)
      | ZCommitted =>
          match read_ptrs st with
          | None => None
          | Some ps => match aget sh_eqb s ps with
                       | Some p => if qk_ltb (pv_key p) (di_max d) then Some None else Some (Some d)
                       | None => Some None
                       end
          end
      | ZUncommitted =>
          match read_ptrs st with
          | None => None
          | Some ps => match aget sh_eqb s ps with
                       | Some p => if qk_leb (di_max d) (pv_key p) then Some None else Some (Some d)
                       | None => Some (Some d)
                       end
          end
      end
  end.

(** types/diff.rs:15-19 QueueDiffWithMessages: messages is a BTreeMap<QueueKey, Arc<V>> *)
Record qdiff := QD { qd_msgs : omap qkey msg; qd_processed : processed_to; qd_router : router }.
(** types/stats.rs:376-382 DiffStatisticsInner *)
Record dstats := DS {
  ds_shard : shard; ds_min : qkey; ds_max : qkey;
  ds_stats : amap N (amap raddr N); ds_counts : amap shard N }.

(** ShardIdent::new_full(workchain): prefix 0x8000_0000_0000_0000 *)
Definition sh_full (wc : Z) : shard := SH wc (2 ^ 63).

(** types/stats.rs:332-372 DiffStatistics::from_diff: the loop body *)
Definition fd_step (rt : router) (acc : amap N (amap raddr N) * amap shard N) (e : qkey * msg) :=
  let '(stats, counts) := acc in
  let m := snd e in
  let part := get_partition rt (Some (IStd (m_src m))) (IStd (m_dst m)) in
  let acc := match aget N.eqb part stats with Some a => a | None => [] end in
  let c := match aget ra_eqb (m_dst m) acc with Some c => c | None => 0 end in
  let ds := sh_full (ra_wc (m_dst m)) in
  (aset N.eqb part (aset ra_eqb (m_dst m) (c + 1) acc) stats,
   aset sh_eqb ds (match aget sh_eqb ds counts with Some c => c + 1 | None => 1 end) counts).
(** types/stats.rs:332-372 DiffStatistics::from_diff *)
Definition from_diff (d : qdiff) (s : shard) (mn mx : qkey) : dstats :=
  let '(stats, counts) := fold_left (fd_step (qd_router d)) (qd_msgs d) ([], []) in
  DS s mn mx stats counts.

(** state/storage.rs:391-414 add_messages *)
Definition add_messages (source : shard) (rt : router) (ms : omap qkey msg) (st : store) : store :=
  fold_left (fun st (e : qkey * msg) =>
     let p := get_partition rt (Some (IStd (m_src (snd e)))) (IStd (m_dst (snd e))) in
     insert_message (MK p source (fst e)) (snd e) st) ms st.
(** state/storage.rs:417-449 add_statistics *)
Definition add_statistics (ds : dstats) (st : store) : store :=
  fold_left (fun st (e : N * amap raddr N) =>
     fold_left (fun st (f : raddr * N) =>
        insert_statistics (SK (ds_shard ds) (fst e) (ds_max ds) (fst f)) (snd f) st) (snd e) st)
     (ds_stats ds) st.
(** state/storage.rs:451-463 add_diff_tail: seqno little endian *)
Definition add_diff_tail (s : shard) (seqno : N) (mx : qkey) (st : store) : store :=
  insert_diff_tail (TK s mx) (le 4 seqno) st.
(** state/storage.rs:465-495 add_diff_info *)
Definition add_diff_info (s : shard) (seqno : N) (ds : dstats) (hash : N) (d : qdiff) (st : store) : store :=
  insert_diff_info (IK s seqno)
    (DI (ds_min ds) (ds_max ds) (ds_counts ds) hash (qd_processed d)
        (to_router_partitions_src (qd_router d)) (to_router_partitions_dst (qd_router d)) seqno) st.
(** state/storage.rs:323-365 prepare_diff + transaction.rs:28-33 write: one atomic batch *)
Definition write_diff (s : shard) (seqno : N) (ds : dstats) (hash : N) (d : qdiff) (st : store) : store :=
  add_diff_info s seqno ds hash d
    (add_diff_tail s seqno (ds_max ds)
       (add_statistics ds (add_messages s (qd_router d) (qd_msgs d) st))).

(** ** The queue (queue.rs) *)

(** key of the per-partition, per-shard GC maps (gc.rs:139, nested maps flattened to pairs) *)
Definition ps_eqb (a b : N * shard) : bool := (fst a =? fst b) && sh_eqb (snd a) (snd b).

(** QueueImpl (queue.rs:186-197) with the GC manager's two in-memory maps (gc.rs:26,31) *)
Record qstate := QS {
  q_st : store;
  q_until : amap (N * shard) qkey;   (* delete_until *)
  q_gc : amap (N * shard) qkey;      (* gc_state *)
  q_zero : N }.                      (* zerostate seqno *)

Inductive res (A : Type) := Ok (a : A) | Err.
Arguments Ok {A}. Arguments Err {A}.

(** outcome of prepare_diff + write: applied (new store), skipped (already applied), rejected *)
Inductive applied := Applied (st : store) | Skipped | Rejected.

(** queue.rs:222-316 prepare_diff followed by the write of the returned transaction
    (queue.rs:318-333 apply_diff) *)
Definition apply_diff (d : qdiff) (s : shard) (seqno : N) (hash : N) (ds : dstats)
    (check : option zone) (st : store) : applied :=
  match kv_get (enc_infokey (IK s seqno)) (st_infos st) with
  | Some old => if di_hash old =? hash then Skipped else Rejected
  | None =>
      let seq : option applied :=
        match check with
        | None => None
        | Some z =>
            match last_applied s st with
            | None => None
            | Some last =>
                match get_diff_info s last z st with
                | None => Some Rejected
                | Some None => None
                | Some (Some ld) =>
                    if seqno <=? di_seqno ld then Some Skipped
                    else if negb (seqno =? di_seqno ld + 1) then Some Rejected
                    else None
                end
            end
        end in
      match seq with
      | Some out => out
      | None =>
          match read_ptrs st with
          | None => Rejected
          | Some ps =>
              let below := match aget sh_eqb s ps, qd_msgs d with
                           | Some p, (mn, _) :: _ => qk_leb mn (pv_key p)
                           | _, _ => false
                           end in
              if below then Rejected else Applied (write_diff s seqno ds hash d st)
          end
      end
  end.

(** TopBlockIdUpdated: shard, seqno, ref_by_mc_seqno, updated *)
Record topb := TB { tb_shard : shard; tb_seqno : N; tb_ref : N; tb_updated : bool }.
(** ShardIdent::is_masterchain *)
Definition is_mc (s : shard) : bool := Z.eqb (sh_wc s) (-1).

(** queue.rs:403-416: minimum of the processed-to keys per source shard *)
Definition merge_gc (pt : processed_to) (gc : amap shard qkey) : amap shard qkey :=
  fold_left (fun gc (e : shard * qkey) =>
     match aget sh_eqb (fst e) gc with
     | Some last => if qk_ltb (snd e) last then aset sh_eqb (fst e) (snd e) gc else gc
     | None => aset sh_eqb (fst e) (snd e) gc
     end) pt gc.

(** queue.rs:371-417: the loop over the top blocks; [None] is a [bail!] *)
Definition commit_step (zero : N) (st : store)
    (acc : option (amap shard ptrval * amap shard qkey)) (b : topb) :=
  match acc with
  | None => None
  | Some (ps, gc) =>
      match kv_get (enc_infokey (IK (tb_shard b) (tb_seqno b))) (st_infos st) with
      | None => if tb_updated b && (zero <? tb_ref b) then None else Some (ps, gc)
      | Some d =>
          if amem sh_eqb (tb_shard b) ps then None
          else Some (aset sh_eqb (tb_shard b) (PV (di_max d) (di_seqno d)) ps,
                     merge_gc (di_processed d) gc)
      end
  end.

(** queue.rs:427-432 and gc.rs:58-70 update_delete_until *)
Definition update_until (parts : list N) (gc : amap shard qkey) (u : amap (N * shard) qkey) :=
  fold_left (fun u (e : shard * qkey) =>
     fold_left (fun u p => aset ps_eqb (p, fst e) (snd e) u) parts u) gc u.

(** queue.rs:335-435 commit_diff *)
Definition commit_diff (tops : list topb) (parts : list N) (q : qstate) : res qstate :=
  match find (fun b => is_mc (tb_shard b)) tops with
  | None => Err
  | Some mc =>
      match read_ptrs (q_st q) with
      | None => Err
      | Some ps =>
          let skip := match aget sh_eqb (tb_shard mc) ps with
                      | Some p => tb_seqno mc <=? pv_seqno p | None => false end in
          if skip then Ok q
          else match fold_left (commit_step (q_zero q) (q_st q)) tops (Some ([], [])) with
               | None => Err
               | Some (nps, gc) =>
                   Ok (QS (set_last_mc (tb_shard mc, tb_seqno mc) (commit_messages nps (q_st q)))
                          (update_until parts gc (q_until q)) (q_gc q) (q_zero q))
               end
      end
  end.

(** gc.rs:87-124: one entry of [delete_until] *)
Definition gc_one (acc : store * amap (N * shard) qkey) (e : (N * shard) * qkey) :=
  let '(st, gcs) := acc in
  let can := match aget ps_eqb (fst e) gcs with
             | Some last => qk_ltb last (snd e) | None => true end in
  if can then
    (match delete [QR (snd (fst e)) (fst (fst e)) (QK 0 0) (snd e)] st with
     | Some st' => st' | None => st end,
     aset ps_eqb (fst e) (snd e) gcs)
  else (st, gcs).
(** gc.rs:79-129 gc_task *)
Definition gc_task (q : qstate) : qstate :=
  let '(st, gcs) := fold_left gc_one (q_until q) (q_st q, q_gc q) in
  QS st (q_until q) gcs (q_zero q).

(** Operations of a history. [OpRestart]: process restart, the store is what was persisted, the GC
    maps are empty (gc.rs:26,31). *)
Inductive qop :=
| OpApply (d : qdiff) (s : shard) (seqno hash : N) (ds : dstats) (check : option zone)
| OpCommit (tops : list topb) (parts : list N)
| OpClear (parts : list N) (tops : list shard)
| OpGc
| OpRestart.

Definition qstep (q : qstate) (o : qop) : qstate :=
  match o with
  | OpApply d s n h ds c =>
      match apply_diff d s n h ds c (q_st q) with
      | Applied st => QS st (q_until q) (q_gc q) (q_zero q)
      | _ => q
      end
  | OpCommit tops parts => match commit_diff tops parts q with Ok q' => q' | Err => q end
  | OpClear parts tops =>
      match clear_uncommitted parts tops (q_st q) with
      | Some st => QS st (q_until q) (q_gc q) (q_zero q)
      | None => q
      end
  | OpGc => gc_task q
  | OpRestart => QS (q_st q) [] [] (q_zero q)
  end.
Definition q_init (zero : N) : qstate := QS st_empty [] [] zero.
