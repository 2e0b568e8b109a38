(* The cell nursery: recently stored cells are kept in memory, protected by a
   write-ahead log and checkpoints, and are moved to RocksDB rows some rounds
   later.

   /repo/core/src/storage/shard_state/nursery_persistence/format.rs
   /repo/core/src/storage/shard_state/nursery_persistence/mod.rs
   /repo/core/src/storage/shard_state/cell_nursery.rs
   /repo/core/src/storage/shard_state/row_format.rs
   and the callers in cell_storage.rs and mod.rs.

   A cell hash is its 32 bytes.  Simplifications: the nursery's hash map is
   split in stripes by hash to fill it in parallel; one map is modelled.
   Recycled buffers, metrics and byte statistics are left out.  RocksDB is a
   map that is changed by atomic batches and survives a crash.  Files keep
   every byte written so far when the process dies (the code does not fsync
   them, so a power loss is not covered). *)
From Coq Require Import NArith List Bool Lia Permutation.
From Verif Require Import AMap Bytes.
Import ListNotations.
Open Scope N_scope.

Fixpoint beqb (a b : bytes) : bool :=
  match a, b with
  | [], [] => true
  | x :: a, y :: b => (x =? y) && beqb a b
  | _, _ => false
  end.

Definition chash := bytes.

(* cell_nursery.rs 143-149 (NurseryEntryRecord) *)
Record nrec := mkNR { nr_hash : chash; nr_idx : N; nr_round : N; nr_data : bytes }.
(* cell_nursery.rs 151-161 (NurseryDelta, is_empty) *)
Record ndelta := mkND { nd_ins : list nrec; nd_rem : list chash }.
Definition nd_empty (d : ndelta) : bool :=
  match nd_ins d, nd_rem d with [], [] => true | _, _ => false end.

(* ---- record format: format.rs ---- *)

(* format.rs 83-96: one insert / 98-100: one remove *)
Definition enc_ins (r : nrec) : bytes :=
  nr_hash r ++ le 8 (nr_idx r) ++ le 4 (nr_round r) ++ le 2 (N.of_nat (length (nr_data r))) ++ nr_data r.
Definition enc_payload (id : N) (d : ndelta) : bytes :=
  le 8 id ++ le 4 (N.of_nat (length (nd_ins d))) ++ le 4 (N.of_nat (length (nd_rem d)))
    ++ flat_map enc_ins (nd_ins d) ++ concat (nd_rem d).
(* format.rs 199-206 (estimate_total_metadata_len) plus the cell bytes *)
Definition payload_len (d : ndelta) : N :=
  16 + N.of_nat (length (nd_ins d)) * (32 + 8 + 4 + 2) + N.of_nat (length (nd_rem d)) * 32
    + N.of_nat (length (flat_map nr_data (nd_ins d))).
(* format.rs 56-121 (encode_record); `hf` is BLAKE3 *)
Definition enc_record (hf : bytes -> bytes) (id : N) (d : ndelta) : bytes :=
  let body := le 8 (payload_len d) ++ enc_payload id d in
  hf body ++ body.

(* format.rs 154-171 *)
Fixpoint dec_inserts (n : nat) (d : bytes) : option (list nrec * bytes) :=
  match n with
  | O => Some ([], d)
  | S k =>
    match take_n 32 d with None => None | Some (h, d) =>
    match read_le 8 d with None => None | Some (idx, d) =>
    match read_le 4 d with None => None | Some (round, d) =>
    match read_le 2 d with None => None | Some (len, d) =>
    match take_n (N.to_nat len) d with None => None | Some (data, d) =>
    match dec_inserts k d with None => None | Some (rs, d) =>
      Some (mkNR h idx round data :: rs, d)
    end end end end end end
  end.
(* format.rs 173-178 *)
Fixpoint dec_removes (n : nat) (d : bytes) : option (list chash * bytes) :=
  match n with
  | O => Some ([], d)
  | S k =>
    match take_n 32 d with None => None | Some (h, d) =>
    match dec_removes k d with None => None | Some (hs, d) => Some (h :: hs, d) end end
  end.
(* format.rs 130-197 (decode_record): what is left of the file is returned.
   A payload that is too short for its counts (with a matching hash) makes
   the code panic; here it is a failure as well. *)
Definition dec_record (hf : bytes -> bytes) (io : bytes)
  : option (N * bytes * ndelta * bytes) :=
  match take_n 32 io with None => None | Some (hash, io) =>
  match read_le 8 io with None => None | Some (plen, io) =>
  if 2 ^ 64 <=? plen + 8 then None
  else match take_n (N.to_nat plen) io with None => None | Some (p, rest) =>
  if negb (beqb (hf (le 8 plen ++ p)) hash) then None
  else
  match read_le 8 p with None => None | Some (id, p) =>
  match read_le 4 p with None => None | Some (ni, p) =>
  match read_le 4 p with None => None | Some (nrm, p) =>
  match dec_inserts (N.to_nat ni) p with None => None | Some (ins, p) =>
  match dec_removes (N.to_nat nrm) p with None => None | Some (rem, p) =>
    Some (id, hash, mkND ins rem, rest)
  end end end end end end end end.

(* row_format.rs 5-10, 12-20 *)
Definition enc_row (idx : N) (data : bytes) : bytes := le 8 idx ++ data.
Definition dec_row (v : bytes) : option (N * bytes) := read_le 8 v.

(* ---- the nursery: cell_nursery.rs ---- *)
Record nentry := mkNE { ne_idx : N; ne_round : N; ne_data : bytes }.
Record nursery := mkNu {
  nu_ent : list (chash * nentry);
  nu_by_round : list (N * list chash)
}.
Definition nu_new : nursery := mkNu [] [].

(* cell_nursery.rs 269-290 (insert_entries): None = "nursery insert rewrote
   existing cell", the process aborts *)
Fixpoint ins_entries (l : list nrec) (m : list (chash * nentry)) : option (list (chash * nentry)) :=
  match l with
  | [] => Some m
  | r :: t =>
    match aget beqb (nr_hash r) m with
    | Some _ => None
    | None => ins_entries t (aset beqb (nr_hash r) (mkNE (nr_idx r) (nr_round r) (nr_data r)) m)
    end
  end.
(* cell_nursery.rs 292-312 (remove_entries) *)
Fixpoint rem_entries (l : list chash) (m : list (chash * nentry)) : list (chash * nentry) :=
  match l with
  | [] => m
  | h :: t => rem_entries t (adel beqb h m)
  end.
(* cell_nursery.rs 382-445 (PendingRoundIndex), 493-509 (append_all): every
   insert is put into the bucket of its round *)
Definition bucket (r : N) (b : list (N * list chash)) : list chash :=
  match aget N.eqb r b with Some l => l | None => [] end.
Fixpoint add_rounds (l : list nrec) (b : list (N * list chash)) : list (N * list chash) :=
  match l with
  | [] => b
  | r :: t => add_rounds t (aset N.eqb (nr_round r) (bucket (nr_round r) b ++ [nr_hash r]) b)
  end.
(* cell_nursery.rs 53-62 (apply_commit), 228-242 (publish_entries): first all
   inserts, then all removes *)
Definition nu_apply (n : nursery) (d : ndelta) : option nursery :=
  if nd_empty d then Some n
  else match ins_entries (nd_ins d) (nu_ent n) with
       | None => None
       | Some m => Some (mkNu (rem_entries (nd_rem d) m) (add_rounds (nd_ins d) (nu_by_round n)))
       end.

Definition PROMOTION_DELAY_ROUNDS : N := 100.

(* cell_nursery.rs 199-216 (drain_promotion_candidates, one bucket) *)
Fixpoint promote_bucket (m : list (chash * nentry)) (r : N) (hs : list chash) : list nrec :=
  match hs with
  | [] => []
  | h :: t =>
    match aget beqb h m with
    | Some e => if ne_round e =? r then mkNR h (ne_idx e) (ne_round e) (ne_data e) :: promote_bucket m r t
                else promote_bucket m r t
    | None => promote_bucket m r t
    end
  end.
(* cell_nursery.rs 64-74 (drain_promotable), 184-219 *)
Definition nu_drain (round : N) (n : nursery) : list nrec * nursery :=
  if round <? PROMOTION_DELAY_ROUNDS then ([], n)
  else
    let mx := round - PROMOTION_DELAY_ROUNDS in
    let popped := filter (fun e => fst e <=? mx) (nu_by_round n) in
    (flat_map (fun e => promote_bucket (nu_ent n) (fst e) (snd e)) popped,
     mkNu (nu_ent n) (filter (fun e => negb (fst e <=? mx)) (nu_by_round n))).

(* cell_nursery.rs 76-88 (snapshot_entries), in the order of the map *)
Definition nu_snapshot (n : nursery) : list nrec :=
  map (fun e => mkNR (fst e) (ne_idx (snd e)) (ne_round (snd e)) (ne_data (snd e))) (nu_ent n).

(* ---- what is on the disk ---- *)
(* `k_log` is not stored: it lists the operations whose batch was written *)
Inductive wop := OStore (round : N) (ins : list nrec) | ORemove (hs : list chash) | OFlush.
Record disk := mkDisk {
  k_version : option N;
  k_committed : option N;
  k_ckpt : option N;
  k_hash : option bytes;
  k_rows : list (chash * bytes);
  k_wal : option bytes;
  k_files : list (N * bytes);      (* cell_nursery.checkpoint.{id} *)
  k_tmp : list (N * bytes);        (* cell_nursery.checkpoint.tmp.{id} *)
  k_log : list wop
}.
Definition disk_new : disk := mkDisk None None None None [] None [] [] [].

(* nursery_persistence/mod.rs 33-41 (NurseryPersistence) and the nursery *)
Record wnode := mkWN {
  w_committed : N;
  w_ckpt : N;
  w_size : N;
  w_nur : nursery
}.

Definition STATE_VERSION : N := 1.
Definition or0 (o : option N) : N := match o with Some x => x | None => 0 end.
Definition is_some {A} (o : option A) : bool := match o with Some _ => true | None => false end.

(* mod.rs 383-439 (load_state) *)
Definition load_state (k : disk) : option (N * N * option bytes) :=
  let committed := or0 (k_committed k) in
  let ckpt := or0 (k_ckpt k) in
  if match k_version k with None => false | Some v => negb (v =? STATE_VERSION) end then None
  else if committed <? ckpt then None
  else match k_version k with
       | None => if (committed =? 0) && (ckpt =? 0) && negb (is_some (k_hash k))
                 then Some (committed, ckpt, k_hash k) else None
       | Some _ => if Bool.eqb (0 <? ckpt) (is_some (k_hash k))
                   then Some (committed, ckpt, k_hash k) else None
       end.

(* mod.rs 189-221 (load_checkpoint) *)
Definition load_checkpoint (hf : bytes -> bytes) (k : disk) (id : N) (hash : bytes) (n : nursery)
  : option nursery :=
  match aget N.eqb id (k_files k) with
  | None => None
  | Some f =>
    match dec_record hf f with
    | None => None
    | Some (rid, rhash, d, _) =>
      if negb (rid =? id) then None
      else if negb (beqb rhash hash) then None
      else match nd_rem d with
           | [] => nu_apply n d
           | _ => None
           end
    end
  end.

(* mod.rs 324-359: the loop of replay_wal.  `rest` is the unread part of the
   file, `cursor` the number of bytes of the accepted records; every record
   takes some bytes, so `fuel` = number of bytes + 1 is enough *)
Fixpoint replay_loop (hf : bytes -> bytes) (fuel : nat) (total : N) (committed ckpt next : N)
  (rest : bytes) (cursor : N) (n : nursery) : option (N * N * nursery) :=
  match fuel with
  | O => None
  | S k =>
    if committed <? next then Some (next, cursor, n)
    else match dec_record hf rest with
    | None => Some (next, cursor, n)
    | Some (id, _, d, rest') =>
      if committed <? id then Some (next, cursor, n)
      else
        let cursor := total - N.of_nat (length rest') in
        if id <=? ckpt then replay_loop hf k total committed ckpt next rest' cursor n
        else if negb (id =? next) then None
        else match nu_apply n d with
             | None => None
             | Some n => replay_loop hf k total committed ckpt (next + 1) rest' cursor n
             end
    end
  end.

(* mod.rs 308-381 (replay_wal): the nursery and the new length of the file *)
Definition replay_wal (hf : bytes -> bytes) (wal : bytes) (committed ckpt : N) (n : nursery)
  : option (nursery * N) :=
  if committed =? ckpt then Some (n, 0)
  else match replay_loop hf (S (length wal)) (N.of_nat (length wal)) committed ckpt (ckpt + 1) wal 0 n with
       | None => None
       | Some (next, cursor, n) =>
         if next =? committed + 1 then Some (n, cursor) else None
       end.

Definition set_wal (k : disk) (w : option bytes) : disk :=
  mkDisk (k_version k) (k_committed k) (k_ckpt k) (k_hash k) (k_rows k) w (k_files k) (k_tmp k) (k_log k).

(* mod.rs 53-98 (open) *)
Definition wopen (hf : bytes -> bytes) (k : disk) : option (disk * wnode) :=
  match load_state k with
  | None => None
  | Some (committed, ckpt, hash) =>
    let loaded :=
      if 0 <? ckpt then
        match hash with None => None | Some h => load_checkpoint hf k ckpt h nu_new end
      else Some nu_new in
    match loaded with
    | None => None
    | Some n =>
      if negb (is_some (k_wal k)) && negb (committed =? ckpt) then None
      else
        let wal := match k_wal k with Some w => w | None => [] end in
        match replay_wal hf wal committed ckpt n with
        | None => None
        | Some (n, size) =>
          Some (set_wal k (Some (firstn (N.to_nat size) wal)), mkWN committed ckpt size n)
        end
    end
  end.

(* mod.rs 100-141 (append_commit): the bytes to append, and the counters *)
Definition append_rec (hf : bytes -> bytes) (w : wnode) (d : ndelta) : bytes :=
  if nd_empty d then [] else enc_record hf (w_committed w + 1) d.
Definition append_node (hf : bytes -> bytes) (w : wnode) (d : ndelta) : wnode :=
  if nd_empty d then w
  else mkWN (w_committed w + 1) (w_ckpt w) (w_size w + N.of_nat (length (append_rec hf w d))) (w_nur w).

(* the RocksDB batch built along with a delta *)
Record wbatch := mkWB {
  b_put : list (chash * bytes);
  b_del : list chash;
  b_committed : option N;
  b_op : wop
}.

(* cell_storage.rs 574-679 (finalize of a store), 1032-1113 (finalize of a
   remove), 102-161 (prepare_persistent_state_save), 1285-1304
   (stage_persisted_cell_row): the delta of an operation, the rows it puts
   and deletes, and the nursery after the drained rounds are forgotten *)
Definition rows_of (l : list nrec) : list (chash * bytes) :=
  map (fun r => (nr_hash r, enc_row (nr_idx r) (nr_data r))) l.
Definition op_delta (w : wnode) (o : wop) : ndelta * list (chash * bytes) * list chash * nursery :=
  let n := w_nur w in
  match o with
  | OStore round ins =>
    let '(promoted, n) := nu_drain round n in
    (mkND ins (map nr_hash promoted), rows_of promoted, [], n)
  | ORemove hs =>
    (mkND [] (filter (fun h => is_some (aget beqb h (nu_ent n))) hs), [],
     filter (fun h => negb (is_some (aget beqb h (nu_ent n)))) hs, n)
  | OFlush =>
    let all := nu_snapshot n in
    (mkND [] (map nr_hash all), rows_of all, [], n)
  end.

(* the in-memory and WAL half of an operation: the new node and the batch
   that is written to RocksDB afterwards; None = the process aborts *)
Definition op_stage (hf : bytes -> bytes) (w : wnode) (o : wop) : option (wnode * bytes * wbatch) :=
  let '(d, puts, dels, n) := op_delta w o in
  let w := mkWN (w_committed w) (w_ckpt w) (w_size w) n in
  let rec := append_rec hf w d in
  let w := append_node hf w d in
  match nu_apply (w_nur w) d with
  | None => None
  | Some n =>
    Some (mkWN (w_committed w) (w_ckpt w) (w_size w) n, rec,
          mkWB puts dels (if nd_empty d then None else Some (w_committed w)) o)
  end.

Fixpoint put_rows (l : list (chash * bytes)) (m : list (chash * bytes)) : list (chash * bytes) :=
  match l with
  | [] => m
  | (h, v) :: t => put_rows t (aset beqb h v m)
  end.
Fixpoint del_rows (l : list chash) (m : list (chash * bytes)) : list (chash * bytes) :=
  match l with
  | [] => m
  | h :: t => del_rows t (adel beqb h m)
  end.

(* mod.rs 781 / 1124, cell_storage.rs 150: the batch is written *)
Definition write_batch (k : disk) (b : wbatch) : disk :=
  mkDisk (match b_committed b with Some _ => Some STATE_VERSION | None => k_version k end)
         (match b_committed b with Some c => Some c | None => k_committed k end)
         (k_ckpt k) (k_hash k)
         (del_rows (b_del b) (put_rows (b_put b) (k_rows k)))
         (k_wal k) (k_files k) (k_tmp k) (k_log k ++ [b_op b]).

Definition wal_of (k : disk) : bytes := match k_wal k with Some w => w | None => [] end.

(* mod.rs 143-184 (checkpoint_if_needed) *)
Definition ckpt_needed (threshold : N) (w : wnode) : bool :=
  negb ((w_size w <? threshold) || (w_ckpt w =? w_committed w)).
(* the record, for some iteration order `snap` of the nursery *)
Definition ckpt_rec (hf : bytes -> bytes) (w : wnode) (snap : list nrec) : bytes :=
  enc_record hf (w_committed w) (mkND snap []).

(* mod.rs 252-271 (write_checkpoint_file): first the temporary file ... *)
Definition ck_tmp (k : disk) (id : N) (data : bytes) : disk :=
  mkDisk (k_version k) (k_committed k) (k_ckpt k) (k_hash k) (k_rows k) (k_wal k) (k_files k)
         (aset N.eqb id data (k_tmp k)) (k_log k).
(* ... then the rename *)
Definition ck_rename (k : disk) (id : N) : disk :=
  mkDisk (k_version k) (k_committed k) (k_ckpt k) (k_hash k) (k_rows k) (k_wal k)
         (match aget N.eqb id (k_tmp k) with Some f => aset N.eqb id f (k_files k) | None => k_files k end)
         (adel N.eqb id (k_tmp k)) (k_log k).
(* mod.rs 223-242 (update_checkpoint_state) *)
Definition ck_state (k : disk) (id : N) (hash : bytes) : disk :=
  mkDisk (Some STATE_VERSION) (k_committed k) (Some id) (Some hash) (k_rows k) (k_wal k) (k_files k)
         (k_tmp k) (k_log k).
Definition ck_node (w : wnode) : wnode := mkWN (w_committed w) (w_committed w) (w_size w) (w_nur w).
(* mod.rs 244-250 (reset_wal) *)
Definition ck_truncate (k : disk) : disk := set_wal k (Some []).
Definition ck_node_done (w : wnode) : wnode := mkWN (w_committed w) (w_ckpt w) 0 (w_nur w).
(* mod.rs 273-285 (remove_stale_checkpoints), 449-460: one file is removed *)
Definition ck_remove_file (k : disk) (id : N) : disk :=
  mkDisk (k_version k) (k_committed k) (k_ckpt k) (k_hash k) (k_rows k) (k_wal k)
         (adel N.eqb id (k_files k)) (k_tmp k) (k_log k).
Definition ck_remove_tmp (k : disk) (id : N) : disk :=
  mkDisk (k_version k) (k_committed k) (k_ckpt k) (k_hash k) (k_rows k) (k_wal k) (k_files k)
         (adel N.eqb id (k_tmp k)) (k_log k).

(* what the process is doing.  The three operations and the checkpoints are
   serialized by the GC lock (mod.rs 148, 176, 725, 847, 1095), and a failed
   write aborts the process (panic = "abort"). *)
Inductive wphase :=
| Down
| Idle (w : wnode)
| Staged (w : wnode) (b : wbatch)
| CkTmp (w : wnode) (hash : bytes)
| CkRenamed (w : wnode) (hash : bytes)
| CkState (w : wnode)
| CkClean (w : wnode).
