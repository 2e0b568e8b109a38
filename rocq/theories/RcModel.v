(* The cell storage: states share cells, every stored cell has a reference
   count, and a cell is deleted when its last reference goes.

   /repo/core/src/storage/shard_state/cell_storage.rs 395-733 (store_cell_mt),
   835-1170 (remove_cell_mt), 102-173 (prepare_persistent_state_save),
   1210-1305, 1366-1400, and the callers in
   /repo/core/src/storage/shard_state/mod.rs 717-800, 1022-1155.

   Both traversals run in parallel on a worker pool: subtrees whose root is
   in `split_at` are detached and handled by another thread.  Threads are
   modelled with their stacks; every access to a shared map is one step, and
   steps of threads interleave freely.

   Simplifications.  A cell hash is a number, and one hash has one content
   (`content`).  The counters are the table of C62 (absent = one), the
   nursery and the rows are the durable map of C63, so that a batch is
   written completely or not at all.  u32 additions are unbounded numbers.
   The tree cache of materialized cells (cells_cache) is left out. *)
From Coq Require Import NArith List Bool.
From Verif Require Import AMap CntModel CntSpec.
Import ListNotations.
Open Scope N_scope.

Record cellc := mkCell { cc_data : N; cc_refs : list N }.
Definition rowv := (N * cellc)%type.

(* cell_storage.rs 40-60: nursery, RocksDB rows, raw cell cache, filter over
   the fingerprints of persisted rows, next row number, counters; and the
   shard_states table (block -> root hash) *)
Record cdb := mkDb {
  d_nur : list (N * rowv);
  d_rows : list (N * rowv);
  d_cache : list (N * rowv);
  d_filt : list N;
  d_next : N;
  d_rc : table;
  d_states : list (N * N)
}.

Definition nmem (h : N) (l : list N) : bool := existsb (N.eqb h) l.

(* counters.rs: what `get` returns (C62: counters_read_back, counters_absent_is_one) *)
Definition cget (t : table) (i : N) : N := if t i =? 0 then 1 else t i.

(* how a reader finds a cell: cell_storage.rs 759-800 (load_cell) *)
Definition load_raw (d : cdb) (h : N) : option rowv :=
  match aget N.eqb h (d_nur d) with
  | Some v => Some v
  | None => match aget N.eqb h (d_cache d) with
            | Some v => Some v
            | None => aget N.eqb h (d_rows d)
            end
  end.

(* ---- storing ---- *)

(* 1212-1252 (get_raw_idx_for_insert) *)
Definition NEW_CELLS_DEPTH_THRESHOLD : nat := 4.
Definition raw_idx_ins (rows cache : list (N * rowv)) (depth : nat) (h : N)
  : option N * list (N * rowv) :=
  let deep := Nat.leb NEW_CELLS_DEPTH_THRESHOLD depth in
  match (if deep then aget N.eqb h cache else None) with
  | Some v => (Some (fst v), cache)
  | None =>
    match aget N.eqb h rows with
    | None => (None, cache)
    | Some v => (Some (fst v), if deep then aset N.eqb h v cache else cache)
    end
  end.
(* 525-531: an existing stored cell *)
Definition existing (fp : N -> N) (d : cdb) (cache : list (N * rowv)) (depth : nat) (h : N)
  : option N * list (N * rowv) :=
  match aget N.eqb h (d_nur d) with
  | Some v => (Some (fst v), cache)
  | None => if nmem (fp h) (d_filt d) then raw_idx_ins (d_rows d) cache depth h else (None, cache)
  end.

(* 1393-1398 (AddedCell) *)
Record added := mkAdd { a_idx : N; a_old : N; a_add : N; a_new : option cellc }.
Definition add_n (n : N) (a : added) : added := mkAdd (a_idx a) (a_old a) (a_add a + n) (a_new a).

(* 402-412 (StoreContext): what the threads share.  The raw cell cache is
   shared with everybody. *)
Record sctx := mkSC {
  x_next : N;
  x_tx : list (N * added);
  x_del : list (N * N);
  x_cache : list (N * rowv)
}.
(* where a thread is: before insert_cell, after its lookup, in the loop *)
Inductive spc := SCell (h : N) | SSlow (h : N) (ex : option N) | SIter.
Record sthr := mkST { st_pc : spc; st_stack : list (list N) }.

(* 443-567 (traverse_cell, insert_cell): one step of one thread; the result
   is the threads that take its place *)
Definition sstep (fp : N -> N) (content : N -> cellc) (sp : N -> bool) (d : cdb) (c : sctx) (t : sthr)
  : sctx * list sthr :=
  match st_pc t with
  | SCell h =>
    match aget N.eqb h (x_tx c) with
    | Some a =>
      (mkSC (x_next c) (aset N.eqb h (add_n 1 a) (x_tx c)) (x_del c) (x_cache c),
       [mkST SIter (st_stack t)])
    | None =>
      let '(ex, cache) := existing fp d (x_cache c) (length (st_stack t)) h in
      (mkSC (x_next c) (x_tx c) (x_del c) cache, [mkST (SSlow h ex) (st_stack t)])
    end
  | SSlow h ex =>
    match aget N.eqb h (x_tx c) with
    | Some a =>
      (mkSC (x_next c) (aset N.eqb h (add_n 1 a) (x_tx c)) (x_del c) (x_cache c),
       [mkST SIter (st_stack t)])
    | None =>
      match ex with
      | Some i =>
        (mkSC (x_next c) (aset N.eqb h (mkAdd i (cget (d_rc d) i) 1 None) (x_tx c)) (x_del c) (x_cache c),
         [mkST SIter (st_stack t)])
      | None =>
        (mkSC (x_next c + 1) (aset N.eqb h (mkAdd (x_next c) 0 1 (Some (content h))) (x_tx c))
              (x_del c) (x_cache c),
         [mkST SIter (cc_refs (content h) :: st_stack t)])
      end
    end
  | SIter =>
    match st_stack t with
    | [] => (c, [])
    | [] :: st => (c, [mkST SIter st])
    | (h :: rest) :: st =>
      if sp h then
        match aget N.eqb h (x_del c) with
        | None => (mkSC (x_next c) (x_tx c) (aset N.eqb h 0 (x_del c)) (x_cache c),
                   [mkST SIter (rest :: st); mkST (SCell h) []])
        | Some n => (mkSC (x_next c) (x_tx c) (aset N.eqb h (n + 1) (x_del c)) (x_cache c),
                     [mkST SIter (rest :: st)])
        end
      else (c, [mkST (SCell h) (rest :: st)])
    end
  end.

Definition sstart (d : cdb) (root : N) : sctx * list sthr :=
  (mkSC (d_next d) [] [] (d_cache d), [mkST (SCell root) []]).

(* 578-589: delayed additions; None = panic "spawned subtree was not processed" *)
Fixpoint sdelayed (l : list (N * N)) (tx : list (N * added)) : option (list (N * added)) :=
  match l with
  | [] => Some tx
  | (h, n) :: t =>
    if n =? 0 then sdelayed t tx
    else match aget N.eqb h tx with
         | None => None
         | Some a => sdelayed t (aset N.eqb h (add_n n a) tx)
         end
  end.

(* the new count of a transaction item, 602-618 *)
Definition s_newrc (a : added) : N := a_old a + a_add a.
Definition s_updates (tx : list (N * added)) : list (N * N) :=
  map (fun e => (a_idx (snd e), s_newrc (snd e))) tx.
Fixpoint s_inserts (tx : list (N * added)) : list (N * rowv) :=
  match tx with
  | [] => []
  | (h, a) :: t =>
    match a_new a with
    | Some c => (h, (a_idx a, c)) :: s_inserts t
    | None => s_inserts t
    end
  end.
(* cell_nursery.rs 269-290: the process aborts if the cell is there *)
Fixpoint nur_insert (l : list (N * rowv)) (m : list (N * rowv)) : option (list (N * rowv)) :=
  match l with
  | [] => Some m
  | (h, v) :: t =>
    match aget N.eqb h m with
    | Some _ => None
    | None => nur_insert t (aset N.eqb h v m)
    end
  end.
Fixpoint put_all (l : list (N * rowv)) (m : list (N * rowv)) : list (N * rowv) :=
  match l with
  | [] => m
  | (h, v) :: t => put_all t (aset N.eqb h v m)
  end.
Fixpoint del_all (l : list N) (m : list (N * rowv)) : list (N * rowv) :=
  match l with
  | [] => m
  | h :: t => del_all t (adel N.eqb h m)
  end.

(* 569-682 (finalize), mod.rs 758-762.  Which nursery cells are old enough to
   be promoted is C63: here `pr` is any set of hashes. *)
Definition proms (d : cdb) (pr : N -> bool) : list (N * rowv) :=
  filter (fun e => pr (fst e)) (d_nur d).
Definition sfin (fp : N -> N) (d : cdb) (c : sctx) (pr : N -> bool) (blk root : N) : option cdb :=
  match sdelayed (x_del c) (x_tx c) with
  | None => None
  | Some tx =>
    let promoted := proms d pr in
    match nur_insert (s_inserts tx) (d_nur d) with
    | None => None
    | Some nur =>
      Some (mkDb (del_all (map fst promoted) nur) (put_all promoted (d_rows d))
                 (put_all promoted (x_cache c))
                 (map (fun e => fp (fst e)) promoted ++ d_filt d)
                 (x_next c) (tset_all (d_rc d) (s_updates tx))
                 (aset N.eqb blk root (d_states d)))
    end
  end.

(* ---- removing ---- *)

(* 1366-1376 (RemovedCell) *)
Record removed := mkRem { r_idx : N; r_nur : bool; r_old : N; r_rem : N; r_refs : list N }.
(* 1378-1391 (add_removes): None = CounterMismatch; the flag says whether the
   references are returned *)
Definition add_removes (n : N) (v : removed) : option (removed * bool) :=
  let m := r_rem v + n in
  if r_old v <? m then None
  else Some (mkRem (r_idx v) (r_nur v) (r_old v) m (r_refs v), r_old v =? m).

Record rctx := mkRC { y_tx : list (N * removed); y_del : list (N * N); y_cache : list (N * rowv) }.
Inductive rpc := RCell (h : N) | RSlow (h i : N) (nur : bool) (old : N) (refs : list N) | RIter.
Record rthr := mkRT { rt_pc : rpc; rt_stack : list (list N) }.

(* 984-1003, 1254-1283 (get_raw_idx_for_delete): None = CellNotFound *)
Definition find_del (d : cdb) (cache : list (N * rowv)) (h : N) : option (N * bool * list N) :=
  match aget N.eqb h (d_nur d) with
  | Some v => Some (fst v, true, cc_refs (snd v))
  | None =>
    match aget N.eqb h cache with
    | Some v => Some (fst v, false, cc_refs (snd v))
    | None =>
      match aget N.eqb h (d_rows d) with
      | Some v => Some (fst v, false, cc_refs (snd v))
      | None => None
      end
    end
  end.

Definition descend (b : bool) (refs : list N) (st : list (list N)) : list (list N) :=
  if b then refs :: st else st.

(* 885-1029 (traverse_cell, remove_cell); None = an error, which a detached
   thread unwraps *)
Definition rstep (sp : N -> bool) (d : cdb) (c : rctx) (t : rthr) : option (rctx * list rthr) :=
  match rt_pc t with
  | RCell h =>
    match aget N.eqb h (y_tx c) with
    | Some v =>
      match add_removes 1 v with
      | None => None
      | Some (v', b) =>
        Some (mkRC (aset N.eqb h v' (y_tx c)) (y_del c) (y_cache c),
              [mkRT RIter (descend b (r_refs v) (rt_stack t))])
      end
    | None =>
      match find_del d (y_cache c) h with
      | None => None
      | Some (i, nur, refs) => Some (c, [mkRT (RSlow h i nur (cget (d_rc d) i) refs) (rt_stack t)])
      end
    end
  | RSlow h i nur old refs =>
    match aget N.eqb h (y_tx c) with
    | Some v =>
      match add_removes 1 v with
      | None => None
      | Some (v', b) =>
        Some (mkRC (aset N.eqb h v' (y_tx c)) (y_del c) (y_cache c),
              [mkRT RIter (descend b (r_refs v) (rt_stack t))])
      end
    | None =>
      Some (mkRC (aset N.eqb h (mkRem i nur old 1 refs) (y_tx c)) (y_del c) (y_cache c),
            [mkRT RIter (descend (old =? 1) refs (rt_stack t))])
    end
  | RIter =>
    match rt_stack t with
    | [] => Some (c, [])
    | [] :: st => Some (c, [mkRT RIter st])
    | (h :: rest) :: st =>
      if sp h then
        match aget N.eqb h (y_del c) with
        | None => Some (mkRC (y_tx c) (aset N.eqb h 0 (y_del c)) (y_cache c),
                        [mkRT RIter (rest :: st); mkRT (RCell h) []])
        | Some n => Some (mkRC (y_tx c) (aset N.eqb h (n + 1) (y_del c)) (y_cache c),
                          [mkRT RIter (rest :: st)])
        end
      else Some (c, [mkRT (RCell h) (rest :: st)])
    end
  end.

Definition rstart (d : cdb) (root : N) : rctx * list rthr :=
  (mkRC [] [] (d_cache d), [mkRT (RCell root) []]).

(* 1042-1051: delayed removes; None = an error or a panic.  The references
   that add_removes may return are ignored. *)
Fixpoint rdelayed (l : list (N * N)) (tx : list (N * removed)) : option (list (N * removed)) :=
  match l with
  | [] => Some tx
  | (h, n) :: t =>
    if n =? 0 then rdelayed t tx
    else match aget N.eqb h tx with
         | None => None
         | Some v =>
           match add_removes n v with
           | None => None
           | Some (v', _) => rdelayed t (aset N.eqb h v' tx)
           end
         end
  end.
Definition r_newrc (v : removed) : N := r_old v - r_rem v.
Definition r_updates (tx : list (N * removed)) : list (N * N) :=
  map (fun e => (r_idx (snd e), r_newrc (snd e))) tx.
(* 1061-1085: the deleted cells of one source *)
Definition r_gone (nur : bool) (tx : list (N * removed)) : list N :=
  map fst (filter (fun e => (r_newrc (snd e) =? 0) && Bool.eqb (r_nur (snd e)) nur) tx).
(* the filter is a multiset: one fingerprint is removed *)
Fixpoint fremove (x : N) (l : list N) : list N :=
  match l with
  | [] => []
  | y :: t => if x =? y then t else y :: fremove x t
  end.
Fixpoint fremove_all (fp : N -> N) (hs : list N) (l : list N) : list N :=
  match hs with
  | [] => l
  | h :: t => fremove_all fp t (fremove (fp h) l)
  end.
(* 1031-1118 (finalize), mod.rs 1119-1128 *)
Definition rfin (fp : N -> N) (d : cdb) (c : rctx) (blk : N) : option cdb :=
  match rdelayed (y_del c) (y_tx c) with
  | None => None
  | Some tx =>
    Some (mkDb (del_all (r_gone true tx) (d_nur d))
               (del_all (r_gone false tx) (d_rows d))
               (del_all (r_gone false tx) (y_cache c))
               (fremove_all fp (r_gone false tx) (d_filt d))
               (d_next d) (tset_all (d_rc d) (r_updates tx))
               (adel N.eqb blk (d_states d)))
  end.

(* ---- the rest ---- *)

(* 102-173: every nursery cell becomes a row *)
Definition flush_all (fp : N -> N) (d : cdb) : cdb :=
  mkDb [] (put_all (d_nur d) (d_rows d)) (put_all (d_nur d) (d_cache d))
       (map (fun e => fp (fst e)) (d_nur d) ++ d_filt d) (d_next d) (d_rc d) (d_states d).

(* a restart: the caches are lost, the filter is rebuilt from the rows
   (1183-1208, build_persisted_filter) *)
Definition restart (fp : N -> N) (d : cdb) : cdb :=
  mkDb (d_nur d) (d_rows d) [] (map (fun e => fp (fst e)) (d_rows d)) (d_next d) (d_rc d) (d_states d).

Definition set_cache (d : cdb) (cache : list (N * rowv)) : cdb :=
  mkDb (d_nur d) (d_rows d) cache (d_filt d) (d_next d) (d_rc d) (d_states d).
Definition cdb_new : cdb := mkDb [] [] [] [] 0 (fun _ => 0) [].
