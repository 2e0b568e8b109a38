(* What the nursery promises: nursery and RocksDB rows together are one
   durable map from cell hash to (row number, data). *)
From Coq Require Import NArith List Bool Permutation.
From Verif Require Import AMap Bytes WalModel.
Import ListNotations.
Open Scope N_scope.

(* the inserted record with this hash *)
Fixpoint ifind (h : chash) (l : list nrec) : option nrec :=
  match l with
  | [] => None
  | r :: t => if beqb h (nr_hash r) then Some r else ifind h t
  end.
Definition hmem (h : chash) (l : list chash) : bool := existsb (beqb h) l.

(* the cells that exist after a list of operations *)
Definition live_step (m : chash -> option (N * bytes)) (o : wop) : chash -> option (N * bytes) :=
  match o with
  | OStore _ ins => fun h => match ifind h ins with Some r => Some (nr_idx r, nr_data r) | None => m h end
  | ORemove hs => fun h => if hmem h hs then None else m h
  | OFlush => m
  end.
Definition live (log : list wop) : chash -> option (N * bytes) :=
  fold_left live_step log (fun _ => None).

(* how a cell is read: nursery first, then RocksDB *)
Definition read_cell (k : disk) (w : wnode) (h : chash) : option (N * bytes) :=
  match aget beqb h (nu_ent (w_nur w)) with
  | Some e => Some (ne_idx e, ne_data e)
  | None => match aget beqb h (k_rows k) with Some v => dec_row v | None => None end
  end.

(* what the callers guarantee for an operation: only cells that do not exist
   are inserted, once, and the fields have the sizes of the code *)
Definition nrec_fits (r : nrec) : Prop :=
  length (nr_hash r) = 32%nat /\ nr_idx r < 2 ^ 64 /\ nr_round r < 2 ^ 32 /\
  N.of_nat (length (nr_data r)) < 2 ^ 16.
Definition op_ok (log : list wop) (o : wop) : Prop :=
  match o with
  | OStore round ins =>
    NoDup (map nr_hash ins) /\
    forall r, In r ins -> nrec_fits r /\ nr_round r = round /\ live log (nr_hash r) = None
  | ORemove _ => True
  | OFlush => True
  end.
(* the counts of a record are 32-bit, its number 64-bit *)
Definition counts_fit (w : wnode) (d : ndelta) : Prop :=
  N.of_nat (length (nd_ins d)) < 2 ^ 32 /\ N.of_nat (length (nd_rem d)) < 2 ^ 32 /\
  w_committed w + 1 < 2 ^ 64.

(* one step of the process, of the disk, or a crash.  `t` is the configured
   size of the log that triggers a checkpoint *)
Inductive wstep (hf : bytes -> bytes) (t : N) : disk * wphase -> disk * wphase -> Prop :=
(* an operation: the log is extended (perhaps not completely before a crash) ... *)
| ws_torn k w o d puts dels n w' rec b j :
    op_ok (k_log k) o -> op_delta w o = (d, puts, dels, n) -> counts_fit w d ->
    op_stage hf w o = Some (w', rec, b) ->
    wstep hf t (k, Idle w) (set_wal k (Some (wal_of k ++ firstn j rec)), Down)
| ws_stage k w o d puts dels n w' rec b :
    op_ok (k_log k) o -> op_delta w o = (d, puts, dels, n) -> counts_fit w d ->
    op_stage hf w o = Some (w', rec, b) ->
    wstep hf t (k, Idle w) (set_wal k (Some (wal_of k ++ rec)), Staged w' b)
(* ... then the batch is written *)
| ws_write k w b : wstep hf t (k, Staged w b) (write_batch k b, Idle w)
(* a checkpoint, step by step *)
| ws_ck_torn k w snap j :
    ckpt_needed t w = true -> Permutation snap (nu_snapshot (w_nur w)) ->
    N.of_nat (length snap) < 2 ^ 32 ->
    wstep hf t (k, Idle w) (ck_tmp k (w_committed w) (firstn j (ckpt_rec hf w snap)), Down)
| ws_ck_tmp k w snap :
    ckpt_needed t w = true -> Permutation snap (nu_snapshot (w_nur w)) ->
    N.of_nat (length snap) < 2 ^ 32 ->
    wstep hf t (k, Idle w)
      (ck_tmp k (w_committed w) (ckpt_rec hf w snap), CkTmp w (firstn 32 (ckpt_rec hf w snap)))
| ws_ck_rename k w hash :
    wstep hf t (k, CkTmp w hash) (ck_rename k (w_committed w), CkRenamed w hash)
| ws_ck_state k w hash :
    wstep hf t (k, CkRenamed w hash) (ck_state k (w_committed w) hash, CkState (ck_node w))
| ws_ck_truncate k w :
    wstep hf t (k, CkState w) (ck_truncate k, CkClean (ck_node_done w))
| ws_ck_file k w id : id <> w_ckpt w ->
    wstep hf t (k, CkClean w) (ck_remove_file k id, CkClean w)
| ws_ck_tmpfile k w id : wstep hf t (k, CkClean w) (ck_remove_tmp k id, CkClean w)
| ws_ck_done k w : wstep hf t (k, CkClean w) (k, Idle w)
(* the process dies, and is started again *)
| ws_crash k p : wstep hf t (k, p) (k, Down)
| ws_create k : k_wal k = None -> wstep hf t (k, Down) (set_wal k (Some []), Down)
| ws_open k k' w : wopen hf k = Some (k', w) -> wstep hf t (k, Down) (k', Idle w).

Inductive wreach (hf : bytes -> bytes) (t : N) : disk * wphase -> Prop :=
| wr_init : wreach hf t (disk_new, Down)
| wr_step s s' : wreach hf t s -> wstep hf t s s' -> wreach hf t s'.
