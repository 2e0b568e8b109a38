(* What the cell storage promises, without its transactions and threads. *)
From Coq Require Import NArith List Bool.
From Verif Require Import AMap CntModel CntSpec RcModel.
Import ListNotations.
Open Scope N_scope.

(* how often a hash occurs in a list of references *)
Fixpoint occ (h : N) (l : list N) : N :=
  match l with
  | [] => 0
  | x :: t => (if h =? x then 1 else 0) + occ h t
  end.
(* how often the given cells refer to h *)
Fixpoint refs_to (content : N -> cellc) (h : N) (cells : list N) : N :=
  match cells with
  | [] => 0
  | c :: t => occ h (cc_refs (content c)) + refs_to content h t
  end.

(* the cells below a cell *)
Inductive reach (content : N -> cellc) : N -> N -> Prop :=
| reach_refl h : reach content h h
| reach_step r h k : reach content r h -> In k (cc_refs (content h)) -> reach content r k.
(* hashes are computed from the cells below, so references form no cycle *)
Definition acyclic (content : N -> cellc) : Prop :=
  exists rank : N -> nat, forall h k, In k (cc_refs (content h)) -> (rank k < rank h)%nat.
Definition finite_below (content : N -> cellc) (r : N) : Prop :=
  exists U, forall h, reach content r h -> In h U.

(* the cells on the disk *)
Definition stored (d : cdb) : list N := akeys (d_nur d) ++ akeys (d_rows d).
Definition look (d : cdb) (h : N) : option rowv :=
  match aget N.eqb h (d_nur d) with Some v => Some v | None => aget N.eqb h (d_rows d) end.

(* runs of the two traversals: `n` counts the steps of threads.  Meanwhile
   readers fill the raw cell cache and entries are evicted. *)
Inductive srun (fp : N -> N) (content : N -> cellc) (sp : N -> bool) (d : cdb)
  : nat -> sctx * list sthr -> sctx * list sthr -> Prop :=
| sr_refl s : srun fp content sp d 0 s s
| sr_thread n s c a t b c' ts :
    srun fp content sp d n s (c, a ++ t :: b) -> sstep fp content sp d c t = (c', ts) ->
    srun fp content sp d (S n) s (c', a ++ ts ++ b)
| sr_load n s c l h v :
    srun fp content sp d n s (c, l) -> aget N.eqb h (d_rows d) = Some v ->
    srun fp content sp d n s (mkSC (x_next c) (x_tx c) (x_del c) (aset N.eqb h v (x_cache c)), l)
| sr_evict n s c l h :
    srun fp content sp d n s (c, l) ->
    srun fp content sp d n s (mkSC (x_next c) (x_tx c) (x_del c) (adel N.eqb h (x_cache c)), l).

Inductive rrun (sp : N -> bool) (d : cdb)
  : nat -> rctx * list rthr -> rctx * list rthr -> Prop :=
| rr_refl s : rrun sp d 0 s s
| rr_thread n s c a t b c' ts :
    rrun sp d n s (c, a ++ t :: b) -> rstep sp d c t = Some (c', ts) ->
    rrun sp d (S n) s (c', a ++ ts ++ b)
| rr_load n s c l h v :
    rrun sp d n s (c, l) -> aget N.eqb h (d_rows d) = Some v ->
    rrun sp d n s (mkRC (y_tx c) (y_del c) (aset N.eqb h v (y_cache c)), l)
| rr_evict n s c l h :
    rrun sp d n s (c, l) -> rrun sp d n s (mkRC (y_tx c) (y_del c) (adel N.eqb h (y_cache c)), l).

(* A detached subtree root is met at most once below the removed root, or
   some other cell or root also refers to it.  (Below it is shown that
   without this cells are leaked.) *)
Definition rcount (d : cdb) (h : N) : N :=
  match look d h with Some v => d_rc d (fst v) | None => 0 end.
Definition split_ok (content : N -> cellc) (d : cdb) (sp : N -> bool) (root : N) : Prop :=
  forall U h, NoDup U -> (forall u, In u U -> reach content root u) -> sp h = true ->
  occ h [root] + refs_to content h U <= 1 \/ occ h [root] + refs_to content h U < rcount d h.

(* the process: the storage, the blocks whose handle says that the state is
   stored, and the block whose batch is written but whose handle is not *)
Record cnode := mkCN { n_db : cdb; n_flags : list N; n_pend : option N }.

(* every history; `R` lists the roots that were stored and not yet removed.
   The state of a block has one root.  With `clean` no crash happens between
   the batch of a state and the update of its block handle. *)
Inductive rchist (fp : N -> N) (content : N -> cellc) (root_of : N -> N) (clean : bool)
  : cnode -> list N -> Prop :=
| rh_new : rchist fp content root_of clean (mkCN cdb_new [] None) []
| rh_store d fl R blk sp n c pr d' :
    rchist fp content root_of clean (mkCN d fl None) R -> ~ In blk fl ->
    srun fp content sp d n (sstart d (root_of blk)) (c, []) ->
    sfin fp d c pr blk (root_of blk) = Some d' ->
    rchist fp content root_of clean (mkCN d' fl (Some blk)) (root_of blk :: R)
| rh_flag d fl R blk :
    rchist fp content root_of clean (mkCN d fl (Some blk)) R ->
    rchist fp content root_of clean (mkCN d (blk :: fl) None) R
| rh_remove d fl R1 R2 blk sp n c d' :
    rchist fp content root_of clean (mkCN d fl None) (R1 ++ root_of blk :: R2) ->
    aget N.eqb blk (d_states d) = Some (root_of blk) ->
    split_ok content d sp (root_of blk) ->
    rrun sp d n (rstart d (root_of blk)) (c, []) ->
    rfin fp d c blk = Some d' ->
    rchist fp content root_of clean (mkCN d' fl None) (R1 ++ R2)
| rh_flush d fl p R :
    rchist fp content root_of clean (mkCN d fl p) R -> rchist fp content root_of clean (mkCN (flush_all fp d) fl p) R
| rh_load d fl p R h v :
    rchist fp content root_of clean (mkCN d fl p) R -> aget N.eqb h (d_rows d) = Some v ->
    rchist fp content root_of clean (mkCN (set_cache d (aset N.eqb h v (d_cache d))) fl p) R
| rh_evict d fl p R h :
    rchist fp content root_of clean (mkCN d fl p) R ->
    rchist fp content root_of clean (mkCN (set_cache d (adel N.eqb h (d_cache d))) fl p) R
| rh_crash d fl p R :
    rchist fp content root_of clean (mkCN d fl p) R -> (clean = true -> p = None) ->
    rchist fp content root_of clean (mkCN (restart fp d) fl None) R.
