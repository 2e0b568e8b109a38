(* The tracker of the least masterchain seqno that states in memory refer to.

   /repo/block-util/src/state/min_ref_mc_state.rs

   Handles are made and dropped by any number of threads.  A section under
   the read lock reads the map and changes one counter by one atomic
   operation; a section under the write lock is exclusive.  Each section is
   one step; sections of different threads interleave freely.

   Simplifications: untracked handles (seqno None) do nothing and are left
   out; a cloned handle is the same handle (Arc); the metrics are left out. *)
From Coq Require Import NArith List Bool.
From Verif Require Import AMap.
Import ListNotations.
Open Scope N_scope.

(* 170-174 (StateIds) *)
Record tracker := mkTr { tr_min : option N; tr_refs : list (N * N) }.
Definition tr_new : tracker := mkTr None [].

(* 23-25 (seqno) *)
Definition tr_seqno (t : tracker) : option N := tr_min t.

(* AtomicU32 *)
Definition u32_add (x : N) : N := (x + 1) mod 2 ^ 32.
Definition u32_sub (x : N) : N := (x + 2 ^ 32 - 1) mod 2 ^ 32.

(* 92-101 (insert, under the read lock): true = done *)
Definition ins_read (s : N) (t : tracker) : tracker * bool :=
  match aget N.eqb s (tr_refs t) with
  | Some c => (mkTr (tr_min t) (aset N.eqb s (u32_add c) (tr_refs t)), true)
  | None => (t, false)
  end.
(* 103-118 (insert, under the write lock) *)
Definition ins_write (s : N) (t : tracker) : tracker :=
  match aget N.eqb s (tr_refs t) with
  | None =>
    mkTr (match tr_min t with
          | Some m => if s <? m then Some s else Some m
          | None => Some s
          end)
         (aset N.eqb s 1 (tr_refs t))
  | Some c => mkTr (tr_min t) (aset N.eqb s (u32_add c) (tr_refs t))
  end.
(* 131-141 (remove, under the read lock): true = done *)
Definition rem_read (s : N) (t : tracker) : tracker * bool :=
  match aget N.eqb s (tr_refs t) with
  | Some c => (mkTr (tr_min t) (aset N.eqb s (u32_sub c) (tr_refs t)), 1 <? c)
  | None => (t, true)
  end.
(* refs.keys().min() *)
Fixpoint lmin (l : list N) : option N :=
  match l with
  | [] => None
  | x :: r => match lmin r with Some m => Some (N.min x m) | None => Some x end
  end.
(* 143-153 (remove, under the write lock) *)
Definition rem_write (s : N) (t : tracker) : tracker :=
  match aget N.eqb s (tr_refs t) with
  | Some c =>
    if c =? 0 then
      let refs := adel N.eqb s (tr_refs t) in
      mkTr (match tr_min t with
            | Some m => if m =? s then lmin (akeys refs) else Some m
            | None => None
            end) refs
    else t
  | None => t
  end.

(* a call in progress *)
Inductive tcall := InsA (s : N) | InsB (s : N) | RemA (s : N) | RemB (s : N).
(* 27-36 (insert): which states are tracked *)
Definition tracked (seqno min_ref : N) : option N :=
  if (seqno =? 0) || (min_ref =? 2 ^ 32 - 1) then None else Some min_ref.

(* 63-76 (min_safe): the handle to keep of two; a handle is its seqno *)
Definition min_safe (this other : option N) : option N :=
  match this, other with
  | _, None => this
  | None, Some _ => other
  | Some a, Some b => if b <? a then other else this
  end.

(* the tracker, the handles that exist and the calls in progress *)
Record tsys := mkTS { ts_tr : tracker; ts_live : list N; ts_calls : list tcall }.
Inductive tstep : tsys -> tsys -> Prop :=
(* insert_seqno is called; fewer than 2^32 handles at a time *)
| t_ins tr l c s : N.of_nat (length l + length c) < 2 ^ 32 - 1 ->
    tstep (mkTS tr l c) (mkTS tr l (InsA s :: c))
| t_insa_done tr l a s b tr' : ins_read s tr = (tr', true) ->
    tstep (mkTS tr l (a ++ InsA s :: b)) (mkTS tr' (s :: l) (a ++ b))
| t_insa tr l a s b tr' : ins_read s tr = (tr', false) ->
    tstep (mkTS tr l (a ++ InsA s :: b)) (mkTS tr' l (a ++ InsB s :: b))
| t_insb tr l a s b :
    tstep (mkTS tr l (a ++ InsB s :: b)) (mkTS (ins_write s tr) (s :: l) (a ++ b))
(* the last clone of a handle is dropped *)
| t_drop tr x s y c : tstep (mkTS tr (x ++ s :: y) c) (mkTS tr (x ++ y) (RemA s :: c))
| t_rema_done tr l a s b tr' : rem_read s tr = (tr', true) ->
    tstep (mkTS tr l (a ++ RemA s :: b)) (mkTS tr' l (a ++ b))
| t_rema tr l a s b tr' : rem_read s tr = (tr', false) ->
    tstep (mkTS tr l (a ++ RemA s :: b)) (mkTS tr' l (a ++ RemB s :: b))
| t_remb tr l a s b :
    tstep (mkTS tr l (a ++ RemB s :: b)) (mkTS (rem_write s tr) l (a ++ b)).

Inductive treach : tsys -> Prop :=
| tr_init : treach (mkTS tr_new [] [])
| tr_step s s' : treach s -> tstep s s' -> treach s'.
