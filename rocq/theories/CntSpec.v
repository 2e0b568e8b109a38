(* What a user of the counters expects, without looking at the encoding. *)
From Coq Require Import NArith List Bool Permutation.
From Verif Require Import AMap Bytes CntModel.
Import ListNotations.
Open Scope N_scope.

(* the count of every row; 0 = there is no such row *)
Definition table := N -> N.
Definition tset (m : table) (i v : N) : table := fun j => if j =? i then v else m j.
Fixpoint tset_all (m : table) (l : list (N * N)) : table :=
  match l with
  | [] => m
  | (i, v) :: t => tset_all (tset m i v) t
  end.

(* the number of rows below n that exist *)
Fixpoint rows_below (m : table) (n : nat) : N :=
  match n with
  | O => 0
  | S k => (if m (N.of_nat k) =? 0 then 0 else 1) + rows_below m k
  end.

(* a byte form for bitmaps of 64-bit numbers that loses nothing *)
Definition codec_ok (ser : list N -> bytes) (deser : bytes -> option (list N)) : Prop :=
  forall s, (forall x, In x s -> x < 2 ^ 64) ->
    exists s', deser (ser s) = Some s' /\ forall x, In x s' <-> In x s.

(* the snapshot fits its fields: row numbers and byte lengths are 64-bit *)
Definition snapshot_fits (ser : list N -> bytes) (c : counters) : Prop :=
  c_next c < 2 ^ 64 /\ Forall (fun s => N.of_nat (length (ser s)) < 2 ^ 64) (c_bits c).

(* every history of the counters: the table next to the state the code keeps *)
Inductive cnt_hist (ser : list N -> bytes) (deser : bytes -> option (list N))
  : counters -> table -> Prop :=
| ch_new next : cnt_hist ser deser (cnt_new next) (fun _ => 0)
| ch_alloc c m : cnt_hist ser deser c m -> cnt_hist ser deser (snd (cnt_alloc c)) m
(* one batch: new counts for pairwise distinct allocated rows, pushed in any
   order, with the old count of each row *)
| ch_batch c m l :
    cnt_hist ser deser c m ->
    NoDup (map fst l) ->
    (forall i v, In (i, v) l -> i < c_next c /\ v < 2 ^ 64) ->
    cnt_hist ser deser (cnt_batch c (map (fun e => mkCT (fst e) (m (fst e)) (snd e)) l))
             (tset_all m l)
(* restart: the counters are read back from a snapshot *)
| ch_reload c m order c' :
    cnt_hist ser deser c m ->
    snapshot_fits ser c ->
    Permutation order (c_large c) ->
    cnt_deserialize deser (cnt_serialize ser order c) = Some c' ->
    cnt_hist ser deser c' m.
