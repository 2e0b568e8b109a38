(* Cell reference counters kept by the cell storage: a sparse table of
   per-row counts.  Rows with count one take no space; counts 2..=256 are
   spread over eight bit sets; larger counts are in a map.

   /repo/core/src/storage/shard_state/counters.rs

   Simplifications: a roaring bitmap is the list of its members (order and
   repetition are irrelevant: only membership is observed, and the byte form
   of a bitmap is a parameter of the snapshot format, see below); the worker
   pool (rayon::join, par_iter, par_sort) works on disjoint parts and is run
   sequentially; u64 additions do not wrap (the counts are bounded by the
   number of allocated rows); metrics and the memory-shrinking heuristics
   (lines 242-292, 516-571), which do not change any stored value, are left
   out. *)
From Coq Require Import NArith List Bool Lia Permutation.
From Verif Require Import AMap Bytes.
Import ListNotations.
Open Scope N_scope.

(* Bitmap64::contains / add_many / remove_many *)
Definition bm_has (s : list N) (x : N) : bool := existsb (N.eqb x) s.
Definition bm_add (s l : list N) : list N := l ++ s.
Definition bm_del (s l : list N) : list N := filter (fun x => negb (bm_has l x)) s.

(* counters.rs 509-514 (CounterTransition) *)
Record ctrans := mkCT { t_idx : N; t_old : N; t_new : N }.

(* counters.rs 574-585 (CounterBatchScratch; the buffers derived from the
   transitions - deltas, override_add, override_remove - are cleared and
   refilled by apply_batch and are local there) *)
Record cscratch := mkCS {
  s_trans : list ctrans;
  s_added : N;
  s_removed : N;
  s_sorted : bool;
  s_last : option N;
  s_max : option N
}.

(* counters.rs 651-665 (Default) and 588-598 (clear) *)
Definition cs_empty : cscratch := mkCS [] 0 0 true None None.

(* counters.rs 13-28 (Counters) *)
Record counters := mkCnt {
  c_next : N;
  c_live : N;
  c_present : list N;
  c_bits : list (list N);
  c_large : list (N * N);
  c_scratch : cscratch
}.

(* counters.rs 31-42 (Counters::new) *)
Definition cnt_new (next : N) : counters :=
  mkCnt next 0 [] [[]; []; []; []; []; []; []; []] [] cs_empty.

(* counters.rs 44-49 (alloc_idx) *)
Definition cnt_alloc (c : counters) : N * counters :=
  (c_next c, mkCnt (c_next c + 1) (c_live c) (c_present c) (c_bits c) (c_large c) (c_scratch c)).

(* counters.rs 472 (RefCount::BIG_MIN) *)
Definition BIG_MIN : N := 257.

(* counters.rs 410-419 (encode_small_raw) *)
Definition encode_small_raw (raw : N) : N :=
  if (2 <=? raw) && (raw <=? 256) then raw - 1 else 0.

(* counters.rs 390-395: the code is gathered bit by bit *)
Fixpoint code_of (bit : N) (sets : list (list N)) (raw : N) : N :=
  match sets with
  | [] => 0
  | s :: t => (if bm_has s raw then N.shiftl 1 bit else 0) + code_of (bit + 1) t raw
  end.

(* counters.rs 380-398 (get_allocated) and 55-62 (get) *)
Definition cnt_get (c : counters) (idx : N) : N :=
  if negb (bm_has (c_present c) idx) then 1
  else match aget N.eqb idx (c_large c) with
       | Some v => v
       | None => code_of 0 (c_bits c) idx + 1
       end.

(* counters.rs 604-627 (push) *)
Definition opt_max (a : option N) (b : N) : option N :=
  match a with Some x => Some (N.max x b) | None => Some b end.
Definition cs_push (s : cscratch) (t : ctrans) : cscratch :=
  let changes_counter_storage :=
    negb (t_old t =? t_new t) && negb ((t_old t <=? 1) && (t_new t <=? 1)) in
  let changes_total := xorb (t_old t =? 0) (t_new t =? 0) in
  if negb changes_counter_storage && negb changes_total then s
  else
    let mx := opt_max (s_max s) (t_idx t) in
    let added := if (t_old t =? 0) && negb (t_new t =? 0) then s_added s + 1 else s_added s in
    let removed := if negb (t_old t =? 0) && (t_new t =? 0) then s_removed s + 1 else s_removed s in
    let sorted := match s_last s with
                  | Some prev => if t_idx t <=? prev then false else s_sorted s
                  | None => s_sorted s
                  end in
    mkCS (s_trans s ++ [t]) added removed sorted (Some (t_idx t)) mx.

(* counters.rs 629-648 (prepare_order): sort by row number *)
Fixpoint ct_ins (t : ctrans) (l : list ctrans) : list ctrans :=
  match l with
  | [] => [t]
  | x :: r => if t_idx t <=? t_idx x then t :: l else x :: ct_ins t r
  end.
Definition ct_sort (l : list ctrans) : list ctrans := fold_right ct_ins [] l.
Definition prepare_order (s : cscratch) : list ctrans :=
  if s_sorted s then s_trans s else ct_sort (s_trans s).

(* counters.rs 667-699 (BitDeltas): which rows to add to and to remove from
   each of the eight sets.  trailing_zeros and the `x &= x - 1` loop: *)
Fixpoint ctz (fuel : nat) (x : N) : N :=
  match fuel with
  | O => 0
  | S k => if N.odd x then 0 else 1 + ctz k (N.div2 x)
  end.
Fixpoint set_bits (fuel : nat) (x : N) : list N :=
  match fuel with
  | O => []
  | S k => if x =? 0 then [] else ctz 8 x :: set_bits k (N.land x (x - 1))
  end.
Definition d_adds (old new : N) : list N := set_bits 8 (N.land (N.lxor old new) new).
Definition d_removes (old new : N) : list N := set_bits 8 (N.land (N.lxor old new) old).

(* counters.rs 347-351, 683-699: the rows pushed to add[bit] / remove[bit] *)
Fixpoint delta_add (bit : N) (l : list ctrans) : list N :=
  match l with
  | [] => []
  | t :: r =>
    let o := encode_small_raw (t_old t) in let n := encode_small_raw (t_new t) in
    (if negb (o =? n) && bm_has (d_adds o n) bit then [t_idx t] else []) ++ delta_add bit r
  end.
Fixpoint delta_remove (bit : N) (l : list ctrans) : list N :=
  match l with
  | [] => []
  | t :: r =>
    let o := encode_small_raw (t_old t) in let n := encode_small_raw (t_new t) in
    (if negb (o =? n) && bm_has (d_removes o n) bit then [t_idx t] else []) ++ delta_remove bit r
  end.

(* counters.rs 701-715 (flush_sorted_into) *)
Fixpoint flush_sets (bit : N) (l : list ctrans) (sets : list (list N)) : list (list N) :=
  match sets with
  | [] => []
  | s :: t => bm_add (bm_del s (delta_remove bit l)) (delta_add bit l) :: flush_sets (bit + 1) l t
  end.

(* counters.rs 333-337 *)
Fixpoint large_apply (l : list ctrans) (m : list (N * N)) : list (N * N) :=
  match l with
  | [] => m
  | t :: r =>
    large_apply r
      (if BIG_MIN <=? t_new t then aset N.eqb (t_idx t) (t_new t) m
       else if BIG_MIN <=? t_old t then adel N.eqb (t_idx t) m else m)
  end.

(* counters.rs 339-344 *)
Fixpoint over_add (l : list ctrans) : list N :=
  match l with
  | [] => []
  | t :: r => (if negb (1 <? t_old t) && (1 <? t_new t) then [t_idx t] else []) ++ over_add r
  end.
Fixpoint over_remove (l : list ctrans) : list N :=
  match l with
  | [] => []
  | t :: r => (if (1 <? t_old t) && negb (1 <? t_new t) then [t_idx t] else []) ++ over_remove r
  end.

(* counters.rs 301-378 (apply_batch) and 400-408 (apply_alive_ids) *)
Definition apply_batch (c : counters) (s : cscratch) : counters :=
  let order := prepare_order s in
  match s_max s with
  | None => c
  | Some _ =>
    let live := c_live c + s_added s - s_removed s in
    match order with
    | [] => mkCnt (c_next c) live (c_present c) (c_bits c) (c_large c) (c_scratch c)
    | _ =>
      mkCnt (c_next c) live
            (bm_add (bm_del (c_present c) (over_remove order)) (over_add order))
            (flush_sets 0 order (c_bits c))
            (large_apply order (c_large c))
            (c_scratch c)
    end
  end.

(* counters.rs 64-70 (begin), 436-445 (update_raw), 447-451 (apply): one
   batch with the given transitions, in the order the caller pushes them *)
Definition cnt_batch (c : counters) (ts : list ctrans) : counters :=
  let scratch := c_scratch c in
  let c0 := mkCnt (c_next c) (c_live c) (c_present c) (c_bits c) (c_large c) cs_empty in
  let scratch := fold_left cs_push ts scratch in
  let c1 := apply_batch c0 scratch in
  mkCnt (c_next c1) (c_live c1) (c_present c1) (c_bits c1) (c_large c1) cs_empty.

(* ---- snapshot ---- *)
Definition SNAP_VERSION : N := 1.

(* counters.rs 80-116 (serialize): `ser` is the portable byte form of a
   bitmap, `order` the order in which the hash map is iterated *)
Fixpoint ser_sets (ser : list N -> bytes) (sets : list (list N)) : bytes :=
  match sets with
  | [] => []
  | s :: t => le 8 (N.of_nat (length (ser s))) ++ ser s ++ ser_sets ser t
  end.
Fixpoint ser_large (m : list (N * N)) : bytes :=
  match m with
  | [] => []
  | (i, v) :: t => le 8 i ++ le 8 v ++ ser_large t
  end.
Definition cnt_serialize (ser : list N -> bytes) (order : list (N * N)) (c : counters) : bytes :=
  [SNAP_VERSION] ++ le 8 (c_next c) ++ le 8 (c_live c) ++ ser_sets ser (c_bits c)
    ++ ser_large order.

(* counters.rs 178-198: n bitmaps, each with a length prefix *)
Fixpoint de_sets (deser : bytes -> option (list N)) (n : nat) (d : bytes)
  : option (list (list N) * bytes) :=
  match n with
  | O => Some ([], d)
  | S k =>
    match read_le 8 d with
    | None => None
    | Some (len, d) =>
      match take_n (N.to_nat len) d with
      | None => None
      | Some (payload, rest) =>
        match deser payload with
        | None => None
        | Some s =>
          match de_sets deser k rest with
          | None => None
          | Some (ss, rest) => Some (s :: ss, rest)
          end
        end
      end
    end
  end.

(* counters.rs 205-230; `fuel` bounds the number of entries (one entry takes
   16 bytes, the caller passes the number of bytes) *)
Fixpoint de_large (fuel : nat) (d : bytes) (m : list (N * N)) (present : list N)
  : option (list (N * N) * list N) :=
  match fuel with
  | O => None
  | S k =>
    match d with
    | [] => Some (m, present)
    | _ =>
      match read_le 8 d with
      | None => None
      | Some (idx, d) =>
        match read_le 8 d with
        | None => None
        | Some (count, d) =>
          if count =? 0 then None
          else if count <? BIG_MIN then None
          else de_large k d (aset N.eqb idx count m) (bm_add present [idx])
        end
      end
    end
  end.

(* counters.rs 148-240 (deserialize_trusted) *)
Definition cnt_deserialize (deser : bytes -> option (list N)) (d : bytes) : option counters :=
  match d with
  | [] => None
  | v :: d =>
    if negb (v =? SNAP_VERSION) then None
    else match read_le 8 d with
    | None => None
    | Some (next, d) =>
      match read_le 8 d with
      | None => None
      | Some (live, d) =>
        match de_sets deser 8 d with
        | None => None
        | Some (sets, d) =>
          let present := concat sets in
          if negb (N.of_nat (length d) mod 16 =? 0) then None
          else match de_large (S (length d)) d [] present with
          | None => None
          | Some (large, present) => Some (mkCnt next live present sets large cs_empty)
          end
        end
      end
    end
  end.
