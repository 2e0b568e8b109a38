(** Models util/src/num/median.rs (StreamingUnsignedMedian) and util/src/num/safe_avg.rs (SafeUnsignedAvg). *)
From Verif Require Export SortN.
Local Open Scope N_scope.

Definition u128max : N := 2 ^ 128 - 1.
(** u128::saturating_add *)
Definition sat_add (a b : N) : N := N.min (a + b) u128max.

(** std BinaryHeap by its contract: the multiset of its elements (a list); [peek] is the greatest (with Reverse: least)
    element, [pop] removes one occurrence of it. *)
Fixpoint remove1 (x : N) (l : list N) : list N :=
  match l with [] => [] | y :: r => if x =? y then r else y :: remove1 x r end.
Definition peek_max (l : list N) : option N := match l with [] => None | x :: r => Some (fold_left N.max r x) end.
Definition peek_min (l : list N) : option N := match l with [] => None | x :: r => Some (fold_left N.min r x) end.

(** median.rs:4-8 *)
Record median := Med { lo : list N; hi : list N }.
Definition med_new : median := Med [] [].

(** median.rs:11-23 insert. Line 20's [unwrap] cannot fail: a heap with more than one element is not empty. *)
Definition med_insert (v : N) (m : median) : median :=
  let hi1 := v :: hi m in
  let '(lo1, hi2) := match peek_min hi1 with Some x => (x :: lo m, remove1 x hi1) | None => (lo m, hi1) end in
  if (length hi2 + 1 <? length lo1)%nat then
    match peek_max lo1 with Some x => Med (remove1 x lo1) (x :: hi2) | None => Med lo1 hi2 end
  else Med lo1 hi2.

(** median.rs:30-41 get_median_checked; the unwrap of line 38 (an empty [hi] when |lo| <= |hi| and lo is not empty) is [None]
    here, which C22 excludes. *)
Definition med_get (m : median) : option N :=
  match peek_max (lo m) with
  | None => None
  | Some a => if (length (hi m) <? length (lo m))%nat then Some a
              else match peek_min (hi m) with Some b => Some (sat_add a b / 2) | None => None end
  end.

(** safe_avg.rs:1-6, SafeUnsignedAvg *)
Record avg := Avg { av_sum : N; av_cnt : N }.
Definition avg_new : avg := Avg 0 0.
(** safe_avg.rs:16-25 accum. The division of line 19 by a zero counter is a panic: [None]. *)
Definition avg_accum (v : N) (a : avg) : option avg :=
  if av_sum a + v <=? u128max then Some (Avg (av_sum a + v) (av_cnt a + 1))
  else if av_cnt a =? 0 then None
  else Some (Avg (sat_add (av_sum a / av_cnt a) v) (0 + 1)).
(** safe_avg.rs:31-40 get_avg_checked *)
Definition avg_get (a : avg) : option N :=
  if av_cnt a =? 0 then None else if av_cnt a =? 1 then Some (av_sum a) else Some (av_sum a / av_cnt a).
