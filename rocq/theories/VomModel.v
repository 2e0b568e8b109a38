(** Models consensus/src/utils/value_ordered_map.rs: ValueOrderedMap. *)
From Verif Require Export OMap.
From Coq Require Export Arith Lia.

Section Vom.
  Context {K V : Type} (kcmp : K -> K -> comparison) (vcmp : V -> V -> comparison).

  (** value_ordered_map.rs:11-15. [inner] is the IndexMap seen as its sequence of entries in index order. *)
  Record vom := VOM { vm_inner : list (K * V); vm_max : nat }.

  (** value_ordered_map.rs:17-29 *)
  Inductive upres :=
  | OkInserted | OkUpdated (old : V) | OkEvicted (k : K) (v : V) | ErrRejected | ErrTooLow.

  (** value_ordered_map.rs:104-106 compare: (value, key) lexicographically *)
  Definition vm_cmp (a b : K * V) : comparison :=
    match vcmp (snd a) (snd b) with Eq => kcmp (fst a) (fst b) | c => c end.
  Definition vm_lt (a b : K * V) : bool := match vm_cmp a b with Lt => true | _ => false end.
  Definition k_eqb (a b : K) : bool := match kcmp a b with Eq => true | _ => false end.

  (** value_ordered_map.rs:36-41 with_max_len *)
  Definition vm_new (n : nat) : vom := VOM [] n.

  (** IndexMap::binary_search_by on the sorted entries, with [unwrap_or_else(|to_be| to_be)] (50-52): by its contract,
      the number of entries smaller than the probe. *)
  Definition search (x : K * V) (l : list (K * V)) : nat := length (filter (fun e => vm_lt e x) l).

  (** IndexMap primitives by index *)
  Definition insert_at {A} (i : nat) (x : A) (l : list A) : list A := firstn i l ++ x :: skipn i l.
  Definition remove_at {A} (i : nat) (l : list A) : list A := firstn i l ++ skipn (S i) l.
  (** OccupiedEntry::insert + move_index: the entry at [from] becomes [x] and moves to [to] *)
  Definition replace_move (from to : nat) (x : K * V) (l : list (K * V)) := insert_at to x (remove_at from l).

  Fixpoint index_of (k : K) (l : list (K * V)) : option (nat * V) :=
    match l with
    | [] => None
    | (k', v) :: r => if k_eqb k k' then Some (0, v)
                      else match index_of k r with Some (i, v) => Some (S i, v) | None => None end
    end.

  (** value_ordered_map.rs:44-84 upsert *)
  Definition upsert (k : K) (v : V) (update_if : V -> V -> bool) (m : vom) : vom * upres :=
    let l := vm_inner m in
    let was_full := vm_max m <=? length l in
    let pos := search (k, v) l in
    match index_of k l with
    | Some (i, old) =>
        if negb (update_if v old) then (m, ErrRejected)
        else (VOM (replace_move i (if i <? pos then pos - 1 else pos) (k, v) l) (vm_max m), OkUpdated old)
    | None =>
        if was_full && (pos =? 0) then (m, ErrTooLow)
        else if was_full then
          match l with
          | (ok, ov) :: _ => (VOM (replace_move 0 (pos - 1) (k, v) l) (vm_max m), OkEvicted ok ov)
          | [] => (m, ErrTooLow) (* replace_index(0) would panic; was_full and pos <> 0 excludes it *)
          end
        else (VOM (insert_at pos (k, v) l) (vm_max m), OkInserted)
    end.

  (** value_ordered_map.rs:86-88 get *)
  Definition vm_get (k : K) (m : vom) : option V :=
    match index_of k (vm_inner m) with Some (_, v) => Some v | None => None end.
  (** value_ordered_map.rs:90-92 remove: shift_remove *)
  Definition vm_remove (k : K) (m : vom) : vom * option V :=
    match index_of k (vm_inner m) with
    | Some (i, v) => (VOM (remove_at i (vm_inner m)) (vm_max m), Some v)
    | None => (m, None)
    end.
  (** value_ordered_map.rs:94-96 max: last entry *)
  Definition vm_maxe (m : vom) : option (K * V) :=
    match rev (vm_inner m) with e :: _ => Some e | [] => None end.

  (** value_ordered_map.rs:109-119 from_iter: last value wins for a key, sort, fix the capacity. The unstable sort of
      distinct entries is modelled by insertion sort. *)
  Fixpoint im_put (k : K) (v : V) (l : list (K * V)) : list (K * V) :=
    match l with
    | [] => [(k, v)]
    | (k', v') :: r => if k_eqb k k' then (k', v) :: r else (k', v') :: im_put k v r
    end.
  Fixpoint ins (x : K * V) (l : list (K * V)) : list (K * V) :=
    match l with
    | [] => [x]
    | y :: r => if vm_lt x y then x :: y :: r else y :: ins x r
    end.
  Definition vm_from_iter (l : list (K * V)) : vom :=
    let inner := fold_left (fun acc e => im_put (fst e) (snd e) acc) l [] in
    VOM (fold_right ins [] inner) (length inner).
End Vom.
Arguments vom : clear implicits.
Arguments upres : clear implicits.
