(** Models collator/src/mempool/impls/common/deduplicator.rs: Deduplicator. Hashes are numbers. *)
From Verif Require Export AMap.
From Coq Require Export NArith Lia.
Local Open Scope N_scope.

(** deduplicator.rs:9-18. [d_rounds] is the IndexMap seen as its sequence of entries; a hash set is a list without repetition. *)
Record dedup := Ded { d_max : amap N N; d_rounds : list (N * list N); d_thr : N }.
(** deduplicator.rs:21-27 *)
Definition ded_new (thr : N) : dedup := Ded [] [] thr.

Definition memb (h : N) (l : list N) : bool := existsb (N.eqb h) l.
(** IndexMap::entry(round).or_default().insert(hash): in place, or a new entry at the end; the flag is HashSet::insert's *)
Fixpoint entry_insert (r h : N) (l : list (N * list N)) : list (N * list N) * bool :=
  match l with
  | [] => ([(r, [h])], true)
  | (r', hs) :: t => if r =? r' then if memb h hs then (l, false) else ((r', h :: hs) :: t, true)
                     else let '(t', b) := entry_insert r h t in ((r', hs) :: t', b)
  end.
(** get_mut(&round) and HashSet::remove; None: no entry; Some flag: whether the hash was there *)
Fixpoint entry_remove (r h : N) (l : list (N * list N)) : list (N * list N) * option bool :=
  match l with
  | [] => ([], None)
  | (r', hs) :: t => if r =? r' then ((r', filter (fun x => negb (x =? h)) hs) :: t, Some (memb h hs))
                     else let '(t', b) := entry_remove r h t in ((r', hs) :: t', b)
  end.
(** u32 subtraction: [anchor_round.saturating_sub(threshold) + 1] (61, 76) *)
Definition bottom (round thr : N) : N := (round - thr) + 1.

(** deduplicator.rs:29-71 check_unique; None: an assertion fails *)
Definition check_unique (round h : N) (d : dedup) : option (dedup * bool) :=
  let '(rounds, first) := entry_insert round h (d_rounds d) in
  if first then
    let m' := aset N.eqb h round (d_max d) in
    match aget N.eqb h (d_max d) with
    | Some old =>
        if old <? round then
          match entry_remove old h rounds with
          | (rounds', Some false) => None
          | (rounds', _) => Some (Ded m' rounds' (d_thr d), old <? bottom round (d_thr d))
          end
        else None
    | None => Some (Ded m' rounds (d_thr d), true)
    end
  else Some (Ded (d_max d) rounds (d_thr d), false).

(** deduplicator.rs:85-98: the drained hashes leave [hash_max_round]; None: the panic of line 95 *)
Definition drain_hash (bot : N) (acc : option (amap N N)) (h : N) : option (amap N N) :=
  match acc with
  | None => None
  | Some m => match aget N.eqb h m with
              | Some r => Some (if r <? bot then adel N.eqb h m else m)
              | None => None
              end
  end.
(** deduplicator.rs:73-107 clean. IndexMap::binary_search_keys by its contract on sorted keys: the number of smaller keys. *)
Definition clean (round : N) (d : dedup) : option dedup :=
  let bot := bottom round (d_thr d) in
  let i := length (filter (fun e : N * list N => fst e <? bot) (d_rounds d)) in
  match fold_left (drain_hash bot) (concat (map snd (firstn i (d_rounds d)))) (Some (d_max d)) with
  | Some m => Some (Ded m (skipn i (d_rounds d)) (d_thr d))
  | None => None
  end.
