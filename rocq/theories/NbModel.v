(** C92: neighbours of a node in the public overlay.

    Models core/src/overlay_client/neighbour.rs (score, selection score, average roundtrip, punishment) and
    core/src/overlay_client/neighbours.rs (update, try_apply_score, selection, fines of a history of requests,
    wait_for_peers).

    Simplifications: what one pass of [update] or [try_apply_score] reads of the scores, it reads at one moment,
    but other calls come between this and its end; a [Neighbour] is its peer, its expiry and a number for its
    shared statistics; storing the list and waking the waiters are one step (a waiter which looks in between
    sees the new list).  A random number is given as an argument; the random keys of [choose_multiple] come in
    as any arrangement of the candidates.  Metrics and [get_sorted_neighbours], which nobody calls, are left
    out of the operations. *)
From Coq Require Import List NArith Bool Arith.
Import ListNotations.
Local Open Scope N_scope.

(** neighbour.rs 116-123 TrackedStats; counters of requests are left out *)
Record stats := { score : N; hist : N; trips : N }.
(** 125-139 *)
Definition max_score : N := 128.
Definition threshold : N := 16.
Definition new_stats (default_roundtrip : N) : stats := {| score := max_score / 2; hist := 0; trips := default_roundtrip |}.
(** 141-143 *)
Definition higher (s : stats) : bool := threshold <=? score s.
(** 201-229 PackedSmaBuffer of four numbers of 16 bits *)
Definition add_trip (t v : N) : N := N.lor (N.shiftl t 16 mod 2 ^ 64) v.
Fixpoint avg_loop (fuel : nat) (storage total i : N) : N * N :=
  match fuel with
  | O => (total, i)
  | S f => if 0 <? storage then avg_loop f (N.shiftr storage 16) (total + N.land storage 65535) (i + 1) else (total, i)
  end.
Definition get_avg (t : N) : option N :=
  let '(total, i) := avg_loop 4 t 0 0 in if i =? 0 then None else Some (total / i).
(** 145-173 compute_selection_score *)
Definition selection_score (s : stats) : option N :=
  let sc :=
    if N.land (hist s) 15 =? 15 then score s - 16
    else if 120 <=? score s then
      match get_avg (trips s) with
      | Some avg => if avg <=? 160 then score s + N.max ((160 - avg) * 16 / 160) 1 else score s
      | None => score s
      end
    else score s in
  if threshold <=? sc then Some sc else None.
(** 175-196 update *)
Definition track (s : stats) (roundtrip : N) (success : option bool) : stats :=
  {| score := match success with
              | Some true => N.min (score s + 8) max_score
              | Some false => score s - 8
              | None => score s
              end;
     hist := match success with
             | Some b => N.lor (N.shiftl (hist s) 1 mod 2 ^ 64) (if b then 0 else 1)
             | None => hist s
             end;
     trips := add_trip (trips s) roundtrip |}.
(** 81-95 PunishReason, 198-200 punish *)
Inductive reason := Dumb | Slow | Malicious.
Definition penalty (r : reason) : N := match r with Dumb => 4 | Slow => 8 | Malicious => 128 end.
Definition punish (s : stats) (r : reason) : stats := {| score := score s - penalty r; hist := hist s; trips := trips s |}.

(** ** Neighbours *)
Record nb := { peer : N; expires : N; ref : N }.
Definition all_stats := N -> stats.

(** neighbours.rs 209-230 SelectionIndex::update: cumulative weights *)
Fixpoint build_from (ss : all_stats) (acc : N) (l : list nb) : list (nb * N) :=
  match l with
  | [] => []
  | n :: r =>
      match selection_score (ss (ref n)) with
      | Some w => (n, acc + w) :: build_from ss (acc + w) r
      | None => build_from ss acc r
      end
  end.
Definition build (ss : all_stats) (l : list nb) : list (nb * N) := build_from ss 0 l.
Definition last_weight (l : list N) : N := last l 0.

(** 243-262: weights less the fines, cumulative *)
Fixpoint adjusted (fine : N -> N) (prev acc : N) (l : list (nb * N)) : list N :=
  match l with
  | [] => []
  | (n, t) :: r => let w := N.max (t - prev - fine (peer n)) 1 in (acc + w) :: adjusted fine t (acc + w) r
  end.
(** partition_point of a sorted list *)
Fixpoint point (l : list N) (r : N) : nat :=
  match l with
  | [] => O
  | w :: k => if w <=? r then S (point k r) else O
  end.
Definition distribution (idx : list (nb * N)) (fine : option (N -> N)) : list N :=
  match fine with Some f => adjusted f 0 0 idx | None => map snd idx end.
(** 232-277 choose; [r] is drawn below [choose_range] *)
Definition choose_range (idx : list (nb * N)) (fine : option (N -> N)) : N := last_weight (distribution idx fine).
Definition choose (idx : list (nb * N)) (fine : option (N -> N)) (r : N) : option nb :=
  if (last_weight (map snd idx) =? 0) || (length idx =? 0)%nat then None
  else option_map fst (nth_error idx (point (distribution idx fine) r)).
(** 279-392 choose_multiple; [arr] is the candidates with the least keys first *)
Definition choose_multiple (ss : all_stats) (idx : list (nb * N)) (n : nat) (reliable_only : bool) (arr : list nb) : list nb :=
  let n := Nat.min n (length idx) in
  if (n =? 0)%nat then []
  else filter (fun x => negb reliable_only || higher (ss (ref x))) (skipn (length idx - n) arr).

Definition known (p : N) (l : list nb) : bool := existsb (fun x => peer x =? p) l.
Definition usable (ss : all_stats) (now : N) (n : nb) : bool := higher (ss (ref n)) && (now <? expires n).
(** 171-175: the first of the neighbours with the least score *)
Fixpoint worst_from (ss : all_stats) (i : nat) (best : option (nat * N)) (l : list nb) : option nat :=
  match l with
  | [] => option_map fst best
  | n :: r =>
      let s := score (ss (ref n)) in
      worst_from ss (S i) (match best with Some (j, b) => if s <? b then Some (i, s) else Some (j, b) | None => Some (i, s) end) r
  end.
Definition worst (ss : all_stats) (l : list nb) : option nat := worst_from ss 0 None l.
(** Vec::swap_remove *)
Definition swap_remove (i : nat) (l : list nb) : list nb :=
  match rev l with
  | [] => []
  | x :: r => let l' := rev r in if (i =? length l')%nat then l' else firstn i l' ++ x :: skipn (S i) l'
  end.
(** 146-192: the new list and whether it differs *)
Definition compute_update (max : nat) (ss : all_stats) (entries new : list nb) (now : N) : list nb * bool :=
  let kept := filter (usable ss now) entries in
  let changed := negb (length kept =? length entries)%nat in
  let '(base, changed) :=
    if (max <=? length kept)%nat then
      match worst ss kept with Some i => (swap_remove i kept, true) | None => (kept, changed) end
    else (kept, changed) in
  fold_left (fun '(l, c) n =>
    if (max <=? length l)%nat then (l, c)
    else if negb (known (peer n) entries) then (l ++ [n], true) else (l, c)) new (base, changed).
(** 74-83: what try_apply_score keeps *)
Definition compute_apply (ss : all_stats) (entries : list nb) (now : N) : list nb * bool :=
  let kept := filter (usable ss now) entries in (kept, negb (length kept =? length entries)%nat).

(** ** The state *)
Inductive pending :=
| PUpdate (seen : N) (res : list nb) (changed : bool)
| PApply (seen : N) (res : list nb) (changed : bool).
(** [version] tells apart the lists stored one after another ([Arc::ptr_eq]); [gen] counts the calls of
    notify_waiters; a waiter has its count, what [gen] was at [notified()], and whether it sleeps *)
Record st := { entries : list nb; version : N; idx : list (nb * N); stat : all_stats;
               pend : N -> option pending; gen : N; waiters : N -> option (nat * N * bool) }.
Definition init (start : list nb) (ss : all_stats) : st :=
  {| entries := start; version := 0; idx := build ss start; stat := ss; pend := fun _ => None; gen := 0; waiters := fun _ => None |}.
Definition put {A} (f : N -> A) (k : N) (v : A) : N -> A := fun x => if x =? k then v else f x.

Inductive op :=
| OTrack (r roundtrip : N) (success : option bool)
| OPunish (r : N) (why : reason)
| OBeginUpdate (task : N) (new : list nb) (now : N)
| OBeginApply (task : N) (now : N)
| OEnd (task : N)
| OWait (w : N) (count : nat)
| OCheck (w : N).

Section Nb.
Context (max : nat).

Definition set_pend s k v :=
  {| entries := entries s; version := version s; idx := idx s; stat := stat s; pend := put (pend s) k v; gen := gen s; waiters := waiters s |}.
Definition set_stat s r v :=
  {| entries := entries s; version := version s; idx := idx s; stat := put (stat s) r v; pend := pend s; gen := gen s; waiters := waiters s |}.
Definition set_waiter s w v :=
  {| entries := entries s; version := version s; idx := idx s; stat := stat s; pend := pend s; gen := gen s; waiters := put (waiters s) w v |}.
(** 88-109, 183-192: the list is stored and the index made anew under the lock *)
Definition store_list (s : st) (l : list nb) (changed : bool) : st :=
  {| entries := l; version := version s + 1; idx := build (stat s) l; stat := stat s; pend := pend s;
     gen := if changed then gen s + 1 else gen s; waiters := waiters s |}.

Definition step (s : st) (o : op) : st :=
  match o with
  | OTrack r t b => set_stat s r (track (stat s r) t b)
  | OPunish r why => set_stat s r (punish (stat s r) why)
  | OBeginUpdate k new now => let '(l, c) := compute_update max (stat s) (entries s) new now in set_pend s k (Some (PUpdate (version s) l c))
  | OBeginApply k now => let '(l, c) := compute_apply (stat s) (entries s) now in set_pend s k (Some (PApply (version s) l c))
  | OEnd k =>
      match pend s k with
      | Some (PUpdate _ l c) => store_list (set_pend s k None) l c
      | Some (PApply v l c) => if version s =? v then store_list (set_pend s k None) l c else set_pend s k None
      | None => s
      end
  | OWait w n => set_waiter s w (Some (n, gen s, false))
  (** 44-53 wait_for_peers: leaves, sleeps, or, woken, begins again *)
  | OCheck w =>
      match waiters s w with
      | Some (n, g, false) => if (n <=? length (entries s))%nat then set_waiter s w None else set_waiter s w (Some (n, g, true))
      | Some (n, g, true) => if gen s =? g then s else set_waiter s w (Some (n, gen s, false))
      | None => s
      end
  end.
Definition run (s : st) (h : list op) : st := fold_left step h s.
End Nb.

(** ** 400-455 RequestHistory: fines, the last used first *)
Definition fines := list (N * N).
Fixpoint peek (l : fines) (p : N) : option N :=
  match l with
  | [] => None
  | (x, f) :: r => if x =? p then Some f else peek r p
  end.
Definition drop (l : fines) (p : N) : fines := filter (fun x => negb (fst x =? p)) l.
Definition got_response (cap : nat) (l : fines) (p : N) (useful : bool) : fines :=
  if useful then
    match peek l p with
    | Some f => if N.shiftr f 1 =? 0 then drop l p else (p, N.shiftr f 1) :: drop l p
    | None => l
    end
  else
    match peek l p with
    | Some f => (p, if f <? 16 then N.shiftl f 1 else f) :: drop l p
    | None => (p, 1) :: (if (length l <? cap)%nat then l else removelast l)
    end.
Definition fine_of (l : fines) (p : N) : N := match peek l p with Some f => f | None => 0 end.
