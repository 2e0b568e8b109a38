(** C89: the entries of a public overlay.

    Models network/src/overlay/public_overlay.rs, network/src/proto/overlay.rs 31-39 and the choice of
    entries to send in network/src/overlay/{mod,background_tasks}.rs.

    Every step below is one stretch of the code between awaits, or between two accesses of shared data
    by one thread, so any number of additions, sweeps, bans and requests may interleave.

    Simplifications: peers are numbers; whether a peer id is a public key and whether the signature of an
    entry (over the overlay id, the peer and the time of creation) is right is one uninterpreted test; the
    compare-exchange loop which reserves room is one step; notifications, metrics, the peer resolver and the
    rate limiter are left out; [shift_remove]-free [IndexMap] is a list in order of insertion; random
    samples are arbitrary lists without repetition of the size asked for. *)
From Coq Require Import List NArith ZArith Bool.
Import ListNotations.
Local Open Scope N_scope.

(** proto/overlay.rs 22-31 PublicEntry *)
Record entry := { e_id : N; e_at : N; e_sig : N }.

(** a u32; saturating_add of two of them *)
Definition u32_max : N := 4294967295.
Definition sat (a b : N) : N := N.min (a + b) u32_max.

(** proto/overlay.rs 33-39 PublicEntry::is_expired *)
Definition is_expired (now ttl : N) (e : entry) : bool :=
  (sat now 1 <? e_at e) || (sat (e_at e) ttl <? now).

Definition mem (x : N) (l : list N) : bool := existsb (N.eqb x) l.

(** an addition between reservation and insertion: the entries still to be checked, those found valid (in
    their order), the room reserved, the time given (public_overlay.rs 289-365) *)
Record task := { t_todo : list entry; t_ok : list entry; t_room : nat; t_now : N }.

(** public_overlay.rs 450-470 Inner; [owed] holds amounts by which threads are about to lower the count *)
Record st := {
  items : list entry;          (* entries *)
  count : Z;                   (* entry_count *)
  tasks : list task;
  owed : list nat;
  bans : list N;               (* banned_peer_ids *)
  queue : list N               (* unknown_peers_queue *)
}.
Definition init : st := {| items := []; count := 0%Z; tasks := []; owed := []; bans := []; queue := [] |}.

Section Overlay.
Context (verify : entry -> bool) (local : N) (cap : nat) (ttl : N) (qcap : nat).

(** public_overlay.rs 532-563 PublicOverlayEntries::insert, with the number of added entries (0 or 1) and
    whether anything changed *)
Fixpoint insert (e : entry) (l : list entry) : list entry * nat * bool :=
  match l with
  | [] => ([e], 1%nat, true)
  | x :: r =>
      if e_id x =? e_id e then
        if e_at e <=? e_at x then (x :: r, 0%nat, false) else (e :: r, 0%nat, true)
      else let '(r', n, c) := insert e r in (x :: r', n, c)
  end.

(** public_overlay.rs 366-385: the second pass, which ends once the room reserved is used up *)
Fixpoint insert_all (room added : nat) (changed : bool) (ok l : list entry) : list entry * nat * bool :=
  match ok with
  | [] => (l, added, changed)
  | e :: r =>
      let '(l', n, c) := insert e l in
      let added' := (added + n)%nat in
      let changed' := changed || c in
      if (room <=? added')%nat then (l', added', changed') else insert_all room added' changed' r l'
  end.

(** public_overlay.rs 328-356: the check of one entry, with the bans of that moment *)
Definition valid (now : N) (bn : list N) (e : entry) : bool :=
  negb (is_expired now ttl e) && negb (mem (e_id e) bn) && negb (e_id e =? local) && verify e.

Inductive op :=
| OReserve (es : list entry) (now : N)   (* public_overlay.rs 289-323 *)
| OCheck (i : nat)                       (* 328-356, one entry *)
| ODrop (i : nat)                        (* 318-320: the future is dropped *)
| OInsert (i : nat)                      (* 358-385 *)
| OSettle (i : nat)                      (* 387-391 and 424-426: a pending fetch_sub *)
| OSweep (now : N)                       (* 407-422 remove_invalid_entries *)
| OBan (p : N) | OUnban (p : N)          (* 188-197 *)
| OUnknown (p : N)                       (* 259-279 check_peer_id *)
| OPop.                                  (* 650-659 pop_multiple *)

Definition pick {A} (i : nat) (l : list A) : option (list A * A * list A) :=
  match skipn i l with x :: b => Some (firstn i l, x, b) | [] => None end.

(** what the caller gets *)
Inductive out := ONone | OBool (b : bool) | OPeers (l : list N).

Definition step (s : st) (o : op) : st * out :=
  match o with
  | OReserve es now =>
      match es with
      | [] => (s, OBool false)
      | _ =>
          if (count s <? Z.of_nat cap)%Z then
            let room := Nat.min (length es) (Z.to_nat (Z.of_nat cap - count s)) in
            ({| items := items s; count := (count s + Z.of_nat room)%Z;
                tasks := {| t_todo := es; t_ok := []; t_room := room; t_now := now |} :: tasks s;
                owed := owed s; bans := bans s; queue := queue s |}, ONone)
          else (s, OBool false)
      end
  | OCheck i =>
      match pick i (tasks s) with
      | Some (a, t, b) =>
          match t_todo t with
          | e :: r =>
              let t' := {| t_todo := r;
                           t_ok := if valid (t_now t) (bans s) e then t_ok t ++ [e] else t_ok t;
                           t_room := t_room t; t_now := t_now t |} in
              ({| items := items s; count := count s; tasks := a ++ t' :: b;
                  owed := owed s; bans := bans s; queue := queue s |}, ONone)
          | [] => (s, ONone)
          end
      | None => (s, ONone)
      end
  | ODrop i =>
      match pick i (tasks s) with
      | Some (a, t, b) =>
          ({| items := items s; count := (count s - Z.of_nat (t_room t))%Z; tasks := a ++ b;
              owed := owed s; bans := bans s; queue := queue s |}, ONone)
      | None => (s, ONone)
      end
  | OInsert i =>
      match pick i (tasks s) with
      | Some (a, t, b) =>
          match t_todo t with
          | [] =>
              let '(l, added, changed) := insert_all (t_room t) 0 false (t_ok t) (items s) in
              ({| items := l; count := count s; tasks := a ++ b;
                  owed := (t_room t - added)%nat :: owed s; bans := bans s; queue := queue s |},
               OBool (changed || (0 <? added)%nat))
          | _ => (s, ONone)
          end
      | None => (s, ONone)
      end
  | OSettle i =>
      match pick i (owed s) with
      | Some (a, k, b) =>
          ({| items := items s; count := (count s - Z.of_nat k)%Z; tasks := tasks s;
              owed := a ++ b; bans := bans s; queue := queue s |}, ONone)
      | None => (s, ONone)
      end
  | OSweep now =>
      let keep e := negb (is_expired now ttl e) && negb (mem (e_id e) (bans s)) in
      let l := filter keep (items s) in
      ({| items := l; count := count s; tasks := tasks s;
          owed := (length (items s) - length l)%nat :: owed s; bans := bans s; queue := queue s |}, ONone)
  | OBan p =>
      ({| items := items s; count := count s; tasks := tasks s; owed := owed s;
          bans := if mem p (bans s) then bans s else p :: bans s; queue := queue s |},
       OBool (negb (mem p (bans s))))
  | OUnban p =>
      ({| items := items s; count := count s; tasks := tasks s; owed := owed s;
          bans := filter (fun x => negb (x =? p)) (bans s); queue := queue s |}, OBool (mem p (bans s)))
  | OUnknown p =>
      if mem p (bans s) then (s, OBool false)
      else if (length (queue s) <? qcap)%nat && negb (mem p (map e_id (items s))) && negb (mem p (queue s)) then
        ({| items := items s; count := count s; tasks := tasks s; owed := owed s; bans := bans s;
            queue := queue s ++ [p] |}, OBool true)
      else (s, OBool true)
  | OPop =>
      ({| items := items s; count := count s; tasks := tasks s; owed := owed s; bans := bans s; queue := [] |},
       OPeers (queue s))
  end.

Definition run (s : st) (l : list op) : st := fold_left (fun s o => fst (step s o)) l s.

(** an undisturbed call of add_untrusted_entries (public_overlay.rs 284-405) *)
Definition add (s : st) (es : list entry) (now : N) : st * bool :=
  let '(s1, o) := step s (OReserve es now) in
  match o with
  | OBool b => (s1, b)
  | _ =>
      let s2 := run s1 (repeat (OCheck 0) (length es)) in
      let '(s3, o) := step s2 (OInsert 0) in
      (fst (step s3 (OSettle 0)), match o with OBool b => b | _ => false end)
  end.
End Overlay.

(** mod.rs 356-388 handle_exchange_public_entries: what is sent back, for a random sample of the items *)
Definition response (n : nat) (requested : list N) (sample : list entry) : list entry :=
  firstn n (filter (fun e => negb (mem (e_id e) requested)) sample).
(** background_tasks.rs 300-342 exchange_public_entries: what is proposed *)
Definition request (n : nat) (own : entry) (target : N) (sample : list entry) : list entry :=
  own :: firstn (Nat.max n 1 - 1) (filter (fun e => negb (e_id e =? target)) sample).
(** public_overlay.rs 509-526 choose_multiple: a sample of n items *)
Definition is_sample (n : nat) (l smp : list entry) : Prop :=
  NoDup smp /\ incl smp l /\ length smp = Nat.min n (length l).

(** *** The registry of overlays: mod.rs 296-340.  An addition looks into the map of the other kind, then
    enters the map of its own kind: two steps. *)
Record reg := { pub : list N; priv : list N; adding : list (bool * N) }.
Inductive rop := RBegin (public : bool) (id : N) | RFinish (i : nat) | RRemove (public : bool) (id : N).
Definition rstep (r : reg) (o : rop) : reg :=
  match o with
  | RBegin pb id =>
      if mem id (if pb then priv r else pub r) then r
      else {| pub := pub r; priv := priv r; adding := (pb, id) :: adding r |}
  | RFinish i =>
      match pick i (adding r) with
      | Some (a, (pb, id), b) =>
          if mem id (if pb then pub r else priv r) then {| pub := pub r; priv := priv r; adding := a ++ b |}
          else if pb then {| pub := id :: pub r; priv := priv r; adding := a ++ b |}
          else {| pub := pub r; priv := id :: priv r; adding := a ++ b |}
      | None => r
      end
  | RRemove pb id =>
      let del := filter (fun x => negb (x =? id)) in
      if pb then {| pub := del (pub r); priv := priv r; adding := adding r |}
      else {| pub := pub r; priv := del (priv r); adding := adding r |}
  end.
Definition rempty : reg := {| pub := []; priv := []; adding := [] |}.
