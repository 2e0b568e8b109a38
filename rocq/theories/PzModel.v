(** C94: resolving peers: one state of a peer, no state left over, waiting until it is resolved.

    Models network/src/dht/peer_resolver.rs: PeerResolver::insert, PeerResolverHandle (clone, drop, wait_resolved,
    is_resolved, is_stale), mark_resolved and compute_timings.

    Simplifications: a state shared by handles is a number with the count of handles to it (the strong count);
    an entry of the map is locked while [insert] or [remove_if] looks at it, so each is one step, but the drop of the
    last handle and its [remove_if] are two.  The resolver and the network outlive the handles.  How a peer info is
    found (C88) and kept (C84) is left out: the task puts it at some moment, under the lock of the handle, in three
    steps. *)
From Coq Require Import List NArith Bool Arith.
Import ListNotations.
Local Open Scope N_scope.

(** the handle is unset; set, but not the flag; set and flagged, but not told to waiters; told, and unlocked *)
Inductive progress := Unset | Inserted | Flagged | Told.
Record st := { tasks : N -> option N; strong : N -> nat; peer_of : N -> N; next : N; drops : list N;
               prog : N -> progress; gen : N -> N; stale : N -> bool; waiters : N -> option (N * N * bool) }.
Definition init : st :=
  {| tasks := fun _ => None; strong := fun _ => 0%nat; peer_of := fun _ => 0; next := 0; drops := [];
     prog := fun _ => Unset; gen := fun _ => 0; stale := fun _ => false; waiters := fun _ => None |}.
Definition put {A} (f : N -> A) (k : N) (v : A) : N -> A := fun x => if x =? k then v else f x.
Definition flag (p : progress) : bool := match p with Flagged | Told => true | _ => false end.

Inductive op :=
| OInsert (p : N) (known : bool)
| OClone (i : N)
| ODrop (i : N)
| ORemove (p : N)
| OTask (i : N)
| OStale (i : N)
| OWait (w i : N)
| OCheck (w : N).

Fixpoint remove_one (p : N) (l : list N) : list N :=
  match l with [] => [] | x :: r => if x =? p then r else x :: remove_one p r end.
Definition mem (p : N) (l : list N) : bool := existsb (N.eqb p) l.

Definition set_strong s i n :=
  {| tasks := tasks s; strong := put (strong s) i n; peer_of := peer_of s; next := next s; drops := drops s;
     prog := prog s; gen := gen s; stale := stale s; waiters := waiters s |}.
Definition set_waiter s w v :=
  {| tasks := tasks s; strong := strong s; peer_of := peer_of s; next := next s; drops := drops s;
     prog := prog s; gen := gen s; stale := stale s; waiters := put (waiters s) w v |}.
Definition set_prog s i v g :=
  {| tasks := tasks s; strong := strong s; peer_of := peer_of s; next := next s; drops := drops s;
     prog := put (prog s) i v; gen := put (gen s) i g; stale := stale s; waiters := waiters s |}.

(** the state a handle of [insert] has: 123-143 *)
Definition inserted (s : st) (p : N) : N :=
  match tasks s p with Some i => if (0 <? strong s i)%nat then i else next s | None => next s end.
(** 155-176 make_resolver_handle, 475-488 *)
Definition make (s : st) (p : N) (known : bool) : st :=
  {| tasks := put (tasks s) p (Some (next s)); strong := put (strong s) (next s) 1%nat; peer_of := put (peer_of s) (next s) p;
     next := next s + 1; drops := drops s; prog := put (prog s) (next s) (if known then Told else Unset);
     gen := gen s; stale := put (stale s) (next s) false; waiters := waiters s |}.
Definition step (s : st) (o : op) : st :=
  match o with
  | OInsert p known =>
      match tasks s p with
      | Some i => if (0 <? strong s i)%nat then set_strong s i (S (strong s i)) else make s p known
      | None => make s p known
      end
  | OClone i => if (0 <? strong s i)%nat then set_strong s i (S (strong s i)) else s
  (** 453-458: Arc::into_inner of the last one *)
  | ODrop i =>
      match strong s i with
      | O => s
      | S n =>
          {| tasks := tasks s; strong := put (strong s) i n; peer_of := peer_of s; next := next s;
             drops := if (n =? 0)%nat then peer_of s i :: drops s else drops s;
             prog := prog s; gen := gen s; stale := stale s; waiters := waiters s |}
      end
  (** 462-466 *)
  | ORemove p =>
      if mem p (drops s) then
        {| tasks := match tasks s p with Some j => if (strong s j =? 0)%nat then put (tasks s) p None else tasks s | None => tasks s end;
           strong := strong s; peer_of := peer_of s; next := next s; drops := remove_one p (drops s);
           prog := prog s; gen := gen s; stale := stale s; waiters := waiters s |}
      else s
  (** 201-233, 490-493 *)
  | OTask i =>
      match prog s i with
      | Unset => set_prog s i Inserted (gen s i)
      | Inserted => set_prog s i Flagged (gen s i)
      | Flagged => set_prog s i Told (gen s i + 1)
      | Told => s
      end
  (** 270-273 *)
  | OStale i =>
      {| tasks := tasks s; strong := strong s; peer_of := peer_of s; next := next s; drops := drops s;
         prog := prog s; gen := gen s; stale := put (stale s) i true; waiters := waiters s |}
  (** 439-448: [notified()], then the handle is read under its lock; with it set the waiter leaves, else it sleeps *)
  | OWait w i => if i <? next s then set_waiter s w (Some (i, gen s i, false)) else s
  | OCheck w =>
      match waiters s w with
      | Some (i, g, false) =>
          match prog s i with
          | Unset => set_waiter s w (Some (i, g, true))
          | Told => set_waiter s w None
          | _ => s
          end
      | Some (i, g, true) => if gen s i =? g then s else set_waiter s w (Some (i, gen s i, false))
      | None => s
      end
  end.
Definition run (s : st) (h : list op) : st := fold_left step h s.

(** 379-392 compute_timings: when the info is to be looked for again *)
Definition max_u32 : N := 2 ^ 32 - 1.
Definition update_at (min_ttl before created expires : N) : N :=
  N.min (created + N.max (expires - before - created) min_ttl) max_u32.
