(** C93: which validators a node sends its broadcasts to.

    Models core/src/overlay_client/validators.rs: update_validator_set, the listener (listen, prepare_peers,
    resolve) and the trackers which ping (track_resolved).

    Simplifications: a validator is its peer id, a number, and a set of peers is a list without repetitions.
    The listener does not let others in between preparing and the start of resolving, but the new epoch can be
    seen before the lists are filtered, so preparing is two steps.  A tracker that is aborted may go on for
    some time, or stop at any moment.  What expired and how the list is shuffled come as arguments. *)
From Coq Require Import List NArith Bool Arith.
Import ListNotations.
Local Open Scope N_scope.

Definition mem (p : N) (l : list N) : bool := existsb (N.eqb p) l.
Definition without (p : N) (l : list N) : list N := filter (fun x => negb (x =? p)) l.

(** the second branch of the select of [listen]: preparing a set, resolving the peers left of it, or none *)
Inductive mode := Idle | Prepare (peers : list N) | Resolve (peers pending : list N).
(** a tracker waits for its interval, pings, or has its targets *)
Inductive phase := Waiting | Pinging (flying rest got : list N) | Found (got : list N).
Record tracker := { t_epoch : N; t_phase : phase }.
Record st := { queue : list (list N); current : option (list N); md : mode; epoch : N;
               resolved : list N; targets : list N; trackers : N -> option tracker; next_id : N }.
Definition init : st :=
  {| queue := []; current := None; md := Idle; epoch := 0; resolved := []; targets := []; trackers := fun _ => None; next_id := 0 |}.
Definition put {A} (f : N -> A) (k : N) (v : A) : N -> A := fun x => if x =? k then v else f x.

Inductive op :=
| OSend (peers : list N)
| ORecv
| OTake
| OFilter
| OResolved (p : N)
| OTick (t : N) (dead : N -> bool) (arr : list N)
| OPing (t p : N) (ok : bool)
| OStore (t : N)
| OAbort (t : N).

Section Vt.
Context (me : N) (keep : nat).

Definition set_tracker s t v :=
  {| queue := queue s; current := current s; md := md s; epoch := epoch s; resolved := resolved s; targets := targets s;
     trackers := put (trackers s) t v; next_id := next_id s |}.
(** the loop over the pings ends when enough are found or nothing flies any more *)
Definition pinging (flying rest got : list N) : phase :=
  if (keep <=? length got)%nat && negb (length got =? 0)%nat then Found got
  else match flying with [] => Found got | _ => Pinging flying rest got end.

Definition step (s : st) (o : op) : st :=
  match o with
  (** 90-93 *)
  | OSend p => {| queue := queue s ++ [p]; current := current s; md := md s; epoch := epoch s; resolved := resolved s;
                  targets := targets s; trackers := trackers s; next_id := next_id s |}
  (** 214-223: the first branch; the other is dropped *)
  | ORecv =>
      match queue s, md s with
      | _, Prepare _ => s
      | p :: q, _ => {| queue := q; current := Some p; md := Idle; epoch := epoch s; resolved := resolved s;
                        targets := targets s; trackers := trackers s; next_id := next_id s |}
      | [], _ => s
      end
  (** 224-229, 247-258 *)
  | OTake =>
      match current s, md s with
      | Some p, Idle => {| queue := queue s; current := None; md := Prepare (without me p); epoch := epoch s + 1; resolved := resolved s;
                           targets := targets s; trackers := trackers s; next_id := next_id s |}
      | _, _ => s
      end
  (** 262-318, then 231-238 and 327-332 *)
  | OFilter =>
      match md s with
      | Prepare p =>
          let r := filter (fun x => mem x p) (resolved s) in
          {| queue := queue s; current := current s; md := Resolve p (filter (fun x => negb (mem x r)) p); epoch := epoch s;
             resolved := r; targets := filter (fun x => mem x p) (targets s);
             trackers := put (trackers s) (next_id s) (Some {| t_epoch := epoch s; t_phase := Waiting |}); next_id := next_id s + 1 |}
      | _ => s
      end
  (** 334-344 *)
  | OResolved p =>
      match md s with
      | Resolve ps pending =>
          if mem p pending then
            {| queue := queue s; current := current s; md := Resolve ps (without p pending); epoch := epoch s;
               resolved := resolved s ++ [p]; targets := targets s; trackers := trackers s; next_id := next_id s |}
          else s
      | _ => s
      end
  (** 366-424: [arr] is the list shuffled *)
  | OTick t dead arr =>
      match trackers s t with
      | Some {| t_epoch := e; t_phase := Waiting |} =>
          set_tracker s t (Some {| t_epoch := e; t_phase := pinging (firstn keep arr) (skipn keep arr) [] |})
      | _ => s
      end
  (** 427-443 *)
  | OPing t p ok =>
      match trackers s t with
      | Some {| t_epoch := e; t_phase := Pinging flying rest got |} =>
          if mem p flying then
            let flying := without p flying in
            set_tracker s t (Some {| t_epoch := e; t_phase :=
              if ok then pinging flying rest (got ++ [p])
              else match rest with q :: r => pinging (flying ++ [q]) r got | [] => Found got end |})
          else s
      | _ => s
      end
  (** 448-457, under the lock of the epoch *)
  | OStore t =>
      match trackers s t with
      | Some {| t_epoch := e; t_phase := Found got |} =>
          if epoch s =? e then
            {| queue := queue s; current := current s; md := md s; epoch := epoch s; resolved := resolved s; targets := got;
               trackers := put (trackers s) t (Some {| t_epoch := e; t_phase := Waiting |}); next_id := next_id s |}
          else set_tracker s t None
      | _ => s
      end
  | OAbort t => set_tracker s t None
  end.
Definition run (s : st) (h : list op) : st := fold_left step h s.
End Vt.
