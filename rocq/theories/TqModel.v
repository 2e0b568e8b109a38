(** C95: the periodic tasks of overlays: one task of an overlay at a time, none lost, none left over.

    Models network/src/overlay/tasks_stream.rs: TasksStream::next, rebuild, rebuild_ext, spawn and IdsStream::rebuild.

    Simplifications: tasks are numbered as they are spawned; when an interval ticks is up to the history, and so are
    the order in which ready intervals and ended tasks are seen, and the order of new overlays; [reset_interval] is left
    out.  Tasks which panic (the panic goes on in the caller) are left out. *)
From Coq Require Import List NArith Bool.
Import ListNotations.
Local Open Scope N_scope.

(** a task which is told to abort can still end by itself, and one which ended cannot be aborted any more *)
Inductive status := Running | Aborting | Done | Cancelled.
Record st := { ids : list N; handle : N -> option (N * bool); tasks : N -> option (N * status); next : N }.
Definition init : st := {| ids := []; handle := fun _ => None; tasks := fun _ => None; next := 0 |}.
Definition put {A} (f : N -> A) (k : N) (v : A) : N -> A := fun x => if x =? k then v else f x.
Definition mem (p : N) (l : list N) : bool := existsb (N.eqb p) l.

Inductive op :=
| ORebuild (l : list N)
| OSpawn (id : N)
| OEnd (t : N)
| OCancel (t : N)
| OTick (id : N)
| OJoin (t : N).

(** an overlay which is not in the new list any more: 150-156 *)
Definition removed (s : st) (l : list N) (id : N) : bool := mem id (ids s) && negb (mem id l).
(** 79-92 and 140-167 *)
Definition rebuild (s : st) (l : list N) : st :=
  {| ids := filter (fun id => mem id l) (ids s) ++ filter (fun id => negb (mem id (ids s))) (nodup N.eq_dec l);
     handle := fun id => if removed s l id then None else handle s id;
     tasks := fun t =>
       match tasks s t with
       | Some (id, Running) =>
           match (if removed s l id then handle s id else None) with
           | Some (t', _) => if t =? t' then Some (id, Aborting) else tasks s t
           | None => tasks s t
           end
       | x => x
       end;
     next := next s |}.
(** 94-123 *)
Definition spawn (s : st) (id : N) : st :=
  match handle s id with
  | None => {| ids := ids s; handle := put (handle s) id (Some (next s, false)); tasks := put (tasks s) (next s) (Some (id, Running)); next := next s + 1 |}
  | Some (t, _) => {| ids := ids s; handle := put (handle s) id (Some (t, true)); tasks := tasks s; next := next s |}
  end.
Definition set_task s t v := {| ids := ids s; handle := handle s; tasks := put (tasks s) t v; next := next s |}.
Definition step (s : st) (o : op) : st :=
  match o with
  | ORebuild l => rebuild s l
  | OSpawn id => spawn s id
  | OEnd t => match tasks s t with Some (id, Running) | Some (id, Aborting) => set_task s t (Some (id, Done)) | _ => s end
  | OCancel t => match tasks s t with Some (id, Aborting) => set_task s t (Some (id, Cancelled)) | _ => s end
  | OTick id => s
  (** 50-68 *)
  | OJoin t =>
      match tasks s t with
      | Some (id, Done) => {| ids := ids s; handle := put (handle s) id None; tasks := put (tasks s) t None; next := next s |}
      | Some (id, Cancelled) => set_task s t None
      | _ => s
      end
  end.
(** what [next] returns: 30-69; a cancelled task is passed over *)
Definition out (s : st) (o : op) : option N :=
  match o with
  | OTick id => if mem id (ids s) then Some id else None
  | OJoin t =>
      match tasks s t with
      | Some (id, Done) => match handle s id with Some (_, true) => Some id | _ => None end
      | _ => None
      end
  | _ => None
  end.
Definition run (s : st) (h : list op) : st := fold_left step h s.
