(** The limiter of concurrent downloads.

    Models consensus/src/intercom/dependency/limiter.rs with the part of tokio's [Semaphore] that
    it uses (fair, one permit per acquire): a permit that is added goes to the first task in the
    queue, or is stored if nobody is queued; dropping a granted acquire returns its permit, which
    goes to the next task in the queue.

    Everything a task does between two locks is one step: the body under the limiter's lock is one
    step (limiter.rs 35-38, 41, 164-168), so is each operation of a semaphore. A failed assertion,
    a [panic!] and an underflow are [None]. A call of [enter] is a task with a number of its own,
    a semaphore has a number too ([Arc::ptr_eq] compares the numbers). Logs are left out. *)
From Coq Require Import List Bool NArith Lia.
Import ListNotations.
Local Open Scope N_scope.

Definition task := N.
Definition rnd := N.

(** A semaphore and the calls of [enter] that use it and have no guard yet:
    [s_reg]: the task left the lock and did not poll the semaphore yet (limiter.rs 129);
    [s_queue]: it waits, limiter.rs 141; [s_granted]: its permit is assigned, but the task is not
    polled yet; [s_dropped]: the wait was cancelled and [on_cancel] (limiter.rs 40) is to run.
    [s_round]: the round these calls entered with; a semaphore is made for one round. *)
Record sem := Sem {
  s_id : N;
  s_round : rnd;
  s_stored : N;
  s_reg : list task;
  s_queue : list task;
  s_granted : list task;
  s_dropped : list task }.

(** limiter.rs 12-22: [n_map] is [waiters]: a round, the semaphore, [inflight]. [n_hold]: the tasks
    that have a guard. [n_sems]: all semaphores ever made. [n_next]: the next unused number. *)
Record lim := Lim {
  n_permits : N;
  n_map : list (rnd * (N * N));
  n_sems : list sem;
  n_hold : list task;
  n_next : N }.

Definition u16_max : N := 65535.

(** limiter.rs 26-31 *)
Definition lim_new (permits : N) : lim := Lim permits [] [] [] 0.

Fixpoint find_sem (id : N) (l : list sem) : option sem :=
  match l with [] => None | x :: r => if s_id x =? id then Some x else find_sem id r end.
Fixpoint upd_sem (id : N) (f : sem -> sem) (l : list sem) : list sem :=
  match l with [] => [] | x :: r => if s_id x =? id then f x :: r else x :: upd_sem id f r end.

Fixpoint lookup (r : rnd) (m : list (rnd * (N * N))) : option (N * N) :=
  match m with [] => None | (q, w) :: t => if q =? r then Some w else lookup r t end.
Fixpoint put (r : rnd) (w : N * N) (m : list (rnd * (N * N))) : list (rnd * (N * N)) :=
  match m with [] => [(r, w)] | (q, x) :: t => if q =? r then (r, w) :: t else (q, x) :: put r w t end.
Fixpoint unput (r : rnd) (m : list (rnd * (N * N))) : list (rnd * (N * N)) :=
  match m with [] => [] | (q, x) :: t => if q =? r then t else (q, x) :: unput r t end.
(** [BTreeMap::last_entry] *)
Fixpoint last_entry (m : list (rnd * (N * N))) : option (rnd * (N * N)) :=
  match m with
  | [] => None
  | e :: t => match last_entry t with
              | Some x => if fst e <? fst x then Some x else Some e
              | None => Some e
              end
  end.

Fixpoint remove1 (t : task) (l : list task) : list task :=
  match l with [] => [] | x :: r => if x =? t then r else x :: remove1 t r end.
Definition has (t : task) (l : list task) : bool := existsb (N.eqb t) l.

(** tokio [Semaphore::add_permits(1)] *)
Definition add_permit (x : sem) : sem :=
  match s_queue x with
  | [] => Sem (s_id x) (s_round x) (s_stored x + 1) (s_reg x) [] (s_granted x) (s_dropped x)
  | t :: q => Sem (s_id x) (s_round x) (s_stored x) (s_reg x) q (s_granted x ++ [t]) (s_dropped x)
  end.

Definition with_sems (n : lim) (l : list sem) : lim := Lim (n_permits n) (n_map n) l (n_hold n) (n_next n).
Definition with_map (n : lim) (m : list (rnd * (N * N))) : lim := Lim (n_permits n) m (n_sems n) (n_hold n) (n_next n).

(** [waiter.inflight.checked_sub(1)] and the removal, limiter.rs 91-97 and 117-123 *)
Definition dec_inflight (n : lim) (r : rnd) (id k : N) : option lim :=
  if k =? 0 then None
  else if k =? 1 then Some (with_map n (unput r (n_map n)))
  else Some (with_map n (put r (id, k - 1) (n_map n))).

(** limiter.rs 111-131 *)
Definition exit (n : lim) : option lim :=
  match last_entry (n_map n) with
  | Some (r, (id, k)) => dec_inflight (with_sems n (upd_sem id add_permit (n_sems n))) r id k
  | None => if n_permits n <? u16_max then Some (Lim (n_permits n + 1) (n_map n) (n_sems n) (n_hold n) (n_next n)) else None
  end.

(** limiter.rs 51-66 *)
Definition enter (n : lim) (r : rnd) : lim :=
  let t := n_next n in
  if 0 <? n_permits n then Lim (n_permits n - 1) (n_map n) (n_sems n) (t :: n_hold n) (t + 1)
  else match lookup r (n_map n) with
       | Some (id, k) =>
           Lim (n_permits n) (put r (id, k + 1) (n_map n))
               (upd_sem id (fun x => Sem (s_id x) (s_round x) (s_stored x) (s_reg x ++ [t]) (s_queue x) (s_granted x) (s_dropped x)) (n_sems n))
               (n_hold n) (t + 1)
       | None =>
           Lim (n_permits n) (put r (t, 1) (n_map n)) (n_sems n ++ [Sem t r 0 [t] [] [] []]) (n_hold n) (t + 1)
       end.

(** tokio [Semaphore::forget_permits(1)]: what is left and how many were forgotten *)
Definition forget1 (x : sem) : sem * N :=
  if 0 <? s_stored x then (Sem (s_id x) (s_round x) (s_stored x - 1) (s_reg x) (s_queue x) (s_granted x) (s_dropped x), 1) else (x, 0).
Definition forget_in (n : lim) (id : N) : lim := with_sems n (upd_sem id (fun x => fst (forget1 x)) (n_sems n)).

(** limiter.rs 69-109 *)
Definition cancel_inflight (n : lim) (r : rnd) (id : N) : option lim :=
  match find_sem id (n_sems n) with
  | None => None
  | Some x =>
      let forgot := snd (forget1 x) in
      match lookup r (n_map n) with
      | Some (wid, k) =>
          if wid =? id then
            if forgot =? 1 then exit (forget_in n id) else dec_inflight n r wid k
          else if forgot =? 1 then
            let n1 := forget_in n id in
            dec_inflight (with_sems n1 (upd_sem wid add_permit (n_sems n1))) r wid k
          else None
      | None => if forgot =? 1 then exit (forget_in n id) else None
      end
  end.

Inductive event :=
| EEnter (r : rnd)
| EPoll (id : N) (t : task)          (* the first poll of the semaphore, limiter.rs 129, 141 *)
| EWake (id : N) (t : task)          (* a granted task goes on, limiter.rs 141-152 *)
| ECancel (id : N) (t : task)        (* the future of a waiting task is dropped *)
| ECleanup (id : N) (t : task)       (* and its [on_cancel] runs *)
| EExit (t : task).                  (* a guard is dropped *)

(** limiter.rs 33-44, 127-157, 164-168. [None]: panic. *)
Definition step (n : lim) (e : event) : option lim :=
  match e with
  | EEnter r => Some (enter n r)
  | EPoll id t =>
      match find_sem id (n_sems n) with
      | Some x =>
          if 0 <? s_stored x then
            Some (Lim (n_permits n) (n_map n)
              (upd_sem id (fun x => Sem (s_id x) (s_round x) (s_stored x - 1) (remove1 t (s_reg x)) (s_queue x) (s_granted x) (s_dropped x)) (n_sems n))
              (t :: n_hold n) (n_next n))
          else
            Some (with_sems n (upd_sem id (fun x => Sem (s_id x) (s_round x) (s_stored x) (remove1 t (s_reg x)) (s_queue x ++ [t]) (s_granted x) (s_dropped x)) (n_sems n)))
      | None => None
      end
  | EWake id t =>
      Some (Lim (n_permits n) (n_map n)
        (upd_sem id (fun x => Sem (s_id x) (s_round x) (s_stored x) (s_reg x) (s_queue x) (remove1 t (s_granted x)) (s_dropped x)) (n_sems n))
        (t :: n_hold n) (n_next n))
  | ECancel id t =>
      (* a task can also be dropped before it is queued: [acquire] yields when the budget of the task is spent *)
      match find_sem id (n_sems n) with
      | Some x =>
          if has t (s_granted x) then
            Some (with_sems n (upd_sem id (fun x => add_permit (Sem (s_id x) (s_round x) (s_stored x) (s_reg x) (s_queue x) (remove1 t (s_granted x)) (s_dropped x ++ [t]))) (n_sems n)))
          else if has t (s_queue x) then
            Some (with_sems n (upd_sem id (fun x => Sem (s_id x) (s_round x) (s_stored x) (s_reg x) (remove1 t (s_queue x)) (s_granted x) (s_dropped x ++ [t])) (n_sems n)))
          else
            Some (with_sems n (upd_sem id (fun x => Sem (s_id x) (s_round x) (s_stored x) (remove1 t (s_reg x)) (s_queue x) (s_granted x) (s_dropped x ++ [t])) (n_sems n)))
      | None => None
      end
  | ECleanup id t =>
      match find_sem id (n_sems n) with
      | Some x => cancel_inflight (with_sems n (upd_sem id (fun x => Sem (s_id x) (s_round x) (s_stored x) (s_reg x) (s_queue x) (s_granted x) (remove1 t (s_dropped x))) (n_sems n))) (s_round x) id
      | None => None
      end
  | EExit t => exit (Lim (n_permits n) (n_map n) (n_sems n) (remove1 t (n_hold n)) (n_next n))
  end.

(** which events can happen: a call is where it has to be *)
Definition enabled (n : lim) (e : event) : bool :=
  let at_ (f : sem -> list task) id t := match find_sem id (n_sems n) with Some x => has t (f x) | None => false end in
  match e with
  | EEnter _ => true
  | EPoll id t => at_ s_reg id t
  | EWake id t => at_ s_granted id t
  | ECancel id t => at_ s_reg id t || at_ s_queue id t || at_ s_granted id t
  | ECleanup id t => at_ s_dropped id t
  | EExit t => has t (n_hold n)
  end.

(** [runs p l n]: a limiter with [p] permits went through the events [l] to the state [n]. *)
Inductive runs (p : N) : list event -> lim -> Prop :=
| l_nil : runs p [] (lim_new p)
| l_snoc l n e n' : runs p l n -> enabled n e = true -> step n e = Some n' -> runs p (l ++ [e]) n'.
