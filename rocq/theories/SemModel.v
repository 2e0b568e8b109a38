(** Model of [PrioritySemaphore] (util/src/sync/priority_semaphore.rs) as an interleaving
    machine: every atomic operation on the permit counter and every critical section step of
    the wait-list mutex is one step, chosen by an arbitrary scheduler.
    The public API only ever asks for one permit (L96, L109), so [num_permits = 1] and the
    waiter's [state] (permits still needed, 1 or 0) is a boolean. *)
From Coq Require Import List NArith Bool Arith.
Import ListNotations.
Local Open Scope N_scope.

(** util/src/util/wake_list.rs: NUM_WAKERS *)
Definition NUM_WAKERS : N := 32.

(** program counter of an [Acquire] future (L384-431 and [poll_acquire] L227-322) *)
Inductive pc :=
| Idle                              (* not being polled *)
| Start                             (* poll called, before [needed] is computed (L237-241) *)
| Load (need : bool)                (* before [permits.load] (L246) *)
| Loop (need : bool) (curr : N) (cl : bool)  (* top of the loop (L247), lock not held *)
| WantL (need : bool) (curr : N)    (* about to lock inside the loop (L273) *)
| WantL2 (acq : bool)               (* queued, CAS done, about to lock (L286) *)
| InCS                              (* holds the mutex, see [cs] *)
| DropW                             (* [Drop for Acquire] waiting for the lock (L421) *)
| Failed                            (* returned Err(AcquireError), not dropped yet *)
| Gone.                             (* returned Ok (then dropped), or dropped *)

Record fut := mkFut {
  fprio : bool;       (* priority *)
  fpc : pc;
  fas : bool;         (* node.state == 0: the permit was assigned to the waiter *)
  fq : bool;          (* queued *)
  fwk : bool;         (* a waker is registered in the node *)
  fstamp : N          (* ghost: time of the enqueue *)
}.

(** what the holder of the mutex is doing *)
Inductive crit :=
| HLoop (f : nat) (need : bool) (curr : N) (cl : bool)  (* in the CAS loop with the lock *)
| HCrit (f : nat) (acq : bool)          (* L293-321 *)
| HAdd (rem : N) (cnt : N)              (* [add_permits_locked], cnt wakers collected *)
| HUnlock (rem : N)                     (* end of the loop body of [add_permits_locked] *)
| HClose.                               (* [close] after fetch_or *)

Inductive ev :=
| EDirect (f : nat)       (* poll took a permit from the counter and returned Ok *)
| ETry                    (* try_acquire took a permit *)
| EAssign (f : nat)       (* a queued waiter was given a permit *)
| EEnq (f : nat)
| EReady (f : nat)        (* poll of a queued waiter returned Ok *)
| EWake (f : nat)         (* a waker taken to be woken *)
| ENone.

Record st := mkSt {
  permits : N; closed : bool;      (* the two parts of the atomic word (L24-25) *)
  wl_closed : bool;
  pq : list nat; oq : list nat;    (* priority/ordinary queue, oldest first: [push_front]
                                      appends at the end, [last]/[pop_back] is the head *)
  cs : option crit;                (* mutex holder *)
  futs : list fut;
  pend : list N;                   (* add_permits calls waiting for the lock, by [rem] *)
  held : N;                        (* permits owned by live SemaphorePermit values *)
  issued : N;                      (* ghost: initial permits + add_permits(n) by users *)
  leaked : N;                      (* ghost: permits lost on the closed path, L293-295 *)
  clock : N;                       (* ghost *)
  evt : list ev                    (* ghost: events of the last step *)
}.

Definition init (n : N) : st :=
  mkSt n false false [] [] None [] [] 0 n 0 0 [].

Definition dummy := mkFut false Gone false false false 0.
Definition getf (s : st) (f : nat) : fut := nth f (futs s) dummy.
Fixpoint upd (l : list fut) (n : nat) (x : fut) : list fut :=
  match l, n with
  | [], _ => []
  | _ :: r, O => x :: r
  | y :: r, S k => y :: upd r k x
  end.
Definition set_pc (x : fut) (p : pc) : fut :=
  mkFut (fprio x) p (fas x) (fq x) (fwk x) (fstamp x).

(** setters *)
Definition w_futs (s : st) (l : list fut) : st :=
  mkSt (permits s) (closed s) (wl_closed s) (pq s) (oq s) (cs s) l (pend s) (held s) (issued s)
       (leaked s) (clock s) (evt s).
Definition w_cs (s : st) (c : option crit) : st :=
  mkSt (permits s) (closed s) (wl_closed s) (pq s) (oq s) c (futs s) (pend s) (held s) (issued s)
       (leaked s) (clock s) (evt s).
Definition w_permits (s : st) (n : N) : st :=
  mkSt n (closed s) (wl_closed s) (pq s) (oq s) (cs s) (futs s) (pend s) (held s) (issued s)
       (leaked s) (clock s) (evt s).
Definition w_held (s : st) (n : N) : st :=
  mkSt (permits s) (closed s) (wl_closed s) (pq s) (oq s) (cs s) (futs s) (pend s) n (issued s)
       (leaked s) (clock s) (evt s).
Definition w_pend (s : st) (l : list N) : st :=
  mkSt (permits s) (closed s) (wl_closed s) (pq s) (oq s) (cs s) (futs s) l (held s) (issued s)
       (leaked s) (clock s) (evt s).
Definition w_issued (s : st) (n : N) : st :=
  mkSt (permits s) (closed s) (wl_closed s) (pq s) (oq s) (cs s) (futs s) (pend s) (held s) n
       (leaked s) (clock s) (evt s).
Definition w_leaked (s : st) (n : N) : st :=
  mkSt (permits s) (closed s) (wl_closed s) (pq s) (oq s) (cs s) (futs s) (pend s) (held s)
       (issued s) n (clock s) (evt s).
Definition w_queues (s : st) (p o : list nat) : st :=
  mkSt (permits s) (closed s) (wl_closed s) p o (cs s) (futs s) (pend s) (held s) (issued s)
       (leaked s) (clock s) (evt s).
Definition w_evt (s : st) (e : list ev) : st :=
  mkSt (permits s) (closed s) (wl_closed s) (pq s) (oq s) (cs s) (futs s) (pend s) (held s)
       (issued s) (leaked s) (clock s) e.
Definition w_closed (s : st) (a b : bool) : st :=
  mkSt (permits s) a b (pq s) (oq s) (cs s) (futs s) (pend s) (held s)
       (issued s) (leaked s) (clock s) (evt s).
Definition tick (s : st) : st :=
  mkSt (permits s) (closed s) (wl_closed s) (pq s) (oq s) (cs s) (futs s) (pend s) (held s)
       (issued s) (leaked s) (clock s + 1) (evt s).

Definition putf (s : st) (f : nat) (x : fut) : st := w_futs s (upd (futs s) f x).
Definition go (s : st) (f : nat) (p : pc) : st := putf s f (set_pc (getf s f) p).

Definition b2n (b : bool) : N := if b then 1 else 0.

(** One pass of the CAS part of the loop of [poll_acquire] (L253-291), on the value [curr] read
    before.  [total >= needed] iff [need <= curr].  Returns the state after a successful CAS
    and the (acquired, remaining == 0) pair, or [None] when the CAS fails. *)
Definition cas (s : st) (need : bool) (curr : N) : option (st * bool * bool) :=
  if (permits s =? curr) && negb (closed s) then
    if b2n need <=? curr then Some (w_permits s (curr - b2n need), need, true)
    else Some (w_permits s 0, false, false)
  else None.

(** unlocked steps of a future's poll *)
Definition step_fut (s : st) (f : nat) : option st :=
  let x := getf s f in
  match fpc x with
  | Start =>                              (* L237-241 *)
      Some (go s f (Load (if fq x then negb (fas x) else true)))
  | Load need =>                          (* L246 *)
      Some (go s f (Loop need (permits s) (closed s)))
  | Loop need curr cl =>
      if cl then Some (go s f Failed)     (* L249-251 *)
      else if b2n need <=? curr then      (* remaining = 0 *)
        match cas s need curr with
        | Some (s1, acq, _) =>
            if fq x then Some (go s1 f (WantL2 acq))            (* L285-286 *)
            else                                                  (* L282-284 *)
              Some (w_evt (w_held (go s1 f Gone) (held s + 1)) [EDirect f])
        | None => Some (go s f (Loop need (permits s) (closed s)))  (* L290 *)
        end
      else Some (go s f (WantL need curr))  (* L265-274 *)
  | _ => None
  end.

(** acquiring the mutex *)
Definition step_lock (s : st) (f : nat) : option st :=
  match cs s with
  | Some _ => None
  | None =>
      let x := getf s f in
      match fpc x with
      | WantL need curr => Some (w_cs (go s f InCS) (Some (HLoop f need curr false)))
      | WantL2 acq => Some (w_cs (go s f InCS) (Some (HCrit f acq)))
      | DropW =>                        (* L418-430 *)
          let s1 := if fprio x
                    then w_queues s (remove Nat.eq_dec f (pq s)) (oq s)
                    else w_queues s (pq s) (remove Nat.eq_dec f (oq s)) in
          let s2 := putf s1 f (mkFut (fprio x) Gone false false false (fstamp x)) in
          if fas x then Some (w_cs s2 (Some (HAdd 1 0)))  (* acquired_permits = 1 *)
          else Some s2
      | _ => None
      end
  end.

(** end of the critical section of [poll_acquire] (L293-321) *)
Definition step_crit (s : st) (f : nat) (acq : bool) : st :=
  let x := getf s f in
  if wl_closed s then                              (* L293-295: [acquired] is dropped *)
    w_leaked (w_cs (go s f Failed) None) (leaked s + b2n acq)
  else if fas x || acq then
    (* [node.assign_permits(&mut acquired)] returns true (L297-300); the rest goes to
       [add_permits_locked(acquired)] with the lock held *)
    let rem := if fas x then b2n acq else 0 in
    let s1 := putf s f (mkFut (fprio x) Gone false false (fwk x) (fstamp x)) in
    let s2 := w_held s1 (held s + 1) in
    w_evt (w_cs s2 (if rem =? 0 then None else Some (HAdd rem 0)))
          (if fas x then [EReady f] else [EDirect f])
  else
    (* register the waker and enqueue (L304-321) *)
    if fq x then w_cs (putf s f (mkFut (fprio x) Idle false true true (fstamp x))) None
    else
      let s1 := putf s f (mkFut (fprio x) Idle false true true (clock s)) in
      let s2 := if fprio x then w_queues s1 (pq s ++ [f]) (oq s)
                else w_queues s1 (pq s) (oq s ++ [f]) in
      w_evt (tick (w_cs s2 None)) [EEnq f].

(** steps of the mutex holder *)
Definition assign (s : st) (f : nat) : st :=
  let x := getf s f in
  putf s f (mkFut (fprio x) (fpc x) true (fq x) false (fstamp x)).
Definition step_cs (s : st) : option st :=
  match cs s with
  | None => None
  | Some (HLoop f need curr cl) =>
      if cl then Some (w_cs (go s f Failed) None)
      else match cas s need curr with
           | Some (s1, acq, rem0) =>
               if rem0 && negb (fq (getf s f)) then
                 Some (w_evt (w_held (w_cs (go s1 f Gone) None) (held s + 1)) [EDirect f])
               else Some (w_cs s1 (Some (HCrit f acq)))
           | None => Some (w_cs s (Some (HLoop f need (permits s) (closed s))))
           end
  | Some (HCrit f acq) => Some (step_crit s f acq)
  | Some (HAdd rem cnt) =>
      if (rem =? 0) || (NUM_WAKERS <=? cnt) then Some (w_cs s (Some (HUnlock rem)))
      else match pq s, oq s with
           | f :: r, _ =>
               Some (w_evt (w_cs (w_queues (assign s f) r (oq s)) (Some (HAdd (rem - 1) (cnt + 1))))
                           (EAssign f :: if fwk (getf s f) then [EWake f] else []))
           | [], f :: r =>
               Some (w_evt (w_cs (w_queues (assign s f) [] r) (Some (HAdd (rem - 1) (cnt + 1))))
                           (EAssign f :: if fwk (getf s f) then [EWake f] else []))
           | [], [] =>               (* is_empty: fetch_add (L197-214) *)
               Some (w_cs (w_permits s (permits s + rem)) (Some (HUnlock 0)))
           end
  | Some (HUnlock rem) =>            (* drop(waiters); wake_all(); loop while rem > 0 *)
      Some (if rem =? 0 then w_cs s None else w_pend (w_cs s None) (rem :: pend s))
  | Some HClose =>                   (* L71-76 *)
      Some (w_evt (w_cs (w_queues (w_closed s (closed s) true) [] []) None)
                  (map EWake (oq s ++ pq s)))
  end.

Inductive act :=
| ANew (prio : bool)      (* acquire_impl: a new future *)
| APoll (f : nat)
| AFut (f : nat)
| ALock (f : nat)
| ACs
| ADrop (f : nat)         (* the future is dropped *)
| ATry                    (* a successful iteration of try_acquire (L133-153) *)
| ARelease                (* a SemaphorePermit is dropped *)
| AAddPermits (n : N)     (* add_permits by a user *)
| AAddLock (i : nat)      (* a pending add_permits gets the lock *)
| AClose.                 (* close: lock and fetch_or *)

Fixpoint del_nth {A} (n : nat) (l : list A) : list A :=
  match l, n with
  | [], _ => []
  | _ :: r, O => r
  | x :: r, S k => x :: del_nth k r
  end.

Definition step0 (s : st) (a : act) : option st :=
  match a with
  | ANew p => Some (w_futs s (futs s ++ [mkFut p Idle false false false 0]))
  | APoll f => match fpc (getf s f) with Idle => Some (go s f Start) | _ => None end
  | AFut f => step_fut s f
  | ALock f => step_lock s f
  | ACs => step_cs s
  | ADrop f =>
      match fpc (getf s f) with
      | Idle | Failed =>
          if fq (getf s f) then Some (go s f DropW) else Some (go s f Gone)
      | _ => None
      end
  | ATry =>
      if negb (closed s) && (1 <=? permits s)
      then Some (w_evt (w_held (w_permits s (permits s - 1)) (held s + 1)) [ETry]) else None
  | ARelease => if 1 <=? held s then Some (w_pend (w_held s (held s - 1)) (1 :: pend s)) else None
  | AAddPermits n =>
      if n =? 0 then Some s else Some (w_issued (w_pend s (n :: pend s)) (issued s + n))
  | AAddLock i =>
      match cs s, nth_error (pend s) i with
      | None, Some rem => Some (w_cs (w_pend s (del_nth i (pend s))) (Some (HAdd rem 0)))
      | _, _ => None
      end
  | AClose =>
      match cs s with
      | None => Some (w_cs (w_closed s true (wl_closed s)) (Some HClose))
      | _ => None
      end
  end.
Definition step (s : st) (a : act) : option st := step0 (w_evt s []) a.

(** reachable states: any schedule from a fresh semaphore *)
Inductive reach (n : N) : st -> Prop :=
| reach0 : reach n (init n)
| reachS s a s' : reach n s -> step s a = Some s' -> reach n s'.

(** a caller is waiting: its [acquire] returned Pending, it has not been given a permit and
    has not been cancelled (and the semaphore not closed) *)
Definition waiting (s : st) (f : nat) : Prop :=
  (f < length (futs s))%nat /\ fq (getf s f) = true /\ fas (getf s f) = false /\
  wl_closed s = false.
