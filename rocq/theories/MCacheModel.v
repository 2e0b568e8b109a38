(** * MCacheModel: the mempool adapter's cache of anchors

    /repo/collator/src/mempool/impls/common/cache.rs:43-427 (all but its tests). The anchors are
    handed to the collator by [get_anchor_by_id] and [get_next_anchor], which wait for
    notifications.

    Simplifications: the [IndexMap] is the list of its entries in insertion order; the key of an
    entry is the id of its anchor. [binary_search_keys] is given by its contract on a map whose
    keys ascend (the position of the first key not below); that the keys always ascend is proved,
    from pushes in ascending order. [shrink] and [Reclaimer] have no observable effect. [u32]
    overflow of [after_anchor_id + 1] in [reopen] is left out; the saturating [prev + 1] of
    [get_next_anchor] is kept. Logs are left out; [is_paused] only appears in logs and errors. *)

From Coq Require Import List NArith Bool.
Import ListNotations.
Open Scope N_scope.

(** [MempoolAnchor], /repo/collator/src/mempool/mod.rs; an external is its hash. *)
Record manchor := mkM {
  m_id : N; m_prev : option N; m_ct : N; m_exts : list N; m_author : N }.

(** [CacheData], cache.rs:55-60. *)
Record mdata := mkD { d_anchors : list manchor; d_off : option N }.

Definition md_empty : mdata := mkD [] None.

(** [CacheData::anchor_is_off], cache.rs:415-420. *)
Definition is_off (d : mdata) (id : N) : bool :=
  match d_off d with Some after => after <? id | None => false end.

(** [binary_search_keys(&k)], either way the position. *)
Fixpoint bpos (k : N) (l : list manchor) : nat :=
  match l with
  | x :: t => if m_id x <? k then S (bpos k t) else O
  | [] => O
  end.

(** Whether that search says [Ok]. *)
Definition bfound (k : N) (l : list manchor) : bool :=
  match nth_error l (bpos k l) with Some x => m_id x =? k | None => false end.

(** [close], cache.rs:69-76. *)
Definition mc_close (after : N) (d : mdata) : mdata := mkD (d_anchors d) (Some after).

(** [reopen], cache.rs:78-105. *)
Definition mc_reopen (drop_data : bool) (d : mdata) : mdata :=
  match d_off d with
  | None => d
  | Some after =>
      if drop_data
      then mkD (firstn (bpos (after + 1) (d_anchors d)) (d_anchors d)) None
      else mkD (d_anchors d) None
  end.

(** What it returns: the id at which the cache was closed. *)
Definition mc_reopen_result (d : mdata) : option N := d_off d.

Fixpoint ext_diff (a b : list N) : bool :=
  match a, b with
  | x :: a', y :: b' => negb (x =? y) || ext_diff a' b'
  | _, _ => false
  end.

Definition opt_eqb (a b : option N) : bool :=
  match a, b with
  | Some x, Some y => x =? y
  | None, None => true
  | _, _ => false
  end.

(** The differences found when an anchor with this id is already there, cache.rs:116-157: [true]
    is [Err(AnchorForkError)]. *)
Definition fork_error (old new : manchor) : bool :=
  (match m_prev new with None => false | Some _ => negb (opt_eqb (m_prev old) (m_prev new)) end)
  || negb (m_ct old =? m_ct new)
  || negb (Nat.eqb (length (m_exts old)) (length (m_exts new)))
  || (Nat.eqb (length (m_exts old)) (length (m_exts new)) && ext_diff (m_exts old) (m_exts new))
  || negb (m_author old =? m_author new).

Definition lookup (id : N) (l : list manchor) : option manchor :=
  find (fun x => m_id x =? id) l.

(** [push], cache.rs:107-173: the new state, whether waiters are notified, whether the call
    returned an error. An insertion with an existing key keeps the position, and the old value is
    put back. *)
Definition mc_push (a : manchor) (d : mdata) : mdata * bool * bool :=
  match lookup (m_id a) (d_anchors d) with
  | Some old => (d, false, fork_error old a)
  | None => (mkD (d_anchors d ++ [a]) (d_off d), true, false)
  end.

(** [clear], cache.rs:385-412. *)
Definition mc_clear (before : N) (d : mdata) : mdata :=
  mkD (skipn (bpos before (d_anchors d)) (d_anchors d)) (d_off d).

(** [CacheError], cache.rs:14-41. *)
Inductive merr :=
| EGap (prev found_prev found : N)
| EUnexpected (prev found_prev found : N)
| EOutOfOrder (lookup_id found : N)
| EFirstRemoved (prev first : N).

(** One turn of a reader's loop: wait for the next notification, or return. *)
Inductive outcome :=
| Wait
| Found (a : manchor)
| Missing
| Fail (e : merr).

(** The body of [get_anchor_by_id], cache.rs:180-240. *)
Definition try_by_id (id : N) (d : mdata) : outcome :=
  if is_off d id then Wait
  else
    match d_anchors d with
    | [] => Wait
    | first :: _ =>
        if id <? m_id first then
          if is_off d (m_id first) then Wait else Missing
        else
          match nth_error (d_anchors d) (bpos id (d_anchors d)) with
          | Some found =>
              if is_off d (m_id found) then Wait
              else match m_id found ?= id with
                   | Eq => Found found
                   | Gt => Missing
                   | Lt => Fail (EOutOfOrder id (m_id found))
                   end
          | None => Wait
          end
    end.

(** [u32::MAX] and [saturating_add(1)]. *)
Definition U32MAX : N := 4294967295.
Definition sat_succ (n : N) : N := N.min (n + 1) U32MAX.

(** The body of [get_next_anchor], cache.rs:242-383. *)
Definition try_next (prev : N) (d : mdata) : outcome :=
  if is_off d (sat_succ prev) then Wait
  else
    match d_anchors d with
    | [] => Wait
    | first :: _ =>
        if prev <? m_id first then
          if is_off d (m_id first) then Wait
          else match m_prev first with
               | None => Found first
               | Some id => if id =? prev then Fail (EFirstRemoved prev (m_id first)) else Missing
               end
        else if bfound prev (d_anchors d) then
          match nth_error (d_anchors d) (S (bpos prev (d_anchors d))) with
          | Some found =>
              if is_off d (m_id found) then Wait
              else match m_prev found with
                   | Some fp =>
                       match prev ?= fp with
                       | Eq => Found found
                       | Lt => Fail (EGap prev fp (m_id found))
                       | Gt => Fail (EUnexpected prev fp (m_id found))
                       end
                   | None => Found found
                   end
          | None => Wait
          end
        else
          match nth_error (d_anchors d) (bpos prev (d_anchors d)) with
          | Some nxt => if is_off d (m_id nxt) then Wait else Missing
          | None => Wait
          end
    end.

Inductive request := ById (id : N) | Next (prev : N).
Definition attempt (r : request) (d : mdata) : outcome :=
  match r with ById id => try_by_id id d | Next prev => try_next prev d end.

(** ** Readers and writers

    A reader's turn is: subscribe ([self.anchor_added.notified()]), look at the data under the
    read lock, then wait for the subscription. [notify_waiters] wakes every subscription made
    before it. A writer changes the data under the write lock and notifies: under the lock in
    [push], after it in [close], [reopen] and [set_paused]; here the two are always separate
    steps, with anything in between. [clear] does not notify, nor does a repeated [push]. *)
Inductive phase :=
| PStart (r : request)
| PSub (r : request) (woken : bool)
| PWait (r : request) (woken : bool)
| PDone (r : request) (o : outcome).

Record msys := mkS {
  s_data : mdata;
  s_pending : nat;                 (* writers that have not yet notified *)
  s_readers : list phase;
  s_errors : list manchor }.       (* refused pushes *)

Inductive mstep :=
| LPush (a : manchor)
| LClose (after : N)
| LReopen (drop_data : bool)
| LPause
| LClear (before : N)
| LNotify
| LCall (r : request)              (* a new call *)
| LRead (n : nat).                 (* reader [n] makes its next move *)

Definition wake (p : phase) : phase :=
  match p with
  | PSub r _ => PSub r true
  | PWait r _ => PWait r true
  | _ => p
  end.

Fixpoint upd {A} (n : nat) (x : A) (l : list A) : list A :=
  match l, n with
  | [], _ => []
  | _ :: t, O => x :: t
  | y :: t, S k => y :: upd k x t
  end.

Definition mexec (s : msys) (l : mstep) : option msys :=
  let d := s_data s in
  match l with
  | LPush a =>
      let '(d', ntf, err) := mc_push a d in
      Some (mkS d' ((if ntf then 1 else 0) + s_pending s) (s_readers s)
                (if err then a :: s_errors s else s_errors s))
  | LClose k => Some (mkS (mc_close k d) (S (s_pending s)) (s_readers s) (s_errors s))
  | LReopen b =>
      match d_off d with
      | Some _ => Some (mkS (mc_reopen b d) (S (s_pending s)) (s_readers s) (s_errors s))
      | None => Some s                     (* the early return does not notify *)
      end
  | LPause => Some (mkS d (S (s_pending s)) (s_readers s) (s_errors s))
  | LClear k => Some (mkS (mc_clear k d) (s_pending s) (s_readers s) (s_errors s))
  | LNotify =>
      match s_pending s with
      | S k => Some (mkS d k (map wake (s_readers s)) (s_errors s))
      | O => None
      end
  | LCall r => Some (mkS d (s_pending s) (s_readers s ++ [PStart r]) (s_errors s))
  | LRead n =>
      match nth_error (s_readers s) n with
      | Some (PStart r) =>
          Some (mkS d (s_pending s) (upd n (PSub r false) (s_readers s)) (s_errors s))
      | Some (PSub r w) =>
          match attempt r d with
          | Wait => Some (mkS d (s_pending s) (upd n (PWait r w) (s_readers s)) (s_errors s))
          | o => Some (mkS d (s_pending s) (upd n (PDone r o) (s_readers s)) (s_errors s))
          end
      | Some (PWait r true) =>
          Some (mkS d (s_pending s) (upd n (PStart r) (s_readers s)) (s_errors s))
      | _ => None
      end
  end.

Definition ms_init : msys := mkS md_empty 0 [] [].

Fixpoint mrun (s : msys) (ls : list mstep) : option msys :=
  match ls with
  | [] => Some s
  | l :: t => match mexec s l with Some s' => mrun s' t | None => None end
  end.
