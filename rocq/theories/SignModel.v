(** * SignModel: one author's points at one round, and the signature a node gives to one of them

    /repo/consensus/src/dag/dag_location.rs:43-414 ([InclusionState], [Signable]) with the tasks
    that drive it, /repo/consensus/src/dag/dag_point_future.rs:229-655, the stored statuses,
    /repo/consensus/src/storage/store.rs:190-440, and the restore at start,
    /repo/consensus/src/engine/impl_.rs:268-351.

    The state is that of one location: an author (not the node itself) and a round. A point is
    its digest. A [OnceLock] is an option that is set once; [get_or_init] is atomic (concurrent
    callers block until it is set). Simplifications: the node's own points
    ([new_local_valid]) are left out; verification, validation and download are reduced to their
    verdict, which is arbitrary; a write to the database survives a crash of the process; records
    are not removed (the cleaner works far below the rounds that may be signed); metrics and logs
    are left out. A failed [assert!] or [panic!] is a step that fails ([None]). *)

From Coq Require Import List NArith Bool.
Import ListNotations.
Open Scope N_scope.

(** ** Stored statuses *)

(** The kinds of stored records, /repo/consensus/src/models/point_status/mod.rs:22-38, by the
    priority of the first byte. *)
Inductive skind := KProven | KNotFound | KFound | KIllFormed | KInvalid | KCommittable | KTransInvalid | KValid.

Definition rank (k : skind) : N :=
  match k with
  | KProven => 0 | KNotFound => 1 | KFound => 2 | KIllFormed => 4 | KInvalid => 8
  | KCommittable => 32 | KTransInvalid => 64 | KValid => 128
  end.

(** The part of a record the location depends on: kind, [FirstValid], [HasProof] and
    [IllFormedReasonFinal]. *)
Record srec := mkR { r_kind : skind; r_first : bool; r_proof : bool; r_final : bool }.

(** [merge_bytes] on these parts, /repo/consensus/src/models/point_status/all_stored.rs:97-141
    (the whole of it is in StatModel). *)
Definition rmerge (a b : srec) : srec :=
  mkR (if rank (r_kind a) <? rank (r_kind b) then r_kind b else r_kind a)
      (r_first a || r_first b) (r_proof a || r_proof b) (r_final a || r_final b).

(** The records of the points of this location, ascending by digest. *)
Definition sdb := list (N * srec).

Fixpoint db_get (d : N) (m : sdb) : option srec :=
  match m with
  | [] => None
  | (k, r) :: t => if k =? d then Some r else db_get d t
  end.

(** [merge_cf]. *)
Fixpoint db_merge (d : N) (r : srec) (m : sdb) : sdb :=
  match m with
  | [] => [(d, r)]
  | (k, q) :: t =>
      if k =? d then (k, rmerge q r) :: t
      else if d <? k then (d, r) :: (k, q) :: t
      else (k, q) :: db_merge d r t
  end.

(** [StatusFlags::keep_on_history_conflict], point_status/mod.rs:65-70. *)
Definition keep (r : srec) : bool :=
  match r_kind r with
  | KFound | KNotFound | KProven => true
  | KValid => r_first r
  | KIllFormed => r_final r
  | _ => false
  end.

(** [reset_statuses], store.rs:377-415. *)
Definition db_reset (m : sdb) : sdb :=
  map (fun '(d, r) => (d, if keep r then r else mkR KFound false (r_proof r) false)) m.

(** ** The location *)

Inductive sigst := SNone | SOk | SErr.

(** [OnceLock<Result<Signable, ()>>]. *)
Inductive sgn := GNone | GErr | GSignable (s : sigst).

(** [FirstResolved]. *)
Inductive fres := FValid (d : N) (g : sgn) | FNot (d : N) | FClosed.

(** What a finished task knows of its point: whether it is valid, the kind of record to store. *)
Record verdict := mkV { v_valid : bool; v_kind : skind; v_final : bool }.

(** The verdicts of the tasks, dag_point_future.rs:289-496, 602-655: valid, trans-invalid,
    invalid, ill-formed, not found, and a point that could not be verified, which is resolved as
    not found but stored as found. *)
Definition verdict_ok (v : verdict) : bool :=
  match v_kind v with
  | KValid => v_valid v
  | KTransInvalid | KInvalid | KIllFormed | KNotFound | KFound => negb (v_valid v)
  | KCommittable | KProven => false
  end.

(** A task of one point: validating; past the first half of [acquire] with the flag it got;
    acquired; stored; resolved. *)
Inductive task :=
| TWork
| THalf (v : verdict) (fr : bool) (fv : bool)
| TAcq (v : verdict) (fr fv : bool)
| TStored (v : verdict) (fr fv : bool)
| TDone.

(** A running call of [sign] or [get_or_reject]. *)
Inductive call :=
| CSign (at_ : N) (key : bool) (now : N)   (* nothing read yet *)
| CInit (ok : bool) (at_ now : N)          (* about to [signature.get_or_init] with [Ok] or [Err];
                                              the arguments are kept for the specification *)
| CRej0                                    (* [get_or_reject], nothing done yet *)
| CRej1                                    (* [resolved] is set, next [once.get_or_init] *)
| CRej2                                    (* next [signature.get_or_init] *)
| CRet (r : option bool).                  (* returned: [None], [Some(Ok)] or [Some(Err)] *)

Record loc := mkL {
  l_res : option fres;
  l_val : option N;
  l_tasks : list (N * task);
  l_calls : list call;
  l_thr : list N;                  (* points added to the round's threshold *)
  l_db : sdb;
  l_run : nat;                     (* number of starts so far *)
  l_log : list (nat * N) }.        (* signatures made: run and digest *)

Definition set_res x (l : loc) := mkL x (l_val l) (l_tasks l) (l_calls l) (l_thr l) (l_db l) (l_run l) (l_log l).
Definition set_val x (l : loc) := mkL (l_res l) x (l_tasks l) (l_calls l) (l_thr l) (l_db l) (l_run l) (l_log l).
Definition set_tasks x (l : loc) := mkL (l_res l) (l_val l) x (l_calls l) (l_thr l) (l_db l) (l_run l) (l_log l).
Definition set_calls x (l : loc) := mkL (l_res l) (l_val l) (l_tasks l) x (l_thr l) (l_db l) (l_run l) (l_log l).
Definition set_thr x (l : loc) := mkL (l_res l) (l_val l) (l_tasks l) (l_calls l) x (l_db l) (l_run l) (l_log l).
Definition set_db x (l : loc) := mkL (l_res l) (l_val l) (l_tasks l) (l_calls l) (l_thr l) x (l_run l) (l_log l).
Definition set_log x (l : loc) := mkL (l_res l) (l_val l) (l_tasks l) (l_calls l) (l_thr l) (l_db l) (l_run l) x.

Fixpoint t_get (d : N) (m : list (N * task)) : option task :=
  match m with
  | [] => None
  | (k, t) :: r => if k =? d then Some t else t_get d r
  end.
Fixpoint t_set (d : N) (t : task) (m : list (N * task)) : list (N * task) :=
  match m with
  | [] => [(d, t)]
  | (k, q) :: r => if k =? d then (k, t) :: r else (k, q) :: t_set d t r
  end.

Definition set_task d t l := set_tasks (t_set d t (l_tasks l)) l.

(** The first half of [acquire], dag_location.rs:84-122: [resolved.get_or_init]. A valid point
    that is the first also takes [valid] inside; the [assert_eq!] fails when [valid] is taken by
    another. *)
Definition acquire1 (d : N) (v : verdict) (l : loc) : option loc :=
  match l_res l with
  | Some _ => Some (set_task d (THalf v false false) l)
  | None =>
      if v_valid v then
        match l_val l with
        | None => Some (set_task d (THalf v true true)
                         (set_val (Some d) (set_res (Some (FValid d GNone)) l)))
        | Some e => if e =? d
                    then Some (set_task d (THalf v true false) (set_res (Some (FValid d GNone)) l))
                    else None
        end
      else Some (set_task d (THalf v true false) (set_res (Some (FNot d)) l))
  end.

(** The second half, dag_location.rs:123-128. *)
Definition acquire2 (d : N) (v : verdict) (fr fv : bool) (l : loc) : loc :=
  if negb fr && v_valid v then
    match l_val l with
    | None => set_task d (TAcq v fr true) (set_val (Some d) l)
    | Some _ => set_task d (TAcq v fr fv) l
    end
  else set_task d (TAcq v fr fv) l.

(** [resolve], dag_location.rs:229-321. *)
Definition resolve (d : N) (valid fr fv : bool) (l : loc) : option loc :=
  let first :=
    if fr then
      match l_res l with
      | None => None
      | Some (FValid e g) =>
          if (e =? d) && valid
          then Some (match g with
                     | GNone => set_res (Some (FValid e (GSignable SNone))) l
                     | _ => l
                     end)
          else None
      | Some (FNot e) => if (e =? d) && negb valid then Some l else None
      | Some FClosed => Some l
      end
    else
      match l_res l with
      | Some (FValid e _) | Some (FNot e) => if e =? d then None else Some l
      | _ => Some l
      end in
  match first with
  | None => None
  | Some l1 =>
      if valid && fv then
        match l_val l1 with
        | Some e => if e =? d then Some (set_thr (d :: l_thr l1) l1) else None
        | None => None
        end
      else
        match l_val l1 with
        | Some e => if e =? d then None else Some l1
        | None => Some l1
        end
  end.

(** ** Signing *)

(** What [sign] finds: [Signable::sign], dag_location.rs:323-340, 361-412. [rnd] is the round of
    the location, [tm] the point's time, [skew] the configured clock skew, in milliseconds;
    [UnixTime] subtraction saturates, as on [N]. *)
Definition sign_look (rnd skew : N) (tm : N -> N) (at_ : N) (key : bool) (now : N) (l : loc) : call :=
  match l_res l with
  | None => CRet None
  | Some (FNot _) | Some FClosed => CRet (Some false)
  | Some (FValid d g) =>
      match g with
      | GNone => CRet None
      | GErr => CRet (Some false)
      | GSignable SOk => CRet (Some true)
      | GSignable SErr => CRet (Some false)
      | GSignable SNone =>
          if key then
            if at_ <? rnd then CRet None
            else if skew <=? tm d - now then CRet None
            else CInit (at_ - 1 <=? rnd) at_ now
          else if at_ <=? rnd then CRet None
          else CInit false at_ now
      end
  end.

(** [signature.get_or_init]: the cell keeps what it has; a signature is made only when the cell
    was empty. *)
Definition sig_init (ok : bool) (l : loc) : loc * bool :=
  match l_res l with
  | Some (FValid d (GSignable SNone)) =>
      let l1 := set_res (Some (FValid d (GSignable (if ok then SOk else SErr)))) l in
      (if ok then set_log ((l_run l, d) :: l_log l) l1 else l1, ok)
  | Some (FValid _ (GSignable SOk)) => (l, true)
  | _ => (l, false)
  end.

Fixpoint upd {A} (n : nat) (x : A) (l : list A) : list A :=
  match l, n with
  | [], _ => []
  | _ :: t, O => x :: t
  | y :: t, S k => y :: upd k x t
  end.
Definition set_call n c l := set_calls (upd n c (l_calls l)) l.

(** One move of a running call. [get_or_reject]: dag_location.rs:342-360. *)
Definition call_move (rnd skew : N) (tm : N -> N) (n : nat) (l : loc) : option loc :=
  match nth_error (l_calls l) n with
  | Some (CSign at_ key now) => Some (set_call n (sign_look rnd skew tm at_ key now l) l)
  | Some (CInit ok _ _) => let '(l1, r) := sig_init ok l in Some (set_call n (CRet (Some r)) l1)
  | Some CRej0 =>
      match l_res l with
      | None => Some (set_call n (CRet (Some false)) (set_res (Some FClosed) l))
      | Some (FValid _ _) => Some (set_call n CRej1 l)
      | Some _ => Some (set_call n (CRet (Some false)) l)
      end
  | Some CRej1 =>
      match l_res l with
      | Some (FValid d GNone) =>
          Some (set_call n (CRet (Some false)) (set_res (Some (FValid d GErr)) l))
      | Some (FValid _ GErr) => Some (set_call n (CRet (Some false)) l)
      | Some (FValid _ (GSignable _)) => Some (set_call n CRej2 l)
      | _ => None
      end
  | Some CRej2 => let '(l1, r) := sig_init false l in Some (set_call n (CRet (Some r)) l1)
  | _ => None
  end.

(** ** Restart *)

(** [acquire_restore], dag_location.rs:143-210, then [resolve], for one restored record; [stored]
    is its [FirstValid] flag. The flag set here is not stored again (dag_point_future.rs:524-568,
    587-599). *)
Definition restore1 (d : N) (valid stored : bool) (l : loc) : option loc :=
  let '(l1, fr) :=
    match l_res l with
    | None => (set_res (Some (if valid then FValid d GNone else FNot d)) l, true)
    | Some _ => (l, false)
    end in
  let step :=
    if stored then
      if valid && fr then
        match l_val l1 with
        | None => Some (set_val (Some d) l1, true)
        | Some e => if e =? d then Some (l1, true) else None
        end
      else None
    else if valid && fr then
      match l_val l1 with
      | None => Some (set_val (Some d) l1, true)
      | Some e => if e =? d then Some (l1, false) else None
      end
    else Some (l1, false) in
  match step with
  | None => None
  | Some (l2, fv) => resolve d valid fr fv l2
  end.

(** [restore_order_asc], /repo/consensus/src/models/point_restore.rs:24-46, before the inversion:
    greater goes first. *)
Definition restore_prio (r : srec) : N :=
  match r_kind r with
  | KValid => 32 + 2 + (if r_first r then 128 else 0) + 64
  | KTransInvalid | KInvalid | KIllFormed | KNotFound => 32 + 2
  | _ => 0
  end + (if r_proof r then 1 else 0).

(** [load_restore], store.rs:442-536: records without a verdict, and those with only a proof or
    a commit, are not restored. *)
Definition restorable (r : srec) : bool :=
  match r_kind r with KCommittable | KProven => false | _ => true end.

(** A found point is verified again, engine/impl_.rs:282-320; [bad] are the ill-formed ones. They
    are put before the others ([verified.chain(ready)]). *)
Definition is_found (r : srec) : bool := match r_kind r with KFound => true | _ => false end.
Definition reverify (bad : N -> bool) (p : N * srec) : N * srec :=
  let '(d, r) := p in
  if bad d then (d, mkR KIllFormed false (r_proof r) false) else (d, r).

Definition restore_items (bad : N -> bool) (m : sdb) : sdb :=
  let l := filter (fun p => restorable (snd p)) m in
  map (reverify bad) (filter (fun p => is_found (snd p)) l) ++
  filter (fun p => negb (is_found (snd p))) l.

(** The [BTreeMap] by order, with items of one order kept as they come. *)
Fixpoint insert_item (p : N * srec) (l : sdb) : sdb :=
  match l with
  | [] => [p]
  | q :: t => if restore_prio (snd q) <? restore_prio (snd p) then p :: l else q :: insert_item p t
  end.
Definition restore_order (l : sdb) : sdb := fold_left (fun acc p => insert_item p acc) l [].

(** Each item in turn: a record with a verdict is acquired and resolved, a found point becomes a
    task. *)
Fixpoint restore_all (items : sdb) (l : loc) : option loc :=
  match items with
  | [] => Some l
  | (d, r) :: t =>
      match r_kind r with
      | KFound => restore_all t (set_task d TWork l)
      | k =>
          match restore1 d (match k with KValid => true | _ => false end) (r_first r) l with
          | Some l1 => restore_all t (set_task d TDone l1)
          | None => None
          end
      end
  end.

(** A restart after a crash at any point, or after a history conflict ([fix], which resets the
    statuses first). Memory is lost. *)
Definition restart (fix_ : bool) (bad : N -> bool) (l : loc) : option loc :=
  let m := if fix_ then db_reset (l_db l) else l_db l in
  restore_all (restore_order (restore_items bad m))
    (mkL None None [] [] [] m (S (l_run l)) (l_log l)).

(** ** Steps *)

Inductive label :=
| LNew (d : N)                              (* a broadcast or a download of a new point starts *)
| LFound (d : N)                            (* its bytes are stored with status [Found] *)
| LAcq1 (d : N) (v : verdict)
| LAcq2 (d : N)
| LStore (d : N)
| LResolve (d : N)
| LProof (d : N)                            (* the author's next point proves [d]: [Proven] is merged *)
| LCommit (d : N)                           (* [d] is committed: [Committable] is merged *)
| LSign (at_ : N) (key : bool) (now : N)    (* [sign] is called *)
| LReject                                   (* [get_or_reject] is called *)
| LMove (n : nat)                           (* call [n] makes its next move *)
| LRestart (fix_ : bool) (bad : N -> bool).

Section Exec.
Variables (rnd skew : N) (tm : N -> N).

Definition exec (l : loc) (s : label) : option loc :=
  match s with
  | LNew d =>
      match t_get d (l_tasks l) with
      | None => Some (set_task d TWork l)
      | Some _ => None
      end
  | LFound d =>
      match t_get d (l_tasks l) with
      | Some TWork => Some (set_db (db_merge d (mkR KFound false false false) (l_db l)) l)
      | _ => None
      end
  | LAcq1 d v =>
      match t_get d (l_tasks l) with
      | Some TWork => if verdict_ok v then acquire1 d v l else None
      | _ => None
      end
  | LAcq2 d =>
      match t_get d (l_tasks l) with
      | Some (THalf v fr fv) => Some (acquire2 d v fr fv l)
      | _ => None
      end
  | LStore d =>
      match t_get d (l_tasks l) with
      | Some (TAcq v fr fv) =>
          Some (set_task d (TStored v fr fv)
                 (set_db (db_merge d (mkR (v_kind v) (v_valid v && fv) false (v_final v)) (l_db l)) l))
      | _ => None
      end
  | LResolve d =>
      match t_get d (l_tasks l) with
      | Some (TStored v fr fv) =>
          match resolve d (v_valid v) fr fv l with
          | Some l1 => Some (set_task d TDone l1)
          | None => None
          end
      | _ => None
      end
  | LProof d => Some (set_db (db_merge d (mkR KProven false true false) (l_db l)) l)
  | LCommit d => Some (set_db (db_merge d (mkR KCommittable false false false) (l_db l)) l)
  | LSign at_ key now => Some (set_calls (l_calls l ++ [CSign at_ key now]) l)
  | LReject => Some (set_calls (l_calls l ++ [CRej0]) l)
  | LMove n => call_move rnd skew tm n l
  | LRestart fix_ bad => restart fix_ bad l
  end.

Fixpoint run (l : loc) (ss : list label) : option loc :=
  match ss with
  | [] => Some l
  | s :: t => match exec l s with Some l1 => run l1 t | None => None end
  end.

End Exec.

Definition loc_init : loc := mkL None None [] [] [] [] 0 [].
