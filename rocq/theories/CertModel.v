(** * Certificates of mempool points: model of /repo/consensus/src/models/cert.rs.
    Concurrent calls on any number of threads, one atomic access per step.
    A point is named by its digest; each digest has one certificate (the maps
    `versions` of a DAG location hold one per digest). *)
From Coq Require Import List NArith Bool Lia.
Import ListNotations.
Open Scope N_scope.

(** mod inner, consts :148-153 *)
Definition TOP : N := 32768.
Definition INIT_STARTED : N := 16384.
Definition INIT_COMPLETED : N := 24576.
Definition COMMITTED : N := 4096.
Definition ALL_FLAGS : N := 61440.
Definition NOT_FLAGS : N := 4095. (* !ALL_FLAGS as u16 *)

(** CertInner :155-165. [c_word] is `height: AtomicU16`, [c_deps] the contents of
    `direct_deps` (None: uninitialised memory): digests of `includes` and `witness`. *)
Record cell : Type := Cell { c_word : N; c_deps : option (list N * list N) }.
Definition cell0 : cell := Cell 0 None.

(** is_committed :185-188, certified :191-194, Cert::is_certified/has_proof :29-35 *)
Definition w_committed (w : N) : bool := N.land w COMMITTED =? COMMITTED.
Definition w_certified (w : N) : bool := negb (N.land w NOT_FLAGS =? 0).
Definition w_has_proof (w : N) : bool := w_certified w && (N.land w TOP =? TOP).

(** max_height_published :239-254. fetch_update retries until its exchange
    succeeds or the closure gives None; the step is that last attempt. The
    closure's `height` keeps flags of failed attempts: flags are never cleared, so
    they are among the flags of the last value too. *)
Definition mhp (stored height mask : N) : option N :=
  let h := N.lor height (N.land stored ALL_FLAGS) in
  if stored <? h then Some (N.lor h mask) else None.

Inductive refs : Type := RNone | RSome (inc wit : list N) | RBad. (* RBad: uninitialised memory is read *)

(** certify_deeper :224-237. An absent `witness` is the empty list. *)
Definition certify_deeper (c : cell) (height : N) (top : bool) : cell * refs :=
  match mhp (c_word c) height (if top then TOP else 0) with
  | None => (c, RNone)
  | Some v =>
      (Cell v (c_deps c),
       if (N.land (c_word c) INIT_COMPLETED =? INIT_COMPLETED) && (1 <? height) then
         match c_deps c with
         | Some (i, w) => RSome i (if 2 <? height then w else [])
         | None => RBad
         end
       else RNone)
  end.

(** traverse_certify :75-127. [t_h]: height of the map `current`; `includes` has
    [t_h - 1], `witness` [t_h - 2], and the direct includes have [t_h + 1].
    [t_dir], [t_wit]: direct includes and witness not processed yet, [t_pend]: rest of
    the extend_next loops under way (map, digest). *)
Record trav : Type := Tr { t_h : N; t_dir : list N; t_wit : list N; t_pend : list (nat * N); t_c : list N; t_i : list N; t_w : list N }.

(** A thread runs one call at a time (the queue is thread-local). *)
Inductive tstate : Type :=
| TIdle
| TSet1 (p : N) (i w : list N)   (* set_deps: INIT_STARTED set, deps not written *)
| TSet2 (p : N) (i w : list N)   (* deps written, INIT_COMPLETED not set *)
| TTrav (t : trav).

(** What happened: [ECertify p] certify(p) took its step, [EDeps p i w] deps of p
    published, [EPanic p] set_deps(p) panicked, [ECommit p b] set_committed(p)
    returned (true) or panicked, [EBad p] undefined behaviour. *)
Inductive event : Type := ECertify (p : N) | EDeps (p : N) (i w : list N) | EPanic (p : N) | ECommit (p : N) (ok : bool) | EBad (p : N).

(** [s_dead p]: the last strong reference is dropped, upgrade() gives None.
    Any certificate may be dropped at any time, except that a dropped one stays so
    (more behaviours than the code, where a reference held keeps it alive). *)
Record state : Type := St { s_cell : N -> cell; s_thr : N -> tstate; s_dead : N -> bool; s_log : list event }.
Definition state0 : state := St (fun _ => cell0) (fun _ => TIdle) (fun _ => false) [].

Definition upd {A} (f : N -> A) (k : N) (v : A) : N -> A := fun x => if x =? k then v else f x.
Definition set_cell (s : state) p c : state := St (upd (s_cell s) p c) (s_thr s) (s_dead s) (s_log s).
Definition set_thr (s : state) t x : state := St (s_cell s) (upd (s_thr s) t x) (s_dead s) (s_log s).
Definition add_ev (s : state) e : state := St (s_cell s) (s_thr s) (s_dead s) (e :: s_log s).

Inductive label : Type :=
| LCertify (t p : N) | LSetDeps (t p : N) (i w : list N) | LWrite (t : N) | LComplete (t : N)
| LTrav (t : N) (x : N)  (* [x]: the element the drain() gives next, used only there *)
| LCommit (p : N) | LDrop (p : N).

Definition memb (x : N) (l : list N) : bool := existsb (N.eqb x) l.
Fixpoint remove1 (x : N) (l : list N) : list N :=
  match l with [] => [] | y :: r => if y =? x then r else y :: remove1 x r end.

(** Refs found at a child go to [base] (includes) and [base + 1] (witness). *)
Definition enqueue (base : nat) (i w : list N) : list (nat * N) := map (pair base) i ++ map (pair (S base)) w.

(** One step of the traversal: a new thread state and cells. *)
Definition trav_step (s : state) (tid x : N) (t : trav) : option state :=
  match t_pend t with
  | (k, d) :: rest =>                                                    (* extend_next :129-139 *)
      let ins l := if memb d l then l else if s_dead s d then l else d :: l in
      Some (set_thr s tid (TTrav
        match k with
        | O => Tr (t_h t) (t_dir t) (t_wit t) rest (ins (t_c t)) (t_i t) (t_w t)
        | S O => Tr (t_h t) (t_dir t) (t_wit t) rest (t_c t) (ins (t_i t)) (t_w t)
        | _ => Tr (t_h t) (t_dir t) (t_wit t) rest (t_c t) (t_i t) (ins (t_w t))
        end))
  | [] =>
      match t_dir t with
      | d :: rest =>                                                     (* :84-95 *)
          let t1 p := Tr (t_h t) rest (t_wit t) p (t_c t) (t_i t) (t_w t) in
          if s_dead s d then Some (set_thr s tid (TTrav (t1 [])))
          else let '(c, r) := certify_deeper (s_cell s d) (t_h t + 1) false in
               let s1 := set_cell s d c in
               match r with
               | RNone => Some (set_thr s1 tid (TTrav (t1 [])))
               | RSome i w => Some (set_thr s1 tid (TTrav (t1 (enqueue 0 i w))))
               | RBad => Some (add_ev (set_thr s1 tid TIdle) (EBad d))
               end
      | [] =>
          match t_wit t with
          | _ :: _ =>                                                    (* :96-98 *)
              Some (set_thr s tid (TTrav (Tr (t_h t) [] [] (map (pair O) (t_wit t)) (t_c t) (t_i t) (t_w t))))
          | [] =>                                                        (* :102-117 *)
              if t_h t =? 0 then Some (set_thr s tid TIdle) else
              match t_c t, t_i t, t_w t with
              | [], [], [] => Some (set_thr s tid TIdle)
              | [], i, w =>
                  if t_h t =? 1 then Some (set_thr s tid TIdle)
                  else Some (set_thr s tid (TTrav (Tr (t_h t - 1) [] [] [] i w [])))
              | c, i, w =>
                  if negb (memb x c) then None else
                  let t1 p := Tr (t_h t) [] [] p (remove1 x c) i w in
                  let '(cl, r) := certify_deeper (s_cell s x) (t_h t) false in
                  let s1 := set_cell s x cl in
                  match r with
                  | RNone => Some (set_thr s1 tid (TTrav (t1 [])))
                  | RSome i' w' => Some (set_thr s1 tid (TTrav (t1 (enqueue 1 i' w'))))
                  | RBad => Some (add_ev (set_thr s1 tid TIdle) (EBad x))
                  end
              end
          end
      end
  end.

(** The start of a traversal over given refs, with `current_deps_height` = [h]. *)
Definition start_trav (h : N) (i w : list N) : tstate :=
  if h =? 0 then TIdle else TTrav (Tr (h - 1) i w [] [] [] []).

Section Steps.
Variable depth : N. (* consensus.commit_history_rounds, NonZeroU8 *)

Definition step (l : label) (s : state) : option state :=
  match l with
  | LCertify t p =>                                                      (* certify :43-51 *)
      match s_thr s t with
      | TIdle =>
          let '(c, r) := certify_deeper (s_cell s p) (depth + 1) true in
          let s1 := add_ev (set_cell s p c) (ECertify p) in
          match r with
          | RNone => Some s1
          | RSome i w => Some (set_thr s1 t (start_trav depth i w))
          | RBad => Some (add_ev s1 (EBad p))
          end
      | _ => None
      end
  | LSetDeps t p i w =>                                                  (* CertInner::set_deps :196-198 *)
      match s_thr s t with
      | TIdle =>
          let old := c_word (s_cell s p) in
          let s1 := set_cell s p (Cell (N.lor old INIT_STARTED) (c_deps (s_cell s p))) in
          if N.land old INIT_STARTED =? 0 then Some (set_thr s1 t (TSet1 p i w))
          else Some (add_ev s1 (EPanic p))
      | _ => None
      end
  | LWrite t =>                                                          (* :201-205 *)
      match s_thr s t with
      | TSet1 p i w => Some (set_thr (set_cell s p (Cell (c_word (s_cell s p)) (Some (i, w)))) t (TSet2 p i w))
      | _ => None
      end
  | LComplete t =>                                                       (* :207-219, Cert::set_deps :37-41 *)
      match s_thr s t with
      | TSet2 p i w =>
          let old := c_word (s_cell s p) in
          let s1 := add_ev (set_cell s p (Cell (N.lor old INIT_COMPLETED) (c_deps (s_cell s p)))) (EDeps p i w) in
          let h := N.land old NOT_FLAGS in
          if 1 <? h then Some (set_thr s1 t (start_trav (h - 1) i (if 2 <? h then w else [])))
          else Some (set_thr s1 t TIdle)
      | _ => None
      end
  | LTrav t x => match s_thr s t with TTrav tr => trav_step s t x tr | _ => None end
  | LCommit p =>                                                         (* set_committed :179-183 *)
      let old := c_word (s_cell s p) in
      let s1 := set_cell s p (Cell (N.lor old COMMITTED) (c_deps (s_cell s p))) in
      Some (add_ev s1 (ECommit p (negb (N.land old NOT_FLAGS =? 0) && (N.land old COMMITTED =? 0))))
  | LDrop p => Some (St (s_cell s) (s_thr s) (upd (s_dead s) p true) (s_log s))
  end.

Inductive reachable : state -> Prop :=
| reach0 : reachable state0
| reach1 : forall s l s', reachable s -> step l s = Some s' -> reachable s'.
End Steps.

(** Cert::is_certified, has_proof, is_committed of the certificate of [p]. *)
Definition is_certified (s : state) (p : N) : bool := w_certified (c_word (s_cell s p)).
Definition has_proof (s : state) (p : N) : bool := w_has_proof (c_word (s_cell s p)).
Definition is_committed (s : state) (p : N) : bool := w_committed (c_word (s_cell s p)).
