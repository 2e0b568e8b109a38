(** * Block provider combinators: model.
    /repo/core/src/block_strider/provider/mod.rs:146-450 and provider/futures.rs.
    The wrapped providers are arbitrary: they answer whatever they like, whenever
    they like. *)
From Coq Require Import List NArith Bool Lia.
Import ListNotations.
Open Scope N_scope.

Definition pmax : N := 4294967295.   (* u32::MAX *)

(** u32::saturating_add(1) *)
Definition psat1 (n : N) : N := if n <? pmax then n + 1 else pmax.

Inductive side : Type := SL | SR.
Definition flip (x : side) : side := match x with SL => SR | SR => SL end.
Definition side_eqb (x y : side) : bool := match x, y with SL, SL | SR, SR => true | _, _ => false end.

(** ** The chain combinator, provider/mod.rs:146-226.
    Any number of threads call it; one access to [cleanup_left_at] or [left],
    or one answer of a wrapped provider, per step. *)
Inductive cop : Type :=
| CNext (prev : N)       (* get_next_block, prev_block_id.seqno *)
| CBlock (blk : N)       (* get_block, an opaque relation *)
| CClean (mc : N).       (* cleanup_until *)

Inductive cpc : Type :=
| CBegin                 (* before the load of cleanup_left_at *)
| CLoadL                 (* the flag was u32::MAX for a get call: before left.load_full() *)
| CAskL                  (* waiting for left *)
| CStoreF                (* left said None: before the store of cleanup_left_at *)
| CAskR                  (* waiting for right *)
| CLoadX                 (* cleanup, flag in 1..=mc: before left.load_full() (:209) *)
| CAskX                  (* waiting for left.cleanup_until (:210) *)
| CDrop                  (* before left.store(None) (:211) *)
| CReset                 (* before cleanup_left_at.store(0) (:212) *)
| CDone (r : option (side * N)).
   (* get calls: the side and value of the answer, None for no block;
      cleanup: Some for Ok(()) (value 0), None for Err *)

Inductive cev : Type :=
| VBegin (t : nat) (o : cop)                       (* the call is made *)
| VAsk (t : nat) (x : side) (o : cop)              (* request to a wrapped provider *)
| VAns (t : nat) (x : side) (o : cop) (r : option N) (* its answer *)
| VDrop (t : nat) (mc : N)                         (* left is dropped *)
| VRet (t : nat) (o : cop) (r : option (side * N)).

Record cst : Type := MkC {
  c_left : bool;                 (* left.is_some() *)
  c_flag : N;                    (* cleanup_left_at *)
  c_thr : list (cop * cpc);
  c_tr : list cev }.             (* newest first *)

(** ChainBlockProvider::new, :153-159 *)
Definition cst0 : cst := MkC true pmax [] [].

Fixpoint upd {A} (l : list A) (i : nat) (x : A) : list A :=
  match l, i with
  | [], _ => []
  | _ :: r, O => x :: r
  | y :: r, S j => y :: upd r j x
  end.

Inductive clab : Type :=
| ACall (o : cop)                (* a new call by a new thread *)
| AStep (t : nat)                (* the thread accesses memory *)
| AAns (t : nat) (r : option N). (* the wrapped provider answers *)

Definition with_pc (s : cst) (t : nat) (o : cop) (p : cpc) (l : bool) (f : N) (es : list cev) : cst :=
  MkC l f (upd (c_thr s) t (o, p)) (es ++ c_tr s).

(** One memory access. get_next_block :167-187, get_block :189-197,
    cleanup_until :199-225. Calling a wrapped provider happens together with
    the access that decides it. *)
Definition c_step (s : cst) (t : nat) (o : cop) (p : cpc) : option cst :=
  let go := fun p l f es => Some (with_pc s t o p l f es) in
  let l := c_left s in let f := c_flag s in
  match o, p with
  | CClean mc, CBegin =>
      if (0 <? f) && (f <=? mc) then go CLoadX l f []
      else if f =? pmax then go CLoadL l f []
      else go CAskR l f [VAsk t SR o]
  | CClean mc, CLoadX =>
      if l then go CAskX l f [VAsk t SL o] else go CAskR l f [VAsk t SR o]
  | CClean mc, CDrop => go CReset false f [VDrop t mc]
  | CClean mc, CReset => go CAskR l 0 [VAsk t SR o]
  | _, CBegin =>
      if f =? pmax then go CLoadL l f [] else go CAskR l f [VAsk t SR o]
  | _, CLoadL =>
      if l then go CAskL l f [VAsk t SL o] else go CAskR l f [VAsk t SR o]
  | CNext prev, CStoreF => go CAskR l (psat1 prev) [VAsk t SR o]
  | _, _ => None
  end.

Definition ret (x : side) (r : option N) : option (side * N) :=
  match r with Some v => Some (x, v) | None => None end.

(** An answer of a wrapped provider. *)
Definition c_ans (s : cst) (t : nat) (o : cop) (p : cpc) (r : option N) : option cst :=
  let go := fun p es => Some (with_pc s t o p (c_left s) (c_flag s) es) in
  match o, p with
  | CNext _, CAskL =>
      match r with
      | Some _ => go (CDone (ret SL r)) [VRet t o (ret SL r); VAns t SL o r]
      | None => go CStoreF [VAns t SL o r]
      end
  | CBlock _, CAskL | CClean _, CAskL => go (CDone (ret SL r)) [VRet t o (ret SL r); VAns t SL o r]
  | CClean mc, CAskX =>
      match r with
      | Some _ => go CDrop [VAns t SL o r]
      | None => go (CDone None) [VRet t o None; VAns t SL o r]
      end
  | _, CAskR => go (CDone (ret SR r)) [VRet t o (ret SR r); VAns t SR o r]
  | _, _ => None
  end.

Definition cstep (s : cst) (a : clab) : option cst :=
  match a with
  | ACall o => Some (MkC (c_left s) (c_flag s) (c_thr s ++ [(o, CBegin)]) (VBegin (length (c_thr s)) o :: c_tr s))
  | AStep t => match nth_error (c_thr s) t with Some (o, p) => c_step s t o p | None => None end
  | AAns t r => match nth_error (c_thr s) t with Some (o, p) => c_ans s t o p r | None => None end
  end.

Inductive creach : cst -> Prop :=
| creach0 : creach cst0
| creach1 : forall s a s', creach s -> cstep s a = Some s' -> creach s'.

Fixpoint cexec (s : cst) (l : list clab) : option cst :=
  match l with
  | [] => Some s
  | a :: r => match cstep s a with Some s' => cexec s' r | None => None end
  end.

(** ** The cycle combinator, provider/mod.rs:228-362, driven by the strider loop
    (block_strider/mod.rs:153-183). *)
Record kstate : Type := MkK { k_cur : side; k_at : N }.

(** CycleBlockProvider::new, :259-268 *)
Definition kinit : kstate := MkK SL pmax.

(** choose_provider, :280-288 *)
Definition k_choose (s : kstate) (n : N) : side :=
  if negb (k_at s =? pmax) && (k_at s <=? n) then flip (k_cur s) else k_cur s.

(** toggle_switch_at, :290-299 *)
Definition k_toggle (s : kstate) (n : N) : kstate * side :=
  if k_at s =? pmax then (MkK (k_cur s) n, flip (k_cur s))
  else (MkK (k_cur s) pmax, k_cur s).

(** try_apply_switch, :301-307 *)
Definition k_apply (s : kstate) (n : N) : kstate :=
  if negb (k_at s =? pmax) && (k_at s <=? n) then MkK (flip (k_cur s)) pmax else s.

(** The get_next_block future of the strider. *)
Inductive kfut : Type :=
| KNew (prev : N)                 (* spawned, not polled yet *)
| KAsk (prev : N) (x : side)      (* waiting for the answer of one side *)
| KGot (n : N) (x : side).        (* masterchain block n, given by x *)

Inductive kev : Type :=
| KEAsk (prev : N) (x : side)                (* get_next_block(prev) asked from x *)
| KENone (prev : N) (x : side)               (* x answered None *)
| KEGot (n : N) (x : side)                   (* x gave masterchain block n *)
| KEBlock (mc : N) (x : side)                (* a shard block of mc asked from x *)
| KEClean (mc : N).                          (* both sides cleaned up to mc (:350-361) *)

Record kst : Type := MkKs {
  ks_s : kstate;
  ks_fut : kfut;
  ks_work : option N;             (* the masterchain block being processed *)
  ks_tr : list kev }.

Definition kst0 (z : N) : kst := MkKs kinit (KNew z) None [].

Inductive klab : Type :=
| KPoll                (* the future runs for the first time: choose_provider (:318-321) *)
| KSome                (* the asked side gives the block (:322-324, :332-334) *)
| KNone                (* it has none: toggle_switch_at and ask again (:326-331) *)
| KTake                (* the strider takes the block and spawns the next request (:159-165) *)
| KBlock               (* process_mc_block asks for a shard block (get_block, :343-348) *)
| KClean.              (* the block is processed: cleanup_until (:350-361, strider :174-177) *)

Definition kstep (s : kst) (a : klab) : option kst :=
  match a, ks_fut s, ks_work s with
  | KPoll, KNew p, _ =>
      let x := k_choose (ks_s s) p in
      Some (MkKs (ks_s s) (KAsk p x) (ks_work s) (KEAsk p x :: ks_tr s))
  | KSome, KAsk p x, _ =>
      Some (MkKs (ks_s s) (KGot (p + 1) x) (ks_work s) (KEGot (p + 1) x :: ks_tr s))
  | KNone, KAsk p x, _ =>
      let (s', y) := k_toggle (ks_s s) (psat1 p) in
      Some (MkKs s' (KAsk p y) (ks_work s) (KEAsk p y :: KENone p x :: ks_tr s))
  | KTake, KGot n x, None => Some (MkKs (ks_s s) (KNew n) (Some n) (ks_tr s))
  | KBlock, _, Some m => Some (MkKs (ks_s s) (ks_fut s) (Some m) (KEBlock m (k_choose (ks_s s) m) :: ks_tr s))
  | KClean, _, Some m => Some (MkKs (k_apply (ks_s s) m) (ks_fut s) None (KEClean m :: ks_tr s))
  | _, _, _ => None
  end.

Inductive kreach (z : N) : kst -> Prop :=
| kreach0 : kreach z (kst0 z)
| kreach1 : forall s a s', kreach z s -> kstep s a = Some s' -> kreach z s'.

Fixpoint kexec (s : kst) (l : list klab) : option kst :=
  match l with
  | [] => Some s
  | a :: r => match kstep s a with Some s' => kexec s' r | None => None end
  end.

(** ** RetryBlockProvider::get_next_block, provider/mod.rs:374-390.
    [ans i] is the answer to the i-th request; [left] bounds the recursion by
    [attempts - i]. Returns the result and the number of requests. *)
Fixpoint retry_from {R} (ans : nat -> option R) (i left : nat) : option R * nat :=
  match ans i, left with
  | Some r, _ => (Some r, S i)
  | None, O => (None, S i)
  | None, S k => retry_from ans (S i) k
  end.
Definition retry {R} (attempts : nat) (ans : nat -> option R) : option R * nat :=
  retry_from ans 0 attempts.

(** ** SelectNonEmptyFut::poll, provider/futures.rs:27-46, used by the tuple
    providers (mod.rs:401-450). A future is what its polls return, in order:
    [f k] is the answer to its k-th poll, None for Pending. [SlLive k f] is a
    future polled k times, [SlGone] a future that finished empty. *)
Inductive slot (R : Type) : Type :=
| SlLive (k : nat) (f : nat -> option (option R))
| SlGone.
Arguments SlLive {R}. Arguments SlGone {R}.

Inductive spoll (R : Type) : Type :=
| SpReady (r : R) | SpNone | SpPending.
Arguments SpReady {R}. Arguments SpNone {R}. Arguments SpPending {R}.

Fixpoint sel_poll {R} (fs : list (slot R)) (all_done : bool) : spoll R * list (slot R) :=
  match fs with
  | [] => (if all_done then SpNone else SpPending, [])
  | SlGone :: r => let (p, r') := sel_poll r all_done in (p, SlGone :: r')
  | SlLive k f :: r =>
      match f k with
      | Some (Some x) => (SpReady x, SlLive (S k) f :: r)
      | Some None => let (p, r') := sel_poll r all_done in (p, SlGone :: r')
      | None => let (p, r') := sel_poll r false in (p, SlLive (S k) f :: r')
      end
  end.

(** Polling until ready, at most [n] times. *)
Fixpoint sel_run {R} (n : nat) (fs : list (slot R)) : spoll R * list (slot R) :=
  match n with
  | O => (SpPending, fs)
  | S n =>
      match sel_poll fs true with
      | (SpPending, fs') => sel_run n fs'
      | q => q
      end
  end.
