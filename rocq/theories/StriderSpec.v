(** * Block strider: specification, in terms of the observable events only. *)
From Coq Require Import List NArith Lia Bool.
From Verif Require Import StriderModel.
Import ListNotations.
Open Scope N_scope.

(** The storage writes that survive a history of events (newest first): an
    operation that completed is written, a crash keeps the [n] oldest writes. *)
Fixpoint log_of (t : list ev) : list wr :=
  match t with
  | [] => []
  | EPrep1 b true :: r => WPrep b :: log_of r
  | EHand1 b _ :: r => WHand b :: log_of r
  | EComS b true :: r => WShard b :: log_of r
  | EComM m :: r => WMaster m :: log_of r
  | ECrash n :: r => skipn (length (log_of r) - n)%nat (log_of r)
  | _ :: r => log_of r
  end.

(** [p] is the predecessor of [b] in the same shard (none after a split/merge). *)
Definition lin (c : scfg) (b p : blk) : Prop :=
  bi_split (c_info c b) = false /\ bi_merge (c_info c b) = false /\
  b_shard p = b_shard b /\ bi_prev (c_info c b) = PSingle (b_seq p) (b_hash p).

(** A block the strider has to process: not a zerostate and not part of what
    the storage was started with. *)
Definition fresh (c : scfg) (b : blk) : Prop := 0 < b_seq b /\ c_com0 c b = false.

(** The blocks that have to be processed before (and with) top block [t]. *)
Inductive needs (c : scfg) (t : blk) : blk -> Prop :=
| needs_top : fresh c t -> needs c t t
| needs_prev : forall b p, needs c t b -> lin c b p -> fresh c p -> needs c t p.

Definition all_handled (c : scfg) (l : list wr) (t : blk) : Prop :=
  forall b, needs c t b -> In (WHand b) l.

(** The order in which completed operations may be recorded. *)
Definition wr_ok (c : scfg) (x : wr) (l : list wr) : Prop :=
  match x with
  | WPrep b => forall p, lin c b p -> fresh c p -> In (WPrep p) l
  | WHand b =>
      In (WPrep b) l /\
      (forall p, lin c b p -> fresh c p -> In (WHand p) l) /\
      (is_mc b = true ->
       next_ok c (last_mc c l) b = true /\
       forall t, In t (c_tops c b) -> all_handled c l t)
  | WShard b => is_mc b = false /\ all_handled c l b
  | WMaster m =>
      In (WHand m) l /\ next_ok c (last_mc c l) m = true /\
      forall t, In t (c_tops c m) -> all_handled c l t
  end.

Fixpoint log_ok (c : scfg) (l : list wr) : Prop :=
  match l with
  | [] => True
  | x :: r => wr_ok c x r /\ log_ok c r
  end.

(** The events since the last start of the process. *)
Fixpoint since (t : list ev) : list ev :=
  match t with
  | [] => []
  | ECrash _ :: _ => []
  | e :: r => e :: since r
  end.

(** What must be true of the history [t] when event [e] happens. *)
Definition ev_ok (c : scfg) (e : ev) (t : list ev) : Prop :=
  let l := log_of t in
  match e with
  | EFetch b m =>
      is_committed c l b = false /\ 0 < b_seq b /\
      next_ok c (last_mc c l) m = true /\
      exists top, In top (c_tops c m) /\ needs c top b
  | EPrep0 b m top =>
      next_ok c (last_mc c l) m = true /\
      is_committed c l b = false /\
      (b <> m -> (top = true <-> In b (c_tops c m)) /\
                 exists top, In top (c_tops c m) /\ needs c top b) /\
      (forall p, lin c b p -> fresh c p -> In (WPrep p) l \/ In (EPrep1 p false) (since t))
  | EHand0 b m =>
      next_ok c (last_mc c l) m = true /\
      is_committed c l b = false /\
      In (WPrep b) l /\
      (forall p, lin c b p -> fresh c p -> In (WHand p) l) /\
      (b = m -> forall t, In t (c_tops c m) -> all_handled c l t)
  | EComS b _ => In (WHand b) l /\ all_handled c l b /\ In (EGc b) (since t)
  | EComM m =>
      In (WHand m) l /\ next_ok c (last_mc c l) m = true /\
      (forall t, In t (c_tops c m) -> all_handled c l t) /\ In (EGc m) (since t)
  | EClean n => b_seq (last_mc c l) = n
  | _ => True
  end.

(** Facts about blocks that the strider relies on: the storage is started with
    a processed masterchain block; the top shard blocks of a masterchain block
    belong to distinct non-masterchain shards; the seqno of a block follows the
    seqno of its predecessor. *)
Definition wf_cfg (c : scfg) : Prop :=
  is_mc (c_mc0 c) = true /\ c_com0 c (c_mc0 c) = true /\
  (forall m t, In t (c_tops c m) -> is_mc t = false) /\
  (forall m, NoDup (map b_shard (c_tops c m))) /\
  (forall b p, lin c b p -> b_seq b = b_seq p + 1).
