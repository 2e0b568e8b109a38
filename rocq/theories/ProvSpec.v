(** * Block provider combinators: specification over the event history. *)
From Coq Require Import List NArith Bool Lia.
From Verif Require Import ProvModel.
Import ListNotations.
Open Scope N_scope.

(** Seqnos far enough from u32::MAX. *)
Definition op_ok (o : cop) : Prop :=
  match o with CNext p => p + 1 < pmax | CBlock _ => True | CClean m => m < pmax end.
Definition ops_ok (s : cst) : Prop := Forall (fun x => op_ok (fst x)) (c_thr s).

(** left answered None to a get_next_block(prev) *)
Definition exhausted (l : list cev) (prev : N) : Prop := exists t, In (VAns t SL (CNext prev) None) l.
Definition asked_right (l : list cev) : Prop := exists t o, In (VAsk t SR o) l.
Definition dropped (l : list cev) : Prop := exists t mc, In (VDrop t mc) l.
Definition is_clean (o : cop) : bool := match o with CClean _ => true | _ => false end.

(** What holds of the history [l] (newest first) when event [e] happens. *)
Definition cev_ok (e : cev) (l : list cev) : Prop :=
  match e with
  | VAsk t SR o => exists prev, exhausted l prev
  | VAsk t SL o =>
      (is_clean o = false -> forall a b, l = a ++ VBegin t o :: b -> ~ asked_right b) /\ ~ dropped l
  | VAns t x o r => In (VAsk t x o) l
  | VDrop t mc =>
      (exists v, In (VAns t SL (CClean mc) (Some v)) l) /\ exists prev, exhausted l prev /\ prev < mc
  | VRet t o (Some (SL, v)) => In (VAns t SL o (Some v)) l
  | VRet t o (Some (SR, v)) =>
      In (VAns t SR o (Some v)) l /\
      forall mc, o = CClean mc -> dropped l \/ exists prev, exhausted l prev /\ mc <= prev
  | VRet t (CNext p) None => In (VAns t SR (CNext p) None) l
  | VRet t o None => exists x, In (VAns t x o None) l
  | VBegin t o => forall e, In e l ->
      match e with VBegin u _ | VAsk u _ _ | VAns u _ _ _ | VDrop u _ | VRet u _ _ => u <> t end
  end.

Fixpoint ctr_ok (l : list cev) : Prop :=
  match l with [] => True | e :: r => cev_ok e r /\ ctr_ok r end.

Lemma ctr_ok_split l : ctr_ok l -> forall a e b, l = a ++ e :: b -> cev_ok e b.
Proof.
  intros H a. revert l H. induction a as [|x a IH]; cbn; intros l H e b ->; [apply H|].
  apply (IH (a ++ e :: b)); [apply H|reflexivity].
Qed.

(** ** cycle *)
Definition gave (l : list kev) (n : N) (x : side) : Prop := In (KEGot n x) l.
Definition none_for (l : list kev) (prev : N) : Prop := exists x, In (KENone prev x) l.

Definition kev_ok (e : kev) (l : list kev) : Prop :=
  match e with
  | KEAsk p x =>
      (* the first request goes to the side that gave the previous block, *)
      (~ none_for l p -> forall y, gave l p y -> x = y) /\
      (* and every None is followed by a request to the other side. *)
      (none_for l p -> exists r, l = KENone p (flip x) :: r)
  | KENone p x => exists a b, l = a ++ KEAsk p x :: b /\ forall q y, ~ In (KEAsk q y) a
  | KEGot n x => exists p a b, n = p + 1 /\ l = a ++ KEAsk p x :: b /\ forall q y, ~ In (KEAsk q y) a
  | KEBlock m x => exists y, gave l m y /\
      (~ none_for l m \/ ~ none_for l (m - 1) -> x = y)
  | KEClean m => exists y, gave l m y
  end.

Fixpoint ktr_ok (l : list kev) : Prop :=
  match l with [] => True | e :: r => kev_ok e r /\ ktr_ok r end.

Lemma ktr_ok_split l : ktr_ok l -> forall a e b, l = a ++ e :: b -> kev_ok e b.
Proof.
  intros H a. revert l H. induction a as [|x a IH]; cbn; intros l H e b ->; [apply H|].
  apply (IH (a ++ e :: b)); [apply H|reflexivity].
Qed.
