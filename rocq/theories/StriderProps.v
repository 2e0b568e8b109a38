(** * Block strider: order, completeness and at-most-once (C44, C45, C46). *)
From Coq Require Import List NArith Lia Bool.
From Verif Require Import StriderModel StriderSpec StriderInv StriderStep.
Import ListNotations.
Open Scope N_scope.

Lemma tr_ok_split c t : tr_ok c t -> forall l2 e l1, t = l2 ++ e :: l1 -> ev_ok c e l1.
Proof.
  induction t as [|x t IH]; intros H l2 e l1 E.
  - destruct l2; discriminate.
  - destruct H as [H1 H2]. destruct l2 as [|y l2]; cbn in E; injection E as -> ->; eauto.
Qed.

(** The surviving record only holds what really happened. *)
Lemma log_of_hand t b : In (WHand b) (log_of t) -> exists m, In (EHand1 b m) t.
Proof.
  induction t as [|e t IH]; [intros []|].
  assert (K : In (WHand b) (log_of t) -> exists m, In (EHand1 b m) (e :: t)).
  { intros H. destruct (IH H) as (m&Hm). exists m. right. exact Hm. }
  destruct e as [| |x [|]|x y|x y| |x [|]| | |n]; cbn [log_of]; intros H; try (apply K; exact H);
    try (destruct H as [H|H]; [try discriminate|apply K; exact H]).
  - injection H as ->. exists y. left. reflexivity.
  - apply K. revert H. generalize (length (log_of t) - n)%nat as k. generalize (log_of t) as l.
    induction l as [|w l IHl]; intros [|k] H; cbn in H; auto. right. eauto.
Qed.

(** ** C44: masterchain blocks are processed one after the other *)

(** The committed masterchain blocks, newest first. *)
Fixpoint masters (l : list wr) : list blk :=
  match l with
  | [] => []
  | WMaster m :: r => m :: masters r
  | _ :: r => masters r
  end.

(** Each block follows the next one of the list, the last follows [z]. *)
Fixpoint follows (c : scfg) (z : blk) (l : list blk) : Prop :=
  match l with
  | [] => True
  | m :: r => next_ok c (match r with [] => z | p :: _ => p end) m = true /\ follows c z r
  end.

Lemma last_mc_masters c l :
  last_mc c l = match masters l with [] => c_mc0 c | m :: _ => m end.
Proof. induction l as [|[]]; cbn; auto. Qed.

Lemma log_masters c l : log_ok c l -> follows c (c_mc0 c) (masters l).
Proof.
  induction l as [|x l IH]; cbn; [auto|]. intros [H1 H2]. destruct x; cbn; auto.
  destruct H1 as (_&H1&_). rewrite last_mc_masters in H1. auto.
Qed.

(** Whatever the scheduler, the provider, the subscribers and the crashes do,
    the masterchain blocks recorded as committed are a gapless chain from the
    block the node was started with, *)
Theorem strider_master_chain c s : wf_cfg c -> reach c s ->
  follows c (c_mc0 c) (masters (log_of (s_tr s))).
Proof. intros W R. destruct (reach_inv c W s R) as [Iw Il _ _]. rewrite <- Iw. apply log_masters, Il. Qed.

(** and every request, preparation, handling and commit made for a masterchain
    block is made for the block that follows the last committed one. *)
Theorem strider_works_on_next c s l2 e l1 m : wf_cfg c -> reach c s -> s_tr s = l2 ++ e :: l1 ->
  (exists b, e = EFetch b m \/ (exists tp, e = EPrep0 b m tp) \/ e = EHand0 b m \/ e = EComM m) ->
  next_ok c (last_mc c (log_of l1)) m = true.
Proof.
  intros W R E (b&He). destruct (reach_inv c W s R) as [_ _ It _].
  assert (K := tr_ok_split _ _ It _ _ _ E).
  destruct He as [->|[(tp&->)|[->| ->]]]; cbn in K; tauto.
Qed.

(** Seqnos grow by one. *)
Theorem strider_seqnos c z l : follows c z l ->
  forall i m, nth_error (rev l) i = Some m -> b_seq m = b_seq z + 1 + N.of_nat i.
Proof.
  intros F i m Hi.
  assert (Hlen : (i < length l)%nat).
  { rewrite <- (rev_length l). apply nth_error_Some. congruence. }
  assert (G : forall l, follows c z l -> forall m, nth_error l 0 = Some m ->
              b_seq m = b_seq z + N.of_nat (length l)).
  { clear. induction l as [|m l IH]; cbn; [discriminate|]. intros [H F] x Ex. injection Ex as <-.
    destruct (next_seq _ _ _ H) as [E _]. destruct l as [|p l]; cbn [length] in *; [lia|].
    specialize (IH F p eq_refl). lia. }
  assert (D : forall l, follows c z l -> forall j m, nth_error l j = Some m ->
              b_seq m + N.of_nat j = b_seq z + N.of_nat (length l)).
  { clear -G. induction l as [|x l IH]; intros F j m Hj; [destruct j; discriminate|].
    destruct j as [|j].
    - rewrite (G _ F _ Hj). lia.
    - cbn in Hj. destruct F as [_ F]. specialize (IH F j m Hj). cbn [length]. lia. }
  assert (Hj : nth_error l (length l - S i) = Some m).
  { destruct (nth_error_split _ _ Hi) as (a&b&Er&La).
    assert (El : l = rev b ++ m :: rev a).
    { rewrite <- (rev_involutive l), Er, rev_app_distr. cbn. rewrite <- app_assoc. reflexivity. }
    subst i. rewrite El. rewrite app_length. cbn [length]. rewrite !rev_length.
    rewrite nth_error_app2; rewrite rev_length; [|lia].
    replace (length b + S (length a) - S (length a) - length b)%nat with 0%nat by lia. reflexivity. }
  specialize (D l F _ _ Hj). lia.
Qed.

(** ** C45: nothing is skipped and predecessors come first *)

(** When a masterchain block is handed to the subscriber, every shard block it
    brings (down to a zerostate, a split/merge or a block of the initial
    storage) has been handled, and that handling has survived all crashes. *)
Theorem strider_complete c s l2 m l1 : wf_cfg c -> reach c s ->
  s_tr s = l2 ++ EHand0 m m :: l1 \/ s_tr s = l2 ++ EComM m :: l1 ->
  forall t b, In t (c_tops c m) -> needs c t b ->
    In (WHand b) (log_of l1) /\ exists mb, In (EHand1 b mb) l1.
Proof.
  intros W R E t b Ht Hb. destruct (reach_inv c W s R) as [_ _ It _].
  assert (H : In (WHand b) (log_of l1)).
  { destruct E as [E|E]; assert (K := tr_ok_split _ _ It _ _ _ E); cbn in K.
    - destruct K as (_&_&_&_&K). exact (K eq_refl t Ht b Hb).
    - destruct K as (_&_&K&_). exact (K t Ht b Hb). }
  split; [exact H|]. apply log_of_hand, H.
Qed.

(** A block is handed to the subscriber only after its predecessor has been
    handled and after its own preparation succeeded. *)
Theorem strider_pred_first c s l2 b m l1 : wf_cfg c -> reach c s ->
  s_tr s = l2 ++ EHand0 b m :: l1 ->
  In (WPrep b) (log_of l1) /\
  forall p, lin c b p -> fresh c p -> In (WHand p) (log_of l1).
Proof.
  intros W R E. destruct (reach_inv c W s R) as [_ _ It _].
  assert (K := tr_ok_split _ _ It _ _ _ E). cbn in K. tauto.
Qed.

(** A block is prepared only after the preparation of its predecessor returned
    (successfully, unless this process is about to stop with its error). *)
Theorem strider_prepare_order c s l2 b m tp l1 : wf_cfg c -> reach c s ->
  s_tr s = l2 ++ EPrep0 b m tp :: l1 ->
  (forall p, lin c b p -> fresh c p -> In (WPrep p) (log_of l1) \/ In (EPrep1 p false) (since l1)) /\
  (b <> m -> (tp = true <-> In b (c_tops c m)) /\ exists t, In t (c_tops c m) /\ needs c t b).
Proof.
  intros W R E. destruct (reach_inv c W s R) as [_ _ It _].
  assert (K := tr_ok_split _ _ It _ _ _ E). cbn in K. tauto.
Qed.

(** A commit record is written only when all the required work is recorded
    before it, in every surviving record: *)
Theorem strider_commit_sound c s l2 x l1 : wf_cfg c -> reach c s ->
  log_of (s_tr s) = l2 ++ x :: l1 -> wr_ok c x l1.
Proof.
  intros W R E. destruct (reach_inv c W s R) as [Iw Il _ _].
  rewrite Iw in Il. exact (log_ok_split _ _ Il _ _ _ E).
Qed.

(** the storage is exactly the surviving record. *)
Theorem strider_storage c s : wf_cfg c -> reach c s -> s_wal s = log_of (s_tr s).
Proof. intros W R. apply (reach_inv c W s R). Qed.

(** ** C46: a committed block is never touched again *)
Theorem strider_no_rework c s l2 e l1 b : wf_cfg c -> reach c s -> s_tr s = l2 ++ e :: l1 ->
  (exists m, e = EFetch b m \/ (exists tp, e = EPrep0 b m tp) \/ e = EHand0 b m) ->
  is_committed c (log_of l1) b = false.
Proof.
  intros W R E (m&He). destruct (reach_inv c W s R) as [_ _ It _].
  assert (K := tr_ok_split _ _ It _ _ _ E).
  destruct He as [->|[(tp&->)| ->]]; cbn in K; tauto.
Qed.
