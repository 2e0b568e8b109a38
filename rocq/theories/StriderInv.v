(** * Block strider: invariant of the reachable states. *)
From Coq Require Import List NArith Lia Bool.
From Verif Require Import StriderModel StriderSpec.
Import ListNotations.
Open Scope N_scope.

Lemma blk_eqb_spec a b : blk_eqb a b = true <-> a = b.
Proof.
  unfold blk_eqb. destruct a as [s q h], b as [s' q' h']; cbn.
  rewrite !andb_true_iff, !N.eqb_eq. split.
  - intros [[-> ->] ->]. reflexivity.
  - intros E. injection E as -> -> ->. auto.
Qed.

Lemma lin_fun c b p q : lin c b p -> lin c b q -> p = q.
Proof.
  intros (_&_&E1&E2) (_&_&F1&F2). rewrite E2 in F2. injection F2 as A B.
  destruct p, q; cbn in *; subst. congruence.
Qed.

Lemma needs_inv c x b : needs c x b -> b = x \/ exists p, lin c x p /\ needs c p b.
Proof.
  induction 1 as [F|b p Hn [->|(q&Hq&Hn')] L F].
  - auto.
  - right. exists p. split; [exact L|apply needs_top; exact F].
  - right. exists q. split; [exact Hq|]. eapply needs_prev; eauto.
Qed.

Lemma needs_fresh c x b : needs c x b -> fresh c b.
Proof. destruct 1; auto. Qed.

Lemma needs_shard c x b : needs c x b -> b_shard b = b_shard x.
Proof. induction 1 as [|b p _ IH L _]; auto. destruct L as (_&_&L&_). congruence. Qed.

Lemma needs_seq c x b : wf_cfg c -> needs c x b -> b = x \/ b_seq b < b_seq x.
Proof.
  intros W. induction 1 as [|b p _ IH L _]; auto.
  assert (Q := proj2 (proj2 (proj2 (proj2 W))) _ _ L).
  right. destruct IH as [->|IH]; lia.
Qed.

Definition below (c : scfg) (w : list wr) (x : blk) : Prop :=
  forall p, lin c x p -> all_handled c w p.

Lemma done_of_below c w x : below c w x -> In (WHand x) w -> all_handled c w x.
Proof.
  intros B H b Hn. destruct (needs_inv _ _ _ Hn) as [->|(p&L&N)]; [exact H|].
  exact (B _ L _ N).
Qed.

Lemma not_fresh_done c w x : ~ fresh c x -> all_handled c w x.
Proof.
  intros Hf b Hn. exfalso. apply Hf. clear Hf.
  induction Hn as [F|b p _ IH _ _]; auto.
Qed.

Lemma all_handled_mono c w w' x : incl w w' -> all_handled c w x -> all_handled c w' x.
Proof. intros Hi H b Hn. apply Hi, H, Hn. Qed.

Lemma below_mono c w w' x : incl w w' -> below c w x -> below c w' x.
Proof. intros Hi H p L. eapply all_handled_mono; [exact Hi|apply H, L]. Qed.

Lemma log_ok_split c l : log_ok c l -> forall l1 x l2, l = l1 ++ x :: l2 -> wr_ok c x l2.
Proof.
  induction l as [|y l IH]; intros H l1 x l2 E.
  - destruct l1; discriminate.
  - destruct H as [H1 H2]. destruct l1 as [|z l1]; cbn in E; injection E as -> ->.
    + exact H1.
    + eapply IH; [exact H2|reflexivity].
Qed.

Lemma committed_done c w b : log_ok c w -> is_mc b = false ->
  is_committed c w b = true -> all_handled c w b.
Proof.
  intros Hw Hm H. unfold is_committed in H. rewrite Hm in H.
  apply orb_true_iff in H. destruct H as [H|H].
  - apply not_fresh_done. intros [_ F]. congruence.
  - apply existsb_exists in H. destruct H as (x&Hin&Hx).
    destruct x as [| |y|]; try discriminate. cbn in Hx. apply blk_eqb_spec in Hx. subst y.
    destruct (in_split _ _ Hin) as (l1&l2&->).
    destruct (log_ok_split _ _ Hw _ _ _ eq_refl) as (_&Hd).
    eapply all_handled_mono; [|exact Hd]. apply incl_appr, incl_tl, incl_refl.
Qed.

Lemma hand_prep c w b : log_ok c w -> In (WHand b) w -> In (WPrep b) w.
Proof.
  intros Hw H. destruct (in_split _ _ H) as (l1&l2&->).
  destruct (log_ok_split _ _ Hw _ _ _ eq_refl) as (Hp&_).
  apply in_or_app. right. right. exact Hp.
Qed.

Lemma last_mc_in c w : last_mc c w = c_mc0 c \/ In (WMaster (last_mc c w)) w.
Proof. induction w as [|[b|b|b|b] w IH]; cbn; auto; destruct IH; auto. Qed.

Lemma last_mc_hand c w : wf_cfg c -> log_ok c w -> fresh c (last_mc c w) -> In (WHand (last_mc c w)) w.
Proof.
  intros W Hw F. destruct (last_mc_in c w) as [E|H].
  - rewrite E in F. destruct F as [_ F]. destruct W as (_&W&_). congruence.
  - destruct (in_split _ _ H) as (l1&l2&E). revert E. generalize (last_mc c w) as m. intros m E. subst w.
    destruct (log_ok_split _ _ Hw _ _ _ eq_refl) as (Hp&_).
    apply in_or_app. right. right. exact Hp.
Qed.

Lemma next_lin c p m q : next_ok c p m = true -> lin c m q -> q = p.
Proof.
  intros H L. unfold next_ok in H. destruct L as (_&_&L1&L2). rewrite L2 in H.
  rewrite !andb_true_iff in H. destruct H as ((Hm&_)&((Hp&Hs)&Hh)).
  unfold is_mc in *. apply N.eqb_eq in Hm, Hp, Hs, Hh.
  destruct p, q; cbn in *; subst. congruence.
Qed.

Lemma next_seq c p m : next_ok c p m = true -> b_seq m = b_seq p + 1 /\ is_mc m = true.
Proof.
  unfold next_ok. rewrite !andb_true_iff. intros ((H&E)&_). apply N.eqb_eq in E. auto.
Qed.

Lemma next_not_committed c w m : next_ok c (last_mc c w) m = true -> is_committed c w m = false.
Proof.
  intros H. destruct (next_seq _ _ _ H) as [E M]. unfold is_committed. rewrite M.
  apply N.leb_gt. lia.
Qed.

(** ** Stacks of blocks, oldest first, up to the top block [t] *)
Fixpoint stack (c : scfg) (t : blk) (l : list blk) : Prop :=
  match l with
  | [] => True
  | [x] => x = t
  | x :: ((y :: _) as r) => lin c y x /\ stack c t r
  end.

Lemma stack_tl c t x l : stack c t (x :: l) -> stack c t l.
Proof. destruct l; cbn; tauto. Qed.

(** Every element of the stack is older than [t], the head is the oldest. *)
Lemma stack_seq c t l : wf_cfg c -> stack c t l ->
  forall x r, l = x :: r -> Forall (fun y => b_seq x < b_seq y) r.
Proof.
  intros W. induction l as [|a l IH]; intros Hs x r E; [discriminate|].
  injection E as -> ->. destruct r as [|y r]; [constructor|].
  cbn in Hs. destruct Hs as [L Hs].
  assert (Q := proj2 (proj2 (proj2 (proj2 W))) _ _ L).
  constructor; [lia|]. specialize (IH Hs y r eq_refl).
  eapply Forall_impl; [|exact IH]. intros z Hz. cbn in Hz. lia.
Qed.

(** ** The invariant *)
Definition elem_ok (c : scfg) (w : list wr) (t b : blk) : Prop :=
  needs c t b /\ is_committed c w b = false.

Definition head_ok (c : scfg) (w : list wr) (t : blk) (l : list blk) : Prop :=
  match l with [] => all_handled c w t | x :: _ => below c w x end.

Record dl_inv (c : scfg) (w : list wr) (t : blk) (d : dl) : Prop := {
  di_stack : stack c t (d_acc d);
  di_elem : Forall (elem_ok c w t) (d_acc d);
  di_shard : b_shard (d_cur d) = b_shard t;
  di_cur : d_done d = false ->
           match d_acc d with [] => d_cur d = t | x :: _ => lin c x (d_cur d) end;
  di_done : d_done d = true -> head_ok c w t (d_acc d) }.

Definition o2l {A B} (o : option (A * B)) : list A :=
  match o with None => [] | Some (a, _) => [a] end.

Definition full (l : line) : list blk := o2l (l_cur l) ++ o2l (l_next l) ++ l_rest l.

Record line_inv (c : scfg) (w : list wr) (sn : list ev) (t : blk) (l : line) : Prop := {
  li_stack : stack c t (full l);
  li_elem : Forall (elem_ok c w t) (full l);
  li_head : head_ok c w t (full l);
  li_start : l_started l = false -> l_next l = None /\ l_cur l = None;
  li_next : l_started l = true -> l_next l = None -> l_rest l = [];
  li_cur : forall b st, l_cur l = Some (b, st) ->
           In (WPrep b) w /\ (st <> SHand -> In (WHand b) w) /\
           (st = SJoin \/ st = SComm -> In (EGc b) sn);
  li_prep : forall b st, l_next l = Some (b, st) ->
            match st with
            | PRun => True
            | POk => In (WPrep b) w
            | PErr => In (EPrep1 b false) sn
            end }.

Definition pf_ok (c : scfg) (p : blk) (f : pfetch) : Prop :=
  match f with
  | FRun q => q = p
  | FGot q m => q = p /\ next_ok c p m = true
  | _ => True
  end.

Definition cur_ok (c : scfg) (s : sst) (m : blk) : Prop :=
  next_ok c (last_mc c (s_wal s)) m = true /\ pf_ok c m (s_pf s) /\
  (s_mp s = POk -> In (WPrep m) (s_wal s)).

Definition phase_inv (c : scfg) (s : sst) : Prop :=
  match s_ph s with
  | PhWait p => p = last_mc c (s_wal s) /\ pf_ok c p (s_pf s)
  | PhDown m ds => cur_ok c s m /\ Forall2 (dl_inv c (s_wal s)) (c_tops c m) ds
  | PhProc m ls => cur_ok c s m /\
                   Forall2 (line_inv c (s_wal s) (since (s_tr s))) (c_tops c m) ls
  | PhMast m st =>
      cur_ok c s m /\ (forall t, In t (c_tops c m) -> all_handled c (s_wal s) t) /\
      (st <> MTake -> In (WPrep m) (s_wal s)) /\
      (st <> MTake -> st <> MHand -> In (WHand m) (s_wal s)) /\
      (st = MJoin \/ st = MComm -> In (EGc m) (since (s_tr s)))
  | PhClean m => m = last_mc c (s_wal s) /\ pf_ok c m (s_pf s)
  | PhEnd | PhFail => True
  end.

Fixpoint tr_ok (c : scfg) (t : list ev) : Prop :=
  match t with
  | [] => True
  | e :: r => ev_ok c e r /\ tr_ok c r
  end.

Record inv (c : scfg) (s : sst) : Prop := {
  iv_wal : s_wal s = log_of (s_tr s);
  iv_log : log_ok c (s_wal s);
  iv_tr : tr_ok c (s_tr s);
  iv_ph : phase_inv c s }.

(** ** Monotonicity *)
Lemma head_mono c w w' t l : incl w w' -> head_ok c w t l -> head_ok c w' t l.
Proof.
  intros Hi. destruct l; cbn; [apply all_handled_mono|apply below_mono]; exact Hi.
Qed.

Lemma elem_mono c w w' t l :
  (forall b, b_shard b = b_shard t -> is_committed c w' b = is_committed c w b) ->
  Forall (elem_ok c w t) l -> Forall (elem_ok c w' t) l.
Proof.
  intros Hc. apply Forall_impl. intros b [N C]. split; [exact N|].
  rewrite Hc; [exact C|]. eapply needs_shard; eauto.
Qed.

Lemma dl_mono c w w' t d : incl w w' ->
  (forall b, b_shard b = b_shard t -> is_committed c w' b = is_committed c w b) ->
  dl_inv c w t d -> dl_inv c w' t d.
Proof.
  intros Hi Hc []. constructor; auto.
  - eapply elem_mono; eauto.
  - intros E. eapply head_mono; eauto.
Qed.

Lemma line_mono c w w' sn sn' t l : incl w w' -> incl sn sn' ->
  (forall b, b_shard b = b_shard t -> is_committed c w' b = is_committed c w b) ->
  line_inv c w sn t l -> line_inv c w' sn' t l.
Proof.
  intros Hi Hs Hc []. constructor; auto.
  - eapply elem_mono; eauto.
  - eapply head_mono; eauto.
  - intros b st E. destruct (li_cur0 _ _ E) as (A&B&C). repeat split; auto.
  - intros b st E. specialize (li_prep0 _ _ E). destruct st; auto.
Qed.

Lemma f2_mono {A B} (R R' : A -> B -> Prop) l l' :
  (forall a b, R a b -> R' a b) -> Forall2 R l l' -> Forall2 R' l l'.
Proof. intros H. induction 1; constructor; auto. Qed.

Lemma f2_upd {B} (R R' : blk -> B -> Prop) ts ls i l :
  Forall2 R ts ls -> nth_error ls i = Some l -> NoDup (map b_shard ts) ->
  exists t, In t ts /\ R t l /\
    forall l', (forall t' x, In t' ts -> b_shard t' <> b_shard t -> R t' x -> R' t' x) ->
               R' t l' -> Forall2 R' ts (set_nth i l' ls).
Proof.
  intros H. revert i. induction H as [|t x ts ls Rx H IH]; intros i E Hn.
  - destruct i; discriminate.
  - cbn in Hn. inversion Hn as [|? ? Hni Hn']; subst. destruct i as [|i]; cbn in E.
    + injection E as ->. exists t. split; [left; reflexivity|]. split; [exact Rx|].
      intros l' Hm Hl. cbn. constructor; [exact Hl|].
      clear -H Hm Hni. revert Hm Hni. induction H as [|t' y ts ls Ry H IH]; intros Hm Hni; constructor.
      * apply Hm; [right; left; reflexivity| |exact Ry]. intros E. apply Hni. left. exact E.
      * apply IH.
        -- intros t1 x0 [E|I0] Hne Rr; apply Hm; auto; [left; exact E|right; right; exact I0].
        -- intros I0. apply Hni. right. exact I0.
    + destruct (IH _ E Hn') as (t0&It&Rt&Hup). exists t0. split; [right; exact It|]. split; [exact Rt|].
      intros l' Hm Hl. cbn. constructor.
      * apply Hm; [left; reflexivity| |exact Rx]. intros Es. apply Hni. rewrite Es. apply in_map. exact It.
      * apply Hup; [|exact Hl]. intros t' y I0 Hne Ry. apply Hm; auto. right. exact I0.
Qed.
