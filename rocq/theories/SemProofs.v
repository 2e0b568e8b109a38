(** Invariants of the priority semaphore machine. *)
From Verif Require Import SemModel.
From Coq Require Import List NArith ZArith Bool Lia Arith Sorted ZifyBool ZifyNat ZifyN.
Import ListNotations.
Local Open Scope N_scope.

Fixpoint sum (l : list N) : N := match l with [] => 0 | x :: r => x + sum r end.
Definition wt (x : fut) : N :=
  b2n (fas x) + match fpc x with WantL2 acq => b2n acq | _ => 0 end.
Definition in_cs (c : option crit) : N :=
  match c with
  | Some (HCrit _ acq) => b2n acq
  | Some (HAdd rem _) | Some (HUnlock rem) => rem
  | _ => 0
  end.
Definition total (s : st) : N :=
  permits s + held s + sum (pend s) + in_cs (cs s) + sum (map wt (futs s)) + leaked s.

(** ** lists of futures *)
Lemma upd_length l f x : length (upd l f x) = length l.
Proof. revert f; induction l as [|y l IH]; intros [|f]; cbn; auto. Qed.
Lemma upd_nth l f x g : nth g (upd l f x) dummy =
  if (g =? f)%nat && (f <? length l)%nat then x else nth g l dummy.
Proof.
  revert f g; induction l as [|y l IH]; intros [|f] [|g]; cbn [upd nth length]; try reflexivity.
  - now destruct (S g =? S f)%nat.
  - rewrite IH. reflexivity.
Qed.
Lemma upd_sum l f x : (f < length l)%nat ->
  sum (map wt (upd l f x)) + wt (nth f l dummy) = sum (map wt l) + wt x.
Proof.
  revert f; induction l as [|y l IH]; intros [|f] H; cbn [upd nth length map sum] in *; try lia.
  specialize (IH f ltac:(lia)). lia.
Qed.
Lemma sum_app a b : sum (a ++ b) = sum a + sum b.
Proof. induction a; cbn; lia. Qed.
Lemma del_nth_sum i l r : nth_error l i = Some r -> sum (del_nth i l) + r = sum l.
Proof.
  revert i; induction l as [|y l IH]; intros [|i] H; cbn in *; try discriminate.
  - inversion H; lia.
  - specialize (IH i H). lia.
Qed.
Lemma del_nth_forall {A} (P : A -> Prop) i l : Forall P l -> Forall P (del_nth i l).
Proof.
  revert i; induction l as [|y l IH]; intros [|i] H; cbn; auto; inversion H; subst; auto.
Qed.

Definition len (s : st) := length (futs s).
Lemma getf_out s f : (len s <= f)%nat -> getf s f = dummy.
Proof. intros. unfold getf. now apply nth_overflow. Qed.
Lemma pc_in s f : fpc (getf s f) <> Gone -> (f < len s)%nat.
Proof.
  intros H. destruct (Nat.le_gt_cases (len s) f) as [L|L]; [|assumption].
  rewrite (getf_out s f L) in H. now contradiction H.
Qed.
Lemma getf_putf s f x g : (f < len s)%nat ->
  getf (putf s f x) g = if (g =? f)%nat then x else getf s g.
Proof.
  intros H. unfold getf, putf, w_futs. cbn [futs]. rewrite upd_nth.
  unfold len in H. replace (f <? length (futs s))%nat with true by lia. now rewrite andb_true_r.
Qed.

(** ** the invariant *)
Definition dat (x : fut) := (fprio x, fas x, fq x, fwk x, fstamp x).

Record qinv (s : st) : Prop := {
  q_p : forall f, In f (pq s) <-> waiting s f /\ fprio (getf s f) = true;
  q_o : forall f, In f (oq s) <-> waiting s f /\ fprio (getf s f) = false;
  q_sp : StronglySorted (fun f g => fstamp (getf s f) < fstamp (getf s g)) (pq s);
  q_so : StronglySorted (fun f g => fstamp (getf s f) < fstamp (getf s g)) (oq s);
  q_clk : forall f, waiting s f -> fstamp (getf s f) < clock s;
  q_wk : forall f, waiting s f -> fwk (getf s f) = true
}.

Definition pc_ok (wlc : bool) (x : fut) : Prop :=
  (fq x = false -> fas x = false) /\
  match fpc x with
  | Load need | Loop need _ _ | WantL need _ => fq x = false -> need = true
  | WantL2 acq => fq x = true /\ (acq = true -> fas x = true \/ wlc = true)
  | Gone => fq x = false
  | DropW => fq x = true
  | _ => True
  end.

Definition cs_ok (s : st) : Prop :=
  match cs s with
  | Some (HLoop f need _ _) =>
      (f < len s)%nat /\ fpc (getf s f) = InCS /\ (fq (getf s f) = false -> need = true)
  | Some (HCrit f acq) =>
      (f < len s)%nat /\ fpc (getf s f) = InCS /\
      (fq (getf s f) = false -> acq = false /\ permits s = 0) /\
      (acq = true -> fas (getf s f) = true \/ wl_closed s = true)
  | Some HClose => closed s = true
  | _ => True
  end.

Record inv (s : st) : Prop := {
  i_avail : 0 < permits s -> pq s = [] /\ oq s = [];
  i_q : qinv s;
  i_pc : forall f, pc_ok (wl_closed s) (getf s f);
  i_cs : cs_ok s;
  i_cl : wl_closed s = true -> closed s = true;
  i_pend : Forall (fun r => 0 < r) (pend s);
  i_sum : total s = issued s;
  i_leak : leaked s <> 0 -> wl_closed s = true
}.

(** ** preservation tools *)
Lemma waiting_ext s s' f : len s' = len s -> wl_closed s' = wl_closed s ->
  dat (getf s' f) = dat (getf s f) -> waiting s' f <-> waiting s f.
Proof.
  unfold waiting, dat, len. intros -> -> E. inversion E as [[E1 E2 E3 E4 E5]]. now rewrite E2, E3.
Qed.

Lemma ss_ext {A} (R R' : A -> A -> Prop) l :
  (forall a b, In a l -> In b l -> R a b -> R' a b) -> StronglySorted R l -> StronglySorted R' l.
Proof.
  induction l as [|x l IH]; intros H S; [constructor|]. inversion S as [|? ? S1 S2]; subst.
  constructor; [apply IH; auto; intros; apply H; auto; now right|].
  rewrite Forall_forall in *. intros y Hy. apply H; auto; [now left|now right].
Qed.

Lemma qinv_ext s s' :
  len s' = len s -> wl_closed s' = wl_closed s ->
  (forall f, dat (getf s' f) = dat (getf s f)) ->
  pq s' = pq s -> oq s' = oq s -> clock s' = clock s -> qinv s -> qinv s'.
Proof.
  intros L W D P O C [Qp Qo Sp So K Wk].
  assert (WE : forall f, waiting s' f <-> waiting s f) by (intros; now apply waiting_ext).
  assert (D' : forall f, fprio (getf s' f) = fprio (getf s f) /\ fstamp (getf s' f) = fstamp (getf s f)
               /\ fwk (getf s' f) = fwk (getf s f)).
  { intros f. specialize (D f). unfold dat in D. inversion D as [[E1 E2 E3 E4 E5]]. auto. }
  split.
  - intros f. rewrite P, WE. destruct (D' f) as (-> & _). apply Qp.
  - intros f. rewrite O, WE. destruct (D' f) as (-> & _). apply Qo.
  - rewrite P. eapply ss_ext; [|exact Sp]. intros a b _ _ H. cbn in *.
    destruct (D' a) as (_ & -> & _). destruct (D' b) as (_ & -> & _). exact H.
  - rewrite O. eapply ss_ext; [|exact So]. intros a b _ _ H. cbn in *.
    destruct (D' a) as (_ & -> & _). destruct (D' b) as (_ & -> & _). exact H.
  - intros f. rewrite WE, C. destruct (D' f) as (_ & -> & _). apply K.
  - intros f. rewrite WE. destruct (D' f) as (_ & _ & ->). apply Wk.
Qed.

(** frame: [s'] is [s] with one future's pc changed and permits/held/pend/cs/... arbitrary *)
Lemma getf_go s f p g : (f < len s)%nat ->
  getf (go s f p) g = if (g =? f)%nat then set_pc (getf s f) p else getf s g.
Proof. apply getf_putf. Qed.

Lemma nowait_avail s : inv s -> 0 < permits s -> forall f, ~ waiting s f.
Proof.
  intros I P f W. destruct (i_avail s I P) as [A B].
  destruct (fprio (getf s f)) eqn:E.
  - assert (In f (pq s)) by (apply (q_p s (i_q s I)); auto). rewrite A in H. contradiction.
  - assert (In f (oq s)) by (apply (q_o s (i_q s I)); auto). rewrite B in H. contradiction.
Qed.

Lemma sum_go s f p : (f < len s)%nat ->
  sum (map wt (futs (go s f p))) + wt (getf s f) = sum (map wt (futs s)) + wt (set_pc (getf s f) p).
Proof. intros H. unfold go, putf, w_futs. cbn [futs]. now apply upd_sum. Qed.

Lemma sum_putf s f x : (f < len s)%nat ->
  sum (map wt (futs (putf s f x))) + wt (getf s f) = sum (map wt (futs s)) + wt x.
Proof. intros H. unfold putf, w_futs. cbn [futs]. now apply upd_sum. Qed.

Lemma dat_go s f p g : (f < len s)%nat -> dat (getf (go s f p) g) = dat (getf s g).
Proof.
  intros H. rewrite getf_go by assumption. destruct (Nat.eqb_spec g f) as [->|]; reflexivity.
Qed.

(** A step that changes only the pc of [f] (to [p]) and numeric fields. *)
Lemma inv_go s s' f p :
  inv s -> (f < len s)%nat -> fpc (getf s f) <> InCS \/ cs s' <> cs s ->
  futs s' = futs (go s f p) -> wl_closed s' = wl_closed s -> pq s' = pq s -> oq s' = oq s ->
  clock s' = clock s -> closed s' = closed s ->
  permits s' <= permits s ->
  Forall (fun r => 0 < r) (pend s') ->
  pc_ok (wl_closed s) (set_pc (getf s f) p) ->
  (cs s' = cs s \/ cs_ok s') ->
  total s' = issued s' -> (leaked s' <> 0 -> wl_closed s = true) ->
  inv s'.
Proof.
  intros I F NCS EF EW EP EO EC ECl PM PD PO CS T LK.
  assert (GF : forall g, getf s' g = getf (go s f p) g) by (intros; unfold getf; now rewrite EF).
  assert (LEN : len s' = len s).
  { unfold len. rewrite EF. unfold go, putf, w_futs. cbn [futs]. apply upd_length. }
  split.
  - intros P. rewrite EP, EO. apply (i_avail s I). lia.
  - eapply qinv_ext; [exact LEN|exact EW| |exact EP|exact EO|exact EC|apply I].
    intros g. rewrite GF. now apply dat_go.
  - intros g. rewrite GF, EW, getf_go by assumption. destruct (Nat.eqb_spec g f); [assumption|apply I].
  - destruct CS as [CS|CS]; [|exact CS].
    assert (C := i_cs s I). unfold cs_ok in *. rewrite CS. destruct (cs s) as [[h need curr cl|h acq|rem cnt|rem|]|] eqn:CSE; auto.
    + destruct C as (C1 & C2 & C3). rewrite LEN, GF, getf_go by assumption.
      destruct (Nat.eqb_spec h f) as [->|]; [|auto].
      destruct NCS as [NCS|NCS]; congruence.
    + destruct C as (C1 & C2 & C3 & C4). rewrite LEN, GF, EW, getf_go by assumption.
      destruct (Nat.eqb_spec h f) as [->|].
      { destruct NCS as [NCS|NCS]; congruence. }
      split; [assumption|]. split; [assumption|]. split; [|assumption].
      intros H. destruct (C3 H). split; [assumption|lia].
    + congruence.
  - rewrite EW, ECl. apply I.
  - assumption.
  - assumption.
  - rewrite EW. exact LK.
Qed.

Lemma wt_set_pc x p : wt (set_pc x p) = b2n (fas x) + match p with WantL2 acq => b2n acq | _ => 0 end.
Proof. reflexivity. Qed.

Lemma sum_go' s f p k : (f < len s)%nat -> wt (getf s f) = b2n (fas (getf s f)) ->
  match p with WantL2 acq => b2n acq | _ => 0 end = k ->
  sum (map wt (upd (futs s) f (set_pc (getf s f) p))) = sum (map wt (futs s)) + k.
Proof.
  intros F W K. assert (H := upd_sum (futs s) f (set_pc (getf s f) p) F).
  fold (getf s f) in H. rewrite W, wt_set_pc, K in H. lia.
Qed.

Ltac tot := unfold total in *; cbn [permits held pend cs futs leaked issued w_futs w_cs w_permits w_held
  w_pend w_issued w_leaked w_queues w_evt w_closed tick go putf in_cs] in *.

Lemma cas_spec s need curr s1 acq r0 : cas s need curr = Some (s1, acq, r0) ->
  permits s = curr /\ closed s = false /\
  ((r0 = true /\ b2n need <= curr /\ acq = need /\ s1 = w_permits s (curr - b2n need)) \/
   (r0 = false /\ curr < b2n need /\ acq = false /\ s1 = w_permits s 0)).
Proof.
  unfold cas. destruct (N.eqb_spec (permits s) curr) as [E|]; [|discriminate].
  destruct (closed s) eqn:C; [discriminate|]. cbn [andb negb].
  destruct (N.leb_spec (b2n need) curr); intros X; inversion X; subst; auto 10.
Qed.

Lemma inv_evt s e : inv s -> inv (w_evt s e).
Proof.
  intros I. split; try apply I.
  eapply qinv_ext; [..|apply (i_q s I)]; reflexivity.
Qed.

Lemma fas_or_closed s f : inv s -> 0 < permits s -> (f < len s)%nat -> fq (getf s f) = true ->
  fas (getf s f) = true \/ wl_closed s = true.
Proof.
  intros I P F Q. destruct (fas (getf s f)) eqn:A; [auto|].
  destruct (wl_closed s) eqn:W; [auto|]. exfalso.
  eapply (nowait_avail s I P f). unfold waiting. auto.
Qed.

Ltac fin SG := unfold total in *;
  cbn [permits held pend cs leaked issued futs go putf w_futs w_permits w_held w_evt] in *;
  repeat match goal with |- context[getf (w_permits ?s ?x) ?f] => change (getf (w_permits s x) f) with (getf s f) end;
  rewrite SG; unfold b2n in *; try lia.

Lemma inv_step_fut s f s' : inv s -> step_fut s f = Some s' -> inv s'.
Proof.
  intros I H. unfold step_fut in H.
  assert (PO := i_pc s I f). unfold pc_ok in PO.
  assert (TS := i_sum s I). assert (PD := i_pend s I). assert (LK := i_leak s I).
  destruct (fpc (getf s f)) eqn:PC; try discriminate; destruct PO as [PO1 PO2];
    assert (F : (f < len s)%nat) by (apply pc_in; congruence).
  - (* Start *)
    inversion H; subst s'; clear H. set (p := Load _).
    assert (W1 : wt (getf s f) = b2n (fas (getf s f))) by (unfold wt; rewrite PC; lia).
    assert (SG := sum_go' s f p _ F W1 eq_refl).
    eapply (inv_go s _ f p); eauto; try reflexivity; try lia.
    + left; congruence.
    + unfold pc_ok. cbn. split; [assumption|]. intros ->. reflexivity.
    + fin SG.
  - (* Load *)
    inversion H; subst s'; clear H. set (p := Loop _ _ _).
    assert (W1 : wt (getf s f) = b2n (fas (getf s f))) by (unfold wt; rewrite PC; lia).
    assert (SG := sum_go' s f p _ F W1 eq_refl).
    eapply (inv_go s _ f p); eauto; try reflexivity; try lia.
    + left; congruence.
    + unfold pc_ok. cbn. auto.
    + fin SG.
  - (* Loop *)
    assert (W1 : wt (getf s f) = b2n (fas (getf s f))) by (unfold wt; rewrite PC; lia).
    destruct cl.
    { inversion H; subst s'; clear H. set (p := Failed).
      assert (SG := sum_go' s f p _ F W1 eq_refl).
      eapply (inv_go s _ f p); eauto; try reflexivity; try lia.
      + left; congruence.
      + unfold pc_ok. cbn. auto.
      + fin SG. }
    destruct (N.leb_spec (b2n need) curr) as [LE|LE].
    + destruct (cas s need curr) as [[[s1 acq] r0]|] eqn:CAS.
      * apply cas_spec in CAS as (C1 & C2 & [(-> & _ & -> & ->)|(_ & X & _)]); [|lia].
        destruct (fq (getf s f)) eqn:Q.
        { inversion H; subst s'; clear H. set (p := WantL2 need).
          assert (SG := sum_go' s f p _ F W1 eq_refl).
          eapply (inv_go s _ f p); eauto; try reflexivity; cbn [permits w_permits go putf w_futs]; try lia.
          + left; congruence.
          + unfold pc_ok. cbn. rewrite Q. split; [discriminate|]. split; [reflexivity|].
            intros ->. cbn in LE. apply fas_or_closed; auto; lia.
          + fin SG. }
        { inversion H; subst s'; clear H. set (p := Gone).
          assert (SG := sum_go' s f p _ F W1 eq_refl).
          specialize (PO2 eq_refl). subst need. cbn in LE.
          eapply (inv_go s _ f p); eauto; try reflexivity;
            cbn [permits w_permits go putf w_futs w_held w_evt]; try lia.
          + left; congruence.
          + unfold pc_ok. cbn. rewrite Q. auto.
          + fin SG. }
      * inversion H; subst s'; clear H. set (p := Loop _ _ _).
        assert (SG := sum_go' s f p _ F W1 eq_refl).
        eapply (inv_go s _ f p); eauto; try reflexivity; try lia.
        { left; congruence. }
        { unfold pc_ok. cbn. auto. }
        { fin SG. }
    + inversion H; subst s'; clear H. set (p := WantL _ _).
      assert (SG := sum_go' s f p _ F W1 eq_refl).
      eapply (inv_go s _ f p); eauto; try reflexivity; try lia.
      { left; congruence. }
      { unfold pc_ok. cbn. auto. }
      { fin SG. }
Qed.
