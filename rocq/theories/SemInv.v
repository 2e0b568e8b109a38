(** Preservation of the semaphore invariant by every step. *)
From Verif Require Import SemModel SemProofs.
From Coq Require Import List NArith ZArith Bool Lia Arith Sorted ZifyBool ZifyNat ZifyN.
Import ListNotations.
Local Open Scope N_scope.

Lemma ss_remove {A} (dec : forall a b : A, {a = b} + {a <> b}) R x l :
  StronglySorted R l -> StronglySorted R (remove dec x l).
Proof.
  induction l as [|y l IH]; intros S; cbn; [constructor|]. inversion S as [|? ? S1 S2]; subst.
  destruct (dec x y); [now apply IH|]. constructor; [now apply IH|].
  rewrite Forall_forall in *. intros z Hz. apply in_remove in Hz as [Hz _]. auto.
Qed.

Lemma ss_snoc {A} (R : A -> A -> Prop) l x :
  StronglySorted R l -> (forall y, In y l -> R y x) -> StronglySorted R (l ++ [x]).
Proof.
  induction l as [|y l IH]; intros S H; cbn; [constructor; constructor|].
  inversion S as [|? ? S1 S2]; subst. constructor; [apply IH; auto; intros; apply H; now right|].
  rewrite Forall_forall in *. intros z Hz. apply in_app_iff in Hz as [Hz|[<-|[]]]; auto.
  apply H. now left.
Qed.

(** [waiting] after an update of one future *)
Lemma waiting_putf s s' f x g : (f < len s)%nat ->
  futs s' = upd (futs s) f x -> wl_closed s' = wl_closed s ->
  waiting s' g <-> (g <> f /\ waiting s g) \/
                   (g = f /\ fq x = true /\ fas x = false /\ wl_closed s = false).
Proof.
  intros F E W. unfold waiting, getf. rewrite E, W, upd_length, upd_nth.
  unfold len in F. replace (f <? length (futs s))%nat with true by lia. rewrite andb_true_r.
  destruct (Nat.eqb_spec g f) as [->|N]; intuition; try lia.
Qed.

Lemma getf_eq s s' f x g : (f < len s)%nat -> futs s' = upd (futs s) f x ->
  getf s' g = if (g =? f)%nat then x else getf s g.
Proof.
  intros F E. unfold getf. rewrite E, upd_nth. unfold len in F.
  replace (f <? length (futs s))%nat with true by lia. now rewrite andb_true_r.
Qed.

Ltac proj := cbn [permits closed wl_closed pq oq cs futs pend held issued leaked clock evt
  w_futs w_cs w_permits w_held w_pend w_issued w_leaked w_queues w_evt w_closed tick go putf
  assign] in *.

Lemma inv_step_lock s f s' : inv s -> step_lock s f = Some s' -> inv s'.
Proof.
  intros I H. unfold step_lock in H. destruct (cs s) eqn:CS; [discriminate|].
  assert (PO := i_pc s I f). unfold pc_ok in PO.
  assert (TS := i_sum s I). assert (PD := i_pend s I). assert (LK := i_leak s I).
  destruct (fpc (getf s f)) eqn:PC; try discriminate; destruct PO as [PO1 PO2];
    assert (F : (f < len s)%nat) by (apply pc_in; congruence).
  - (* WantL *)
    assert (W1 : wt (getf s f) = b2n (fas (getf s f))) by (unfold wt; rewrite PC; lia).
    inversion H; subst s'; clear H.
    assert (SG := sum_go' s f InCS _ F W1 eq_refl).
    eapply (inv_go s _ f InCS); eauto; try reflexivity; try lia; proj.
    + left; congruence.
    + unfold pc_ok. cbn. auto.
    + right. unfold cs_ok. proj.
      split; [unfold len; proj; rewrite upd_length; exact F|].
      rewrite !(getf_eq s _ f (set_pc (getf s f) InCS)) by (auto; reflexivity).
      rewrite Nat.eqb_refl. cbn. auto.
    + unfold total in *. proj. rewrite CS in TS. cbn [in_cs] in *. rewrite SG. lia.
  - (* WantL2 *)
    assert (W1 : wt (getf s f) = b2n (fas (getf s f)) + b2n acq) by (unfold wt; rewrite PC; lia).
    destruct PO2 as [PQ PA].
    inversion H; subst s'; clear H.
    assert (SG := upd_sum (futs s) f (set_pc (getf s f) InCS) F).
    fold (getf s f) in SG. rewrite W1, wt_set_pc in SG.
    eapply (inv_go s _ f InCS); eauto; try reflexivity; try lia; proj.
    + left; congruence.
    + unfold pc_ok. cbn. auto.
    + right. unfold cs_ok. proj.
      split; [unfold len; proj; rewrite upd_length; exact F|].
      rewrite !(getf_eq s _ f (set_pc (getf s f) InCS)) by (auto; reflexivity).
      rewrite Nat.eqb_refl. cbn. split; [reflexivity|].
      split; [intros; congruence|assumption].
    + unfold total in *. proj. rewrite CS in TS. cbn [in_cs] in *. lia.
  - (* DropW *)
    set (x' := mkFut (fprio (getf s f)) Gone false false false (fstamp (getf s f))) in *.
    assert (SG := upd_sum (futs s) f x' F). fold (getf s f) in SG.
    assert (W1 : wt (getf s f) = b2n (fas (getf s f))) by (unfold wt; rewrite PC; lia).
    rewrite W1 in SG. change (wt x') with 0 in SG.
    set (s2 := putf (if fprio (getf s f) then w_queues s (remove Nat.eq_dec f (pq s)) (oq s)
                     else w_queues s (pq s) (remove Nat.eq_dec f (oq s))) f x') in *.
    assert (E2 : futs s2 = upd (futs s) f x') by (unfold s2; destruct (fprio (getf s f)); reflexivity).
    assert (INV : forall c, (c = None \/ exists r n, c = Some (HAdd r n)) ->
               in_cs c = b2n (fas (getf s f)) -> inv (w_cs s2 c)).
    { intros c CC EC.
      assert (W2 : wl_closed s2 = wl_closed s) by (unfold s2; destruct (fprio (getf s f)); reflexivity).
      assert (GE : forall g, getf (w_cs s2 c) g = if (g =? f)%nat then x' else getf s g).
      { intros g. apply (getf_eq s); assumption. }
      assert (WW : forall g, waiting (w_cs s2 c) g <-> g <> f /\ waiting s g).
      { intros g. rewrite (waiting_putf s _ f x'); try assumption.
        unfold x'; cbn. intuition discriminate. }
      assert (PQ : pq s2 = if fprio (getf s f) then remove Nat.eq_dec f (pq s) else pq s)
        by (unfold s2; destruct (fprio (getf s f)); reflexivity).
      assert (OQ : oq s2 = if fprio (getf s f) then oq s else remove Nat.eq_dec f (oq s))
        by (unfold s2; destruct (fprio (getf s f)); reflexivity).
      assert (NP : forall g, In g (pq s2) <-> g <> f /\ In g (pq s)).
      { intros g. rewrite PQ. destruct (fprio (getf s f)) eqn:FP.
        - split; [intros X; apply in_remove in X; tauto|intros [A B]; now apply in_in_remove].
        - split; [|tauto]. intros X. split; [|assumption]. intros ->.
          apply (q_p s (i_q s I)) in X as [_ X]. congruence. }
      assert (NO : forall g, In g (oq s2) <-> g <> f /\ In g (oq s)).
      { intros g. rewrite OQ. destruct (fprio (getf s f)) eqn:FP.
        - split; [|tauto]. intros X. split; [|assumption]. intros ->.
          apply (q_o s (i_q s I)) in X as [_ X]. congruence.
        - split; [intros X; apply in_remove in X; tauto|intros [A B]; now apply in_in_remove]. }
      assert (PM : permits s2 = permits s) by (unfold s2; destruct (fprio (getf s f)); reflexivity).
      split; proj.
      - rewrite PM. intros P. destruct (i_avail s I P) as [A B]. rewrite A in NP. rewrite B in NO.
        destruct (pq s2) as [|a l]; [|exfalso; destruct (proj1 (NP a) (or_introl eq_refl)); contradiction].
        destruct (oq s2) as [|a l]; [|exfalso; destruct (proj1 (NO a) (or_introl eq_refl)); contradiction].
        auto.
      - split; proj.
        + intros g. rewrite NP, WW, GE, (q_p s (i_q s I)).
          destruct (Nat.eqb_spec g f); intuition.
        + intros g. rewrite NO, WW, GE, (q_o s (i_q s I)).
          destruct (Nat.eqb_spec g f); intuition.
        + apply (ss_ext (fun f g => fstamp (getf s f) < fstamp (getf s g))).
          { intros a b Ha Hb. rewrite !GE. apply NP in Ha as [Ha _]. apply NP in Hb as [Hb _].
            destruct (Nat.eqb_spec a f); [contradiction|]. destruct (Nat.eqb_spec b f); [contradiction|]. auto. }
          rewrite PQ. destruct (fprio (getf s f)); [apply ss_remove|]; apply I.
        + apply (ss_ext (fun f g => fstamp (getf s f) < fstamp (getf s g))).
          { intros a b Ha Hb. rewrite !GE. apply NO in Ha as [Ha _]. apply NO in Hb as [Hb _].
            destruct (Nat.eqb_spec a f); [contradiction|]. destruct (Nat.eqb_spec b f); [contradiction|]. auto. }
          rewrite OQ. destruct (fprio (getf s f)); [|apply ss_remove]; apply I.
        + intros g. rewrite WW, GE. intros [N W]. destruct (Nat.eqb_spec g f); [contradiction|].
          replace (clock s2) with (clock s) by (unfold s2; destruct (fprio (getf s f)); reflexivity).
          now apply I.
        + intros g. rewrite WW, GE. intros [N W]. destruct (Nat.eqb_spec g f); [contradiction|].
          now apply I.
      - intros g. rewrite GE, W2. destruct (Nat.eqb_spec g f); [|apply I].
        unfold x', pc_ok; cbn; auto.
      - unfold cs_ok. proj. destruct CC as [->|(r & n & ->)]; exact Logic.I.
      - rewrite W2. replace (closed s2) with (closed s) by (unfold s2; destruct (fprio (getf s f)); reflexivity).
        apply I.
      - replace (pend s2) with (pend s) by (unfold s2; destruct (fprio (getf s f)); reflexivity). apply I.
      - unfold total in *. proj. rewrite E2, PM, EC. rewrite CS in TS. cbn [in_cs] in TS.
        replace (held s2) with (held s) by (unfold s2; destruct (fprio (getf s f)); reflexivity).
        replace (pend s2) with (pend s) by (unfold s2; destruct (fprio (getf s f)); reflexivity).
        replace (leaked s2) with (leaked s) by (unfold s2; destruct (fprio (getf s f)); reflexivity).
        replace (issued s2) with (issued s) by (unfold s2; destruct (fprio (getf s f)); reflexivity).
        lia.
      - replace (leaked s2) with (leaked s) by (unfold s2; destruct (fprio (getf s f)); reflexivity).
        rewrite W2. apply I. }
    destruct (fas (getf s f)) eqn:FA.
    + inversion H; subst s'. apply INV; [right; eauto|reflexivity].
    + inversion H; subst s'.
      assert (EQ : w_cs s2 None = s2).
      { unfold s2. destruct (fprio (getf s f)); unfold putf, w_futs, w_queues, w_cs; cbn; now rewrite CS. }
      rewrite <- EQ. apply INV; [now left|reflexivity].
Qed.

(** queued waiters keep everything but the assigned flag / waker when served *)
Lemma inv_assign s f rest_p rest_o rem cnt e :
  inv s -> cs s = Some (HAdd rem cnt) -> 1 <= rem ->
  (pq s = f :: rest_p /\ oq s = rest_o \/ pq s = [] /\ rest_p = [] /\ oq s = f :: rest_o) ->
  inv (w_evt (w_cs (w_queues (assign s f) rest_p rest_o) (Some (HAdd (rem - 1) (cnt + 1)))) e).
Proof.
  intros I CS R HQ. set (s' := w_evt _ _).
  assert (WF : waiting s f).
  { destruct HQ as [[A _]|(_ & _ & A)].
    - apply (q_p s (i_q s I)). rewrite A. now left.
    - apply (q_o s (i_q s I)). rewrite A. now left. }
  assert (WF' := WF). destruct WF as (F & FQ & FA & WL). fold (len s) in F.
  set (x' := mkFut (fprio (getf s f)) (fpc (getf s f)) true (fq (getf s f)) false (fstamp (getf s f))).
  assert (E : futs s' = upd (futs s) f x') by reflexivity.
  assert (SG := upd_sum (futs s) f x' F). fold (getf s f) in SG.
  assert (WX : wt x' = wt (getf s f) + 1).
  { unfold wt, x'. cbn [fas fpc]. rewrite FA. cbn [b2n]. destruct (fpc (getf s f)); lia. }
  assert (GE : forall g, getf s' g = if (g =? f)%nat then x' else getf s g).
  { intros g. now apply (getf_eq s). }
  assert (WW : forall g, waiting s' g <-> g <> f /\ waiting s g).
  { intros g. rewrite (waiting_putf s s' f x' g F E eq_refl). unfold x'; cbn. intuition discriminate. }
  assert (NDP : NoDup (pq s) /\ NoDup (oq s)).
  { assert (G : forall l, StronglySorted (fun f g => fstamp (getf s f) < fstamp (getf s g)) l -> NoDup l).
    { induction l as [|y l IH]; intros S1; [constructor|]. inversion S1 as [|? ? S2 S3]; subst.
      constructor; [|auto]. intros X. rewrite Forall_forall in S3. specialize (S3 y X). cbn beta in S3. lia. }
    split; apply G; apply I. }
  assert (NP : forall g, In g rest_p <-> g <> f /\ In g (pq s)).
  { intros g. destruct HQ as [[A B]|(A & -> & B)]; rewrite A.
    - destruct NDP as [ND _]. rewrite A in ND. inversion ND; subst. cbn. split.
      + intros X. split; [intros ->; contradiction|now right].
      + intros [X [Y|Y]]; [congruence|assumption].
    - cbn. tauto. }
  assert (NO : forall g, In g rest_o <-> g <> f /\ In g (oq s)).
  { intros g. destruct HQ as [[A B]|(A & -> & B)].
    - rewrite <- B. split; [|tauto]. intros X. split; [|assumption]. intros ->.
      apply (q_o s (i_q s I)) in X as [_ X].
      assert (In f (pq s)) by (rewrite A; now left). apply (q_p s (i_q s I)) in H as [_ H]. congruence.
    - rewrite B. destruct NDP as [_ ND]. rewrite B in ND. inversion ND; subst. cbn. split.
      + intros X. split; [intros ->; contradiction|now right].
      + intros [X [Y|Y]]; [congruence|assumption]. }
  split.
  - intros P. change (permits s') with (permits s) in P. exfalso.
    now apply (nowait_avail s I P f).
  - split; change (pq s') with rest_p in *; change (oq s') with rest_o in *.
    + intros g. rewrite NP, WW, GE, (q_p s (i_q s I)). destruct (Nat.eqb_spec g f); intuition.
    + intros g. rewrite NO, WW, GE, (q_o s (i_q s I)). destruct (Nat.eqb_spec g f); intuition.
    + apply (ss_ext (fun f g => fstamp (getf s f) < fstamp (getf s g))).
      { intros a b Ha Hb. rewrite !GE. apply NP in Ha as [Ha _]. apply NP in Hb as [Hb _].
        destruct (Nat.eqb_spec a f); [contradiction|]. destruct (Nat.eqb_spec b f); [contradiction|]. auto. }
      assert (S1 := q_sp s (i_q s I)). destruct HQ as [[A B]|(A & -> & B)]; [|constructor].
      rewrite A in S1. now inversion S1.
    + apply (ss_ext (fun f g => fstamp (getf s f) < fstamp (getf s g))).
      { intros a b Ha Hb. rewrite !GE. apply NO in Ha as [Ha _]. apply NO in Hb as [Hb _].
        destruct (Nat.eqb_spec a f); [contradiction|]. destruct (Nat.eqb_spec b f); [contradiction|]. auto. }
      assert (S1 := q_so s (i_q s I)). destruct HQ as [[A B]|(A & _ & B)].
      * now rewrite B in S1.
      * rewrite B in S1. now inversion S1.
    + intros g. rewrite WW, GE. intros [N W]. destruct (Nat.eqb_spec g f); [contradiction|].
      now apply I.
    + intros g. rewrite WW, GE. intros [N W]. destruct (Nat.eqb_spec g f); [contradiction|].
      now apply I.
  - intros g. rewrite GE. change (wl_closed s') with (wl_closed s).
    destruct (Nat.eqb_spec g f); [|apply I].
    assert (PO := i_pc s I f). unfold pc_ok in *. unfold x'; cbn.
    destruct PO as [_ PO]. rewrite FQ in *. split; [discriminate|].
    destruct (fpc (getf s f)); intuition.
  - exact Logic.I.
  - apply I.
  - apply I.
  - assert (TS := i_sum s I). unfold total in *. rewrite E.
    change (permits s') with (permits s). change (held s') with (held s).
    change (pend s') with (pend s). change (cs s') with (Some (HAdd (rem - 1) (cnt + 1))).
    change (leaked s') with (leaked s). change (issued s') with (issued s).
    rewrite CS in TS. cbn [in_cs] in *. lia.
  - apply I.
Qed.

(** steps that leave all futures and queues alone *)
Lemma inv_frame s s' : inv s -> futs s' = futs s -> wl_closed s' = wl_closed s ->
  pq s' = pq s -> oq s' = oq s -> clock s' = clock s ->
  (closed s = true -> closed s' = true) ->
  (0 < permits s' -> pq s = [] /\ oq s = []) ->
  (permits s' <= permits s /\ cs s' = cs s \/ cs_ok s') ->
  Forall (fun r => 0 < r) (pend s') -> total s' = issued s' -> leaked s' = leaked s -> inv s'.
Proof.
  intros I EF EW EP EO EC ECl A CS PD T LK.
  assert (G : forall g, getf s' g = getf s g) by (intros; unfold getf; now rewrite EF).
  assert (LEN : len s' = len s) by (unfold len; now rewrite EF).
  split.
  - now rewrite EP, EO.
  - eapply qinv_ext; [..|apply (i_q s I)]; auto. intros; now rewrite G.
  - intros f. rewrite G, EW. apply I.
  - destruct CS as [[PM CS]|CS]; [|exact CS].
    assert (C := i_cs s I). unfold cs_ok in *. rewrite CS.
    destruct (cs s) as [[h need curr cl|h acq|rem cnt|rem|]|]; auto; rewrite LEN, !G; auto.
    rewrite EW. destruct C as (C1 & C2 & C3 & C4). split; [assumption|]. split; [assumption|].
    split; [|assumption]. intros Q. destruct (C3 Q). split; [assumption|lia].
  - rewrite EW. intros W. apply ECl. now apply I.
  - assumption.
  - assumption.
  - rewrite EW, LK. apply I.
Qed.

Lemma inv_step_crit s f acq : inv s -> cs s = Some (HCrit f acq) -> inv (step_crit s f acq).
Proof.
  intros I CS. assert (C := i_cs s I). unfold cs_ok in C. rewrite CS in C.
  destruct C as (F & PC & C3 & C4).
  assert (PO := i_pc s I f). unfold pc_ok in PO. rewrite PC in PO. destruct PO as [PO1 _].
  assert (TS := i_sum s I). assert (PD := i_pend s I). assert (LK := i_leak s I).
  assert (W1 : wt (getf s f) = b2n (fas (getf s f))) by (unfold wt; rewrite PC; lia).
  unfold step_crit. destruct (wl_closed s) eqn:WL.
  - (* closed *)
    assert (SG := sum_go' s f Failed _ F W1 eq_refl).
    eapply (inv_go s _ f Failed); eauto; try reflexivity; try lia; proj.
    + rewrite CS. right; discriminate.
    + unfold pc_ok. cbn. auto.
    + right. exact Logic.I.
    + unfold total in *. proj. rewrite CS in TS. cbn [in_cs] in *. rewrite SG. lia.
  - destruct (fas (getf s f) || acq) eqn:SERV.
    + assert (FA : fas (getf s f) = true).
      { destruct (fas (getf s f)); [reflexivity|]. cbn in SERV. destruct (C4 SERV); congruence. }
      rewrite FA in *. 
      assert (FQ : fq (getf s f) = true).
      { destruct (fq (getf s f)); [reflexivity|]. specialize (PO1 eq_refl). discriminate. }
      set (x' := mkFut (fprio (getf s f)) Gone false false (fwk (getf s f)) (fstamp (getf s f))).
      set (s' := w_evt _ _).
      assert (E : futs s' = upd (futs s) f x') by reflexivity.
      assert (SG := upd_sum (futs s) f x' F). fold (getf s f) in SG.
      rewrite W1 in SG. change (wt x') with 0 in SG.
      assert (GE : forall g, getf s' g = if (g =? f)%nat then x' else getf s g).
      { intros g. now apply (getf_eq s). }
      assert (NWF : ~ waiting s f) by (intros (_ & _ & X & _); congruence).
      assert (WW : forall g, waiting s' g <-> waiting s g).
      { intros g. rewrite (waiting_putf s s' f x' g F E eq_refl). unfold x'; cbn.
        split; [intuition discriminate|]. intros W. left. split; [|assumption]. intros ->. contradiction. }
      assert (NF : forall g, waiting s g -> (g =? f)%nat = false).
      { intros g W. apply Nat.eqb_neq. intros ->. contradiction. }
      assert (NPf : ~ In f (pq s)) by (intros X; apply (q_p s (i_q s I)) in X; tauto).
      assert (NOf : ~ In f (oq s)) by (intros X; apply (q_o s (i_q s I)) in X; tauto).
      split.
      * apply I.
      * split.
        { intros g. change (pq s') with (pq s). rewrite WW, GE, (q_p s (i_q s I)).
          split; intros [A B]; split; auto; [now rewrite NF|now rewrite NF in B]. }
        { intros g. change (oq s') with (oq s). rewrite WW, GE, (q_o s (i_q s I)).
          split; intros [A B]; split; auto; [now rewrite NF|now rewrite NF in B]. }
        { apply (ss_ext (fun f g => fstamp (getf s f) < fstamp (getf s g))); [|apply I].
          intros a b Ha Hb. rewrite !GE.
          destruct (Nat.eqb_spec a f) as [->|]; [contradiction|].
          destruct (Nat.eqb_spec b f) as [->|]; [contradiction|]. auto. }
        { apply (ss_ext (fun f g => fstamp (getf s f) < fstamp (getf s g))); [|apply I].
          intros a b Ha Hb. rewrite !GE.
          destruct (Nat.eqb_spec a f) as [->|]; [contradiction|].
          destruct (Nat.eqb_spec b f) as [->|]; [contradiction|]. auto. }
        { intros g. rewrite WW, GE. intros W. rewrite NF by assumption. now apply I. }
        { intros g. rewrite WW, GE. intros W. rewrite NF by assumption. now apply I. }
      * intros g. rewrite GE. change (wl_closed s') with (wl_closed s).
        destruct (Nat.eqb_spec g f); [|apply I]. unfold pc_ok, x'; cbn; auto.
      * unfold cs_ok, s'. proj. destruct acq; exact Logic.I.
      * apply I.
      * apply I.
      * unfold total in *. rewrite E. unfold s'. proj. rewrite CS in TS. cbn [in_cs] in TS.
        destruct acq; cbn [b2n N.eqb in_cs] in *; lia.
      * intros X; apply I; exact X.
    + (* pending *)
      apply orb_false_iff in SERV as [FA ->]. rewrite FA in *.
      destruct (fq (getf s f)) eqn:FQ.
      * (* still queued *)
        set (x' := mkFut (fprio (getf s f)) Idle false true true (fstamp (getf s f))).
        set (s' := w_cs _ _).
        assert (WFf : waiting s f) by (unfold waiting; auto).
        assert (WK := q_wk s (i_q s I) f WFf).
        assert (EX : x' = set_pc (getf s f) Idle).
        { unfold x', set_pc. rewrite FA, FQ, WK. reflexivity. }
        assert (SG := sum_go' s f Idle _ F ltac:(rewrite FA; exact W1) eq_refl). rewrite <- EX in SG.
        eapply (inv_go s s' f Idle); eauto; try reflexivity; try lia.
        { right. rewrite CS. discriminate. }
        { unfold s', go. proj. now rewrite <- EX. }
        { unfold pc_ok, set_pc; cbn. rewrite FQ. split; [discriminate|exact Logic.I]. }
        { right. exact Logic.I. }
        { unfold total, s' in *. proj. rewrite CS in TS. cbn [in_cs b2n] in *. rewrite SG. lia. }
      * (* enqueue *)
        destruct (C3 eq_refl) as [_ P0].
        set (x' := mkFut (fprio (getf s f)) Idle false true true (clock s)).
        set (s' := w_evt _ _).
        assert (E : futs s' = upd (futs s) f x').
        { unfold s'. destruct (fprio (getf s f)); reflexivity. }
        assert (SG := upd_sum (futs s) f x' F). fold (getf s f) in SG.
        rewrite W1 in SG. change (wt x') with 0 in SG. cbn [b2n] in SG.
        assert (GE : forall g, getf s' g = if (g =? f)%nat then x' else getf s g).
        { intros g. now apply (getf_eq s). }
        assert (WL' : wl_closed s' = wl_closed s) by (unfold s'; destruct (fprio (getf s f)); reflexivity).
        assert (NWF : ~ waiting s f) by (intros (_ & X & _); congruence).
        assert (WW : forall g, waiting s' g <-> g = f \/ waiting s g).
        { intros g. rewrite (waiting_putf s s' f x' g F E WL'). unfold x'; cbn.
          split; [tauto|]. intros [->|W]; [auto|]. left. split; [|assumption]. intros ->. contradiction. }
        assert (NF : forall g, waiting s g -> (g =? f)%nat = false).
        { intros g W. apply Nat.eqb_neq. intros ->. contradiction. }
        assert (NPf : ~ In f (pq s)) by (intros X; apply (q_p s (i_q s I)) in X; tauto).
        assert (NOf : ~ In f (oq s)) by (intros X; apply (q_o s (i_q s I)) in X; tauto).
        assert (PQ : pq s' = if fprio (getf s f) then pq s ++ [f] else pq s)
          by (unfold s'; destruct (fprio (getf s f)); reflexivity).
        assert (OQ : oq s' = if fprio (getf s f) then oq s else oq s ++ [f])
          by (unfold s'; destruct (fprio (getf s f)); reflexivity).
        assert (CK : clock s' = clock s + 1) by (unfold s'; destruct (fprio (getf s f)); reflexivity).
        assert (PM : permits s' = permits s) by (unfold s'; destruct (fprio (getf s f)); reflexivity).
        assert (SP : StronglySorted (fun f g => fstamp (getf s' f) < fstamp (getf s' g)) (pq s)).
        { apply (ss_ext (fun f g => fstamp (getf s f) < fstamp (getf s g))); [|apply I].
          intros a b Ha Hb. rewrite !GE.
          destruct (Nat.eqb_spec a f) as [->|]; [contradiction|].
          destruct (Nat.eqb_spec b f) as [->|]; [contradiction|]. auto. }
        assert (SO : StronglySorted (fun f g => fstamp (getf s' f) < fstamp (getf s' g)) (oq s)).
        { apply (ss_ext (fun f g => fstamp (getf s f) < fstamp (getf s g))); [|apply I].
          intros a b Ha Hb. rewrite !GE.
          destruct (Nat.eqb_spec a f) as [->|]; [contradiction|].
          destruct (Nat.eqb_spec b f) as [->|]; [contradiction|]. auto. }
        assert (LT : forall y, waiting s y -> fstamp (getf s' y) < fstamp (getf s' f)).
        { intros y W. rewrite !GE, Nat.eqb_refl, NF by assumption. cbn. now apply I. }
        split.
        { rewrite PM, P0. lia. }
        { split.
          - intros g. rewrite PQ, WW, GE. unfold x'.
            destruct (fprio (getf s f)) eqn:FP.
            + rewrite in_app_iff, (q_p s (i_q s I)). cbn [In].
              destruct (Nat.eqb_spec g f) as [->|N]; cbn [fprio]; [intuition|].
              split; [intros [A|[A|[]]]; [tauto|congruence]|]. intros [[A|A] B]; [congruence|tauto].
            + rewrite (q_p s (i_q s I)).
              destruct (Nat.eqb_spec g f) as [->|N]; cbn [fprio].
              * rewrite FP. intuition congruence.
              * split; [tauto|]. intros [[A|A] B]; [congruence|tauto].
          - intros g. rewrite OQ, WW, GE. unfold x'.
            destruct (fprio (getf s f)) eqn:FP.
            + rewrite (q_o s (i_q s I)).
              destruct (Nat.eqb_spec g f) as [->|N]; cbn [fprio].
              * rewrite FP. intuition congruence.
              * split; [tauto|]. intros [[A|A] B]; [congruence|tauto].
            + rewrite in_app_iff, (q_o s (i_q s I)). cbn [In].
              destruct (Nat.eqb_spec g f) as [->|N]; cbn [fprio]; [intuition|].
              split; [intros [A|[A|[]]]; [tauto|congruence]|]. intros [[A|A] B]; [congruence|tauto].
          - rewrite PQ. destruct (fprio (getf s f)); [|exact SP]. apply ss_snoc; [exact SP|].
            intros y Y. apply LT. now apply (q_p s (i_q s I)) in Y.
          - rewrite OQ. destruct (fprio (getf s f)); [exact SO|]. apply ss_snoc; [exact SO|].
            intros y Y. apply LT. now apply (q_o s (i_q s I)) in Y.
          - intros g. rewrite WW, GE, CK. intros [->|W].
            + rewrite Nat.eqb_refl. cbn. lia.
            + rewrite NF by assumption. assert (X := q_clk s (i_q s I) g W). lia.
          - intros g. rewrite WW, GE. intros [->|W].
            + rewrite Nat.eqb_refl. reflexivity.
            + rewrite NF by assumption. now apply I. }
        { intros g. rewrite GE, WL'. destruct (Nat.eqb_spec g f); [|apply I].
          unfold pc_ok, x'; cbn. split; [discriminate|exact Logic.I]. }
        { unfold cs_ok, s'. destruct (fprio (getf s f)); exact Logic.I. }
        { rewrite WL'. replace (closed s') with (closed s)
            by (unfold s'; destruct (fprio (getf s f)); reflexivity). apply I. }
        { replace (pend s') with (pend s)
            by (unfold s'; destruct (fprio (getf s f)); reflexivity). apply I. }
        { unfold total in *. rewrite E, PM.
          replace (pend s') with (pend s) by (unfold s'; destruct (fprio (getf s f)); reflexivity).
          replace (held s') with (held s) by (unfold s'; destruct (fprio (getf s f)); reflexivity).
          replace (issued s') with (issued s) by (unfold s'; destruct (fprio (getf s f)); reflexivity).
          replace (leaked s') with (leaked s) by (unfold s'; destruct (fprio (getf s f)); reflexivity).
          replace (cs s') with (@None crit) by (unfold s'; destruct (fprio (getf s f)); reflexivity).
          rewrite CS in TS. cbn [in_cs b2n] in *. lia. }
        { rewrite WL'. replace (leaked s') with (leaked s)
            by (unfold s'; destruct (fprio (getf s f)); reflexivity). apply I. }
Qed.

Lemma inv_step_cs s s' : inv s -> step_cs s = Some s' -> inv s'.
Proof.
  intros I H. unfold step_cs in H.
  assert (TS := i_sum s I). assert (PD := i_pend s I). assert (LK := i_leak s I).
  destruct (cs s) as [[f need curr cl|f acq|rem cnt|rem|]|] eqn:CS; try discriminate.
  - (* HLoop *)
    assert (C := i_cs s I). unfold cs_ok in C. rewrite CS in C. destruct C as (F & PC & C3).
    assert (PO := i_pc s I f). unfold pc_ok in PO. rewrite PC in PO. destruct PO as [PO1 _].
    assert (W1 : wt (getf s f) = b2n (fas (getf s f))) by (unfold wt; rewrite PC; lia).
    destruct cl.
    { inversion H; subst s'; clear H. assert (SG := sum_go' s f Failed _ F W1 eq_refl).
      eapply (inv_go s _ f Failed); eauto; try reflexivity; try lia; proj.
      + rewrite CS. right; discriminate.
      + unfold pc_ok. cbn. auto.
      + right. exact Logic.I.
      + unfold total in *. proj. rewrite CS in TS. cbn [in_cs] in *. rewrite SG. lia. }
    destruct (cas s need curr) as [[[s1 acq] r0]|] eqn:CAS.
    + apply cas_spec in CAS as (C1 & C2 & HC).
      destruct (r0 && negb (fq (getf s f))) eqn:B.
      * apply andb_true_iff in B as [-> B]. apply negb_true_iff in B.
        destruct HC as [(_ & LE & -> & ->)|(X & _)]; [|discriminate].
        specialize (C3 B). subst need. cbn [b2n] in *.
        inversion H; subst s'; clear H. assert (SG := sum_go' s f Gone _ F W1 eq_refl).
        eapply (inv_go s _ f Gone); eauto; try reflexivity; try lia; proj.
        -- rewrite CS. right; discriminate.
        -- lia.
        -- unfold pc_ok. cbn. auto.
        -- right. exact Logic.I.
        -- unfold total in *. proj. rewrite CS in TS. cbn [in_cs] in *.
           change (getf (w_permits s (curr - 1)) f) with (getf s f). rewrite SG. lia.
      * inversion H; subst s'; clear H.
        assert (K : permits s1 <= permits s /\ futs s1 = futs s /\ wl_closed s1 = wl_closed s /\
                    pq s1 = pq s /\ oq s1 = oq s /\ clock s1 = clock s /\ closed s1 = closed s /\
                    pend s1 = pend s /\ held s1 = held s /\ issued s1 = issued s /\ leaked s1 = leaked s /\
                    permits s = permits s1 + b2n acq).
        { destruct HC as [(_ & LE & -> & ->)|(_ & LE & -> & ->)]; proj; repeat split; cbn [b2n]; try lia.
          destruct need; cbn [b2n] in *; lia. }
        destruct K as (K1 & K2 & K3 & K4 & K5 & K6 & K7 & K8 & K9 & K10 & K11 & K12).
        apply (inv_frame s); auto; proj; auto; try congruence.
        -- intros P. apply (i_avail s I). lia.
        -- right. unfold cs_ok. proj.
           assert (G : getf (w_cs s1 (Some (HCrit f acq))) f = getf s f).
           { unfold getf. proj. now rewrite K2. }
           unfold len. proj. rewrite K2. fold (len s). rewrite G.
           split; [assumption|]. split; [assumption|]. rewrite K3. split.
           ++ intros Q. rewrite Q in B. cbn in B. rewrite andb_true_r in B.
              destruct HC as [(X & _)|(_ & LE & -> & ->)]; [congruence|]. proj. auto.
           ++ intros ->. cbn [b2n] in K12. apply fas_or_closed; auto; try lia.
        -- unfold total in *. proj. rewrite K2, K8, K9, K10, K11. rewrite CS in TS. cbn [in_cs] in *. lia.
    + inversion H; subst s'; clear H. apply (inv_frame s); auto; proj; auto; try congruence.
      * apply I.
      * right. unfold cs_ok. proj. auto.
      * unfold total in *. proj. rewrite CS in TS. cbn [in_cs] in *. lia.
  - inversion H; subst s'. now apply inv_step_crit.
  - (* HAdd *)
    destruct (N.eqb_spec rem 0) as [R|R]; cbn [orb] in H.
    { inversion H; subst s'; clear H. apply (inv_frame s); auto; proj; auto; try congruence.
      - apply I.
      - right. exact Logic.I.
      - unfold total in *. proj. rewrite CS in TS. cbn [in_cs] in *. lia. }
    destruct (N.leb_spec NUM_WAKERS cnt).
    { inversion H; subst s'; clear H. apply (inv_frame s); auto; proj; auto; try congruence.
      - apply I.
      - right. exact Logic.I.
      - unfold total in *. proj. rewrite CS in TS. cbn [in_cs] in *. lia. }
    destruct (pq s) as [|f r] eqn:PQ.
    + destruct (oq s) as [|f r] eqn:OQ.
      * inversion H; subst s'; clear H. apply (inv_frame s); auto; proj; auto; try congruence.
        -- right. exact Logic.I.
        -- unfold total in *. proj. rewrite CS in TS. cbn [in_cs] in *. lia.
      * inversion H; subst s'. eapply inv_assign; [exact I|exact CS|lia|right; auto].
    + inversion H; subst s'. eapply inv_assign; [exact I|exact CS|lia|left; auto].
  - (* HUnlock *)
    inversion H; subst s'; clear H. destruct (N.eqb_spec rem 0) as [->|R].
    + apply (inv_frame s); auto; proj; auto; try congruence.
      * apply I.
      * right. exact Logic.I.
      * unfold total in *. proj. rewrite CS in TS. cbn [in_cs] in *. lia.
    + apply (inv_frame s); auto; proj; auto; try congruence.
      * apply I.
      * right. exact Logic.I.
      * constructor; [lia|assumption].
      * unfold total in *. proj. rewrite CS in TS. cbn [in_cs sum] in *. lia.
  - (* HClose *)
    assert (C := i_cs s I). unfold cs_ok in C. rewrite CS in C.
    inversion H; subst s'; clear H. set (s' := w_evt _ _).
    assert (NW : forall g, ~ waiting s' g) by (intros g (_ & _ & _ & W); discriminate).
    split.
    + auto.
    + split; try (intros g; split; [intros []|intros [X _]; now apply NW in X]);
        try (intros g W; now apply NW in W); constructor.
    + intros g. change (getf s' g) with (getf s g). assert (PO := i_pc s I g).
      unfold pc_ok in *. change (wl_closed s') with true.
      destruct (fpc (getf s g)); intuition.
    + exact Logic.I.
    + intros _. exact C.
    + assumption.
    + unfold total in *. unfold s'. proj. rewrite CS in TS. cbn [in_cs] in *. lia.
    + reflexivity.
Qed.

Lemma inv_step s a s' : inv s -> step s a = Some s' -> inv s'.
Proof.
  intros I0 H. unfold step in H. assert (I := inv_evt s [] I0).
  set (s0 := w_evt s []) in *. clearbody s0. clear s I0. rename s0 into s.
  assert (TS := i_sum s I). assert (PD := i_pend s I). assert (LK := i_leak s I).
  destruct a as [p|f|f|f| |f| | |n|i|]; cbn [step0] in H.
  - (* ANew *)
    inversion H; subst s'; clear H. set (s' := w_futs s _).
    assert (G : forall g, dat (getf s' g) = dat (getf s g) \/
                (g = len s /\ getf s' g = mkFut p Idle false false false 0)).
    { intros g. unfold getf, s'. proj. destruct (Nat.lt_ge_cases g (length (futs s))) as [L|L].
      - left. now rewrite app_nth1.
      - rewrite app_nth2 by lia. destruct (g - length (futs s))%nat as [|k] eqn:K.
        + right. split; [unfold len; lia|reflexivity].
        + left. rewrite (nth_overflow (futs s)) by lia. destruct k; reflexivity. }
    assert (G2 : forall g, (g < len s)%nat -> getf s' g = getf s g).
    { intros g L. unfold getf, s'. proj. now rewrite app_nth1. }
    assert (WW : forall g, waiting s' g <-> waiting s g).
    { intros g. unfold waiting. change (wl_closed s') with (wl_closed s).
      destruct (Nat.lt_ge_cases g (len s)) as [L|L].
      - rewrite G2 by assumption. unfold s'. proj. rewrite app_length. unfold len in L. cbn. intuition; lia.
      - destruct (G g) as [E|[E1 E2]].
        + unfold dat in E. inversion E as [[E1 E2 E3 E4 E5]]. rewrite E2, E3.
          unfold len in L. split; [|intuition; lia].
          intros (_ & X & _). rewrite (getf_out s g) in X by exact L. discriminate.
        + rewrite E2. cbn. split; [intuition; discriminate|]. unfold len in L. intuition; lia. }
    assert (WL : forall g, waiting s g -> (g < len s)%nat) by (intros g (X & _); exact X).
    split.
    + apply I.
    + destruct (i_q s I) as [Qp Qo Sp So K Wk]. split; change (pq s') with (pq s); change (oq s') with (oq s).
      * intros g. rewrite WW, Qp. split; intros [A B]; split; auto; rewrite ?G2 in *; auto.
      * intros g. rewrite WW, Qo. split; intros [A B]; split; auto; rewrite ?G2 in *; auto.
      * eapply ss_ext; [|exact Sp]. intros a b Ha Hb. cbn beta.
        rewrite !G2; auto; apply WL; [now apply Qp in Hb|now apply Qp in Ha].
      * eapply ss_ext; [|exact So]. intros a b Ha Hb. cbn beta.
        rewrite !G2; auto; apply WL; [now apply Qo in Hb|now apply Qo in Ha].
      * intros g. rewrite WW. intros W. rewrite G2 by auto. now apply K.
      * intros g. rewrite WW. intros W. rewrite G2 by auto. now apply Wk.
    + intros g. change (wl_closed s') with (wl_closed s).
      destruct (Nat.lt_ge_cases g (len s)) as [L|L]; [rewrite G2 by assumption; apply I|].
      unfold getf, s'. proj. rewrite app_nth2 by exact L.
      destruct (g - length (futs s))%nat as [|[|k]]; unfold pc_ok; cbn; auto.
    + assert (C := i_cs s I). unfold cs_ok in *. change (cs s') with (cs s).
      destruct (cs s) as [[h need curr cl|h acq|rem cnt|rem|]|]; auto.
      * destruct C as (C1 & C2 & C3). rewrite G2 by assumption. split; [|auto].
        unfold len, s'. proj. rewrite app_length. unfold len in C1. lia.
      * destruct C as (C1 & C2 & C3 & C4). rewrite G2 by assumption. split; [|auto].
        unfold len, s'. proj. rewrite app_length. unfold len in C1. lia.
    + apply I.
    + apply I.
    + unfold total in *. unfold s'. proj. rewrite map_app, sum_app. cbn. lia.
    + apply I.
  - (* APoll *)
    destruct (fpc (getf s f)) eqn:PC; try discriminate. inversion H; subst s'; clear H.
    assert (F : (f < len s)%nat) by (apply pc_in; congruence).
    assert (PO := i_pc s I f). unfold pc_ok in PO. rewrite PC in PO. destruct PO as [PO1 _].
    assert (W1 : wt (getf s f) = b2n (fas (getf s f))) by (unfold wt; rewrite PC; lia).
    assert (SG := sum_go' s f Start _ F W1 eq_refl).
    eapply (inv_go s _ f Start); eauto; try reflexivity; try lia.
    + left; congruence.
    + unfold pc_ok. cbn. auto.
    + fin SG.
  - eapply inv_step_fut; eassumption.
  - eapply inv_step_lock; eassumption.
  - eapply inv_step_cs; eassumption.
  - (* ADrop *)
    assert (CASES : (fpc (getf s f) = Idle \/ fpc (getf s f) = Failed) /\
      s' = (if fq (getf s f) then go s f DropW else go s f Gone)).
    { destruct (fpc (getf s f)); try discriminate; (split; [auto|]);
        destruct (fq (getf s f)); now inversion H. }
    destruct CASES as [PC ->]. clear H.
    assert (F : (f < len s)%nat) by (apply pc_in; destruct PC; congruence).
    assert (PO := i_pc s I f). unfold pc_ok in PO. destruct PO as [PO1 _].
    assert (W1 : wt (getf s f) = b2n (fas (getf s f))) by (unfold wt; destruct PC as [-> | ->]; lia).
    destruct (fq (getf s f)) eqn:FQ.
    + assert (SG := sum_go' s f DropW _ F W1 eq_refl).
      eapply (inv_go s _ f DropW); eauto; try reflexivity; try lia.
      * left; destruct PC; congruence.
      * unfold pc_ok. cbn. rewrite FQ. auto.
      * fin SG.
    + assert (SG := sum_go' s f Gone _ F W1 eq_refl).
      eapply (inv_go s _ f Gone); eauto; try reflexivity; try lia.
      * left; destruct PC; congruence.
      * unfold pc_ok. cbn. rewrite FQ. auto.
      * fin SG.
  - (* ATry *)
    destruct (negb (closed s) && (1 <=? permits s)) eqn:B; [|discriminate].
    apply andb_true_iff in B as [_ B]. apply N.leb_le in B.
    inversion H; subst s'; clear H. apply (inv_frame s); auto; proj; auto.
    + intros P. apply (i_avail s I). lia.
    + left. split; [lia|reflexivity].
    + unfold total in *. proj. lia.
  - (* ARelease *)
    destruct (N.leb_spec 1 (held s)); [|discriminate].
    inversion H; subst s'; clear H. apply (inv_frame s); auto; proj; auto.
    + apply I.
    + left. split; [lia|reflexivity].
    + constructor; [lia|assumption].
    + unfold total in *. proj. cbn [sum]. lia.
  - (* AAddPermits *)
    destruct (N.eqb_spec n 0); inversion H; subst s'; clear H; [assumption|].
    apply (inv_frame s); auto; proj; auto.
    + apply I.
    + left. split; [lia|reflexivity].
    + constructor; [lia|assumption].
    + unfold total in *. proj. cbn [sum]. lia.
  - (* AAddLock *)
    destruct (cs s) eqn:CS; [discriminate|]. destruct (nth_error (pend s) i) eqn:E; [|discriminate].
    inversion H; subst s'; clear H. assert (DS := del_nth_sum i (pend s) n E).
    apply (inv_frame s); auto; proj; auto.
    + apply I.
    + right. exact Logic.I.
    + now apply del_nth_forall.
    + unfold total in *. proj. rewrite CS in TS. cbn [in_cs] in *. lia.
  - (* AClose *)
    destruct (cs s) eqn:CS; [discriminate|]. inversion H; subst s'; clear H.
    apply (inv_frame s); auto; proj; auto.
    + apply I.
    + right. reflexivity.
    + unfold total in *. proj. rewrite CS in TS. cbn [in_cs] in *. lia.
Qed.

Lemma inv_init n : inv (init n).
Proof.
  assert (NW : forall f, ~ waiting (init n) f) by (intros f (H & _); cbn in H; lia).
  split.
  - auto.
  - split; try (intros f; split; [intros []|intros [X _]; now apply NW in X]);
      try (intros f W; now apply NW in W); constructor.
  - intros f. unfold getf. cbn. destruct f; unfold pc_ok; cbn; auto.
  - exact Logic.I.
  - discriminate.
  - constructor.
  - unfold total. cbn. lia.
  - intros H. now contradiction H.
Qed.

Lemma reach_inv n s : reach n s -> inv s.
Proof. induction 1; [apply inv_init|eapply inv_step; eassumption]. Qed.
