(** C21: the priority semaphore conserves permits, serves waiters in order of class and
    arrival, and never leaves a permit available while somebody waits. *)
From Verif Require Import SemModel SemProofs SemInv.
From Coq Require Import List NArith ZArith Bool Lia Arith Sorted ZifyBool ZifyNat ZifyN.
Import ListNotations.
Local Open Scope N_scope.

(** ** Schedules *)
Fixpoint exec (s : st) (acts : list act) : option st :=
  match acts with
  | [] => Some s
  | a :: r => match step s a with Some s' => exec s' r | None => None end
  end.
Fixpoint added (acts : list act) : N :=
  match acts with
  | AAddPermits k :: r => k + added r
  | _ :: r => added r
  | [] => 0
  end.

Lemma exec_reach n acts : forall s s', reach n s -> exec s acts = Some s' -> reach n s'.
Proof.
  induction acts as [|a r IH]; intros s s' R E; cbn in E; [inversion E; now subst|].
  destruct (step s a) eqn:ST; [|discriminate]. eapply IH; [|exact E]. econstructor; eassumption.
Qed.

(** destruct everything a step matches on *)
Ltac stepcase H :=
  repeat match type of H with
  | context[match ?x with _ => _ end] => destruct x eqn:?; try discriminate
  end.

Ltac evproj := cbn [permits closed wl_closed pq oq cs futs pend held issued leaked clock evt
  w_futs w_cs w_permits w_held w_pend w_issued w_leaked w_queues w_evt w_closed tick go putf
  assign map app In] in *.

Lemma issued_step s a s' : step s a = Some s' ->
  issued s' = issued s + match a with AAddPermits k => k | _ => 0 end.
Proof.
  unfold step, step0, step_fut, step_lock, step_cs, step_crit, cas. intros H.
  destruct a; stepcase H; inversion H; subst s'; evproj;
    repeat match goal with |- context[if ?b then _ else _] => destruct b eqn:? end;
    evproj; try lia;
    repeat match goal with Q : context[if ?b then _ else _] |- _ => destruct b eqn:? end;
    try discriminate; repeat match goal with Q : Some _ = Some _ |- _ => inversion Q; clear Q; subst end;
    evproj; try lia.
Qed.

(** permits on their way: being returned by a release, or assigned to a waiter that has not
    been polled since *)
Definition in_flight (s : st) : N := sum (pend s) + in_cs (cs s) + sum (map wt (futs s)).

(** Permits are neither created nor lost, in every interleaving, as long as the semaphore is
    not closed. *)
Theorem C21_conservation : forall n acts s,
  exec (init n) acts = Some s ->
  permits s + held s + in_flight s + leaked s = n + added acts /\
  (wl_closed s = false -> permits s + held s + in_flight s = n + added acts).
Proof.
  intros n acts s E.
  assert (I : inv s) by (eapply reach_inv, exec_reach; [constructor|exact E]).
  assert (IS : forall acts s0, exec s0 acts = Some s -> issued s = issued s0 + added acts).
  { clear. induction acts as [|a r IH]; intros s0 E; cbn in E; [inversion E; cbn; lia|].
    destruct (step s0 a) eqn:ST; [|discriminate]. rewrite (IH _ E), (issued_step _ _ _ ST).
    destruct a; cbn [added]; lia. }
  specialize (IS acts (init n) E). change (issued (init n)) with n in IS.
  assert (T := i_sum s I). assert (L := i_leak s I). unfold total, in_flight in *. split; [lia|].
  intros W. destruct (N.eq_dec (leaked s) 0); [lia|]. rewrite (L n0) in W. discriminate.
Qed.

(** When no operation is in progress: available + held = issued. *)
Theorem C21_quiescent_balance : forall n acts s,
  exec (init n) acts = Some s -> wl_closed s = false ->
  cs s = None -> pend s = [] ->
  (forall f, (f < length (futs s))%nat -> fas (getf s f) = false /\
     (fpc (getf s f) = Idle \/ fpc (getf s f) = Gone)) ->
  permits s + held s = n + added acts.
Proof.
  intros n acts s E W C P Q. destruct (C21_conservation n acts s E) as [_ H]. specialize (H W).
  unfold in_flight in H. rewrite C, P in H. cbn [sum in_cs] in H.
  assert (Z : sum (map wt (futs s)) = 0); [|lia].
  assert (G : forall l, (forall x, In x l -> wt x = 0) -> sum (map wt l) = 0).
  { induction l as [|x l IH]; intros HX; [reflexivity|]. cbn [map sum].
    rewrite (HX x) by now left. rewrite IH by (intros; apply HX; now right). reflexivity. }
  apply G. intros x HX. destruct (In_nth _ _ dummy HX) as (f & Hf & <-).
  fold (getf s f). destruct (Q f Hf) as [A B]. unfold wt. rewrite A. destruct B as [-> | ->]; reflexivity.
Qed.

(** No permit stays available while somebody waits. *)
Theorem C21_no_idle_permit : forall n s f, reach n s -> waiting s f -> permits s = 0.
Proof.
  intros n s f R W. apply reach_inv in R. destruct (N.eq_dec (permits s) 0); [assumption|].
  exfalso. eapply (nowait_avail s R); [lia|exact W].
Qed.

(** A waiter's node never outlives its future: completed or dropped futures are in no queue. *)
Theorem C21_queued_nodes_alive : forall n s f, reach n s ->
  In f (pq s) \/ In f (oq s) -> (f < length (futs s))%nat /\ fpc (getf s f) <> Gone.
Proof.
  intros n s f R H. apply reach_inv in R.
  assert (W : waiting s f).
  { destruct H as [H|H]; [apply (q_p s (i_q s R)) in H|apply (q_o s (i_q s R)) in H]; tauto. }
  split; [apply W|]. intros P. assert (PO := i_pc s R f). unfold pc_ok in PO. rewrite P in PO.
  destruct W as (_ & Q & _). destruct PO; congruence.
Qed.

Lemma head_min s f l g : StronglySorted (fun f g => fstamp (getf s f) < fstamp (getf s g)) (f :: l) ->
  In g (f :: l) -> fstamp (getf s f) <= fstamp (getf s g).
Proof.
  intros S [->|H]; [lia|]. inversion S as [|? ? S1 S2]; subst. rewrite Forall_forall in S2.
  specialize (S2 g H). cbn beta in S2. lia.
Qed.

Lemma waiting_evt s e f : waiting (w_evt s e) f <-> waiting s f.
Proof. reflexivity. Qed.

Ltac noev := exfalso; repeat match goal with Q : _ \/ _ |- _ => destruct Q end;
  try discriminate; try contradiction.

Ltac sp := repeat split; unfold not in *; intros; evproj; noev.

Lemma ev_assign s s' f : inv s -> step_cs s = Some s' -> evt s = [] ->
  In (EAssign f) (evt s') ->
  exists rem cnt, cs s = Some (HAdd rem cnt) /\ 0 < rem /\
  In (EWake f) (evt s') /\ futs s' = futs (assign s f) /\ wl_closed s' = wl_closed s /\
  (exists rest, pq s = f :: rest \/ pq s = [] /\ oq s = f :: rest).
Proof.
  intros I H E0 HE. unfold step_cs in H.
  destruct (cs s) as [[h need curr cl|h acq|rem cnt|rem|]|] eqn:CS; try discriminate.
  - destruct cl; [inversion H; subst s'; evproj; rewrite E0 in HE; evproj; noev|].
    destruct (cas s need curr) as [[[s1 acq] r0]|] eqn:CAS.
    + apply cas_spec in CAS as (C1 & C2 & HC).
      assert (E1 : evt s1 = []) by (destruct HC as [(_ & _ & _ & ->)|(_ & _ & _ & ->)]; exact E0).
      destruct (r0 && negb (fq (getf s h))); inversion H; subst s'; evproj; rewrite ?E1 in HE; evproj; noev.
    + inversion H; subst s'; evproj; rewrite E0 in HE; evproj; noev.
  - inversion H; subst s'; clear H. unfold step_crit in HE.
    destruct (wl_closed s); evproj; [rewrite E0 in HE; evproj; noev|].
    destruct (fas (getf s h) || acq).
    { destruct (fas (getf s h)); evproj; noev. }
    destruct (fq (getf s h)); evproj; [rewrite E0 in HE; evproj; noev|].
    destruct (fprio (getf s h)); evproj; noev.
  - destruct (N.eqb_spec rem 0) as [R|R]; cbn [orb] in H.
    { inversion H; subst s'; evproj; rewrite E0 in HE; evproj; noev. }
    destruct (NUM_WAKERS <=? cnt).
    { inversion H; subst s'; evproj; rewrite E0 in HE; evproj; noev. }
    exists rem, cnt. split; [reflexivity|]. split; [lia|].
    destruct (pq s) as [|h r] eqn:PQ; [destruct (oq s) as [|h r] eqn:OQ|].
    + inversion H; subst s'; evproj; rewrite E0 in HE; evproj; noev.
    + assert (W : waiting s h) by (apply (q_o s (i_q s I)); rewrite OQ; now left).
      assert (WK := q_wk s (i_q s I) h W). rewrite WK in H.
      inversion H; subst s'; clear H; evproj.
      assert (h = f) by (destruct HE as [HE|[HE|[]]]; congruence). subst h.
      split; [right; now left|]. split; [reflexivity|]. split; [reflexivity|]. exists r; auto.
    + assert (W : waiting s h) by (apply (q_p s (i_q s I)); rewrite PQ; now left).
      assert (WK := q_wk s (i_q s I) h W). rewrite WK in H.
      inversion H; subst s'; clear H; evproj.
      assert (h = f) by (destruct HE as [HE|[HE|[]]]; congruence). subst h.
      split; [right; now left|]. split; [reflexivity|]. split; [reflexivity|]. exists r; auto.
  - inversion H; subst s'; destruct (rem =? 0); evproj; rewrite E0 in HE; evproj; noev.
  - inversion H; subst s'; clear H. evproj. apply in_map_iff in HE as (x & X & _). discriminate.
Qed.

(** events other than those of the mutex holder *)
Lemma ev_other s a s' : step0 s a = Some s' -> evt s = [] -> a <> ACs ->
  evt s' = [] \/
  (a = ATry /\ evt s' = [ETry] /\ 1 <= permits s) \/
  (exists f, a = AFut f /\ evt s' = [EDirect f] /\ fq (getf s f) = false /\
     exists curr, fpc (getf s f) = Loop true curr false /\ 1 <= permits s \/
                  fpc (getf s f) = Loop false curr false).
Proof.
  intros H E0 NA. destruct a as [p|f|f|f| |f| | |n|i|]; cbn [step0] in H; try congruence.
  - inversion H; subst; auto.
  - destruct (fpc (getf s f)); inversion H; subst; auto.
  - unfold step_fut in H. destruct (fpc (getf s f)) as [| |need|need curr cl|need curr|acq| | | |] eqn:PC; try discriminate; try (inversion H; subst; auto; fail).
    destruct cl; [inversion H; subst; auto|].
    destruct (b2n need <=? curr) eqn:LE; [|inversion H; subst; auto].
    destruct (cas s need curr) as [[[s1 acq] r0]|] eqn:CAS; [|inversion H; subst; auto].
    apply cas_spec in CAS as (C1 & C2 & [(-> & L & -> & ->)|(_ & X & _)]); [|lia].
    destruct (fq (getf s f)) eqn:Q; inversion H; subst; auto.
    right; right. exists f. repeat split; auto. exists (permits s).
    destruct need; cbn in L; auto.
  - unfold step_lock in H. stepcase H; inversion H; subst s'; auto;
      destruct (fprio (getf s f)); auto.
  - destruct (fpc (getf s f)); try discriminate; destruct (fq (getf s f)); inversion H; subst; auto.
  - destruct (negb (closed s) && (1 <=? permits s)) eqn:B; [|discriminate].
    apply andb_true_iff in B as [_ B]. apply N.leb_le in B. inversion H; subst. auto 10.
  - destruct (1 <=? held s); inversion H; subst; auto.
  - destruct (n =? 0); inversion H; subst; auto.
  - destruct (cs s); [discriminate|]. destruct (nth_error (pend s) i); inversion H; subst; auto.
  - destruct (cs s); inversion H; subst; auto.
Qed.

Lemma ev_cs s s' : inv s -> step_cs s = Some s' -> evt s = [] ->
  (forall f, In (EDirect f) (evt s') -> 1 <= permits s) /\ ~ In ETry (evt s') /\
  (forall f, In (EReady f) (evt s') -> fas (getf s f) = true) /\
  (forall f, In (EEnq f) (evt s') -> ~ waiting s f /\ waiting s' f /\
      fstamp (getf s' f) = clock s).
Proof.
  intros I H E0. unfold step_cs in H.
  destruct (cs s) as [[h need curr cl|h acq|rem cnt|rem|]|] eqn:CS; try discriminate.
  - assert (C := i_cs s I). unfold cs_ok in C. rewrite CS in C. destruct C as (F & PC & C3).
    destruct cl; [inversion H; subst s'; evproj; rewrite E0; sp|].
    destruct (cas s need curr) as [[[s1 acq] r0]|] eqn:CAS.
    + apply cas_spec in CAS as (C1 & C2 & HC).
      destruct (r0 && negb (fq (getf s h))) eqn:B.
      * apply andb_true_iff in B as [-> B]. apply negb_true_iff in B.
        destruct HC as [(_ & LE & -> & ->)|(X & _)]; [|discriminate].
        specialize (C3 B). subst need. cbn [b2n] in *.
        inversion H; subst s'; evproj.
        split; [intros; lia|]. sp.
      * assert (E1 : evt s1 = []) by (destruct HC as [(_ & _ & _ & ->)|(_ & _ & _ & ->)]; exact E0).
        inversion H; subst s'; evproj. rewrite E1. sp.
    + inversion H; subst s'; evproj. rewrite E0. sp.
  - assert (C := i_cs s I). unfold cs_ok in C. rewrite CS in C. destruct C as (F & PC & C3 & C4).
    inversion H; subst s'; clear H. unfold step_crit.
    destruct (wl_closed s) eqn:WL; [evproj; rewrite E0; sp|].
    destruct (fas (getf s h) || acq) eqn:SERV.
    { assert (FA : fas (getf s h) = true).
      { destruct (fas (getf s h)); [reflexivity|]. cbn in SERV. destruct (C4 SERV); congruence. }
      rewrite FA. evproj. repeat split; unfold not; intros; evproj; try (noev; fail).
      destruct H as [H|[]]. inversion H; now subst. }
    apply orb_false_iff in SERV as [FA ->].
    destruct (fq (getf s h)) eqn:FQ; [evproj; rewrite E0; sp|].
    assert (G : forall f l, In (EEnq f) [EEnq h] -> l = upd (futs s) h
              (mkFut (fprio (getf s h)) Idle false true true (clock s)) ->
              f = h /\ nth h l dummy = mkFut (fprio (getf s h)) Idle false true true (clock s)
              /\ (h < length l)%nat).
    { intros f l [X|[]] ->. injection X as X. subst f. split; [reflexivity|].
      rewrite upd_nth, Nat.eqb_refl, upd_length. unfold len in F.
      replace (h <? length (futs s))%nat with true by lia. cbn [andb]. auto. }
    destruct (fprio (getf s h)) eqn:FP; evproj.
    + repeat split; unfold not; intros; try (noev; fail); try destruct (G f _ H eq_refl) as (-> & G2 & G3).
      * destruct H0 as (_ & X & _). congruence.
      * exact G3.
      * unfold getf. evproj. rewrite G2. reflexivity.
      * unfold getf. evproj. rewrite G2. reflexivity.
      * unfold getf. evproj. exact WL.
      * unfold getf. evproj. rewrite G2. reflexivity.
    + repeat split; unfold not; intros; try (noev; fail); try destruct (G f _ H eq_refl) as (-> & G2 & G3).
      * destruct H0 as (_ & X & _). congruence.
      * exact G3.
      * unfold getf. evproj. rewrite G2. reflexivity.
      * unfold getf. evproj. rewrite G2. reflexivity.
      * unfold getf. evproj. exact WL.
      * unfold getf. evproj. rewrite G2. reflexivity.
  - stepcase H; inversion H; subst s'; evproj; rewrite ?E0;
      sp.
  - inversion H; subst s'. destruct (rem =? 0); evproj; rewrite E0; sp.
  - inversion H; subst s'. evproj.
    assert (X : forall e, In e (map EWake (oq s ++ pq s)) -> exists f, e = EWake f).
    { intros e Y. apply in_map_iff in Y as (f & <- & _). eauto. }
    repeat split; intros; try (intros Y); apply X in H0 || apply X in Y; try destruct H0; try destruct Y; discriminate.
Qed.

(** Every permit is handed out in order: straight from the counter only when nobody waits;
    to a waiter only if no waiter of its class arrived before it and, for an ordinary one, no
    priority waiter waits; its registered waker is taken to be woken in the same step. *)
Theorem C21_grant_order : forall n s a s', reach n s -> step s a = Some s' ->
  (forall f, In (EDirect f) (evt s') -> forall g, ~ waiting s g) /\
  (In ETry (evt s') -> forall g, ~ waiting s g) /\
  (forall f, In (EAssign f) (evt s') ->
     waiting s f /\ ~ waiting s' f /\ In (EWake f) (evt s') /\
     forall g, waiting s g ->
       (fprio (getf s g) = true -> fprio (getf s f) = true) /\
       (fprio (getf s g) = fprio (getf s f) -> fstamp (getf s f) <= fstamp (getf s g))) /\
  (forall f, In (EReady f) (evt s') -> fas (getf s f) = true).
Proof.
  intros n s a s' R ST. apply reach_inv in R. unfold step in ST.
  assert (I := inv_evt s [] R). set (s0 := w_evt s []) in *.
  assert (E0 : evt s0 = []) by reflexivity.
  change (forall g, ~ waiting s g) with (forall g, ~ waiting s0 g).
  assert (W0 : forall g, waiting s g <-> waiting s0 g) by reflexivity.
  assert (G0 : forall g, getf s g = getf s0 g) by reflexivity.
  assert (NW : 1 <= permits s0 -> forall g, ~ waiting s g).
  { intros P g. rewrite W0. apply (nowait_avail s0 I). lia. }
  assert (DEC : a = ACs \/ a <> ACs) by (destruct a; auto; right; discriminate).
  destruct DEC as [->|NA].
  - cbn [step0] in ST. destruct (ev_cs s0 s' I ST E0) as (A & B & C & _).
    split; [intros f X; apply NW; eauto|]. split; [intros X; contradiction|]. split; [|exact C].
    intros f X. destruct (ev_assign s0 s' f I ST E0 X) as (rem & cnt & CS & RP & WK & EF & EW & rest & Q).
    assert (WF : waiting s0 f).
    { destruct Q as [Q|[Q1 Q2]].
      - apply (q_p s0 (i_q s0 I)). rewrite Q. now left.
      - apply (q_o s0 (i_q s0 I)). rewrite Q2. now left. }
    split; [exact WF|]. split.
    { rewrite (waiting_putf s0 s' f _ f (proj1 WF) EF EW). cbn. intuition discriminate. }
    split; [exact WK|]. intros g WG. rewrite !G0.
    destruct (fprio (getf s0 f)) eqn:FP.
    + split; [auto|]. intros PG.
      assert (IG : In g (pq s0)) by (apply (q_p s0 (i_q s0 I)); auto).
      destruct Q as [Q|[Q1 Q2]]; [|exfalso; rewrite Q1 in IG; contradiction].
      assert (SS := q_sp s0 (i_q s0 I)). rewrite Q in SS, IG. eapply head_min; eassumption.
    + assert (PE : pq s0 = []).
      { destruct Q as [Q|[Q1 Q2]]; [|assumption]. exfalso.
        assert (X2 : In f (pq s0)) by (rewrite Q; now left).
        apply (q_p s0 (i_q s0 I)) in X2 as [_ X2]. congruence. }
      destruct Q as [Q|[Q1 Q2]]; [rewrite PE in Q; discriminate|].
      destruct (fprio (getf s0 g)) eqn:PG.
      * assert (IG : In g (pq s0)) by (apply (q_p s0 (i_q s0 I)); auto).
        rewrite PE in IG. contradiction.
      * split; [discriminate|]. intros _.
        assert (IG : In g (oq s0)) by (apply (q_o s0 (i_q s0 I)); auto).
        assert (SS := q_so s0 (i_q s0 I)). rewrite Q2 in SS, IG. eapply head_min; eassumption.
  - destruct (ev_other s0 a s' ST E0 NA) as [E|[(-> & E & P)|(f & -> & E & FQ & curr & D)]]; rewrite E.
    + repeat split; intros; contradiction.
    + split; [intros f [X|[]]; discriminate|]. split; [intros _; exact (NW P)|].
      split; intros f [X|[]]; discriminate.
    + assert (P : 1 <= permits s0).
      { destruct D as [[_ P]|D]; [exact P|]. assert (PO := i_pc s0 I f). unfold pc_ok in PO.
        rewrite D in PO. destruct PO as [_ PO]. specialize (PO FQ). discriminate. }
      split; [intros h _; exact (NW P)|]. split; [intros [X|[]]; discriminate|]. split; intros g [X|[]]; discriminate.
Qed.

(** The stamps of the previous theorem are arrival times: a future starts waiting exactly at
    its enqueue event, later than everybody already waiting, and keeps its stamp. *)
Theorem C21_arrival_order : forall n s a s', reach n s -> step s a = Some s' ->
  (forall f, In (EEnq f) (evt s') -> ~ waiting s f /\ waiting s' f /\
     forall g, waiting s g -> fstamp (getf s g) < fstamp (getf s' f)) /\
  (forall f, waiting s f -> waiting s' f ->
     fstamp (getf s' f) = fstamp (getf s f) /\ fprio (getf s' f) = fprio (getf s f)) /\
  (forall f, waiting s' f -> ~ waiting s f -> In (EEnq f) (evt s')).
Proof.
  intros n s a s' R ST. apply reach_inv in R. unfold step in ST.
  assert (I := inv_evt s [] R). set (s0 := w_evt s []) in *.
  assert (E0 : evt s0 = []) by reflexivity.
  assert (W0 : forall g, waiting s g <-> waiting s0 g) by reflexivity.
  assert (G0 : forall g, getf s g = getf s0 g) by reflexivity.
  clearbody s0. setoid_rewrite W0. setoid_rewrite G0. clear W0 G0 R. 
  split.
  { intros f X. assert (DEC : a = ACs \/ a <> ACs) by (destruct a; auto; right; discriminate).
    destruct DEC as [->|NA].
    - cbn [step0] in ST. destruct (ev_cs s0 s' I ST E0) as (_ & _ & _ & C).
      destruct (C f X) as (C1 & C2 & C3). split; [exact C1|]. split; [exact C2|].
      intros g WG. rewrite C3. now apply (q_clk s0 (i_q s0 I)).
    - exfalso. destruct (ev_other s0 a s' ST E0 NA) as [E|[(-> & E & P)|(h & -> & E & _)]]; rewrite E in X;
        evproj; noev. }
  (* how the data of a future may change *)
  assert (D : forall f, dat (getf s' f) = dat (getf s0 f) /\ (f < len s')%nat /\ (f < len s0)%nat /\ (wl_closed s' = wl_closed s0) \/
              ~ waiting s' f \/ In (EEnq f) (evt s') /\ ~ waiting s0 f).
  { intros f. 
    assert (UPD : forall h x, (h < len s0)%nat -> futs s' = upd (futs s0) h x -> wl_closed s' = wl_closed s0 ->
       (dat x = dat (getf s0 h) \/ fq x = false \/ fas x = true \/ (In (EEnq h) (evt s') /\ ~ waiting s0 h)) ->
       dat (getf s' f) = dat (getf s0 f) /\ (f < len s')%nat /\ (f < len s0)%nat /\ (wl_closed s' = wl_closed s0) \/
              ~ waiting s' f \/ In (EEnq f) (evt s') /\ ~ waiting s0 f).
    { intros h x HL EF EW HX. rewrite (waiting_putf s0 s' h x f HL EF EW).
      rewrite (getf_eq s0 s' h x f HL EF).
      assert (LE : len s' = len s0) by (unfold len; rewrite EF; apply upd_length).
      destruct (Nat.lt_ge_cases f (len s0)) as [L|L].
      2:{ right; left. intros [[_ X]|[-> _]]; [destruct X as [X _]; unfold len in L; lia|lia]. }
      destruct (Nat.eqb_spec f h) as [->|NE].
      - destruct HX as [HX|[HX|[HX|HX]]].
        + left. rewrite LE. auto.
        + right; left. rewrite HX. intuition; try discriminate.
        + right; left. rewrite HX. intuition; try discriminate.
        + right; right. exact HX.
      - left. rewrite LE. auto. }
    assert (SAME : futs s' = futs s0 -> wl_closed s' = wl_closed s0 ->
       dat (getf s' f) = dat (getf s0 f) /\ (f < len s')%nat /\ (f < len s0)%nat /\ (wl_closed s' = wl_closed s0) \/
              ~ waiting s' f \/ In (EEnq f) (evt s') /\ ~ waiting s0 f).
    { intros EF EW. destruct (Nat.lt_ge_cases f (len s0)) as [L|L].
      - left. unfold getf, len. rewrite EF. auto.
      - right; left. intros [X _]. rewrite EF in X. unfold len in L. lia. }
    destruct a as [p|f0|f0|f0| |f0| | |k|i|]; cbn [step0] in ST.
    - inversion ST; subst s'.
      destruct (Nat.lt_ge_cases f (len s0)) as [L|L].
      + left. unfold getf, len in *. evproj. rewrite app_nth1 by assumption. rewrite app_length.
        split; [reflexivity|]. split; [cbn [length]; lia|]. split; [lia|reflexivity].
      + right; left. intros (_ & X & _). unfold getf in X. evproj.
        rewrite app_nth2 in X by exact L. destruct (f - length (futs s0))%nat as [|[|m]]; discriminate.
    - destruct (fpc (getf s0 f0)) eqn:PC; try discriminate. inversion ST; subst s'.
      eapply (UPD f0); [apply pc_in; congruence|reflexivity|reflexivity|left; reflexivity].
    - unfold step_fut in ST. destruct (fpc (getf s0 f0)) as [| |need|need curr cl|need curr|acq| | | |] eqn:PC; try discriminate;
        assert (F0 : (f0 < len s0)%nat) by (apply pc_in; congruence).
      + inversion ST; subst s'. eapply (UPD f0); [assumption|reflexivity|reflexivity|left; reflexivity].
      + inversion ST; subst s'. eapply (UPD f0); [assumption|reflexivity|reflexivity|left; reflexivity].
      + destruct cl; [inversion ST; subst s'; eapply (UPD f0); [assumption|reflexivity|reflexivity|left; reflexivity]|].
        destruct (b2n need <=? curr) eqn:LE;
          [|inversion ST; subst s'; eapply (UPD f0); [assumption|reflexivity|reflexivity|left; reflexivity]].
        destruct (cas s0 need curr) as [[[s1 acq] r0]|] eqn:CAS;
          [|inversion ST; subst s'; eapply (UPD f0); [assumption|reflexivity|reflexivity|left; reflexivity]].
        apply cas_spec in CAS as (C1 & C2 & [(-> & L & -> & ->)|(_ & X & _)]); [|lia].
        destruct (fq (getf s0 f0)) eqn:Q; inversion ST; subst s';
          (eapply (UPD f0); [assumption|reflexivity|reflexivity|left; reflexivity]).
    - unfold step_lock in ST. destruct (cs s0) eqn:CS; [discriminate|].
      destruct (fpc (getf s0 f0)) eqn:PC; try discriminate;
        assert (F0 : (f0 < len s0)%nat) by (apply pc_in; congruence).
      + inversion ST; subst s'. eapply (UPD f0); [assumption|reflexivity|reflexivity|left; reflexivity].
      + inversion ST; subst s'. eapply (UPD f0); [assumption|reflexivity|reflexivity|left; reflexivity].
      + destruct (fas (getf s0 f0)); inversion ST; subst s'; destruct (fprio (getf s0 f0));
          (eapply (UPD f0); [assumption|reflexivity|reflexivity|right; left; reflexivity]).
    - assert (ST' := ST). unfold step_cs in ST.
      destruct (cs s0) as [[h need curr cl|h acq|rem cnt|rem|]|] eqn:CS; try discriminate.
      + assert (C := i_cs s0 I). unfold cs_ok in C. rewrite CS in C. destruct C as (F & PC & C3).
        destruct cl; [inversion ST; subst s'; eapply (UPD h); [assumption|reflexivity|reflexivity|left; reflexivity]|].
        destruct (cas s0 need curr) as [[[s1 acq] r0]|] eqn:CAS.
        * apply cas_spec in CAS as (C1 & C2 & HC).
          destruct (r0 && negb (fq (getf s0 h))) eqn:B.
          { destruct HC as [(_ & LE & -> & ->)|(_ & LE & -> & ->)]; inversion ST; subst s';
            (eapply (UPD h); [assumption|reflexivity|reflexivity|left; reflexivity]). }
          { destruct HC as [(_ & LE & -> & ->)|(_ & LE & -> & ->)]; inversion ST; subst s';
            (apply SAME; reflexivity). }
        * inversion ST; subst s'. apply SAME; reflexivity.
      + assert (C := i_cs s0 I). unfold cs_ok in C. rewrite CS in C. destruct C as (F & PC & C3 & C4).
        inversion ST; subst s'. unfold step_crit in *.
        destruct (wl_closed s0) eqn:WL.
        { eapply (UPD h); [assumption|reflexivity|evproj; congruence|left; reflexivity]. }
        destruct (fas (getf s0 h) || acq) eqn:SV.
        { eapply (UPD h); [assumption|reflexivity|evproj; congruence|right; left; reflexivity]. }
        apply orb_false_iff in SV as [FA ->].
        destruct (fq (getf s0 h)) eqn:FQ.
        { eapply (UPD h); [assumption|reflexivity|evproj; congruence|left].
          assert (WH : waiting s0 h) by (unfold waiting; auto).
          unfold dat; cbn. rewrite FA, FQ, (q_wk s0 (i_q s0 I) h WH). reflexivity. }
        assert (NWH : ~ waiting s0 h) by (intros (_ & X & _); congruence).
        destruct (fprio (getf s0 h));
          (eapply (UPD h); [assumption|reflexivity|evproj; congruence|right; right; right; split; [now left|exact NWH]]).
      + destruct ((rem =? 0) || (NUM_WAKERS <=? cnt)); [inversion ST; subst s'; apply SAME; reflexivity|].
        destruct (pq s0) as [|h r] eqn:PQ; [destruct (oq s0) as [|h r] eqn:OQ|].
        * inversion ST; subst s'; apply SAME; reflexivity.
        * assert (W : waiting s0 h) by (apply (q_o s0 (i_q s0 I)); rewrite OQ; now left).
          inversion ST; subst s'. eapply (UPD h); [apply W|reflexivity|reflexivity|right; right; left; reflexivity].
        * assert (W : waiting s0 h) by (apply (q_p s0 (i_q s0 I)); rewrite PQ; now left).
          inversion ST; subst s'. eapply (UPD h); [apply W|reflexivity|reflexivity|right; right; left; reflexivity].
      + inversion ST; subst s'. destruct (rem =? 0); apply SAME; reflexivity.
      + inversion ST; subst s'. right; left. intros (_ & _ & _ & X). evproj. discriminate.
    - assert (F0 : (f0 < len s0)%nat) by (apply pc_in; destruct (fpc (getf s0 f0)); congruence).
      destruct (fpc (getf s0 f0)); try discriminate; destruct (fq (getf s0 f0)); inversion ST; subst s';
        (eapply (UPD f0); [assumption|reflexivity|reflexivity|left; reflexivity]).
    - destruct (negb (closed s0) && (1 <=? permits s0)); inversion ST; subst s'; apply SAME; reflexivity.
    - destruct (1 <=? held s0); inversion ST; subst s'; apply SAME; reflexivity.
    - destruct (k =? 0); inversion ST; subst s'; apply SAME; reflexivity.
    - destruct (cs s0); [discriminate|]. destruct (nth_error (pend s0) i); inversion ST; subst s'; apply SAME; reflexivity.
    - destruct (cs s0); inversion ST; subst s'; apply SAME; reflexivity. }
  split.
  - intros f W W'. destruct (D f) as [(E & _)|[N|[_ N]]]; [|contradiction|contradiction].
    unfold dat in E. inversion E as [[E1 E2 E3 E4 E5]]. auto.
  - intros f W' NW. destruct (D f) as [(E & L1 & L2 & EW)|[N|[N _]]]; [|contradiction|assumption].
    exfalso. apply NW. unfold waiting in *. rewrite EW in W'.
    unfold dat in E. inversion E as [[E1 E2 E3 E4 E5]]. rewrite E2, E3 in W'.
    destruct W' as (_ & A & B & C). repeat split; auto; congruence.
Qed.

Lemma hadd_step s rem f r : cs s = Some (HAdd rem 0) -> 0 < rem ->
  pq s = f :: r \/ pq s = [] /\ oq s = f :: r ->
  exists s2, step_cs s = Some s2 /\ In (EAssign f) (evt s2).
Proof.
  intros C R Q. unfold step_cs. rewrite C.
  destruct (N.eqb_spec rem 0); [lia|]. change (NUM_WAKERS <=? 0) with false. cbn [orb].
  destruct Q as [Q|[Q1 Q2]].
  - rewrite Q. eexists. split; [reflexivity|now left].
  - rewrite Q1, Q2. eexists. split; [reflexivity|now left].
Qed.

(** A release is not lost while somebody waits: as soon as it gets the lock, its first step
    gives the permit to a waiter. *)
Theorem C21_release_serves_waiter : forall n s i rem g,
  reach n s -> cs s = None -> nth_error (pend s) i = Some rem -> waiting s g ->
  exists s1 s2 f, step s (AAddLock i) = Some s1 /\ step s1 ACs = Some s2 /\
    In (EAssign f) (evt s2) /\ waiting s f.
Proof.
  intros n s i rem g R C E W. assert (I := reach_inv n s R).
  assert (RP : 0 < rem).
  { assert (P := i_pend s I). rewrite Forall_forall in P. apply P. eapply nth_error_In; eassumption. }
  exists (w_cs (w_pend (w_evt s []) (del_nth i (pend s))) (Some (HAdd rem 0))).
  set (s1 := w_cs _ _).
  assert (ST : step s (AAddLock i) = Some s1).
  { unfold step, step0. cbn [cs pend w_evt]. now rewrite C, E. }
  assert (HD : exists f r, waiting s f /\ (pq s = f :: r \/ pq s = [] /\ oq s = f :: r)).
  { destruct (pq s) as [|f r] eqn:PQ; [destruct (oq s) as [|f r] eqn:OQ|].
    - exfalso. destruct (fprio (getf s g)) eqn:P.
      + assert (X : In g (pq s)) by (apply (q_p s (i_q s I)); auto). rewrite PQ in X; contradiction.
      + assert (X : In g (oq s)) by (apply (q_o s (i_q s I)); auto). rewrite OQ in X; contradiction.
    - exists f, r. split; [|auto]. apply (q_o s (i_q s I)). rewrite OQ. now left.
    - exists f, r. split; [|auto]. apply (q_p s (i_q s I)). rewrite PQ. now left. }
  destruct HD as (f & r & WF & Q).
  destruct (hadd_step (w_evt s1 []) rem f r eq_refl RP Q) as (s2 & S2 & EV).
  exists s2, f. auto.
Qed.

(** The counter can never exceed what was issued, so the overflow assertions of
    [add_permits_locked] cannot fire while the issued total is within MAX_PERMITS. *)
Theorem C21_no_overflow : forall n acts s rem cnt,
  exec (init n) acts = Some s -> cs s = Some (HAdd rem cnt) ->
  permits s + rem <= n + added acts.
Proof.
  intros n acts s rem cnt E C. destruct (C21_conservation n acts s E) as [H _].
  unfold in_flight in H. rewrite C in H. cbn [in_cs] in H. lia.
Qed.

(** Closing can lose a permit: a queued future polled spuriously reads "1 needed", is then
    given a permit, takes another one from the counter, and finds the semaphore closed
    (L293-295 return without giving [acquired] back). *)
Theorem C21_permit_lost_on_close_refuted :
  exists n acts s, exec (init n) acts = Some s /\ cs s = None /\ pend s = [] /\
    (forall f, fpc (getf s f) = Gone) /\ held s = 0 /\ permits s + 1 = n + added acts.
Proof.
  exists 1, [ATry; ANew false; APoll 0; AFut 0; AFut 0; AFut 0; ALock 0; ACs; ACs;
             APoll 0; AFut 0; ARelease; AAddLock 0; ACs; ACs; ACs;
             AAddPermits 1; AAddLock 0; ACs; ACs;
             AFut 0; AFut 0; AClose; ACs; ALock 0; ACs; ADrop 0; ALock 0; ACs; ACs]%nat.
  eexists. split; [vm_compute; reflexivity|]. repeat split; try (vm_compute; reflexivity).
  intros [|[|f]]; reflexivity.
Qed.

(** A run with a priority waiter overtaking an older ordinary one. *)
Example C21_case :
  exists s s', exec (init 1) [ATry; ANew false; ANew true;
      APoll 0; AFut 0; AFut 0; AFut 0; ALock 0; ACs; ACs;
      APoll 1; AFut 1; AFut 1; AFut 1; ALock 1; ACs; ACs; ARelease; AAddLock 0]%nat = Some s /\
    waiting s 0 /\ waiting s 1 /\ step s ACs = Some s' /\ In (EAssign 1) (evt s') /\
    waiting s' 0.
Proof.
  eexists. eexists. split; [vm_compute; reflexivity|].
  split; [unfold waiting; cbn; auto|]. split; [unfold waiting; cbn; auto|].
  split; [vm_compute; reflexivity|]. split; [now left|]. unfold waiting; cbn; auto.
Qed.
Print Assumptions C21_grant_order.
Print Assumptions C21_arrival_order.
