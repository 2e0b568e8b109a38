(** Invariants of the executions of the committer. *)
From Coq Require Import List Bool NArith Lia Permutation Sorting.Sorted ZArith ZifyN ZifyNat ZifyBool.
From Verif Require Import AMap DagModel DagGather DagProofs.
Import ListNotations.
Local Open Scope N_scope.

(** the links of the last dequeued anchor [x] and the next one [y], dequeued when the DAG bottom was [b]:
    the proof of [y] is chained to the proof of [x] (within one commit the very point, otherwise the round
    and author of it), or below it, or there was a gap *)
Definition link_ok (x y : adata) (b : N) : Prop :=
  exists l, p_chain (a_proof y) = Some l /\
    (l = p_id (a_proof x) \/
     (pi_round l = p_round (a_proof x) /\ pi_author l = pi_author (p_id (a_proof x))) \/
     pi_round l < p_round (a_proof x) \/
     (p_round (a_proof x) < b /\ pi_round l <= b)).

Lemma links_lt p j : links p j -> pi_round j < p_round p.
Proof. intros [[_ H]|[_ H]]; lia. Qed.

Lemma reach_round d low a i : wf_pts d -> reach d low a i -> pi_round i <= pi_round a /\ (i = a \/ low <= pi_round i).
Proof.
  intros W R. induction R as [|i p j R [IH1 IH2] Hp L Hl]; [split; [lia|now left]|]. split; [|now right].
  apply links_lt in L. assert (E := proj2 W _ _ Hp). unfold p_round in L. rewrite E in L. lia.
Qed.

  Lemma history_limit_mono c r1 r2 : r1 <= r2 -> history_limit c r1 <= history_limit c r2.
  Proof. unfold history_limit. lia. Qed.

Section Inv.
  Variable rng : Type.
  Variable seed : N -> rng.
  Variable shuffle : rng -> list (N * N) -> list (N * N) * rng.
  Variable horder : list (N * N) -> list (N * N).
  Hypothesis shuffle_perm : forall g l, Permutation (fst (shuffle g l)) l.
  Hypothesis horder_perm : forall l, Permutation (horder l) l.

  Local Notation step := (step rng seed shuffle horder).
  Local Notation dequeue_anchor := (dequeue_anchor rng seed shuffle horder).
  Local Notation dequeue_all := (dequeue_all rng seed shuffle horder).
  Local Notation gather := (gather_uncommitted rng seed shuffle horder).
  Local Notation runs := (runs rng seed shuffle horder).

(** what one entry of the log satisfies; [pre]: the entries before it *)
Record entry_good (c : conf) (d : dag) (pre : list (N * adata)) (b : N) (a : adata) : Prop := {
  eg_anchor : In (p_id (a_anchor a), EValid (a_anchor a)) (d_pts d);
  eg_proof : In (p_id (a_proof a), EValid (a_proof a)) (d_pts d);
  eg_isproof : p_is_proof (a_proof a) = true;
  eg_prev : prev_id (a_proof a) = Some (p_id (a_anchor a));
  eg_round : p_round (a_proof a) = p_round (a_anchor a) + 1;
  eg_nd : NoDup (ids a);
  eg_sorted : StronglySorted rle (a_history a);
  eg_holds : forall p, In p (a_history a) -> holds d (p_id p) p;
  eg_ids : forall i, In i (ids a) <->
     reach d (N.max (history_limit c (p_round (a_anchor a))) b) (p_id (a_anchor a)) i /\ ~ In i (log_ids pre);
  eg_held : forall i, reach d (N.max (history_limit c (p_round (a_anchor a))) b) (p_id (a_anchor a)) i -> exists p, holds d i p;
  eg_exec : a_executable a = true -> b <= history_limit c (p_round (a_anchor a));
  eg_low : b <= p_round (a_anchor a);
  eg_order : forall x, In x pre -> p_round (a_proof (snd x)) < p_round (a_proof a) /\ fst x <= b;
  eg_link : forall pre' b' x, pre = pre' ++ [(b', x)] -> link_ok x a b;
  eg_gather : exists dg fhb, gather c dg fhb (a_anchor a) = Ok (a_history a) /\
     (forall x, In x (d_pts dg) -> In x (d_pts d)) /\ wf_pts dg /\ (forall i, committed dg i <-> In i (log_ids pre)) /\
     d_bottom dg = b /\ p_round (a_anchor a) <= d_top dg /\ In (p_id (a_anchor a), EValid (a_anchor a)) (d_pts dg);
  eg_prevanchor : forall r, a_prev_anchor a = Some r -> exists l, p_chain (a_proof a) = Some l /\ r = pi_round l - 1 }.

Inductive log_ok (c : conf) (d : dag) : list (N * adata) -> Prop :=
| log_nil : log_ok c d []
| log_snoc log b a : log_ok c d log -> entry_good c d log b a -> log_ok c d (log ++ [(b, a)]).

Lemma log_ok_split c d log : log_ok c d log -> forall pre b a post, log = pre ++ (b, a) :: post -> entry_good c d pre b a.
Proof.
  induction 1 as [|log b0 a0 L IH G]; intros pre b a post E; [now destruct pre|].
  destruct post as [|x post _] using rev_ind.
  - apply app_inj_tail in E. destruct E as [-> [= -> ->]]. exact G.
  - change (pre ++ (b, a) :: post ++ [x]) with (pre ++ ((b, a) :: post) ++ [x]) in E. rewrite app_assoc in E. apply app_inj_tail in E. destruct E as [-> _].
    eapply IH. reflexivity.
Qed.

(** growing the DAG does not change what was reachable once everything reachable was present *)
Lemma reach_grow d d' low a : wf_pts d' -> (forall i p, holds d i p -> holds d' i p) ->
  (forall i, reach d low a i -> exists p, holds d i p) ->
  forall i, reach d' low a i <-> reach d low a i.
Proof.
  intros W Hs Hh i. split.
  - intros R. induction R as [|i p j R IH Hp L Hl]; [constructor|].
    destruct (Hh i IH) as (q & Hq). assert (q = p) by exact (holds_fun d' i q p W (Hs _ _ Hq) Hp). subst q.
    econstructor; eassumption.
  - intros R. induction R as [|i p j R IH Hp L Hl]; [constructor|]. econstructor; eauto.
Qed.

Lemma entry_good_grow c d d' pre b a : wf_pts d' -> (forall x, In x (d_pts d) -> In x (d_pts d')) ->
  entry_good c d pre b a -> entry_good c d' pre b a.
Proof.
  intros W Hs E.
  assert (Hh : forall i p, holds d i p -> holds d' i p).
  { intros i p [H|(hp & ce & H)]; [left; now apply Hs|right; exists hp, ce; now apply Hs]. }
  assert (G := reach_grow d d' _ _ W Hh (eg_held _ _ _ _ _ E)).
  destruct E as [E1 E2 E3 E4 E5 E6 E7 E8 E9 E10 E11 E12 E13 E14 E16 E15]. constructor; auto.
  - intros i. rewrite G. apply E9.
  - intros i R. apply G in R. destruct (E10 i R) as (p & Hp). eauto.
  - destruct E16 as (dg & fhb & A1 & A2 & A3). exists dg, fhb. split; [exact A1|]. split; [intros x Hx; apply Hs, A2, Hx|exact A3].
Qed.

Lemma log_ok_grow c d d' log : wf_pts d' -> (forall x, In x (d_pts d) -> In x (d_pts d')) -> log_ok c d log -> log_ok c d' log.
Proof. intros W Hs L. induction L; constructor; auto. eapply entry_good_grow; eassumption. Qed.

(** ** The invariant *)
Definition closed_at (d : dag) (low : N) : Prop :=
  forall q p j, committed d q -> holds d q p -> links p j -> low <= pi_round j -> committed d j.

Record finv (owner : N -> N) (c : conf) (s : committer) (log : list (N * adata)) : Prop := {
  fi_p : pinv owner (c_dag s) (log_ids log);
  fi_bb : d_bottom (c_dag s) <= base (c_dag s) <= d_top (c_dag s);
  fi_used : forall r a, aget N.eqb r (d_used (c_dag s)) = Some a -> r <= base (c_dag s);
  fi_le : forall i, committed (c_dag s) i -> pi_round i < base (c_dag s);
  fi_closed : closed_at (c_dag s) (N.max (d_bottom (c_dag s)) (history_limit c (base (c_dag s) - 1)));
  fi_log : log_ok c (c_dag s) log;
  fi_logle : forall x, In x log -> p_round (a_proof (snd x)) <= base (c_dag s) /\ fst x <= d_bottom (c_dag s);
  fi_last : match d_last (c_dag s) with
            | Some p => exists log' b a, log = log' ++ [(b, a)] /\ p = p_round (a_proof a) /\
                                   aget N.eqb p (d_used (c_dag s)) = Some (pi_author (p_id (a_proof a)))
            | None => forall x, In x log -> p_round (a_proof (snd x)) < d_bottom (c_dag s)
            end;
  fi_exec : d_bottom (c_dag s) <= N.max (genesis c + 1) (N.max (c_first_exec s - hist_rounds c) (base (c_dag s) - 1 - hist_rounds c)) }.

  (** with the marks closed, reachable-and-unmarked is what the walk finds *)
  Lemma reach_ureach d low a : closed_at d low ->
    forall i, reach d low a i -> ureach d low a i \/ committed d i.
  Proof.
    intros C i R. induction R as [|i p j R IH Hp L Hl]; [left; constructor|].
    destruct (is_committed d i) eqn:E.
    - right. apply is_committed_spec in E. eapply C; eassumption.
    - apply is_committed_false in E. destruct IH as [U|U]; [|contradiction]. left. econstructor; eassumption.
  Qed.
  Lemma ureach_reach d low a i : ureach d low a i -> reach d low a i.
  Proof. intros R. induction R; [constructor|econstructor; eassumption]. Qed.

  Lemma prev_id_author p i : prev_id p = Some i -> pi_author i = pi_author (p_id p).
  Proof. unfold prev_id. destruct (p_prev p); [intros [= <-]; reflexivity|discriminate]. Qed.

  Lemma finv_dequeue owner c s log e s' a :
    finv owner c s log ->
    good (c_dag s) (N.max (base (c_dag s)) (d_bottom (c_dag s))) (d_top (c_dag s)) e ->
    (forall log' b x, log = log' ++ [(b, x)] -> link_ok x (mkadata (q_anchor e) (q_proof e) None [] true) (d_bottom (c_dag s))) ->
    dequeue_anchor c s e = Ok (s', a) ->
    finv owner c s' (log ++ [(d_bottom (c_dag s), a)]) /\
    d_bottom (c_dag s') = d_bottom (c_dag s) /\ d_top (c_dag s') = d_top (c_dag s) /\ d_pts (c_dag s') = d_pts (c_dag s) /\
    base (c_dag s') = p_round (q_proof e) /\ a_proof a = q_proof e.
  Proof.
    intros F G Hl E. destruct F as [F1 F2 F3 F4 F5 F6 F7 F8 F9].
    destruct (dequeue_spec rng seed shuffle horder shuffle_perm horder_perm owner c s e s' a (log_ids log) _ F1 G ltac:(lia) E)
      as (A1 & A2 & A3 & A4 & A5 & A6 & A7 & A8 & A9 & A10 & A11 & A12 & A13 & A14 & A15 & A16).
    set (d := c_dag s) in *. set (d' := c_dag s') in *.
    assert (Bs : base d' = p_round (q_proof e)) by (unfold base; now rewrite A8).
    pose proof (go_lo _ _ _ _ G) as Glo. pose proof (go_hi _ _ _ _ G) as Ghi. pose proof (go_round _ _ _ _ G) as Grd.
    set (R := p_round (q_anchor e)) in *.
    assert (Hbt : d_bottom d <= R <= d_top d) by lia.
    destruct (gather_spec rng seed shuffle horder shuffle_perm horder_perm owner c d (c_fhb s) (q_anchor e) (a_history a)
       (pi_bind _ _ _ F1) (pi_wf _ _ _ F1) (or_introl (go_anchor _ _ _ _ G)) Hbt A3) as (G1 & G2 & G3 & G4 & G5 & G6 & G7).
    fold R in G1, G2, G6, G7. set (low := N.max (history_limit c R) (d_bottom d)) in *.
    assert (Hlow : N.max (d_bottom d) (history_limit c (base d - 1)) <= low).
    { pose proof (history_limit_mono c (base d - 1) R ltac:(lia)). lia. }
    assert (Cl : closed_at d low).
    { intros q p j C Hp L Hj. eapply F5; eauto. lia. }
    assert (RU : forall i, reach d low (p_id (q_anchor e)) i /\ ~ committed d i <-> In i (ids a)).
    { intros i. unfold ids. rewrite G6. split.
      - intros [Rr NC]. split; auto. destruct (reach_ureach d low _ Cl i Rr); [assumption|contradiction].
      - intros [U NC]. split; auto. now apply ureach_reach. }
    assert (Hh : forall i p, holds d' i p <-> holds d i p) by (intros; unfold holds; rewrite A6; reflexivity).
    assert (RR : forall i, reach d low (p_id (q_anchor e)) i -> exists p, holds d i p).
    { intros i Rr. destruct (reach_ureach d low _ Cl i Rr) as [U|C]; [now apply G7|]. now apply (pi_held _ _ _ F1). }
    assert (RE : forall i, reach d' low (p_id (q_anchor e)) i <-> reach d low (p_id (q_anchor e)) i).
    { apply reach_grow; auto; [exact (pi_wf _ _ _ A16)|]. intros; now apply Hh. }
    assert (W' := pi_wf _ _ _ A16).
    split; [|repeat split; auto; unfold d; auto].
    constructor; fold d'.
    - rewrite log_ids_app. unfold log_ids at 2. cbn [flat_map snd]. rewrite app_nil_r. exact A16.
    - rewrite Bs, A4, A5. lia.
    - intros r x. rewrite A7, (aget_aset N.eqb N.eqb_spec), Bs. destruct (N.eqb_spec r (p_round (q_proof e))) as [->|]; [lia|].
      intros U. apply F3 in U. lia.
    - intros i C. rewrite Bs. apply A11 in C. destruct C as [C|C].
      + apply F4 in C. lia.
      + apply RU in C. destruct C as [C _]. apply reach_round in C; [|exact (pi_wf _ _ _ F1)]. unfold R, p_round in *. lia.
    - rewrite Bs, A4. replace (p_round (q_proof e) - 1) with R by lia. rewrite N.max_comm. fold low.
      intros q p j C Hp L Hj. apply Hh in Hp. apply A11 in C. apply A11. destruct C as [C|C].
      + left. eapply Cl; eassumption.
      + apply RU in C. destruct C as [Cr CN].
        assert (Rj : reach d low (p_id (q_anchor e)) j) by (econstructor; eassumption).
        destruct (is_committed d j) eqn:Ej; [left; now apply is_committed_spec|]. right. apply RU. split; auto. now apply is_committed_false.
    - constructor.
      + apply log_ok_grow with (d := d); auto. rewrite A6. auto.
      + constructor; rewrite ?A1, ?A2.
        * rewrite A6. exact (go_anchor _ _ _ _ G).
        * rewrite A6. exact (go_proof _ _ _ _ G).
        * exact (go_isproof _ _ _ _ G).
        * exact (go_prev _ _ _ _ G).
        * exact Grd.
        * exact G3.
        * exact G4.
        * intros p Hp. apply Hh. now apply G5.
        * intros i. fold R low. rewrite <- RU, RE, <- (pi_marks _ _ _ F1). reflexivity.
        * intros i. fold R low. rewrite RE. intros Rr. destruct (RR i Rr) as (p & Hp). exists p. now apply Hh.
        * intros Ex. rewrite A12 in Ex. fold R in Ex. fold R. apply N.leb_le in Ex. unfold history_limit. lia.
        * fold R. lia.
        * intros x Hx. destruct (F7 x Hx). split; [lia|assumption].
        * intros pre' b' x Ep. destruct (Hl _ _ _ Ep) as (l & L1 & L2). exists l. rewrite A2. cbn [a_proof] in L1. auto.
        * exists d, (c_fhb s). split; [exact A3|]. rewrite A6. split; [auto|]. split; [exact (pi_wf _ _ _ F1)|].
          split; [exact (pi_marks _ _ _ F1)|]. split; [reflexivity|]. split; [fold R; lia|exact (go_anchor _ _ _ _ G)].
        * intros r Hr. destruct (go_chain _ _ _ _ G) as (l & L1 & L2). exists l. split; auto. destruct A15 as [A15|A15]; rewrite A15 in Hr; [discriminate|].
          injection Hr as <-. now rewrite L2.
    - intros x Hx. rewrite Bs, A4. apply in_app_iff in Hx. destruct Hx as [Hx|[<-|[]]].
      + destruct (F7 x Hx). split; [lia|assumption].
      + cbn [snd fst]. rewrite A2. lia.
    - rewrite A8. exists log, (d_bottom d), a. split; auto. rewrite A2. split; auto. rewrite A7, (aget_aset N.eqb N.eqb_spec), N.eqb_refl.
      f_equal. apply prev_id_author. exact (go_prev _ _ _ _ G).
    - rewrite Bs, A4, A14. lia.
  Qed.

  Lemma good_weaken d d' lo lo' hi hi' e : d_pts d' = d_pts d -> good d lo hi e ->
    lo' <= p_round (q_anchor e) -> p_round (q_proof e) <= hi' -> good d' lo' hi' e.
  Proof. intros E [G1 G2 G3 G4 G5 G6 G7 G8] H1 H2. constructor; auto; rewrite E; assumption. Qed.

  Lemma finv_dequeue_all owner c : forall chain s log s' dq r,
    finv owner c s log ->
    (forall e, In e chain -> good (c_dag s) (N.max (base (c_dag s)) (d_bottom (c_dag s))) (d_top (c_dag s)) e) ->
    StronglySorted qlt chain -> linked chain ->
    match chain with
    | [] => True
    | e :: _ => forall log' b x, log = log' ++ [(b, x)] -> link_ok x (mkadata (q_anchor e) (q_proof e) None [] true) (d_bottom (c_dag s))
    end ->
    dequeue_all c s chain = (s', dq, r) ->
    finv owner c s' (log ++ map (pair (d_bottom (c_dag s))) dq).
  Proof.
    induction chain as [|e chain IH]; intros s log s' dq r F G So L H E; cbn [DagModel.dequeue_all] in E.
    - injection E as <- <- <-. cbn [map]. rewrite app_nil_r. exact F.
    - destruct (DagModel.dequeue_anchor rng seed shuffle horder c s e) as [[s1 a]| | |] eqn:D;
        try (injection E as <- <- <-; cbn [map]; rewrite app_nil_r; exact F).
      destruct (finv_dequeue owner c s log e s1 a F (G e (or_introl eq_refl)) H D) as (F1 & B1 & B2 & B3 & B4 & B5).
      destruct (DagModel.dequeue_all rng seed shuffle horder c s1 chain) as [[s2 dq2] r2] eqn:D2. cbn [fst snd] in E.
      injection E as <- <- <-. cbn [map]. inversion So as [|x y So1 So2]; subst. rewrite Forall_forall in So2.
      specialize (IH s1 _ s2 dq2 r2 F1). rewrite B1 in IH.
      replace (log ++ (d_bottom (c_dag s), a) :: map (pair (d_bottom (c_dag s))) dq2)
        with ((log ++ [(d_bottom (c_dag s), a)]) ++ map (pair (d_bottom (c_dag s))) dq2) by (rewrite <- app_assoc; reflexivity).
      apply IH; auto.
      + intros e' I'. assert (G' := G e' (or_intror I')). specialize (So2 _ I'). unfold qlt in So2.
        eapply good_weaken; [exact B3|exact G'| |].
        * rewrite B4. pose proof (go_round _ _ _ _ G'). pose proof (go_lo _ _ _ _ G'). lia.
        * rewrite B2. exact (go_hi _ _ _ _ G').
      + destruct chain as [|e2 chain]; [exact Logic.I|]. exact (proj2 L).
      + destruct chain as [|e2 chain]; [exact Logic.I|]. intros log' b x Ex. apply app_inj_tail in Ex. destruct Ex as [_ [= <- <-]].
        exists (p_id (q_proof e)). cbn [a_proof]. split; [exact (proj1 L)|]. left. now rewrite B5.
  Qed.

  Lemma base_set b t p u k l : base (mkdag b t p u k l) = match l with Some x => x | None => b end.
  Proof. reflexivity. Qed.

  Lemma finv_commit owner c s log t s' dq r :
    finv owner c s log -> commit rng seed shuffle horder c s t = (s', dq, r) ->
    finv owner c s' (log ++ map (pair (d_bottom (c_dag s))) dq).
  Proof.
    intros F E. assert (Same : (s, @nil adata) = (s', dq) -> finv owner c s' (log ++ map (pair (d_bottom (c_dag s))) dq)).
    { intros [= <- <-]. cbn [map]. rewrite app_nil_r. exact F. }
    unfold commit in E. destruct t as [p|p hp ce|r0 ce|].
    - destruct (negb (p_is_trigger p)); [apply Same; congruence|]. destruct (p_round p <? d_bottom (c_dag s)); [apply Same; congruence|].
      destruct (p_round p =? genesis c); [apply Same; congruence|].
      destruct (anchor_chain (c_dag s) p) as [chain| | |] eqn:A; try (apply Same; congruence).
      destruct (anchor_chain_spec _ _ _ (pi_wf _ _ _ (fi_p _ _ _ _ F)) A) as (G & So & L & H).
      eapply finv_dequeue_all; try eassumption.
      destruct chain as [|e chain]; [exact Logic.I|]. intros log' b x Ex. destruct H as (l & H1 & H2 & H3).
      exists l. cbn [a_proof]. split; [exact H1|].
      pose proof (fi_last _ _ _ _ F) as FL. pose proof (fi_bb _ _ _ _ F) as FB. unfold base in H2, H3, FB.
      destruct (d_last (c_dag s)) as [lp|].
      + destruct FL as (log2 & b2 & a2 & E2 & E3 & E4). rewrite Ex in E2. apply app_inj_tail in E2. destruct E2 as [_ [= <- <-]].
        destruct (N.eq_dec (pi_round l) lp) as [El|]; [|right; right; left; lia].
        right. left. split; [congruence|]. apply H3; [lia|]. now rewrite El.
      + right. right. right. split; [|lia]. apply (FL (b, x)). rewrite Ex. apply in_app_iff. right. now left.
    - destruct (hp && (d_bottom (c_dag s) <=? p_round p)); apply Same; congruence.
    - destruct (ce && (d_bottom (c_dag s) <=? r0)); apply Same; congruence.
    - apply Same; congruence.
  Qed.

  Definition env (owner : N -> N) (c : conf) (s : committer) (o : op) : Prop := env_points owner s o /\ env_calls c s o.

  (** a change of the frame only: bottom up, base up, marks, used proofs and points kept *)
  Lemma finv_frame owner c s log b' t' l' fhb gap fe :
    let d := c_dag s in
    let d' := mkdag b' t' (d_pts d) (d_used d) (d_committed d) l' in
    finv owner c s log ->
    d_bottom d <= b' -> base d <= base d' -> b' <= base d' <= t' ->
    (match l' with Some p => d_last d = Some p | None => base d < b' \/ (d_last d = None /\ base d <= b') end) ->
    b' <= N.max (genesis c + 1) (N.max (fe - hist_rounds c) (base d' - 1 - hist_rounds c)) ->
    finv owner c (mkcom d' fhb gap fe) log.
  Proof.
    intros d d' [F1 F2 F3 F4 F5 F6 F7 F8 F9] H1 H2 H3 H4 H5. fold d in F1, F2, F3, F4, F5, F6, F7, F8, F9.
    assert (W : wf_pts d') by exact (pi_wf _ _ _ F1).
    constructor; cbn [c_dag c_first_exec]; fold d'.
    - destruct F1 as [P1 P2 P3 P4 P5 P6]. constructor; auto. cbn [d' d_bottom d_top]. lia.
    - cbn [d' d_bottom d_top]. exact H3.
    - intros r a U. apply F3 in U. lia.
    - intros i C. apply F4 in C. lia.
    - intros q p j C Hp L Hj. apply (F5 q p j C Hp L). cbn [d' d_bottom] in Hj. fold d' in Hj.
      pose proof (history_limit_mono c (base d - 1) (base d' - 1) ltac:(lia)). lia.
    - apply log_ok_grow with (d := d); auto.
    - intros x Hx. destruct (F7 x Hx). cbn [d' d_bottom]. fold d'. lia.
    - cbn [d' d_last d_used d_bottom]. destruct l' as [p|].
      + rewrite H4 in F8. exact F8.
      + intros x Hx. destruct H4 as [H4|[H4 H4']]; [destruct (F7 x Hx); lia|]. rewrite H4 in F8. specialize (F8 x Hx). lia.
    - exact H5.
  Qed.

  Lemma finv_step owner c s log o s' sent dq :
    finv owner c s log -> env owner c s o -> step c s o = Some (s', sent, dq) ->
    finv owner c s' (log ++ map (pair (d_bottom (c_dag s))) dq).
  Proof.
    intros F [Ep Ec] E.
    assert (Same : (s, @nil adata, @nil adata) = (s', sent, dq) -> finv owner c s' (log ++ map (pair (d_bottom (c_dag s))) dq)).
    { intros [= <- _ <-]. cbn [map]. rewrite app_nil_r. exact F. }
    assert (Hb := fi_bb _ _ _ _ F). assert (Hx := fi_exec _ _ _ _ F). assert (Hbt := pi_bt _ _ _ (fi_p _ _ _ _ F)).
    assert (Hbase : base (c_dag s) = match d_last (c_dag s) with Some x => x | None => d_bottom (c_dag s) end) by reflexivity.
    destruct o as [i e|fb ft|t|nb|ar| |r|b]; cbn [DagModel.step] in E.
    - destruct (aget pid_eqb i (d_pts (c_dag s))) as [e0|] eqn:Eg; [apply Same; congruence|]. injection E as <- <- <-. cbn [map]. rewrite app_nil_r.
      destruct F as [F1 F2 F3 F4 F5 F6 F7 F8 F9]. cbn [env_points] in Ep. destruct Ep as [Eo Ee].
      set (d := c_dag s) in *. set (d' := mkdag (d_bottom d) (d_top d) ((i, e) :: d_pts d) (d_used d) (d_committed d) (d_last d)).
      assert (Nin : forall e', ~ In (i, e') (d_pts d)).
      { intros e' I. destruct F1 as [[ND _] _ _ _ _ _]. apply (in_aget _ _ _ ND) in I. congruence. }
      assert (Hh : forall j p, holds d' j p <-> holds d j p \/ (j = i /\ (e = EValid p \/ exists hp ce, e = ETransInvalid p hp ce))).
      { intros j p. unfold holds. cbn [d' d_pts In]. split.
        - intros [[I|I]|(hp & ce & [I|I])]; [injection I as <- ->; right; eauto|left; eauto|injection I as <- ->; right; eauto 6|left; eauto].
        - intros [[I|(hp & ce & I)]|[-> [->|(hp & ce & ->)]]]; eauto 6. }
      destruct F1 as [[W1 W2] [B1 B2] P3 P4 P5 P6].
      assert (W' : wf_pts d').
      { split; cbn [d' d_pts map fst].
        - constructor; auto. intros I. apply in_map_iff in I. destruct I as ([i' e'] & E1 & E2). cbn [fst] in E1. subst. exact (Nin _ E2).
        - intros j p Hp. apply Hh in Hp. destruct Hp as [Hp|[-> [->|(hp & ce & ->)]]]; [now apply W2| |]; exact (proj1 Ee). }
      constructor; cbn [set_dag c_dag c_first_exec]; fold d'; auto.
      + constructor; auto.
        * split.
          -- intros j e' I. cbn [d' d_pts In] in I. destruct I as [[= <- <-]|I]; [exact Eo|]. eapply B1; eassumption.
          -- intros j p Hp. apply Hh in Hp. destruct Hp as [Hp|[-> [->|(hp & ce & ->)]]]; [now apply (B2 j)| |]; exact (proj2 Ee).
        * intros j C. destruct (P5 j C) as (p & Hp). exists p. apply Hh. now left.
      + intros q p j C Hp. apply Hh in Hp. destruct Hp as [Hp|[-> _]]; [apply (F5 q p j C Hp)|].
        exfalso. destruct (P5 i C) as (p' & [I|(hp & ce & I)]); exact (Nin _ I).
      + apply log_ok_grow with (d := d); auto. intros x I. right. exact I.
    - destruct (ft <? fb); [apply Same; congruence|]. destruct (d_top (c_dag s) + 1 <? fb); [discriminate|].
      injection E as <- <- <-. cbn [map]. rewrite app_nil_r. unfold set_dag. apply finv_frame; auto; try rewrite base_set; try lia.
      destruct (d_last (c_dag s)); [reflexivity|]. right. split; [reflexivity|]. lia.
    - destruct (commit rng seed shuffle horder c s t) as [[s1 dq1] r1] eqn:Ecm. cbn [fst snd] in E.
      destruct r1; try discriminate; injection E as <- <- <-; eapply finv_commit; eassumption.
    - injection E as <- <- <-. cbn [map]. rewrite app_nil_r. cbn [env_calls] in Ec. unfold drop_upto, drain_upto.
      cbn [d_bottom d_top d_pts d_used d_committed d_last]. apply finv_frame; auto; try rewrite base_set.
      + lia.
      + rewrite Hbase in *. destruct (d_last (c_dag s)) as [l|]; [|lia]. destruct (N.ltb_spec l (N.min nb (d_top (c_dag s)))); lia.
      + rewrite Hbase in *. destruct (d_last (c_dag s)) as [l|]; [|lia]. destruct (N.ltb_spec l (N.min nb (d_top (c_dag s)))); lia.
      + rewrite Hbase in *. destruct (d_last (c_dag s)) as [l|]; [|right; split; [reflexivity|lia]].
        destruct (N.ltb_spec l (N.min nb (d_top (c_dag s)))); [left; lia|reflexivity].
      + lia.
    - destruct (d_top (c_dag s) <? ar - hist_rounds c) eqn:El; [discriminate|]. injection E as <- <- <-. cbn [map]. rewrite app_nil_r.
      cbn [env_calls] in Ec. unfold set_dag, drain_upto. destruct (d_last (c_dag s)) as [l|] eqn:Edl; [|contradiction].
      apply finv_frame; auto; try rewrite base_set; try lia.
    - assert (G : forall g, finv owner c (mkcom (c_dag s) (c_fhb s) g (c_first_exec s)) log).
      { intros g. destruct F; constructor; assumption. }
      destruct (c_gap s) as [[|]|]; [apply Same; congruence| |apply Same; congruence].
      injection E as <- <- <-. cbn [map]. rewrite app_nil_r. apply G.
    - injection E as <- <- <-. cbn [map]. rewrite app_nil_r. cbn [env_calls] in Ec. destruct F; constructor; auto. cbn [c_dag c_first_exec]. lia.
    - injection E as <- <- <-. cbn [map]. rewrite app_nil_r. cbn [env_calls] in Ec. unfold init.
      apply finv_frame; auto; try rewrite base_set; try lia.
      destruct (b <=? genesis c + hist_rounds c) eqn:Eb; lia.
  Qed.

  Lemma finv_start owner c ga gap : finv owner c (start c ga gap) [].
  Proof.
    unfold start, init. constructor; cbn [c_dag c_first_exec d_pts d_used d_committed d_bottom d_top].
    - constructor; cbn [d_pts d_bottom d_top].
      + split; [constructor|]. intros i p [[]|(hp & ce & [])].
      + split; [intros ? ? []|]. intros i p [[]|(hp & ce & [])].
      + lia.
      + intros i. reflexivity.
      + intros i [].
      + constructor.
    - rewrite base_set. lia.
    - intros r a. rewrite base_set. cbn [aget]. destruct (N.eqb_spec r (genesis c)); [lia|discriminate].
    - intros i [].
    - intros q p j [].
    - constructor.
    - intros x [].
    - cbn [d_last]. intros x [].
    - lia.
  Qed.

  Theorem finv_runs owner c s sent log : runs c (env owner c) s sent log -> finv owner c s log.
  Proof.
    intros R. induction R as [ga gap|s sent log o s' sent1 dq1 R IH Ev St]; [apply finv_start|].
    eapply finv_step; eassumption.
  Qed.

  (** ** the same for the marks only, whatever the calls *)
  Lemma pinv_dequeue_all owner c : forall chain s marked s' dq r lo,
    pinv owner (c_dag s) marked -> d_bottom (c_dag s) <= lo ->
    (forall e, In e chain -> good (c_dag s) lo (d_top (c_dag s)) e) ->
    dequeue_all c s chain = (s', dq, r) ->
    pinv owner (c_dag s') (marked ++ flat_map ids dq).
  Proof.
    induction chain as [|e chain IH]; intros s marked s' dq r lo P Hlo G E; cbn [DagModel.dequeue_all] in E.
    - injection E as <- <- <-. cbn [flat_map]. rewrite app_nil_r. exact P.
    - destruct (DagModel.dequeue_anchor rng seed shuffle horder c s e) as [[s1 a]| | |] eqn:D;
        try (injection E as <- <- <-; cbn [flat_map]; rewrite app_nil_r; exact P).
      destruct (dequeue_spec rng seed shuffle horder shuffle_perm horder_perm owner c s e s1 a marked lo P (G e (or_introl eq_refl)) Hlo D)
        as (A1 & A2 & A3 & A4 & A5 & A6 & A7 & A8 & A9 & A10 & A11 & A12 & A13 & A14 & A15 & A16).
      destruct (DagModel.dequeue_all rng seed shuffle horder c s1 chain) as [[s2 dq2] r2] eqn:D2. cbn [fst snd] in E.
      injection E as <- <- <-. cbn [flat_map]. rewrite app_assoc. eapply IH with (lo := lo); [exact A16|lia| |exact D2].
      intros e' I'. assert (G' := G e' (or_intror I')). eapply good_weaken; [exact A6|exact G'|exact (go_lo _ _ _ _ G')|].
      rewrite A5. exact (go_hi _ _ _ _ G').
  Qed.

  Lemma pinv_frame owner d marked b t u l : pinv owner d marked -> b <= t -> pinv owner (mkdag b t (d_pts d) u (d_committed d) l) marked.
  Proof. intros [P1 P2 P3 P4 P5 P6] H. constructor; auto. Qed.

  Lemma pinv_step owner c s marked o s' sent dq :
    pinv owner (c_dag s) marked -> env_points owner s o -> step c s o = Some (s', sent, dq) ->
    pinv owner (c_dag s') (marked ++ flat_map ids dq).
  Proof.
    intros P Ep E.
    assert (Same : (s, @nil adata, @nil adata) = (s', sent, dq) -> pinv owner (c_dag s') (marked ++ flat_map ids dq)).
    { intros [= <- _ <-]. cbn [flat_map]. rewrite app_nil_r. exact P. }
    assert (Hbt := pi_bt _ _ _ P).
    destruct o as [i e|fb ft|t|nb|ar| |r|b]; cbn [DagModel.step] in E.
    - destruct (aget pid_eqb i (d_pts (c_dag s))) as [e0|] eqn:Eg; [apply Same; congruence|]. injection E as <- <- <-. cbn [flat_map]. rewrite app_nil_r.
      cbn [env_points] in Ep. destruct Ep as [Eo Ee]. cbn [set_dag c_dag].
      set (d := c_dag s) in *. set (d' := mkdag (d_bottom d) (d_top d) ((i, e) :: d_pts d) (d_used d) (d_committed d) (d_last d)).
      destruct P as [[W1 W2] [B1 B2] P3 P4 P5 P6].
      assert (Nin : forall e', ~ In (i, e') (d_pts d)).
      { intros e' I. apply (in_aget _ _ _ W1) in I. congruence. }
      assert (Hh : forall j p, holds d' j p <-> holds d j p \/ (j = i /\ (e = EValid p \/ exists hp ce, e = ETransInvalid p hp ce))).
      { intros j p. unfold holds. cbn [d' d_pts In]. split.
        - intros [[I|I]|(hp & ce & [I|I])]; [injection I as <- ->; right; eauto|left; eauto|injection I as <- ->; right; eauto 6|left; eauto].
        - intros [[I|(hp & ce & I)]|[-> [->|(hp & ce & ->)]]]; eauto 6. }
      constructor; auto.
      + split; cbn [d' d_pts map fst].
        * constructor; auto. intros I. apply in_map_iff in I. destruct I as ([i' e'] & E1 & E2). cbn [fst] in E1. subst. exact (Nin _ E2).
        * intros j p Hp. apply Hh in Hp. destruct Hp as [Hp|[-> [->|(hp & ce & ->)]]]; [now apply W2| |]; exact (proj1 Ee).
      + split.
        * intros j e' I. cbn [d' d_pts In] in I. destruct I as [[= <- <-]|I]; [exact Eo|]. eapply B1; eassumption.
        * intros j p Hp. apply Hh in Hp. destruct Hp as [Hp|[-> [->|(hp & ce & ->)]]]; [now apply (B2 j)| |]; exact (proj2 Ee).
      + intros j C. destruct (P5 j C) as (p & Hp). exists p. apply Hh. now left.
    - destruct (ft <? fb); [apply Same; congruence|]. destruct (d_top (c_dag s) + 1 <? fb); [discriminate|].
      injection E as <- <- <-. cbn [flat_map]. rewrite app_nil_r. apply pinv_frame; [exact P|lia].
    - destruct (commit rng seed shuffle horder c s t) as [[s1 dq1] r1] eqn:Ecm. cbn [fst snd] in E.
      assert (G : pinv owner (c_dag s1) (marked ++ flat_map ids dq1)).
      { assert (Same' : (s, @nil adata) = (s1, dq1) -> pinv owner (c_dag s1) (marked ++ flat_map ids dq1)).
        { intros [= <- <-]. cbn [flat_map]. rewrite app_nil_r. exact P. }
        unfold commit in Ecm. destruct t as [p|p hp ce|r0 ce|].
        - destruct (negb (p_is_trigger p)); [apply Same'; congruence|]. destruct (p_round p <? d_bottom (c_dag s)); [apply Same'; congruence|].
          destruct (p_round p =? genesis c); [apply Same'; congruence|].
          destruct (anchor_chain (c_dag s) p) as [chain| | |] eqn:A; try (apply Same'; congruence).
          destruct (anchor_chain_spec _ _ _ (pi_wf _ _ _ P) A) as (G & _). eapply pinv_dequeue_all; [exact P| |exact G|exact Ecm]. lia.
        - destruct (hp && (d_bottom (c_dag s) <=? p_round p)); apply Same'; congruence.
        - destruct (ce && (d_bottom (c_dag s) <=? r0)); apply Same'; congruence.
        - apply Same'; congruence. }
      destruct r1; try discriminate; injection E as <- <- <-; exact G.
    - injection E as <- <- <-. cbn [flat_map]. rewrite app_nil_r. unfold drop_upto, drain_upto.
      cbn [c_dag d_bottom d_top d_pts d_used d_committed d_last]. apply pinv_frame; [exact P|lia].
    - destruct (d_top (c_dag s) <? ar - hist_rounds c) eqn:El; [discriminate|]. injection E as <- <- <-. cbn [flat_map]. rewrite app_nil_r.
      unfold set_dag, drain_upto. cbn [c_dag]. apply pinv_frame; [exact P|lia].
    - destruct (c_gap s) as [[|]|]; [apply Same; congruence| |apply Same; congruence].
      injection E as <- <- <-. cbn [flat_map]. rewrite app_nil_r. exact P.
    - injection E as <- <- <-. cbn [flat_map]. rewrite app_nil_r. exact P.
    - injection E as <- <- <-. cbn [flat_map]. rewrite app_nil_r. unfold init. cbn [c_dag]. apply pinv_frame; [exact P|lia].
  Qed.

  Lemma log_ids_map b dq : log_ids (map (pair b) dq) = flat_map ids dq.
  Proof. unfold log_ids. induction dq as [|a dq IH]; cbn [map flat_map snd]; [reflexivity|]. now rewrite IH. Qed.

  Theorem pinv_runs owner c s sent log : runs c (env_points owner) s sent log -> pinv owner (c_dag s) (log_ids log).
  Proof.
    intros R. induction R as [ga gap|s sent log o s' sent1 dq1 R IH Ev St].
    - exact (fi_p _ _ _ _ (finv_start owner c ga gap)).
    - rewrite log_ids_app, log_ids_map. eapply pinv_step; eassumption.
  Qed.
End Inv.
