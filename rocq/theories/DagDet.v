(** The committed history is a function of the DAG above the limit and of the marks: hash iteration
    order and the rest of the node state do not matter. *)
From Coq Require Import List Bool NArith Lia Permutation Sorting.Sorted ZArith ZifyN ZifyNat ZifyBool.
From Verif Require Import AMap DagModel DagGather DagProofs DagRuns.
Import ListNotations.
Local Open Scope N_scope.

Definition dple (a b : N * N) : Prop := dp_leb a b = true.
Lemma dple_total a b : dple a b \/ dple b a.
Proof. unfold dple, dp_leb. lia. Qed.
Lemma dple_trans a b c : dple a b -> dple b c -> dple a c.
Proof. unfold dple, dp_leb. lia. Qed.
Lemma dple_antisym a b : dple a b -> dple b a -> a = b.
Proof. destruct a as [x y], b as [x' y']. unfold dple, dp_leb. cbn [fst snd]. intros. f_equal; lia. Qed.

Lemma dp_ins_sorted x l : StronglySorted dple l -> StronglySorted dple (dp_ins x l).
Proof.
  induction l as [|y l IH]; intros H; cbn [dp_ins]; [repeat constructor|]. inversion H as [|a b H2 H3]; subst.
  destruct (dp_leb x y) eqn:E.
  - constructor; [exact H|]. constructor; [exact E|]. eapply Forall_impl; [|exact H3]. cbn beta. intros z Hz. eapply dple_trans; [exact E|exact Hz].
  - constructor; [apply IH; exact H2|]. apply Forall_forall. intros z Hz. apply (Permutation_in _ (dp_ins_perm x l)) in Hz.
    destruct Hz as [<-|Hz]; [|rewrite Forall_forall in H3; now apply H3]. destruct (dple_total y x) as [T|T]; [exact T|]. unfold dple in T. congruence.
Qed.
Lemma dp_sort_sorted l : StronglySorted dple (dp_sort l).
Proof. induction l; cbn [dp_sort]; [constructor|]. now apply dp_ins_sorted. Qed.

Lemma dp_sorted_unique : forall a b, StronglySorted dple a -> StronglySorted dple b -> Permutation a b -> a = b.
Proof.
  induction a as [|x a IH]; intros b Sa Sb P.
  - apply Permutation_nil in P. now subst.
  - destruct b as [|y b]; [apply Permutation_sym, Permutation_nil in P; discriminate|].
    inversion Sa as [|? ? Sa1 Sa2]; inversion Sb as [|? ? Sb1 Sb2]; subst. rewrite Forall_forall in Sa2, Sb2.
    assert (x = y).
    { assert (I1 : In x (y :: b)) by (eapply Permutation_in; [exact P|now left]).
      assert (I2 : In y (x :: a)) by (eapply Permutation_in; [symmetry; exact P|now left]).
      destruct I1 as [|I1]; [auto|]. destruct I2 as [|I2]; [auto|]. apply dple_antisym; auto. }
    subst. f_equal. apply IH; auto. now apply Permutation_cons_inv in P.
Qed.
Lemma dp_sort_canon a b : Permutation a b -> dp_sort a = dp_sort b.
Proof.
  intros P. apply dp_sorted_unique; try apply dp_sort_sorted. rewrite dp_sort_perm, P. symmetry. apply dp_sort_perm.
Qed.

Section Det.
  Variable rng : Type.
  Variable seed : N -> rng.
  Variable shuffle : rng -> list (N * N) -> list (N * N) * rng.
  Hypothesis shuffle_perm : forall g l, Permutation (fst (shuffle g l)) l.
  Variables h1 h2 : list (N * N) -> list (N * N).
  Hypothesis h1_perm : forall l, Permutation (h1 l) l.
  Hypothesis h2_perm : forall l, Permutation (h2 l) l.

  Lemma extend_perm owner m1 m2 from : owned owner m1 -> NoDup (map fst m1) -> owned owner m2 -> NoDup (map fst m2) ->
    (forall pe dg, In (pe, dg) from -> pe = owner dg) -> Permutation m1 m2 ->
    Permutation (extend h1 m1 from) (extend h2 m2 from).
  Proof.
    intros O1 N1 O2 N2 Hf P.
    destruct (extend_spec rng seed h1 h1_perm owner m1 from O1 N1 Hf) as (A1 & A2 & A3).
    destruct (extend_spec rng seed h2 h2_perm owner m2 from O2 N2 Hf) as (B1 & B2 & B3).
    apply NoDup_Permutation; [now apply nodup_fst|now apply nodup_fst|]. intros [dg pe]. rewrite A3, B3.
    split; (intros [H|H]; [left|now right]); [apply (Permutation_in _ P)|apply (Permutation_in _ (Permutation_sym P))]; exact H.
  Qed.

  Definition agree (d1 d2 : dag) (low : N) : Prop :=
    (forall i p q, holds d1 i p -> holds d2 i q -> p = q) /\
    (forall i, low <= pi_round i -> is_committed d1 i = is_committed d2 i).

  Lemma gather_round_det owner d1 d2 low r : binding owner d1 -> wf_pts d1 -> agree d1 d2 low -> low <= r ->
    forall s a1 b1 a2 b2 acc x y,
    owned owner a1 -> NoDup (map fst a1) -> owned owner a2 -> NoDup (map fst a2) -> Permutation a1 a2 ->
    owned owner b1 -> NoDup (map fst b1) -> owned owner b2 -> NoDup (map fst b2) -> Permutation b1 b2 ->
    gather_round h1 d1 r s a1 b1 acc = Ok x -> gather_round h2 d2 r s a2 b2 acc = Ok y ->
    snd x = snd y /\ Permutation (fst (fst x)) (fst (fst y)) /\ Permutation (snd (fst x)) (snd (fst y)).
  Proof.
    intros [Bi Bl] W [Ah Ac] Hlow. induction s as [|[dg pe] s IH]; intros a1 b1 a2 b2 acc x y O1 N1 O2 N2 P1 O3 N3 O4 N4 P2 E1 E2.
    - cbn [gather_round] in E1, E2. injection E1 as <-. injection E2 as <-. cbn [fst snd]. auto.
    - cbn [gather_round] in E1, E2.
      destruct (committable_point d1 (mkpid r pe dg)) as [p| | |] eqn:C1; try discriminate.
      destruct (committable_point d2 (mkpid r pe dg)) as [q| | |] eqn:C2; try discriminate. cbn [bind] in E1, E2.
      apply committable_holds in C1. apply committable_holds in C2. assert (p = q) by (eapply Ah; eassumption). subst q.
      assert (Ei := proj2 W _ _ C1).
      rewrite <- (Ac (p_id p)) in E2 by (rewrite Ei; exact Hlow).
      destruct (is_committed d1 (p_id p)).
      + eapply (IH a1 b1 a2 b2); eassumption.
      + assert (Hi : forall a z, In (a, z) (p_includes p) -> a = owner z) by (intros; eapply (Bl _ _ C1); left; eassumption).
        assert (Hw : forall a z, In (a, z) (p_witness p) -> a = owner z) by (intros; eapply (Bl _ _ C1); right; eassumption).
        destruct (extend_spec rng seed h1 h1_perm owner a1 (p_includes p) O1 N1 Hi) as (A1 & A2 & _).
        destruct (extend_spec rng seed h2 h2_perm owner a2 (p_includes p) O2 N2 Hi) as (A3 & A4 & _).
        destruct (extend_spec rng seed h1 h1_perm owner b1 (p_witness p) O3 N3 Hw) as (B1 & B2 & _).
        destruct (extend_spec rng seed h2 h2_perm owner b2 (p_witness p) O4 N4 Hw) as (B3 & B4 & _).
        refine (IH _ _ _ _ _ _ _ A1 A2 A3 A4 _ B1 B2 B3 B4 _ E1 E2); now apply extend_perm with (owner := owner).
  Qed.

  Lemma gather_loop_det owner d1 d2 low a : binding owner d1 -> wf_pts d1 -> binding owner d2 -> wf_pts d2 -> agree d1 d2 low -> 1 <= low ->
    forall n r g x0 x1 y0 y1 acc X Y,
    r <= pi_round a -> low + N.of_nat n <= r + 1 ->
    ginv owner d1 low a r x0 x1 acc -> ginv owner d2 low a r y0 y1 acc -> Permutation x0 y0 -> Permutation x1 y1 ->
    gather_loop rng shuffle h1 d1 (down n r) (r + 1) g x0 x1 acc = Ok X ->
    gather_loop rng shuffle h2 d2 (down n r) (r + 1) g y0 y1 acc = Ok Y -> X = Y.
  Proof.
    intros B1 W1 B2 W2 Ag Hl. induction n as [|n IH]; intros r g x0 x1 y0 y1 acc X Y Ha Hn I1 I2 P0 P1 E1 E2.
    - cbn [down gather_loop] in E1, E2. congruence.
    - cbn [down gather_loop] in E1, E2. rewrite N.eqb_refl in E1, E2. cbn [negb] in E1, E2.
      assert (Es : dp_sort (h1 x0) = dp_sort (h2 y0)) by (apply dp_sort_canon; rewrite h1_perm, P0; symmetry; apply h2_perm).
      destruct (gather_round h1 d1 r (fst (shuffle g (dp_sort (h1 x0)))) x1 [] acc) as [x| | |] eqn:G1; try discriminate.
      destruct (gather_round h2 d2 r (fst (shuffle g (dp_sort (h2 y0)))) y1 [] acc) as [y| | |] eqn:G2; try discriminate.
      cbn [bind] in E1, E2.
      assert (I1' := ginv_step rng seed shuffle h1 shuffle_perm h1_perm owner d1 low a r x0 x1 acc g x B1 W1 ltac:(lia) Ha ltac:(lia) I1 G1).
      assert (I2' := ginv_step rng seed shuffle h2 shuffle_perm h2_perm owner d2 low a r y0 y1 acc g y B2 W2 ltac:(lia) Ha ltac:(lia) I2 G2).
      rewrite <- Es in G2, E2.
      assert (E0 : owned owner (@nil (N * N))) by (intros ? ? []).
      destruct (gather_round_det owner d1 d2 low r B1 W1 Ag ltac:(lia) _ _ _ _ _ _ _ _
         (gi_o1 _ _ _ _ _ _ _ _ I1) (gi_n1 _ _ _ _ _ _ _ _ I1) (gi_o1 _ _ _ _ _ _ _ _ I2) (gi_n1 _ _ _ _ _ _ _ _ I2) P1
         E0 (NoDup_nil _) E0 (NoDup_nil _) (Permutation_refl _) G1 G2) as (Q1 & Q2 & Q3).
      replace r with (r - 1 + 1) in E1 at 2 by lia. replace r with (r - 1 + 1) in E2 at 2 by lia.
      rewrite <- Q1 in E2, I2'.
      exact (IH (r - 1) _ _ _ _ _ _ _ _ ltac:(lia) ltac:(lia) I1' I2' Q2 Q3 E1 E2).
  Qed.

  Lemma ginv_init owner d low anchor : binding owner d -> holds d (p_id anchor) anchor ->
    ginv owner d low (p_id anchor) (p_round anchor) [(pi_digest (p_id anchor), pi_author (p_id anchor))] [] [].
  Proof.
    intros [Bi Bl] Ha. constructor.
    - intros dg pe [[= <- <-]|[]]. destruct Ha as [Ha|(hp & ce & Ha)]; eapply Bi; eassumption.
    - repeat constructor. intros [].
    - intros ? ? [].
    - constructor.
    - intros dg pe. cbn [In]. split.
      + intros [[= <- <-]|[]]. left. unfold p_round. now destruct (p_id anchor).
      + intros [E|(p & [] & _)]. left. rewrite <- E. reflexivity.
    - intros Hr dg pe. split; [intros []|]. intros [E|(p & [] & _)]. exfalso.
      apply (f_equal pi_round) in E. cbn [pi_round] in E. unfold p_round in Hr, E. lia.
    - intros ? [].
    - intros j [->|(p & [] & _)] Hj. unfold p_round in Hj. lia.
    - constructor.
    - constructor.
  Qed.

  Lemma gather_det owner c d1 d2 f1 f2 anchor u1 u2 :
    binding owner d1 -> wf_pts d1 -> binding owner d2 -> wf_pts d2 ->
    let limit := history_limit c (p_round anchor) in
    agree d1 d2 limit -> d_bottom d1 <= limit -> d_bottom d2 <= limit ->
    p_round anchor <= d_top d1 -> p_round anchor <= d_top d2 ->
    holds d1 (p_id anchor) anchor -> holds d2 (p_id anchor) anchor ->
    gather_uncommitted rng seed shuffle h1 c d1 f1 anchor = Ok u1 ->
    gather_uncommitted rng seed shuffle h2 c d2 f2 anchor = Ok u2 -> u1 = u2.
  Proof.
    intros B1 W1 B2 W2 limit Ag Hb1 Hb2 Ht1 Ht2 Ha1 Ha2 E1 E2. unfold gather_uncommitted in E1, E2. fold limit in E1, E2.
    destruct (N.ltb_spec (p_round anchor) limit) as [|Hlim]; [discriminate|].
    assert (R : forall d, d_bottom d <= limit -> p_round anchor <= d_top d ->
       dag_range d limit (p_round anchor) = down (N.to_nat (p_round anchor + 1 - limit)) (p_round anchor)).
    { intros d Hb Ht. unfold dag_range, rounds_desc. rewrite N.max_l, N.min_l by lia. reflexivity. }
    rewrite (R d1 Hb1 Ht1) in E1. rewrite (R d2 Hb2 Ht2) in E2.
    match type of E1 with bind ?G _ = _ => destruct G as [X| | |] eqn:G1; try discriminate end.
    match type of E2 with bind ?G _ = _ => destruct G as [Y| | |] eqn:G2; try discriminate end. cbn [bind] in E1, E2.
    assert (X = Y).
    { eapply (gather_loop_det owner d1 d2 limit (p_id anchor) B1 W1 B2 W2 Ag); [| | | | | | |exact G1|exact G2].
      - unfold limit, history_limit. lia.
      - unfold p_round. lia.
      - lia.
      - now apply ginv_init.
      - now apply ginv_init.
      - reflexivity.
      - reflexivity. }
    subst Y. destruct ((f1 <=? limit) && negb (snd X =? limit)); [discriminate|].
    destruct ((f2 <=? limit) && negb (snd X =? limit)); [discriminate|]. congruence.
  Qed.
End Det.

(** reach depends on [low] only as a cut *)
Lemma reach_cut d low low' a i : wf_pts d -> reach d low a i -> low' <= pi_round i -> low' <= pi_round a -> reach d low' a i.
Proof.
  intros W R. induction R as [|i p j R IH Hp L Hl]; intros H1 H2; [constructor|].
  assert (E := proj2 W _ _ Hp). pose proof (links_lt _ _ L) as Lt. unfold p_round in Lt. rewrite E in Lt.
  econstructor; [apply IH; lia|exact Hp|exact L|exact H1].
Qed.

Lemma holds_mono d d' : (forall x, In x (d_pts d) -> In x (d_pts d')) -> forall i p, holds d i p -> holds d' i p.
Proof. intros H i p [I|(hp & ce & I)]; [left; now apply H|right; exists hp, ce; now apply H]. Qed.
Lemma binding_mono owner d d' : (forall x, In x (d_pts d) -> In x (d_pts d')) -> binding owner d' -> binding owner d.
Proof. intros H [B1 B2]. split; [intros i e I; eapply B1; eauto|]. intros i p Hp. apply (B2 i p). eapply holds_mono; eassumption. Qed.

(** a point is in the history of some logged anchor iff some logged anchor reaches it *)
Lemma log_ids_reach rng seed shuffle h c d log : wf_pts d -> log_ok rng seed shuffle h c d log -> forall i,
  In i (log_ids log) <-> exists b a, In (b, a) log /\ reach d (N.max (history_limit c (p_round (a_anchor a))) b) (p_id (a_anchor a)) i.
Proof.
  intros W L. induction L as [|log b a L IH G]; intros i.
  - split; [intros []|]. intros (b & a & [] & _).
  - rewrite log_ids_app. unfold log_ids at 2. cbn [flat_map snd]. rewrite app_nil_r, in_app_iff. split.
    + intros [H|H].
      * apply IH in H. destruct H as (b' & a' & H1 & H2). exists b', a'. split; [apply in_app_iff; now left|exact H2].
      * apply (eg_ids _ _ _ _ _ _ _ _ _ G) in H. exists b, a. split; [apply in_app_iff; right; now left|exact (proj1 H)].
    + intros (b' & a' & H1 & H2). apply in_app_iff in H1. destruct H1 as [H1|[[= <- <-]|[]]].
      * left. apply IH. eauto.
      * destruct (in_dec (fun x y => reflect_dec _ _ (pid_eqb_spec x y)) i (log_ids log)) as [D|D]; [now left|].
        right. apply (eg_ids _ _ _ _ _ _ _ _ _ G). auto.
Qed.

(** what is reachable in the smaller DAG is reachable with the same links in the other one *)
Lemma reach_transfer d1 d2 low a : (forall i p q, holds d1 i p -> holds d2 i q -> p = q) ->
  (forall i, reach d2 low a i -> exists p, holds d2 i p) ->
  forall i, reach d1 low a i -> reach d2 low a i.
Proof.
  intros Ag Hh i R. induction R as [|i p j R IH Hp L Hl]; [constructor|].
  destruct (Hh i IH) as (q & Hq). assert (p = q) by (eapply Ag; eassumption). subst. econstructor; eassumption.
Qed.

Lemma agreement rng seed shuffle h1 h2 owner c s1 s2 log1 log2 pre1 pre2 b1 b2 a1 a2 post1 post2 :
  (forall g l, Permutation (fst (shuffle g l)) l) -> (forall l, Permutation (h1 l) l) -> (forall l, Permutation (h2 l) l) ->
  finv rng seed shuffle h1 owner c s1 log1 -> finv rng seed shuffle h2 owner c s2 log2 ->
  log1 = pre1 ++ (b1, a1) :: post1 -> log2 = pre2 ++ (b2, a2) :: post2 ->
  p_id (a_anchor a1) = p_id (a_anchor a2) -> a_executable a1 = true -> a_executable a2 = true ->
  (forall i p q, holds (c_dag s1) i p -> holds (c_dag s2) i q -> p = q) ->
  let limit := history_limit c (p_round (a_anchor a1)) in
  (forall x, In x pre1 -> limit <= p_round (a_anchor (snd x)) -> exists y, In y pre2 /\ p_id (a_anchor (snd y)) = p_id (a_anchor (snd x))) ->
  (forall x, In x pre2 -> limit <= p_round (a_anchor (snd x)) -> exists y, In y pre1 /\ p_id (a_anchor (snd y)) = p_id (a_anchor (snd x))) ->
  a_history a1 = a_history a2.
Proof.
  intros Sp Hp1 Hp2 F1 F2 E1 E2 Ea X1 X2 Ag limit C12 C21.
  assert (G1 := log_ok_split _ _ _ _ _ _ _ (fi_log _ _ _ _ _ _ _ _ F1) _ _ _ _ E1).
  assert (G2 := log_ok_split _ _ _ _ _ _ _ (fi_log _ _ _ _ _ _ _ _ F2) _ _ _ _ E2).
  assert (Eq : a_anchor a1 = a_anchor a2).
  { apply (Ag (p_id (a_anchor a1))); [left; exact (eg_anchor _ _ _ _ _ _ _ _ _ G1)|rewrite Ea; left; exact (eg_anchor _ _ _ _ _ _ _ _ _ G2)]. }
  assert (L1 := eg_exec _ _ _ _ _ _ _ _ _ G1 X1). assert (L2 := eg_exec _ _ _ _ _ _ _ _ _ G2 X2). rewrite <- Eq in L2. fold limit in L1, L2.
  destruct (eg_gather _ _ _ _ _ _ _ _ _ G1) as (d1 & f1 & A1 & A2 & A3 & A4 & A5 & A6 & A7).
  destruct (eg_gather _ _ _ _ _ _ _ _ _ G2) as (d2 & f2 & B1 & B2 & B3 & B4 & B5 & B6 & B7).
  rewrite <- Eq in B1, B6, B7.
  assert (W1 := pi_wf _ _ _ (fi_p _ _ _ _ _ _ _ _ F1)). assert (W2 := pi_wf _ _ _ (fi_p _ _ _ _ _ _ _ _ F2)).
  assert (Pre : forall pre post s h b a log, log = pre ++ (b, a) :: post -> log_ok rng seed shuffle h c (c_dag s) log -> log_ok rng seed shuffle h c (c_dag s) pre).
  { intros pre post s h b a log El Lk. revert pre b a post El. induction Lk as [|log b0 a0 Lk IH Gd]; intros pre b a post El; [now destruct pre|].
    destruct post as [|x post _] using rev_ind.
    - apply app_inj_tail in El. destruct El as [-> _]. exact Lk.
    - change (pre ++ (b, a) :: post ++ [x]) with (pre ++ ((b, a) :: post) ++ [x]) in El. rewrite app_assoc in El. apply app_inj_tail in El. destruct El as [-> _].
      eapply IH. reflexivity. }
  assert (K1 := Pre _ _ _ _ _ _ _ E1 (fi_log _ _ _ _ _ _ _ _ F1)). assert (K2 := Pre _ _ _ _ _ _ _ E2 (fi_log _ _ _ _ _ _ _ _ F2)). clear Pre.
  (* the marks agree in the window *)
  assert (Half : forall h h' s s' pre pre' b b' a a' ,
     wf_pts (c_dag s) -> wf_pts (c_dag s') ->
     (forall i p q, holds (c_dag s) i p -> holds (c_dag s') i q -> p = q) ->
     log_ok rng seed shuffle h c (c_dag s) pre -> log_ok rng seed shuffle h' c (c_dag s') pre' ->
     entry_good rng seed shuffle h c (c_dag s) pre b a -> entry_good rng seed shuffle h' c (c_dag s') pre' b' a' ->
     a_anchor a = a_anchor a' -> b' <= history_limit c (p_round (a_anchor a)) ->
     (forall x, In x pre -> history_limit c (p_round (a_anchor a)) <= p_round (a_anchor (snd x)) -> exists y, In y pre' /\ p_id (a_anchor (snd y)) = p_id (a_anchor (snd x))) ->
     forall i, history_limit c (p_round (a_anchor a)) <= pi_round i -> In i (log_ids pre) -> In i (log_ids pre')).
  { clear. intros h h' s s' pre pre' b b' a a' W W' Ag K K' G G' Eq Hb C i Hi I.
    apply (log_ids_reach _ _ _ _ _ _ _ W K) in I. destruct I as (bx & x & Ix & Rx).
    pose proof (reach_round _ _ _ _ W Rx) as [Rr _].
    destruct (C (bx, x) Ix) as ([by' y] & Iy & Ey); [cbn [snd]; unfold p_round in *; lia|]. cbn [snd] in Ey.
    apply (log_ids_reach _ _ _ _ _ _ _ W' K'). exists by', y. split; [exact Iy|].
    set (lowy := N.max (history_limit c (p_round (a_anchor y))) by').
    destruct (in_split _ _ Iy) as (p1 & p2 & Esp).
    assert (Gy := log_ok_split _ _ _ _ _ _ _ K' _ _ _ _ Esp).
    destruct (eg_order _ _ _ _ _ _ _ _ _ G' _ Iy) as [Oy1 Oy2]. cbn [fst snd] in Oy1, Oy2.
    assert (Hlow : lowy <= history_limit c (p_round (a_anchor a))).
    { unfold lowy. pose proof (eg_round _ _ _ _ _ _ _ _ _ G'). pose proof (eg_round _ _ _ _ _ _ _ _ _ Gy).
      rewrite <- Eq in *. pose proof (history_limit_mono c (p_round (a_anchor y)) (p_round (a_anchor a)) ltac:(lia)). lia. }
    rewrite Ey. apply (reach_transfer (c_dag s) (c_dag s') lowy); auto.
    - rewrite <- Ey. exact (eg_held _ _ _ _ _ _ _ _ _ Gy).
    - eapply reach_cut; [exact W|exact Rx|lia|lia]. }
  assert (Marks : forall i, limit <= pi_round i -> (In i (log_ids pre1) <-> In i (log_ids pre2))).
  { intros i Hi. split.
    - exact (Half _ _ s1 s2 pre1 pre2 b1 b2 a1 a2 W1 W2 Ag K1 K2 G1 G2 Eq L2 C12 i Hi).
    - assert (Ag' : forall i p q, holds (c_dag s2) i p -> holds (c_dag s1) i q -> p = q) by (intros j p q P Q; symmetry; eapply Ag; eassumption).
      unfold limit in Hi, C21, L1. rewrite Eq in Hi, C21, L1.
      exact (Half _ _ s2 s1 pre2 pre1 b2 b1 a2 a1 W2 W1 Ag' K2 K1 G2 G1 (eq_sym Eq) L1 C21 i Hi). }
  eapply (gather_det rng seed shuffle Sp h1 h2 Hp1 Hp2 owner c d1 d2 f1 f2 (a_anchor a1)); try eassumption.
  - eapply binding_mono; [exact A2|exact (pi_bind _ _ _ (fi_p _ _ _ _ _ _ _ _ F1))].
  - eapply binding_mono; [exact B2|exact (pi_bind _ _ _ (fi_p _ _ _ _ _ _ _ _ F2))].
  - split.
    + intros i p q P Q. apply (Ag i); eapply holds_mono; eassumption.
    + intros i Hi. apply eq_true_iff_eq. rewrite !is_committed_spec, A4, B4. now apply Marks.
  - rewrite A5. exact L1.
  - rewrite B5. exact L2.
  - now left.
  - now left.
Qed.
