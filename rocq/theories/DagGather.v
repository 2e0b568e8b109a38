(** Lemmas about [gather_uncommitted]. *)
From Coq Require Import List Bool NArith Lia Permutation Sorting.Sorted ZArith ZifyN ZifyNat ZifyBool.
From Verif Require Import AMap DagModel.
Import ListNotations.
Local Open Scope N_scope.

Lemma pid_eqb_spec a b : reflect (a = b) (pid_eqb a b).
Proof.
  unfold pid_eqb. destruct a as [r a x], b as [r' a' x']; cbn [pi_round pi_author pi_digest].
  destruct (N.eqb_spec r r'), (N.eqb_spec a a'), (N.eqb_spec x x'); cbn [andb]; constructor; congruence.
Qed.

(** ** Specification vocabulary *)

(** the DAG holds [p] under [i] (a valid point, or one invalid only through a dependency) *)
Definition holds (d : dag) (i : pid) (p : point) : Prop :=
  In (i, EValid p) (d_pts d) \/ exists hp ce, In (i, ETransInvalid p hp ce) (d_pts d).

(** [p] links to point [j] at the previous round (includes) or the one before it (witness) *)
Definition links (p : point) (j : pid) : Prop :=
  (In (pi_author j, pi_digest j) (p_includes p) /\ pi_round j + 1 = p_round p) \/
  (In (pi_author j, pi_digest j) (p_witness p) /\ pi_round j + 2 = p_round p).

Definition committed (d : dag) (i : pid) : Prop := In i (d_committed d).

(** reachable from [a] by links that stay at rounds >= [low] *)
Inductive reach (d : dag) (low : N) (a : pid) : pid -> Prop :=
| reach_self : reach d low a a
| reach_link i p j : reach d low a i -> holds d i p -> links p j -> low <= pi_round j -> reach d low a j.

(** the same through points not yet committed *)
Inductive ureach (d : dag) (low : N) (a : pid) : pid -> Prop :=
| ureach_self : ureach d low a a
| ureach_link i p j : ureach d low a i -> ~ committed d i -> holds d i p -> links p j -> low <= pi_round j ->
                      ureach d low a j.

(** digests bind the author: all ids and links of the DAG give a digest the same author *)
Definition binding (owner : N -> N) (d : dag) : Prop :=
  (forall i e, In (i, e) (d_pts d) -> pi_author i = owner (pi_digest i)) /\
  (forall i p, holds d i p -> forall a x, In (a, x) (p_includes p) \/ In (a, x) (p_witness p) -> a = owner x).

(** point versions are stored under their own id, once *)
Definition wf_pts (d : dag) : Prop :=
  NoDup (map fst (d_pts d)) /\ (forall i p, holds d i p -> p_id p = i).

Lemma aget_in (l : list (pid * entry)) i e : aget pid_eqb i l = Some e -> In (i, e) l.
Proof.
  induction l as [|[k v] l IH]; cbn [aget]; [discriminate|].
  destruct (pid_eqb_spec i k) as [->|H]; [intros [= ->]; now left|right; auto].
Qed.
Lemma in_aget (l : list (pid * entry)) i e : NoDup (map fst l) -> In (i, e) l -> aget pid_eqb i l = Some e.
Proof.
  induction l as [|[k v] l IH]; cbn [aget map fst]; [contradiction|]. intros ND [E|H]; inversion ND; subst.
  - injection E as -> ->. destruct (pid_eqb_spec i i); congruence.
  - destruct (pid_eqb_spec i k) as [->|]; auto. exfalso. apply H2. now apply (in_map fst) in H.
Qed.

Lemma is_committed_spec d i : is_committed d i = true <-> committed d i.
Proof.
  unfold is_committed, committed. rewrite existsb_exists. split.
  - intros (x & I & E). destruct (pid_eqb_spec i x); congruence.
  - intros I. exists i. split; auto. destruct (pid_eqb_spec i i); congruence.
Qed.
Lemma is_committed_false d i : is_committed d i = false <-> ~ committed d i.
Proof. rewrite <- is_committed_spec. destruct (is_committed d i); split; congruence. Qed.

Lemma committable_holds d i p : committable_point d i = Ok p -> holds d i p.
Proof.
  unfold committable_point. destruct (aget pid_eqb i (d_pts d)) as [e|] eqn:G; [|discriminate].
  apply aget_in in G. destruct e as [q|q hp ce|r ce|]; try discriminate.
  - intros [= ->]. now left.
  - destruct hp; [discriminate|]. intros [= ->]. right. eauto.
  - destruct ce; discriminate.
Qed.
Lemma holds_fun d i p q : wf_pts d -> holds d i p -> holds d i q -> p = q.
Proof.
  intros [ND _] H1 H2.
  destruct H1 as [H1|(h1 & c1 & H1)], H2 as [H2|(h2 & c2 & H2)];
    apply (in_aget _ _ _ ND) in H1; apply (in_aget _ _ _ ND) in H2; congruence.
Qed.

Section G.
  Variable rng : Type.
  Variable seed : N -> rng.
  Variable shuffle : rng -> list (N * N) -> list (N * N) * rng.
  Variable horder : list (N * N) -> list (N * N).
  Hypothesis shuffle_perm : forall g l, Permutation (fst (shuffle g l)) l.
  Hypothesis horder_perm : forall l, Permutation (horder l) l.

  Local Notation extend := (extend horder).
  Local Notation gather_round := (gather_round horder).
  Local Notation gather_loop := (gather_loop rng shuffle horder).
  Local Notation gather := (gather_uncommitted rng seed shuffle horder).

  Lemma dp_ins_perm x l : Permutation (dp_ins x l) (x :: l).
  Proof. induction l as [|y l IH]; cbn [dp_ins]; auto. destruct (dp_leb x y); auto. rewrite IH. constructor. Qed.
  Lemma dp_sort_perm l : Permutation (dp_sort l) l.
  Proof. induction l as [|x l IH]; cbn [dp_sort]; auto. rewrite dp_ins_perm. now constructor. Qed.

  (** maps whose pairs agree with [owner] *)
  Definition owned (owner : N -> N) (m : list (N * N)) : Prop := forall dg pe, In (dg, pe) m -> pe = owner dg.

  Lemma aset_in_owned owner m dg pe : owned owner m -> pe = owner dg ->
    forall x, In x (aset N.eqb dg pe m) <-> x = (dg, pe) \/ In x m.
  Proof.
    intros O E. induction m as [|[k v] m IH]; intros x; cbn [aset In].
    - intuition.
    - destruct (N.eqb_spec dg k) as [->|Hn]; cbn [In].
      + assert (v = pe) by (rewrite E; apply O; now left). subst v. intuition.
      + rewrite IH by (intros a b H; apply O; now right). intuition.
  Qed.

  Lemma fold_extend owner l : forall m, owned owner m -> NoDup (map fst m) ->
    (forall pe dg, In (pe, dg) l -> pe = owner dg) ->
    let m' := fold_left (fun m pd => aset N.eqb (snd pd) (fst pd) m) l m in
    owned owner m' /\ NoDup (map fst m') /\
    (forall dg pe, In (dg, pe) m' <-> In (dg, pe) m \/ In (pe, dg) l).
  Proof.
    induction l as [|[pe0 dg0] l IH]; intros m O ND Hl m'; cbn [fold_left fst snd] in m'.
    - subst m'. repeat split; auto. intros [H|[]]; auto.
    - assert (O1 : owned owner (aset N.eqb dg0 pe0 m)).
      { intros a b H. apply (aset_in_owned owner m dg0 pe0) in H; auto; [|apply Hl; now left].
        destruct H as [[= -> ->]|H]; auto. apply Hl. now left. }
      assert (ND1 : NoDup (map fst (aset N.eqb dg0 pe0 m))).
      { apply aset_nodup; auto. intros a b. apply N.eqb_spec. }
      assert (Hl' : forall pe dg, In (pe, dg) l -> pe = owner dg) by (intros; apply Hl; now right).
      destruct (IH _ O1 ND1 Hl') as (A & B & C). fold m' in A, B, C. split; [exact A|]. split; [exact B|].
      intros dg pe. rewrite C. rewrite (aset_in_owned owner m dg0 pe0 O (Hl _ _ (or_introl eq_refl))). cbn [In].
      intuition congruence.
  Qed.

  Lemma extend_spec owner m from : owned owner m -> NoDup (map fst m) ->
    (forall pe dg, In (pe, dg) from -> pe = owner dg) ->
    owned owner (extend m from) /\ NoDup (map fst (extend m from)) /\
    (forall dg pe, In (dg, pe) (extend m from) <-> In (dg, pe) m \/ In (pe, dg) from).
  Proof.
    intros O ND H. unfold DagModel.extend.
    assert (P : forall x, In x (horder from) <-> In x from).
    { intros x; split; apply Permutation_in; [apply horder_perm|symmetry; apply horder_perm]. }
    destruct (fold_extend owner (horder from) m O ND) as (A & B & C).
    - intros pe dg I. apply H. now apply P.
    - split; [exact A|]. split; [exact B|]. intros dg pe. rewrite C, P. reflexivity.
  Qed.

  (** ** one round *)
  Lemma gather_round_spec owner d r : binding owner d -> wf_pts d ->
    forall s r1 r2 acc r1' r2' acc',
    owned owner s -> NoDup s ->
    owned owner r1 -> NoDup (map fst r1) -> owned owner r2 -> NoDup (map fst r2) ->
    gather_round d r s r1 r2 acc = Ok (r1', r2', acc') ->
    owned owner r1' /\ NoDup (map fst r1') /\ owned owner r2' /\ NoDup (map fst r2') /\
    exists us, acc' = us ++ acc /\ NoDup (map p_id us) /\
      (forall p, In p us -> holds d (p_id p) p /\ ~ committed d (p_id p) /\ p_round p = r /\
                          In (pi_digest (p_id p), pi_author (p_id p)) s) /\
      (forall dg pe, In (dg, pe) s -> exists p, committable_point d (mkpid r pe dg) = Ok p /\ p_id p = mkpid r pe dg /\
                          (~ committed d (p_id p) -> In p us)) /\
      (forall dg pe, In (dg, pe) r1' <-> In (dg, pe) r1 \/ exists p, In p us /\ In (pe, dg) (p_includes p)) /\
      (forall dg pe, In (dg, pe) r2' <-> In (dg, pe) r2 \/ exists p, In p us /\ In (pe, dg) (p_witness p)).
  Proof.
    intros [Bi Bl] [ND W]. induction s as [|[dg pe] s IH]; intros r1 r2 acc r1' r2' acc' Os Ns O1 N1 O2 N2.
    - cbn [DagModel.gather_round]. intros [= <- <- <-]. do 4 (split; [assumption|]). exists []. split; [reflexivity|].
      split; [constructor|]. split; [contradiction|]. split; [contradiction|].
      split; intros dg pe; (split; [now left|intros [H|(p & [] & _)]; auto]).
    - cbn [DagModel.gather_round]. destruct (committable_point d (mkpid r pe dg)) as [p| | |] eqn:E; try discriminate. cbn [bind].
      assert (Hp := committable_holds _ _ _ E). assert (Ei := W _ _ Hp).
      assert (Os' : owned owner s) by (intros a b I; apply Os; now right).
      inversion Ns as [|x y Nin Ns']; subst.
      destruct (is_committed d (p_id p)) eqn:Ec; intros G.
      + destruct (IH _ _ _ _ _ _ Os' Ns' O1 N1 O2 N2 G) as (A1 & A2 & A3 & A4 & us & U1 & U2 & U3 & U4 & U5 & U6).
        do 4 (split; [assumption|]). exists us. split; [exact U1|]. split; [exact U2|].
        split.
        { intros q Q. destruct (U3 q Q) as (Q1 & Q2 & Q3 & Q4). do 3 (split; [assumption|]). now right. }
        split; [|split; assumption].
        intros dg' pe' [[= -> ->]|I]; [|exact (U4 _ _ I)].
        exists p. split; [exact E|]. split; [exact Ei|]. intros NC. exfalso. apply NC. now apply is_committed_spec.
      + assert (Hi : forall a x, In (a, x) (p_includes p) -> a = owner x) by (intros; eapply (Bl _ _ Hp); left; eassumption).
        assert (Hw : forall a x, In (a, x) (p_witness p) -> a = owner x) by (intros; eapply (Bl _ _ Hp); right; eassumption).
        destruct (extend_spec owner r1 (p_includes p) O1 N1 Hi) as (E1 & E2 & E3).
        destruct (extend_spec owner r2 (p_witness p) O2 N2 Hw) as (F1 & F2 & F3).
        destruct (IH _ _ _ _ _ _ Os' Ns' E1 E2 F1 F2 G) as (A1 & A2 & A3 & A4 & us & U1 & U2 & U3 & U4 & U5 & U6).
        do 4 (split; [assumption|]). exists (us ++ [p]). split; [rewrite <- app_assoc; exact U1|].
        split.
        { rewrite map_app. cbn [map].
          apply (Permutation_NoDup (l := p_id p :: map p_id us)); [apply Permutation_cons_append|].
          constructor; [|exact U2]. intros I. apply in_map_iff in I. destruct I as (q & Eq & Iq).
          destruct (U3 q Iq) as (_ & _ & _ & Is). rewrite Eq, Ei in Is. cbn [pi_digest pi_author] in Is. contradiction. }
        split.
        { intros q Q. apply in_app_iff in Q. destruct Q as [Q|[<-|[]]].
          - destruct (U3 q Q) as (Q1 & Q2 & Q3 & Q4). do 3 (split; [assumption|]). now right.
          - rewrite Ei. split; [exact Hp|]. split; [rewrite <- Ei; now apply is_committed_false|].
            split; [unfold p_round; now rewrite Ei|]. now left. }
        split.
        { intros dg' pe' [[= -> ->]|I].
          - exists p. split; [exact E|]. split; [exact Ei|]. intros _. apply in_app_iff. right. now left.
          - destruct (U4 _ _ I) as (q & Q1 & Q2 & Q3). exists q. split; [exact Q1|]. split; [exact Q2|]. intros NC.
            apply in_app_iff. left. auto. }
        split; intros dg' pe'.
        { rewrite U5, E3. split.
          - intros [[H|H]|(q & Q1 & Q2)]; [now left| |].
            + right. exists p. split; [apply in_app_iff; right; now left|exact H].
            + right. exists q. split; [apply in_app_iff; now left|exact Q2].
          - intros [H|(q & Q1 & Q2)]; [now left; left|]. apply in_app_iff in Q1. destruct Q1 as [Q1|[<-|[]]].
            + right. eauto.
            + left. now right. }
        { rewrite U6, F3. split.
          - intros [[H|H]|(q & Q1 & Q2)]; [now left| |].
            + right. exists p. split; [apply in_app_iff; right; now left|exact H].
            + right. exists q. split; [apply in_app_iff; now left|exact Q2].
          - intros [H|(q & Q1 & Q2)]; [now left; left|]. apply in_app_iff in Q1. destruct Q1 as [Q1|[<-|[]]].
            + right. eauto.
            + left. now right. }
  Qed.

  (** ** all rounds *)
  Definition disc (a : pid) (acc : list point) (j : pid) : Prop := j = a \/ exists p, In p acc /\ links p j.
  Definition rle (p q : point) : Prop := p_round p <= p_round q.

  Record ginv (owner : N -> N) (d : dag) (low : N) (a : pid) (r : N) (r0 r1 : list (N * N)) (acc : list point) : Prop := {
    gi_o0 : owned owner r0; gi_n0 : NoDup (map fst r0);
    gi_o1 : owned owner r1; gi_n1 : NoDup (map fst r1);
    gi_r0 : forall dg pe, In (dg, pe) r0 <-> disc a acc (mkpid r pe dg);
    gi_r1 : 1 <= r -> forall dg pe, In (dg, pe) r1 <-> disc a acc (mkpid (r - 1) pe dg);
    gi_acc : forall p, In p acc -> r < p_round p /\ holds d (p_id p) p /\ ~ committed d (p_id p) /\ ureach d low a (p_id p);
    gi_done : forall j, disc a acc j -> r < pi_round j ->
                 exists p, holds d j p /\ (~ committed d j -> In p acc);
    gi_nd : NoDup (map p_id acc);
    gi_sorted : StronglySorted rle acc
  }.

  Lemma nodup_fst (m : list (N * N)) : NoDup (map fst m) -> NoDup m.
  Proof. apply NoDup_map_inv. Qed.

  Lemma sorted_prepend us acc r : (forall p, In p us -> p_round p = r) -> (forall p, In p acc -> r < p_round p) ->
    StronglySorted rle acc -> StronglySorted rle (us ++ acc).
  Proof.
    intros Hu Ha Hs. induction us as [|p us IH]; cbn [app]; auto. constructor.
    - apply IH. intros; apply Hu; now right.
    - apply Forall_forall. intros q Q. unfold rle. rewrite (Hu p) by (now left). apply in_app_iff in Q.
      destruct Q as [Q|Q]; [rewrite (Hu q) by (now right); lia|]. specialize (Ha _ Q). lia.
  Qed.

  Lemma ginv_step owner d low a r r0 r1 acc g x :
    binding owner d -> wf_pts d -> low <= r -> r <= pi_round a -> 1 <= r -> ginv owner d low a r r0 r1 acc ->
    gather_round d r (fst (shuffle g (dp_sort (horder r0)))) r1 [] acc = Ok x ->
    ginv owner d low a (r - 1) (fst (fst x)) (snd (fst x)) (snd x).
  Proof.
    intros B W Hlow Hra Hr I G. destruct x as [[r1' r2'] acc']. cbn [fst snd].
    set (s := fst (shuffle g (dp_sort (horder r0)))) in *.
    assert (Ps : Permutation s r0).
    { unfold s. rewrite shuffle_perm, dp_sort_perm. apply horder_perm. }
    assert (Is : forall y, In y s <-> In y r0) by (intros y; split; apply Permutation_in; [exact Ps|now symmetry]).
    destruct I as [O0 N0 O1 N1 R0 R1 Acc Done Nd Srt]. specialize (R1 Hr).
    assert (Os : owned owner s) by (intros u v H; apply O0; now apply Is).
    assert (Ns : NoDup s) by (eapply Permutation_NoDup; [symmetry; exact Ps|now apply nodup_fst]).
    destruct (gather_round_spec owner d r B W s r1 [] acc r1' r2' acc' Os Ns O1 N1) as
      (A1 & A2 & A3 & A4 & us & U1 & U2 & U3 & U4 & U5 & U6); [intros u v []|constructor|exact G|].
    assert (DiscS : forall p, In p us -> disc a acc (p_id p)).
    { intros p Hp. destruct (U3 p Hp) as (_ & _ & Hr' & Hs). apply Is, R0 in Hs.
      replace (mkpid r (pi_author (p_id p)) (pi_digest (p_id p))) with (p_id p) in Hs; [exact Hs|].
      unfold p_round in Hr'. destruct (p_id p) as [aa bb cc]; cbn [pi_round] in *. subst. reflexivity. }
    assert (UR : forall j, disc a acc j -> low <= pi_round j -> ureach d low a j).
    { intros j [->|(p & P1 & P2)] Hj; [constructor|]. destruct (Acc p P1) as (_ & Q1 & Q2 & Q3).
      econstructor; eassumption. }
    assert (Mono : forall j, disc a acc j -> disc a acc' j).
    { intros j [->|(p & P1 & P2)]; [now left|right]. exists p. split; auto. rewrite U1. apply in_app_iff. now right. }
    assert (DiscNew : forall j, disc a acc' j <-> disc a acc j \/ exists p, In p us /\ links p j).
    { intros j. split.
      - intros [->|(p & P1 & P2)]; [now left; left|]. rewrite U1 in P1. apply in_app_iff in P1. destruct P1 as [P1|P1].
        + right. eauto.
        + left. right. eauto.
      - intros [H|(p & P1 & P2)]; [now apply Mono|]. right. exists p. split; auto. rewrite U1. apply in_app_iff. now left. }
    constructor; auto.
    - (* r0 *)
      intros dg pe. rewrite U5, R1, DiscNew. split.
      + intros [H|(p & P1 & P2)]; [now left|right]. exists p. split; auto. left. cbn [pi_author pi_digest pi_round].
        destruct (U3 p P1) as (_ & _ & E & _). split; auto. lia.
      + intros [H|(p & P1 & P2)]; [now left|]. destruct (U3 p P1) as (_ & _ & E & _).
        destruct P2 as [[P2 P3]|[P2 P3]]; cbn [pi_author pi_digest pi_round] in P2, P3; [|lia]. right. eauto.
    - (* r1 *)
      intros Hr1 dg pe. rewrite U6, DiscNew. split.
      + intros [[]|(p & P1 & P2)]. right. exists p. split; auto. right. cbn [pi_author pi_digest pi_round].
        destruct (U3 p P1) as (_ & _ & E & _). split; auto. lia.
      + intros [H|(p & P1 & P2)].
        * exfalso. destruct H as [E|(p & P1 & P2)].
          { subst a. cbn [pi_round] in Hra. lia. }
          destruct (Acc p P1) as (Hp & _). destruct P2 as [[P2 P3]|[P2 P3]]; cbn [pi_round] in P3; lia.
        * destruct (U3 p P1) as (_ & _ & E & _).
          destruct P2 as [[P2 P3]|[P2 P3]]; cbn [pi_author pi_digest pi_round] in P2, P3; [lia|]. right. eauto.
    - (* acc *)
      intros p Hp. rewrite U1 in Hp. apply in_app_iff in Hp. destruct Hp as [Hp|Hp].
      + destruct (U3 p Hp) as (Q1 & Q2 & Q3 & Q4). split; [lia|]. split; [exact Q1|]. split; [exact Q2|].
        apply UR; [now apply DiscS|]. unfold p_round in Q3. lia.
      + destruct (Acc p Hp) as (Q1 & Q2). split; [lia|exact Q2].
    - (* done *)
      intros j Dj Hj. apply DiscNew in Dj. destruct Dj as [Dj|(p & P1 & P2)].
      + destruct (N.eq_dec (pi_round j) r) as [Er|Er].
        * assert (Hin : In (pi_digest j, pi_author j) s).
          { apply Is, R0. replace (mkpid r (pi_author j) (pi_digest j)) with j; [exact Dj|]. rewrite <- Er. now destruct j. }
          destruct (U4 _ _ Hin) as (p & Q1 & Q2 & Q3).
          assert (Ej : mkpid r (pi_author j) (pi_digest j) = j) by (rewrite <- Er; now destruct j).
          rewrite Ej in Q1, Q2. exists p. split; [now apply committable_holds|]. intros NC. rewrite U1. apply in_app_iff. left.
          apply Q3. now rewrite Q2.
        * destruct (Done j Dj) as (p & Q1 & Q2); [lia|]. exists p. split; auto. intros NC. rewrite U1. apply in_app_iff. right. auto.
      + exfalso. destruct (U3 p P1) as (_ & _ & E & _). destruct P2 as [[P2 P3]|[P2 P3]]; lia.
    - (* nodup *)
      rewrite U1, map_app. clear - U2 U3 Nd Acc. induction us as [|p us IH]; cbn [app map]; auto.
      inversion U2; subst. constructor.
      + intros I. apply in_app_iff in I. destruct I as [I|I]; [contradiction|]. apply in_map_iff in I.
        destruct I as (q & Eq & Iq). destruct (U3 p (or_introl eq_refl)) as (_ & _ & E & _). destruct (Acc q Iq) as (Hq & _).
        unfold p_round in *. rewrite Eq in Hq. lia.
      + apply IH; auto. intros q Q. apply U3. now right.
    - rewrite U1. apply sorted_prepend with (r := r); auto.
      + intros p Hp. apply (U3 p Hp).
      + intros p Hp. apply (Acc p Hp).
  Qed.

  Lemma down_app n m hi : down (n + m) hi = down n hi ++ down m (hi - N.of_nat n).
  Proof.
    revert hi. induction n as [|n IH]; intros hi; cbn [down app Nat.add].
    - f_equal. lia.
    - f_equal. rewrite IH. do 2 f_equal. lia.
  Qed.

  Lemma ginv_loop owner d low a : binding owner d -> wf_pts d -> 1 <= low ->
    forall n r g r0 r1 acc acc' next,
    r <= pi_round a -> low + N.of_nat n <= r + 1 ->
    ginv owner d low a r r0 r1 acc ->
    gather_loop d (down n r) (r + 1) g r0 r1 acc = Ok (acc', next) ->
    next = r + 1 - N.of_nat n /\
    exists r0' r1', ginv owner d low a (r - N.of_nat n) r0' r1' acc'.
  Proof.
    intros B W Hl. induction n as [|n IH]; intros r g r0 r1 acc acc' next Ha Hn I.
    - cbn [down DagModel.gather_loop]. intros [= <- <-]. split; [lia|]. exists r0, r1. replace (r - N.of_nat 0) with r by lia. exact I.
    - cbn [down DagModel.gather_loop]. rewrite N.eqb_refl. cbn [negb].
      destruct (DagModel.gather_round horder d r (fst (shuffle g (dp_sort (horder r0)))) r1 [] acc) as [x| | |] eqn:G; try discriminate.
      cbn [bind]. intros L.
      assert (I' := ginv_step owner d low a r r0 r1 acc g x B W ltac:(lia) Ha ltac:(lia) I G).
      replace r with (r - 1 + 1) in L at 2 by lia.
      destruct (IH (r - 1) _ _ _ _ _ _ ltac:(lia) ltac:(lia) I' L) as (E & r0' & r1' & I2). split; [lia|].
      exists r0', r1'. replace (r - N.of_nat (S n)) with (r - 1 - N.of_nat n) by lia. exact I2.
  Qed.

  (** what [gather_uncommitted] returns for an anchor inside the DAG *)
  Lemma gather_spec owner c d fhb anchor h : binding owner d -> wf_pts d ->
    holds d (p_id anchor) anchor -> d_bottom d <= p_round anchor <= d_top d ->
    gather c d fhb anchor = Ok h ->
    let low := N.max (history_limit c (p_round anchor)) (d_bottom d) in
    genesis c < p_round anchor /\
    (fhb <= history_limit c (p_round anchor) -> d_bottom d <= history_limit c (p_round anchor)) /\
    NoDup (map p_id h) /\ StronglySorted rle h /\
    (forall p, In p h -> holds d (p_id p) p) /\
    (forall i, In i (map p_id h) <-> ureach d low (p_id anchor) i /\ ~ committed d i) /\
    (forall i, ureach d low (p_id anchor) i -> exists p, holds d i p).
  Proof.
    intros B W Ha Hb G low. unfold DagModel.gather_uncommitted in G.
    set (limit := history_limit c (p_round anchor)) in *.
    destruct (N.ltb_spec (p_round anchor) limit) as [|Hlim]; [discriminate|].
    assert (Hg : genesis c + 1 <= limit) by (unfold limit, history_limit; lia).
    assert (R : dag_range d limit (p_round anchor) = down (N.to_nat (p_round anchor + 1 - low)) (p_round anchor)).
    { unfold dag_range, rounds_desc. fold low. rewrite N.min_l by lia. reflexivity. }
    rewrite R in G. clear R.
    set (n := N.to_nat (p_round anchor + 1 - low)) in *.
    destruct (DagModel.gather_loop rng shuffle horder d (down n (p_round anchor)) (p_round anchor + 1)
                (seed (pi_digest (p_id anchor))) [(pi_digest (p_id anchor), pi_author (p_id anchor))] [] []) as [[acc next]| | |] eqn:L; try discriminate.
    cbn [bind fst snd] in G.
    assert (I0 : ginv owner d low (p_id anchor) (p_round anchor)
                   [(pi_digest (p_id anchor), pi_author (p_id anchor))] [] []).
    { destruct B as [Bi Bl]. constructor.
      - intros dg pe [[= <- <-]|[]]. destruct Ha as [Ha|(hp & ce & Ha)]; eapply Bi; eassumption.
      - repeat constructor. intros [].
      - intros ? ? [].
      - constructor.
      - intros dg pe. cbn [In]. split.
        + intros [[= <- <-]|[]]. left. unfold p_round. now destruct (p_id anchor).
        + intros [E|(p & [] & _)]. left. rewrite <- E. reflexivity.
      - intros Hr dg pe. split; [intros []|]. intros [E|(p & [] & _)]. exfalso.
        apply (f_equal pi_round) in E. cbn [pi_round] in E. unfold p_round in Hr, E. lia.
      - intros ? [].
      - intros j [->|(p & [] & _)] Hj. unfold p_round in Hj. lia.
      - constructor.
      - constructor. }
    destruct (ginv_loop owner d low (p_id anchor) B W ltac:(lia) n (p_round anchor) _ _ _ _ _ _ ltac:(unfold p_round; lia) ltac:(lia) I0 L)
      as (En & r0' & r1' & I).
    assert (Eh : acc = h).
    { destruct ((fhb <=? limit) && negb (next =? limit)); [discriminate|]. now injection G. }
    subst acc. split; [lia|]. split.
    { intros Hf. destruct (N.leb_spec fhb limit); [|lia]. cbn [andb] in G. destruct (N.eqb_spec next limit); [|discriminate]. lia. }
    assert (Hlow : p_round anchor - N.of_nat n < low) by lia.
    set (r' := p_round anchor - N.of_nat n) in *. destruct I as [_ _ _ _ _ _ Acc Done Nd Srt].
    assert (Compl : forall i, ureach d low (p_id anchor) i -> disc (p_id anchor) h i /\ low <= pi_round i).
    { intros i U. induction U as [|i p j U [IH1 IH2] NC Hp Lk Hj].
      - split; [now left|]. fold (p_round anchor). lia.
      - split; [|exact Hj]. right. destruct (Done i IH1 ltac:(lia)) as (q & Q1 & Q2).
        assert (q = p) by (eapply holds_fun; eassumption). subst q. exists p. split; auto. }
    split; [exact Nd|]. split; [exact Srt|]. split; [intros p Hp; apply (Acc p Hp)|]. split.
    - intros i. split.
      + intros I. apply in_map_iff in I. destruct I as (p & <- & Hp). destruct (Acc p Hp) as (_ & _ & Q2 & Q3). split; assumption.
      + intros [U NC]. destruct (Compl i U) as [D Hi]. destruct (Done i D ltac:(lia)) as (p & Q1 & Q2).
        apply in_map_iff. exists p. split; [now apply W|auto].
    - intros i U. destruct (Compl i U) as [D Hi]. destruct (Done i D ltac:(lia)) as (p & Q1 & Q2). eauto.
  Qed.
End G.
