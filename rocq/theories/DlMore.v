(** What a download promises: whom it asks first, when it gives up, and what it returns. *)
From Coq Require Import List Bool NArith Lia ZArith ZifyN ZifyNat ZifyBool Permutation.
From Verif Require Import OMap VomModel VomProofs PeerCountModel PeerCountProps DlModel DlQueue DlInv DlSteps DlSpec DlThms.
Import ListNotations.
Local Open Scope N_scope.

(** [s] goes before [u]: not asked yet or asked longer ago; then fewer failed queries; then a
    depender before an independent peer; then by the random number *)
Definition asked_key (s : status) : N := match t_last s with None => 0 | Some a => a + 1 end.
Definition before (s u : status) : Prop :=
  asked_key s < asked_key u \/ asked_key s = asked_key u /\
  (t_failed s < t_failed u \/ t_failed s = t_failed u /\
  (t_indep s = false /\ t_indep u = true \/ t_indep s = t_indep u /\ t_rand s <= t_rand u)).
Definition ready_at (s : status) (a : N) : Prop :=
  t_res s = true /\ t_flight s = false /\ (t_last s = None \/ exists b, t_last s = Some b /\ b < a).

Lemma st_le_before s u a : ready_at s a -> ready_at u a -> st_le s u -> before s u.
Proof.
  intros (S1 & S2 & _) (U1 & U2 & _) H. unfold st_le, st_cmp, st_key in H. rewrite S1, S2, U1, U2 in H.
  change (lex [0; 0; asked_key s; t_failed s; (if t_indep s then 1 else 0); t_rand s] [0; 0; asked_key u; t_failed u; (if t_indep u then 1 else 0); t_rand u] <> Gt) in H.
  cbn [lex] in H. rewrite !N.compare_refl in H. unfold before.
  destruct (N.compare_spec (asked_key s) (asked_key u)) as [E1|E1|E1]; [|left; exact E1|congruence].
  right. split; [exact E1|].
  destruct (N.compare_spec (t_failed s) (t_failed u)) as [E2|E2|E2]; [|left; exact E2|congruence].
  right. split; [exact E2|]. destruct (t_indep s), (t_indep u); cbn [N.compare] in H; try rewrite N.compare_refl in H; try (cbn in H; congruence); auto.
  all: right; split; [reflexivity|]; destruct (N.compare_spec (t_rand s) (t_rand u)) as [E3|E3|E3]; try lia; exfalso; apply H; first [reflexivity | rewrite (proj2 (N.compare_gt_iff _ _) E3); reflexivity].
Qed.

Section Download.
  Variable c : conf.
  Hypothesis OK : conf_ok c.

  (** ** Asking *)

  (** After a tick, and after an answer is handled with nothing left to parse, as many queries are
      under way as the attempt allows, or nobody else may be asked. *)
  Theorem asks_as_many_as_allowed l y e y' : runs c l y -> enabled y e = true -> step c y e = Some y' ->
    e = ETick \/ handled y e <> None -> d_out y' = None -> d_slot y' = None ->
    limit c (d_attempt y) <= N.of_nat (length (d_down y')) \/ forall p, ~ may_be_asked y' (d_attempt y) p.
  Proof.
    intros R EN ST H O S. destruct (step_cases c false y e y' (run_tinv c OK l y R) EN ST ltac:(discriminate)) as (y1 & T1 & A1 & A2 & _ & A4 & _ & A6 & _ & _ & _ & _ & _ & _ & _ & _ & B).
    rewrite A6 in O. rewrite A4 in S. destruct B as [(_ & _ & _ & B)|(_ & _ & B1 & _ & B3)].
    - destruct (B O) as [B1 B2]. destruct H as [H|H]; [contradiction|]. exfalso. exact (H (B2 S)).
    - destruct (proj1 T1 O) as [I _]. destruct (random_spec c false y1 I) as (new & _ & _ & _ & C4 & _). cbn zeta in C4. rewrite A1 in C4. rewrite B3. destruct C4 as [C4|C4]; [left; exact C4|right].
      intros p (s & G & Q). rewrite B1 in G. apply (C4 p). exists s. auto.
  Qed.
  (** Before a tick the queries under way are within the limit of the attempt or as many as they were. *)
  Theorem tick_respects_limit l y y' : runs c l y -> enabled y ETick = true -> step c y ETick = Some y' ->
    N.of_nat (length (d_down y')) <= N.max (limit c (d_attempt y)) (N.of_nat (length (d_down y))).
  Proof.
    intros R EN ST. cbn [step] in ST. injection ST as <-. cbn [d_down]. destruct (proj1 (run_tinv c OK l y R) (run_case c l y ETick _ R EN eq_refl)) as [I _].
    destruct (random_spec c false y I) as (new & _ & _ & C3 & _). exact C3.
  Qed.
  (** Who is asked at a tick goes before everyone who could be asked and is not. *)
  Theorem tick_asks_in_order l y y' : runs c l y -> enabled y ETick = true -> step c y ETick = Some y' -> exists new,
    d_asked y' = map (fun p => (p, d_attempt y)) new ++ d_asked y /\ d_down y' = new ++ d_down y /\ forall p x s u, In p new -> ~ In x new -> q_get p (d_q y) = Some s -> q_get x (d_q y) = Some u -> ready_at u (d_attempt y) -> ready_at s (d_attempt y) /\ before s u.
  Proof.
    intros R EN ST. cbn [step] in ST. injection ST as <-. cbn [d_down d_asked]. destruct (proj1 (run_tinv c OK l y R) (run_case c l y ETick _ R EN eq_refl)) as [I _].
    destruct (random_spec c false y I) as (new & C1 & C2 & _ & _ & C5 & C6 & _). exists new. split; [exact C1|]. split; [exact C2|]. intros p x s u H1 H2 G1 G2 RU.
    assert (RS : ready_at s (d_attempt y)) by (destruct (C5 p H1) as (s0 & G0 & Q); rewrite G1 in G0; injection G0 as <-; exact Q). split; [exact RS|]. exact (st_le_before s u _ RS RU (C6 p x s u H1 H2 G1 G2)).
  Qed.

  (** ** Answers *)

  Definition noted (l : list event) (y : task) : Prop :=
    (forall p x, In (p, x) (entries y) -> In (EResponse p (RDefined x)) l) /\ (forall p, In p (d_nf y) -> denied c l p).
  Lemma denied_app l e p : denied c l p -> denied c (l ++ [e]) p.
  Proof. unfold denied. rewrite !in_app_iff. intros [H|[H|(x & H & W)]]; [auto|auto|]. right. right. exists x. rewrite in_app_iff. auto. Qed.
  Lemma entries_eq y y' : d_slot y = d_slot y' -> d_pq y = d_pq y' -> entries y = entries y'.
  Proof. intros A B. unfold entries. rewrite A, B. reflexivity. Qed.
  Lemma handled_noted l y e p r : noted l y -> handled y e = Some (p, r) -> In (EResponse p r) (l ++ [e]).
  Proof.
    intros [N1 _] H. apply in_app_iff. destruct e as [| | | | |p0 r0|v|]; cbn [handled] in H; try discriminate.
    - right. left. destruct r0; try discriminate; injection H as <- <-; reflexivity.
    - left. destruct (d_slot y) as [[p0 x0]|] eqn:S; [|discriminate]. injection H as <- <-. apply N1. unfold entries. rewrite S. left. reflexivity.
  Qed.
  Lemma runs_noted l y : runs c l y -> noted l y.
  Proof.
    intros R. induction R as [|l y e y' R IH EN ST]; [split; [intros p x []|intros p []]|].
    destruct (step_cases c false y e y' (run_tinv c OK l y R) EN ST ltac:(discriminate)) as (y1 & T1 & A1 & A2 & A3 & A4 & A5 & A6 & _ & A8 & A9 & _).
    split.
    - intros p x H. rewrite (entries_eq _ _ A4 A5) in H. apply A9 in H as [H|H]; apply in_app_iff; [left; apply (proj1 IH); exact H|right; left; symmetry in H; exact (eq_sym H)].
    - intros p H. rewrite A3 in H. apply A8 in H as [H|(r & H & B)]; [apply denied_app, (proj2 IH), H|]. pose proof (handled_noted l y e p r IH H) as HN. unfold denied. destruct r as [x| | | |]; cbn [bad_resp] in B; try contradiction; eauto.
  Qed.

  (** *** Giving up *)

  (** NotFound: 2F different signers said they do not have the point, or sent something else. *)
  Theorem not_found_is_deserved l y : runs c l y -> d_out y = Some ONotFound -> exists ps,
    NoDup ps /\ 2 * c_f c <= N.of_nat (length ps) /\ forall p, In p ps -> signer c p /\ denied c l p.
  Proof.
    intros R O. exists (d_nf y). destruct (runs_nf c OK l y R) as [N1 N2]. split; [exact N1|]. split; [|intros p H; split; [exact (N2 p H)|exact (proj2 (runs_noted l y R) p H)]].
    destruct R as [|l y e y' R EN ST]; [discriminate|]. destruct (step_cases c false y e y' (run_tinv c OK l y R) EN ST ltac:(discriminate)) as (y1 & _ & _ & _ & A3 & _ & _ & A6 & _ & _ & _ & _ & _ & _ & A & _). rewrite A6 in O. rewrite O in A. rewrite A3. unfold majority_of_others in A. lia.
  Qed.

  (** [p] gave its answer: it is out of the queue or the answer waits *)
  Definition spent (y : task) (p : peer) (r : resp) : Prop := q_get p (d_q y) = None \/ exists x, r = RDefined x /\ In (p, x) (entries y).
  Lemma entry_pending y p x : In (p, x) (entries y) -> In p (pending y).
  Proof.
    unfold entries, pending. intros H. apply in_app_iff. right. destruct (d_slot y) as [e|]; cbn [slot_peers app].
    - destruct H as [-> |H]; [left; reflexivity|right; apply in_map_iff; exists (p, x); auto].
    - apply in_map_iff. exists (p, x). auto.
  Qed.
  Lemma step_spent l y e y' p r : runs c l y -> enabled y e = true -> step c y e = Some y' -> d_out y' = None -> definite r = true ->
    e = EResponse p r \/ spent y p r -> exists y1 new, tinv c false y1 /\ d_out y1 = None /\ spent y1 p r /\ spent y' p r /\ d_asked y' = map (fun p => (p, d_attempt y)) new ++ d_asked y /\ ~ In p new.
  Proof.
    intros R EN ST O D H. destruct (step_cases c false y e y' (run_tinv c OK l y R) EN ST ltac:(discriminate)) as (y1 & T1 & A1 & A2 & A3 & A4 & A5 & A6 & A7 & _ & _ & A10 & A11 & A12 & _ & _ & B).
    rewrite A6 in O.
    assert (S1 : spent y1 p r).
    { destruct H as [H|[H|(x & -> & H)]].
      - destruct r as [x| | | |]; try discriminate D.
        + right. exists x. split; [reflexivity|]. apply (A11 O). exact H.
        + left. apply (A12 p RNone); [subst e; reflexivity|reflexivity].
        + left. apply (A12 p RTl); [subst e; reflexivity|reflexivity].
      - left. destruct (q_get p (d_q y1)) as [s'|] eqn:G; [|reflexivity]. destruct (A7 p s' G) as (s & G0 & _). congruence.
      - destruct (A10 O (p, x) H) as [H'|H']; [right; eauto|]. left. exact (A12 p (RDefined x) H' eq_refl). }
    destruct (proj1 T1 O) as [I _].
    assert (NM : ~ may_be_asked y1 (d_attempt y) p).
    { intros (s & G & _ & F & _). destruct S1 as [S1|(x & _ & S1)]; [congruence|]. apply entry_pending, (i_fly _ _ _ _ _ _ _ I) in S1 as (s0 & G0 & F0). congruence. }
    exists y1. destruct B as [(B1 & B2 & _)|(_ & _ & B1 & B2 & _)].
    - exists []. split; [exact T1|]. split; [exact O|]. split; [exact S1|]. split; [|split; [rewrite B2; exact A2|intros []]].
      unfold spent. rewrite B1, (entries_eq _ _ A4 A5). exact S1.
    - destruct (random_spec c false y1 I) as (new & C1 & _ & _ & _ & C5 & _ & C7 & _). cbn zeta in *. exists new. split; [exact T1|]. split; [exact O|]. split; [exact S1|]. rewrite A1 in *. split; [|split; [rewrite B2, C1, A2; reflexivity|intros H0; exact (NM (C5 p H0))]].
      unfold spent. rewrite B1, (entries_eq _ _ A4 A5). destruct S1 as [S1|S1]; [left; apply C7; exact S1|right; exact S1].
  Qed.
  Lemma runs_spent l y p r : runs c l y -> d_out y = None -> In (EResponse p r) l -> definite r = true -> spent y p r.
  Proof.
    intros R. induction R as [|l y e y' R IH EN ST]; intros O H D; [destruct H|].
    assert (X : e = EResponse p r \/ spent y p r) by (apply in_app_iff in H as [H|[H|[]]]; [right; exact (IH (run_case c l y e y' R EN ST) H D)|left; exact H]).
    destruct (step_spent l y e y' p r R EN ST O D X) as (_ & _ & _ & _ & _ & S & _). exact S.
  Qed.

  (** A peer that gave a definite answer is not asked again. *)
  Theorem answered_peers_are_left_alone l y e y' p r : runs c l y -> enabled y e = true -> step c y e = Some y' ->
    In (EResponse p r) (l ++ [e]) -> definite r = true -> exists new, d_asked y' = map (fun p => (p, d_attempt y)) new ++ d_asked y /\ ~ In p new.
  Proof.
    intros R EN ST H D. destruct (d_out y') as [o|] eqn:O.
    - exists []. split; [|intros []]. cbn [map app]. destruct (step_cases c false y e y' (run_tinv c OK l y R) EN ST ltac:(discriminate)) as (y1 & _ & _ & A2 & _ & _ & _ & A6 & _ & _ & _ & _ & _ & _ & _ & _ & [(_ & B & _)|(B & _)]); congruence.
    - assert (X : e = EResponse p r \/ spent y p r) by (apply in_app_iff in H as [H|[H|[]]]; [right; exact (runs_spent l y p r R (run_case c l y e y' R EN ST) H D)|left; exact H]).
      destruct (step_spent l y e y' p r R EN ST O D X) as (_ & new & _ & _ & _ & _ & E & NI). eauto.
  Qed.

  (** The search ends with the 2F-th signer that says it has no point: while it goes on there are fewer. *)
  Theorem stops_at_the_majority l y ps : runs c l y -> d_out y = None -> NoDup ps ->
    (forall p, In p ps -> signer c p /\ (In (EResponse p RNone) l \/ In (EResponse p RTl) l)) -> N.of_nat (length ps) < 2 * c_f c.
  Proof.
    intros R O ND H. destruct (proj1 (run_tinv c OK l y R) O) as [I L]. unfold majority_of_others in L.
    assert (IN : incl ps (d_nf y)).
    { intros p HP. destruct (H p HP) as [SG A]. apply (i_left _ _ _ _ _ _ _ I p SG).
      destruct A as [A|A]; destruct (runs_spent l y p _ R O A eq_refl) as [S|(x & E & _)]; try exact S; discriminate. }
    pose proof (NoDup_incl_length ND IN). lia.
  Qed.
  (** An answer with something else counts as soon as it is parsed: if nothing waits, so do these. *)
  Theorem stops_at_the_majority_of_denials l y ps : runs c l y -> d_out y = None -> d_slot y = None -> NoDup ps ->
    (forall p, In p ps -> signer c p /\ denied c l p) -> N.of_nat (length ps) < 2 * c_f c.
  Proof.
    intros R O S ND H. destruct (run_tinv c OK l y R) as [T1 T2]. destruct (T1 O) as [I L]. unfold majority_of_others in L.
    assert (EN : entries y = []) by (unfold entries; rewrite S; exact (T2 S O)).
    assert (IN : incl ps (d_nf y)).
    { intros p HP. destruct (H p HP) as [SG A]. apply (i_left _ _ _ _ _ _ _ I p SG).
      destruct A as [A|[A|(x & A & _)]]; destruct (runs_spent l y p _ R O A eq_refl) as [Q|(z & _ & Q)]; try exact Q; rewrite EN in Q; destruct Q. }
    pose proof (NoDup_incl_length ND IN). lia.
  Qed.

  (** While the search goes on, a signer other than [self] has not given its answer or its answer waits. *)
  Theorem never_runs_out l y self : NoDup (map fst (c_vset c)) -> runs c l y -> d_out y = None -> exists p s, signer c p /\ p <> self /\ q_get p (d_q y) = Some s.
  Proof.
    intros ND R O. destruct (proj1 (run_tinv c OK l y R) O) as [I L]. unfold majority_of_others in L.
    destruct (existsb (fun p => negb (p =? self) && match q_get p (d_q y) with Some _ => true | None => false end) (map fst (c_vset c))) eqn:E.
    - apply existsb_exists in E as (p & IN & E). apply andb_true_iff in E as [E1 E2]. apply negb_true_iff, N.eqb_neq in E1. destruct (q_get p (d_q y)) as [s|] eqn:G; [|discriminate]. exists p, s. auto.
    - exfalso. assert (IN : incl (map fst (c_vset c)) (self :: d_nf y)).
      { intros p HP. destruct (N.eqb_spec p self) as [EP|EP]; [left; auto|right]. apply (i_left _ _ _ _ _ _ _ I p HP).
        destruct (q_get p (d_q y)) as [s|] eqn:G; [|reflexivity]. exfalso. assert (existsb (fun p => negb (p =? self) && match q_get p (d_q y) with Some _ => true | None => false end) (map fst (c_vset c)) = true); [|congruence].
        apply existsb_exists. exists p. split; [exact HP|]. rewrite G, (proj2 (N.eqb_neq _ _) EP). reflexivity. }
      pose proof (NoDup_incl_length ND IN) as LE. cbn [length] in LE. rewrite map_length in LE. pose proof OK as OK'. unfold conf_ok in OK'. destruct (pc_spec _ _ OK') as (P1 & P2 & P3 & P4 & _). unfold full in *. lia.
  Qed.

  (** *** Results *)

  (** A verified result is the requested point, sent by a peer that was asked, and the verifier accepted it. *)
  Theorem verified_is_the_point l y i : runs c l y -> d_out y = Some (OVerified i) ->
    i = c_id c /\ exists l0 p, l = l0 ++ [EParsed true] /\ In (EResponse p (RDefined (PPoint i))) l0.
  Proof.
    intros R O. destruct R as [|l y e y' R EN ST]; [discriminate|]. destruct (step_cases c false y e y' (run_tinv c OK l y R) EN ST ltac:(discriminate)) as (y1 & _ & _ & _ & _ & _ & _ & A6 & _ & _ & _ & _ & _ & _ & A & _).
    rewrite A6 in O. rewrite O in A. destruct A as (A1 & -> & p & A2). split; [exact A1|]. exists l, p. split; [reflexivity|]. pose proof (handled_noted l y _ p _ (runs_noted l y R) A2) as H. apply in_app_iff in H as [H|[H|[]]]; [exact H|discriminate].
  Qed.
  (** An ill-formed result has the requested id: the parser or the verifier refused it. *)
  Theorem ill_formed_is_the_point l y i : runs c l y -> d_out y = Some (OIllFormed i) ->
    i = c_id c /\ exists l0 v p, l = l0 ++ [EParsed v] /\ (In (EResponse p (RDefined (PIllFormed i))) l0 \/ v = false /\ In (EResponse p (RDefined (PPoint i))) l0).
  Proof.
    intros R O. destruct R as [|l y e y' R EN ST]; [discriminate|]. destruct (step_cases c false y e y' (run_tinv c OK l y R) EN ST ltac:(discriminate)) as (y1 & _ & _ & _ & _ & _ & _ & A6 & _ & _ & _ & _ & _ & _ & A & _).
    rewrite A6 in O. rewrite O in A. destruct A as (A1 & p & A2). split; [exact A1|].
    assert (EV : exists v, e = EParsed v).
    { destruct A2 as [A2|[-> _]]; [|eauto]. destruct e as [| | | | |p0 r0|v|]; cbn [handled] in A2; try discriminate; [destruct r0; discriminate|eauto]. }
    destruct EV as (v & ->). exists l, v, p. split; [reflexivity|]. destruct A2 as [A2|[E A2]].
    - left. pose proof (handled_noted l y _ p _ (runs_noted l y R) A2) as H. apply in_app_iff in H as [H|[H|[]]]; [exact H|discriminate].
    - right. injection E as ->. split; [reflexivity|]. pose proof (handled_noted l y _ p _ (runs_noted l y R) A2) as H. apply in_app_iff in H as [H|[H|[]]]; [exact H|discriminate].
  Qed.
  (** The other results come from the broadcast and from the end of the stream of peer updates. *)
  Theorem other_results l y : runs c l y ->
    (d_out y = Some OBroadcast -> exists l0, l = l0 ++ [EBroadcast true]) /\ (d_out y = Some OCancelled -> exists l0, l = l0 ++ [EClosed]).
  Proof.
    intros R. destruct R as [|l y e y' R EN ST]; [split; discriminate|]. destruct (step_cases c false y e y' (run_tinv c OK l y R) EN ST ltac:(discriminate)) as (y1 & _ & _ & _ & _ & _ & _ & A6 & _ & _ & _ & _ & _ & _ & A & _).
    rewrite A6. split; intros O; rewrite O in A; subst e; eauto.
  Qed.
  (** The requested point ends the search as soon as it is parsed, whoever sent it. *)
  Theorem the_point_ends_the_search l y p v : runs c l y -> d_out y = None ->
    (d_slot y = Some (p, PPoint (c_id c)) -> exists y', step c y (EParsed v) = Some y' /\ d_out y' = Some (if v then OVerified (c_id c) else OIllFormed (c_id c))) /\ (d_slot y = Some (p, PIllFormed (c_id c)) -> exists y', step c y (EParsed v) = Some y' /\ d_out y' = Some (OIllFormed (c_id c))).
  Proof.
    intros R O. assert (NP : d_slot y <> None -> step c y (EParsed v) <> None) by (intros S; apply (download_never_panics c l y (EParsed v) OK R); unfold enabled; rewrite O; destruct (d_slot y); [reflexivity|congruence]).
    split; intros S; specialize (NP ltac:(rewrite S; discriminate)); cbn [step] in *; rewrite S in *; unfold inspect in *; destruct (vm_remove N.compare p (d_q y)) as [q [s|]]; try congruence; destruct (t_flight s); try congruence; rewrite N.eqb_refl in *; eexists; (split; [reflexivity|]); unfold decide; cbn [fst snd with_out d_out]; reflexivity.
  Qed.
End Download.
