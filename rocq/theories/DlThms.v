(** What a download promises: the theorems. *)
From Coq Require Import List Bool NArith Lia ZArith ZifyN ZifyNat ZifyBool Permutation.
From Verif Require Import OMap VomModel VomProofs PeerCountModel PeerCountProps DlModel DlQueue DlInv DlSteps DlSpec.
Import ListNotations.
Local Open Scope N_scope.

(** ** Facts about steps that need no invariant *)

Lemma take_n_same k y : let y' := take_n k y in d_nf y' = d_nf y /\ d_out y' = d_out y /\ d_slot y' = d_slot y /\ (length (d_down y') <= k + length (d_down y))%nat.
Proof.
  revert y. induction k as [|k IH]; intros y; cbn [take_n]; [cbn zeta; auto|]. destruct (take_to_flight (d_attempt y) (d_q y)) as [[p q]|]; [|cbn zeta; repeat split; auto; lia].
  match goal with |- context [take_n k ?z] => specialize (IH z) end. cbn zeta in *. destruct IH as (A & B & C & D). cbn [d_nf d_out d_slot d_down length] in *. repeat split; auto. lia.
Qed.
Lemma random_same c y : d_nf (download_random c y) = d_nf y /\ d_out (download_random c y) = d_out y /\
  N.of_nat (length (d_down (download_random c y))) <= N.max (c_f c + 1) (N.of_nat (length (d_down y))).
Proof.
  unfold download_random. set (k := N.to_nat _). destruct (take_n_same k y) as (A & B & _ & D). cbn zeta in *. split; [exact A|]. split; [exact B|].
  assert (N.of_nat k <= c_f c + 1 - N.of_nat (length (d_down y))) by (unfold k, current_peers, reliable_minority; lia). lia.
Qed.
Lemma inspect_same c p r v y y' o : inspect c p r v y = Some (y', o) -> d_down y' = d_down y /\ d_out y' = d_out y /\ d_slot y' = d_slot y /\ d_pq y' = d_pq y /\
  (d_nf y' = d_nf y \/ d_nf y' = p :: d_nf y /\ ~ In p (d_nf y) /\ (out_of_vset c = true -> p <> c_author c)).
Proof.
  assert (NF : forall q, let z := on_not_found c p (with_q y q) in d_down z = d_down y /\ d_out z = d_out y /\ d_slot z = d_slot y /\ d_pq z = d_pq y /\ (d_nf z = d_nf y \/ d_nf z = p :: d_nf y /\ ~ In p (d_nf y) /\ (out_of_vset c = true -> p <> c_author c))).
  { intros q. cbn zeta. unfold on_not_found. destruct (out_of_vset c && (p =? c_author c)) eqn:E; [cbn; auto 10|]. cbn [with_q d_nf]. destruct (has p (d_nf y)) eqn:H; [cbn; auto 10|]. cbn [with_nf with_q d_down d_out d_slot d_pq d_nf].
    do 4 (split; [reflexivity|]). right. split; [reflexivity|]. split; [intros IN; apply has_In in IN; congruence|]. intros OV ->. rewrite OV, N.eqb_refl in E. discriminate. }
  unfold inspect. intros H.
  assert (LAST : forall k : task -> task * option outcome, match vm_remove N.compare p (d_q y) with (q, Some s) => if t_flight s then Some (k (with_q y q)) else None | (_, None) => None end = Some (y', o) -> exists q, k (with_q y q) = (y', o)).
  { intros k E. destruct (vm_remove N.compare p (d_q y)) as [q [s|]]; [|discriminate]. destruct (t_flight s); [|discriminate]. injection E as E. eauto. }
  destruct r as [[i|i| |]| | | |].
  - apply (LAST (fun y => if i =? c_id c then (y, Some (if v then OVerified i else OIllFormed i)) else (on_not_found c p y, None))) in H as (q & H). destruct (i =? c_id c); injection H as <- _; [cbn; auto 10|apply NF].
  - apply (LAST (fun y => if i =? c_id c then (y, Some (OIllFormed i)) else (on_not_found c p y, None))) in H as (q & H). destruct (i =? c_id c); injection H as <- _; [cbn; auto 10|apply NF].
  - apply (LAST (fun y => (on_not_found c p y, None))) in H as (q & H). injection H as <- _. apply NF.
  - apply (LAST (fun y => (on_not_found c p y, None))) in H as (q & H). injection H as <- _. apply NF.
  - apply (LAST (fun y => (on_not_found c p y, None))) in H as (q & H). injection H as <- _. apply NF.
  - apply (LAST (fun y => (on_not_found c p y, None))) in H as (q & H). injection H as <- _. apply NF.
  - destruct (q_update p retry_later (d_q y)); [|discriminate]. injection H as <- _. cbn. auto 10.
  - destruct (q_update p retry_later (d_q y)); [|discriminate]. injection H as <- _. cbn. auto 10.
Qed.
Lemma decide_same c x : d_nf (decide c x) = d_nf (fst x) /\ d_down (decide c x) = d_down (fst x).
Proof. unfold decide. destruct (snd x); [auto|]. destruct (_ <=? _); auto. Qed.

(** [nf] grows by the peer of the handled answer only; [downloading] stays within F + 1 *)
Lemma step_nf c y e y' : step c y e = Some y' ->
  (d_nf y' = d_nf y \/ exists p r, handled y e = Some (p, r) /\ d_nf y' = p :: d_nf y /\ ~ In p (d_nf y) /\ (out_of_vset c = true -> p <> c_author c)) /\
  N.of_nat (length (d_down y')) <= N.max (c_f c + 1) (N.of_nat (length (d_down y))).
Proof.
  assert (RML : forall p l, (length (rm p l) <= length l)%nat) by (clear; intros p l; induction l as [|a l IH]; cbn [rm length]; [lia|]; destruct (a =? p); cbn [length]; lia).
  destruct e as [[]|p|p r| | |p r|v|]; cbn [step]; intros ST.
  - injection ST as <-. cbn [with_out d_nf d_down]. split; [auto|lia].
  - injection ST as <-. split; [auto|lia].
  - injection ST as <-. cbn [with_q d_nf d_down]. split; [auto|lia].
  - injection ST as <-. cbn [with_q d_nf d_down]. split; [auto|lia].
  - injection ST as <-. split; [auto|lia].
  - injection ST as <-. cbn [with_out d_nf d_down]. split; [auto|lia].
  - set (y0 := with_down y (rm p (d_down y))) in *. assert (L0 : (length (d_down y0) <= length (d_down y))%nat) by (unfold y0; cbn [with_down d_down]; apply RML).
    assert (GEN : (forall x, r <> RDefined x) -> match inspect c p r false y0 with
        | Some x => Some (match d_out (decide c x) with Some _ => decide c x | None => match d_slot (decide c x) with Some _ => decide c x | None => download_random c (decide c x) end end)
        | None => None end = Some y' -> (d_nf y' = d_nf y \/ d_nf y' = p :: d_nf y /\ ~ In p (d_nf y) /\ (out_of_vset c = true -> p <> c_author c)) /\ N.of_nat (length (d_down y')) <= N.max (c_f c + 1) (N.of_nat (length (d_down y)))).
    { intros _ E. destruct (inspect c p r false y0) as [[z o]|] eqn:IN; [|discriminate]. destruct (inspect_same _ _ _ _ _ _ _ IN) as (A & _ & _ & _ & B). destruct (decide_same c (z, o)) as [D1 D2]. cbn [fst] in D1, D2.
      change (d_nf y0) with (d_nf y) in B. destruct (random_same c (decide c (z, o))) as (R1 & _ & R3). injection E as E.
      assert (NN : d_nf y' = d_nf z) by (subst y'; destruct (d_out (decide c (z, o))); [exact D1|destruct (d_slot (decide c (z, o))); congruence]).
      rewrite NN. split; [exact B|]. rewrite D2, A in R3. subst y'. destruct (d_out (decide c (z, o))); [rewrite D2, A; lia|destruct (d_slot (decide c (z, o))); [rewrite D2, A; lia|lia]]. }
    assert (DD : (exists x, r = RDefined x) \/ forall x, r <> RDefined x) by (destruct r; [left; eauto|right; discriminate|right; discriminate|right; discriminate|right; discriminate]).
    destruct DD as [(x & ->)|ND].
    + injection ST as <-. clear GEN. destruct (d_slot y); unfold y0 in *; cbn [with_slot with_down d_nf d_down] in *; (split; [left; reflexivity|lia]).
    + destruct (GEN ND) as [[A|A] B].
      { clear - ST ND. destruct r; first [exact ST | exfalso; exact (ND _ eq_refl)]. }
      * auto.
      * split; [|exact B]. right. exists p, r. split; [|exact A]. destruct r; try reflexivity. exfalso. exact (ND _ eq_refl).
  - cbn [handled]. destruct (d_slot y) as [[p x]|] eqn:S; [|discriminate]. destruct (inspect c p (RDefined x) v y) as [[z o]|] eqn:IN; [|discriminate]. injection ST as E.
    destruct (inspect_same _ _ _ _ _ _ _ IN) as (A & _ & _ & _ & B). destruct (decide_same c (z, o)) as [D1 D2]. cbn [fst] in D1, D2.
    assert (NN : d_nf y' = d_nf z /\ N.of_nat (length (d_down y')) <= N.max (c_f c + 1) (N.of_nat (length (d_down y)))).
    { destruct (d_out (decide c (z, o))); [subst y'; cbn [with_slot d_nf d_down]; rewrite D2, A; split; [exact D1|lia]|].
      destruct (rev (d_pq (decide c (z, o)))) as [|e0 r0]; subst y'.
      - destruct (random_same c (with_slot (decide c (z, o)) None [])) as (R1 & _ & R3). cbn [with_slot d_nf d_down] in R1, R3. rewrite R1. split; [exact D1|]. rewrite D2, A in R3. exact R3.
      - cbn [with_slot d_nf d_down]. rewrite D2, A. split; [exact D1|lia]. }
    destruct NN as [N1 N2]. rewrite N1. split; [|exact N2]. destruct B as [B|B]; [auto|]. right. exists p, (RDefined x). auto.
  - injection ST as <-. cbn [d_nf d_down]. destruct (random_same c y) as (R1 & _ & R3). split; [auto|exact R3].
Qed.

Section Download.
  Variable c : conf.
  Hypothesis OK : conf_ok c.

  Lemma run_tinv l y : runs c l y -> tinv c false y.
  Proof. intros R. apply (proj1 (runs_tinv c l y OK R)). discriminate. Qed.
  Lemma run_case l y e y' : runs c l y -> enabled y e = true -> step c y e = Some y' -> d_out y = None.
  Proof. intros _ EN _. unfold enabled in EN. destruct (d_out y); [discriminate|reflexivity]. Qed.

  Lemma runs_nf l y : runs c l y -> NoDup (d_nf y) /\ forall p, In p (d_nf y) -> signer c p.
  Proof.
    intros R. induction R as [|l y e y' R [IH1 IH2] EN ST]; [split; [constructor|intros p []]|].
    destruct (step_nf c y e y' ST) as [[E|(p & r & H & E & NI & AU)] _]; rewrite E; [auto|]. split; [constructor; assumption|]. intros x [<-|IN]; [|auto].
    pose proof (run_case l y e y' R EN ST) as O. destruct (proj1 (run_tinv l y R) O) as [I _].
    assert (IP : In p (pending y)).
    { unfold enabled in EN. rewrite O in EN. unfold pending. destruct e as [| | | | |p0 r0|v|]; cbn [handled] in H; try discriminate.
      - destruct r0; try discriminate; injection H as <- _; apply in_app_iff; left; apply has_In; exact EN.
      - destruct (d_slot y) as [[p0 x0]|]; [|discriminate]. injection H as <- _. apply in_app_iff. right. left. reflexivity. }
    apply (i_fly _ _ _ _ _ _ _ I) in IP as (s & G & _). destruct (i_known _ _ _ _ _ _ _ I p s G) as [K|K]; [exact K|]. subst p.
    destruct (out_of_vset c) eqn:OV; [exfalso; exact (AU eq_refl eq_refl)|]. unfold out_of_vset in OV. apply negb_false_iff, has_In in OV. exact OV.
  Qed.

  (** ** Whom it asks *)

  (** At most F + 1 queries are under way. *)
  Theorem at_most_minority_asked l y : runs c l y -> N.of_nat (length (d_down y)) <= c_f c + 1.
  Proof. intros R. induction R as [|l y e y' R IH EN ST]; [cbn; lia|]. destruct (step_nf c y e y' ST) as [_ B]. lia. Qed.

  Lemma step_asked l y e y' : runs c l y -> enabled y e = true -> step c y e = Some y' -> exists y1 new,
    d_asked y' = map (fun p => (p, d_attempt y)) new ++ d_asked y /\
    (forall p, In p new -> may_be_asked y1 (d_attempt y) p) /\
    (forall p, q_get p (d_q y') = None <-> q_get p (d_q y1) = None) /\
    (forall p s', q_get p (d_q y') = Some s' -> exists s, q_get p (d_q y) = Some s /\ t_res s' = report p (t_res s) e) /\
    (forall p s', q_get p (d_q y1) = Some s' -> exists s, q_get p (d_q y) = Some s /\ t_res s' = report p (t_res s) e) /\
    (forall p, In p new -> ~ In p (pending y1)) /\ d_out y1 = d_out y' /\ d_slot y1 = d_slot y' /\ d_pq y1 = d_pq y' /\ tinv c false y1 /\
    (forall p r, handled y e = Some (p, r) -> definite r = true -> q_get p (d_q y1) = None).
  Proof.
    intros R EN ST. destruct (step_cases c false y e y' (run_tinv l y R) EN ST ltac:(discriminate)) as (y1 & T1 & A1 & A2 & A3 & A4 & A5 & A6 & A7 & _ & _ & _ & _ & A8 & _ & _ & B). exists y1.
    destruct B as [(B1 & B2 & _)|(B0 & BS & B1 & B2 & _)].
    - exists []. cbn [map app]. rewrite B1, B2. split; [exact A2|]. split; [intros p []|]. split; [tauto|]. split; [exact A7|]. split; [exact A7|]. split; [intros p []|]. auto 10.
    - destruct (proj1 T1 B0) as [I _]. destruct (random_spec c false y1 I) as (new & C1 & _ & _ & _ & C5 & _ & C7 & C8). cbn zeta in *. exists new. rewrite B1, B2, C1, A1, A2 in *.
      split; [reflexivity|]. split; [exact C5|]. split; [exact C7|]. split; [intros p s' G; destruct (C8 p s' G) as (s1 & G1 & E1); destruct (A7 p s1 G1) as (s & G0 & E0); exists s; split; [exact G0|congruence]|].
      split; [exact A7|]. split; [|auto 10]. intros p IN IP. destruct (C5 p IN) as (s & G & _ & F & _). apply (i_fly _ _ _ _ _ _ _ I) in IP as (s2 & G2 & F2). congruence.
  Qed.

  Lemma runs_reported l y p s : NoDup (map fst (c_vset c)) -> runs c l y -> q_get p (d_q y) = Some s -> t_res s = reported c l p.
  Proof.
    intros ND R. revert s. induction R as [|l y e y' R IH EN ST]; intros s G.
    - unfold task_new in G. cbn [d_q] in G. unfold reported. cbn [fold_left]. unfold state0.
      unfold new_queue, q_get in G. set (L := map _ _) in G. rewrite (proj2 (proj2 (from_iter_spec N.compare rev_cmp Ntot rev_tot L))) in G.
      assert (LV : forall m1 m2 : list (N * status), last_value N.compare p (m1 ++ m2) = match last_value N.compare p m2 with Some w => Some w | None => last_value N.compare p m1 end).
      { clear. induction m1 as [|[k v] m1 IH]; intros m2; cbn [app last_value]; [destruct (last_value N.compare p m2); reflexivity|]. rewrite IH. destruct (last_value N.compare p m2); reflexivity. }
      unfold L in G. rewrite map_app, LV in G. cbn [map last_value fst snd] in G. rewrite keqb_N in G. destruct (N.eqb_spec p (c_author c)) as [E|E]; [injection G as <-; reflexivity|].
      clear - G ND. induction (c_vset c) as [|[k r] v IH]; cbn [map last_value fst snd] in G; [discriminate|]. cbn [find_state fst snd]. cbn [map fst] in ND. inversion ND as [|? ? N1 N2]; subst.
      rewrite keqb_N in G. destruct (N.eqb_spec k p) as [E|E].
      + subst k. assert (LN : last_value N.compare p (map (fun e => (fst e, st_new (snd e) (c_rand c (fst e)))) v) = None).
        { clear - N1. induction v as [|[k r] v IH]; cbn [map last_value fst snd]; [reflexivity|]. cbn [map fst In] in N1. rewrite IH by tauto. rewrite keqb_N. destruct (N.eqb_spec p k); [exfalso; apply N1; left; auto|reflexivity]. }
        rewrite LN, N.eqb_refl in G. injection G as <-. reflexivity.
      + apply IH; [exact N2|]. destruct (last_value N.compare p (map (fun e => (fst e, st_new (snd e) (c_rand c (fst e)))) v)) as [w|] eqn:LW; [exact G|]. destruct (N.eqb_spec p k); [congruence|discriminate].
    - destruct (step_asked l y e y' R EN ST) as (y1 & new & _ & _ & _ & X & _). destruct (X p s G) as (s0 & G0 & E). unfold reported. rewrite fold_left_app. cbn [fold_left]. fold (reported c l p). rewrite <- (IH s0 G0). exact E.
  Qed.

  (** A new query goes to a peer that is known, was last reported resolved and has no query under way. *)
  Theorem queries_go_to_resolved_peers l y e y' : NoDup (map fst (c_vset c)) -> runs c l y -> enabled y e = true -> step c y e = Some y' -> exists new,
    d_asked y' = map (fun p => (p, d_attempt y)) new ++ d_asked y /\
    forall p, In p new -> known c p /\ reported c (l ++ [e]) p = true.
  Proof.
    intros ND R EN ST. destruct (step_asked l y e y' R EN ST) as (y1 & new & A1 & A2 & A3 & A4 & A5 & _). exists new. split; [exact A1|]. intros p IN. destruct (A2 p IN) as (s & G & RS & _).
    destruct (A5 p s G) as (s0 & G0 & E). destruct (proj1 (run_tinv l y R) (run_case l y e y' R EN ST)) as [I _]. split; [exact (i_known _ _ _ _ _ _ _ I p s0 G0)|].
    unfold reported. rewrite fold_left_app. cbn [fold_left]. fold (reported c l p). rewrite <- (runs_reported l y p s0 ND R G0). congruence.
  Qed.

  (** A peer is asked at most once in an attempt (while the counter of attempts does not wrap). *)
  Theorem one_query_per_attempt l y : runs c l y -> ticks l <= u32_max -> NoDup (d_asked y).
  Proof.
    intros R W. destruct R as [|l y e y' R EN ST]; [constructor|]. rewrite ticks_snoc in W.
    assert (T0 : tinv c true y) by (apply (proj1 (runs_tinv c l y OK R)); intros _; lia).
    assert (NWR : true = true -> e = ETick -> d_attempt y < u32_max).
    { intros _ ->. rewrite (proj2 (runs_tinv c l y OK R)); cbn [is_tick] in W; lia. }
    destruct (step_cases c true y e y' T0 EN ST NWR) as (y1 & T1 & _ & A2 & _ & _ & _ & A6 & _ & _ & _ & _ & _ & _ & _ & _ & B).
    destruct (d_out y') as [o|] eqn:O.
    - destruct B as [(_ & B2 & _)|(B0 & _)]; [|congruence]. rewrite B2, A2. destruct (proj1 T0 (run_case l y e y' R EN ST)) as [I _]. exact (i_asked_nd _ _ _ _ _ _ _ I eq_refl).
    - destruct (step_tinv c true y e T0 EN NWR) as (z & E & TZ & _). rewrite ST in E. injection E as <-. destruct (proj1 TZ O) as [I _]. exact (i_asked_nd _ _ _ _ _ _ _ I eq_refl).
  Qed.
End Download.
