(** The verdict does not depend on the order in which dependencies resolve, and a verified point never makes the
    validation panic (C68). *)
From Verif Require Import VerModel VerSpec VerCheck VerBasic VerProper VerHist VerThms.
From Coq Require Import ZArith ZifyN ZifyNat ZifyBool.
Local Open Scope N_scope.

Lemma okey_some v v' : okey (Some v) = okey (Some v') ->
  p_round (il_to (v_link v)) = p_round (il_to (v_link v')) /\ has_dag_round (v_reason v) = has_dag_round (v_reason v').
Proof.
  cbn [okey]. unfold ckey. intros E.
  destruct (has_dag_round (v_reason v)), (has_dag_round (v_reason v')); split; try reflexivity; lia.
Qed.
Theorem order_irrelevant c leader i r0 r1 r2 ds ds' is is' res res' : Permutation ds ds' -> Permutation is is' ->
  validate c leader i r0 r1 r2 (map Some ds) is = Some res ->
  validate c leader i r0 r1 r2 (map Some ds') is' = Some res' -> same_result res res'.
Proof.
  intros PD PI. unfold validate.
  destruct (i_round i <? c_genesis c); [discriminate|].
  destruct (i_round i =? c_genesis c); [intros A B; inversion A; inversion B; exact I|].
  destruct (negb (proof_link_ok c leader i)); [intros A B; inversion A; inversion B; reflexivity|].
  destruct (negb r0); [intros A B; inversion A; inversion B; exact I|].
  destruct (negb r1); [intros A B; inversion A; inversion B; exact I|].
  destruct (negb r2 && _); [intros A B; inversion A; inversion B; exact I|].
  destruct (mk_ctx i) as [x|]; [|discriminate].
  destruct (check_deps c i x (map Some ds) (None, None)) as [[r v]|] eqn:C1; [|discriminate].
  destruct (check_deps c i x (map Some ds') (None, None)) as [[r' v']|] eqn:C2; [|discriminate].
  apply check_deps_spec in C1, C2. destruct C1 as (A1 & A2 & _), C2 as (B1 & B2 & _).
  assert (FF : Forall (dep_ok c i x) ds <-> Forall (dep_ok c i x) ds').
  { split; intros F; eapply Permutation_Forall; [exact PD|exact F|apply Permutation_sym; exact PD|exact F]. }
  assert (FI : Forall (ind_ok c i x) is <-> Forall (ind_ok c i x) is').
  { split; intros F; eapply Permutation_Forall; [exact PI|exact F|apply Permutation_sym; exact PI|exact F]. }
  assert (KV : okey v = okey v') by (rewrite A2, B2; apply causes_perm; exact PD).
  destruct r as [r|], r' as [r'|].
  - intros A B; inversion A; inversion B; exact I.
  - exfalso. assert (Some r = None) by (apply A1; split; [reflexivity|]; apply FF; apply B1; reflexivity). discriminate.
  - exfalso. assert (Some r' = None) by (apply B1; split; [reflexivity|]; apply FF; apply A1; reflexivity). discriminate.
  - destruct (check_indirect c i x is (None, v)) as [s w] eqn:I1.
    destruct (check_indirect c i x is' (None, v')) as [s' w'] eqn:I2.
    apply check_indirect_spec in I1, I2. destruct I1 as (D1 & D2 & _), I2 as (E1 & E2 & _).
    assert (KW : okey w = okey w') by (rewrite D2, E2, KV; apply icauses_perm; exact PI).
    destruct s as [s|], s' as [s'|].
    + intros A B; inversion A; inversion B; exact I.
    + exfalso. assert (Some s = None) by (apply D1; split; [reflexivity|]; apply FI; apply E1; reflexivity). discriminate.
    + exfalso. assert (Some s' = None) by (apply E1; split; [reflexivity|]; apply FI; apply D1; reflexivity). discriminate.
    + destruct w as [w|], w' as [w'|].
      * intros A B; inversion A; inversion B. cbn [same_result]. apply okey_some. exact KW.
      * cbn [okey] in KW. lia.
      * cbn [okey] in KW. lia.
      * intros A B; inversion A; inversion B; exact I.
Qed.
(** if one of them is gone the point is invalid, in any order *)
Theorem dropped_is_invalid c leader i r0 r1 r2 ds is res : In None ds -> i_round i <> c_genesis c ->
  validate c leader i r0 r1 r2 ds is = Some res -> (exists e, res = RsIll e) \/ exists r, res = RsInvalid r.
Proof.
  intros IN NG V. pose proof (validate_gone c leader i r0 r1 r2 ds is res NG (or_intror (or_intror (or_intror IN))) V) as NP.
  destruct res as [e|r|w|]; [eauto|eauto| |]; exfalso; apply NP; cbn [verdict_of]; [right; exists w; reflexivity|left; reflexivity].
Qed.

Lemma ctx_some c peers i : basic_verify c peers i = VOk -> info_ok i -> i_round i <> c_genesis c -> exists x, mk_ctx i = Some x.
Proof.
  intros V OK NG. destruct (verified_is_proper _ _ _ V NG) as (P & _).
  assert (L : forall r, exists a b, anchor_id r i = Some a /\ anchor_through r i = Some b).
  { intros r. destruct (anchor_link r i) eqn:L.
    - unfold anchor_id, anchor_through. rewrite L. eauto.
    - assert (NS : anchor_link r i <> ToSelf) by congruence. destruct (pr_link _ _ _ P r NS) as (th & to & A & _ & B & _). eauto.
    - assert (NS : anchor_link r i <> ToSelf) by congruence. destruct (pr_link _ _ _ P r NS) as (th & to & A & _ & B & _). eauto. }
  destruct (L STrigger) as (a1 & b1 & A1 & B1), (L SProof) as (a2 & b2 & A2 & B2).
  assert (T : exists o, trigger_bound i = Some o).
  { unfold trigger_bound. unfold anchor_through in B2. cbn [anchor_link] in B2. unfold anchor_proof in B2.
    destruct (i_role i) as [[t|l] at'|l at'| |s|]; eauto. rewrite B2. eauto. }
  assert (C : exists o, chained_to_through i = Some o).
  { unfold chained_to_through. destruct (chained_proof i) as [|n|l] eqn:CP; [eauto| |].
    - assert (SL : anchor_link SProof i = ToSelf).
      { unfold chained_proof in CP. cbn. unfold anchor_proof. destruct (i_role i); try discriminate. reflexivity. }
      destruct (pr_self _ _ _ P SProof SL) as (d & ID). destruct OK as (ND & _).
      apply (aget_in N.eqb (fun a b => N.eqb_spec a b)) in ID; [|exact ND]. unfold prev_id, prev_digest. rewrite ID. eauto.
    - assert (IP : indirect_proof i = Some l) by (unfold indirect_proof; rewrite CP; reflexivity).
      destruct (pr_chain _ _ _ P l IP) as (_ & _ & th & TH & _). rewrite TH. eauto. }
  destruct T as [o T], C as [ch C]. unfold mk_ctx. rewrite A1, A2, B1, B2, T, C. eauto.
Qed.
Theorem validate_total c peers leader i r0 r1 r2 ds is : basic_verify c peers i = VOk -> info_ok i ->
  (forall d, In (Some d) ds -> prev_id i = Some (d_id d) -> d_cert d = true) ->
  exists res, validate c leader i r0 r1 r2 ds is = Some res.
Proof.
  intros V OK PC. unfold validate.
  destruct (N.eqb_spec (i_round i) (c_genesis c)) as [G|NG].
  { rewrite G, N.ltb_irrefl. eauto. }
  destruct (verified_is_proper _ _ _ V NG) as (P & _). destruct (pr_after _ _ _ P) as [_ R].
  assert (NL : (i_round i <? c_genesis c) = false) by (clear - R; lia). rewrite NL.
  destruct (negb (proof_link_ok c leader i)); [eauto|]. destruct (negb r0); [eauto|]. destruct (negb r1); [eauto|].
  destruct (negb r2 && _); [eauto|].
  destruct (ctx_some c peers i V OK NG) as [x M]. rewrite M.
  assert (CD : forall ds st, (forall d, In (Some d) ds -> prev_id i = Some (d_id d) -> d_cert d = true) -> exists st', check_deps c i x ds st = Some st').
  { clear PC ds. induction ds as [|[d|] ds IH]; intros st PC; cbn [check_deps]; [eauto| |eauto].
    assert (PD : prev_cert i d).
    { intros IP. apply (PC d (or_introl eq_refl)). unfold is_prev_of, at_prev_loc in IP. unfold prev_id.
      destruct (prev_digest i) as [pd|]; [|rewrite andb_false_r in IP; discriminate].
      apply andb_true_iff in IP. destruct IP as [IP1 IP2]. apply andb_true_iff in IP1. destruct IP1 as [IP1 IP3].
      apply N.eqb_eq in IP1, IP2, IP3. destruct (d_id d) as [pr pdg pa]. cbn in *. congruence. }
    destruct (check_one_some c i x st d PD) as [st1 E1]. rewrite E1. apply IH. intros d' I'. apply PC. right. exact I'. }
  destruct (CD ds (None, None) PC) as [[r v] E]. rewrite E. destruct r; [eauto|].
  destruct (check_indirect c i x is (None, v)) as [[s|] [w|]]; eauto.
Qed.
Print Assumptions order_irrelevant.
Print Assumptions dropped_is_invalid.
Print Assumptions validate_total.
