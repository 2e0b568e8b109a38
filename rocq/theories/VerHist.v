(** Histories of judgements: what a passed point was checked against. *)
From Verif Require Import VerModel VerSpec VerCheck VerBasic VerProper.
From Coq Require Import ZArith ZifyN ZifyNat ZifyBool.
Local Open Scope N_scope.

Lemma info_of_d v : info_of v = d_info v.
Proof. reflexivity. Qed.
Lemma after_load_info v : info_of (after_load v) = info_of v.
Proof. destruct v; reflexivity. Qed.
Lemma after_load_id v : vd_id (after_load v) = vd_id v.
Proof. destruct v; reflexivity. Qed.
Lemma info_id v i : info_of v = Some i -> vd_id v = i_id i.
Proof. destruct v; cbn; intros E; inversion E; reflexivity. Qed.
Lemma passed_info v i : passed v i -> info_of v = Some i.
Proof. intros [->|[root ->]]; reflexivity. Qed.
Lemma not_passed_invalid v i : info_of v = Some i -> passed v i \/ exists r, v = VdInvalid i r.
Proof. destruct v; cbn; intros E; inversion E; subst; unfold passed; eauto. Qed.

Lemma causes_ge c i ds a : a <= causes c i ds a.
Proof. revert a. induction ds as [|d ds IH]; intros a; cbn [causes]; [lia|]. specialize (IH (N.max a (cakey (dcause c i d)))). lia. Qed.
Lemma causes_in c i ds d a : In d ds -> cakey (dcause c i d) <= causes c i ds a.
Proof.
  revert a. induction ds as [|d' ds IH]; intros a I; cbn [causes]; [destruct I|].
  destruct I as [<-|I]; [|apply IH; exact I].
  pose proof (causes_ge c i ds (N.max a (cakey (dcause c i d')))). lia.
Qed.
Lemma icauses_ge c i ds a : a <= icauses c i ds a.
Proof. revert a. induction ds as [|d ds IH]; intros a; cbn [icauses]; [lia|]. specialize (IH (N.max a (cakey (cause c (fst d) (i_round i - 1))))). lia. Qed.

(** the latest cause recorded in a verdict *)
Definition root_of (v : verdict) : option invdep := match v with VdTrans _ r => Some r | _ => None end.

(** what a passed judgement of a point (not the genesis) was checked against *)
Record checked (c : vconf) (ldr : info -> bool) (h0 : list entry) (e : entry) (i : info) (x : ctx) : Prop := {
  ck_link : proof_link_ok c (ldr i) i = true;
  ck_ctx : mk_ctx i = Some x;
  ck_reads : reads_ok h0 i (e_deps e);
  ck_deps : forall r, In r (e_deps e) -> dep_ok c i x (snd r);
  ck_inds : exists is, e_inds e = map fst is /\ inds_ok h0 i is /\ forall r, In r is -> ind_ok c i x (snd (fst r), snd r);
  ck_causes : forall r, In r (e_deps e) -> cakey (dcause c i (snd r)) <= okey (root_of (e_v e));
  ck_root : forall o, root_of (e_v e) = Some o ->
    (exists r, In r (e_deps e) /\ dcause c i (snd r) = Some (il_to (v_link o), v_reason o)) \/
    (exists r, In r (e_inds e) /\ cause c (snd r) (i_round i - 1) = Some (il_to (v_link o), v_reason o)) }.

Lemma validate_passed c leader i r0 r1 r2 ds is res : i_round i <> c_genesis c ->
  validate c leader i r0 r1 r2 (map Some ds) is = Some res ->
  passed (verdict_of i res) i ->
  exists x, proof_link_ok c leader i = true /\ mk_ctx i = Some x /\ Forall (dep_ok c i x) ds /\ Forall (ind_ok c i x) is /\
    (forall d, In d ds -> cakey (dcause c i d) <= okey (root_of (verdict_of i res))) /\
    (forall o, root_of (verdict_of i res) = Some o ->
       (exists d, In d ds /\ dcause c i d = Some (il_to (v_link o), v_reason o)) \/
       (exists d, In d is /\ cause c (fst d) (i_round i - 1) = Some (il_to (v_link o), v_reason o))).
Proof.
  intros NG V P. unfold validate in V.
  destruct (i_round i <? c_genesis c); [discriminate|].
  apply N.eqb_neq in NG. rewrite NG in V.
  assert (NI : forall r, res <> RsIll r /\ forall r, res <> RsInvalid r).
  { intros r. split; [intros ->|intros r' ->]; cbn in P; destruct P as [P|[? P]]; discriminate. }
  destruct (proof_link_ok c leader i) eqn:PL; cbn [negb] in V; [|inversion V; subst; destruct (NI (IBadProofLink leader)); congruence].
  destruct r0; cbn [negb] in V; [|inversion V; subst; destruct (NI IEvidenceSig) as [_ Q]; exfalso; eapply Q; reflexivity].
  destruct r1; cbn [negb] in V; [|inversion V; subst; destruct (NI IEvidenceSig) as [_ Q]; exfalso; eapply Q; reflexivity].
  destruct (negb r2 && negb (isnil (i_witness i))); [inversion V; subst; destruct (NI IEvidenceSig) as [_ Q]; exfalso; eapply Q; reflexivity|].
  destruct (mk_ctx i) as [x|] eqn:X; [|discriminate].
  destruct (check_deps c i x (map Some ds) (None, None)) as [[r v]|] eqn:CD; [|discriminate].
  destruct r as [r|]; [inversion V; subst; destruct (NI IEvidenceSig) as [_ Q]; exfalso; eapply Q; reflexivity|].
  destruct (check_indirect c i x is (None, v)) as [r v'] eqn:CI.
  destruct r as [r|]; [inversion V; subst; destruct (NI IEvidenceSig) as [_ Q]; exfalso; eapply Q; reflexivity|].
  apply check_deps_spec in CD. destruct CD as (D1 & D2 & D3). apply check_indirect_spec in CI. destruct CI as (I1 & I2 & I3).
  assert (RO : root_of (verdict_of i res) = v') by (destruct v' as [v'|]; inversion V; subst; reflexivity).
  rewrite RO. exists x. split; [reflexivity|]. split; [reflexivity|].
  split; [apply D1; reflexivity|]. split; [apply I1; reflexivity|]. split.
  - intros d I. rewrite I2. pose proof (icauses_ge c i is (okey v)). rewrite D2 in *. pose proof (causes_in c i ds d (okey None) I). lia.
  - intros o Ho. destruct (I3 o Ho) as [Hv|(d & I & D)]; [|right; eauto].
    destruct (D3 o Hv) as [Z|(d & I & D)]; [discriminate|]. left. eauto.
Qed.
Lemma validate_gone c leader i r0 r1 r2 ds is res : i_round i <> c_genesis c ->
  (r0 = false \/ r1 = false \/ (r2 = false /\ i_witness i <> []) \/ In None ds) ->
  validate c leader i r0 r1 r2 ds is = Some res -> ~ passed (verdict_of i res) i.
Proof.
  intros NG G V P. unfold validate in V.
  destruct (i_round i <? c_genesis c); [discriminate|].
  apply N.eqb_neq in NG. rewrite NG in V.
  assert (NI : forall r, res <> RsIll r /\ forall r, res <> RsInvalid r).
  { intros r. split; [intros ->|intros r' ->]; cbn in P; destruct P as [P|[? P]]; discriminate. }
  destruct (proof_link_ok c leader i) eqn:PL; cbn [negb] in V; [|inversion V; subst; destruct (NI (IBadProofLink leader)); congruence].
  destruct r0; cbn [negb] in V; [|inversion V; subst; destruct (NI IEvidenceSig) as [_ Q]; exfalso; eapply Q; reflexivity].
  destruct r1; cbn [negb] in V; [|inversion V; subst; destruct (NI IEvidenceSig) as [_ Q]; exfalso; eapply Q; reflexivity].
  destruct (negb r2 && negb (isnil (i_witness i))) eqn:W; [inversion V; subst; destruct (NI IEvidenceSig) as [_ Q]; exfalso; eapply Q; reflexivity|].
  destruct (mk_ctx i) as [x|] eqn:X; [|discriminate].
  destruct (check_deps c i x ds (None, None)) as [[r v]|] eqn:CD; [|discriminate].
  destruct r as [r|]; [inversion V; subst; destruct (NI IEvidenceSig) as [_ Q]; exfalso; eapply Q; reflexivity|].
  destruct G as [G|[G|[(G & N)|G]]]; try discriminate.
  - subst r2. destruct (i_witness i); [congruence|discriminate].
  - eapply check_deps_none; eauto.
Qed.

Section Hist.
  Context (c : vconf) (peers : round -> list peer) (ldr : info -> bool).
  Notation hist := (hist c peers ldr).
  Notation hstep := (hstep c peers ldr).

  Lemma hist_entry h : hist h -> forall a e, nth_error h a = Some e ->
    exists h0 t, h = h0 ++ e :: t /\ length h0 = a /\ hist h0 /\ hstep h0 (h0 ++ [e]).
  Proof.
    induction 1 as [|h h' H IH S]; intros a e E.
    - destruct a; discriminate.
    - assert (X : exists e', h' = h ++ [e']) by (destruct S; eauto). destruct X as [e' ->].
      destruct (Nat.lt_ge_cases a (length h)) as [L|L].
      + rewrite nth_error_app1 in E by exact L. destruct (IH _ _ E) as (h0 & t & -> & LN & HH & SS).
        exists h0, (t ++ [e']). rewrite <- app_assoc. cbn. auto.
      + rewrite nth_error_app2 in E by exact L. destruct (a - length h)%nat as [|k] eqn:K.
        * cbn in E. inversion E; subst e'. exists h, []. split; [reflexivity|]. split; [lia|]. auto.
        * cbn in E. destruct k; discriminate.
  Qed.

  Lemma hist_verified h a e i : hist h -> nth_error h a = Some e -> info_of (e_v e) = Some i ->
    basic_verify c peers i = VOk /\ info_ok i.
  Proof.
    intros H E I. destruct (hist_entry h H a e E) as (h0 & t & _ & _ & _ & S).
    inversion S as [g i0 r0 r1 r2 ds is res OK V RO IO VA EQ1 EQ2 |g i0 r0 r1 r2 ds is res OK V G NG VA EQ1 EQ2|g p r EQ1 EQ2|g p EQ1 EQ2|g i0 OK V EQ1 EQ2];
      subst g; apply app_inj_tail in EQ2; destruct EQ2 as [_ <-]; cbn [e_v] in I.
    - assert (i = i0) by (destruct res; cbn in I; inversion I; reflexivity). subst. auto.
    - assert (i = i0) by (destruct res; cbn in I; inversion I; reflexivity). subst. auto.
    - discriminate.
    - discriminate.
    - cbn in I. inversion I; subst. auto.
  Qed.

  Lemma hist_checked h a e i : hist h -> nth_error h a = Some e -> passed (e_v e) i -> i_round i <> c_genesis c ->
    exists h0 t x, h = h0 ++ e :: t /\ length h0 = a /\ hist h0 /\ checked c ldr h0 e i x.
  Proof.
    intros H E P NG. destruct (hist_entry h H a e E) as (h0 & t & EQ & LN & HH & S).
    inversion S as [g i0 r0 r1 r2 ds is res OK V RO IO VA EQ1 EQ2 |g i0 r0 r1 r2 ds is res OK V G NG' VA EQ1 EQ2|g p r EQ1 EQ2|g p EQ1 EQ2|g i0 OK V EQ1 EQ2];
      subst g; apply app_inj_tail in EQ2; destruct EQ2 as [_ <-]; cbn [e_v] in P.
    - assert (i = i0) by (destruct res; cbn in P; destruct P as [P|[? P]]; inversion P; reflexivity). subst i0.
      rewrite <- (map_map snd (@Some dagpoint)) in VA.
      destruct (validate_passed _ _ _ _ _ _ _ _ _ NG VA P) as (x & A1 & A2 & A3 & A4 & A5 & A6).
      exists h0, t, x. split; [exact EQ|]. split; [exact LN|]. split; [exact HH|].
      rewrite Forall_forall in A3, A4.
      constructor; cbn [e_v e_deps e_inds].
      + exact A1.
      + exact A2.
      + exact RO.
      + intros r I. apply A3. apply in_map. exact I.
      + exists is. split; [reflexivity|]. split; [exact IO|]. intros r I. apply A4. apply in_map_iff. eauto.
      + intros r I. apply A5. apply in_map. exact I.
      + intros o Ho. destruct (A6 o Ho) as [(d & I & D)|(d & I & D)].
        * left. apply in_map_iff in I. destruct I as (r & <- & I). eauto.
        * right. apply in_map_iff in I. destruct I as (r & <- & I). exists (fst r). split; [apply in_map; exact I|exact D].
    - assert (i = i0) by (destruct res; cbn in P; destruct P as [P|[? P]]; inversion P; reflexivity). subst i0.
      exfalso. eapply validate_gone; eauto.
    - destruct P as [P|[? P]]; discriminate.
    - destruct P as [P|[? P]]; discriminate.
    - destruct P as [P|[? P]]; discriminate.
  Qed.

  (** reads of a passed judgement *)
  Lemma dep_not_other i d : basic_verify c peers i = VOk -> info_ok i -> i_round i <> c_genesis c ->
    In (d_id d) (dep_ids i) -> is_other_b i d = false.
  Proof.
    intros V OK NG I. destruct (verified_is_proper _ _ _ V NG) as (P & _). destruct (pr_after _ _ _ P) as [G R].
    unfold is_other_b, at_prev_loc. destruct (N.eqb_spec (p_round (d_id d)) (i_round i - 1)) as [E|E]; [|reflexivity].
    destruct (N.eqb_spec (p_author (d_id d)) (i_author i)) as [A|A]; [|reflexivity]. cbn [andb].
    unfold dep_ids in I. apply in_app_or in I. destruct I as [I|I]; apply in_map_iff in I; destruct I as ([p dg] & D & I).
    - rewrite <- D in *. cbn in *. subst p. unfold prev_digest.
      destruct OK as (ND & _). apply (aget_in N.eqb (fun a b => N.eqb_spec a b)) in I; [|exact ND]. rewrite I, N.eqb_refl. reflexivity.
    - rewrite <- D in E. cbn in E. lia.
  Qed.
  Lemma dep_round i p : In p (dep_ids i) -> 1 < i_round i -> p_round p < i_round i.
  Proof.
    unfold dep_ids. intros I R. apply in_app_or in I. destruct I as [I|I]; apply in_map_iff in I; destruct I as ([q dg] & <- & _); cbn; lia.
  Qed.
  Lemma reads_cover h0 i ds p : reads_ok h0 i ds -> In p (dep_ids i) -> exists r, In r ds /\ d_id (snd r) = p.
  Proof.
    intros R I. destruct (ro_ids _ _ _ R) as (others & _ & PM).
    assert (J : In p (map (fun r => d_id (snd r)) ds)).
    { apply (Permutation_in p (Permutation_sym PM)). rewrite app_assoc. apply in_or_app. left. exact I. }
    apply in_map_iff in J. destruct J as (r & E & J). eauto.
  Qed.

  (** a dependency of a passed point, as it was read *)
  Lemma passed_dep h a e i : hist h -> nth_error h a = Some e -> passed (e_v e) i -> i_round i <> c_genesis c ->
    exists x, mk_ctx i = Some x /\ proof_link_ok c (ldr i) i = true /\
    (forall p, In p (dep_ids i) -> exists b dp, In (b, dp) (e_deps e) /\ d_id dp = p) /\
    (forall b dp, In (b, dp) (e_deps e) -> In (d_id dp) (dep_ids i) ->
      exists eb dep, (b < a)%nat /\ nth_error h b = Some eb /\ (d_v dp = e_v eb \/ d_v dp = after_load (e_v eb)) /\
        info_of (e_v eb) = Some dep /\ i_id dep = d_id dp /\ p_round (d_id dp) < i_round i /\
        Forall (fun o => o = None) (dep_checks c i x (is_prev_of i dp) (d_id dp) dep) /\
        cakey (cause c dp (i_round i - 1)) <= okey (root_of (e_v e)) /\
        (prev_id i = Some (d_id dp) -> d_cert dp = true)).
  Proof.
    intros H E P NG. destruct (hist_checked h a e i H E P NG) as (h0 & t & x & EQ & LN & HH & CK).
    destruct (hist_verified h a e i H E (passed_info _ _ P)) as [V OK].
    destruct (verified_is_proper _ _ _ V NG) as (PR & _). destruct (pr_after _ _ _ PR) as [G R].
    exists x. split; [exact (ck_ctx _ _ _ _ _ _ CK)|]. split; [exact (ck_link _ _ _ _ _ _ CK)|].
    pose proof (ck_reads _ _ _ _ _ _ CK) as RO. split.
    - intros p I. destruct (reads_cover _ _ _ _ RO I) as ([b dp] & J & K). eauto.
    - intros b dp I J. pose proof (ro_sees _ _ _ RO) as SE. rewrite Forall_forall in SE. specialize (SE _ I).
      destruct SE as (eb & NB & SV). cbn [fst snd] in *.
      assert (LB : (b < length h0)%nat) by (apply nth_error_Some; congruence).
      pose proof (ck_deps _ _ _ _ _ _ CK _ I) as DO. cbn [snd] in DO.
      pose proof (dep_not_other i dp V OK NG J) as NO.
      destruct DO as [Z _|dep _ DI CH]; [congruence|].
      assert (IB : info_of (e_v eb) = Some dep).
      { change (info_of (d_v dp) = Some dep) in DI. destruct SV as [SV|SV]; rewrite SV in DI; [exact DI|]. rewrite after_load_info in DI. exact DI. }
      assert (IDD : i_id dep = d_id dp).
      { unfold d_id. rewrite <- (info_id _ _ IB). destruct SV as [SV|SV]; rewrite SV; [reflexivity|]. symmetry. apply after_load_id. }
      exists eb, dep. split; [lia|]. split; [rewrite EQ, nth_error_app1; assumption|]. split; [exact SV|]. split; [exact IB|]. split; [exact IDD|].
      split; [apply (dep_round i); [exact J|lia]|]. split; [exact CH|]. split.
      + pose proof (ck_causes _ _ _ _ _ _ CK _ I) as CA. cbn [snd] in CA. unfold dcause in CA. rewrite NO in CA. exact CA.
      + intros Q. exact (ro_prev _ _ _ RO _ I Q).
  Qed.
End Hist.
