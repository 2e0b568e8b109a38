(** Invalid points and the points that depend on them (C68). *)
From Verif Require Import VerModel VerSpec VerCheck VerBasic VerProper VerHist VerThms.
From Coq Require Import ZArith ZifyN ZifyNat ZifyBool.
Local Open Scope N_scope.

Section Trans.
  Context (c : vconf) (peers : round -> list peer) (ldr : info -> bool).
  Notation hist := (hist c peers ldr).

  (** reads of any judged point *)
  Lemma read_any h a b cert : hist h -> dep_read h a b cert ->
    exists va i vb, judged h a va /\ info_of va = Some i /\ judged h b vb /\ (b < a)%nat /\ In (vd_id vb) (dep_ids i) /\
      p_round (vd_id vb) < i_round i.
  Proof.
    intros H (e & i & dp & E & I & IN & ID & CT).
    destruct (hist_entry c peers ldr h H a e E) as (h0 & t & EQ & LN & HH & S).
    destruct (hist_verified c peers ldr h a e i H E I) as [V OK].
    assert (NG : i_round i <> c_genesis c).
    { intros G. destruct (verified_genesis _ _ _ V G) as (_ & A & B & _). unfold dep_ids in ID. rewrite A, B in ID. destruct ID. }
    destruct (verified_is_proper _ _ _ V NG) as (PR & _). destruct (pr_after _ _ _ PR) as [G R].
    assert (SE : sees h0 (b, dp)).
    { inversion S as [g i0 r0 r1 r2 ds is res OK0 V0 RO IO VA EQ1 EQ2 |g i0 r0 r1 r2 ds is res OK0 V0 G0 NG0 VA EQ1 EQ2|g p r EQ1 EQ2|g p EQ1 EQ2|g i0 OK0 V0 EQ1 EQ2];
        subst g; apply app_inj_tail in EQ2; destruct EQ2 as [_ <-]; cbn [e_deps] in IN; try contradiction.
      pose proof (ro_sees _ _ _ RO) as SE. rewrite Forall_forall in SE. exact (SE _ IN). }
    destruct SE as (eb & NB & SV). cbn [fst snd] in *.
    assert (LB : (b < length h0)%nat) by (apply nth_error_Some; congruence).
    assert (IDE : vd_id (e_v eb) = d_id dp).
    { unfold d_id. destruct SV as [SV|SV]; rewrite SV; [reflexivity|]. symmetry. apply after_load_id. }
    exists (e_v e), i, (e_v eb). split; [exists e; auto|]. split; [exact I|]. split; [exists eb; split; [rewrite EQ, nth_error_app1; assumption|reflexivity]|].
    split; [lia|]. rewrite IDE. split; [exact ID|]. apply (dep_round peers ldr i); [exact ID|lia].
  Qed.
  Lemma path_round h a z : hist h -> uncertified_path h a z -> forall va i vz j, judged h a va -> info_of va = Some i ->
    judged h z vz -> info_of vz = Some j -> i_round j < i_round i.
  Proof.
    intros H U. induction U as [a b R|a b z R U IH]; intros va i vz j Ja Ia Jz Iz.
    - destruct (read_any h a b false H R) as (va' & i' & vb & Ja' & Ia' & Jb & _ & _ & L).
      assert (va' = va) by (eapply judged_fun; eauto). subst va'. rewrite Ia in Ia'. inversion Ia'; subst i'.
      assert (vb = vz) by (eapply judged_fun; eauto). subst vb. rewrite (info_id _ _ Iz) in L. exact L.
    - destruct (read_any h a b false H R) as (va' & i' & vb & Ja' & Ia' & Jb & _ & _ & L).
      assert (va' = va) by (eapply judged_fun; eauto). subst va'. rewrite Ia in Ia'. inversion Ia'; subst i'.
      assert (X : exists ib, info_of vb = Some ib).
      { assert (Q : exists d, dep_read h b d false) by (inversion U; eauto). destruct Q as [d Q].
        destruct (read_any h b d false H Q) as (vb' & ib & _ & Jb' & Ib & _). assert (vb' = vb) by (eapply judged_fun; eauto). subst. eauto. }
      destruct X as [ib Ib]. rewrite (info_id _ _ Ib) in L. specialize (IH vb ib vz j Jb Ib Jz Iz). unfold i_round in *. lia.
  Qed.

  Lemma key_root o p r : 1 + ckey p r <= okey o -> exists root, o = Some root /\ p_round p <= p_round (il_to (v_link root)).
  Proof.
    destruct o as [root|]; cbn [okey]; intros L; [|lia]. exists root. split; [reflexivity|].
    unfold ckey in L. destruct (has_dag_round r), (has_dag_round (v_reason root)); lia.
  Qed.
  Lemma root_some v i root : passed v i -> root_of v = Some root -> v = VdTrans i root.
  Proof. intros [->|[r ->]]; cbn; intros E; inversion E; reflexivity. Qed.

  (** A point that depends on an invalid one, through points that were not certified when they were read, is not
      valid for [c_history] rounds after it: it is transitively invalid, because of that point or of a newer one *)
  Theorem invalid_taints h a z : hist h -> uncertified_path h a z -> forall v i j r,
    judged h a v -> passed v i -> judged h z (VdInvalid j r) -> i_round i <= i_round j + c_history c ->
    exists root, v = VdTrans i root /\ i_round j <= p_round (il_to (v_link root)).
  Proof.
    intros H U.
    assert (STEP : forall a b v i, judged h a v -> passed v i -> dep_read h a b false ->
      forall vb j, judged h b vb -> i_round i <= i_round j + c_history c ->
      (exists k r, vb = VdInvalid k r /\ i_round j <= i_round k) \/
      (exists k root, vb = VdTrans k root /\ i_round j <= p_round (il_to (v_link root))) ->
      exists root, v = VdTrans i root /\ i_round j <= p_round (il_to (v_link root))).
    { clear U a z. intros a b v i (e & E & <-) P (e' & i' & dp & E' & I' & IN & ID & CT) vb j JB L C.
      rewrite E in E'. inversion E'; subst e'. rewrite (passed_info _ _ P) in I'. inversion I'; subst i'.
      destruct (hist_verified c peers ldr h a e i H E (passed_info _ _ P)) as [V OK].
      assert (NG : i_round i <> c_genesis c).
      { intros G. destruct (verified_genesis _ _ _ V G) as (_ & A & B & _). unfold dep_ids in ID. rewrite A, B in ID. destruct ID. }
      destruct (passed_dep c peers ldr h a e i H E P NG) as (x & M & PL & CV & RD).
      destruct (RD b dp IN ID) as (eb & dep & LT & NB & SV & IB & IDE & LR & CH & CA & PC).
      assert (vb = e_v eb) by (eapply judged_fun; [exact JB|exists eb; auto]). subst vb.
      destruct OK as (_ & _ & _ & U32 & _).
      destruct C as [(k & r & EB & LK)|(k & root & EB & LK)].
      - assert (CA' : exists r', cause c dp (i_round i - 1) = Some (i_id k, r')).
        { unfold cause. rewrite CT. destruct SV as [SV|SV]; rewrite SV, EB; cbn; eauto. }
        destruct CA' as [r' CA']. rewrite CA' in CA. cbn [cakey] in CA.
        destruct (key_root _ _ _ CA) as (root & RT & LE). exists root. split; [apply root_some; assumption|]. unfold i_round in *. lia.
      - assert (CA' : exists r', cause c dp (i_round i - 1) = Some (il_to (v_link root), r')).
        { assert (NL : (radd (p_round (il_to (v_link root))) (c_history c) <=? i_round i - 1) = false).
          { apply N.leb_gt. unfold radd. assert (0 < i_round i) by (clear - LR; lia). clear - LK L U32 H0. lia. }
          unfold cause. rewrite CT. destruct SV as [SV|SV]; rewrite SV, EB; cbn [after_load v_link v_reason]; rewrite NL; eauto. }
        destruct CA' as [r' CA']. rewrite CA' in CA. cbn [cakey] in CA.
        destruct (key_root _ _ _ CA) as (root' & RT & LE). exists root'. split; [apply root_some; assumption|]. clear - LK LE. lia. }
    induction U as [a b R|a b z R U IH]; intros v i j r J P JZ L.
    - eapply STEP; eauto. left. exists j, r. split; [reflexivity|lia].
    - destruct (read_any h a b false H R) as (va' & i' & vb & Ja' & Ia' & Jb & _ & _ & LR).
      assert (va' = v) by (eapply judged_fun; eauto). subst va'. rewrite (passed_info _ _ P) in Ia'. inversion Ia'; subst i'.
      assert (X : exists ib, info_of vb = Some ib).
      { assert (Q : exists d, dep_read h b d false) by (inversion U; eauto). destruct Q as [d Q].
        destruct (read_any h b d false H Q) as (vb' & ib & _ & Jb' & Ib & _). assert (vb' = vb) by (eapply judged_fun; eauto). subst. eauto. }
      destruct X as [ib Ib]. rewrite (info_id _ _ Ib) in LR.
      eapply STEP; eauto. destruct (not_passed_invalid _ _ Ib) as [PB|[rb IV]].
      + right. destruct (IH vb ib j r Jb PB JZ) as (root & E & LE); [unfold i_round in *; lia|]. eauto.
      + left. exists ib, rb. split; [exact IV|].
        pose proof (path_round h b z H U vb ib _ j Jb Ib JZ eq_refl). lia.
  Qed.
  Corollary valid_is_clean h a z i j r : hist h -> judged h a (VdValid i) -> uncertified_path h a z ->
    judged h z (VdInvalid j r) -> i_round j + c_history c < i_round i.
  Proof.
    intros H J U JZ. destruct (N.lt_ge_cases (i_round j + c_history c) (i_round i)) as [L|L]; [exact L|].
    destruct (invalid_taints h a z H U (VdValid i) i j r J (or_introl eq_refl) JZ L) as (root & E & _). discriminate.
  Qed.

  (** A point is transitively invalid for a reason: a chain of reads, none of them certified, leads from it to a point
      that was judged invalid, the one its root cause names *)
  Lemma genesis_valid h a v i : hist h -> judged h a v -> passed v i -> i_round i = c_genesis c -> v = VdValid i.
  Proof.
    intros H (e & E & <-) P G. destruct (hist_entry c peers ldr h H a e E) as (h0 & t & EQ & LN & HH & S).
    inversion S as [g i0 r0 r1 r2 ds is res OK0 V0 RO IO VA EQ1 EQ2 |g i0 r0 r1 r2 ds is res OK0 V0 G0 NG0 VA EQ1 EQ2|g p r EQ1 EQ2|g p EQ1 EQ2|g i0 OK0 V0 EQ1 EQ2];
      subst g; apply app_inj_tail in EQ2; destruct EQ2 as [_ <-]; cbn [e_v] in *.
    - assert (i = i0) by (destruct res; cbn in P; destruct P as [P|[? P]]; inversion P; reflexivity). subst i0.
      unfold validate in VA. rewrite G, N.ltb_irrefl, N.eqb_refl in VA. inversion VA. reflexivity.
    - assert (i = i0) by (destruct res; cbn in P; destruct P as [P|[? P]]; inversion P; reflexivity). subst i0. congruence.
    - destruct P as [P|[? P]]; discriminate.
    - destruct P as [P|[? P]]; discriminate.
    - destruct P as [P|[? P]]; discriminate.
  Qed.
  Theorem trans_has_cause h : hist h -> forall a i root, judged h a (VdTrans i root) ->
    exists z j r, blames h a z /\ judged h z (VdInvalid j r) /\ i_id j = il_to (v_link root).
  Proof.
    intros H a. induction a as [a IH] using (well_founded_induction Wf_nat.lt_wf). intros i root J.
    assert (P : passed (VdTrans i root) i) by (right; eauto).
    assert (NG : i_round i <> c_genesis c).
    { intros G. pose proof (genesis_valid h a _ i H J P G). discriminate. }
    destruct J as (e & E & EV).
    assert (P' : passed (e_v e) i) by (rewrite EV; exact P).
    destruct (hist_checked c peers ldr h a e i H E P' NG) as (h0 & t & x & EQ & LN & HH & CK).
    assert (FIN : forall b dp, sees h0 (b, dp) -> cause c dp (i_round i - 1) = Some (il_to (v_link root), v_reason root) ->
      (d_cert dp = false -> dep_read h a b false \/ link_read h a b false) ->
      exists z j r, blames h a z /\ judged h z (VdInvalid j r) /\ i_id j = il_to (v_link root)).
    { intros b dp (eb & NB & SV) CA RD. cbn [fst snd] in *.
      assert (LB : (b < a)%nat) by (rewrite <- LN; apply nth_error_Some; congruence).
      assert (JB : judged h b (e_v eb)) by (exists eb; split; [rewrite EQ, nth_error_app1 by lia; exact NB|reflexivity]).
      unfold cause in CA. destruct (e_v eb) as [k|k rt|k r|p r|p]; destruct SV as [SV|SV]; rewrite SV in CA; cbn [after_load v_link v_reason] in CA; try discriminate.
      - destruct (d_cert dp); [discriminate|]. destruct (_ <=? _); [discriminate|]. inversion CA.
        destruct (IH b LB k rt JB) as (z & j & r & B & JZ & ID). exists z, j, r. split; [|split; [exact JZ|congruence]].
        eapply bl_cons; [apply RD; reflexivity|exact B].
      - destruct (d_cert dp); [discriminate|]. destruct (_ <=? _); [discriminate|]. inversion CA.
        destruct (IH b LB k rt JB) as (z & j & r & B & JZ & ID). exists z, j, r. split; [|split; [exact JZ|congruence]].
        eapply bl_cons; [apply RD; reflexivity|exact B].
      - destruct (d_cert dp); [discriminate|]. inversion CA. exists b, k, r. split; [apply bl_one; apply RD; reflexivity|]. split; [exact JB|congruence].
      - destruct (d_cert dp); [discriminate|]. inversion CA. exists b, k, r. split; [apply bl_one; apply RD; reflexivity|]. split; [exact JB|congruence]. }
    assert (RT : root_of (e_v e) = Some root) by (rewrite EV; reflexivity).
    destruct (ck_root _ _ _ _ _ _ CK root RT) as [([b dp] & IN & DC)|([b dp] & IN & CA)]; cbn [snd] in *.
    - pose proof (ro_sees _ _ _ (ck_reads _ _ _ _ _ _ CK)) as SE. rewrite Forall_forall in SE. specialize (SE _ IN).
      unfold dcause in DC. destruct (is_other_b i dp) eqn:IO; [discriminate|].
      apply (FIN b dp SE DC). intros CT. left. exists e, i, dp.
      split; [exact E|]. split; [apply passed_info; exact P'|]. split; [exact IN|]. split; [|exact CT].
      destruct (ro_ids _ _ _ (ck_reads _ _ _ _ _ _ CK)) as (others & FO & PM).
      assert (Q : In (d_id dp) (inc_ids i ++ wit_ids i ++ others)).
      { eapply Permutation_in; [exact PM|]. apply in_map_iff. exists (b, dp). auto. }
      rewrite app_assoc in Q. apply in_app_or in Q. destruct Q as [Q|Q]; [exact Q|].
      rewrite Forall_forall in FO. destruct (FO _ Q) as [A B]. unfold is_other_b in IO. rewrite A in IO. cbn [andb] in IO.
      destruct (prev_digest i) as [pd|]; [|discriminate]. destruct (N.eqb_spec pd (p_digest (d_id dp))); [congruence|discriminate].
    - destruct (ck_inds _ _ _ _ _ _ CK) as (is & EI & IO & _). rewrite EI in IN. apply in_map_iff in IN.
      destruct IN as ([r th] & ER & IN). cbn [fst] in ER. subst r.
      unfold inds_ok in IO. rewrite Forall_forall in IO. destruct (IO _ IN) as [SE _]. cbn [fst] in SE.
      apply (FIN b dp SE CA). intros CT. right. exists e, dp. split; [exact E|]. split; [|exact CT].
      rewrite EI. apply in_map_iff. exists ((b, dp), th). auto.
  Qed.

  (** Another point of the author at the previous round: a passed point is not an accomplice of its author's bad
      points, nor does it skip a good one *)
  Theorem other_versions h a e i b dp : hist h -> nth_error h a = Some e -> passed (e_v e) i -> i_round i <> c_genesis c ->
    In (b, dp) (e_deps e) -> p_round (d_id dp) = i_round i - 1 -> p_author (d_id dp) = i_author i ->
    prev_digest i <> Some (p_digest (d_id dp)) ->
    (exists k, d_v dp = VdValid k) /\ (prev_digest i = None -> d_first dp = false) \/
    (exists p, d_v dp = VdNotFound p) /\ d_cert dp = false.
  Proof.
    intros H E P NG IN R A D. destruct (hist_checked c peers ldr h a e i H E P NG) as (h0 & t & x & EQ & LN & HH & CK).
    assert (O : is_other_b i dp = true).
    { unfold is_other_b, at_prev_loc. rewrite R, A, !N.eqb_refl. cbn [andb]. destruct (prev_digest i) as [pd|]; [|reflexivity].
      destruct (N.eqb_spec pd (p_digest (d_id dp))); [congruence|reflexivity]. }
    pose proof (ck_deps _ _ _ _ _ _ CK _ IN) as K. cbn [snd] in K. destruct K as [_ OB|dep Z _ _]; [|congruence].
    unfold other_bad in OB. destruct (d_v dp) as [k|k rt|k r|p r|p]; try discriminate.
    - left. split; [eauto|]. intros N0. rewrite N0 in OB. cbn in OB. apply why_none in OB. exact OB.
    - right. split; [eauto|]. apply why_none in OB. exact OB.
  Qed.
End Trans.
Print Assumptions invalid_taints.
Print Assumptions valid_is_clean.
Print Assumptions trans_has_cause.
Print Assumptions other_versions.
