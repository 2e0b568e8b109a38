(** Chains of anchor proofs, triggers and leaders (C68). *)
From Verif Require Import VerModel VerSpec VerCheck VerBasic VerProper VerHist VerThms.
From Coq Require Import ZArith ZifyN ZifyNat ZifyBool.
Local Open Scope N_scope.

Section Chain.
  Context (c : vconf) (peers : round -> list peer) (ldr : info -> bool).
  Notation hist := (hist c peers ldr).

  Lemma genesis_links i : i_role i = Genesis -> forall r, anchor_link r i = ToSelf.
  Proof. intros E []; cbn; unfold anchor_trigger, anchor_proof; rewrite E; reflexivity. Qed.
  Lemma dest_round h a v k r : hist h -> judged h a v -> info_of v = Some k -> p_round (dest r k) = anchor_round r k.
  Proof.
    intros H J I. destruct (judged_verified c peers ldr h a v k H J I) as [V _].
    destruct (anchor_link r k) eqn:L.
    - rewrite (dest_self _ _ L). unfold anchor_round. rewrite L. reflexivity.
    - assert (NG : i_round k <> c_genesis c).
      { intros G. destruct (verified_genesis _ _ _ V G) as (RL & _). rewrite (genesis_links _ RL) in L. discriminate. }
      destruct (verified_is_proper _ _ _ V NG) as (PR & _).
      assert (NS : anchor_link r k <> ToSelf) by congruence.
      destruct (pr_link _ _ _ PR r NS) as (th & to & _ & _ & A & E & _). rewrite (dest_id _ _ _ A). exact E.
    - assert (NG : i_round k <> c_genesis c).
      { intros G. destruct (verified_genesis _ _ _ V G) as (RL & _). rewrite (genesis_links _ RL) in L. discriminate. }
      destruct (verified_is_proper _ _ _ V NG) as (PR & _).
      assert (NS : anchor_link r k <> ToSelf) by congruence.
      destruct (pr_link _ _ _ PR r NS) as (th & to & _ & _ & A & E & _). rewrite (dest_id _ _ _ A). exact E.
  Qed.
  (** as [anchor_path], from any judged point *)
  Lemma anchor_path_any h r a v i : hist h -> judged h a v -> info_of v = Some i ->
    exists z vz k, passed_path h a z /\ judged h z vz /\ info_of vz = Some k /\ dest r k = dest r i /\
      (r = SProof -> i_atime k = i_atime i) /\
      ((i_id k = dest r i /\ anchor_link r k = ToSelf) \/ (exists reason, vz = VdInvalid k reason)).
  Proof.
    intros H J I. destruct (not_passed_invalid _ _ I) as [P|[rs E]].
    - destruct (N.eq_dec (i_round i) (c_genesis c)) as [G|NG].
      + destruct (judged_verified c peers ldr h a v i H J I) as [V _].
        destruct (verified_genesis _ _ _ V G) as (RL & _). pose proof (genesis_links _ RL r) as L.
        exists a, v, i. split; [constructor|]. split; [exact J|]. split; [exact I|]. split; [reflexivity|]. split; [reflexivity|].
        left. split; [symmetry; apply dest_self; exact L|exact L].
      + exact (anchor_path c peers ldr h r H a v i J P NG).
    - exists a, v, i. split; [constructor|]. split; [exact J|]. split; [exact I|]. split; [reflexivity|]. split; [reflexivity|].
      right. eauto.
  Qed.

  (** an anchor proof is chained to the newest proof its dependencies know, directly or through passed points *)
  Theorem proof_chain h a v i l : hist h -> judged h a v -> passed v i -> i_round i <> c_genesis c ->
    indirect_proof i = Some l ->
    (forall b z cert vz k, dep_read h a b cert -> passed_path h b z -> judged h z vz -> info_of vz = Some k ->
       anchor_round SProof k <= p_round (il_to l)) /\
    exists b z cert vz k, dep_read h a b cert /\ passed_path h b z /\ judged h z vz /\ info_of vz = Some k /\
       dest SProof k = il_to l /\
       ((i_id k = il_to l /\ anchor_proof k = ToSelf) \/ exists reason, vz = VdInvalid k reason).
  Proof.
    intros H J P NG IP.
    destruct (judged_verified c peers ldr h a v i H J (passed_info _ _ P)) as [V OK].
    destruct (verified_is_proper _ _ _ V NG) as (PR & _).
    destruct (pr_chain _ _ _ PR l IP) as (_ & _ & th & TH & IDP & _).
    assert (CT : chained_to_through i = Some (Some (il_to l, Some th))).
    { unfold indirect_proof in IP. unfold chained_to_through. destruct (chained_proof i) as [| |l']; try discriminate.
      inversion IP; subst l'. rewrite TH. reflexivity. }
    assert (XC : forall x, mk_ctx i = Some x -> x_chain x = Some (il_to l, Some th)).
    { intros x M. destruct (ctx_facts _ _ M) as (_ & _ & _ & _ & _ & E). rewrite CT in E. inversion E. reflexivity. }
    split.
    - intros b z cert vz k R PP JZ IZ.
      destruct (dep_read_fine c peers ldr h a b v i cert H J P NG R) as (x & vb & dep & bp & M & LT & JB & IB & ID & LR & DF & _).
      pose proof (df_chain_newer _ _ _ _ _ _ DF _ _ (XC x M)) as L. rewrite (dest_round h b vb dep SProof H JB IB) in L.
      destruct (anchors_grow c peers ldr h b z H PP vb dep vz k SProof JB IB JZ IZ) as [A _]. clear - L A. lia.
    - destruct (dep_read_of c peers ldr h a v i th H J P NG IDP) as (b & cert & vb & dep & R & JB & IB & IDE).
      destruct (dep_read_fine c peers ldr h a b v i cert H J P NG R) as (x & vb' & dep' & bp & M & LT & JB' & IB' & ID & LR & DF & _).
      assert (vb' = vb) by (eapply judged_fun; eauto). subst vb'. rewrite IB in IB'. inversion IB'; subst dep'.
      pose proof (df_chain_path _ _ _ _ _ _ DF _ _ (XC x M) IDE) as DD.
      destruct (anchor_path_any h SProof b vb dep H JB IB) as (z & vz & k & PP & JZ & IZ & DZ & _ & END).
      exists b, z, cert, vz, k. split; [exact R|]. split; [exact PP|]. split; [exact JZ|]. split; [exact IZ|]. split; [congruence|].
      destruct END as [[E1 E2]|E]; [left; split; [congruence|exact E2]|right; exact E].
  Qed.

  (** a sticky point continues the sticky run of its author's previous point, the proof *)
  Theorem sticky_prev h a v i n : hist h -> judged h a v -> passed v i -> i_round i <> c_genesis c -> sticky_anchors i = Some n ->
    n < c_sticky c /\
    exists b vb k, dep_read h a b true /\ judged h b vb /\ info_of vb = Some k /\ prev_id i = Some (i_id k) /\
      i_author k = i_author i /\ i_round k + 1 = i_round i /\ anchor_proof k = ToSelf /\
      match sticky_anchors k with Some m => n = m + 1 | None => n = 0 end.
  Proof.
    intros H J P NG SA.
    destruct (judged_verified c peers ldr h a v i H J (passed_info _ _ P)) as [V OK].
    destruct (verified_is_proper _ _ _ V NG) as (PR & _).
    split; [exact (pr_sticky _ _ _ PR n SA)|].
    assert (SL : anchor_link SProof i = ToSelf).
    { unfold sticky_anchors, chained_proof in SA. cbn. unfold anchor_proof. destruct (i_role i); try discriminate. reflexivity. }
    destruct (pr_self _ _ _ PR SProof SL) as (d & ID).
    assert (Q : exists p, prev_id i = Some p).
    { unfold prev_id. destruct OK as (ND & _). apply (aget_in N.eqb (fun a b => N.eqb_spec a b)) in ID; [|exact ND].
      unfold prev_digest. rewrite ID. eauto. }
    destruct Q as [p Q].
    destruct (prev_point c peers ldr h a v i p H J P NG Q) as (b & vb & k & R & JB & IB & IDE & A & RD & _).
    destruct (dep_read_fine c peers ldr h a b v i true H J P NG R) as (x & vb' & dep' & bp & M & LT & JB' & IB' & _ & LR & DF & _).
    assert (vb' = vb) by (eapply judged_fun; eauto). subst vb'. rewrite IB in IB'. inversion IB'; subst dep'.
    assert (XC : x_chain x = Some (p, None)).
    { destruct (ctx_facts _ _ M) as (_ & _ & _ & _ & _ & E). unfold chained_to_through in E. unfold sticky_anchors in SA.
      destruct (chained_proof i) as [|n'|l']; try discriminate. rewrite Q in E. inversion E. reflexivity. }
    destruct (df_chain_prev _ _ _ _ _ _ DF p XC IDE) as [SP SB].
    exists b, vb, k. split; [exact R|]. split; [exact JB|]. split; [exact IB|]. split; [congruence|].
    split; [unfold i_author at 1; rewrite IDE; exact A|]. split; [unfold i_round at 1; rewrite IDE; exact RD|]. split; [exact SP|].
    unfold sticky_bad in SB. rewrite SA in SB. apply negb_false_iff in SB. apply andb_true_iff in SB. destruct SB as [_ SB].
    destruct (sticky_anchors k) as [m|]; [|apply N.eqb_eq in SB; exact SB].
    destruct (m <? 255); [|discriminate]. apply N.eqb_eq in SB. symmetry. exact SB.
  Qed.

  (** a run of sticky points starts after the anchor proof of the leader (or the genesis) *)
  Theorem sticky_run h : hist h -> forall a v i n, judged h a v -> passed v i -> i_round i <> c_genesis c ->
    sticky_anchors i = Some n ->
    exists m z vz k, own_path h m a z /\ judged h z vz /\ info_of vz = Some k /\ i_author k = i_author i /\
      i_round k + N.of_nat m = i_round i /\
      ((N.of_nat m = n + 1 /\ (i_role k = Genesis \/ exists l t, i_role k = AnchorProof l t /\ ldr k = true)) \/
       (N.of_nat m <= n + 1 /\ exists reason, vz = VdInvalid k reason)).
  Proof.
    intros H a. induction a as [a IH] using (well_founded_induction Wf_nat.lt_wf). intros v i n J P NG SA.
    destruct (sticky_prev h a v i n H J P NG SA) as (_ & b & vb & k & R & JB & IB & _ & AU & RD & SP & SM).
    destruct (dep_read_fine c peers ldr h a b v i true H J P NG R) as (x & vb' & dep' & bp & M & LT & _).
    assert (ONE : forall m z, own_path h m b z -> own_path h (S m) a z).
    { intros m z O. eapply op_cons; eauto. }
    destruct (not_passed_invalid _ _ IB) as [PB|IV].
    - destruct (sticky_anchors k) as [m|] eqn:SK.
      + assert (NGK : i_round k <> c_genesis c).
        { intros G. destruct (judged_verified c peers ldr h b vb k H JB IB) as [VB _].
          destruct (verified_genesis _ _ _ VB G) as (RL & _). unfold sticky_anchors, chained_proof in SK. rewrite RL in SK. discriminate. }
        destruct (IH b LT vb k m JB PB NGK SK) as (m' & z & vz & kz & O & JZ & IZ & AZ & RZ & END).
        exists (S m'), z, vz, kz. split; [apply ONE; exact O|]. split; [exact JZ|]. split; [exact IZ|]. split; [congruence|].
        split; [clear - RZ RD; lia|]. destruct END as [[E1 E2]|[E1 E2]]; [left; split; [clear - E1 SM; lia|exact E2]|right; split; [clear - E1 SM; lia|exact E2]].
      + exists 1%nat, b, vb, k. split; [apply ONE; constructor|]. split; [exact JB|]. split; [exact IB|]. split; [exact AU|].
        split; [exact RD|]. left. split; [clear - SM; lia|].
        destruct (N.eq_dec (i_round k) (c_genesis c)) as [G|NGK].
        { left. destruct (judged_verified c peers ldr h b vb k H JB IB) as [VB _]. destruct (verified_genesis _ _ _ VB G) as (RL & _). exact RL. }
        right. pose proof JB as (eb & EB & EV). subst vb.
        destruct (passed_dep c peers ldr h b eb k H EB PB NGK) as (xb & _ & PL & _).
        unfold anchor_proof in SP. unfold sticky_anchors, chained_proof in SK. unfold proof_link_ok in PL.
        destruct (i_role k) as [ap at'|l t| |s|] eqn:RK; try discriminate.
        * destruct ap; discriminate.
        * apply andb_true_iff in PL. destruct PL as [PL _]. eauto.
        * exfalso. destruct (judged_verified c peers ldr h b (e_v eb) k H JB IB) as [VB _].
          destruct (verified_is_proper _ _ _ VB NGK) as (PRK & _). apply (pr_role _ _ _ PRK). exact RK.
    - exists 1%nat, b, vb, k. split; [apply ONE; constructor|]. split; [exact JB|]. split; [exact IB|]. split; [exact AU|].
      split; [exact RD|]. right. split; [lia|exact IV].
  Qed.

  (** a trigger comes right after an anchor proof of the same author *)
  Theorem trigger_after_proof h a v i : hist h -> judged h a v -> passed v i -> i_role i = AnchorTrigger ->
    exists b vb k, dep_read h a b true /\ judged h b vb /\ info_of vb = Some k /\ prev_id i = Some (i_id k) /\
      i_author k = i_author i /\ i_round k + 1 = i_round i /\ anchor_proof k = ToSelf /\ i_atime k = i_atime i.
  Proof.
    intros H J P RL.
    destruct (judged_verified c peers ldr h a v i H J (passed_info _ _ P)) as [V OK].
    assert (NG : i_round i <> c_genesis c).
    { intros G. destruct (verified_genesis _ _ _ V G) as (RL' & _). congruence. }
    destruct (verified_is_proper _ _ _ V NG) as (PR & _).
    assert (SL : anchor_link STrigger i = ToSelf) by (cbn; unfold anchor_trigger; rewrite RL; reflexivity).
    destruct (pr_self _ _ _ PR STrigger SL) as (d & ID).
    assert (Q : prev_id i = Some (mkPid (i_round i - 1) d (i_author i))).
    { unfold prev_id. destruct OK as (ND & _). apply (aget_in N.eqb (fun a b => N.eqb_spec a b)) in ID; [|exact ND].
      unfold prev_digest. rewrite ID. reflexivity. }
    destruct (prev_point c peers ldr h a v i _ H J P NG Q) as (b & vb & k & R & JB & IB & IDE & A & RD & _).
    destruct (dep_read_fine c peers ldr h a b v i true H J P NG R) as (x & vb' & dep' & bp & M & LT & JB' & IB' & _ & LR & DF & _).
    assert (vb' = vb) by (eapply judged_fun; eauto). subst vb'. rewrite IB in IB'. inversion IB'; subst dep'.
    destruct (ctx_facts _ _ M) as (_ & AP & _ & AT & _ & _).
    assert (AL : anchor_link SProof i = Direct (ThInc (i_author i))) by (cbn; unfold anchor_proof; rewrite RL; reflexivity).
    unfold anchor_id in AP. unfold anchor_through in AP, AT. rewrite AL in AP, AT. cbn [through_id] in AP, AT.
    pose proof Q as Q0. unfold prev_id, prev_digest in Q. destruct (aget N.eqb (i_author i) (i_includes i)) as [d'|]; [|discriminate]. inversion Q; subst d'.
    inversion AP as [AP']. inversion AT as [AT'].
    exists b, vb, k. split; [exact R|]. split; [exact JB|]. split; [exact IB|].
    split; [rewrite Q0; congruence|].
    split; [unfold i_author at 1; rewrite IDE; exact A|]. split; [unfold i_round at 1; rewrite IDE; exact RD|].
    split; [apply (df_direct _ _ _ _ _ _ DF SProof); cbn [aid]; congruence|].
    apply (df_atime _ _ _ _ _ _ DF). congruence.
  Qed.

  (** the trigger of a point was made for the proof the point takes over, unless that proof is newer than the trigger *)
  Theorem trigger_of_proof h : hist h -> forall a v i p, judged h a v -> passed v i -> i_round i <> c_genesis c ->
    inherited i = Some p -> p_round p < anchor_round STrigger i ->
    exists z vz k, passed_path h a z /\ judged h z vz /\ info_of vz = Some k /\
      dest STrigger k = dest STrigger i /\
      ((i_id k = dest STrigger i /\ anchor_trigger k = ToSelf /\ dest SProof k = p) \/ exists reason, vz = VdInvalid k reason).
  Proof.
    intros H a. induction a as [a IH] using (well_founded_induction Wf_nat.lt_wf). intros v i p J P NG IN LT0.
    destruct (judged_verified c peers ldr h a v i H J (passed_info _ _ P)) as [V OK].
    destruct (verified_is_proper _ _ _ V NG) as (PR & _).
    assert (NS : anchor_link STrigger i <> ToSelf).
    { intros E. cbn in E. unfold anchor_trigger in E. unfold inherited in IN. destruct (i_role i) as [ap [?|?]|l [?|?]| |s|]; discriminate. }
    destruct (pr_link _ _ _ PR STrigger NS) as (th & to & T & ID & AI & _).
    destruct (dep_read_of c peers ldr h a v i th H J P NG ID) as (b & cert & vb & dep & R & JB & IB & IDE).
    destruct (dep_read_fine c peers ldr h a b v i cert H J P NG R) as (x & vb' & dep' & bp & M & LT & JB' & IB' & _ & LR & DF & _).
    assert (vb' = vb) by (eapply judged_fun; eauto). subst vb'. rewrite IB in IB'. inversion IB'; subst dep'.
    destruct (ctx_aid _ _ STrigger M) as [A1 A2]. rewrite T in A2. inversion A2 as [A2']. cbn [aid ath] in *.
    assert (DD : dest STrigger dep = dest STrigger i).
    { rewrite (dest_id _ _ _ A1). apply (df_path _ _ _ _ _ _ DF STrigger). cbn [ath]. congruence. }
    assert (BD : x_bound x = Some p).
    { destruct (ctx_facts _ _ M) as (_ & _ & _ & _ & E & _). unfold trigger_bound in E. unfold inherited in IN.
      destruct (i_role i) as [ap at'|l at'| |s|] eqn:RL; try discriminate.
      - unfold anchor_id, anchor_through in IN. cbn [anchor_link] in IN. unfold anchor_proof in IN. rewrite RL in IN.
        destruct ap as [t|l].
        + rewrite IN in E. rewrite (proj2 (N.ltb_lt _ _) LT0) in E. inversion E. reflexivity.
        + inversion IN; subst p. rewrite (proj2 (N.ltb_lt _ _) LT0) in E. inversion E. reflexivity.
      - inversion IN; subst p. rewrite (proj2 (N.ltb_lt _ _) LT0) in E. inversion E. reflexivity. }
    assert (DP : dest SProof dep = p).
    { assert (X : bound_mismatch (x_bound x) dep = false) by (apply (df_pbound _ _ _ _ _ _ DF); congruence).
      rewrite BD in X. cbn in X. apply negb_false_iff in X. apply eqb_pid_true in X. symmetry. exact X. }
    assert (ONE : forall z, passed_path h b z -> passed_path h a z) by (intros z PP; econstructor; eauto).
    destruct (not_passed_invalid _ _ IB) as [PB|IV].
    - assert (TD : anchor_round STrigger dep = anchor_round STrigger i).
      { rewrite <- (dest_round h b vb dep STrigger H JB IB), <- (dest_round h a v i STrigger H J (passed_info _ _ P)). congruence. }
      destruct (anchor_link STrigger dep) eqn:LD.
      { exists b, vb, dep. split; [apply ONE; constructor|]. split; [exact JB|]. split; [exact IB|]. split; [exact DD|].
        left. split; [rewrite <- DD; symmetry; apply dest_self; exact LD|]. split; [exact LD|exact DP]. }
      all: assert (NGD : i_round dep <> c_genesis c) by
          (intros G; destruct (judged_verified c peers ldr h b vb dep H JB IB) as [VB _]; destruct (verified_genesis _ _ _ VB G) as (RL & _);
           rewrite (genesis_links _ RL) in LD; discriminate);
        assert (INH : inherited dep = Some p) by
          (unfold inherited; cbn [anchor_link] in LD; unfold anchor_trigger in LD;
           destruct (i_role dep) as [ap at'|l' at'| |s|] eqn:RL; try discriminate;
           [ unfold dest in DP;
             destruct (anchor_id SProof dep) as [q|] eqn:AQ; [congruence|];
             exfalso; destruct (judged_verified c peers ldr h b vb dep H JB IB) as [VB _];
             destruct (verified_is_proper _ _ _ VB NGD) as (PRD & _);
             assert (NSD : anchor_link SProof dep <> ToSelf) by (cbn [anchor_link]; unfold anchor_proof; rewrite RL; destruct ap; discriminate);
             destruct (pr_link _ _ _ PRD SProof NSD) as (th' & to' & _ & _ & AI' & _); congruence
           | exfalso;
             assert (SD : anchor_link SProof dep = ToSelf) by (cbn [anchor_link]; unfold anchor_proof; rewrite RL; reflexivity);
             rewrite (dest_self _ _ SD) in DP;
             destruct (judged_verified c peers ldr h b vb dep H JB IB) as [VB _];
             destruct (verified_is_proper _ _ _ VB NGD) as (PRD & _);
             assert (NSD : anchor_link STrigger dep <> ToSelf) by (cbn [anchor_link]; unfold anchor_trigger; rewrite RL; destruct at'; discriminate);
             destruct (pr_link _ _ _ PRD STrigger NSD) as (th' & to' & _ & _ & _ & RT & _ & LE1 & _ & LE2);
             subst p; rewrite <- TD, <- RT in LT0; unfold i_round in LE2; clear - LT0 LE1 LE2; lia ]);
        assert (LTD : p_round p < anchor_round STrigger dep) by (rewrite TD; exact LT0);
        destruct (IH b LT vb dep p JB PB NGD INH LTD) as (z & vz & k & PP & JZ & IZ & DZ & END);
        exists z, vz, k; split; [apply ONE; exact PP|]; split; [exact JZ|]; split; [exact IZ|]; split; [congruence|];
        (destruct END as [(E1 & E2 & E3)|E]; [left; split; [congruence|]; split; [exact E2|exact E3]|right; exact E]).
    - exists b, vb, dep. split; [apply ONE; constructor|]. split; [exact JB|]. split; [exact IB|]. split; [exact DD|]. right. exact IV.
  Qed.

  (** leaders *)
  Theorem proof_by_leader h a v i l t : hist h -> judged h a v -> passed v i -> i_role i = AnchorProof l t ->
    ldr i = true /\ p_round (il_to l) + (if c_sticky c =? 0 then 3 else 4) <= i_round i.
  Proof.
    intros H J P RL.
    destruct (judged_verified c peers ldr h a v i H J (passed_info _ _ P)) as [V OK].
    assert (NG : i_round i <> c_genesis c).
    { intros G. destruct (verified_genesis _ _ _ V G) as (RL' & _). congruence. }
    pose proof J as (e & E & EV). subst v.
    destruct (passed_dep c peers ldr h a e i H E P NG) as (x & _ & PL & _).
    unfold proof_link_ok in PL. rewrite RL in PL. apply andb_true_iff in PL. destruct PL as [L F]. split; [exact L|].
    unfold far_enough in F. destruct (c_sticky c =? 0); lia.
  Qed.
  Theorem leader_must_prove h a v i : hist h -> judged h a v -> passed v i -> i_round i <> c_genesis c ->
    ldr i = true -> i_evidence i <> [] ->
    (exists ap at', i_role i = Regular ap at') -> i_round i <= anchor_round SProof i + (if c_sticky c =? 0 then 2 else 3).
  Proof.
    intros H J P NG L EV0 (ap & at' & RL).
    destruct (judged_verified c peers ldr h a v i H J (passed_info _ _ P)) as [V OK].
    destruct (verified_is_proper _ _ _ V NG) as (PR & _).
    pose proof J as (e & E & EV). subst v.
    destruct (passed_dep c peers ldr h a e i H E P NG) as (x & _ & PL & _).
    unfold proof_link_ok in PL. rewrite RL, L in PL. cbn [andb] in PL.
    destruct (proj2 (pr_proved _ _ _ PR) EV0) as (d & ID).
    assert (Q : isSome (prev_digest i) = true).
    { rewrite prev_some. apply amem_in. eauto. }
    rewrite Q in PL. cbn [andb] in PL. apply negb_true_iff in PL. unfold far_enough in PL. destruct (c_sticky c =? 0); lia.
  Qed.
End Chain.

Section Leaders.
  Context (c : vconf) (ordered peers : round -> list peer) (coin : round -> nat -> nat).
  (** In one round all anchor proofs that pass are by one author, on all nodes that share the schedule *)
  Theorem one_prover h h' a a' v v' i i' : hist c peers (is_leader c ordered peers coin) h ->
    hist c peers (is_leader c ordered peers coin) h' ->
    judged h a v -> passed v i -> judged h' a' v' -> passed v' i' ->
    (exists l t, i_role i = AnchorProof l t) -> (exists l t, i_role i' = AnchorProof l t) -> i_round i = i_round i' ->
    i_author i = i_author i' /\ i_round i mod 3 = 1.
  Proof.
    intros H H' J P J' P' (l & t & RL) (l' & t' & RL') RR.
    destruct (proof_by_leader _ _ _ _ _ _ _ _ _ H J P RL) as [L _].
    destruct (proof_by_leader _ _ _ _ _ _ _ _ _ H' J' P' RL') as [L' _].
    unfold is_leader in L, L'. rewrite <- RR in L'. destruct (leader c ordered peers coin (i_round i)) as [w|] eqn:LD; [|discriminate].
    apply N.eqb_eq in L, L'. split; [congruence|].
    unfold leader in LD. destruct (ordered _) as [|p0 r]; [discriminate|].
    destruct (existsb _ _ && _) eqn:B in LD; [|discriminate]. apply andb_true_iff in B. destruct B as [_ B]. apply N.eqb_eq in B. exact B.
  Qed.
End Leaders.

(** the genesis round is aligned to the first round from 4 on, not before the start, that leaders use for proofs *)
Theorem align_genesis_spec s : align_genesis s mod 3 = 1 /\ s <= align_genesis s /\ 4 <= align_genesis s /\
  forall r, s <= r -> 4 <= r -> r mod 3 = 1 -> align_genesis s <= r.
Proof.
  unfold align_genesis, wave.
  pose proof (N.div_mod (s + 1) 3 ltac:(lia)) as D. pose proof (N.mod_lt (s + 1) 3 ltac:(lia)) as M.
  set (q := (s + 1) / 3) in *. set (m := (s + 1) mod 3) in *. clearbody q m.
  assert (X : forall k, (k * 3 + 1) mod 3 = 1).
  { intros k. rewrite N.add_comm, N.mod_add by lia. reflexivity. }
  destruct (N.eqb_spec q 0) as [Q|Q].
  - split; [apply X|]. split; [lia|]. split; [lia|]. intros r L1 L2 L3. lia.
  - split; [apply X|]. split; [lia|]. split; [lia|]. intros r L1 L2 L3.
    pose proof (N.div_mod r 3 ltac:(lia)) as DR. rewrite L3 in DR. set (k := r / 3) in *. clearbody k. lia.
Qed.
Print Assumptions proof_chain.
Print Assumptions sticky_run.
Print Assumptions trigger_after_proof.
Print Assumptions trigger_of_proof.
Print Assumptions leader_must_prove.
Print Assumptions one_prover.
Print Assumptions align_genesis_spec.
