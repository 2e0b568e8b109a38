(** Properties of points a node judged valid (C67, C68). *)
From Verif Require Import VerModel VerSpec VerCheck VerBasic VerProper VerHist.
From Coq Require Import ZArith ZifyN ZifyNat ZifyBool.
Local Open Scope N_scope.

Lemma ctx_facts i x : mk_ctx i = Some x ->
  anchor_id STrigger i = Some (x_tid x) /\ anchor_id SProof i = Some (x_pid x) /\
  anchor_through STrigger i = Some (x_tth x) /\ anchor_through SProof i = Some (x_pth x) /\
  trigger_bound i = Some (x_bound x) /\ chained_to_through i = Some (x_chain x).
Proof.
  unfold mk_ctx.
  destruct (anchor_id STrigger i), (anchor_id SProof i), (anchor_through STrigger i), (anchor_through SProof i),
    (trigger_bound i), (chained_to_through i); intros E; inversion E; subst; cbn; auto 10.
Qed.
Definition aid (r : srole) (x : ctx) : pid := match r with STrigger => x_tid x | SProof => x_pid x end.
Definition ath (r : srole) (x : ctx) : pid := match r with STrigger => x_tth x | SProof => x_pth x end.
Lemma self_true l : is_self l = true <-> l = ToSelf.
Proof. destruct l; cbn; intuition congruence. Qed.
Lemma eqb_pid_true a b : pid_eqb a b = true <-> a = b.
Proof. destruct (pid_eqb_spec a b); intuition congruence. Qed.

Record dep_fine (c : vconf) (i : info) (x : ctx) (is_prev : bool) (id : pid) (dep : info) : Prop := {
  df_prev : is_prev = true -> proof_bad i dep = None;
  df_time : i_time dep <= tadd (i_time i) (c_skew c);
  df_newer : forall r, anchor_round r dep <= p_round (aid r x);
  df_direct : forall r, id = aid r x -> anchor_link r dep = ToSelf;
  df_tbound : id = x_tid x -> bound_mismatch (x_bound x) dep = false;
  df_path : forall r, id = ath r x -> dest r dep = aid r x;
  df_pbound : id = x_tth x -> bound_mismatch (x_bound x) dep = false;
  df_atime : id = x_pth x -> i_atime dep = i_atime i;
  df_chain_newer : forall to o, x_chain x = Some (to, o) -> p_round (dest SProof dep) <= p_round to;
  df_chain_path : forall to th, x_chain x = Some (to, Some th) -> id = th -> dest SProof dep = to;
  df_chain_prev : forall to, x_chain x = Some (to, None) -> id = to -> anchor_proof dep = ToSelf /\ sticky_bad c i dep = false }.
Lemma dep_checks_fine c i x b id dep : Forall (fun o => o = None) (dep_checks c i x b id dep) -> dep_fine c i x b id dep.
Proof.
  unfold dep_checks. intros F.
  repeat match goal with H : Forall _ (_ :: _) |- _ => apply Forall_cons_iff in H; destruct H as [? H] end. clear F.
  rewrite !why_none in *.
  match goal with H : (if pid_eqb id (x_tid x) then trigger_bad _ _ else None) = None |- _ => rename H into HT end.
  assert (T1 : id = x_tid x -> anchor_trigger dep = ToSelf /\ bound_mismatch (x_bound x) dep = false).
  { intros E. apply eqb_pid_true in E. rewrite E in HT. unfold trigger_bad in HT.
    destruct (is_self (anchor_trigger dep)) eqn:S; [|discriminate]. apply self_true in S. cbn [negb] in HT.
    apply why_none in HT. auto. }
  constructor.
  - intros ->. assumption.
  - lia.
  - intros []; cbn [aid]; lia.
  - intros [] E; cbn [aid anchor_link] in *.
    + apply T1. exact E.
    + apply eqb_pid_true in E. rewrite E in *. cbn [andb] in *. apply self_true.
      match goal with H : negb (is_self (anchor_proof dep)) = false |- _ => apply negb_false_iff in H; exact H end.
  - intros E. apply T1. exact E.
  - intros [] E; cbn [aid ath] in *; apply eqb_pid_true in E; rewrite E in *.
    + destruct (pid_eqb (dest STrigger dep) (x_tid x)) eqn:D; [apply eqb_pid_true; exact D|]. cbn [negb] in *. discriminate.
    + cbn [andb] in *. match goal with H : negb (pid_eqb (dest SProof dep) (x_pid x)) = false |- _ => apply negb_false_iff in H; apply eqb_pid_true; exact H end.
  - intros E. destruct (pid_eqb_spec (x_tth x) (x_tid x)) as [Q|Q].
    + apply T1. congruence.
    + apply eqb_pid_true in E. rewrite E in *. destruct (pid_eqb (dest STrigger dep) (x_tid x)); [|discriminate]. cbn [negb andb] in *.
      match goal with H : why _ _ = None |- _ => apply why_none in H; exact H end.
  - intros E. apply eqb_pid_true in E. rewrite E in *. cbn [andb] in *. lia.
  - intros to o E. rewrite E in *. rewrite !why_none in *. lia.
  - intros to th E K. rewrite E in *. rewrite !why_none in *. apply eqb_pid_true in K. rewrite K in *. cbn [andb] in *.
    match goal with H : negb (pid_eqb (dest SProof dep) to) = false |- _ => apply negb_false_iff in H; apply eqb_pid_true; exact H end.
  - intros to E K. rewrite E in *. rewrite !why_none in *. apply eqb_pid_true in K. rewrite K in *. cbn [andb] in *. split; [|assumption].
    apply self_true. match goal with H : negb (is_self (anchor_proof dep)) = false |- _ => apply negb_false_iff in H; exact H end.
Qed.

Lemma ctx_aid i x r : mk_ctx i = Some x -> anchor_id r i = Some (aid r x) /\ anchor_through r i = Some (ath r x).
Proof. intros M. destruct (ctx_facts _ _ M) as (A & B & C & D & _). destruct r; auto. Qed.
Lemma dest_self r i : anchor_link r i = ToSelf -> dest r i = i_id i.
Proof. intros E. unfold dest, anchor_id, anchor_through. rewrite E. reflexivity. Qed.
Lemma dest_id r i p : anchor_id r i = Some p -> dest r i = p.
Proof. unfold dest. intros ->. reflexivity. Qed.

Section Thms.
  Context (c : vconf) (peers : round -> list peer) (ldr : info -> bool).
  Notation hist := (hist c peers ldr).

  (** the round of a link's destination *)
  Lemma aid_round i x r : basic_verify c peers i = VOk -> i_round i <> c_genesis c -> mk_ctx i = Some x ->
    p_round (aid r x) = anchor_round r i.
  Proof.
    intros V NG M. destruct (ctx_aid _ _ r M) as [A _]. destruct (verified_is_proper _ _ _ V NG) as (P & _).
    destruct (anchor_link r i) eqn:L.
    - unfold anchor_id, anchor_through, anchor_round in *. rewrite L in *. inversion A. reflexivity.
    - assert (NS : anchor_link r i <> ToSelf) by congruence.
      destruct (pr_link _ _ _ P r NS) as (th & to & _ & _ & I & E & _). rewrite I in A. inversion A; subst. exact E.
    - assert (NS : anchor_link r i <> ToSelf) by congruence.
      destruct (pr_link _ _ _ P r NS) as (th & to & _ & _ & I & E & _). rewrite I in A. inversion A; subst. exact E.
  Qed.

  (** a read of one dependency of a passed point *)
  Lemma dep_read_fine h a b v i cert : hist h -> judged h a v -> passed v i -> i_round i <> c_genesis c -> dep_read h a b cert ->
    exists x vb dep bp, mk_ctx i = Some x /\ (b < a)%nat /\ judged h b vb /\ info_of vb = Some dep /\ In (i_id dep) (dep_ids i) /\
      i_round dep < i_round i /\ dep_fine c i x bp (i_id dep) dep /\ (prev_id i = Some (i_id dep) -> bp = true /\ cert = true).
  Proof.
    intros H (e & E & <-) P NG (e' & i' & dp & E' & I' & IN & ID & CT). rewrite E in E'. inversion E'; subst e'.
    rewrite (passed_info _ _ P) in I'. inversion I'; subst i'.
    destruct (passed_dep c peers ldr h a e i H E P NG) as (x & M & PL & CV & RD).
    destruct (RD b dp IN ID) as (eb & dep & LT & NB & SV & IB & IDE & LR & CH & CA & PC).
    exists x, (e_v eb), dep, (is_prev_of i dp). split; [exact M|]. split; [exact LT|]. split; [exists eb; auto|]. split; [exact IB|].
    rewrite IDE. split; [exact ID|]. split; [unfold i_round at 1; rewrite IDE; exact LR|]. split; [apply dep_checks_fine; exact CH|].
    intros Q. split; [|rewrite <- CT; apply PC; exact Q].
    unfold prev_id in Q. unfold is_prev_of, at_prev_loc. destruct (prev_digest i) as [pd|]; [|discriminate]. inversion Q as [Q'].
    cbn. rewrite !N.eqb_refl. reflexivity.
  Qed.
  Lemma dep_read_of h a v i p : hist h -> judged h a v -> passed v i -> i_round i <> c_genesis c -> In p (dep_ids i) ->
    exists b cert vb dep, dep_read h a b cert /\ judged h b vb /\ info_of vb = Some dep /\ i_id dep = p.
  Proof.
    intros H J P NG I. pose proof J as (e & E & EV). subst v.
    destruct (passed_dep c peers ldr h a e i H E P NG) as (x & M & PL & CV & RD).
    destruct (CV p I) as (b & dp & IN & ID).
    destruct (RD b dp IN) as (eb & dep & LT & NB & SV & IB & IDE & _); [rewrite ID; exact I|].
    exists b, (d_cert dp), (e_v eb), dep. split.
    - exists e, i, dp. split; [exact E|]. split; [apply passed_info; exact P|]. split; [exact IN|]. split; [rewrite ID; exact I|reflexivity].
    - split; [exists eb; auto|]. split; [exact IB|]. congruence.
  Qed.
  Lemma judged_verified h a v i : hist h -> judged h a v -> info_of v = Some i -> basic_verify c peers i = VOk /\ info_ok i.
  Proof. intros H (e & E & <-) I. eapply hist_verified; eauto. Qed.
  Lemma judged_fun h a v v' : judged h a v -> judged h a v' -> v = v'.
  Proof. intros (e & E & <-) (e' & E' & <-). congruence. Qed.

  (** Every dependency of a passed point was found and is well-formed, is of an earlier round, not too far in the
      future, and knows no newer anchor proof or trigger than the point itself *)
  Theorem dependency_checked h a b v i cert : hist h -> judged h a v -> passed v i -> i_round i <> c_genesis c ->
    dep_read h a b cert ->
    exists vb dep, judged h b vb /\ info_of vb = Some dep /\ In (i_id dep) (dep_ids i) /\ i_round dep < i_round i /\
      i_time dep <= i_time i + c_skew c /\
      anchor_round STrigger dep <= anchor_round STrigger i /\ anchor_round SProof dep <= anchor_round SProof i.
  Proof.
    intros H J P NG R. destruct (judged_verified h a v i H J (passed_info _ _ P)) as [V _].
    destruct (dep_read_fine h a b v i cert H J P NG R) as (x & vb & dep & bp & M & LT & JB & IB & ID & LR & DF & _).
    exists vb, dep. split; [exact JB|]. split; [exact IB|]. split; [exact ID|]. split; [exact LR|].
    pose proof (df_time _ _ _ _ _ _ DF) as T. unfold tadd in T.
    rewrite <- (aid_round i x STrigger V NG M), <- (aid_round i x SProof V NG M).
    split; [clear - T; lia|]. split; apply (df_newer _ _ _ _ _ _ DF).
  Qed.
  (** every dependency of a passed point was read *)
  Theorem dependencies_read h a v i p : hist h -> judged h a v -> passed v i -> In p (dep_ids i) ->
    exists b cert vb dep, dep_read h a b cert /\ judged h b vb /\ info_of vb = Some dep /\ i_id dep = p.
  Proof.
    intros H J P I. destruct (N.eq_dec (i_round i) (c_genesis c)) as [G|NG]; [|eapply dep_read_of; eauto].
    destruct (judged_verified h a v i H J (passed_info _ _ P)) as [V _].
    destruct (verified_genesis _ _ _ V G) as (_ & A & B & _). unfold dep_ids in I. rewrite A, B in I. destruct I.
  Qed.

  (** anchors known to a point only grow along passed points *)
  Lemma genesis_no_read h a b v i cert : hist h -> judged h a v -> passed v i -> i_round i = c_genesis c -> ~ dep_read h a b cert.
  Proof.
    intros H J P G (e & i' & dp & E & I & IN & ID & _). pose proof J as (e0 & E0 & EV). rewrite E in E0. inversion E0; subst e0.
    rewrite EV, (passed_info _ _ P) in I. inversion I; subst i'.
    destruct (judged_verified h a v i H J (passed_info _ _ P)) as [V _].
    destruct (verified_genesis _ _ _ V G) as (_ & A & B & _). unfold dep_ids in ID. rewrite A, B in ID. destruct ID.
  Qed.
  Theorem anchors_grow h a z : hist h -> passed_path h a z -> forall v i vz k r,
    judged h a v -> info_of v = Some i -> judged h z vz -> info_of vz = Some k ->
    anchor_round r k <= anchor_round r i /\ i_round k <= i_round i.
  Proof.
    intros H PP. induction PP as [a|a b z v i cert J P R PP IH]; intros v' i' vz k r Ja Ia Jz Iz.
    - assert (v' = vz) by (eapply judged_fun; eauto). subst. rewrite Ia in Iz. inversion Iz; subst. lia.
    - assert (v' = v) by (eapply judged_fun; eauto). subst v'. rewrite (passed_info _ _ P) in Ia. inversion Ia; subst i'.
      destruct (N.eq_dec (i_round i) (c_genesis c)) as [G|NG]; [destruct (genesis_no_read h a b v i cert H J P G R)|].
      destruct (dependency_checked h a b v i cert H J P NG R) as (vb & dep & JB & IB & _ & LR & _ & L1 & L2).
      destruct (IH vb dep vz k r JB IB Jz Iz) as [A B]. destruct r; lia.
  Qed.

  (** ** Links lead to the anchor. From a passed point its link to an anchor trigger (proof) can be followed through
      dependencies, every one with the same destination, until the destination that is a trigger (proof) itself, or up to a point that was
      judged invalid. For a proof, the anchor time is the same on the way. *)
  Theorem anchor_path h r : hist h -> forall a v i, judged h a v -> passed v i -> i_round i <> c_genesis c ->
    exists z vz k, passed_path h a z /\ judged h z vz /\ info_of vz = Some k /\ dest r k = dest r i /\
      (r = SProof -> i_atime k = i_atime i) /\
      ((i_id k = dest r i /\ anchor_link r k = ToSelf) \/ (exists reason, vz = VdInvalid k reason)).
  Proof.
    intros H a. induction a as [a IH] using (well_founded_induction Wf_nat.lt_wf). intros v i J P NG.
    destruct (judged_verified h a v i H J (passed_info _ _ P)) as [V OK].
    destruct (verified_is_proper _ _ _ V NG) as (PR & _).
    destruct (anchor_link r i) eqn:L.
    { exists a, v, i. split; [constructor|]. split; [exact J|]. split; [apply passed_info; exact P|]. split; [reflexivity|]. split; [reflexivity|].
      left. split; [|exact L]. symmetry. apply dest_self. exact L. }
    all: assert (NS : anchor_link r i <> ToSelf) by congruence;
      destruct (pr_link _ _ _ PR r NS) as (th & to & T & I & AI & _);
      destruct (dep_read_of h a v i th H J P NG I) as (b & cert & vb & dep & R & JB & IB & IDE);
      destruct (dep_read_fine h a b v i cert H J P NG R) as (x & vb' & dep' & bp & M & LT & JB' & IB' & ID & LR & DF & _);
      assert (vb' = vb) by (eapply judged_fun; eauto); subst vb'; rewrite IB in IB'; inversion IB'; subst dep';
      destruct (ctx_aid _ _ r M) as [A1 A2]; rewrite T in A2; inversion A2 as [A2'];
      assert (DD : dest r dep = dest r i) by (rewrite (dest_id _ _ _ A1); apply (df_path _ _ _ _ _ _ DF); congruence);
      assert (AT : r = SProof -> i_atime dep = i_atime i) by
        (intros ->; apply (df_atime _ _ _ _ _ _ DF); cbn [ath] in A2'; congruence);
      (destruct (not_passed_invalid _ _ IB) as [PB|IV];
       [destruct (anchor_link r dep) eqn:LD;
        [ exists b, vb, dep; split; [econstructor; eauto; constructor|]; split; [exact JB|]; split; [exact IB|]; split; [exact DD|]; split; [exact AT|];
          left; split; [|exact LD]; rewrite <- DD; symmetry; apply dest_self; exact LD
        | | ]
       |exists b, vb, dep; split; [econstructor; eauto; constructor|]; split; [exact JB|]; split; [exact IB|]; split; [exact DD|]; split; [exact AT|];
        right; exact IV]).
    all: assert (NGD : i_round dep <> c_genesis c) by
        (intros G; destruct (judged_verified h b vb dep H JB IB) as [VB _]; destruct (verified_genesis _ _ _ VB G) as (RL & _);
         destruct r; cbn [anchor_link] in LD; unfold anchor_trigger, anchor_proof in LD; rewrite RL in LD; discriminate);
      destruct (IH b LT vb dep JB PB NGD) as (z & vz & k & PP & JZ & IZ & DZ & AZ & END);
      exists z, vz, k; split; [econstructor; eauto|]; split; [exact JZ|]; split; [exact IZ|]; split; [congruence|];
      split; [intros Q; rewrite (AZ Q); exact (AT Q)|];
      destruct END as [[E1 E2]|E]; [left; split; [congruence|exact E2]|right; exact E].
  Qed.

  (** ** Own points. The previous point of the author is proved (certified), the time grows, a proof takes the time of
      its candidate for the anchor time, and a point after a proof is a trigger *)
  Theorem prev_point h a v i p : hist h -> judged h a v -> passed v i -> i_round i <> c_genesis c -> prev_id i = Some p ->
    exists b vb dep, dep_read h a b true /\ judged h b vb /\ info_of vb = Some dep /\ i_id dep = p /\
      p_author p = i_author i /\ p_round p + 1 = i_round i /\ i_time dep < i_time i /\
      (anchor_proof i = ToSelf -> i_atime i = i_time dep) /\
      (anchor_proof dep = ToSelf -> anchor_trigger i = ToSelf).
  Proof.
    intros H J P NG Q.
    destruct (judged_verified h a v i H J (passed_info _ _ P)) as [V OK].
    destruct (verified_is_proper _ _ _ V NG) as (PR & _). destruct (pr_after _ _ _ PR) as [G0 G1].
    assert (I : In p (dep_ids i)).
    { unfold prev_id in Q. destruct (prev_digest i) as [d|] eqn:D; [|discriminate]. inversion Q; subst p.
      assert (TT : through_id i (ThInc (i_author i)) = Some (mkPid (i_round i - 1) d (i_author i))).
      { cbn [through_id]. unfold prev_digest in D. rewrite D. reflexivity. }
      exact (proj1 (through_dep _ _ _ TT)). }
    destruct (dep_read_of h a v i p H J P NG I) as (b & cert & vb & dep & R & JB & IB & IDE).
    destruct (dep_read_fine h a b v i cert H J P NG R) as (x & vb' & dep' & bp & M & LT & JB' & IB' & ID & LR & DF & PC).
    assert (vb' = vb) by (eapply judged_fun; eauto); subst vb'. rewrite IB in IB'. inversion IB'; subst dep'.
    rewrite IDE in PC. destruct (PC Q) as [BP ->].
    exists b, vb, dep. split; [exact R|]. split; [exact JB|]. split; [exact IB|]. split; [exact IDE|].
    pose proof (df_prev _ _ _ _ _ _ DF BP) as PB. unfold proof_bad in PB.
    destruct (is_self (anchor_proof dep) && negb (is_self (anchor_trigger i))) eqn:E1; [discriminate|].
    destruct (i_time i <=? i_time dep) eqn:E2; [discriminate|].
    destruct (is_self (anchor_proof i) && negb (i_atime i =? i_time dep)) eqn:E3; [discriminate|].
    split; [|split; [|split; [|split]]].
    - unfold prev_id in Q. destruct (prev_digest i); inversion Q; reflexivity.
    - unfold prev_id in Q. destruct (prev_digest i); inversion Q. cbn. lia.
    - lia.
    - intros S. apply self_true in S. rewrite S in E3. cbn [andb] in E3. lia.
    - intros S. apply self_true in S. rewrite S in E1. cbn [andb] in E1. apply negb_false_iff in E1. apply self_true. exact E1.
  Qed.
  (** the anchor time of a passed point is the time of the candidate of its anchor proof *)
  Theorem anchor_time_of_candidate h a v i : hist h -> judged h a v -> passed v i -> i_round i <> c_genesis c ->
    exists z vz k, passed_path h a z /\ judged h z vz /\ info_of vz = Some k /\ i_atime k = i_atime i /\
      ((i_id k = dest SProof i /\ i_role k = Genesis /\ i_time k = i_atime i) \/
       (i_id k = dest SProof i /\ exists b vb cand, dep_read h z b true /\ judged h b vb /\ info_of vb = Some cand /\
          prev_id k = Some (i_id cand) /\ i_time cand = i_atime i) \/
       (exists reason, vz = VdInvalid k reason)).
  Proof.
    intros H J P NG. destruct (anchor_path h SProof H a v i J P NG) as (z & vz & k & PP & JZ & IZ & DZ & AT & END).
    specialize (AT eq_refl). exists z, vz, k. split; [exact PP|]. split; [exact JZ|]. split; [exact IZ|]. split; [exact AT|].
    destruct END as [[E1 E2]|E]; [|right; right; exact E].
    destruct (not_passed_invalid _ _ IZ) as [PZ|IV]; [|right; right; exact IV].
    destruct (judged_verified h z vz k H JZ IZ) as [VZ OZ].
    destruct (N.eq_dec (i_round k) (c_genesis c)) as [G|NGK].
    - destruct (verified_genesis _ _ _ VZ G) as (RL & _ & _ & _ & _ & TM & _). left. split; [exact E1|]. split; [exact RL|]. congruence.
    - right. left. split; [exact E1|].
      destruct (verified_is_proper _ _ _ VZ NGK) as (PR & _).
      pose proof (pr_self _ _ _ PR SProof E2) as (d & ID).
      assert (Q : exists p, prev_id k = Some p).
      { unfold prev_id. destruct OZ as (ND & _). apply (aget_in N.eqb (fun a b => N.eqb_spec a b)) in ID; [|exact ND].
        unfold prev_digest. rewrite ID. eauto. }
      destruct Q as [p Q]. destruct (prev_point h z vz k p H JZ PZ NGK Q) as (b & vb & cand & R & JB & IB & IC & _ & _ & _ & TA & _).
      exists b, vb, cand. split; [exact R|]. split; [exact JB|]. split; [exact IB|]. split; [congruence|]. rewrite <- AT. symmetry. apply TA. exact E2.
  Qed.
End Thms.
