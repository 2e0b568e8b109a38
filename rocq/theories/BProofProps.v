(** * Block proofs: theorems (C51, C52). *)
From Coq Require Import List NArith ZArith Bool Lia Permutation ZifyN ZifyBool.
From Verif Require Import BProofModel BProofSpec.
Import ListNotations.
Open Scope N_scope.

Lemma wsum_app a b : wsum (a ++ b) = wsum a + wsum b.
Proof. induction a; cbn in *; lia. Qed.
Lemma wsum_perm a b : Permutation a b -> wsum a = wsum b.
Proof. intros H. induction H; cbn in *; lia. Qed.
Lemma sub_wsum s l : sub s l -> wsum s <= wsum l.
Proof. intros H. induction H; cbn in *; lia. Qed.
Lemma sub_in {A} (s l : list A) x : sub s l -> In x s -> In x l.
Proof. intros H. induction H; cbn; intuition. Qed.
Lemma sub_refl {A} (l : list A) : sub l l.
Proof. induction l; constructor; auto. Qed.
Lemma sub_trans {A} (a b c : list A) : sub a b -> sub b c -> sub a c.
Proof.
  intros H1 H2. revert a H1. induction H2; intros a H1; auto.
  - inversion H1; subst; [apply sub_take|apply sub_skip]; auto.
  - apply sub_skip. auto.
Qed.
Lemma sub_perm {A} (s l l' : list A) : sub s l -> Permutation l l' -> exists s', sub s' l' /\ Permutation s s'.
Proof.
  intros H P. revert s H. induction P as [|x l l' P IH|x y l|l l2 l3 P1 IH1 P2 IH2]; intros s H.
  - exists s. auto.
  - inversion H; subst.
    + destruct (IH _ ltac:(eassumption)) as (s'&A1&A2). exists (x :: s'). split; [constructor; exact A1|constructor; exact A2].
    + destruct (IH _ ltac:(eassumption)) as (s'&A1&A2). exists s'. split; [constructor; exact A1|exact A2].
  - inversion H as [|? ? ? H1|? ? ? H1]; subst; inversion H1 as [|? ? ? H2|? ? ? H2]; subst.
    + eexists (x :: y :: _). split; [repeat constructor; exact H2|apply perm_swap].
    + eexists (y :: _). split; [apply sub_skip, sub_take, H2|reflexivity].
    + eexists (x :: _). split; [apply sub_take, sub_skip, H2|reflexivity].
    + eexists. split; [apply sub_skip, sub_skip, H2|reflexivity].
  - destruct (IH1 _ H) as (s2&A1&A2). destruct (IH2 _ A1) as (s3&B1&B2). exists s3. split; [exact B1|].
    eapply Permutation_trans; eauto.
Qed.

(** Two sub-collections meet in one of the missing weight. *)
Lemma sub_meet {P Q : vdesc -> Prop} l s1 s2 : sub s1 l -> sub s2 l -> Forall P s1 -> Forall Q s2 ->
  exists s, sub s l /\ Forall (fun v => P v /\ Q v) s /\ wsum s1 + wsum s2 <= wsum l + wsum s.
Proof.
  intros H1. revert s2. induction H1 as [|x s1 l H1 IH|x s1 l H1 IH]; intros s2 H2 F1 F2.
  - inversion H2; subst. exists []. split; [constructor|]. split; [constructor|cbn; lia].
  - inversion F1; subst. inversion H2; subst.
    + inversion F2; subst. destruct (IH _ ltac:(eassumption) ltac:(assumption) ltac:(assumption)) as (sm&A&B&C).
      exists (x :: sm). split; [constructor; exact A|]. split; [constructor; auto|cbn in *; lia].
    + destruct (IH _ ltac:(eassumption) ltac:(assumption) ltac:(assumption)) as (sm&A&B&C).
      exists sm. split; [constructor; exact A|]. split; [exact B|cbn in *; lia].
  - inversion H2; subst.
    + inversion F2; subst. destruct (IH _ ltac:(eassumption) ltac:(assumption) ltac:(assumption)) as (sm&A&B&C).
      exists sm. split; [constructor; exact A|]. split; [exact B|cbn in *; lia].
    + destruct (IH _ ltac:(eassumption) ltac:(assumption) ltac:(assumption)) as (sm&A&B&C).
      exists sm. split; [constructor; exact A|]. split; [exact B|cbn in *; lia].
Qed.

Lemma total_weight_sum l : forall a t, total_weight a l = Some t -> t = a + wsum l.
Proof.
  induction l as [|v l IH]; cbn; intros a t E; [injection E as <-; lia|].
  unfold cadd64 in E. destruct (a + vd_weight v <=? u64max); [|discriminate]. rewrite (IH _ _ E). lia.
Qed.
Lemma total_weight_ok l : forall a, a + wsum l <= u64max -> total_weight a l = Some (a + wsum l).
Proof.
  induction l as [|v l IH]; cbn; intros a H; [f_equal; lia|].
  unfold cadd64. replace (a + vd_weight v <=? u64max) with true by (cbn in *; lia). rewrite IH by (cbn in *; lia). f_equal. cbn. lia.
Qed.
Lemma count_values_ok d : forall e c, c + N.of_nat (length d) = e -> Forall (fun x => x <> None) d ->
  count_values e c d = Some e.
Proof.
  induction d as [|x d IH]; cbn; intros e c H F; [f_equal; lia|]. inversion F; subst. destruct x as [x|]; [|contradiction].
  replace (c + N.pos (Pos.of_succ_nat (length d)) <? c + 1) with false by lia. apply IH; [lia|assumption].
Qed.
Lemma count_values_exact d : forall e c, c <= e -> count_values e c d = Some e -> c + N.of_nat (length d) = e.
Proof.
  induction d as [|x d IH]; cbn; intros e c H E; [injection E as <-; lia|]. destruct x as [x|]; [|discriminate].
  destruct (e <? c + 1) eqn:El; [injection E as E; lia|]. specialize (IH e (c + 1) ltac:(lia) E). lia.
Qed.

Section Props.
Variable body : N -> bbody.
Variable ext_check : list vdesc -> list (N * N) -> N * N -> option N.
Variable ext_subset : vset -> N -> bool -> option (list vdesc * N).
Variable sh_full sh_can_split : N -> bool.
Variable signed : N -> N * N -> Prop.

Notation pre_check := (pre_check body sh_full sh_can_split).
Notation check_with_key := (check_with_key body ext_check ext_subset sh_full sh_can_split).
Notation check_with_state := (check_with_state body ext_check ext_subset).
Notation accepted := (accepted body ext_check ext_subset sh_full sh_can_split).
Notation check_signatures := (check_signatures ext_check).
Notation info_of := (info_of body).
Notation quorum_signed := (quorum_signed signed).

(** What a successful pre-check establishes. *)
Theorem pre_check_sound p i : pre_check p = Some i ->
  i = bb_info (body (id_root (pf_id p))) /\ pf_vroot p = id_root (pf_id p) /\
  bi_version i = 0 /\ bi_seqno i = id_seq (pf_id p) /\ bi_wc i = id_wc (pf_id p) /\ bi_pfx i = id_pfx (pf_id p) /\
  bi_master_ref i = negb (bid_mc (pf_id p)) /\
  (bid_mc (pf_id p) = true -> bi_after_merge i = false /\ bi_before_split i = false /\ bi_after_split i = false) /\
  (bi_key i = true -> bid_mc (pf_id p) = true) /\
  (pf_sigs p <> None -> bid_mc (pf_id p) = true).
Proof.
  unfold BProofModel.pre_check. intros E.
  repeat match type of E with
  | (if negb ?c then None else _) = _ => let H := fresh "C" in destruct c eqn:H; cbn [negb] in E; [|discriminate E]
  end.
  injection E as <-. apply N.eqb_eq in C0. rewrite C0 in *.
  apply N.eqb_eq in C2, C3. apply andb_true_iff in C4. destruct C4 as [C4 C4'].
  apply Z.eqb_eq in C4. apply N.eqb_eq in C4'. unfold bid_mc in *.
  split; [reflexivity|]. split; [reflexivity|]. split; [exact C2|]. split; [exact C3|]. split; [exact C4|]. split; [exact C4'|].
  apply Bool.eqb_prop in C5. rewrite C4 in C5.
  split; [rewrite <- C5; symmetry; apply negb_involutive|]. split; [|split].
  - intros H. rewrite H in C6. cbn in C6. apply andb_true_iff in C6. destruct C6 as [C6 C6'']. apply andb_true_iff in C6.
    rewrite !negb_true_iff in C6. rewrite negb_true_iff in C6''. tauto.
  - intros H. rewrite H in C10. exact C10.
  - intros H. destruct (pf_sigs p); [|contradiction]. rewrite orb_false_r in C. exact C.
Qed.

(** ** C51: what the signature check guarantees, and when it succeeds *)
Lemma check_signatures_quorum p sub0 vs : check_contract ext_check signed ->
  Permutation (fst sub0) (mc_members vs) -> check_signatures p sub0 = true -> quorum_signed vs (data_of p).
Proof.
  intros Hc Hp H. unfold BProofModel.check_signatures in H. destruct (pf_sigs p) as [s|]; [|discriminate].
  apply andb_true_iff in H. destruct H as [_ H].
  destruct (count_values (sg_count s) 0 (sg_dict s)) as [n|]; [|discriminate].
  apply andb_true_iff in H. destruct H as [_ H].
  destruct (total_weight 0 (fst sub0)) as [tot|] eqn:Et; [|discriminate].
  destruct (all_some (sg_dict s)) as [d|]; [|discriminate].
  destruct (ext_check (fst sub0) d (id_root (pf_id p), id_file (pf_id p))) as [w|] eqn:Ew; [|discriminate].
  apply andb_true_iff in H. destruct H as [_ H].
  unfold cmul64 in H. destruct (w * 3 <=? u64max); [|discriminate]. destruct (tot * 2 <=? u64max); [|discriminate].
  apply N.ltb_lt in H. destruct (Hc _ _ _ _ Ew) as (t&A&B&->).
  apply total_weight_sum in Et. destruct (sub_perm _ _ _ A Hp) as (t'&A'&Pt). exists t'. split; [exact A'|]. split.
  - unfold data_of. rewrite Forall_forall in *. intros v Hv. apply B. eapply Permutation_in; [symmetry; exact Pt|exact Hv].
  - rewrite <- (wsum_perm _ _ Pt), <- (wsum_perm _ _ Hp). lia.
Qed.

(** A masterchain proof accepted against a key block is signed by more than two
    thirds of the validator set of that key block, which is the one named by the
    signed block itself. *)
Theorem key_check_quorum p kp i : check_contract ext_check signed -> subset_contract ext_subset ->
  pre_check p = Some i -> check_with_key p kp i = true ->
  exists vs, block_vset body (data_of kp) = Some vs /\ quorum_signed vs (data_of p) /\
    bi_key (info_of (data_of kp)) = true /\
    id_seq (pf_id kp) = bi_prev_key (info_of (data_of p)) /\
    bi_seqno (info_of (data_of kp)) = id_seq (pf_id kp) /\ id_seq (pf_id kp) < id_seq (pf_id p).
Proof.
  intros Hc Hs Hp H. unfold BProofModel.check_with_key in H.
  rewrite !andb_true_iff in H. destruct H as ((((H1&H2)&H3)&H4)&H5).
  destruct (pre_check_sound _ _ Hp) as (Ei&Ev&_&Es&_).
  unfold subset_from_key in H5. destruct (BProofModel.pre_check body sh_full sh_can_split kp) as [ki|] eqn:Ek; [|discriminate].
  destruct (pre_check_sound _ _ Ek) as (Eki&Ekv&_&Eks&_).
  destruct (bi_key ki) eqn:Ekey; cbn [negb] in H5; [|discriminate].
  destruct (config_of body kp) as [c|] eqn:Ec; [|discriminate].
  destruct (vset_of c) as [[v sh]|] eqn:Evs; [|discriminate].
  unfold calc_subset in H5. destruct (pf_sigs p) as [s|] eqn:Esg; [|discriminate].
  destruct (ext_subset v (if bi_create_stats i then sg_catchain s else sg_vset_round s) sh) as [sb|] eqn:Eb; [|discriminate].
  apply andb_true_iff in H5. destruct H5 as [_ H5].
  exists v. split; [|split; [|split; [|split; [|split]]]].
  - unfold block_vset, data_of. cbn [fst]. unfold config_of in Ec. rewrite <- Ekv.
    destruct (pf_has_extra kp); [|discriminate]. destruct (bb_extra (body (pf_vroot kp))) as [[c'|]|]; try discriminate.
    injection Ec as ->. unfold vset_of in Evs. destruct (bc_vset c); [|discriminate]. destruct (bc_shuffle c); [|discriminate].
    injection Evs as -> _. reflexivity.
  - eapply check_signatures_quorum; eauto. destruct sb as [l h]. eapply Hs; eauto.
  - unfold BProofSpec.info_of, data_of. cbn [fst]. rewrite <- Eki. exact Ekey.
  - unfold BProofSpec.info_of, data_of. cbn [fst]. rewrite <- Ei. lia.
  - unfold BProofSpec.info_of, data_of. cbn [fst]. rewrite <- Eki. exact Eks.
  - lia.
Qed.

Theorem state_check_quorum p z i : check_contract ext_check signed -> subset_contract ext_subset ->
  pre_check p = Some i -> check_with_state p z i = true ->
  exists vs, state_vset z = Some vs /\ quorum_signed vs (data_of p) /\
    bid_mc (pf_id p) = true /\ bi_prev_key (info_of (data_of p)) <= id_seq (ms_id z) /\ id_seq (ms_id z) < id_seq (pf_id p).
Proof.
  intros Hc Hs Hp H. unfold BProofModel.check_with_state in H. apply andb_true_iff in H. destruct H as [_ H].
  destruct (pre_check_sound _ _ Hp) as (Ei&Ev&_&Es&_).
  unfold subset_from_state in H. destruct (bid_mc (ms_id z)); cbn [negb] in H; [|discriminate].
  destruct (bid_mc (pf_id p)) eqn:Em; cbn [negb] in H; [|discriminate].
  destruct (bi_prev_key i <=? id_seq (ms_id z)) eqn:El; cbn [negb] in H; [|discriminate].
  destruct (id_seq (ms_id z) <? id_seq (pf_id p)) eqn:El2; cbn [negb] in H; [|discriminate].
  unfold state_vset. destruct (ms_config z) as [c|]; [|discriminate].
  destruct (vset_of c) as [[v sh]|] eqn:Evs; [|discriminate].
  unfold calc_subset in H. destruct (pf_sigs p) as [s|] eqn:Esg; [|discriminate].
  destruct (ext_subset v (if bi_create_stats i then sg_catchain s else sg_vset_round s) sh) as [sb|] eqn:Eb; [|discriminate].
  exists v. split; [|split; [|split; [|split]]].
  - unfold vset_of in Evs. destruct (bc_vset c); [|discriminate]. destruct (bc_shuffle c); [|discriminate].
    injection Evs as -> _. reflexivity.
  - eapply check_signatures_quorum; eauto. destruct sb as [l h]. eapply Hs; eauto.
  - reflexivity.
  - unfold BProofSpec.info_of, data_of. cbn [fst]. rewrite <- Ei. lia.
  - lia.
Qed.

(** Completeness of the weight rule: signatures whose weight passes two thirds
    are accepted, provided the weights do not overflow u64 when tripled. *)
Theorem quorum_is_enough p l h s dict w :
  pf_sigs p = Some s -> sg_short s = h -> sg_dict s = map Some dict ->
  sg_count s = N.of_nat (length dict) -> ext_check l dict (data_of p) = Some w -> sg_weight s = w ->
  2 * wsum l < 3 * w -> w <= wsum l -> 3 * wsum l <= u64max -> check_signatures p (l, h) = true.
Proof.
  intros Es Eh Ed Ec Ew Eg Hw Hl Hu. unfold BProofModel.check_signatures. rewrite Es, Ed, Ec, Eh, Eg. cbn [fst snd].
  rewrite N.eqb_refl. cbn [andb]. rewrite count_values_ok.
  - rewrite N.eqb_refl. cbn [andb]. rewrite total_weight_ok by lia.
    assert (A : forall d : list (N * N), all_some (map Some d) = Some d) by (induction d as [|x d IH]; cbn; [reflexivity|rewrite IH; reflexivity]).
    rewrite A. unfold data_of in Ew. rewrite Ew. rewrite N.eqb_refl. cbn [andb].
    unfold cmul64. replace (w * 3 <=? u64max) with true by lia. replace ((0 + wsum l) * 2 <=? u64max) with true by lia. lia.
  - rewrite map_length. lia.
  - clear. induction dict; cbn; constructor; auto; discriminate.
Qed.

(** Accountability: two blocks accepted under one validator set are both signed
    by validators with more than a third of its weight. *)
Theorem double_sign_third vs d1 d2 : quorum_signed vs d1 -> quorum_signed vs d2 ->
  exists s, sub s (mc_members vs) /\ Forall (fun v => signed (vd_key v) d1 /\ signed (vd_key v) d2) s /\
            wsum (mc_members vs) < 3 * wsum s.
Proof.
  intros (s1&A1&B1&C1) (s2&A2&B2&C2). destruct (sub_meet _ _ _ A1 A2 B1 B2) as (s&A&B&C).
  exists s. split; [exact A|]. split; [exact B|lia].
Qed.

Lemma honest_common vs d1 d2 : mostly_honest body signed vs -> quorum_signed vs d1 -> quorum_signed vs d2 ->
  ~ ~ (one_history body d1 d2 /\ one_history body d2 d1).
Proof.
  intros Hm H1 H2 N1. destruct (double_sign_third _ _ _ H1 H2) as (s&A&B&C).
  assert (D : Forall (fun v => ~ honest body signed (vd_key v)) s).
  { rewrite Forall_forall in *. intros v Hv Hh. destruct (B v Hv) as [S1 S2]. apply N1. split; apply Hh; assumption. }
  specialize (Hm s A D). lia.
Qed.

Lemma one_history_stable d1 d2 : ~ ~ one_history body d1 d2 -> one_history body d1 d2.
Proof.
  intros H. split.
  - intros E. destruct (N.eq_dec (fst d1) (fst d2)) as [E1|N1]; [destruct (N.eq_dec (snd d1) (snd d2)) as [E2|N2]|].
    + destruct d1, d2; cbn in *; congruence.
    + exfalso. apply H. intros [X _]. apply N2. rewrite (X E). reflexivity.
    + exfalso. apply H. intros [X _]. apply N1. rewrite (X E). reflexivity.
  - intros K L. destruct (N.le_gt_cases (bi_seqno (info_of d1)) (bi_prev_key (info_of d2))) as [G|G]; [exact G|].
    exfalso. apply H. intros [_ X]. specialize (X K L). lia.
Qed.

(** ** C52: no two accepted chains disagree *)
(** The parent of an accepted proof. *)
Lemma accepted_inv z p : check_contract ext_check signed -> subset_contract ext_subset -> accepted z p ->
  bid_mc (pf_id p) = true /\ bi_seqno (info_of (data_of p)) = id_seq (pf_id p) /\
  id_wc (pf_id p) = bi_wc (info_of (data_of p)) /\ id_pfx (pf_id p) = bi_pfx (info_of (data_of p)) /\
  id_seq (ms_id z) < id_seq (pf_id p) /\
  ((exists vs, state_vset z = Some vs /\ quorum_signed vs (data_of p) /\ bi_prev_key (info_of (data_of p)) = id_seq (ms_id z)) \/
   exists kp vs, accepted z kp /\ block_vset body (data_of kp) = Some vs /\ quorum_signed vs (data_of p) /\
     bi_key (info_of (data_of kp)) = true /\ id_seq (pf_id kp) = bi_prev_key (info_of (data_of p)) /\
     id_seq (pf_id kp) < id_seq (pf_id p)).
Proof.
  intros Hc Hs H. induction H as [p i Hp Hk Hchk|p kp i Hkp IH Hp Hchk].
  - destruct (pre_check_sound _ _ Hp) as (Ei&_&_&Es&Ew&Ex&_). destruct (state_check_quorum _ _ _ Hc Hs Hp Hchk) as (vs&A&B&C&D&E).
    assert (F : info_of (data_of p) = i) by (symmetry; exact Ei).
    rewrite F. split; [exact C|]. split; [exact Es|]. split; [auto|]. split; [auto|]. split; [exact E|].
    left. exists vs. auto.
  - destruct (pre_check_sound _ _ Hp) as (Ei&_&_&Es&Ew&Ex&_). destruct (key_check_quorum _ _ _ Hc Hs Hp Hchk) as (vs&A&B&C&D&E&G).
    assert (F : info_of (data_of p) = i) by (symmetry; exact Ei).
    destruct IH as (_&_&_&_&IH&_).
    split; [unfold BProofModel.check_with_key in Hchk; rewrite !andb_true_iff in Hchk; tauto|].
    split; [rewrite F; exact Es|]. split; [rewrite F; auto|]. split; [rewrite F; auto|]. split; [lia|].
    right. exists kp, vs. tauto.
Qed.

Variable z : mstate.
Hypothesis Hc : check_contract ext_check signed.
Hypothesis Hs : subset_contract ext_subset.
Hypothesis Hz : forall vs, state_vset z = Some vs -> mostly_honest body signed vs.
Hypothesis Hk : forall kp vs, accepted z kp -> block_vset body (data_of kp) = Some vs -> mostly_honest body signed vs.

Lemma histories_agree n : forall p q, accepted z p -> accepted z q ->
  (N.to_nat (id_seq (pf_id p)) + N.to_nat (id_seq (pf_id q)) < n)%nat ->
  one_history body (data_of p) (data_of q).
Proof.
  induction n as [|n IH]; intros p q Ap Aq Hn; [lia|].
  destruct (accepted_inv z p Hc Hs Ap) as (_&Sp&_&_&Zp&Pp).
  destruct (accepted_inv z q Hc Hs Aq) as (_&Sq&_&_&Zq&Pq).
  assert (Same : forall vs, mostly_honest body signed vs -> quorum_signed vs (data_of p) -> quorum_signed vs (data_of q) ->
                 one_history body (data_of p) (data_of q)).
  { intros vs M Q1 Q2. apply one_history_stable. intros X. apply (honest_common vs _ _ M Q1 Q2). tauto. }
  (* the side whose parent is the newer key block *)
  assert (Left : forall kp vs, accepted z kp -> quorum_signed vs (data_of p) ->
            bi_key (info_of (data_of kp)) = true -> id_seq (pf_id kp) = bi_prev_key (info_of (data_of p)) ->
            id_seq (pf_id kp) < id_seq (pf_id p) -> bi_prev_key (info_of (data_of q)) < id_seq (pf_id kp) ->
            one_history body (data_of p) (data_of q)).
  { intros kp vs Ak Q K Ek Lk Lq. destruct (accepted_inv z kp Hc Hs Ak) as (_&Sk&_).
    assert (O := IH kp q Ak Aq ltac:(lia)). assert (Bd : id_seq (pf_id q) <= id_seq (pf_id kp)).
    { destruct (N.le_gt_cases (id_seq (pf_id q)) (id_seq (pf_id kp))) as [L|L]; [exact L|].
      destruct O as [_ O]. specialize (O K ltac:(lia)). lia. }
    split; [intros X; lia|]. intros _ X. lia. }
  assert (Right : forall kq vs, accepted z kq -> quorum_signed vs (data_of q) ->
            bi_key (info_of (data_of kq)) = true -> id_seq (pf_id kq) = bi_prev_key (info_of (data_of q)) ->
            id_seq (pf_id kq) < id_seq (pf_id q) -> bi_prev_key (info_of (data_of p)) < id_seq (pf_id kq) ->
            one_history body (data_of p) (data_of q)).
  { intros kq vs Ak Q K Ek Lk Lq. destruct (accepted_inv z kq Hc Hs Ak) as (_&Sk&_).
    assert (O := IH kq p Ak Ap ltac:(lia)). assert (Bd : id_seq (pf_id p) <= id_seq (pf_id kq)).
    { destruct (N.le_gt_cases (id_seq (pf_id p)) (id_seq (pf_id kq))) as [L|L]; [exact L|].
      destruct O as [_ O]. specialize (O K ltac:(lia)). lia. }
    split; [intros X; lia|]. intros _ X. lia. }
  destruct Pp as [(vs&A1&A2&A3)|(kp&vs&A1&A2&A3&A4&A5&A6)]; destruct Pq as [(vq&B1&B2&B3)|(kq&vq&B1&B2&B3&B4&B5&B6)].
  - assert (vq = vs) by congruence. subst vq. exact (Same vs (Hz _ A1) A2 B2).
  - destruct (accepted_inv z kq Hc Hs B1) as (_&_&_&_&Zk&_). apply (Right kq vq B1 B3 B4 B5 B6). lia.
  - destruct (accepted_inv z kp Hc Hs A1) as (_&_&_&_&Zk&_). apply (Left kp vs A1 A3 A4 A5 A6). lia.
  - destruct (N.lt_trichotomy (id_seq (pf_id kp)) (id_seq (pf_id kq))) as [L|[E|L]].
    + apply (Right kq vq B1 B3 B4 B5 B6). lia.
    + assert (O := IH kp kq A1 B1 ltac:(lia)).
      destruct (accepted_inv z kp Hc Hs A1) as (_&Sk&_). destruct (accepted_inv z kq Hc Hs B1) as (_&Sk2&_).
      assert (D : data_of kp = data_of kq) by (apply O; lia).
      rewrite D in A2. assert (vq = vs) by congruence. subst vq. exact (Same vs (Hk _ _ B1 B2) A3 B3).
    + apply (Left kp vs A1 A3 A4 A5 A6). lia.
Qed.

(** No fork: with at most a third of the weight of every validator set in play
    dishonest, two accepted masterchain proofs with the same seqno are for the
    same block, whatever chains of key blocks they were checked with. *)
Theorem no_fork p q : accepted z p -> accepted z q -> id_seq (pf_id p) = id_seq (pf_id q) -> pf_id p = pf_id q.
Proof.
  intros Ap Aq E. assert (O := histories_agree _ p q Ap Aq (Nat.lt_succ_diag_r _)).
  destruct (accepted_inv z p Hc Hs Ap) as (Mp&Sp&Wp&Xp&_). destruct (accepted_inv z q Hc Hs Aq) as (Mq&Sq&Wq&Xq&_).
  assert (D : data_of p = data_of q) by (apply O; lia).
  rewrite D in Wp, Xp. injection D as D1 D2. destruct (pf_id p), (pf_id q). cbn in *. congruence.
Qed.

(** A key block is never skipped: an accepted block after an accepted key block
    names that key block or a later one as its previous key block. *)
Theorem no_key_block_skipped p q : accepted z p -> accepted z q -> bi_key (info_of (data_of p)) = true ->
  id_seq (pf_id p) < id_seq (pf_id q) -> id_seq (pf_id p) <= bi_prev_key (info_of (data_of q)).
Proof.
  intros Ap Aq K L. assert (O := histories_agree _ p q Ap Aq (Nat.lt_succ_diag_r _)).
  destruct (accepted_inv z p Hc Hs Ap) as (_&Sp&_). destruct (accepted_inv z q Hc Hs Aq) as (_&Sq&_).
  destruct O as [_ O]. rewrite <- Sp. apply O; [exact K|lia].
Qed.
End Props.
