(** * ProofChecker: theorems (C52) and a concrete chain. *)
From Coq Require Import List NArith ZArith Bool Lia Permutation ZifyN ZifyBool.
From Verif Require Import BProofModel BProofSpec BProofProps.
Import ListNotations.
Open Scope N_scope.

Lemma bid_eqb_spec a b : bid_eqb a b = true <-> a = b.
Proof.
  unfold bid_eqb. rewrite !andb_true_iff, !N.eqb_eq, Z.eqb_eq. destruct a, b; cbn. split.
  - intros ((((->&->)&->)&->)&->). reflexivity.
  - intros E. injection E as -> -> -> -> ->. auto.
Qed.

Section Checker.
Variable body : N -> bbody.
Variable ext_check : list vdesc -> list (N * N) -> N * N -> option N.
Variable ext_subset : vset -> N -> bool -> option (list vdesc * N).
Variable sh_full sh_can_split : N -> bool.
Notation accepted := (accepted body ext_check ext_subset sh_full sh_can_split).
Notation check_proof := (check_proof body ext_check ext_subset sh_full sh_can_split).

(** The storage of a node started from zerostate [z]: the key block table holds
    the zerostate under its own seqno and, otherwise, blocks whose stored
    proofs were accepted. *)
Definition store_ok (z : mstate) (st : cstore) : Prop :=
  cs_zs_seq st = id_seq (ms_id z) /\
  (forall b s, cs_zs st b = Some s -> s = z) /\
  (forall n k, cs_keys st n = Some k -> id_seq k = n) /\
  (forall k kp, cs_proof st k = Some kp -> pf_id kp = k /\ accepted z kp).

(** The caches of the checker. *)
Definition checker_ok (z : mstate) (k : checker) : Prop :=
  (forall n, ck_zs_seq k = Some n -> n = id_seq (ms_id z)) /\
  (forall s, ck_zs k = Some s -> s = z) /\
  (forall kp, ck_key k = Some kp -> accepted z kp).

Lemma checker0_ok z : checker_ok z checker0.
Proof. split; [|split]; intros ? X; discriminate X. Qed.

(** A masterchain proof that the checker lets pass is accepted (its chain of
    key blocks leads to the zerostate), it is the proof of the given block and
    carries the hash of the given queue diff; the caches stay sound. *)
Theorem check_proof_sound z st k blk diff p ok k' : store_ok z st -> checker_ok z k ->
  check_proof st k blk diff p = (ok, k') ->
  checker_ok z k' /\
  (ok = true -> pf_id p = blk /\ bb_diff (body (id_root blk)) = diff /\ (bid_mc blk = true -> accepted z p)).
Proof.
  intros (S1&S2&S3&S4) (K1&K2&K3) E. unfold BProofModel.check_proof in E.
  assert (Kok : checker_ok z k) by (split; [|split]; assumption).
  destruct (bid_eqb blk (pf_id p)) eqn:Eb; cbn [negb] in E; [|injection E as <- <-; split; [exact Kok|discriminate]].
  apply bid_eqb_spec in Eb. subst blk.
  destruct (xorb (bid_mc (pf_id p)) (negb (bid_mc (pf_id p)))); cbn [negb] in E; [|injection E as <- <-; split; [exact Kok|discriminate]].
  destruct (pre_check body sh_full sh_can_split p) as [i|] eqn:Ep; [|injection E as <- <-; split; [exact Kok|discriminate]].
  destruct (bb_diff (body (pf_vroot p)) =? diff) eqn:Ed; cbn [negb] in E; [|injection E as <- <-; split; [exact Kok|discriminate]].
  apply N.eqb_eq in Ed. destruct (pre_check_sound _ _ _ _ _ Ep) as (Ei&Ev&_). rewrite Ev in Ed.
  destruct (bid_mc (pf_id p)) eqn:Em.
  2: { injection E as <- <-. split; [exact Kok|]. intros _. split; [reflexivity|]. split; [exact Ed|discriminate]. }
  destruct (cs_keys st (bi_prev_key i)) as [kid|] eqn:Ek; [|injection E as <- <-; split; [exact Kok|discriminate]].
  set (zseq := match ck_zs_seq k with Some n => n | None => cs_zs_seq st end) in *.
  assert (Hz : zseq = id_seq (ms_id z)).
  { unfold zseq. destruct (ck_zs_seq k) as [n|] eqn:En; [exact (K1 _ eq_refl)|exact S1]. }
  assert (K1ok : checker_ok z (Ck (Some zseq) (ck_zs k) (ck_key k))).
  { split; [|split]; cbn; auto. intros n X. injection X as <-. exact Hz. }
  cbn [ck_zs ck_key ck_zs_seq] in E.
  destruct (id_seq kid =? zseq) eqn:Eq.
  - destruct (match ck_zs k with Some z0 => Some z0 | None => cs_zs st kid end) as [s|] eqn:Es;
      [|injection E as <- <-; split; [exact K1ok|discriminate]].
    assert (s = z). { destruct (ck_zs k) as [s0|] eqn:E0; [injection Es as <-; exact (K2 _ eq_refl)|exact (S2 _ _ Es)]. }
    subst s. injection E as <- <-. split.
    + split; [|split]; cbn; auto. * intros n X. injection X as <-. exact Hz. * intros s X. congruence.
    + intros Hc. split; [reflexivity|]. split; [exact Ed|]. intros _. apply (acc_state _ _ _ _ _ z p i Ep); [|exact Hc].
      rewrite <- (S3 _ _ Ek). lia.
  - destruct (match ck_key k with Some kp => if bid_eqb (pf_id kp) kid then Some kp else cs_proof st kid | None => cs_proof st kid end) as [kp|] eqn:Es;
      [|injection E as <- <-; split; [exact K1ok|discriminate]].
    assert (Akp : accepted z kp).
    { destruct (ck_key k) as [kp0|] eqn:E0.
      - destruct (bid_eqb (pf_id kp0) kid); [injection Es as <-; exact (K3 _ eq_refl)|exact (proj2 (S4 _ _ Es))].
      - exact (proj2 (S4 _ _ Es)). }
    injection E as <- <-. split.
    + split; [|split]; cbn; auto. * intros n X. injection X as <-. exact Hz. * intros q X. congruence.
    + intros Hc. split; [reflexivity|]. split; [exact Ed|]. intros _. exact (acc_key _ _ _ _ _ z p kp i Akp Ep Hc).
Qed.

(** The caches never change a verdict, given that the proof stored for a block
    does not change. *)
Definition cache_current (st : cstore) (k : checker) : Prop :=
  (forall n, ck_zs_seq k = Some n -> n = cs_zs_seq st) /\
  (forall s kid, ck_zs k = Some s -> id_seq kid = cs_zs_seq st -> cs_zs st kid = Some s) /\
  (forall kp, ck_key k = Some kp -> cs_proof st (pf_id kp) = Some kp).

Theorem check_proof_cache_transparent st k blk diff p : cache_current st k ->
  fst (check_proof st k blk diff p) = fst (check_proof st checker0 blk diff p).
Proof.
  intros (C1&C2&C3). unfold BProofModel.check_proof.
  destruct (bid_eqb blk (pf_id p)); cbn [negb]; [|reflexivity].
  destruct (xorb (bid_mc blk) (negb (bid_mc (pf_id p)))); cbn [negb]; [|reflexivity].
  destruct (pre_check body sh_full sh_can_split p) as [i|]; [|reflexivity].
  destruct (bb_diff (body (pf_vroot p)) =? diff); cbn [negb]; [|reflexivity].
  destruct (bid_mc blk); [|reflexivity].
  destruct (cs_keys st (bi_prev_key i)) as [kid|]; [|reflexivity]. cbn [ck_zs_seq ck_zs ck_key checker0].
  assert (Hz : match ck_zs_seq k with Some n => n | None => cs_zs_seq st end = cs_zs_seq st).
  { destruct (ck_zs_seq k) as [n|] eqn:E; [exact (C1 _ eq_refl)|reflexivity]. }
  rewrite Hz. destruct (id_seq kid =? cs_zs_seq st) eqn:Eq.
  - destruct (ck_zs k) as [s|] eqn:E.
    + rewrite (C2 s kid eq_refl ltac:(lia)). reflexivity.
    + destruct (cs_zs st kid); reflexivity.
  - destruct (ck_key k) as [kp|] eqn:E.
    + destruct (bid_eqb (pf_id kp) kid) eqn:Eb.
      * apply bid_eqb_spec in Eb. subst kid. rewrite (C3 _ eq_refl). reflexivity.
      * destruct (cs_proof st kid); reflexivity.
    + destruct (cs_proof st kid); reflexivity.
Qed.

(** Histories of a node: proofs are checked one after another, masterchain
    proofs that pass may be stored as proofs of their block. *)
Inductive node (z : mstate) : cstore -> checker -> list bproof -> Prop :=
| node0 : forall st, store_ok z st -> (forall b, cs_proof st b = None) -> node z st checker0 []
| node_check : forall st k acc blk diff p k', node z st k acc ->
    check_proof st k blk diff p = (true, k') -> bid_mc blk = true -> node z st k' (p :: acc)
| node_reject : forall st k acc blk diff p k', node z st k acc ->
    check_proof st k blk diff p = (false, k') -> node z st k' acc
| node_store : forall st k acc p, node z st k acc -> In p acc ->
    node z (Cs (fun n => if (n =? id_seq (pf_id p)) && bi_key (bb_info (body (id_root (pf_id p)))) then Some (pf_id p) else cs_keys st n)
               (fun b => if bid_eqb b (pf_id p) then Some p else cs_proof st b)
               (cs_zs_seq st) (cs_zs st)) k acc.

Theorem node_accepts_only_accepted z st k acc : node z st k acc ->
  store_ok z st /\ checker_ok z k /\ Forall (accepted z) acc.
Proof.
  intros H. induction H as [st Hs Hn|st k acc blk diff p k' H IH E M|st k acc blk diff p k' H IH E|st k acc p H IH Hin].
  - split; [exact Hs|]. split; [apply checker0_ok|constructor].
  - destruct IH as (A&B&C). destruct (check_proof_sound _ _ _ _ _ _ _ _ A B E) as [D F].
    split; [exact A|]. split; [exact D|]. constructor; [|exact C]. apply F; auto.
  - destruct IH as (A&B&C). destruct (check_proof_sound _ _ _ _ _ _ _ _ A B E) as [D F]. auto.
  - destruct IH as ((A1&A2&A3&A4)&B&C). split; [|auto]. split; [exact A1|]. split; [exact A2|]. split; cbn.
    + intros n kid E. destruct ((n =? id_seq (pf_id p)) && _) eqn:En; [|exact (A3 _ _ E)].
      injection E as <-. apply andb_true_iff in En. lia.
    + intros b kp E. destruct (bid_eqb b (pf_id p)) eqn:Eb; [|exact (A4 _ _ E)].
      injection E as <-. apply bid_eqb_spec in Eb. split; [auto|]. rewrite Forall_forall in C. exact (C _ Hin).
Qed.

(** Two nodes started from the same zerostate never let pass proofs of two
    different masterchain blocks with the same seqno. *)
Theorem nodes_agree signed z st1 k1 acc1 st2 k2 acc2 p q :
  check_contract ext_check signed -> subset_contract ext_subset ->
  (forall vs, state_vset z = Some vs -> mostly_honest body signed vs) ->
  (forall kp vs, accepted z kp -> block_vset body (data_of kp) = Some vs -> mostly_honest body signed vs) ->
  node z st1 k1 acc1 -> node z st2 k2 acc2 -> In p acc1 -> In q acc2 ->
  id_seq (pf_id p) = id_seq (pf_id q) -> pf_id p = pf_id q.
Proof.
  intros Hc Hs Hz Hk N1 N2 I1 I2 E.
  destruct (node_accepts_only_accepted _ _ _ _ N1) as (_&_&F1). destruct (node_accepts_only_accepted _ _ _ _ N2) as (_&_&F2).
  rewrite Forall_forall in F1, F2. eapply no_fork; eauto.
Qed.
End Checker.

(** ** A concrete chain: zerostate, key block 1 that changes the validator set,
    block 2 checked with it. *)
Definition xbody (h : N) : bbody :=
  match h with
  | 101 => Bb (Bi 0 1 (-1) 8 false false false false true 0 false)
              (Some (Some (Bc (Some (Vset [Vd 4 10; Vd 5 10] 2 0)) (Some false) true))) 1001
  | 102 => Bb (Bi 0 2 (-1) 8 false false false false false 1 false) None 1002
  | _ => Bb (Bi 9 0 0 0 false false false false false 0 false) None 0
  end.
Definition xsigned (k : N) (d : N * N) : Prop :=
  (d = (101, 201) /\ (k = 1 \/ k = 2)) \/ (d = (102, 202) /\ (k = 4 \/ k = 5)).
Definition xcheck (l : list vdesc) (dict : list (N * N)) (d : N * N) : option N :=
  Some (wsum (filter (fun v => if fst d =? 101 then (snd d =? 201) && ((vd_key v =? 1) || (vd_key v =? 2))
                               else (fst d =? 102) && (snd d =? 202) && ((vd_key v =? 4) || (vd_key v =? 5))) l)).
Definition xsubset (v : vset) (r : N) (sh : bool) : option (list vdesc * N) := Some (mc_members v, 77).
Definition xz : mstate := Ms (Bid (-1) 8 0 100 200) (Some (Bc (Some (Vset [Vd 1 10; Vd 2 10; Vd 3 7] 3 0)) (Some false) true)) 5.
Definition xp1 : bproof := Bpf (Bid (-1) 8 1 101 201) 101 true true true (Some (Bs 77 0 0 0 2 20 [Some (1, 0); Some (2, 0)])).
Definition xp2 : bproof := Bpf (Bid (-1) 8 2 102 202) 102 true true false (Some (Bs 77 0 0 0 2 20 [Some (4, 0); Some (5, 0)])).

Lemma filter_sub {A} (f : A -> bool) l : sub (filter f l) l.
Proof. induction l as [|x l IH]; cbn; [constructor|]. destruct (f x); constructor; exact IH. Qed.

Lemma xcheck_contract : check_contract xcheck xsigned.
Proof.
  intros l d data w E. unfold xcheck in E. injection E as <-. eexists. split; [apply filter_sub|]. split; [|reflexivity].
  apply Forall_forall. intros v Hv. apply filter_In in Hv. destruct Hv as [_ Hv]. destruct data as [a b]. cbn [fst snd] in Hv.
  unfold xsigned. destruct (a =? 101) eqn:E1.
  - left. apply N.eqb_eq in E1. subst a. apply andb_true_iff in Hv. destruct Hv as [H1 H2]. apply N.eqb_eq in H1. subst b.
    split; [reflexivity|]. apply orb_true_iff in H2. rewrite !N.eqb_eq in H2. exact H2.
  - right. rewrite !andb_true_iff in Hv. destruct Hv as [[H1 H2] H3]. apply N.eqb_eq in H1, H2. subst.
    split; [reflexivity|]. apply orb_true_iff in H3. rewrite !N.eqb_eq in H3. exact H3.
Qed.

Lemma xsubset_contract : subset_contract xsubset.
Proof. intros vs r sh l h E. injection E as <- _. reflexivity. Qed.

Lemma xhonest k : honest xbody xsigned k.
Proof.
  intros d1 d2 [(->&H1)|(->&H1)] [(->&H2)|(->&H2)]; split; cbn; intros; try reflexivity; try discriminate; try lia; exfalso; lia.
Qed.

Lemma xmostly vs : mostly_honest xbody xsigned vs.
Proof.
  intros s _ H. destruct s as [|v s]; [cbn; lia|]. inversion H as [|? ? X _]; subst. destruct (X (xhonest _)).
Qed.

(** The hypotheses of [no_fork] hold here and the two blocks are accepted. *)
Lemma no_fork_nonvacuous :
  check_contract xcheck xsigned /\ subset_contract xsubset /\ (forall vs, mostly_honest xbody xsigned vs) /\
  accepted xbody xcheck xsubset (fun _ => true) (fun _ => true) xz xp1 /\
  accepted xbody xcheck xsubset (fun _ => true) (fun _ => true) xz xp2 /\
  block_vset xbody (data_of xp1) <> state_vset xz.
Proof.
  assert (A1 : accepted xbody xcheck xsubset (fun _ => true) (fun _ => true) xz xp1).
  { eapply acc_state; [reflexivity|reflexivity|reflexivity]. }
  split; [exact xcheck_contract|]. split; [exact xsubset_contract|]. split; [exact xmostly|]. split; [exact A1|]. split.
  - eapply acc_key; [exact A1|reflexivity|reflexivity].
  - discriminate.
Qed.

(** A proof with exactly two thirds of the weight is not accepted. *)
Lemma two_thirds_rejected : check_signatures xcheck xp1 ([Vd 1 10; Vd 2 10; Vd 3 10], 77) = false.
Proof. reflexivity. Qed.

(** A quorum gathered by the validator session (threshold of ValModel, C40)
    passes the weight rule of the proof check. *)
From Verif Require ValModel.
Theorem session_quorum_passes total w : 3 * total <= u64max ->
  ValModel.vthreshold total <= w -> 2 * total < 3 * w.
Proof.
  intros H. unfold ValModel.vthreshold, ValModel.vsmul, ValModel.u64_mod.
  unfold u64max in H.
  rewrite N.min_l by lia.
  pose proof (N.div_mod' (total * 2) 3) as D.
  pose proof (N.mod_lt (total * 2) 3 ltac:(lia)) as L.
  remember (total * 2 / 3) as q. remember ((total * 2) mod 3) as r. clear Heqq Heqr. lia.
Qed.
