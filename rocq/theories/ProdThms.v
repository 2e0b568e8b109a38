(** The node's own points: validity (C73), contents and duties (C74). *)
From Verif Require Import VerModel VerSpec VerCheck VerBasic VerProper VerHist VerThms VerChain VerOrder.
From Verif Require Import ProdModel ProdSpec ProdBasics ProdProper ProdValid PeerCountModel.
From Coq Require Import ZArith ZifyN ZifyNat ZifyBool.
Local Open Scope N_scope.

Lemma used_rounds c peers last me hd : head_ok c peers hd me -> forall k, used last me hd k ->
  i_round k <= hd_round hd - 1 /\ i_round k < hd_round hd /\ forall s, anchor_round s k <= i_round k /\ p_round (dest s k) = anchor_round s k.
Proof.
  intros HO k U. destruct (used_point c peers last me hd HO k U) as (q & a & P & L & RQ & GQ).
  split; [lia|]. split; [lia|]. intros s. destruct (verified_dest c peers k q a s P) as (_ & D & _ & E & _). auto.
Qed.

(** ** C73: a produced point is valid for a judge who holds its dependencies and link targets as valid points *)
Theorem produced_valid c peers ldr h last fetch hd me dg i ds is :
  hist c peers ldr h -> ids_bind h ->
  head_ok c peers hd me -> memory_ok c peers hd me last -> no_rival hd me -> (forall b, snd (fetch b) <= c_payload c) ->
  (forall k, used last me hd k -> exists a, judged h a (VdValid k) /\ clean h a) ->
  own_point c last fetch hd dg = PMade i ->
  (ldr i = true <-> hd_leader hd = Some me) ->
  reads_ok h i ds -> (forall e, In e ds -> In (d_id (snd e)) (dep_ids i) /\ exists k, d_v (snd e) = VdValid k) ->
  inds_ok h i is -> (forall e, In e is -> exists k, d_v (snd (fst e)) = VdValid k /\ i_time k <= i_time i + c_skew c) ->
  validate c (ldr i) i true true true (map (fun e => Some (snd e)) ds) (map (fun e => (snd (fst e), snd e)) is) = Some RsValid /\
  hist c peers ldr (h ++ [mkEntry (VdValid i) ds (map fst is)]).
Proof.
  intros H IB HO MO NR PL UV E LD RO VD IO VI.
  destruct (produced_verified c peers last fetch hd me dg i HO MO PL E) as (V & OK & ID).
  destruct (own_point_made _ _ _ _ _ _ _ (ho_me _ _ _ _ HO) E) as (L & D & _ & B & p & t & prev & M).
  pose proof (gr c peers me hd HO) as [G0 G1]. pose proof (made_round c last me hd p t prev i M) as MR.
  assert (VA : validate c (ldr i) i true true true (map (fun e => Some (snd e)) ds) (map (fun e => (snd (fst e), snd e)) is) = Some RsValid).
  { apply (made_valid c peers ldr h H IB last me hd HO MO NR UV p t prev i M V ds is).
    - exact (ro_sees _ _ _ RO).
    - exact VD.
    - exact (ro_prev _ _ _ RO).
    - eapply Forall_impl; [|exact IO]. intros e [S _]. exact S.
    - intros e IE. destruct (VI e IE) as (k & DK & T). exists k. split; [exact DK|]. split; [exact T|].
      destruct (proj1 (Forall_forall _ _) IO e IE) as [(en & NT & Q) _].
      assert (J : judged h (fst (fst e)) (VdValid k)).
      { exists en. split; [exact NT|]. rewrite DK in Q. destruct Q as [Q|Q]; [symmetry; exact Q|].
        destruct (e_v en); cbn in Q; try discriminate. inversion Q. reflexivity. }
      destruct (judged_verified c peers ldr h _ _ k H J eq_refl) as [_ (_ & _ & _ & _ & U)]. exact U.
    - lia.
    - exact OK.
    - exact LD. }
  split; [exact VA|]. eapply hist_step; [exact H|].
  exact (h_check c peers ldr h i true true true ds is RsValid OK V RO IO VA).
Qed.

(** the links of the point lead to the newest anchor stages any of its dependencies knows *)
Theorem produced_newest c peers ldr h last fetch hd me dg i s j :
  hist c peers ldr h -> ids_bind h -> head_ok c peers hd me -> memory_ok c peers hd me last ->
  (forall k, used last me hd k -> exists a, judged h a (VdValid k) /\ clean h a) ->
  own_point c last fetch hd dg = PMade i -> used last me hd j ->
  anchor_round s j <= anchor_round s i /\
  (forall x t, i_role i = AnchorProof x t -> anchor_round SProof j <= p_round (il_to x)).
Proof.
  intros H IB HO MO UV E U.
  destruct (own_point_made _ _ _ _ _ _ _ (ho_me _ _ _ _ HO) E) as (L & D & _ & B & p & t & prev & M).
  pose proof (gr c peers me hd HO) as [G0 G1]. pose proof (made_round c last me hd p t prev i M) as MR.
  destruct (used_rounds c peers last me hd HO j U) as (L1 & L2 & L3). split.
  - destruct (forms c peers ldr h H last me hd HO MO UV p t prev i M s) as [X|(k & th & S & X & MX)].
    + unfold anchor_round at 2. rewrite X. destruct (L3 s). lia.
    + destruct (ldir_link c peers last me hd HO p t prev i M s k th S X) as (_ & _ & ->). auto.
  - intros x y R. destruct (sources c peers ldr h H last me hd HO UV p t prev i M)
      as (kp & tp & kt & tt' & SP & ST & EP & ET & MT & MP & _).
    destruct (role_inv c peers last me hd HO MO p t prev i M) as [R'|(k & l & PV & C)]; [congruence|].
    destruct C as [(n & Q & _ & _ & R')|[(n & Q & R')|[(Q & PQ & _ & R')|[(Q & PQ & R')|(z & Q & PQ & FE & LE & R')]]]]; try congruence.
    assert (z = x) by congruence. subst z. rewrite EP in PQ. unfold lnk in PQ.
    destruct (is_self _); [discriminate|]. inversion PQ; subst x. cbn [il_to].
    destruct (used_rounds c peers last me hd HO kp (src_used last me hd _ _ SP)) as (_ & _ & K). destruct (K SProof) as [_ ->]. auto.
Qed.

(** ** C74 *)
(** at most one point per round, and none after a point that was not signed by enough peers *)
Theorem produced_once c last fetch hd dg i l : last = Some l -> 0 < hd_round hd -> own_point c last fetch hd dg = PMade i ->
  lo_round l < hd_round hd /\
  (lo_round l + 1 = hd_round hd -> 2 * lo_signers l <= N.of_nat (length (lo_evidence l))).
Proof.
  intros -> G. unfold own_point.
  destruct (N.ltb_spec (lo_round l) (hd_round hd - 1)) as [L|L]; [intros _; split; lia|].
  destruct (N.eqb_spec (lo_round l) (hd_round hd - 1)) as [L'|L']; [|discriminate].
  destruct (N.leb_spec (majority_of_others (lo_signers l)) (N.of_nat (length (lo_evidence l)))) as [L2|L2]; [|discriminate].
  intros _. unfold majority_of_others in L2. split; lia.
Qed.

(** what the point is made of *)
Theorem produced_contents c peers last fetch hd me dg i :
  head_ok c peers hd me -> memory_ok c peers hd me last -> own_point c last fetch hd dg = PMade i ->
  (* exactly the points that reached the threshold *)
  (forall a d, In (a, d) (i_includes i) <-> exists k, In (a, k) (hd_reached hd) /\ i_digest k = d) /\
  (* exactly the signed points two rounds back that the last point did not include; own ones are left out after a pause *)
  (forall a d, In (a, d) (i_witness i) <-> exists locs k, hd_locs hd = Some locs /\ In (a, Some k) locs /\ i_digest k = d /\
     match last with
     | Some l => if lo_round l =? hd_round hd - 1 then (forall x, ~ In (a, x) (lo_includes l)) else a <> me
     | None => a <> me
     end) /\
  (* the signatures of the own previous point, when it is included *)
  (forall k, In (me, k) (hd_reached hd) -> exists l, last = Some l /\ lo_round l + 1 = hd_round hd /\
     lo_digest l = i_digest k /\ i_evidence i = lo_evidence l) /\
  ((forall k, ~ In (me, k) (hd_reached hd)) -> i_evidence i = []) /\
  (* the clock, unless it is behind the anchor time or the own previous point *)
  hd_now hd <= i_time i /\ i_atime i < i_time i /\ (forall k, In (me, k) (hd_reached hd) -> i_time k < i_time i) /\
  (i_time i = hd_now hd \/ i_time i = i_atime i + 1 \/ exists k, In (me, k) (hd_reached hd) /\ i_time i = i_time k + 1).
Proof.
  intros HO MO E. destruct (own_point_made _ _ _ _ _ _ _ (ho_me _ _ _ _ HO) E) as (L & D & _ & B & p & t & prev & M).
  pose proof (gr c peers me hd HO) as [G0 G1].
  assert (RI : forall l a d, (forall p k, In (p, k) l -> i_author k = p) ->
    In (a, d) (refs l) <-> exists k, In (a, k) l /\ i_digest k = d).
  { intros l a d A. split.
    - intros I. destruct (refs_in _ _ _ I) as (q & k & IK & <- & <-). exists k. rewrite (A _ _ IK). auto.
    - intros (k & I & <-). unfold refs. apply in_map_iff. exists (a, k). cbn [snd]. rewrite (A _ _ I). auto. }
  split. { intros a d. rewrite (md_inc _ _ _ _ _ _ _ _ _ _ _ _ M). apply RI. exact (inc_author c peers me hd HO). }
  split.
  { intros a d. rewrite (md_wit _ _ _ _ _ _ _ _ _ _ _ _ M), (RI _ _ _ (wit_author c peers last me hd HO)).
    unfold witness_of. split.
    - intros (k & I & DK). destruct (hd_locs hd) as [locs|]; [|destruct I]. apply sel_wit_in in I. destruct I as [I SK].
      exists locs, k. repeat (split; [auto|]). unfold skip_wit in SK.
      destruct last as [l|]; [destruct (lo_round l =? hd_round hd - 1)|]; [|apply N.eqb_neq; exact SK..].
      intros x IX. rewrite (proj2 (amem_in a (lo_includes l))) in SK by eauto. discriminate.
    - intros (locs & k & -> & I & DK & SK). exists k. split; [|exact DK]. apply sel_wit_in. split; [exact I|]. unfold skip_wit.
      destruct last as [l|]; [destruct (lo_round l =? hd_round hd - 1)|]; [|apply N.eqb_neq; exact SK..].
      destruct (amem N.eqb a (lo_includes l)) eqn:AM; [|reflexivity]. apply amem_in in AM. destruct AM as [x IX]. destruct (SK x IX). }
  pose proof (md_prev _ _ _ _ _ _ _ _ _ _ _ _ M) as MP. pose proof (md_evidence _ _ _ _ _ _ _ _ _ _ _ _ M) as ME.
  assert (GET : forall k, In (me, k) (hd_reached hd) -> aget N.eqb me (hd_reached hd) = Some k).
  { intros k I. apply (aget_in N.eqb N.eqb_spec); [exact (ho_reached_once _ _ _ _ HO)|exact I]. }
  destruct (time_facts c peers last me hd HO MO p t prev i M) as (z & UZ & AZ & TP & AT & NW & TU & TS & TH).
  assert (TE : i_time i = hd_now hd \/ i_time i = tadd (match prev with None => i_atime i | Some (k, _) => N.max (i_atime i) (i_time k) end) 1).
  { pose proof (md_time _ _ _ _ _ _ _ _ _ _ _ _ M) as GT. unfold get_time in GT.
    destruct (match role_proof me (i_role i) with ToSelf => _ | Direct th | Indirect {| il_path := th |} => _ end) as [at_|] in GT; [|discriminate].
    inversion GT as [[Q1 Q2]]. destruct prev as [[k l]|]; lia. }
  destruct prev as [[k l]|].
  - destruct MP as (AG & LA & LR & DG & EN). pose proof (aget_some_in N.eqb N.eqb_spec _ _ _ AG) as I.
    split. { intros k' I'. assert (k' = k) by (specialize (GET _ I'); congruence). subst k'. exists l. split; [exact LA|]. split; [lia|]. auto. }
    split. { intros N. exfalso. exact (N _ I). }
    split; [exact NW|]. split; [exact AT|].
    split. { intros k' I'. assert (k' = k) by (specialize (GET _ I'); congruence). subst k'. exact (TP k l eq_refl). }
    destruct TE as [TE|TE]; [left; exact TE|right]. specialize (TP k l eq_refl). unfold tadd in TE.
    destruct (N.le_gt_cases (i_atime i) (i_time k)); [right; exists k; split; [exact I|lia]|left; lia].
  - split. { intros k I. specialize (GET k I). congruence. }
    split; [intros _; exact ME|]. split; [exact NW|]. split; [exact AT|].
    split. { intros k I. specialize (GET k I). congruence. }
    destruct TE as [TE|TE]; [left; exact TE|right]. left. unfold tadd in TE. lia.
Qed.

(** duties: which role the point has to play, and no other *)
Theorem produced_duty c peers last fetch hd me dg i :
  head_ok c peers hd me -> memory_ok c peers hd me last -> own_point c last fetch hd dg = PMade i ->
  (* without its own previous point a point plays no part in an anchor *)
  ((forall k, ~ In (me, k) (hd_reached hd)) -> exists p t, i_role i = Regular p t) /\
  forall k, In (me, k) (hd_reached hd) ->
  (* a sticky anchor is continued, then triggered *)
  (forall n, i_role k = Sticky n -> i_role i = if n + 1 <? c_sticky c then Sticky (n + 1) else AnchorTrigger) /\
  (* an anchor proof is followed by the first sticky anchor, or by the trigger *)
  (forall x t, i_role k = AnchorProof x t -> no_rival hd me -> i_role i = if 0 <? c_sticky c then Sticky 0 else AnchorTrigger) /\
  (* a leader with no anchor proof in the last three (four) rounds makes one *)
  (anchor_proof k <> ToSelf -> hd_leader hd = Some me ->
   (forall j, used last me hd j -> far_enough c (hd_round hd) (anchor_round SProof j) = true) -> exists x t, i_role i = AnchorProof x t) /\
  (* else it does not *)
  (anchor_proof k <> ToSelf -> hd_leader hd <> Some me -> exists p t, i_role i = Regular p t).
Proof.
  intros HO MO E. destruct (own_point_made _ _ _ _ _ _ _ (ho_me _ _ _ _ HO) E) as (L & D & _ & B & p & t & prev & M).
  pose proof (gr c peers me hd HO) as [G0 G1]. pose proof (md_role _ _ _ _ _ _ _ _ _ _ _ _ M) as MR.
  pose proof (md_prev _ _ _ _ _ _ _ _ _ _ _ _ M) as MP.
  assert (GET : forall k, In (me, k) (hd_reached hd) -> aget N.eqb me (hd_reached hd) = Some k).
  { intros k I. apply (aget_in N.eqb N.eqb_spec); [exact (ho_reached_once _ _ _ _ HO)|exact I]. }
  destruct (role_cases c peers last me hd HO p t prev i M) as (kp & tp & kt & tt' & SP & ST & EP & ET & MT & PC).
  split.
  { intros N. destruct prev as [[k l]|]; [destruct MP as (AG & _); apply aget_some_in in AG; [|exact N.eqb_spec]; destruct (N _ AG)|].
    exists p, t. exact MR. }
  intros k I. assert (PV : exists l, prev = Some (k, l)).
  { specialize (GET k I). destruct prev as [[k' l]|]; [|congruence]. destruct MP as (AG & _). exists l. congruence. }
  destruct PV as [l PV]. destruct (prev_facts c peers last me hd HO MO p t prev i M k l PV) as (_ & PA & LA & LO & DG & PD & EV & NE & EN & S3 & STK & SK).
  rewrite PV, STK in MR. unfold pick_role in MR. pose proof (ho_types _ _ _ _ HO) as [_ TY].
  assert (UR : forall j, used last me hd j -> i_round j <= hd_round hd - 1 /\ forall s, anchor_round s j <= i_round j).
  { intros j U. destruct (used_rounds c peers last me hd HO j U) as (A & _ & F). split; [exact A|]. intros s. apply F. }
  assert (KP : used last me hd kp) by (exact (src_used last me hd _ _ SP)).
  assert (NOTRIG : anchor_proof k <> ToSelf -> is_trigger me p = false).
  { intros NS. destruct (is_trigger me p) eqn:IT; [|reflexivity]. exfalso. apply NS. unfold is_trigger in IT. rewrite EP in IT. unfold lnk in IT.
    destruct (is_self (anchor_link SProof kp)) eqn:SF; [|discriminate]. apply self_true in SF.
    destruct tp as [a|a]; [|discriminate]. apply N.eqb_eq in IT. subst a.
    pose proof (src_get c peers last me hd HO kp _ SP) as AG. cbn in AG. rewrite (GET k I) in AG. inversion AG. subst kp. exact SF. }
  split; [|split; [|split]].
  - intros n RK. unfold sticky_anchors, chained_proof in MR. rewrite RK in MR. rewrite MR.
    destruct (N.ltb_spec (n + 1) (c_sticky c)), (N.ltb_spec (N.min (n + 1) 255) (c_sticky c)); try reflexivity; lia.
  - intros x y RK NR. unfold sticky_anchors, chained_proof in MR. rewrite RK in MR.
    assert (AK : anchor_proof k = ToSelf) by (unfold anchor_proof; rewrite RK; reflexivity).
    assert (ARK : anchor_round SProof k = hd_round hd - 1).
    { unfold anchor_round. cbn [anchor_link]. rewrite AK. exact (pa_round _ _ _ _ _ PA). }
    assert (UK : used last me hd k) by (left; eauto).
    assert (KK : kp = k /\ tp = ThInc me).
    { destruct PC as [[_ PC]|(-> & _ & PC)].
      - specialize (PC k UK). destruct (UR kp KP) as [R1 R2]. specialize (R2 SProof).
        destruct (src_point c peers _ _ _ (gr c peers me hd HO) (inc_point c peers me hd HO) (wit_point c peers last me hd HO) kp tp SP)
          as (q & P & [(-> & TQ & IQ)|(-> & TQ & IQ)] & LQ & GQ).
        + assert (i_author kp = me) by (apply (NR k I AK (i_author kp) kp IQ); lia). rewrite H in *.
          split; [|exact TQ]. pose proof (GET kp IQ). pose proof (GET k I). congruence.
        + pose proof (pa_round _ _ _ _ _ P). destruct (wit_point c peers last me hd HO _ _ IQ) as [_ G2]. lia.
      - exfalso. specialize (PC k UK). destruct (UR kt KP) as [R1 R2]. specialize (R2 STrigger). lia. }
    destruct KK as [-> ->]. unfold lnk in EP. cbn [anchor_link] in EP. rewrite AK in EP. cbn [is_self] in EP. subst p.
    cbn [is_trigger] in MR. rewrite N.eqb_refl in MR. exact MR.
  - intros NS LD FE. unfold sticky_anchors, chained_proof in MR.
    assert (NST : match i_role k with Sticky n => False | _ => True end).
    { unfold anchor_proof in NS. destruct (i_role k); auto. }
    assert (PF : proof_far c (hd_round hd) p = true /\ exists x, p = LIndirect x).
    { specialize (FE kp KP). unfold lnk in EP. destruct (is_self (anchor_link SProof kp)) eqn:SF.
      - exfalso. apply self_true in SF. unfold anchor_round in FE. rewrite SF in FE.
        destruct (src_point c peers _ _ _ (gr c peers me hd HO) (inc_point c peers me hd HO) (wit_point c peers last me hd HO) kp tp SP)
          as (q & P & CASE & LQ & GQ). rewrite (pa_round _ _ _ _ _ P) in FE. unfold far_enough in FE.
        destruct CASE as [(-> & _)|(-> & _)]; destruct (c_sticky c =? 0); lia.
      - subst p. split; [|eauto]. unfold proof_far. cbn [il_to].
        destruct (used_rounds c peers last me hd HO kp KP) as (_ & _ & K). destruct (K SProof) as [_ ->]. exact FE. }
    destruct PF as [PF [x PX]]. rewrite (NOTRIG NS), LD, N.eqb_refl, PF in MR. rewrite PX in MR. cbn [andb] in MR.
    exists x, t. destruct (i_role k); cbn in MR; try exact MR. destruct NST.
  - intros NS LD. unfold sticky_anchors, chained_proof in MR.
    assert (NST : match i_role k with Sticky n => False | _ => True end).
    { unfold anchor_proof in NS. destruct (i_role k); auto. }
    assert (LF : match hd_leader hd with Some l0 => l0 =? me | None => false end = false).
    { destruct (hd_leader hd) as [b|]; [|reflexivity]. apply N.eqb_neq. congruence. }
    rewrite (NOTRIG NS), LF in MR. cbn [andb] in MR. exists p, t.
    destruct (i_role k); cbn in MR; try (destruct p; exact MR). destruct NST.
Qed.

(** ** When a point is made *)
(** the node's memory agrees with the dag: its last point is of an earlier round; if of the previous round and signed
    enough, it is among the points that reached the threshold, and no other point of this node is *)
Record in_step (hd : phead) (me : peer) (last : option lastown) : Prop := {
  is_past : forall l, last = Some l -> lo_round l < hd_round hd;
  is_enough : majority (hd_count hd) <= N.of_nat (length (hd_reached hd));
  is_there : forall l, last = Some l -> lo_round l + 1 = hd_round hd -> 2 * lo_signers l <= N.of_nat (length (lo_evidence l)) ->
     exists k, In (me, k) (hd_reached hd);
  is_mine : forall k, In (me, k) (hd_reached hd) ->
     exists l, last = Some l /\ lo_round l + 1 = hd_round hd /\ lo_digest l = i_digest k }.

Lemma create_some c peers last fetch hd me dg : head_ok c peers hd me -> in_step hd me last ->
  proven_vertex last (hd_round hd) <> None ->
  exists i, create c last fetch me (hd_round hd) (hd_leader hd) (hd_reached hd) (witness_of last me hd) (hd_now hd) dg = PMade i.
Proof.
  intros HO IS NN. pose proof (gr c peers me hd HO) as [G0 G1].
  assert (NE : hd_reached hd <> []).
  { intros Q. pose proof (is_enough _ _ _ IS) as L. rewrite Q in L. unfold majority in L. cbn [length N.of_nat] in L. lia. }
  destruct (links_some c peers (hd_round hd) (hd_reached hd) (witness_of last me hd) (gr c peers me hd HO) (inc_point c peers me hd HO)
     (wit_point c peers last me hd HO) NE) as (p & t & AL).
  destruct (links_spec c peers (hd_round hd) (hd_reached hd) (witness_of last me hd) (gr c peers me hd HO) (inc_point c peers me hd HO)
     (wit_point c peers last me hd HO) p t AL) as (kp & tp & kt & tt' & SP & ST & EP & ET & _).
  unfold create. destruct (proven_vertex last (hd_round hd)) as [proven|] eqn:PV; [|congruence]. rewrite AL.
  pose proof (src_get c peers last me hd HO kp tp SP) as GP.
  assert (GET : forall k, In (me, k) (hd_reached hd) -> aget N.eqb me (hd_reached hd) = Some k).
  { intros k I. apply (aget_in N.eqb N.eqb_spec); [exact (ho_reached_once _ _ _ _ HO)|exact I]. }
  assert (CASE : (exists d k l, proven = Some d /\ last = Some l /\ aget N.eqb me (hd_reached hd) = Some k /\ i_digest k = d) \/
                 (proven = None /\ aget N.eqb me (hd_reached hd) = None)).
  { destruct proven as [d|].
    - destruct (proven_inv _ _ _ PV) as (l & LA & LR & LD & EN). unfold majority_of_others in EN.
      destruct (is_there _ _ _ IS l LA ltac:(lia) ltac:(lia)) as [k I].
      destruct (is_mine _ _ _ IS k I) as (l' & LA' & _ & DG). left. exists d, k, l. split; [reflexivity|]. split; [exact LA|].
      split; [exact (GET k I)|]. congruence.
    - right. split; [reflexivity|]. destruct (aget N.eqb me (hd_reached hd)) as [k|] eqn:AG; [|reflexivity]. exfalso.
      apply aget_some_in in AG; [|exact N.eqb_spec]. destruct (is_mine _ _ _ IS k AG) as (l & LA & LR & _).
      unfold proven_vertex in PV. rewrite LA in PV. destruct (N.eqb_spec (lo_round l) (hd_round hd - 1)); [|lia].
      destruct (_ <=? _); discriminate. }
  assert (TIME : forall x, (x = Regular p t \/ exists k, aget N.eqb me (hd_reached hd) = Some k) ->
     (role_proof me x = ToSelf -> exists k, aget N.eqb me (hd_reached hd) = Some k) ->
     (x = Regular p t \/ x = AnchorTrigger \/ role_proof me x = ToSelf) ->
     exists tm at_, get_time (role_proof me x) (aget N.eqb me (hd_reached hd)) (hd_reached hd) (witness_of last me hd) (hd_now hd) = Some (tm, at_)).
  { intros x A B C. unfold get_time. destruct C as [->|[->|C]].
    - cbn [role_proof]. rewrite EP. unfold lnk. destruct (is_self (anchor_link SProof kp)); rewrite GP; eauto.
    - cbn [role_proof]. destruct A as [A|[k A]]; [discriminate|]. rewrite A. eauto.
    - destruct (B C) as [k AG]. rewrite C, AG. eauto. }
  destruct CASE as [(d & k & l & -> & -> & AG & DG)|[-> AG]].
  - rewrite AG. cbn [check_prev]. rewrite DG, N.eqb_refl.
    set (role := pick_role _ _ _ _ _ _ _).
    assert (RC : role = Regular p t \/ role = AnchorTrigger \/ role_proof me role = ToSelf).
    { unfold role, pick_role. destruct (lo_sticky l) as [n|].
      - destruct (_ <? c_sticky c); [right; right; reflexivity|right; left; reflexivity].
      - destruct (is_trigger me p); [destruct (0 <? c_sticky c); [right; right; reflexivity|right; left; reflexivity]|].
        destruct p; [left; reflexivity|]. destruct (_ && _); [right; right; reflexivity|left; reflexivity]. }
    destruct (TIME role) as (tm & at_ & GT); [right; eauto|intros _; eauto|exact RC|]. rewrite AG in GT. rewrite GT.
    rewrite (refs_get (hd_reached hd) me k (inc_author c peers me hd HO) (ho_reached_once _ _ _ _ HO) (aget_some_in N.eqb N.eqb_spec _ _ _ AG)).
    cbn [opt_eqb]. rewrite DG, N.eqb_refl. eauto.
  - rewrite AG. cbn [check_prev pick_role].
    destruct (TIME (Regular p t)) as (tm & at_ & GT); [left; reflexivity| |left; reflexivity|].
    { cbn [role_proof]. destruct p; discriminate. }
    rewrite AG in GT. rewrite GT.
    assert (RN : aget N.eqb me (refs (hd_reached hd)) = None) by (apply (proj2 (refs_get_none (hd_reached hd) me (inc_author c peers me hd HO))); exact AG).
    rewrite RN. cbn [opt_eqb]. eauto.
Qed.

(** the producer never panics while the node's memory agrees with the dag; it makes a point unless the last one lacks
    signatures *)
Theorem produced_or_waits c peers last fetch hd me dg : head_ok c peers hd me -> in_step hd me last ->
  (exists i, own_point c last fetch hd dg = PMade i) \/
  (own_point c last fetch hd dg = PErr PNotAllowed /\ exists l, last = Some l /\ lo_round l + 1 = hd_round hd /\
     N.of_nat (length (lo_evidence l)) < 2 * lo_signers l).
Proof.
  intros HO IS. pose proof (gr c peers me hd HO) as [G0 G1].
  assert (NP : proven_vertex last (hd_round hd) <> None -> exists i, new_point c last fetch hd dg = PMade i).
  { intros NN. unfold new_point. rewrite (ho_me _ _ _ _ HO). pose proof (is_enough _ _ _ IS) as L. apply N.leb_le in L. rewrite L.
    exact (create_some c peers last fetch hd me dg HO IS NN). }
  unfold own_point. destruct last as [l|]; [|left; apply NP; discriminate].
  pose proof (is_past _ _ _ IS l eq_refl) as PA. unfold proven_vertex in NP.
  destruct (N.ltb_spec (lo_round l) (hd_round hd - 1)) as [L|L].
  { left. apply NP. destruct (N.eqb_spec (lo_round l) (hd_round hd - 1)); [lia|discriminate]. }
  destruct (N.eqb_spec (lo_round l) (hd_round hd - 1)) as [L'|L']; [|lia]. unfold majority_of_others in *.
  destruct (N.leb_spec (lo_signers l * 2) (N.of_nat (length (lo_evidence l)))) as [L2|L2].
  - left. apply NP. discriminate.
  - right. split; [reflexivity|]. exists l. split; [reflexivity|]. split; lia.
Qed.

(** errors: not a member, no signatures, a point of this node that it does not remember *)
Theorem produced_errors c last fetch hd dg e : own_point c last fetch hd dg = PErr e ->
  match e with
  | PNotScheduled => hd_me hd = None
  | PNotAllowed => exists l, last = Some l /\ lo_round l = hd_round hd - 1 /\ N.of_nat (length (lo_evidence l)) < 2 * lo_signers l
  | PNotEnoughEvidence => False
  | PPrevMismatch => exists me k, hd_me hd = Some me /\ aget N.eqb me (hd_reached hd) = Some k /\
      forall l, last = Some l -> lo_round l = hd_round hd - 1 -> lo_digest l <> i_digest k
  end.
Proof.
  assert (NP : forall e', new_point c last fetch hd dg = PErr e' ->
    (forall l, last = Some l -> lo_round l = hd_round hd - 1 -> majority_of_others (lo_signers l) <= N.of_nat (length (lo_evidence l))) ->
    match e' with
    | PNotScheduled => hd_me hd = None
    | PNotAllowed => exists l, last = Some l /\ lo_round l = hd_round hd - 1 /\ N.of_nat (length (lo_evidence l)) < 2 * lo_signers l
    | PNotEnoughEvidence => False
    | PPrevMismatch => exists me k, hd_me hd = Some me /\ aget N.eqb me (hd_reached hd) = Some k /\
        forall l, last = Some l -> lo_round l = hd_round hd - 1 -> lo_digest l <> i_digest k
    end).
  { intros e' E EN. unfold new_point in E. destruct (hd_me hd) as [me|]; [|inversion E; reflexivity].
    destruct (_ <=? _); [|discriminate]. unfold create in E.
    destruct (proven_vertex last (hd_round hd)) as [proven|] eqn:PV.
    2:{ exfalso. unfold proven_vertex in PV. destruct last as [l|]; [|discriminate].
        destruct (N.eqb_spec (lo_round l) (hd_round hd - 1)) as [Q|Q]; [|discriminate].
        specialize (EN l eq_refl Q). apply N.leb_le in EN. rewrite EN in PV. discriminate. }
    destruct (anchor_links _ _ _) as [[p t]|]; [|discriminate].
    destruct (check_prev _ proven) as [r|[]] eqn:CP.
    - subst r. unfold check_prev in CP. destruct (aget N.eqb me (hd_reached hd)) as [k|] eqn:AG; [|destruct proven; discriminate].
      assert (e' = PPrevMismatch) by (destruct proven as [d|]; [destruct (_ =? d)|]; congruence). subst e'.
      exists me, k. split; [reflexivity|]. split; [exact AG|]. intros l LA LR. unfold proven_vertex in PV. rewrite LA in PV.
      rewrite (proj2 (N.eqb_eq _ _) LR) in PV. specialize (EN l LA LR). apply N.leb_le in EN. rewrite EN in PV. inversion PV; subst proven.
      destruct (N.eqb_spec (i_digest k) (lo_digest l)) as [Q|Q]; [discriminate|congruence].
    - destruct (get_time _ _ _ _ _) as [[? ?]|]; [|discriminate]. destruct (opt_eqb _ _); discriminate. }
  unfold own_point. destruct last as [l|]; [|intros E; apply NP; [exact E|intros l Q; discriminate]].
  destruct (N.ltb_spec (lo_round l) (hd_round hd - 1)) as [L|L].
  { intros E. apply NP; [exact E|]. intros l' Q. inversion Q; subst l'. lia. }
  destruct (N.eqb_spec (lo_round l) (hd_round hd - 1)) as [L'|L']; [|discriminate].
  destruct (N.leb_spec (majority_of_others (lo_signers l)) (N.of_nat (length (lo_evidence l)))) as [L2|L2].
  - intros E. apply NP; [exact E|]. intros l' Q. inversion Q; subst l'. auto.
  - intros E. inversion E. exists l. unfold majority_of_others in L2. split; [reflexivity|]. split; [exact L'|lia].
Qed.
