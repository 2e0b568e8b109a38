(** BasicVerifier accepts exactly the proper points (C67). *)
From Verif Require Import VerModel VerSpec VerCheck VerBasic PeerCountModel PeerCountProps.
From Coq Require Import ZArith ZifyN ZifyNat ZifyBool.
Local Open Scope N_scope.

Lemma structure_none i : structure_error i = None <->
  (requires_prev i = true -> amem N.eqb (i_author i) (i_includes i) = true) /\
  (amem N.eqb (i_author i) (i_includes i) = true <-> i_evidence i <> []) /\
  amem N.eqb (i_author i) (i_evidence i) = false /\ amem N.eqb (i_author i) (i_witness i) = false /\
  chained_error i = None /\ link_fine i SProof /\ link_fine i STrigger /\ i_atime i < i_time i.
Proof.
  unfold structure_error. rewrite !orelse_none, !ifnone, !link_error_none, andb_false_iff, negb_false_iff, eqb_false_iff.
  assert (E : isnil (i_evidence i) <> amem N.eqb (i_author i) (i_includes i) <->
              (amem N.eqb (i_author i) (i_includes i) = true <-> i_evidence i <> [])).
  { destruct (i_evidence i) as [|e l], (amem N.eqb (i_author i) (i_includes i)); cbn; split; intros H; try congruence.
    - exfalso. tauto.
    - split; congruence.
    - split; congruence.
    - exfalso. assert (false = true) by (apply H; discriminate). discriminate. }
  rewrite E. rewrite N.leb_gt.
  assert (Q : (requires_prev i = false \/ amem N.eqb (i_author i) (i_includes i) = true) <->
              (requires_prev i = true -> amem N.eqb (i_author i) (i_includes i) = true)).
  { destruct (requires_prev i); split; intros H; auto; try (destruct H; congruence). }
  tauto.
Qed.

(** verified points are proper *)
Theorem verified_is_proper c peers i : basic_verify c peers i = VOk -> i_round i <> c_genesis c ->
  proper c peers i /\ sets_ok c peers i /\ link_authors_known peers i.
Proof.
  unfold basic_verify. intros V NG.
  destruct (basic_counts c peers i) as [e|[[ca cb] cw]] eqn:BC.
  { exfalso. subst e. unfold basic_counts in BC. destruct (c_genesis c =? 0); [discriminate|].
    destruct (i_round i - (c_genesis c - 1)) as [|[[p|p|]|[p|p|]|]];
      repeat match type of BC with context [match ?x with _ => _ end] => destruct x end; discriminate. }
  destruct (counts_inr _ _ _ _ _ _ BC NG) as (G & R & SO & -> & -> & CW). clear BC.
  destruct (link_peers_error peers i) eqn:LP; [discriminate|]. apply link_peers_none in LP.
  destruct (well_formed_error c i) eqn:WF; [discriminate|].
  destruct (peers_error peers i _ _ cw) eqn:PE; [discriminate|]. clear V.
  split; [|split; assumption].
  unfold well_formed_error in WF. apply N.eqb_neq in NG as NGb. rewrite NGb in WF.
  destruct (c_payload c <? i_pbytes i) eqn:PB; [discriminate|].
  destruct (check_structure false i) eqn:CS; [discriminate|].
  destruct (match sticky_anchors i with Some n => c_sticky c <=? n | None => false end) eqn:ST; [discriminate|].
  apply ifnone in WF. apply orb_false_iff in WF. destruct WF as [WF W3]. apply orb_false_iff in WF. destruct WF as [W1 W2].
  assert (RN : i_role i <> Genesis) by (intros Q; unfold check_structure in CS; rewrite Q in CS; discriminate).
  assert (SE : structure_error i = None) by (unfold check_structure in CS; destruct (i_role i); congruence).
  clear CS. apply structure_none in SE. destruct SE as (RP & EV & AE & AW & CE & LPf & LTf & TM).
  unfold peers_error in PE. destruct (known peers (i_round i) (i_author i)) eqn:KA; [|discriminate]. cbn [negb] in PE.
  rewrite !orelse_none in PE. destruct PE as (PE1 & PE2 & PE3).
  assert (KN : negb (all_known peers (i_round i - 1) (i_includes i)) = false /\
     nlen (i_includes i) <? majority (if i_round i - 1 =? c_genesis c then 0 else faults (N.of_nat (length (peers (i_round i - 1))))) = false).
  { destruct (negb (all_known peers (i_round i - 1) (i_includes i))); [discriminate|]. split; [reflexivity|]. apply ifnone in PE2. exact PE2. }
  clear PE2. destruct KN as [KI LI]. apply negb_false_iff in KI. rewrite all_known_in in KI.
  assert (LF : forall r, link_fine i r) by (intros []; assumption).
  assert (RG : forall r, c_genesis c <= anchor_round r i) by (intros []; lia).
  assert (HAS : amem N.eqb (i_author i) (i_includes i) = true <-> exists d, In (i_author i, d) (i_includes i)) by apply amem_in.
  assert (EVN : i_evidence i <> [] -> 3 <= N.of_nat (length (peers (i_round i))) /\
    (forall p s, In (p, s) (i_evidence i) -> In p (peers (i_round i))) /\
    2 * faults (N.of_nat (length (peers (i_round i)))) <= N.of_nat (length (i_evidence i))).
  { intros NE. destruct (isnil (i_evidence i)) eqn:NI; [apply isnil_true in NI; contradiction|].
    destruct (faults (N.of_nat (length (peers (i_round i)))) =? pc_genesis); [discriminate|].
    destruct (all_known peers (i_round i) (i_evidence i)) eqn:AK; [|discriminate]. cbn [negb] in PE1.
    apply ifnone in PE1. rewrite all_known_in in AK. destruct SO as ((S3 & _) & _). split; [exact S3|]. split; [exact AK|].
    unfold nlen, majority_of_others in PE1. lia. }
  constructor.
  - split; assumption.
  - exact RN.
  - apply known_in. exact KA.
  - exact KI.
  - destruct SO as (_ & S1 & S2 & _). unfold nlen, majority in LI.
    destruct (N.eqb_spec (i_round i - 1) (c_genesis c)) as [E|E].
    + specialize (S1 E). split; [lia|]. clear - LI. lia.
    + destruct (S2 E) as [S3 _]. split; [exact S3|]. clear - LI. lia.
  - intros p d I. destruct cw as [w|].
    + destruct (all_known peers (i_round i - 2) (i_witness i)) eqn:AK; [|discriminate]. rewrite all_known_in in AK.
      split; [eapply AK; eauto|]. exact (proj1 (amem_false _ _) AW p d I).
    + destruct (isnil (i_witness i)) eqn:NI; [|discriminate]. apply isnil_true in NI. rewrite NI in I. destruct I.
  - intros E. apply CW in E. rewrite E in PE3. destruct (isnil (i_witness i)) eqn:NI; [|discriminate]. apply isnil_true. exact NI.
  - rewrite <- HAS. exact EV.
  - intros p s I. split; [|exact (proj1 (amem_false _ _) AE p s I)].
    eapply EVN; [|eauto]. intros Z. rewrite Z in I. destruct I.
  - intros NE. destruct (EVN NE) as (A & _ & B). auto.
  - exact TM.
  - lia.
  - intros r Q. specialize (LF r). unfold link_fine in LF. rewrite Q in LF. apply HAS. tauto.
  - intros r Q. specialize (LF r). specialize (RG r). unfold link_fine in LF. unfold anchor_id, anchor_through, anchor_round in *.
    destruct (anchor_link r i) as [|t|l]; [congruence| |].
    + destruct LF as [th T]. destruct (through_dep _ _ _ T) as [I PR]. exists th, th.
      destruct t as [p|p]; rewrite T; repeat (split; [first [reflexivity | assumption | lia]|]); lia.
    + destruct LF as (th & T & L). destruct (through_dep _ _ _ T) as [I PR]. exists th, (il_to l).
      rewrite T. repeat (split; [first [reflexivity | assumption | lia]|]).
      rewrite PR. destruct (il_path l); lia.
  - intros l Q. unfold indirect_proof in Q. unfold chained_error, chained_round in *.
    destruct (chained_proof i) as [|n|l']; try discriminate. inversion Q; subst l'.
    destruct (N.leb_spec (i_round i - 2) (p_round (il_to l))) as [K|K]; [discriminate|].
    destruct (indirect_error i l) eqn:IE; [discriminate|]. apply indirect_error_none in IE. destruct IE as (th & T & L).
    destruct (through_dep _ _ _ T) as [I PR].
    split; [lia|]. split; [lia|]. exists th. auto.
  - intros n Q. rewrite Q in ST. lia.
Qed.

(** and proper points are accepted *)
Theorem proper_is_verified c peers i : proper c peers i -> sets_ok c peers i -> link_authors_known peers i ->
  basic_verify c peers i = VOk.
Proof.
  intros P SO LK. destruct (pr_after _ _ _ P) as [G R].
  destruct (counts_of c peers i G R SO) as (ca & cb & cw & BC).
  assert (NG : i_round i <> c_genesis c) by lia.
  destruct (counts_inr _ _ _ _ _ _ BC NG) as (_ & _ & _ & -> & -> & CW).
  unfold basic_verify. rewrite BC. apply link_peers_none in LK. rewrite LK.
  assert (HAS : amem N.eqb (i_author i) (i_includes i) = true <-> exists d, In (i_author i, d) (i_includes i)) by apply amem_in.
  assert (PRV := pr_proved _ _ _ P). rewrite <- HAS in PRV.
  assert (LF : forall r, link_fine i r).
  { intros r. unfold link_fine. destruct (anchor_link r i) as [|t|l] eqn:A.
    - pose proof (pr_self _ _ _ P r A) as H. apply HAS in H. split; [exact H|]. apply PRV. exact H.
    - assert (NS : anchor_link r i <> ToSelf) by congruence.
      destruct (pr_link _ _ _ P r NS) as (th & to & T & _). unfold anchor_through in T. rewrite A in T. eauto.
    - assert (NS : anchor_link r i <> ToSelf) by congruence.
      destruct (pr_link _ _ _ P r NS) as (th & to & T & _ & I & _ & _ & _ & L & _). unfold anchor_through in T. unfold anchor_id in I.
      rewrite A in *. inversion I; subst. eauto. }
  assert (WF : well_formed_error c i = None).
  { unfold well_formed_error. apply N.eqb_neq in NG as NGb. rewrite NGb.
    pose proof (pr_payload _ _ _ P) as PL. destruct (N.ltb_spec (c_payload c) (i_pbytes i)) as [Z|_]; [lia|].
    assert (CS : check_structure false i = None).
    { assert (SE : structure_error i = None).
      { apply structure_none. split; [|split; [exact PRV|]].
        { intros RQ. unfold requires_prev in RQ. apply HAS. destruct (i_role i) as [ap at0|ap at0| |n0|] eqn:RO; try discriminate.
          - apply (pr_self _ _ _ P SProof). unfold anchor_link, anchor_proof. rewrite RO. reflexivity.
          - apply (pr_self _ _ _ P STrigger). unfold anchor_link, anchor_trigger. rewrite RO. reflexivity.
          - apply (pr_self _ _ _ P SProof). unfold anchor_link, anchor_proof. rewrite RO. reflexivity. }
        split; [apply amem_false; intros p s I; exact (proj2 (pr_evidence _ _ _ P p s I))|].
        split; [apply amem_false; intros p s I; exact (proj2 (pr_wit_known _ _ _ P p s I))|].
        split; [|split; [apply LF|split; [apply LF|exact (pr_time _ _ _ P)]]].
        unfold chained_error, chained_proof. destruct (i_role i) as [ap at0|ap at0| |n0|] eqn:RO; try reflexivity.
        - assert (Q : indirect_proof i = Some ap) by (unfold indirect_proof, chained_proof; rewrite RO; reflexivity).
        destruct (pr_chain _ _ _ P _ Q) as (K & _ & th & T & I & L).
        destruct (N.leb_spec (i_round i - 2) (p_round (il_to ap))) as [Z|_]; [lia|].
        assert (IE : indirect_error i ap = None) by (apply indirect_error_none; eauto). rewrite IE. reflexivity.
        - assert (Q : anchor_link SProof i = ToSelf) by (unfold anchor_link, anchor_proof; rewrite RO; reflexivity).
        pose proof (pr_self _ _ _ P SProof Q) as H. apply HAS in H. rewrite prev_some, H. reflexivity. }
      unfold check_structure. pose proof (pr_role _ _ _ P) as RL. destruct (i_role i); congruence. }
    rewrite CS.
    assert (ST : match sticky_anchors i with Some n => c_sticky c <=? n | None => false end = false).
    { destruct (sticky_anchors i) eqn:Q; [|reflexivity]. pose proof (pr_sticky _ _ _ P _ Q). lia. }
    rewrite ST.
    assert (RG : forall r, c_genesis c <= anchor_round r i).
    { intros r. destruct (anchor_link r i) eqn:A.
      - unfold anchor_round. rewrite A. lia.
      - assert (NS : anchor_link r i <> ToSelf) by congruence.
        destruct (pr_link _ _ _ P r NS) as (th & to & _ & _ & _ & E & L & _). lia.
      - assert (NS : anchor_link r i <> ToSelf) by congruence.
        destruct (pr_link _ _ _ P r NS) as (th & to & _ & _ & _ & E & L & _). lia. }
    pose proof (RG SProof) as R1. pose proof (RG STrigger) as R2.
    assert (C3 : match chained_round i with Some t => t <? c_genesis c | None => false end = false).
    { unfold chained_round. destruct (chained_proof i) as [|n|l] eqn:Q; [reflexivity|lia|].
      assert (Q' : indirect_proof i = Some l) by (unfold indirect_proof; rewrite Q; reflexivity).
      destruct (pr_chain _ _ _ P _ Q') as (_ & K & _). lia. }
    rewrite C3. destruct (N.ltb_spec (anchor_round SProof i) (c_genesis c)); [lia|].
    destruct (N.ltb_spec (anchor_round STrigger i) (c_genesis c)); [lia|]. reflexivity. }
  rewrite WF.
  assert (PE : peers_error peers i (faults (N.of_nat (length (peers (i_round i)))))
     (Some (if i_round i - 1 =? c_genesis c then 0 else faults (N.of_nat (length (peers (i_round i - 1)))))) cw = None).
  { unfold peers_error. pose proof (pr_author _ _ _ P) as KA. apply known_in in KA. rewrite KA. cbn [negb].
    rewrite !orelse_none. split; [|split].
    - destruct (isnil (i_evidence i)) eqn:NI; [reflexivity|].
      assert (NE : i_evidence i <> []) by (intros Z; rewrite Z in NI; discriminate).
      destruct (pr_ev_count _ _ _ P NE) as [A B].
      assert (AK : all_known peers (i_round i) (i_evidence i) = true).
      { apply all_known_in. intros p s I. exact (proj1 (pr_evidence _ _ _ P p s I)). }
      rewrite AK. cbn [negb].
      assert (F1 : faults (N.of_nat (length (peers (i_round i)))) =? pc_genesis = false).
      { unfold faults, pc_genesis. apply N.eqb_neq. clear - A. assert (1 <= (N.of_nat (length (peers (i_round i))) + 1) / 3).
        { apply N.div_le_lower_bound; lia. } lia. }
      rewrite F1. apply ifnone. unfold nlen, majority_of_others. clear - B. lia.
    - assert (AK : all_known peers (i_round i - 1) (i_includes i) = true).
      { apply all_known_in. exact (pr_inc_known _ _ _ P). }
      rewrite AK. cbn [negb]. apply ifnone. unfold nlen, majority. pose proof (pr_inc_count _ _ _ P) as IC.
      destruct (i_round i - 1 =? c_genesis c); clear - IC; lia.
    - destruct cw as [w|].
      + assert (AK : all_known peers (i_round i - 2) (i_witness i) = true).
        { apply all_known_in. intros p s I. exact (proj1 (pr_wit_known _ _ _ P p s I)). }
        rewrite AK. reflexivity.
      + rewrite (pr_wit_none _ _ _ P (proj1 CW eq_refl)). reflexivity. }
  rewrite PE. reflexivity.
Qed.

(** the genesis: no dependencies, no payload *)
Theorem verified_genesis c peers i : basic_verify c peers i = VOk -> i_round i = c_genesis c ->
  i_role i = Genesis /\ i_includes i = [] /\ i_witness i = [] /\ i_evidence i = [] /\ i_plen i = 0 /\
  i_time i = i_atime i /\ peers (c_genesis c) = [i_author i].
Proof.
  unfold basic_verify. intros V G. unfold basic_counts in V. destruct (N.eqb_spec (c_genesis c) 0) as [Z|Z]; [discriminate|].
  assert (D : i_round i - (c_genesis c - 1) = 1) by lia. rewrite D in V.
  destruct (pcount peers true (i_round i)) as [a| |] eqn:A; try discriminate. apply pcount_true in A. destruct A as [A ->].
  destruct (link_peers_error peers i) eqn:LP; [discriminate|].
  destruct (well_formed_error c i) eqn:WF; [discriminate|].
  destruct (peers_error peers i _ _ _) eqn:PE; [discriminate|].
  unfold well_formed_error in WF. rewrite G, N.eqb_refl in WF.
  destruct (N.ltb_spec 0 (i_plen i)) as [L|L]; [discriminate|].
  destruct (check_structure true i) eqn:CS; [discriminate|].
  unfold peers_error in PE. destruct (known peers (i_round i) (i_author i)) eqn:KA; [|discriminate]. cbn [negb] in PE.
  rewrite !orelse_none in PE. destruct PE as (P1 & P2 & P3).
  unfold check_structure in CS.
  split; [destruct (i_role i); congruence|].
  split; [destruct (i_includes i); [reflexivity|discriminate]|].
  split; [destruct (i_witness i); [reflexivity|discriminate]|].
  split; [destruct (i_evidence i); [reflexivity|discriminate]|].
  split; [lia|].
  split.
  - destruct (i_role i); try discriminate. destruct (N.eqb_spec (i_time i) (i_atime i)); congruence.
  - apply known_in in KA. rewrite <- G. destruct (peers (i_round i)) as [|q [|q' r]]; try discriminate.
    destruct KA as [->|[]]. reflexivity.
Qed.

(** ** Quorums of verified points *)
Lemma keys_incl {V} (peers : N -> list N) r (m : list (N * V)) : (forall p v, In (p, v) m -> In p (peers r)) -> incl (akeys m) (peers r).
Proof. intros H p I. unfold akeys in I. apply in_map_iff in I. destruct I as ([p' v] & <- & I). eapply H; eauto. Qed.
Lemma faults_bound n : 3 <= n -> n <= 3 * faults n + 1 /\ 1 <= faults n.
Proof.
  intros L. unfold faults. assert (1 <= (n + 1) / 3) by (apply N.div_le_lower_bound; lia).
  pose proof (N.mul_succ_div_gt (n + 1) 3). lia.
Qed.
(** any two verified points of one round include points of at least F+1 common authors, so of an honest one *)
Theorem includes_intersect c peers i j : basic_verify c peers i = VOk -> basic_verify c peers j = VOk ->
  i_round i = i_round j -> c_genesis c + 1 < i_round i ->
  NoDup (akeys (i_includes i)) -> NoDup (akeys (i_includes j)) ->
  exists common, NoDup common /\ incl common (akeys (i_includes i)) /\ incl common (akeys (i_includes j)) /\
    faults (N.of_nat (length (peers (i_round i - 1)))) + 1 <= N.of_nat (length common).
Proof.
  intros Vi Vj E L Ni Nj.
  destruct (verified_is_proper _ _ _ Vi) as (Pi & _); [lia|]. destruct (verified_is_proper _ _ _ Vj) as (Pj & _); [lia|].
  pose proof (pr_inc_count _ _ _ Pi) as Ci. pose proof (pr_inc_count _ _ _ Pj) as Cj.
  pose proof (pr_inc_known _ _ _ Pi) as Ki. pose proof (pr_inc_known _ _ _ Pj) as Kj. rewrite <- E in *.
  apply keys_incl in Ki. apply keys_incl in Kj.
  assert (NE : i_round i - 1 =? c_genesis c = false) by lia. rewrite NE in *.
  pose proof (inter_size N.eq_dec _ _ _ Ni Nj Ki Kj) as IS.
  exists (filter (inb N.eq_dec (akeys (i_includes j))) (akeys (i_includes i))). split; [apply NoDup_filter; exact Ni|].
  split; [intros p I; apply filter_In in I; tauto|].
  split; [intros p I; apply filter_In in I; apply (inb_spec N.eq_dec); tauto|].
  destruct Ci as [C3 Ci]. destruct Cj as [_ Cj]. destruct (faults_bound _ C3) as [FB _].
  unfold akeys in IS at 1 2. rewrite !map_length in IS. clear - IS Ci Cj FB. lia.
Qed.
(** two verified points of one author and round that prove different previous points carry signatures of at least
    F common peers, none of them the author: with at most F faulty peers, the author being one, an honest peer signed both *)
Theorem proofs_intersect c peers i j : basic_verify c peers i = VOk -> basic_verify c peers j = VOk ->
  i_round i = i_round j -> i_author i = i_author j -> c_genesis c < i_round i ->
  NoDup (peers (i_round i)) -> NoDup (akeys (i_evidence i)) -> NoDup (akeys (i_evidence j)) ->
  (exists d, In (i_author i, d) (i_includes i)) -> (exists d, In (i_author j, d) (i_includes j)) ->
  exists common, NoDup common /\ incl common (akeys (i_evidence i)) /\ incl common (akeys (i_evidence j)) /\
    ~ In (i_author i) common /\
    faults (N.of_nat (length (peers (i_round i)))) <= N.of_nat (length common).
Proof.
  intros Vi Vj E EA L NP Ni Nj HPi HPj.
  destruct (verified_is_proper _ _ _ Vi) as (Pi & _); [lia|]. destruct (verified_is_proper _ _ _ Vj) as (Pj & _); [lia|].
  pose proof (pr_ev_count _ _ _ Pi (proj1 (pr_proved _ _ _ Pi) HPi)) as Ci.
  pose proof (pr_ev_count _ _ _ Pj (proj1 (pr_proved _ _ _ Pj) HPj)) as Cj.
  pose proof (pr_evidence _ _ _ Pi) as Ki. pose proof (pr_evidence _ _ _ Pj) as Kj. rewrite <- E, <- EA in *.
  set (others := filter (fun p => negb (p =? i_author i)) (peers (i_round i))).
  assert (Oi : incl (akeys (i_evidence i)) others).
  { intros p I. unfold akeys in I. apply in_map_iff in I. destruct I as ([p' s] & <- & I). destruct (Ki _ _ I) as [A B].
    apply filter_In. split; [exact A|]. cbn. apply negb_true_iff. apply N.eqb_neq. exact B. }
  assert (Oj : incl (akeys (i_evidence j)) others).
  { intros p I. unfold akeys in I. apply in_map_iff in I. destruct I as ([p' s] & <- & I). destruct (Kj _ _ I) as [A B].
    apply filter_In. split; [exact A|]. cbn. apply negb_true_iff. apply N.eqb_neq. exact B. }
  assert (LO : (S (length others) <= length (peers (i_round i)))%nat).
  { change (S (length others)) with (length (i_author i :: others)). apply NoDup_incl_length.
    - constructor.
      + intros I. apply filter_In in I. destruct I as [_ I]. rewrite N.eqb_refl in I. discriminate.
      + apply NoDup_filter. exact NP.
    - intros p [<-|I]; [exact (pr_author _ _ _ Pi)|]. apply filter_In in I. tauto. }
  pose proof (inter_size N.eq_dec _ _ _ Ni Nj Oi Oj) as IS.
  exists (filter (inb N.eq_dec (akeys (i_evidence j))) (akeys (i_evidence i))). split; [apply NoDup_filter; exact Ni|].
  split; [intros p I; apply filter_In in I; tauto|].
  split; [intros p I; apply filter_In in I; apply (inb_spec N.eq_dec); tauto|].
  split.
  { intros I. apply filter_In in I. destruct I as [I _]. apply Oi in I. apply filter_In in I. destruct I as [_ I].
    rewrite N.eqb_refl in I. discriminate. }
  destruct Ci as [C3 Ci]. destruct Cj as [_ Cj]. destruct (faults_bound _ C3) as [FB _].
  unfold akeys in IS at 1 2. rewrite !map_length in IS. clear - IS Ci Cj FB LO. lia.
Qed.
Print Assumptions verified_is_proper.
Print Assumptions proper_is_verified.
Print Assumptions verified_genesis.
Print Assumptions includes_intersect.
Print Assumptions proofs_intersect.
