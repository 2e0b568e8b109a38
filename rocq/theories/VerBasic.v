(** What BasicVerifier accepts: exactly the proper points (C67). *)
From Verif Require Import VerModel VerSpec VerCheck PeerCountModel.
From Coq Require Import ZArith ZifyN ZifyNat ZifyBool.
Local Open Scope N_scope.

Lemma orelse_none {A} (a b : option A) : orelse a b = None <-> a = None /\ b = None.
Proof. destruct a; cbn; intuition congruence. Qed.
Lemma ifnone {A} (b : bool) (x : A) : (if b then Some x else None) = None <-> b = false.
Proof. destruct b; intuition congruence. Qed.
Lemma ifsome {A} (b : bool) (x : A) : (if b then None else Some x) = None <-> b = true.
Proof. destruct b; intuition congruence. Qed.
Lemma aget_inN {V} k (v : V) m : aget N.eqb k m = Some v -> In (k, v) m.
Proof. apply aget_some_in. intros; apply N.eqb_spec. Qed.
Lemma amem_in {V} k (m : list (N * V)) : amem N.eqb k m = true <-> exists v, In (k, v) m.
Proof.
  unfold amem. destruct (aget N.eqb k m) as [v|] eqn:E.
  - split; [|reflexivity]. intros _. exists v. apply aget_inN. exact E.
  - split; [discriminate|]. intros (v & I).
    assert (N : ~ In k (akeys m)) by (apply (aget_none N.eqb (fun a b => N.eqb_spec a b)); exact E).
    exfalso. apply N. unfold akeys. apply in_map_iff. exists (k, v). auto.
Qed.
Lemma amem_get {V} k (m : list (N * V)) : amem N.eqb k m = true <-> exists v, aget N.eqb k m = Some v.
Proof. unfold amem. destruct (aget N.eqb k m); split; intros; eauto; try discriminate. destruct H; discriminate. Qed.
Lemma amem_false {V} k (m : list (N * V)) : amem N.eqb k m = false <-> forall p v, In (p, v) m -> p <> k.
Proof.
  split.
  - intros E p v I ->. assert (amem N.eqb k m = true) by (apply amem_in; eauto). congruence.
  - intros H. destruct (amem N.eqb k m) eqn:E; [|reflexivity]. apply amem_in in E. destruct E as (v & I).
    exfalso. exact (H k v I eq_refl).
Qed.
Lemma known_in peers r p : known peers r p = true <-> In p (peers r).
Proof.
  unfold known. rewrite existsb_exists. split.
  - intros (x & I & E). apply N.eqb_eq in E. subst. exact I.
  - intros I. exists p. split; [exact I | apply N.eqb_refl].
Qed.
Lemma all_known_in {V} peers r (m : list (N * V)) : all_known peers r m = true <-> forall p v, In (p, v) m -> In p (peers r).
Proof.
  unfold all_known. rewrite forallb_forall. split.
  - intros H p v I. apply known_in. exact (H (p, v) I).
  - intros H [p v] I. cbn. apply known_in. eapply H; eauto.
Qed.
Lemma isnil_true {A} (l : list A) : isnil l = true <-> l = [].
Proof. destruct l; cbn; intuition congruence. Qed.
Lemma prev_some i : isSome (prev_digest i) = amem N.eqb (i_author i) (i_includes i).
Proof. reflexivity. Qed.
Lemma through_some i t : (exists p, through_id i t = Some p) <->
  match t with ThInc p => amem N.eqb p (i_includes i) = true | ThWit p => amem N.eqb p (i_witness i) = true end.
Proof.
  destruct t as [p|p]; cbn [through_id]; rewrite amem_get.
  - destruct (aget N.eqb p (i_includes i)); split; intros (v & E); eauto; discriminate.
  - destruct (aget N.eqb p (i_witness i)); split; intros (v & E); eauto; discriminate.
Qed.
Lemma through_dep i t p : through_id i t = Some p ->
  In p (dep_ids i) /\ p_round p = match t with ThInc _ => i_round i - 1 | ThWit _ => i_round i - 2 end.
Proof.
  destruct t as [q|q]; cbn [through_id]; unfold dep_ids.
  - destruct (aget N.eqb q (i_includes i)) as [d|] eqn:E; [|discriminate]. intros H; inversion H; subst. split; [|reflexivity].
    apply in_or_app. left. apply in_map_iff. exists (q, d). split; [reflexivity|]. apply aget_inN. exact E.
  - destruct (aget N.eqb q (i_witness i)) as [d|] eqn:E; [|discriminate]. intros H; inversion H; subst. split; [|reflexivity].
    apply in_or_app. right. apply in_map_iff. exists (q, d). split; [reflexivity|]. apply aget_inN. exact E.
Qed.
Lemma indirect_error_none i l : indirect_error i l = None <->
  exists th, through_id i (il_path l) = Some th /\ p_round (il_to l) < p_round th.
Proof.
  unfold indirect_error. destruct (il_path l) as [p|p] eqn:P.
  - rewrite ifnone, orb_false_iff, negb_false_iff. split.
    + intros (A & B). destruct (proj2 (through_some i (ThInc p)) A) as [th T]. exists th. split; [exact T|].
      destruct (through_dep _ _ _ T) as [_ R]. rewrite R. lia.
    + intros (th & T & L). destruct (through_dep _ _ _ T) as [_ R]. split; [|rewrite R in L; lia].
      apply (proj1 (through_some i (ThInc p))). eauto.
  - rewrite ifnone, orb_false_iff, negb_false_iff. split.
    + intros (A & B). destruct (proj2 (through_some i (ThWit p)) A) as [th T]. exists th. split; [exact T|].
      destruct (through_dep _ _ _ T) as [_ R]. rewrite R. lia.
    + intros (th & T & L). destruct (through_dep _ _ _ T) as [_ R]. split; [|rewrite R in L; lia].
      apply (proj1 (through_some i (ThWit p))). eauto.
Qed.

(** the link checks in words *)
Definition link_fine (i : info) (r : srole) : Prop :=
  match anchor_link r i with
  | ToSelf => amem N.eqb (i_author i) (i_includes i) = true /\ i_evidence i <> []
  | Direct t => exists th, through_id i t = Some th
  | Indirect l => exists th, through_id i (il_path l) = Some th /\ p_round (il_to l) < p_round th
  end.
Lemma link_error_none i r : link_error i r = None <-> link_fine i r.
Proof.
  unfold link_error, link_fine. rewrite prev_some. destruct (anchor_link r i) as [|t|l]; cbn [is_self].
  - destruct (amem N.eqb (i_author i) (i_includes i)).
    + rewrite ifnone, andb_true_r. destruct (i_evidence i); cbn; intuition congruence.
    + split; [discriminate | intros (? & _); discriminate].
  - pose proof (through_some i t) as T. destruct t as [p|p].
    + destruct (amem N.eqb p (i_includes i)).
      * rewrite ifnone, andb_false_r. tauto.
      * split; [discriminate|]. intros E. apply T in E. discriminate.
    + destruct (amem N.eqb p (i_witness i)).
      * rewrite ifnone, andb_false_r. tauto.
      * split; [discriminate|]. intros E. apply T in E. discriminate.
  - pose proof (indirect_error_none i l) as T. destruct (indirect_error i l).
    + split; [discriminate|]. intros E. apply T in E. discriminate.
    + rewrite ifnone, andb_false_r. tauto.
Qed.

(** ** the sizes of peer sets the verifier can work with *)
Definition set_ok (peers : round -> list peer) (r : round) : Prop :=
  3 <= N.of_nat (length (peers r)) /\ N.of_nat (length (peers r)) <= 253.
Definition sets_ok (c : vconf) (peers : round -> list peer) (i : info) : Prop :=
  set_ok peers (i_round i) /\
  (i_round i - 1 = c_genesis c -> length (peers (i_round i - 1)) = 1%nat) /\
  (i_round i - 1 <> c_genesis c -> set_ok peers (i_round i - 1)) /\
  (i_round i - 2 = c_genesis c -> length (peers (i_round i - 2)) = 1%nat) /\
  (i_round i - 1 <> c_genesis c -> i_round i - 2 <> c_genesis c -> set_ok peers (i_round i - 2)).
Definition link_authors_known (peers : round -> list peer) (i : info) : Prop :=
  (forall l, indirect_proof i = Some l -> In (p_author (il_to l)) (peers (p_round (il_to l)))) /\
  (forall r l, anchor_link r i = Indirect l -> In (p_author (il_to l)) (peers (p_round (il_to l)))).
Lemma peer_count_ok n : (exists f, peer_count n = PcOk f) <-> 3 <= n /\ n <= 253.
Proof.
  unfold peer_count. destruct (N.ltb_spec n 3) as [L|L].
  - split; [intros (f & E); discriminate | lia].
  - destruct (N.ltb_spec 255 ((n + 1) / 3 * 3 + 1)) as [M|M].
    + split; [intros (f & E); discriminate | intros (_ & U)].
      assert ((n + 1) / 3 <= 84) by (apply N.div_le_upper_bound; lia). lia.
    + split; [intros _|eauto]. split; [lia|].
      destruct (N.le_gt_cases n 253) as [K|K]; [exact K|exfalso].
      assert (85 <= (n + 1) / 3) by (apply N.div_le_lower_bound; lia). lia.
Qed.
Lemma pcount_false peers r f : pcount peers false r = PcOk f <-> set_ok peers r /\ f = faults (N.of_nat (length (peers r))).
Proof.
  unfold pcount, plen, set_ok. rewrite <- peer_count_ok. split.
  - intros E. split; [eauto|]. unfold peer_count in E. destruct (_ <? 3); [discriminate|]. destruct (255 <? _); [discriminate|].
    inversion E. reflexivity.
  - intros ((f' & E) & ->). rewrite E. unfold peer_count in E. destruct (_ <? 3); [discriminate|]. destruct (255 <? _); [discriminate|].
    inversion E. reflexivity.
Qed.
Lemma pcount_true peers r f : pcount peers true r = PcOk f <-> length (peers r) = 1%nat /\ f = 0.
Proof.
  unfold pcount, plen, full, pc_genesis. destruct (N.eqb_spec (N.of_nat (length (peers r))) (0 * 3 + 1)) as [E|E].
  - split; [intros H; inversion H; split; [lia|reflexivity] | intros (_ & ->); reflexivity].
  - split; [discriminate | intros (H & _)]. exfalso. apply E. rewrite H. reflexivity.
Qed.
Lemma counts_inr c peers i ca cb cw : basic_counts c peers i = inr (ca, cb, cw) -> i_round i <> c_genesis c ->
  0 < c_genesis c /\ c_genesis c < i_round i /\ sets_ok c peers i /\
  ca = faults (N.of_nat (length (peers (i_round i)))) /\
  cb = Some (if i_round i - 1 =? c_genesis c then 0 else faults (N.of_nat (length (peers (i_round i - 1))))) /\
  (cw = None <-> i_round i - 1 = c_genesis c).
Proof.
  unfold basic_counts. destruct (N.eqb_spec (c_genesis c) 0) as [G|G]; [discriminate|]. intros E NG.
  remember (i_round i - (c_genesis c - 1)) as d eqn:D.
  destruct (N.lt_trichotomy d 2) as [L|[L|L]].
  - assert (Z : d = 0 \/ d = 1) by lia. destruct Z as [Z|Z]; rewrite Z in E; [discriminate|]. lia.
  - rewrite L in E. destruct (pcount peers false (i_round i)) as [a| |] eqn:A; try discriminate.
    destruct (pcount peers true (i_round i - 1)) as [b| |] eqn:B; try discriminate. inversion E; subst ca cb cw; clear E.
    apply pcount_false in A. destruct A as [A ->]. apply pcount_true in B. destruct B as [B ->].
    assert (R : i_round i - 1 = c_genesis c) by lia. unfold sets_ok. rewrite <- R, N.eqb_refl.
    split; [lia|]. split; [lia|]. split; [|tauto].
    split; [exact A|]. split; [auto|]. split; [congruence|]. split; [lia|]. congruence.
  - assert (R : i_round i - 1 <> c_genesis c) by lia.
    assert (E' : match pcount peers (d =? 3) (i_round i - 2) with
      | PcOk w => match pcount peers false (i_round i) with
         | PcOk a => match pcount peers false (i_round i - 1) with
            | PcOk b => inr (a, Some b, Some w) | PcErr => inl VFail | PcPanic => inl VPanic end
         | PcErr => inl VFail | PcPanic => inl VPanic end
      | PcErr => inl VFail | PcPanic => inl VPanic end = inr (ca, cb, cw)).
    { destruct d as [|[[p|p|]|[p|p|]|]]; try lia; exact E. }
    clear E. destruct (pcount peers (d =? 3) (i_round i - 2)) as [w| |] eqn:W; try discriminate.
    destruct (pcount peers false (i_round i)) as [a| |] eqn:A; try discriminate.
    destruct (pcount peers false (i_round i - 1)) as [b| |] eqn:B; try discriminate. inversion E'; subst ca cb cw; clear E'.
    apply pcount_false in A. destruct A as [A ->]. apply pcount_false in B. destruct B as [B ->].
    apply N.eqb_neq in R as R'. rewrite R'.
    split; [lia|]. split; [lia|]. split; [|split; [reflexivity|split; [reflexivity|split; [discriminate|contradiction]]]].
    split; [exact A|]. split; [congruence|]. split; [auto|].
    destruct (N.eqb_spec d 3) as [Q|Q].
    + apply pcount_true in W. split; [tauto|]. intros _ K. exfalso. lia.
    + apply pcount_false in W. split; [intros K; exfalso; lia|]. tauto.
Qed.
Lemma counts_of c peers i : 0 < c_genesis c -> c_genesis c < i_round i -> sets_ok c peers i ->
  exists ca cb cw, basic_counts c peers i = inr (ca, cb, cw).
Proof.
  intros G R (A & B1 & B2 & C1 & C2). unfold basic_counts.
  destruct (N.eqb_spec (c_genesis c) 0) as [Z|_]; [lia|].
  remember (i_round i - (c_genesis c - 1)) as d eqn:D.
  assert (PA : pcount peers false (i_round i) = PcOk (faults (N.of_nat (length (peers (i_round i)))))).
  { apply pcount_false. auto. }
  destruct (N.lt_trichotomy d 2) as [L|[L|L]]; [lia| |].
  - rewrite L, PA. assert (PB : pcount peers true (i_round i - 1) = PcOk 0).
    { apply pcount_true. split; [|reflexivity]. apply B1. lia. }
    rewrite PB. eauto.
  - assert (PB : pcount peers false (i_round i - 1) = PcOk (faults (N.of_nat (length (peers (i_round i - 1)))))).
    { apply pcount_false. split; [|reflexivity]. apply B2. lia. }
    assert (PW : exists w, pcount peers (d =? 3) (i_round i - 2) = PcOk w).
    { destruct (N.eqb_spec d 3) as [Q|Q].
      - exists 0. apply pcount_true. split; [|reflexivity]. apply C1. lia.
      - eexists. apply pcount_false. split; [|reflexivity]. apply C2; lia. }
    destruct PW as [w PW].
    destruct d as [|[[p|p|]|[p|p|]|]]; try lia; rewrite PW, PA, PB; eauto.
Qed.
Lemma link_peers_none peers i : link_peers_error peers i = None <-> link_authors_known peers i.
Proof.
  unfold link_peers_error, link_authors_known.
  assert (K : forall l e, (if negb (known peers (p_round (il_to l)) (p_author (il_to l))) then Some e else None) = (None : option ill_reason)
     <-> In (p_author (il_to l)) (peers (p_round (il_to l)))).
  { intros l e. rewrite ifnone, negb_false_iff. apply known_in. }
  rewrite !orelse_none. split.
  - intros (A & B & C). split.
    + intros l E. rewrite E in A. apply K in A. exact A.
    + intros [] l E; cbn in E.
      * rewrite E in C. apply K in C. exact C.
      * rewrite E in B. apply K in B. exact B.
  - intros (A & B). split; [|split].
    + destruct (indirect_proof i) as [l|]; [|reflexivity]. apply K. apply A. reflexivity.
    + destruct (anchor_proof i) as [| |l] eqn:E; try reflexivity. apply K. apply (B SProof). exact E.
    + destruct (anchor_trigger i) as [| |l] eqn:E; try reflexivity. apply K. apply (B STrigger). exact E.
Qed.
