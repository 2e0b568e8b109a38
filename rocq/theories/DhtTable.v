(** C26 (routing table invariants) and C27 (what [closest] returns). *)
From Verif Require Import Bytes DhtModel DhtDist DhtProps.
From Coq Require Import List NArith ZArith Bool Lia Permutation Arith ZifyBool ZifyNat ZifyN.
Import ListNotations.
Local Open Scope N_scope.
Local Opaque de be xor_distance.

Definition ids (l : list node) : list id := map n_id l.

Record inv (max_k : nat) (local : id) (b : buckets) : Prop := {
  inv_nodup : forall i, NoDup (ids (b i));
  inv_len : forall i, (length (b i) <= max_k)%nat;
  inv_at : forall i n, In n (b i) -> id_ok (n_id n) /\ xor_distance local (n_id n) = i;
  inv_0 : b 0 = []
}.

Lemma in_remove_first p l n : NoDup (ids l) ->
  In n (remove_first p l) <-> In n l /\ n_id n <> p.
Proof.
  induction l as [|m l IH]; intros ND; cbn [remove_first]; [cbn; tauto|].
  inversion ND as [|? ? Hn Hd]; subst.
  destruct (id_eqb_spec (n_id m) p) as [E|E].
  - split.
    + intros H. split; [now right|]. intros E2. apply Hn. rewrite E, <- E2. now apply in_map.
    + intros [[->|H] H2]; [contradiction|assumption].
  - cbn [In]. rewrite IH by assumption. split.
    + intros [->|[H1 H2]]; auto.
    + intros [[->|H1] H2]; auto.
Qed.

Lemma nodup_remove_first p l : NoDup (ids l) -> NoDup (ids (remove_first p l)).
Proof.
  induction l as [|m l IH]; intros ND; cbn [remove_first]; [constructor|].
  inversion ND as [|? ? Hn Hd]; subst.
  destruct (id_eqb (n_id m) p); [assumption|]. cbn. constructor; [|now apply IH].
  intros H. apply in_map_iff in H as (x & E & Hx). apply in_remove_first in Hx as [Hx _]; [|assumption].
  apply Hn. rewrite <- E. now apply in_map.
Qed.

Lemma length_remove_first p l : bucket_contains p l = true ->
  S (length (remove_first p l)) = length l.
Proof.
  induction l as [|m l IH]; cbn; [discriminate|].
  destruct (id_eqb (n_id m) p); cbn; [reflexivity|]. intros H. now rewrite IH.
Qed.

Lemma bucket_contains_spec p l : bucket_contains p l = true <-> In p (ids l).
Proof.
  unfold bucket_contains, ids. rewrite existsb_exists, in_map_iff. split.
  - intros (x & Hx & E). destruct (id_eqb_spec (n_id x) p); [|discriminate]. eauto.
  - intros (x & E & Hx). exists x. split; [assumption|]. now destruct (id_eqb_spec (n_id x) p).
Qed.

Lemma nodup_snoc l (p : node) : NoDup (ids l) -> ~ In (n_id p) (ids l) -> NoDup (ids (l ++ [p])).
Proof.
  intros H1 H2. unfold ids. rewrite map_app. cbn.
  apply (Permutation_NoDup (l := n_id p :: ids l)).
  - change (n_id p :: ids l) with ([n_id p] ++ ids l). apply Permutation_app_comm.
  - now constructor.
Qed.

(** what an insertion does to a bucket *)
Lemma insert_spec max_k l p expired fok :
  NoDup (ids l) -> (length l <= max_k)%nat ->
  let r := bucket_insert l p max_k expired fok in
  NoDup (ids (fst r)) /\ (length (fst r) <= max_k)%nat /\
  (snd r = false -> fst r = l) /\
  (snd r = true -> fok = true /\ exists ev : option node,
     (forall e, ev = Some e -> In e l /\ expired e = true /\ length l = max_k /\
                               ~ In (n_id p) (ids l)) /\
     (forall n, In n (fst r) <-> n = p \/ (In n l /\ n_id n <> n_id p /\ ev <> Some n))) /\
  (fok = true -> snd r = false ->
     ~ In (n_id p) (ids l) /\ length l = max_k /\
     (forall e, hd_error l = Some e -> expired e = false)).
Proof.
  intros ND LEN. unfold bucket_insert.
  destruct (bucket_contains (n_id p) l) eqn:C.
  - assert (C' := C). apply bucket_contains_spec in C.
    destruct fok; cbn [fst snd].
    + split; [|split; [|split; [discriminate|split; [|discriminate]]]].
      * apply nodup_snoc; [now apply nodup_remove_first|].
        intros H. apply in_map_iff in H as (x & E & Hx).
        apply in_remove_first in Hx; [|assumption]. now destruct Hx.
      * rewrite app_length. cbn [length]. assert (H := length_remove_first (n_id p) l).
        rewrite C' in H. specialize (H eq_refl). lia.
      * intros _. split; [reflexivity|]. exists None. split; [discriminate|].
        intros n. rewrite in_app_iff, in_remove_first by assumption. cbn [In].
        split.
        { intros [[A B]|[A|[]]]; [right; repeat split; auto; discriminate|now left]. }
        { intros [A|(A & B & _)]; auto. }
    + split; [assumption|]. split; [assumption|]. split; [reflexivity|].
      split; discriminate.
  - assert (NC : ~ In (n_id p) (ids l)).
    { intros H. apply bucket_contains_spec in H. congruence. }
    destruct (Nat.leb_spec max_k (length l)) as [F|F].
    + destruct l as [|front r]; cbn [fst snd].
      { split; [assumption|]. split; [assumption|]. split; [reflexivity|].
        split; [discriminate|]. intros _ _. split; [assumption|]. split; [lia|]. discriminate. }
      destruct (expired front && fok) eqn:EX; cbn [fst snd].
      * apply andb_true_iff in EX as [EX ->]. inversion ND as [|? ? Hn Hd]; subst.
        split; [|split; [|split; [discriminate|split; [|discriminate]]]].
        { apply nodup_snoc; [assumption|]. intros H. apply NC. now right. }
        { rewrite app_length. cbn [length] in *. lia. }
        intros _. split; [reflexivity|]. exists (Some front). split.
        { intros e [= <-]. split; [now left|]. split; [assumption|]. split; [lia|assumption]. }
        intros n. rewrite in_app_iff. cbn [In]. split.
        { intros [A|[A|[]]]; [right|now left].
          split; [now right|]. split.
          - intros E. apply NC. right. rewrite <- E. now apply in_map.
          - intros [= ->]. apply Hn. now apply in_map. }
        { intros [A|([A|A] & B & D)]; [auto|subst n; congruence|auto]. }
      * split; [assumption|]. split; [assumption|]. split; [reflexivity|].
        split; [discriminate|]. intros -> _. split; [assumption|]. split; [lia|].
        intros e [= <-]. now rewrite andb_true_r in EX.
    + destruct fok; cbn [fst snd].
      * split; [|split; [|split; [discriminate|split; [|discriminate]]]].
        { now apply nodup_snoc. }
        { rewrite app_length. cbn [length]. lia. }
        intros _. split; [reflexivity|]. exists None. split; [discriminate|].
        intros n. rewrite in_app_iff. cbn [In]. split.
        { intros [A|[A|[]]]; [right|now left]. split; [assumption|]. split; [|discriminate].
          intros E. apply NC. rewrite <- E. now apply in_map. }
        { intros [A|(A & _)]; auto. }
      * split; [assumption|]. split; [assumption|]. split; [reflexivity|]. split; discriminate.
Qed.

Lemma add_local t p k e f : local_id (fst (add t p k e f)) = local_id t.
Proof. unfold add. now destruct (_ =? 0). Qed.

Lemma inv_add max_k t p e f : id_ok (local_id t) -> id_ok (n_id p) ->
  inv max_k (local_id t) (bks t) -> inv max_k (local_id t) (bks (fst (add t p max_k e f))).
Proof.
  intros LO PO I. unfold add. set (d := xor_distance (local_id t) (n_id p)).
  destruct (N.eqb_spec d 0) as [D|D]; [assumption|]. cbn [fst bks].
  destruct (insert_spec max_k (bks t d) p e f (inv_nodup _ _ _ I d) (inv_len _ _ _ I d))
    as (A & B & C & F & _).
  set (r := bucket_insert (bks t d) p max_k e f) in *.
  split; unfold set_bucket.
  - intros i. destruct (i =? d); [assumption|apply I].
  - intros i. destruct (i =? d); [assumption|apply I].
  - intros i n. destruct (N.eqb_spec i d) as [->|]; [|apply I].
    intros H. destruct (snd r) eqn:S1.
    + destruct (F eq_refl) as (_ & ev & _ & G). destruct (proj1 (G n) H) as [E1|(H2 & _)]; [subst n; auto|].
      now apply I.
    + rewrite C in H by reflexivity. now apply I.
  - destruct (N.eqb_spec 0 d); [lia|apply I].
Qed.

Lemma nodup_filter_ids keep l : NoDup (ids l) -> NoDup (ids (filter keep l)).
Proof.
  induction l as [|m l IH]; intros ND; cbn; [constructor|].
  inversion ND as [|? ? Hn Hd]; subst. destruct (keep m); [|now apply IH].
  cbn. constructor; [|now apply IH]. intros H. apply Hn.
  apply in_map_iff in H as (x & E & Hx). apply filter_In in Hx as [Hx _].
  apply in_map_iff. eauto.
Qed.
Lemma filter_length_le' {A} (f : A -> bool) l : (length (filter f l) <= length l)%nat.
Proof. induction l as [|x l IH]; cbn; [lia|]. destruct (f x); cbn; lia. Qed.

Lemma inv_retain max_k t keep :
  inv max_k (local_id t) (bks t) -> inv max_k (local_id t) (bks (retain t keep)).
Proof.
  intros I. split; cbn [retain bks].
  - intros i. apply nodup_filter_ids, I.
  - intros i. eapply Nat.le_trans; [apply filter_length_le'|apply I].
  - intros i n H. apply filter_In in H as [H _]. now apply I.
  - now rewrite (inv_0 _ _ _ I).
Qed.

Lemma inv_run max_k local ops : id_ok local -> Forall op_ok ops ->
  local_id (run max_k local ops) = local /\ inv max_k local (bks (run max_k local ops)).
Proof.
  intros LO. unfold run.
  assert (G : forall t, local_id t = local -> inv max_k local (bks t) -> Forall op_ok ops ->
    local_id (fold_left (step max_k) ops t) = local /\
    inv max_k local (bks (fold_left (step max_k) ops t))).
  { induction ops as [|o ops IH]; intros t L I F; [auto|].
    inversion F as [|? ? H1 H2]; subst. cbn [fold_left].
    assert (L' : local_id (step max_k t o) = local_id t).
    { destruct o; cbn [step]; [apply add_local|reflexivity]. }
    apply IH; [assumption| |assumption].
    destruct o; cbn [step]; [now apply inv_add|now apply inv_retain]. }
  intros F. apply G; [reflexivity| |assumption].
  split; cbn; intros; try constructor; try contradiction; lia.
Qed.

(** ** enumeration of the buckets *)
Lemma in_range lo hi i : In i (n_range lo hi) <-> lo <= i < hi.
Proof.
  unfold n_range. rewrite in_map_iff. split.
  - intros (k & <- & H). apply in_seq in H. lia.
  - intros H. exists (N.to_nat (i - lo)). split; [lia|]. apply in_seq. lia.
Qed.
Lemma nodup_range lo hi : NoDup (n_range lo hi).
Proof. unfold n_range. apply FinFun.Injective_map_NoDup; [intros x y; lia|apply seq_NoDup]. Qed.

Lemma order_perm d : d <= MAX_XOR_DISTANCE ->
  Permutation (visit_order d) (n_range 0 (MAX_XOR_DISTANCE + 1)).
Proof.
  intros Hd. apply NoDup_Permutation.
  - unfold visit_order.
    apply (Permutation_NoDup (l := n_range 0 d ++ n_range d (MAX_XOR_DISTANCE + 1))).
    + rewrite Permutation_app_comm. apply Permutation_app_head, Permutation_rev.
    + assert (G : forall A B : list N, NoDup A -> NoDup B -> (forall x, In x A -> ~ In x B) -> NoDup (A ++ B)).
      { induction A as [|x A IH]; intros B HA HB HD; [assumption|]. cbn.
        inversion HA; subst. constructor.
        - rewrite in_app_iff. intros [H|H]; [contradiction|]. eapply HD; [left; reflexivity|assumption].
        - apply IH; auto. intros y Hy. apply HD. now right. }
      apply G; try apply nodup_range. intros x. rewrite !in_range. lia.
  - apply nodup_range.
  - intros x. unfold visit_order. rewrite in_app_iff, <- in_rev, !in_range. lia.
Qed.

Lemma flat_map_perm {A B} (f : A -> list B) l l' : Permutation l l' ->
  Permutation (flat_map f l) (flat_map f l').
Proof.
  induction 1; cbn; auto.
  - now apply Permutation_app_head.
  - rewrite !app_assoc. apply Permutation_app_tail, Permutation_app_comm.
  - eapply Permutation_trans; eassumption.
Qed.

Section WithInv.
Variables (max_k : nat) (t : table).
Hypothesis LO : id_ok (local_id t).
Hypothesis I : inv max_k (local_id t) (bks t).

Lemma dist_le i n : In n (bks t i) -> i <= 256.
Proof.
  intros H. apply I in H as [H1 <-].
  now destruct (C30_ultrametric _ _ _ LO H1 LO) as (_ & _ & ? & _).
Qed.

Lemma in_known n : In n (known t) <-> exists i, In n (bks t i).
Proof.
  unfold known. rewrite in_flat_map. split; [intros (i & _ & H); eauto|].
  intros (i & H). exists i. split; [|assumption]. apply in_range.
  assert (B := dist_le i n H). unfold MAX_XOR_DISTANCE. lia.
Qed.

Lemma nodup_flat l : NoDup l -> NoDup (ids (flat_map (bks t) l)).
Proof.
  unfold ids. induction l as [|i l IH]; intros ND; [constructor|]. cbn [flat_map].
  inversion ND as [|? ? Hi Hl]; subst. rewrite map_app.
  assert (G : forall A B : list id, NoDup A -> NoDup B -> (forall x, In x A -> ~ In x B) -> NoDup (A ++ B)).
  { induction A as [|x A IHA]; intros B HA HB HD; [assumption|]. cbn.
    inversion HA; subst. constructor.
    - rewrite in_app_iff. intros [H|H]; [contradiction|]. eapply HD; [left; reflexivity|assumption].
    - apply IHA; auto. intros y Hy. apply HD. now right. }
  apply G; [apply I|now apply IH|].
  intros x H1 H2. apply in_map_iff in H1 as (n & <- & Hn).
  apply in_map_iff in H2 as (m & E & Hm). apply in_flat_map in Hm as (j & Hj & Hm).
  apply I in Hn as [_ Hn]. apply I in Hm as [_ Hm]. rewrite E in Hm. subst. contradiction.
Qed.

Lemma known_nodup : NoDup (ids (known t)).
Proof. apply nodup_flat, nodup_range. Qed.

Lemma contains_spec p : id_ok p -> contains t p = true <-> In p (ids (known t)).
Proof.
  intros PO. unfold contains. rewrite bucket_contains_spec. unfold ids. rewrite !in_map_iff.
  split.
  - intros (n & E & H). exists n. split; [assumption|]. apply in_known. eauto.
  - intros (n & E & H). exists n. split; [assumption|]. apply in_known in H as (i & H).
    destruct (inv_at _ _ _ I i n H) as [_ D]. rewrite E in D. now rewrite D.
Qed.
End WithInv.

(** ** C26.  After any history of additions (any peers, any expiry answers, any outcome of the
    known-peers insertion) and removals. *)
Theorem C26_table_invariants : forall max_k local ops,
  id_ok local -> Forall op_ok ops ->
  let t := run max_k local ops in
  NoDup (map n_id (known t)) /\
  ~ In local (map n_id (known t)) /\
  (forall i, (length (bks t i) <= max_k)%nat) /\
  (forall i n, In n (bks t i) -> xor_distance local (n_id n) = i) /\
  (forall i n, In n (bks t i) -> In n (known t)) /\
  (forall p, id_ok p -> contains t p = true <-> In p (map n_id (known t))).
Proof.
  intros max_k local ops LO F t. destruct (inv_run max_k local ops LO F) as [L I]. fold t in L, I.
  assert (LO' : id_ok (local_id t)) by now rewrite L.
  assert (I' : inv max_k (local_id t) (bks t)) by now rewrite L.
  split; [eapply known_nodup; eassumption|]. split.
  - intros H. apply in_map_iff in H as (n & E & H).
    apply (in_known max_k t LO' I') in H as (i & H).
    destruct (inv_at _ _ _ I i n H) as [_ D]. rewrite E in D.
    assert (Z : xor_distance local local = 0)
      by (apply (C30_ultrametric local local local LO LO LO); reflexivity).
    rewrite Z in D. subst i. rewrite (inv_0 _ _ _ I) in H. contradiction.
  - split; [apply I|]. split; [intros i n H; now apply I|]. split.
    + intros i n H. apply (in_known max_k t LO' I'). eauto.
    + intros p P. now apply (contains_spec max_k).
Qed.

(** What one [add] does: on success the peer is stored (replacing its old entry) and at most
    one other node disappears, an expired one from a full bucket; on failure nothing changes;
    failure happens only for the local id, a refused callback, or a full bucket whose front is
    not expired. *)
Theorem C26_add : forall max_k local ops p expired fok,
  id_ok local -> Forall op_ok ops -> id_ok (n_id p) ->
  let t := run max_k local ops in
  let r := add t p max_k expired fok in
  (snd r = true ->
     fok = true /\ n_id p <> local /\
     exists ev : option node,
       (forall e, ev = Some e -> In e (known t) /\ expired e = true /\
          ~ In (n_id p) (map n_id (known t)) /\
          length (bks t (xor_distance local (n_id p))) = max_k) /\
       (forall n, In n (known (fst r)) <->
                  n = p \/ (In n (known t) /\ n_id n <> n_id p /\ ev <> Some n))) /\
  (snd r = false -> forall i, bks (fst r) i = bks t i) /\
  (snd r = false -> fok = true -> n_id p <> local ->
     ~ In (n_id p) (map n_id (known t)) /\
     length (bks t (xor_distance local (n_id p))) = max_k /\
     forall e, hd_error (bks t (xor_distance local (n_id p))) = Some e -> expired e = false).
Proof.
  intros max_k local ops p expired fok LO F PO t r.
  destruct (inv_run max_k local ops LO F) as [L I]. fold t in L, I.
  assert (LO' : id_ok (local_id t)) by now rewrite L.
  assert (I' : inv max_k (local_id t) (bks t)) by now rewrite L.
  assert (I2 : inv max_k (local_id (fst r)) (bks (fst r))).
  { unfold r. rewrite add_local. now apply inv_add. }
  assert (LO2 : id_ok (local_id (fst r))) by (unfold r; now rewrite add_local).
  assert (INK := in_known max_k t LO' I'). assert (INK2 := in_known max_k (fst r) LO2 I2).
  assert (CS := contains_spec max_k t LO' I' (n_id p) PO).
  unfold contains in CS. rewrite bucket_contains_spec, L in CS. unfold ids in CS.
  assert (Z : xor_distance local (n_id p) = 0 <-> local = n_id p)
    by (apply (C30_ultrametric local (n_id p) local LO PO LO)).
  unfold r, add in INK2 |- *. rewrite L in *. set (d := xor_distance local (n_id p)) in *.
  destruct (N.eqb_spec d 0) as [D|D]; cbn [fst snd].
  { split; [discriminate|]. split; [reflexivity|]. intros _ _ H. apply Z in D. congruence. }
  cbn [fst] in INK2.
  destruct (insert_spec max_k (bks t d) p expired fok (inv_nodup _ _ _ I d) (inv_len _ _ _ I d))
    as (A & B & C & G & H).
  set (q := bucket_insert (bks t d) p max_k expired fok) in *.
  split; [|split].
  - intros S1. destruct (G S1) as (G1 & ev & G2 & G3). split; [assumption|]. split.
    { intros E. apply D, Z. auto. }
    exists ev. split.
    + intros e E. destruct (G2 e E) as (E1 & E2 & E3 & E4). split; [apply INK; eauto|].
      split; [assumption|]. split; [|assumption]. intros X. apply E4. apply CS. exact X.
    + intros n. rewrite INK2, INK. cbn [bks]. unfold set_bucket. split.
      * intros (i & Hi). destruct (N.eqb_spec i d) as [Ei|Hne].
        { destruct (proj1 (G3 n) Hi) as [E1|(X1 & X2 & X3)]; [now left|right; eauto]. }
        right. split; [eauto|]. destruct (inv_at _ _ _ I i n Hi) as [_ Di]. split.
        { intros E. rewrite E in Di. fold d in Di. congruence. }
        intros E. destruct (G2 n E) as (E1 & _). destruct (inv_at _ _ _ I d n E1) as [_ Dd]. congruence.
      * intros [->|((i & Hi) & X2 & X3)].
        { exists d. rewrite N.eqb_refl. apply G3. now left. }
        destruct (inv_at _ _ _ I i n Hi) as [_ Di].
        exists i. destruct (N.eqb_spec i d) as [Ei|Hne]; [rewrite Ei in Hi|assumption].
        apply G3. right; auto.
  - intros S0 i. cbn [bks]. unfold set_bucket. destruct (N.eqb_spec i d) as [Ei|]; [rewrite Ei|]; auto.
  - intros S0 Fk NL. destruct (H Fk S0) as (H1 & H2 & H3). split; [|auto].
    intros X. apply H1. apply CS. exact X.
Qed.

(** removal keeps exactly the nodes the predicate keeps *)
Theorem C26_retain : forall max_k local ops keep,
  id_ok local -> Forall op_ok ops ->
  let t := run max_k local ops in
  forall n, In n (known (retain t keep)) <-> In n (known t) /\ keep n = true.
Proof.
  intros max_k local ops keep LO F t n. unfold known. rewrite !in_flat_map. cbn [retain bks].
  split.
  - intros (i & Hi & H). apply filter_In in H as [H K]. split; [eauto|assumption].
  - intros ((i & Hi & H) & K). exists i. split; [assumption|]. apply filter_In. auto.
Qed.

(** ** C27 *)
Lemma closest_loop_spec b order count acc : (length acc <= count)%nat ->
  closest_loop b order count acc = firstn count (acc ++ flat_map b order).
Proof.
  revert acc; induction order as [|i order IH]; intros acc H; cbn [closest_loop flat_map].
  - rewrite app_nil_r. symmetry. now apply firstn_all2.
  - destruct (count - length acc)%nat as [|rem] eqn:R.
    + rewrite firstn_app, R. cbn [firstn]. rewrite app_nil_r.
      symmetry. apply firstn_all2. lia.
    + rewrite IH by (rewrite app_length, firstn_length; lia).
      rewrite <- R. rewrite app_assoc.
      rewrite (firstn_app count (acc ++ _)), (firstn_app count (acc ++ b i)).
      rewrite !app_length, firstn_length.
      rewrite (firstn_app count acc (firstn _ _)), (firstn_app count acc (b i)).
      rewrite firstn_firstn, Nat.min_id. rewrite <- !app_assoc. f_equal. f_equal.
      destruct (Nat.le_gt_cases (length (b i)) (count - length acc)) as [L|L].
      * replace (Nat.min (count - length acc) (length (b i))) with (length (b i)) by lia.
        reflexivity.
      * replace (count - (length acc + Nat.min (count - length acc) (length (b i))))%nat with 0%nat by lia.
        replace (count - (length acc + length (b i)))%nat with 0%nat by lia.
        reflexivity.
Qed.

Lemma closest_spec t key count :
  closest t key count =
  firstn count (flat_map (bks t) (visit_order (xor_distance (local_id t) key))).
Proof.
  unfold closest. destruct count as [|c]; [reflexivity|].
  rewrite closest_loop_spec; [reflexivity|cbn; lia].
Qed.

Lemma in_firstn {A} n (l : list A) x : In x (firstn n l) -> In x l.
Proof. intros H. rewrite <- (firstn_skipn n l). apply in_app_iff. now left. Qed.

Lemma nodup_firstn {A} n (l : list A) : NoDup l -> NoDup (firstn n l).
Proof.
  revert n; induction l as [|x l IH]; intros [|n] H; cbn; try constructor.
  - inversion H; subst. intros X. now apply in_firstn in X.
  - inversion H; subst. now apply IH.
Qed.

(** if [y] is among the first [c] of [flat_map f (A ++ B)] and [x], in some list of [A], is
    not, then [y] is in a list of [A] *)
Lemma firstn_prefix {X} (f : N -> list X) A B c x y :
  In x (flat_map f A) -> ~ In x (firstn c (flat_map f (A ++ B))) ->
  In y (firstn c (flat_map f (A ++ B))) -> In y (flat_map f A).
Proof.
  intros Hx Hnx Hy. rewrite flat_map_app in *.
  destruct (Nat.le_gt_cases (length (flat_map f A)) c) as [L|L].
  - exfalso. apply Hnx. rewrite firstn_app. apply in_app_iff. left.
    now rewrite firstn_all2.
  - rewrite firstn_app in Hy. replace (c - length (flat_map f A))%nat with 0%nat in Hy by lia.
    cbn [firstn] in Hy. rewrite app_nil_r in Hy. now apply in_firstn in Hy.
Qed.

Lemma range_split lo m hi : lo <= m -> m <= hi -> n_range lo hi = n_range lo m ++ n_range m hi.
Proof.
  intros H1 H2. unfold n_range.
  replace (N.to_nat (hi - lo)) with (N.to_nat (m - lo) + N.to_nat (hi - m))%nat by lia.
  rewrite seq_app, map_app. f_equal. cbn [plus].
  assert (G : forall k n, map (fun j => lo + N.of_nat j) (seq (k + N.to_nat (m - lo)) n) =
                        map (fun j => m + N.of_nat j) (seq k n)).
  { intros k n; revert k; induction n as [|n IH]; intros k; [reflexivity|].
    cbn [seq map]. f_equal; [lia|]. apply (IH (S k)). }
  apply (G 0%nat).
Qed.

(** The answer is made of distinct known nodes, as many as asked for or all of them. *)
Theorem C27_closest_known_distinct : forall max_k local ops key count,
  id_ok local -> Forall op_ok ops -> id_ok key ->
  let t := run max_k local ops in
  let r := closest t key count in
  NoDup (map n_id r) /\
  (forall n, In n r -> In n (known t)) /\
  length r = Nat.min count (length (known t)).
Proof.
  intros max_k local ops key count LO F KO t r.
  destruct (inv_run max_k local ops LO F) as [L I]. fold t in L, I.
  assert (LO' : id_ok (local_id t)) by now rewrite L.
  assert (I' : inv max_k (local_id t) (bks t)) by now rewrite L.
  assert (D : xor_distance (local_id t) key <= MAX_XOR_DISTANCE).
  { now destruct (C30_ultrametric _ _ _ LO' KO LO') as (_ & _ & ? & _). }
  assert (P := flat_map_perm (bks t) _ _ (order_perm _ D)). fold (known t) in P.
  unfold r. rewrite closest_spec. split; [|split].
  - rewrite <- firstn_map. apply nodup_firstn.
    eapply Permutation_NoDup; [apply Permutation_map, Permutation_sym, P|].
    exact (known_nodup max_k t I').
  - intros n H. apply in_firstn in H. eapply Permutation_in; eassumption.
  - rewrite firstn_length. f_equal. now apply Permutation_length.
Qed.

(** The proved part of C27: with [D] the distance of the key from the local id, no omitted
    node of a bucket above [D] is closer to the key than a returned one; an omitted node of
    bucket [D] itself means only nodes of that bucket (all closer than [D] to the key) were
    returned.  What is missing (false of the code, see the refutations below): an omitted node
    of a bucket below [D] may be closer than a returned one, and inside bucket [D] the choice is
    by age, not by distance. *)
Theorem C27_closest_partial : forall max_k local ops key count,
  id_ok local -> Forall op_ok ops -> id_ok key ->
  let t := run max_k local ops in
  let r := closest t key count in
  let D := xor_distance local key in
  forall x y, In x (known t) -> ~ In x r -> In y r ->
    (D < xor_distance local (n_id x) ->
       xor_distance key (n_id y) <= xor_distance key (n_id x)) /\
    (xor_distance local (n_id x) = D ->
       xor_distance local (n_id y) = D /\ (0 < D -> xor_distance key (n_id y) < D)).
Proof.
  intros max_k local ops key count LO F KO t r D x y Hx Hnx Hy.
  destruct (inv_run max_k local ops LO F) as [L I]. fold t in L, I.
  assert (LO' : id_ok (local_id t)) by now rewrite L.
  assert (I' : inv max_k (local_id t) (bks t)) by now rewrite L.
  assert (DM : D <= 256).
  { now destruct (C30_ultrametric _ _ _ LO KO LO) as (_ & _ & ? & _). }
  destruct (C27_closest_known_distinct max_k local ops key count LO F KO) as (_ & KN & _).
  fold t r in KN. assert (Hyk := KN y Hy).
  apply (in_known max_k t LO' I') in Hx as (i & Hi).
  apply (in_known max_k t LO' I') in Hyk as (j & Hj).
  destruct (inv_at _ _ _ I i x Hi) as [XO Xi]. destruct (inv_at _ _ _ I j y Hj) as [YO Yj].
  assert (IM := dist_le max_k t LO' I' i x Hi).
  unfold r in Hnx, Hy. rewrite closest_spec, L in Hnx, Hy. fold D in Hnx, Hy.
  assert (PRE : D <= i -> D <= j <= i).
  { intros Hle. unfold visit_order in Hnx, Hy.
    rewrite (range_split D (i + 1) (MAX_XOR_DISTANCE + 1)) in Hnx, Hy
      by (unfold MAX_XOR_DISTANCE; lia).
    rewrite <- app_assoc in Hnx, Hy.
    assert (Q : In y (flat_map (bks t) (n_range D (i + 1)))).
    { eapply firstn_prefix; [|exact Hnx|exact Hy]. apply in_flat_map. exists i.
      split; [apply in_range; lia|assumption]. }
    apply in_flat_map in Q as (j' & Hj' & Q). apply in_range in Hj'.
    destruct (inv_at _ _ _ I j' y Q) as [_ E]. rewrite Yj in E. subst j'. lia. }
  destruct (dist_cases local key (n_id x) LO KO XO) as (X1 & X2 & X3).
  destruct (dist_cases local key (n_id y) LO KO YO) as (Y1 & Y2 & Y3).
  fold D in X1, X2, X3, Y1, Y2, Y3. rewrite Xi, Yj in *. split.
  - intros Hlt. specialize (PRE ltac:(lia)). rewrite X1 by assumption.
    destruct (N.eq_dec j D) as [->|NE].
    + destruct (N.eq_dec D 0) as [Z|Z]; [|specialize (Y3 eq_refl ltac:(lia)); lia].
      (* D = 0: bucket 0 is empty *)
      rewrite Z in Hj. rewrite (inv_0 _ _ _ I) in Hj. contradiction.
    + rewrite Y1 by lia. lia.
  - intros E. specialize (PRE ltac:(lia)). assert (j = D) by lia. split; [assumption|].
    intros P. apply Y3; assumption.
Qed.

(** In particular the full property holds for keys equal to the local id (the node's own
    neighbourhood). *)
Theorem C27_closest_to_self : forall max_k local ops count,
  id_ok local -> Forall op_ok ops ->
  let t := run max_k local ops in
  let r := closest t local count in
  forall x y, In x (known t) -> ~ In x r -> In y r ->
    xor_distance local (n_id y) <= xor_distance local (n_id x).
Proof.
  intros max_k local ops count LO F t r x y Hx Hnx Hy.
  destruct (C26_table_invariants max_k local ops LO F) as (_ & NL & _ & _ & _ & _). fold t in NL.
  assert (Z : xor_distance local local = 0)
    by (apply (C30_ultrametric local local local LO LO LO); reflexivity).
  destruct (C27_closest_partial max_k local ops local count LO F LO x y Hx Hnx Hy) as [P _].
  apply P. rewrite Z. apply N.neq_0_lt_0. intros E. apply NL.
  destruct (inv_run max_k local ops LO F) as [L I]. fold t in L, I.
  assert (LO' : id_ok (local_id t)) by now rewrite L.
  assert (I' : inv max_k (local_id t) (bks t)) by now rewrite L.
  assert (Hx' := Hx). apply (in_known max_k t LO' I') in Hx as (i & Hi).
  destruct (inv_at _ _ _ I i x Hi) as [XO _].
  assert (local = n_id x) by now apply (C30_ultrametric local (n_id x) local LO XO LO).
  rewrite H. now apply in_map.
Qed.

(** ** Refutation of the full C27 *)
Definition small (n : N) : id := repeat 0 31 ++ [n].
Lemma small_ok n : n < 256 -> id_ok (small n).
Proof.
  intros H. split; [reflexivity|]. unfold small, bytes_ok. apply Forall_app. split.
  - apply Forall_forall. intros x X. apply repeat_spec in X. lia.
  - constructor; [assumption|constructor].
Qed.
Definition add_ok (n : N) : op := OAdd (mkNode (small n) 0) (fun _ => false) true.

(** a node with ids 3, 1, 128 known, asked for the two nodes closest to 2, answers 3 and 128
    although 1 is at distance class 2 and 128 at distance class 8 *)
Theorem C27_closest_refuted :
  exists max_k local ops key count x y,
    id_ok local /\ Forall op_ok ops /\ id_ok key /\
    let t := run max_k local ops in
    let r := closest t key count in
    In x (known t) /\ ~ In x r /\ In y r /\
    xor_distance key (n_id x) < xor_distance key (n_id y).
Proof.
  exists 6%nat, (small 0), [add_ok 3; add_ok 1; add_ok 128], (small 2), 2%nat,
    (mkNode (small 1) 0), (mkNode (small 128) 0).
  split; [apply small_ok; lia|]. split.
  { repeat constructor; try (apply small_ok; lia). }
  split; [apply small_ok; lia|].
  assert (E : closest (run 6 (small 0) [add_ok 3; add_ok 1; add_ok 128]) (small 2) 2 =
              [mkNode (small 3) 0; mkNode (small 128) 0]) by (vm_compute; reflexivity).
  assert (K : known (run 6 (small 0) [add_ok 3; add_ok 1; add_ok 128]) =
              [mkNode (small 1) 0; mkNode (small 3) 0; mkNode (small 128) 0])
    by (vm_compute; reflexivity).
  cbn zeta. rewrite E, K. repeat split.
  - now left.
  - intros [H|[H|[]]]; discriminate H.
  - right; now left.
Qed.

(** inside the key's own bucket the oldest entries win, not the closest *)
Theorem C27_same_bucket_refuted :
  exists max_k local ops key count x y,
    id_ok local /\ Forall op_ok ops /\ id_ok key /\
    let t := run max_k local ops in
    let r := closest t key count in
    In x (known t) /\ ~ In x r /\ In y r /\
    xor_distance local (n_id x) = xor_distance local key /\
    xor_distance key (n_id x) = 0 /\ 0 < xor_distance key (n_id y).
Proof.
  exists 6%nat, (small 0), [add_ok 7; add_ok 4], (small 4), 1%nat,
    (mkNode (small 4) 0), (mkNode (small 7) 0).
  split; [apply small_ok; lia|]. split.
  { repeat constructor; try (apply small_ok; lia). }
  split; [apply small_ok; lia|].
  assert (E : closest (run 6 (small 0) [add_ok 7; add_ok 4]) (small 4) 1 =
              [mkNode (small 7) 0]) by (vm_compute; reflexivity).
  assert (K : known (run 6 (small 0) [add_ok 7; add_ok 4]) =
              [mkNode (small 7) 0; mkNode (small 4) 0])
    by (vm_compute; reflexivity).
  cbn zeta. rewrite E, K. repeat split.
  - right; now left.
  - intros [H|[]]; discriminate H.
  - now left.
Qed.

(** hypotheses of C26/C27 met by a table with eviction *)
Example C26_case :
  let ops := [add_ok 5; add_ok 6; OAdd (mkNode (small 7) 1) (fun _ => true) true; add_ok 7;
              ORetain (fun n => n_data n =? 0)] in
  Forall op_ok ops /\ known (run 2 (small 0) ops) = [mkNode (small 6) 0; mkNode (small 7) 0] /\
  closest (run 2 (small 0) ops) (small 1) 1 = [mkNode (small 6) 0].
Proof.
  cbn zeta. split.
  { repeat constructor; try (apply small_ok; lia). }
  split; vm_compute; reflexivity.
Qed.
Print Assumptions C27_closest_partial.
