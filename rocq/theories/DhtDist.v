(** Facts about the DHT distance: [xor_distance] is the bit length of the XOR of the two ids
    read as 256-bit big-endian numbers. *)
From Verif Require Import Bytes DhtModel.
From Coq Require Import List NArith ZArith Bool Lia ZifyBool ZifyNat ZifyN.
Import ListNotations.
Local Open Scope N_scope.
Local Opaque de be.

(** ** bit length *)
Lemma lt_pow2_bits x n : x < 2 ^ n <-> (forall m, n <= m -> N.testbit x m = false).
Proof.
  split.
  - intros H m Hm. destruct (N.eq_dec x 0) as [->|Hx]; [apply N.bits_0|].
    apply N.bits_above_log2. apply N.log2_lt_pow2; [lia|].
    eapply N.lt_le_trans; [exact H|]. apply N.pow_le_mono_r; lia.
  - intros H. destruct (N.eq_dec x 0) as [->|Hx].
    + apply N.neq_0_lt_0, N.pow_nonzero; lia.
    + destruct (N.lt_ge_cases x (2 ^ n)) as [|Hg]; [assumption|exfalso].
      assert (n <= N.log2 x) by (apply N.log2_le_pow2; lia).
      specialize (H (N.log2 x) H0). rewrite N.bit_log2 in H by lia. discriminate.
Qed.

Lemma size_le x n : N.size x <= n <-> x < 2 ^ n.
Proof.
  destruct (N.eq_dec x 0) as [->|Hx].
  - cbn. split; [intros _; apply N.neq_0_lt_0, N.pow_nonzero|]; lia.
  - rewrite N.size_log2 by lia. rewrite N.log2_lt_pow2 by lia. lia.
Qed.

Lemma size_0 x : N.size x = 0 <-> x = 0.
Proof. destruct x; cbn; split; try reflexivity; try discriminate; destruct p; discriminate. Qed.

Lemma lxor_lt x y n : x < 2 ^ n -> y < 2 ^ n -> N.lxor x y < 2 ^ n.
Proof.
  rewrite !lt_pow2_bits. intros Hx Hy m Hm.
  now rewrite N.lxor_spec, Hx, Hy.
Qed.

Lemma size_lxor_le x y : N.size (N.lxor x y) <= N.max (N.size x) (N.size y).
Proof.
  apply size_le, lxor_lt; apply size_le; lia.
Qed.

Lemma size_lxor_lt x y n : N.size x = n -> N.size y = n -> 0 < n -> N.size (N.lxor x y) < n.
Proof.
  intros Hx Hy Hn.
  assert (x <> 0 /\ y <> 0) as [X0 Y0] by (split; intros ->; cbn in *; lia).
  rewrite N.size_log2 in Hx, Hy by assumption.
  assert (N.size (N.lxor x y) <= n - 1); [|lia].
  apply size_le, lt_pow2_bits. intros m Hm. rewrite N.lxor_spec.
  destruct (N.eq_dec m (n - 1)) as [->|Hne].
  - replace (n - 1) with (N.log2 x) at 1 by lia. rewrite N.bit_log2 by lia.
    replace (n - 1) with (N.log2 y) by lia. rewrite N.bit_log2 by lia. reflexivity.
  - rewrite !N.bits_above_log2 by lia. reflexivity.
Qed.

Lemma size_lxor_max x y : N.size y < N.size x -> N.size (N.lxor x y) = N.size x.
Proof.
  intros H. assert (H1 := size_lxor_le x y).
  assert (H2 := size_lxor_le (N.lxor x y) y).
  rewrite N.lxor_assoc, N.lxor_nilpotent, N.lxor_0_r in H2. lia.
Qed.

(** ** concatenation *)
Lemma de_app a b : de (a ++ b) = de a * 256 ^ N.of_nat (length b) + de b.
Proof.
  induction a as [|x a IH]; cbn [app].
  - Local Transparent de. unfold de at 2. cbn. Local Opaque de. lia.
  - rewrite !de_cons, IH, app_length, Nat2N.inj_add, N.pow_add_r. nia.
Qed.

Lemma pow256_2 k : 256 ^ k = 2 ^ (8 * k).
Proof. change 256 with (2 ^ 8). now rewrite <- N.pow_mul_r. Qed.

Lemma testbit_hl h l k m : l < 2 ^ k ->
  N.testbit (h * 2 ^ k + l) m = if m <? k then N.testbit l m else N.testbit h (m - k).
Proof.
  intros Hl. destruct (N.ltb_spec m k) as [Hm|Hm].
  - rewrite <- (N.mod_pow2_bits_low (h * 2 ^ k + l) k m Hm).
    rewrite N.add_comm, N.mod_add by (apply N.pow_nonzero; lia).
    now rewrite N.mod_small.
  - replace m with (k + (m - k)) at 1 by lia.
    rewrite N.add_comm with (n := k). rewrite <- N.div_pow2_bits.
    rewrite N.div_add_l by (apply N.pow_nonzero; lia).
    rewrite N.div_small by assumption. now rewrite N.add_0_r.
Qed.

Lemma lxor_hl h1 l1 h2 l2 k : l1 < 2 ^ k -> l2 < 2 ^ k ->
  N.lxor (h1 * 2 ^ k + l1) (h2 * 2 ^ k + l2) = N.lxor h1 h2 * 2 ^ k + N.lxor l1 l2.
Proof.
  intros H1 H2. apply N.bits_inj. intros m.
  rewrite N.lxor_spec, !testbit_hl by (try apply lxor_lt; assumption).
  rewrite !N.lxor_spec. now destruct (m <? k).
Qed.

Lemma size_hl h l k : l < 2 ^ k ->
  N.size (h * 2 ^ k + l) = if h =? 0 then N.size l else k + N.size h.
Proof.
  intros Hl. destruct (N.eqb_spec h 0) as [->|Hh]; [now rewrite N.mul_0_l, N.add_0_l|].
  assert (Hp : 2 ^ k <> 0) by (apply N.pow_nonzero; lia).
  rewrite !N.size_log2 by nia.
  enough (N.log2 (h * 2 ^ k + l) = k + N.log2 h) by lia.
  apply N.log2_unique; [lia|].
  destruct (N.log2_spec h) as [A B]; [lia|].
  rewrite N.pow_succ_r', N.pow_add_r. rewrite N.pow_succ_r' in B. nia.
Qed.

(** distance of two byte strings read as numbers *)
Definition xd (a b : bytes) : N := N.size (N.lxor (de a) (de b)).

Lemma xd_app a1 a2 b1 b2 : bytes_ok a2 -> bytes_ok b2 -> length a2 = length b2 ->
  xd (a1 ++ a2) (b1 ++ b2) =
  if N.lxor (de a1) (de b1) =? 0 then xd a2 b2
  else 8 * N.of_nat (length a2) + xd a1 b1.
Proof.
  intros A B L. unfold xd. rewrite !de_app, <- L, pow256_2.
  assert (HA := de_bound a2 A). assert (HB := de_bound b2 B).
  rewrite <- L in HB. rewrite pow256_2 in HA, HB.
  rewrite lxor_hl by assumption. rewrite size_hl; [reflexivity|]. now apply lxor_lt.
Qed.

Lemma bytes_ok_app a b : bytes_ok (a ++ b) <-> bytes_ok a /\ bytes_ok b.
Proof. unfold bytes_ok. apply Forall_app. Qed.
Lemma bytes_ok_firstn n a : bytes_ok a -> bytes_ok (firstn n a).
Proof. intros H. rewrite <- (firstn_skipn n a) in H. now apply bytes_ok_app in H. Qed.
Lemma bytes_ok_skipn n a : bytes_ok a -> bytes_ok (skipn n a).
Proof. intros H. rewrite <- (firstn_skipn n a) in H. now apply bytes_ok_app in H. Qed.

Lemma skipn_skipn {A} n m (l : list A) : skipn n (skipn m l) = skipn (m + n) l.
Proof.
  revert l; induction m as [|m IH]; intros l; [reflexivity|].
  destruct l; cbn [skipn plus]; [now rewrite skipn_nil|apply IH].
Qed.

Lemma chunks8_split a : length a = 32%nat ->
  exists c0 c1 c2 c3, a = c0 ++ c1 ++ c2 ++ c3 /\ chunks8 a = [c0; c1; c2; c3] /\
    length c0 = 8%nat /\ length c1 = 8%nat /\ length c2 = 8%nat /\ length c3 = 8%nat.
Proof.
  intros L.
  exists (firstn 8 (skipn 0 a)), (firstn 8 (skipn 8 a)),
         (firstn 8 (skipn 16 a)), (firstn 8 (skipn 24 a)).
  repeat split; try (rewrite firstn_length, skipn_length; lia).
  change (skipn 0 a) with a.
  assert (E : firstn 8 (skipn 24 a) = skipn 24 a) by (apply firstn_all2; rewrite skipn_length; lia).
  rewrite E.
  change (skipn 24 a) with (skipn (16 + 8) a). rewrite <- (skipn_skipn 8 16), firstn_skipn.
  change (skipn 16 a) with (skipn (8 + 8) a). rewrite <- (skipn_skipn 8 8), firstn_skipn.
  now rewrite firstn_skipn.
Qed.

Lemma de_nil : de [] = 0.
Proof. reflexivity. Qed.

Theorem xor_distance_spec a b : id_ok a -> id_ok b ->
  xor_distance a b = N.size (N.lxor (de a) (de b)).
Proof.
  intros [LA OA] [LB OB]. unfold xor_distance.
  destruct (chunks8_split a LA) as (a0 & a1 & a2 & a3 & EA & CA & LA0 & LA1 & LA2 & LA3).
  destruct (chunks8_split b LB) as (b0 & b1 & b2 & b3 & EB & CB & LB0 & LB1 & LB2 & LB3).
  rewrite CA, CB. fold (xd a b). rewrite EA, EB in *.
  apply bytes_ok_app in OA as [O0 OA]. apply bytes_ok_app in OA as [O1 OA].
  apply bytes_ok_app in OA as [O2 O3].
  apply bytes_ok_app in OB as [P0 OB]. apply bytes_ok_app in OB as [P1 OB].
  apply bytes_ok_app in OB as [P2 P3].
  assert (B8 : forall x y, bytes_ok x -> bytes_ok y -> length x = 8%nat -> length y = 8%nat ->
             N.size (N.lxor (de x) (de y)) <= 64).
  { intros x y X Y LX LY. apply size_le, lxor_lt.
    - assert (H := de_bound x X). rewrite LX in H. exact H.
    - assert (H := de_bound y Y). rewrite LY in H. exact H. }
  rewrite xd_app; [|now rewrite !bytes_ok_app|now rewrite !bytes_ok_app|rewrite !app_length; lia].
  rewrite xd_app; [|now rewrite !bytes_ok_app|now rewrite !bytes_ok_app|rewrite !app_length; lia].
  rewrite xd_app; [|assumption..|lia].
  rewrite !app_length, LA1, LA2, LA3. unfold xd.
  cbn [xor_loop]. unfold leading_zeros64, MAX_XOR_DISTANCE.
  assert (H0 := B8 a0 b0 O0 P0 LA0 LB0). assert (H1 := B8 a1 b1 O1 P1 LA1 LB1).
  assert (H2 := B8 a2 b2 O2 P2 LA2 LB2). assert (H3 := B8 a3 b3 O3 P3 LA3 LB3).
  destruct (N.eqb_spec (N.lxor (de a0) (de b0)) 0) as [|N0]; [|lia].
  destruct (N.eqb_spec (N.lxor (de a1) (de b1)) 0) as [|N1]; [|lia].
  destruct (N.eqb_spec (N.lxor (de a2) (de b2)) 0) as [|N2]; [|lia].
  destruct (N.eqb_spec (N.lxor (de a3) (de b3)) 0) as [E3|N3]; [|lia].
  rewrite E3; reflexivity.
Qed.

Lemma id_bound a : id_ok a -> de a < 2 ^ 256.
Proof. intros [L O]. assert (H := de_bound a O). rewrite L in H. exact H. Qed.

Lemma id_inj a b : id_ok a -> id_ok b -> de a = de b -> a = b.
Proof.
  intros [LA OA] [LB OB] E.
  rewrite <- (be_de a OA), <- (be_de b OB), LA, LB, E. reflexivity.
Qed.

Lemma id_eqb_spec a b : reflect (a = b) (id_eqb a b).
Proof.
  revert b; induction a as [|x a IH]; intros [|y b]; cbn [id_eqb]; try (constructor; congruence).
  destruct (N.eqb_spec x y) as [->|H]; cbn [andb].
  - destruct (IH b) as [->|H]; constructor; congruence.
  - constructor; congruence.
Qed.
