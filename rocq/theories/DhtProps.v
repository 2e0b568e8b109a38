(** C30 (distance), C33 (random keys), C26 (routing table), C27 (closest). *)
From Verif Require Import Bytes DhtModel DhtDist.
From Coq Require Import List NArith ZArith Bool Lia Permutation Arith ZifyBool ZifyNat ZifyN.
Import ListNotations.
Local Open Scope N_scope.
Local Opaque de be xor_distance.

(** ** C30.  Distance classes: the distance is the bit length of the XOR of the ids taken as
    256-bit numbers; it is 0 exactly for equal ids, symmetric, at most 256, ultrametric. *)
Theorem C30_distance_is_xor_bit_length : forall a b, id_ok a -> id_ok b ->
  xor_distance a b = N.size (N.lxor (de a) (de b)).
Proof. exact xor_distance_spec. Qed.

Theorem C30_ultrametric : forall a b c, id_ok a -> id_ok b -> id_ok c ->
  (xor_distance a b = 0 <-> a = b) /\
  xor_distance a b = xor_distance b a /\
  xor_distance a b <= 256 /\
  xor_distance a c <= N.max (xor_distance a b) (xor_distance b c).
Proof.
  intros a b c A B C. rewrite !xor_distance_spec by assumption.
  split; [|split; [|split]].
  - rewrite size_0. split; [intros H|intros ->; apply N.lxor_nilpotent].
    apply N.lxor_eq in H. now apply id_inj.
  - now rewrite N.lxor_comm.
  - apply size_le, lxor_lt; now apply id_bound.
  - replace (N.lxor (de a) (de c)) with (N.lxor (N.lxor (de a) (de b)) (N.lxor (de b) (de c))).
    + apply size_lxor_le.
    + rewrite N.lxor_assoc, <- (N.lxor_assoc (de b)), N.lxor_nilpotent, N.lxor_0_l. reflexivity.
Qed.

(** ids differing at exactly one given bit: the distance is the position of the bit *)
Example C30_case :
  xor_distance (repeat 0 32) (repeat 0 31 ++ [5]) = 3 /\
  xor_distance (repeat 0 32) (128 :: repeat 7 31) = 256 /\
  xor_distance (repeat 1 9 ++ repeat 0 23) (repeat 1 8 ++ repeat 0 24) = 185.
Proof. repeat split; vm_compute; reflexivity. Qed.

(** exact distances to a third point, used for C27 *)
Lemma dist_cases a k x : id_ok a -> id_ok k -> id_ok x ->
  (xor_distance a k < xor_distance a x -> xor_distance k x = xor_distance a x) /\
  (xor_distance a x < xor_distance a k -> xor_distance k x = xor_distance a k) /\
  (xor_distance a x = xor_distance a k -> 0 < xor_distance a k ->
     xor_distance k x < xor_distance a k).
Proof.
  intros A K X. rewrite !xor_distance_spec by assumption.
  assert (E : N.lxor (de k) (de x) = N.lxor (N.lxor (de a) (de k)) (N.lxor (de a) (de x))).
  { rewrite (N.lxor_comm (de a) (de k)), N.lxor_assoc, <- (N.lxor_assoc (de a)),
      N.lxor_nilpotent, N.lxor_0_l. reflexivity. }
  rewrite E. repeat split.
  - intros H. rewrite N.lxor_comm. now apply size_lxor_max.
  - intros H. now apply size_lxor_max.
  - intros H1 H2. now apply size_lxor_lt.
Qed.

(** ** C33.  Random keys for a bucket refresh lie within the bucket's distance and, over all
    random outputs, cover exactly the ids within that distance. *)
Lemma xd_le_len a b : bytes_ok a -> bytes_ok b -> length a = length b ->
  xd a b <= 8 * N.of_nat (length a).
Proof.
  intros A B L. apply size_le. rewrite <- pow256_2.
  assert (HA := de_bound a A). assert (HB := de_bound b B).
  rewrite <- L in HB. rewrite pow256_2 in *. now apply lxor_lt.
Qed.

Lemma xd_same_prefix p a b : bytes_ok a -> bytes_ok b -> length a = length b ->
  xd (p ++ a) (p ++ b) = xd a b.
Proof. intros. rewrite xd_app by assumption. now rewrite N.lxor_nilpotent. Qed.

Lemma xd_0_eq a b : bytes_ok a -> bytes_ok b -> length a = length b ->
  N.lxor (de a) (de b) = 0 -> a = b.
Proof.
  intros A B L E. apply N.lxor_eq in E.
  rewrite <- (be_de a A), <- (be_de b B), L, E. reflexivity.
Qed.

Lemma de_1 x : de [x] = x.
Proof. rewrite de_cons, de_nil. cbn [length N.of_nat]. lia. Qed.

Lemma xd_cons x a y b : bytes_ok a -> bytes_ok b -> length a = length b ->
  xd (x :: a) (y :: b) =
  if N.lxor x y =? 0 then xd a b else 8 * N.of_nat (length a) + N.size (N.lxor x y).
Proof.
  intros A B L. change (x :: a) with ([x] ++ a). change (y :: b) with ([y] ++ b).
  rewrite xd_app by assumption. unfold xd at 2. now rewrite !de_1.
Qed.

Lemma mask_lemma x t : x < 256 -> t < 8 ->
  N.lxor x (N.land x (N.lxor 255 (N.shiftr 255 t))) < 2 ^ (8 - t) /\
  (x < 2 ^ (8 - t) -> N.land x (N.lxor 255 (N.shiftr 255 t)) = 0).
Proof.
  intros Hx Ht. change 256 with (2 ^ 8) in Hx.
  assert (B255 : forall m, N.testbit 255 m = (m <? 8)).
  { intros m. change 255 with (N.ones 8). destruct (N.ltb_spec m 8).
    - now apply N.ones_spec_low. - now apply N.ones_spec_high. }
  split.
  - apply lt_pow2_bits. intros m Hm.
    rewrite N.lxor_spec, N.land_spec, N.lxor_spec, N.shiftr_spec', !B255.
    rewrite lt_pow2_bits in Hx.
    destruct (N.ltb_spec m 8); [|rewrite (Hx m) by lia; reflexivity].
    destruct (N.ltb_spec (m + t) 8); [lia|]. now destruct (N.testbit x m).
  - intros H. apply N.bits_inj_0. intros m.
    rewrite N.land_spec, N.lxor_spec, N.shiftr_spec', !B255.
    rewrite lt_pow2_bits in H.
    destruct (N.le_gt_cases (8 - t) m) as [Hm|Hm].
    + now rewrite (H m Hm).
    + destruct (N.ltb_spec m 8), (N.ltb_spec (m + t) 8); try lia; apply andb_false_r.
Qed.

Lemma land_lt_256 x y : y < 256 -> N.land x y < 256.
Proof.
  change 256 with (2 ^ 8). rewrite !lt_pow2_bits. intros H m Hm.
  now rewrite N.land_spec, (H m Hm), andb_false_r.
Qed.

Lemma set_nth_app p x y q : set_nth (length p) x (p ++ y :: q) = p ++ x :: q.
Proof.
  unfold set_nth. rewrite firstn_app, firstn_all, Nat.sub_diag. cbn [firstn].
  rewrite app_nil_r. f_equal. f_equal.
  rewrite skipn_app, skipn_all2 by lia. cbn [app].
  replace (S (length p) - length p)%nat with 1%nat by lia. reflexivity.
Qed.
Lemma set_nth_app' n p x y q : length p = n -> set_nth n x (p ++ y :: q) = p ++ x :: q.
Proof. intros <-. apply set_nth_app. Qed.
Lemma nth_mid (p : bytes) x q : nth (length p) (p ++ x :: q) 0 = x.
Proof. rewrite app_nth2 by lia. now rewrite Nat.sub_diag. Qed.

Lemma nth_mid' n (p : bytes) x q : length p = n -> nth n (p ++ x :: q) 0 = x.
Proof. intros <-. apply nth_mid. Qed.

(** normal form of the generated key *)
Lemma random_key_nf from distance rnd :
  id_ok from -> distance <= 256 -> bytes_ok rnd ->
  N.of_nat (length rnd) = 32 - (256 - distance) / 8 ->
  let t := (256 - distance) mod 8 in
  exists p q, from = p ++ q /\ length q = length rnd /\
    N.of_nat (length p) = (256 - distance) / 8 /\
    ((t = 0 /\ random_key_at_distance from distance rnd = p ++ rnd) \/
     (t <> 0 /\ exists f q' r rnd', q = f :: q' /\ rnd = r :: rnd' /\
       random_key_at_distance from distance rnd =
       p ++ N.lxor r (N.land (N.lxor r f) (N.lxor 255 (N.shiftr 255 t))) :: rnd')).
Proof.
  intros [L O] Hd Hr Hl t.
  set (bo := N.to_nat ((256 - distance) / 8)).
  assert (Hbo : (256 - distance) / 8 <= 32).
  { apply N.div_le_upper_bound; lia. }
  exists (firstn bo from), (skipn bo from).
  assert (LP : length (firstn bo from) = bo) by (rewrite firstn_length; unfold bo; lia).
  split; [now rewrite firstn_skipn|]. split; [rewrite skipn_length; unfold bo; lia|].
  split; [rewrite LP; unfold bo; lia|].
  unfold random_key_at_distance, MAX_XOR_DISTANCE. fold bo. fold t.
  destruct (N.eqb_spec t 0) as [Ht|Ht]; [left; auto|right; split; [assumption|]].
  assert (Hbo2 : (256 - distance) / 8 < 32).
  { assert (E := N.div_mod' (256 - distance) 8). fold t in E.
    clearbody t. clear bo LP. revert E Hbo. generalize ((256 - distance) / 8). intros. lia. }
  destruct rnd as [|r rnd']; [cbn [length] in Hl; lia|].
  destruct (skipn bo from) as [|f q'] eqn:Q.
  { apply (f_equal (@length N)) in Q. rewrite skipn_length in Q. unfold bo in Q; cbn [length] in Q. lia. }
  exists f, q', r, rnd'. repeat split.
  rewrite (nth_mid' bo) by assumption.
  replace (nth bo from 0) with f.
  2:{ rewrite <- (firstn_skipn bo from), Q. symmetry; now apply nth_mid'. }
  now apply set_nth_app'.
Qed.

Theorem C33_random_key_within_distance : forall from distance rnd,
  id_ok from -> distance <= 256 ->
  bytes_ok rnd -> N.of_nat (length rnd) = 32 - (256 - distance) / 8 ->
  let k := random_key_at_distance from distance rnd in
  id_ok k /\ xor_distance from k <= distance.
Proof.
  intros from distance rnd F Hd Hr Hl k.
  assert (Fok := F). destruct F as [L O].
  destruct (random_key_nf from distance rnd Fok Hd Hr Hl) as (p & q & E & LQ & LP & D).
  assert (E8 := N.div_mod' (256 - distance) 8).
  assert (T8 := N.mod_lt (256 - distance) 8 ltac:(lia)).
  assert (T0 := N.le_0_l ((256 - distance) mod 8)).
  assert (T1 := N.le_0_l ((256 - distance) / 8)).
  rewrite E in O. apply bytes_ok_app in O as [OP OQ].
  assert (LL : length from = (length p + length q)%nat) by (rewrite E, app_length; reflexivity).
  destruct D as [[Ht R]|(Ht & f & q' & r & rnd' & EQ & ER & R)]; fold k in R.
  - assert (KO : id_ok k).
    { rewrite R. split; [rewrite app_length; lia|]. now apply bytes_ok_app. }
    split; [assumption|]. rewrite xor_distance_spec by assumption. fold (xd from k).
    rewrite R, E, xd_same_prefix by auto.
    eapply N.le_trans; [now apply xd_le_len|]. lia.
  - set (t := (256 - distance) mod 8) in *.
    rewrite EQ in *. rewrite ER in *. cbn [length] in *.
    inversion OQ as [|? ? Of Oq]; subst x l. inversion Hr as [|? ? Or Ornd]; subst x l.
    set (r' := N.lxor r (N.land (N.lxor r f) (N.lxor 255 (N.shiftr 255 t)))) in *.
    assert (M1 : N.lxor 255 (N.shiftr 255 t) < 256).
    { apply (lxor_lt _ _ 8); [reflexivity|]. rewrite N.shiftr_div_pow2.
      assert (2 ^ t <> 0) by (apply N.pow_nonzero; lia).
      apply N.div_lt_upper_bound; [assumption|].
      change (2 ^ 8) with 256. nia. }
    assert (R' : r' < 256).
    { apply (lxor_lt _ _ 8); [assumption|]. now apply land_lt_256. }
    assert (KO : id_ok k).
    { rewrite R. split; [rewrite app_length; cbn [length]; lia|].
      apply bytes_ok_app; split; [assumption|]. constructor; assumption. }
    split; [assumption|]. rewrite xor_distance_spec by assumption. fold (xd from k).
    rewrite R, E, xd_same_prefix; [|constructor; assumption..|cbn [length]; lia].
    rewrite xd_cons by (assumption || lia).
    assert (X : N.lxor f r' < 2 ^ (8 - t)).
    { assert (FR : N.lxor r f < 256) by (apply (lxor_lt _ _ 8); assumption).
      destruct (mask_lemma (N.lxor r f) t FR T8) as [M _].
      unfold r'. rewrite <- N.lxor_assoc, (N.lxor_comm f r). exact M. }
    destruct (N.eqb_spec (N.lxor f r') 0).
    + eapply N.le_trans; [apply xd_le_len; (assumption || lia)|]. lia.
    + apply size_le in X. lia.
Qed.

Theorem C33_every_key_in_range_reachable : forall from distance key,
  id_ok from -> id_ok key -> distance <= 256 -> xor_distance from key <= distance ->
  exists rnd, bytes_ok rnd /\ N.of_nat (length rnd) = 32 - (256 - distance) / 8 /\
    random_key_at_distance from distance rnd = key.
Proof.
  intros from distance key F K Hd HD.
  rewrite xor_distance_spec in HD by assumption. fold (xd from key) in HD.
  set (bo := N.to_nat ((256 - distance) / 8)).
  assert (Hb : N.of_nat bo = (256 - distance) / 8) by (unfold bo; lia). clearbody bo.
  assert (E8 := N.div_mod' (256 - distance) 8).
  assert (T8 := N.mod_lt (256 - distance) 8 ltac:(lia)).
  assert (T0 := N.le_0_l ((256 - distance) mod 8)).
  assert (T1 := N.le_0_l ((256 - distance) / 8)).
  assert (Hbo : (256 - distance) / 8 <= 32) by (apply N.div_le_upper_bound; lia).
  assert (F' := F). assert (K' := K). destruct F as [LF OF]. destruct K as [LK OK].
  assert (LS : length (skipn bo key) = (32 - bo)%nat) by (rewrite skipn_length; lia).
  exists (skipn bo key). split; [now apply bytes_ok_skipn|]. split; [rewrite LS; lia|].
  destruct (random_key_nf from distance (skipn bo key) F' Hd)
    as (p & q & E & LQ & LP & D); [now apply bytes_ok_skipn|rewrite LS; lia|].
  rewrite E in OF. apply bytes_ok_app in OF as [OP OQ].
  assert (LFP : length (firstn bo key) = length p) by (rewrite firstn_length; lia).
  assert (KOK := OK). rewrite <- (firstn_skipn bo key) in OK. apply bytes_ok_app in OK as [OK1 OK2].
  assert (HD' := HD). rewrite E, <- (firstn_skipn bo key), xd_app in HD' by (assumption || lia).
  rewrite LQ, LS in HD'.
  destruct (N.eqb_spec (N.lxor (de p) (de (firstn bo key))) 0) as [PE|PE].
  2:{ exfalso. unfold xd in HD'.
      assert (N.size (N.lxor (de p) (de (firstn bo key))) <> 0) by (now rewrite size_0).
      lia. }
  apply xd_0_eq in PE; [|assumption..|lia].
  destruct D as [[Ht R]|(Ht & f & q' & r & rnd' & EQ & ER & R)].
  - rewrite R, PE. apply firstn_skipn.
  - rewrite R, PE. rewrite <- (firstn_skipn bo key) at 2. f_equal.
    rewrite ER in *. f_equal. rewrite EQ in *.
    inversion OQ as [|? ? Of Oq]; subst x l. inversion OK2 as [|? ? Or Ornd]; subst x l.
    cbn [length] in *. rewrite xd_cons in HD' by (assumption || lia).
    set (t := (256 - distance) mod 8) in *.
    assert (FR : N.lxor r f < 256) by (apply (lxor_lt _ _ 8); assumption).
    destruct (mask_lemma (N.lxor r f) t FR T8) as [_ M].
    rewrite M; [now rewrite N.lxor_0_r|].
    rewrite (N.lxor_comm r f).
    destruct (N.eqb_spec (N.lxor f r) 0) as [->|Hn]; [apply N.neq_0_lt_0, N.pow_nonzero; lia|].
    apply size_le. lia.
Qed.

(** The name says "at distance", the code gives "at most": a draw that repeats the id's own
    bits lands closer. *)
Theorem C33_exact_distance_refuted :
  exists from distance rnd, id_ok from /\ distance <= 256 /\ bytes_ok rnd /\
    N.of_nat (length rnd) = 32 - (256 - distance) / 8 /\
    xor_distance from (random_key_at_distance from distance rnd) <> distance.
Proof.
  exists (repeat 0 32), 13, [0;1]. repeat split; try (vm_compute; congruence).
  - unfold bytes_ok. apply Forall_forall. intros x H. apply repeat_spec in H. lia.
  - repeat constructor.
Qed.
Example C33_case :
  xor_distance (repeat 9 32) (random_key_at_distance (repeat 9 32) 13 [0xf7; 0x55]) = 13 /\
  random_key_at_distance (repeat 9 32) 13 [0xf7; 0x55] = repeat 9 30 ++ [0x17; 0x55].
Proof. split; vm_compute; reflexivity. Qed.
