(** C92: theorems about neighbours in the public overlay. *)
From Coq Require Import List NArith Bool Arith Lia Permutation ZifyN ZifyNat ZifyBool.
From Verif Require Import NbModel.
Import ListNotations.
Local Open Scope N_scope.

(** ** Scores *)
Theorem score_bounded : forall d h, let s := fold_left (fun s x => match x with inl (t, b) => track s t b | inr r => punish s r end) h (new_stats d) in
  score s <= 128.
Proof.
  intros d h. cbv zeta. assert (G : forall s, score s <= 128 -> score (fold_left (fun s (x : N * option bool + reason) => match x with inl (t, b) => track s t b | inr r => punish s r end) h s) <= 128).
  { induction h as [|[[t b]|r] h IH]; intros s S; cbn [fold_left]; [assumption| |]; apply IH.
    - unfold track. cbn [score]. change max_score with 128. destruct b as [[|]|]; lia.
    - unfold punish. cbn [score]. lia. }
  apply G. vm_compute. discriminate.
Qed.
(** The score of a neighbour to be chosen fits a byte, and is never zero. *)
Theorem selection_score_bounded : forall s w, score s <= 128 -> selection_score s = Some w -> 16 <= w <= 144.
Proof.
  intros s w B. unfold selection_score, threshold.
  set (sc := if N.land (hist s) 15 =? 15 then _ else _).
  assert (L : sc <= 144).
  { subst sc. destruct (N.land (hist s) 15 =? 15); [lia|]. destruct (120 <=? score s); [|lia]. destruct (get_avg (trips s)) as [a|]; [|lia].
    destruct (a <=? 160); [|lia]. assert ((160 - a) * 16 / 160 <= 16); [|lia]. apply N.div_le_upper_bound; lia. }
  destruct (N.leb_spec 16 sc); [|discriminate]. intros [= <-]. lia.
Qed.
(** Fifteen failures in a row make any neighbour unreliable, two successes a reliable one of any. *)
Theorem failures_make_unreliable : forall s ts, score s <= 128 -> (15 <= length ts)%nat ->
  higher (fold_left (fun s t => track s t (Some false)) ts s) = false.
Proof.
  intros s ts B L. assert (E : forall l s, score (fold_left (fun s t => track s t (Some false)) l s) = score s - 8 * N.of_nat (length l)).
  { clear. induction l as [|t l IH]; intros s; cbn [fold_left length]; [lia|]. rewrite IH. unfold track. cbn [score]. lia. }
  unfold higher, threshold. rewrite E. lia.
Qed.
Theorem successes_make_reliable : forall s t t', score s <= 128 -> higher (track (track s t (Some true)) t' (Some true)) = true.
Proof. intros s t t' B. unfold higher, threshold, track, max_score. cbn [score]. lia. Qed.
(** Malice makes any neighbour unreliable at once. *)
Theorem malice_makes_unreliable : forall s, score s <= 128 -> higher (punish s Malicious) = false.
Proof. intros s B. unfold higher, threshold, punish. cbn [score penalty]. lia. Qed.

(** *** The last four results *)
Lemma mod_mod_mul x p q : p <> 0 -> q <> 0 -> x mod (p * q) mod p = x mod p.
Proof. intros P Q. rewrite N.mod_mul_r by assumption. rewrite (N.mul_comm p (_ mod _)), N.mod_add by assumption. now apply N.mod_mod. Qed.
Lemma shift_in k h b : b < 2 ^ 1 -> N.lor (N.shiftl h 1 mod 2 ^ 64) b mod 2 ^ (k + 1) = (2 * h + b) mod 2 ^ (k + 1) \/ 64 < k + 1.
Proof.
  intros B. destruct (N.lt_ge_cases 64 (k + 1)); [now right|left].
  assert (E : N.lor (N.shiftl h 1 mod 2 ^ 64) b = (2 * h + b) mod 2 ^ 64).
  { apply N.bits_inj. intros i. rewrite N.lor_spec. destruct (N.lt_ge_cases i 64).
    - rewrite !N.mod_pow2_bits_low by assumption. destruct (N.eq_dec i 0) as [->|NZ].
      + rewrite N.shiftl_spec_low by lia. cbn [orb]. assert (b = 0 \/ b = 1) as [-> | ->] by (cbn in B; lia); [rewrite N.add_0_r, N.testbit_even_0|rewrite N.testbit_odd_0]; reflexivity.
      + replace i with (N.succ (N.pred i)) by lia. rewrite N.shiftl_spec_high by lia. replace (N.succ (N.pred i) - 1) with (N.pred i) by lia.
        assert (b = 0 \/ b = 1) as [-> | ->] by (cbn in B; lia).
        * rewrite N.add_0_r, N.testbit_even_succ by lia. now rewrite N.bits_0, orb_false_r.
        * rewrite N.testbit_odd_succ by lia. replace (N.testbit 1 (N.succ (N.pred i))) with false; [apply orb_false_r|]. symmetry. apply N.bits_above_log2. cbn. lia.
    - rewrite !N.mod_pow2_bits_high by assumption. cbn [orb]. apply N.bits_above_log2. assert (b = 0 \/ b = 1) as [-> | ->] by (cbn in B; lia); cbn; lia. }
  rewrite E. replace 64 with (k + 1 + (64 - (k + 1))) by lia. rewrite N.pow_add_r. apply mod_mod_mul; apply N.pow_nonzero; lia.
Qed.
Definition bit (b : bool) : N := if b then 0 else 1.
Lemma hist_step h b : N.lor (N.shiftl h 1 mod 2 ^ 64) (bit b) mod 16 = (2 * (h mod 8) + bit b) mod 16.
Proof.
  destruct (shift_in 3 h (bit b)) as [E|]; [destruct b; cbn; lia| |lia]. change (2 ^ (3 + 1)) with 16 in E. rewrite E.
  rewrite (N.div_mod h 8) at 1 by lia. replace (2 * (8 * (h / 8) + h mod 8) + bit b) with (2 * (h mod 8) + bit b + (h / 8) * 16) by lia.
  now rewrite N.mod_add by lia.
Qed.
Lemma hist_step8 h b : N.lor (N.shiftl h 1 mod 2 ^ 64) (bit b) mod 8 = (2 * (h mod 8) + bit b) mod 8.
Proof. rewrite <- (mod_mod_mul _ 8 2) by lia. change (8 * 2) with 16. rewrite hist_step. change 16 with (8 * 2). now rewrite mod_mod_mul by lia. Qed.
(** The penalty for failures in a row is due exactly if the last four results are failures. *)
Theorem penalised_iff_four_failures : forall s t1 t2 t3 t4 b1 b2 b3 b4,
  let s' := track (track (track (track s t1 (Some b1)) t2 (Some b2)) t3 (Some b3)) t4 (Some b4) in
  N.land (hist s') 15 = 15 <-> b1 = false /\ b2 = false /\ b3 = false /\ b4 = false.
Proof.
  intros s t1 t2 t3 t4 b1 b2 b3 b4. cbv zeta. change 15 with (N.ones 4) at 1. rewrite N.land_ones. change (2 ^ 4) with 16.
  unfold track; cbn [hist]. fold (bit b1) (bit b2) (bit b3) (bit b4).
  rewrite hist_step, !hist_step8.
  assert (HB : (hist s) mod 8 < 8) by (apply N.mod_lt; lia). set (m := hist s mod 8) in *.
  assert (M : m = 0 \/ m = 1 \/ m = 2 \/ m = 3 \/ m = 4 \/ m = 5 \/ m = 6 \/ m = 7) by lia. clearbody m.
  destruct b1, b2, b3, b4; cbn [bit]; intuition; subst; try discriminate; vm_compute in *; congruence.
Qed.

(** *** The average roundtrip *)
Lemma add_trip_is t v : v < 65536 -> add_trip t v = (t mod 2 ^ 48) * 65536 + v.
Proof.
  intros V. unfold add_trip. rewrite N.shiftl_mul_pow2. change (2 ^ 64) with (2 ^ 48 * 2 ^ 16). rewrite N.mul_mod_distr_r by (vm_compute; discriminate).
  rewrite <- N.shiftl_mul_pow2. set (a := t mod 2 ^ 48).
  replace (a * 65536) with (N.shiftl a 16) by (rewrite N.shiftl_mul_pow2; reflexivity).
  assert (D : N.land (N.shiftl a 16) v = 0).
  { apply N.bits_inj. intros i. rewrite N.land_spec, N.bits_0. destruct (N.lt_ge_cases i 16); [now rewrite N.shiftl_spec_low|].
    rewrite <- (N.mod_small v (2 ^ 16)) by exact V. now rewrite N.mod_pow2_bits_high, andb_false_r. }
  rewrite N.add_nocarry_lxor by exact D. symmetry. apply N.lxor_lor. exact D.
Qed.
(** Of four or more requests, the last four count; the oldest only if it took any time at all. *)
Theorem average_of_the_last_four : forall t a b c d, 0 < a -> a < 65536 -> b < 65536 -> c < 65536 -> d < 65536 ->
  get_avg (add_trip (add_trip (add_trip (add_trip t a) b) c) d) = Some ((a + b + c + d) / 4).
Proof.
  intros t a b c d P A B C D. rewrite !add_trip_is by assumption.
  assert (E : forall x v k, v < 65536 -> ((x * 65536 + v) mod (k * 65536)) = (x mod k) * 65536 + v \/ k = 0).
  { intros x v k V. destruct (N.eq_dec k 0); [now right|left]. rewrite (N.mul_comm k), N.mod_mul_r by lia.
    rewrite (N.add_comm (x * 65536) v), N.mod_add, N.div_add by lia. rewrite (N.mod_small v), (N.div_small v) by lia. rewrite N.add_0_l. lia. }
  assert (E1 : forall x v, v < 65536 -> (x * 65536 + v) mod 2 ^ 48 = (x mod 2 ^ 32) * 65536 + v) by (intros x v V; destruct (E x v (2 ^ 32) V) as [H|H]; [exact H|discriminate H]).
  assert (E2 : forall x v, v < 65536 -> (x * 65536 + v) mod 2 ^ 32 = (x mod 2 ^ 16) * 65536 + v) by (intros x v V; destruct (E x v (2 ^ 16) V) as [H|H]; [exact H|discriminate H]).
  assert (E3 : forall x v, v < 65536 -> (x * 65536 + v) mod 2 ^ 16 = v).
  { intros x v V. change (2 ^ 16) with 65536. rewrite N.add_comm, N.mod_add by lia. now apply N.mod_small. }
  rewrite (E1 _ c) by assumption. rewrite (E1 _ b) by assumption. rewrite (E2 _ b) by assumption. rewrite (E1 _ a) by assumption. rewrite (E2 _ a), (E3 _ a) by assumption.
  assert (SH : forall x v, v < 65536 -> N.shiftr (x * 65536 + v) 16 = x /\ N.land (x * 65536 + v) 65535 = v).
  { intros x v V. split.
    - rewrite N.shiftr_div_pow2. change (2 ^ 16) with 65536. rewrite N.add_comm, N.div_add by lia. now rewrite N.div_small.
    - change 65535 with (N.ones 16). rewrite N.land_ones. change (2 ^ 16) with 65536. rewrite N.add_comm, N.mod_add by lia. now apply N.mod_small. }
  unfold get_avg. cbn [avg_loop].
  destruct (SH ((a * 65536 + b) * 65536 + c) d D) as (-> & ->). destruct (SH (a * 65536 + b) c C) as (-> & ->).
  destruct (SH a b B) as (-> & ->). replace (N.land a 65535) with a by (destruct (SH 0 a A) as (_ & X); symmetry; exact X).
  destruct (N.ltb_spec 0 (((a * 65536 + b) * 65536 + c) * 65536 + d)); [|lia]. destruct (N.ltb_spec 0 ((a * 65536 + b) * 65536 + c)); [|lia].
  destruct (N.ltb_spec 0 (a * 65536 + b)); [|lia]. destruct (N.ltb_spec 0 a); [|lia]. cbn [N.add N.eqb].
  change (0 + 1 + 1 + 1 + 1 =? 0) with false. cbv iota. change (0 + 1 + 1 + 1 + 1) with 4. do 2 f_equal. lia.
Qed.
