(** * Certificates: the packed word. *)
From Coq Require Import List NArith Bool Lia ZArith ZifyN ZifyBool.
From Verif Require Import CertModel.
Import ListNotations.
Open Scope N_scope.

(** Height and flags of a word. *)
Definition hgt (w : N) : N := w mod 4096.
Definition fT (w : N) : bool := N.testbit w 15.
Definition fS (w : N) : bool := N.testbit w 14.
Definition fD (w : N) : bool := N.testbit w 13.
Definition fC (w : N) : bool := N.testbit w 12.

Lemma land_height w : N.land w NOT_FLAGS = hgt w.
Proof. exact (N.land_ones w 12). Qed.

Lemma land_bit w k : N.land w (2 ^ k) = if N.testbit w k then 2 ^ k else 0.
Proof.
  apply N.bits_inj. intros n. rewrite N.land_spec. destruct (N.eq_dec n k) as [->|Hn].
  - rewrite N.pow2_bits_true. destruct (N.testbit w k); [rewrite N.pow2_bits_true|rewrite N.bits_0]; reflexivity.
  - rewrite N.pow2_bits_false by congruence. rewrite andb_false_r. destruct (N.testbit w k); [rewrite N.pow2_bits_false by congruence|rewrite N.bits_0]; reflexivity.
Qed.

Lemma land_committed w : (N.land w COMMITTED =? COMMITTED) = fC w.
Proof. change COMMITTED with (2 ^ 12). rewrite land_bit. unfold fC. destruct (N.testbit w 12); reflexivity. Qed.
Lemma land_committed0 w : (N.land w COMMITTED =? 0) = negb (fC w).
Proof. change COMMITTED with (2 ^ 12). rewrite land_bit. unfold fC. destruct (N.testbit w 12); reflexivity. Qed.
Lemma land_top w : (N.land w TOP =? TOP) = fT w.
Proof. change TOP with (2 ^ 15). rewrite land_bit. unfold fT. destruct (N.testbit w 15); reflexivity. Qed.
Lemma land_started w : (N.land w INIT_STARTED =? 0) = negb (fS w).
Proof. change INIT_STARTED with (2 ^ 14). rewrite land_bit. unfold fS. destruct (N.testbit w 14); reflexivity. Qed.
Lemma land_init w : (N.land w INIT_COMPLETED =? INIT_COMPLETED) = fS w && fD w.
Proof.
  change INIT_COMPLETED with (N.lor (2 ^ 14) (2 ^ 13)). rewrite N.land_lor_distr_r, !land_bit. unfold fS, fD.
  destruct (N.testbit w 14), (N.testbit w 13); reflexivity.
Qed.

Lemma land_flags w : w < 65536 -> N.land w ALL_FLAGS = w / 4096 * 4096.
Proof.
  intros H. change 4096 with (2 ^ 12). rewrite <- N.shiftr_div_pow2, <- N.shiftl_mul_pow2.
  change ALL_FLAGS with (N.shiftl (N.ones 4) 12).
  apply N.bits_inj. intros n. rewrite N.land_spec. destruct (N.lt_ge_cases n 12) as [L|L].
  - rewrite !N.shiftl_spec_low by exact L. apply andb_false_r.
  - rewrite !N.shiftl_spec_high' by exact L. rewrite N.shiftr_spec'. replace (n - 12 + 12) with n by lia.
    destruct (N.lt_ge_cases n 16) as [L2|L2].
    + rewrite N.ones_spec_low by lia. apply andb_true_r.
    + replace (N.testbit w n) with false; [reflexivity|]. symmetry. destruct (N.eq_dec w 0) as [->|]; [apply N.bits_0|]. apply N.bits_above_log2.
      apply N.log2_lt_pow2; [lia|]. eapply N.lt_le_trans; [exact H|]. change 65536 with (2 ^ 16). apply N.pow_le_mono_r; lia.
Qed.

Lemma lor_low h f : h < 4096 -> N.lor h (f * 4096) = f * 4096 + h.
Proof.
  intros H. change 4096 with (2 ^ 12) in *. rewrite <- N.shiftl_mul_pow2.
  assert (L : N.land h (N.shiftl f 12) = 0).
  { apply N.bits_inj. intros n. rewrite N.land_spec, N.bits_0. destruct (N.lt_ge_cases n 12) as [L|L].
    - rewrite N.shiftl_spec_low by exact L. apply andb_false_r.
    - replace (N.testbit h n) with false; [reflexivity|]. symmetry. destruct (N.eq_dec h 0) as [->|]; [apply N.bits_0|]. apply N.bits_above_log2.
      apply N.log2_lt_pow2; [lia|]. eapply N.lt_le_trans; [exact H|]. apply N.pow_le_mono_r; lia. }
  rewrite N.add_comm. rewrite (N.add_nocarry_lxor _ _ L). symmetry. apply N.lxor_lor. exact L.
Qed.

Lemma testbit_low h k : h < 4096 -> 12 <= k -> N.testbit h k = false.
Proof.
  intros H L. destruct (N.eq_dec h 0) as [->|]; [apply N.bits_0|]. apply N.bits_above_log2.
  apply N.log2_lt_pow2; [lia|]. eapply N.lt_le_trans; [exact H|]. change 4096 with (2 ^ 12). apply N.pow_le_mono_r; lia.
Qed.

Lemma hgt_pack f h : h < 4096 -> hgt (f * 4096 + h) = h.
Proof. intros H. unfold hgt. rewrite N.add_comm, N.mod_add by discriminate. apply N.mod_small, H. Qed.
Lemma pack_lt f h : f < 16 -> h < 4096 -> f * 4096 + h < 65536.
Proof. lia. Qed.
Lemma pack_cmp f a b : (f * 4096 + a <? f * 4096 + b) = (a <? b).
Proof. lia. Qed.

(** max_height_published raises the height and keeps the flags. *)
Lemma mhp_spec w h mask : w < 65536 -> h < 4096 -> mask = 0 \/ mask = TOP ->
  match mhp w h mask with
  | None => h <= hgt w
  | Some v => hgt w < h /\ hgt v = h /\ v < 65536 /\ fT v = fT w || (mask =? TOP) /\ fS v = fS w /\ fD v = fD w /\ fC v = fC w
  end.
Proof.
  intros Hw Hh Hm. unfold mhp. rewrite land_flags by exact Hw.
  assert (Hl : hgt w < 4096) by (apply N.mod_lt; discriminate).
  assert (Hd : w / 4096 < 16) by (apply N.div_lt_upper_bound; [discriminate|exact Hw]).
  assert (E : w = w / 4096 * 4096 + hgt w) by (unfold hgt; rewrite N.mul_comm; apply N.div_mod').
  assert (B : forall k, 12 <= k -> N.testbit (w / 4096 * 4096 + h) k = N.testbit w k).
  { intros k L. rewrite <- (lor_low h _ Hh). rewrite N.lor_spec, testbit_low by assumption. cbn [orb]. change 4096 with (2 ^ 12).
    rewrite <- N.shiftl_mul_pow2, <- N.shiftr_div_pow2. rewrite N.shiftl_spec_high' by exact L.
    rewrite N.shiftr_spec'. f_equal. apply N.sub_add. exact L. }
  rewrite (lor_low h _ Hh). remember (w / 4096) as f eqn:Ef.
  replace (w <? f * 4096 + h) with (hgt w <? h) by (rewrite E at 2; symmetry; apply pack_cmp).
  destruct (hgt w <? h) eqn:C; [|apply N.ltb_ge in C; exact C].
  apply N.ltb_lt in C. split; [exact C|].
  assert (V1 := hgt_pack f h Hh). assert (V2 := pack_lt f h Hd Hh).
  assert (B15 := B 15 ltac:(discriminate)). assert (B14 := B 14 ltac:(discriminate)). assert (B13 := B 13 ltac:(discriminate)). assert (B12 := B 12 ltac:(discriminate)).
  clear B Ef E. remember (f * 4096 + h) as v eqn:Ev. clear Ev.
  unfold fT, fS, fD, fC. rewrite !N.lor_spec, B15, B14, B13, B12.
  destruct Hm as [->| ->].
  - rewrite N.lor_0_r, !N.bits_0, !orb_false_r. repeat split; assumption.
  - change (TOP =? TOP) with true. change (N.testbit TOP 15) with true. change (N.testbit TOP 14) with false.
    change (N.testbit TOP 13) with false. change (N.testbit TOP 12) with false. rewrite !orb_true_r, !orb_false_r.
    split.
    { rewrite <- land_height, N.land_lor_distr_l. change (N.land TOP NOT_FLAGS) with 0. rewrite N.lor_0_r, land_height. exact V1. }
    split; [|repeat split].
    assert (U : N.lor v TOP < 2 ^ 16); [|exact U].
    apply N.log2_lt_cancel. rewrite N.log2_lor, N.log2_pow2 by discriminate. change (N.log2 TOP) with 15.
    apply N.max_lub_lt; [|reflexivity].
    destruct (N.eq_dec v 0) as [->|Hn]; [reflexivity|]. apply N.log2_lt_pow2; [apply N.neq_0_lt_0; exact Hn|exact V2].
Qed.

Lemma lor_word w m : w < 65536 -> m < 65536 -> N.land m NOT_FLAGS = 0 ->
  hgt (N.lor w m) = hgt w /\ N.lor w m < 65536 /\ fT (N.lor w m) = fT w || fT m /\ fS (N.lor w m) = fS w || fS m /\
  fD (N.lor w m) = fD w || fD m /\ fC (N.lor w m) = fC w || fC m.
Proof.
  intros H1 H2 H3. split.
  { rewrite <- !land_height, N.land_lor_distr_l, H3. apply N.lor_0_r. }
  split.
  { assert (U : N.lor w m < 2 ^ 16); [|exact U].
    apply N.log2_lt_cancel. rewrite N.log2_lor. rewrite N.log2_pow2 by lia.
    assert (A : forall x, x < 65536 -> N.log2 x < 16).
    { intros x Hx. destruct (N.eq_dec x 0) as [->|]; [reflexivity|]. apply N.log2_lt_pow2; [lia|]. exact Hx. }
    pose proof (A _ H1). pose proof (A _ H2). lia. }
  unfold fT, fS, fD, fC. rewrite !N.lor_spec. repeat split.
Qed.
