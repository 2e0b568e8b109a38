(** Byte strings: big/little endian numbers, lexicographic order, readers.
    A byte string is a [list N]; [bytes_ok] says every element is < 256.
    This file models no file of /repo by itself: it is the arithmetic of Rust's
    [to_be_bytes]/[from_be_bytes]/[to_le_bytes]/[from_le_bytes] and of slice comparison
    ([<[u8] as Ord>::cmp], which is also RocksDB's default bytewise comparator). *)
From Coq Require Export List NArith ZArith Lia Bool.
From Coq Require Import ZifyBool ZifyNat ZifyN.
Export ListNotations.
Local Open Scope N_scope.

Definition bytes := list N.
Definition bytes_ok (l : bytes) : Prop := Forall (fun b => b < 256) l.

(** [be n x] : the [n] low-order bytes of [x], most significant first. *)
Fixpoint be (n : nat) (x : N) : bytes :=
  match n with
  | O => []
  | S k => ((x / 256 ^ N.of_nat k) mod 256) :: be k (x mod 256 ^ N.of_nat k)
  end.

(** value of a big-endian byte string *)
Definition de (l : bytes) : N := fold_left (fun a b => a * 256 + b) l 0.

(** little endian *)
Definition le (n : nat) (x : N) : bytes := rev (be n x).
Definition de_le (l : bytes) : N := de (rev l).

(** [a.cmp(b).then(c)] of derived [Ord] *)
Definition cmp_then (c d : comparison) : comparison :=
  match c with Eq => d | Lt => Lt | Gt => Gt end.

(** lexicographic comparison of byte strings *)
Fixpoint lex (a b : bytes) : comparison :=
  match a, b with
  | [], [] => Eq
  | [], _ :: _ => Lt
  | _ :: _, [] => Gt
  | x :: a', y :: b' => match x ?= y with Eq => lex a' b' | c => c end
  end.

Definition lex_ltb (a b : bytes) : bool := match lex a b with Lt => true | _ => false end.
Definition lex_leb (a b : bytes) : bool := match lex a b with Gt => false | _ => true end.

(** split off exactly [n] bytes; [None] when fewer are available (a Rust slice panic or a
    TL [UnexpectedEof]) *)
Fixpoint take_n (n : nat) (l : bytes) : option (bytes * bytes) :=
  match n with
  | O => Some ([], l)
  | S k => match l with
           | [] => None
           | x :: r => match take_n k r with
                       | Some (a, rest) => Some (x :: a, rest)
                       | None => None
                       end
           end
  end.

Definition read_be (n : nat) (l : bytes) : option (N * bytes) :=
  match take_n n l with Some (a, r) => Some (de a, r) | None => None end.
Definition read_le (n : nat) (l : bytes) : option (N * bytes) :=
  match take_n n l with Some (a, r) => Some (de_le a, r) | None => None end.

(** two's complement: [i8]/[i32] cast to the unsigned type of the same width and back *)
Definition to_u (bits : N) (z : Z) : N := Z.to_N (z mod 2 ^ Z.of_N bits).
Definition to_i (bits : N) (n : N) : Z :=
  if n <? 2 ^ (bits - 1) then Z.of_N n else (Z.of_N n - 2 ^ Z.of_N bits)%Z.

(** ** Facts *)

Lemma pow256_pos k : 0 < 256 ^ N.of_nat k.
Proof. apply N.neq_0_lt_0, N.pow_nonzero; lia. Qed.

Lemma pow256_S k : 256 ^ N.of_nat (S k) = 256 * 256 ^ N.of_nat k.
Proof. rewrite Nat2N.inj_succ, N.pow_succ_r'; reflexivity. Qed.

Lemma be_length n x : length (be n x) = n.
Proof. revert x; induction n as [|k IH]; intros x; cbn [be length]; [reflexivity|now rewrite IH]. Qed.

Lemma be_ok n x : bytes_ok (be n x).
Proof.
  revert x; induction n as [|k IH]; intros x; cbn [be]; constructor; [|apply IH].
  apply N.mod_lt; lia.
Qed.

Lemma de_acc l a : fold_left (fun a b => a * 256 + b) l a = a * 256 ^ N.of_nat (length l) + de l.
Proof.
  unfold de. revert a; induction l as [|x l IH]; intros a.
  - cbn [fold_left length N.of_nat]. rewrite N.pow_0_r; lia.
  - cbn [fold_left length]. rewrite (IH (a*256+x)), (IH (0*256+x)), pow256_S. lia.
Qed.

Lemma de_cons x l : de (x :: l) = x * 256 ^ N.of_nat (length l) + de l.
Proof. unfold de at 1. cbn [fold_left]. rewrite de_acc. lia. Qed.

Lemma de_bound l : bytes_ok l -> de l < 256 ^ N.of_nat (length l).
Proof.
  induction l as [|x l IH]; intros H.
  - cbn. lia.
  - inversion H as [|? ? Hx Hl]; subst. rewrite de_cons. cbn [length]. rewrite pow256_S.
    specialize (IH Hl). nia.
Qed.

Lemma de_be n x : x < 256 ^ N.of_nat n -> de (be n x) = x.
Proof.
  revert x; induction n as [|k IH]; intros x Hx.
  - cbn in *. unfold de; cbn. change (256 ^ 0) with 1 in Hx. lia.
  - cbn [be]. rewrite de_cons, be_length.
    pose proof (pow256_pos k) as Hp.
    rewrite IH by (apply N.mod_lt; lia).
    rewrite pow256_S in Hx.
    rewrite (N.mod_small (x / _)) by (apply N.div_lt_upper_bound; lia).
    rewrite N.mul_comm. symmetry; apply N.div_mod'.
Qed.

Lemma be_mod n x : be n (x mod 256 ^ N.of_nat n) = be n x.
Proof.
  destruct n as [|k]; [reflexivity|]. cbn [be].
  pose proof (pow256_pos k) as Hp. rewrite pow256_S, (N.mul_comm 256).
  set (P := 256 ^ N.of_nat k) in *.
  assert (E0 : x mod (P * 256) = x mod P + ((x / P) mod 256) * P).
  { rewrite N.mod_mul_r by lia. lia. }
  rewrite E0. f_equal.
  - rewrite N.div_add by lia. rewrite (N.div_small (x mod _)) by (apply N.mod_lt; lia).
    rewrite N.add_0_l. apply N.mod_mod; lia.
  - f_equal. rewrite N.mod_add by lia. apply N.mod_mod; lia.
Qed.

Lemma be_de l : bytes_ok l -> be (length l) (de l) = l.
Proof.
  induction l as [|x l IH]; intros H; [reflexivity|].
  inversion H as [|? ? Hx Hl]; subst. cbn [length be]. rewrite de_cons.
  pose proof (de_bound l Hl) as Hb. pose proof (pow256_pos (length l)) as Hp.
  f_equal.
  - rewrite N.add_comm, N.div_add by lia. rewrite N.div_small by lia.
    rewrite N.add_0_l. apply N.mod_small; lia.
  - rewrite N.add_comm, N.mod_add by lia. rewrite N.mod_small by lia. auto.
Qed.

Lemma le_length n x : length (le n x) = n.
Proof. unfold le. now rewrite rev_length, be_length. Qed.
Lemma le_ok n x : bytes_ok (le n x).
Proof. unfold le, bytes_ok. apply Forall_rev, be_ok. Qed.
Lemma de_le_le n x : x < 256 ^ N.of_nat n -> de_le (le n x) = x.
Proof. unfold de_le, le. rewrite rev_involutive. apply de_be. Qed.
Lemma le_de_le l : bytes_ok l -> le (length l) (de_le l) = l.
Proof.
  intros H. unfold le, de_le. rewrite <- (rev_length l), be_de, rev_involutive; auto.
  apply Forall_rev; auto.
Qed.

(** *** readers *)
Lemma take_n_app n a r : length a = n -> take_n n (a ++ r) = Some (a, r).
Proof.
  intros <-. induction a as [|x a IH]; [reflexivity|].
  cbn [length app take_n]. now rewrite IH.
Qed.

Lemma take_n_some n l a r : take_n n l = Some (a, r) -> l = a ++ r /\ length a = n.
Proof.
  revert l a r; induction n as [|k IH]; intros l a r H; cbn [take_n] in H.
  - injection H as <- <-. auto.
  - destruct l as [|x l]; [discriminate|].
    destruct (take_n k l) as [[a' r']|] eqn:E; [|discriminate].
    injection H as <- <-. apply IH in E as [-> <-]. auto.
Qed.

Lemma take_n_none n l : take_n n l = None <-> (length l < n)%nat.
Proof.
  revert l; induction n as [|k IH]; intros l; cbn [take_n].
  - split; [discriminate|lia].
  - destruct l as [|x l]; cbn [length]; [split; [lia|reflexivity]|].
    destruct (take_n k l) as [[a r]|] eqn:E.
    + split; [discriminate|]. intros H. destruct (IH l) as [_ H2]. rewrite H2 in E by lia; discriminate.
    + split; auto. intros _. apply IH in E. lia.
Qed.

Lemma read_be_be n x r : x < 256 ^ N.of_nat n -> read_be n (be n x ++ r) = Some (x, r).
Proof. intros H. unfold read_be. rewrite take_n_app by apply be_length. now rewrite de_be. Qed.
Lemma read_le_le n x r : x < 256 ^ N.of_nat n -> read_le n (le n x ++ r) = Some (x, r).
Proof. intros H. unfold read_le. rewrite take_n_app by apply le_length. now rewrite de_le_le. Qed.

Lemma read_be_some n l x r : bytes_ok l -> read_be n l = Some (x, r) ->
  l = be n x ++ r /\ x < 256 ^ N.of_nat n.
Proof.
  unfold read_be. intros Hok H. destruct (take_n n l) as [[a r']|] eqn:E; [|discriminate].
  injection H as <- <-. apply take_n_some in E as [-> <-].
  apply Forall_app in Hok as [Ha _]. split; [now rewrite be_de|now apply de_bound].
Qed.
Lemma read_le_some n l x r : bytes_ok l -> read_le n l = Some (x, r) ->
  l = le n x ++ r /\ x < 256 ^ N.of_nat n.
Proof.
  unfold read_le. intros Hok H. destruct (take_n n l) as [[a r']|] eqn:E; [|discriminate].
  injection H as <- <-. apply take_n_some in E as [-> <-].
  apply Forall_app in Hok as [Ha _]. split; [now rewrite le_de_le|].
  unfold de_le. rewrite <- (rev_length a). apply de_bound, Forall_rev, Ha.
Qed.

(** *** order *)
Lemma lex_refl a : lex a a = Eq.
Proof. induction a as [|x a IH]; [reflexivity|]. cbn [lex]. now rewrite N.compare_refl. Qed.

Lemma lex_eq a b : lex a b = Eq <-> a = b.
Proof.
  split; [|intros ->; apply lex_refl].
  revert b; induction a as [|x a IH]; intros [|y b]; cbn [lex]; try discriminate; auto.
  destruct (N.compare_spec x y); try discriminate. intros H1. subst. now rewrite (IH b H1).
Qed.

Lemma lex_antisym a b : lex b a = CompOpp (lex a b).
Proof.
  revert b; induction a as [|x a IH]; intros [|y b]; cbn [lex]; auto.
  rewrite (N.compare_antisym x y). destruct (x ?= y); cbn [CompOpp]; auto.
Qed.

Lemma lex_trans_lt a b c : lex a b = Lt -> lex b c = Lt -> lex a c = Lt.
Proof.
  revert b c; induction a as [|x a IH]; intros [|y b] [|z c]; cbn [lex]; try discriminate; auto.
  intros H1 H2.
  destruct (N.compare_spec x y) as [E1|E1|E1]; destruct (N.compare_spec y z) as [E2|E2|E2];
    try discriminate; destruct (N.compare_spec x z) as [E3|E3|E3]; try lia; eauto.
Qed.

Lemma lex_app a b c d : length a = length b ->
  lex (a ++ c) (b ++ d) = cmp_then (lex a b) (lex c d).
Proof.
  revert b; induction a as [|x a IH]; intros [|y b] H; try discriminate; [reflexivity|].
  cbn [app lex]. destruct (x ?= y); auto.
Qed.

Lemma lex_be n x y : x < 256 ^ N.of_nat n -> y < 256 ^ N.of_nat n ->
  lex (be n x) (be n y) = (x ?= y).
Proof.
  revert x y; induction n as [|k IH]; intros x y Hx Hy.
  - change (256 ^ N.of_nat 0) with 1 in *. assert (x = y) by lia. subst.
    cbn. symmetry; apply N.compare_refl.
  - cbn [be lex]. pose proof (pow256_pos k) as Hp. rewrite pow256_S in *.
    assert (Ex := N.div_mod' x (256 ^ N.of_nat k)).
    assert (Ey := N.div_mod' y (256 ^ N.of_nat k)).
    assert (Rx : x mod 256 ^ N.of_nat k < 256 ^ N.of_nat k) by (apply N.mod_lt; lia).
    assert (Ry : y mod 256 ^ N.of_nat k < 256 ^ N.of_nat k) by (apply N.mod_lt; lia).
    rewrite IH by assumption.
    set (P := 256 ^ N.of_nat k) in *.
    assert (Qx : x / P < 256) by (apply N.div_lt_upper_bound; lia).
    assert (Qy : y / P < 256) by (apply N.div_lt_upper_bound; lia).
    rewrite !(N.mod_small (_ / P)) by assumption.
    set (qx := x / P) in *. set (qy := y / P) in *.
    set (rx := x mod P) in *. set (ry := y mod P) in *.
    destruct (N.compare_spec qx qy) as [H|H|H].
    + rewrite H in Ex. destruct (N.compare_spec rx ry); symmetry;
        [apply N.compare_eq_iff|apply N.compare_lt_iff|apply N.compare_gt_iff]; lia.
    + symmetry; apply N.compare_lt_iff. nia.
    + symmetry; apply N.compare_gt_iff. nia.
Qed.

Lemma lex_ltb_spec a b : lex_ltb a b = true <-> lex a b = Lt.
Proof. unfold lex_ltb. destruct (lex a b); split; congruence. Qed.
Lemma lex_leb_spec a b : lex_leb a b = true <-> lex a b <> Gt.
Proof. unfold lex_leb. destruct (lex a b); split; congruence. Qed.
Lemma lex_leb_ltb a b : lex_leb a b = negb (lex_ltb b a).
Proof. unfold lex_leb, lex_ltb. rewrite (lex_antisym a b). destruct (lex a b); reflexivity. Qed.

(** two's complement *)
Lemma to_u_bound bits z : to_u bits z < 2 ^ bits.
Proof.
  unfold to_u. pose proof (Z.mod_pos_bound z (2 ^ Z.of_N bits)) as H.
  assert (0 < 2 ^ Z.of_N bits)%Z by (apply Z.pow_pos_nonneg; lia).
  specialize (H ltac:(lia)).
  apply N2Z.inj_lt. rewrite Z2N.id by lia. rewrite N2Z.inj_pow. change (Z.of_N 2) with 2%Z. lia.
Qed.

Lemma pow2_split bits : 0 < bits -> 2 ^ bits = 2 * 2 ^ (bits - 1).
Proof. intros H. rewrite <- N.pow_succ_r'. f_equal. lia. Qed.

Lemma to_i_to_u bits z : 0 < bits ->
  (- 2 ^ Z.of_N (bits - 1) <= z < 2 ^ Z.of_N (bits - 1))%Z -> to_i bits (to_u bits z) = z.
Proof.
  intros Hb Hz. unfold to_i, to_u.
  assert (E : (2 ^ Z.of_N bits = 2 * 2 ^ Z.of_N (bits - 1))%Z).
  { rewrite <- Z.pow_succ_r by lia. f_equal. lia. }
  assert (E2 : (2 ^ (bits - 1) = Z.to_N (2 ^ Z.of_N (bits - 1)))%N).
  { apply N2Z.inj. rewrite Z2N.id by (apply Z.pow_nonneg; lia).
    rewrite N2Z.inj_pow. reflexivity. }
  assert (P : (0 < 2 ^ Z.of_N (bits - 1))%Z) by (apply Z.pow_pos_nonneg; lia).
  destruct (Z_lt_ge_dec z 0) as [Hneg|Hpos].
  - assert (Em : (z mod 2 ^ Z.of_N bits = z + 2 ^ Z.of_N bits)%Z).
    { symmetry. apply Z.mod_unique with (-1)%Z; lia. }
    rewrite Em. destruct (N.ltb_spec (Z.to_N (z + 2 ^ Z.of_N bits)) (2 ^ (bits - 1))) as [H|H].
    + rewrite E2 in H. lia.
    + lia.
  - rewrite Z.mod_small by lia.
    destruct (N.ltb_spec (Z.to_N z) (2 ^ (bits - 1))) as [H|H]; [lia|].
    rewrite E2 in H. lia.
Qed.

Lemma to_i_bound bits n : 0 < bits -> n < 2 ^ bits ->
  (- 2 ^ Z.of_N (bits - 1) <= to_i bits n < 2 ^ Z.of_N (bits - 1))%Z.
Proof.
  intros Hb Hn. unfold to_i.
  assert (E : (2 ^ Z.of_N bits = 2 * 2 ^ Z.of_N (bits - 1))%Z).
  { rewrite <- Z.pow_succ_r by lia. f_equal. lia. }
  assert (Q : Z.of_N (2 ^ (bits - 1)) = (2 ^ Z.of_N (bits - 1))%Z) by apply N2Z.inj_pow.
  assert (Q2 : Z.of_N (2 ^ bits) = (2 ^ Z.of_N bits)%Z) by apply N2Z.inj_pow.
  destruct (N.ltb_spec n (2 ^ (bits - 1))) as [H|H]; lia.
Qed.

Lemma to_u_to_i bits n : 0 < bits -> n < 2 ^ bits -> to_u bits (to_i bits n) = n.
Proof.
  intros Hb Hn. unfold to_u, to_i.
  assert (Q2 : Z.of_N (2 ^ bits) = (2 ^ Z.of_N bits)%Z) by apply N2Z.inj_pow.
  destruct (N.ltb_spec n (2 ^ (bits - 1))) as [H|H].
  - rewrite Z.mod_small by lia. lia.
  - assert (Em : ((Z.of_N n - 2 ^ Z.of_N bits) mod 2 ^ Z.of_N bits = Z.of_N n)%Z).
    { symmetry. apply Z.mod_unique with (-1)%Z; lia. }
    rewrite Em. lia.
Qed.
