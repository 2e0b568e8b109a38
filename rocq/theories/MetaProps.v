(** Property C23: block handle flags only accumulate, and survive storage merges, concurrent setters and crashes. *)
From Verif Require Import MetaModel.
Local Open Scope N_scope.

(** ** bit level facts *)
Lemma pow256_2 k : 256 ^ N.of_nat k = 2 ^ (8 * N.of_nat k).
Proof. rewrite N.pow_mul_r. reflexivity. Qed.
Lemma lor_div_pow2 x y k : N.lor x y / 2 ^ k = N.lor (x / 2 ^ k) (y / 2 ^ k).
Proof. rewrite <- !N.shiftr_div_pow2. apply N.shiftr_lor. Qed.
Lemma lor_mod_pow2 x y k : N.lor x y mod 2 ^ k = N.lor (x mod 2 ^ k) (y mod 2 ^ k).
Proof. rewrite <- !N.land_ones. apply N.land_lor_distr_l. Qed.
Lemma be_lor : forall n x y, be n (N.lor x y) = zip_or (be n x) (be n y).
Proof.
  induction n as [|n IH]; intros x y; cbn [be zip_or]; auto. f_equal.
  - rewrite pow256_2, lor_div_pow2. change 256 with (2 ^ 8). apply lor_mod_pow2.
  - rewrite pow256_2, lor_mod_pow2. apply IH.
Qed.
Lemma zip_or_app : forall a b c d, length a = length b -> zip_or (a ++ c) (b ++ d) = zip_or a b ++ zip_or c d.
Proof. induction a as [|x a IH]; intros [|y b] c d E; cbn in *; try discriminate; auto. f_equal. apply IH. lia. Qed.
Lemma zip_or_rev : forall a b, length a = length b -> zip_or (rev a) (rev b) = rev (zip_or a b).
Proof.
  induction a as [|x a IH]; intros [|y b] E; cbn [rev zip_or] in *; try discriminate; auto. injection E as E.
  rewrite zip_or_app by (rewrite !rev_length; exact E). rewrite IH by exact E. reflexivity.
Qed.
Lemma le_lor n x y : le n (N.lor x y) = zip_or (le n x) (le n y).
Proof. unfold le. rewrite be_lor, zip_or_rev; auto. now rewrite !be_length. Qed.
Lemma enc_lor a b c d : zip_or (enc_meta (Meta a b)) (enc_meta (Meta c d)) = enc_meta (Meta (N.lor a c) (N.lor b d)).
Proof. unfold enc_meta. cbn [m_word m_utime]. rewrite zip_or_app by (now rewrite !le_length). now rewrite <- !le_lor. Qed.
Lemma enc_zero : repeat 0 12 = enc_meta (Meta 0 0).
Proof. reflexivity. Qed.
Lemma dec_enc w u : w < 2 ^ 64 -> u < 2 ^ 32 -> dec_meta (enc_meta (Meta w u)) = Some (Meta w u).
Proof.
  intros W U. unfold dec_meta, enc_meta. cbn [m_word m_utime]. rewrite read_le_le by exact W.
  rewrite <- (app_nil_r (le 4 u)), read_le_le by exact U. reflexivity.
Qed.

Definition sub (a b : N) : Prop := forall i, N.testbit a i = true -> N.testbit b i = true.
Lemma sub_refl a : sub a a. Proof. intros i; auto. Qed.
Lemma sub_trans a b c : sub a b -> sub b c -> sub a c. Proof. unfold sub; auto. Qed.
Lemma sub_lor_l a b : sub a (N.lor a b). Proof. intros i H. rewrite N.lor_spec, H. auto. Qed.
Lemma sub_lor_r a b : sub b (N.lor a b). Proof. intros i H. rewrite N.lor_spec, H. now destruct (N.testbit a i). Qed.
Lemma sub_lor a b c : sub a c -> sub b c -> sub (N.lor a b) c.
Proof. intros A B i. rewrite N.lor_spec. destruct (N.testbit a i) eqn:E; cbn [orb]; auto. Qed.
Lemma sub_antisym a b : sub a b -> sub b a -> a = b.
Proof. intros A B. apply N.bits_inj. intros i. specialize (A i). specialize (B i). destruct (N.testbit a i), (N.testbit b i); auto; try (symmetry; auto); auto. Qed.
Lemma land_sub a b : N.land a b =? b = true <-> sub b a.
Proof.
  rewrite N.eqb_eq. split.
  - intros E i H. rewrite <- E, N.land_spec in H. now apply andb_true_iff in H.
  - intros H. apply N.bits_inj. intros i. rewrite N.land_spec. specialize (H i). destruct (N.testbit b i); [now rewrite H|apply andb_false_r].
Qed.

Lemma flags_bit m i : N.testbit (m_flags m) i = N.testbit (m_word m) (i + 32) && (i <? 32).
Proof.
  unfold m_flags, OFFSET. destruct (N.ltb_spec i 32).
  - rewrite N.mod_pow2_bits_low, N.shiftr_spec' by lia. now rewrite andb_true_r.
  - rewrite N.mod_pow2_bits_high by lia. now rewrite andb_false_r.
Qed.
Lemma bit_high a n i : a < 2 ^ n -> n <= i -> N.testbit a i = false.
Proof.
  intros H L. destruct (N.eq_dec a 0) as [->|NZ]; [apply N.bits_0|]. apply N.bits_above_log2.
  apply N.log2_lt_pow2 in H; lia.
Qed.
Lemma lt_pow2_bits a n : (forall i, n <= i -> N.testbit a i = false) -> a < 2 ^ n.
Proof.
  intros H. destruct (N.lt_ge_cases a (2 ^ n)) as [|G]; auto. exfalso.
  assert (a <> 0) by (pose proof (N.pow_nonzero 2 n); lia).
  apply N.log2_le_pow2 in G; [|lia]. specialize (H (N.log2 a) G). rewrite N.bit_log2 in H; auto. discriminate.
Qed.

(** ** one handle *)

(** Adding flags sets exactly those flags, keeps the seqno and the time, and reports whether something changed. *)
Theorem C23_add_flags : forall m f, m_word m < 2 ^ 64 -> f < 2 ^ 32 ->
  let '(m', changed) := add_flags f m in
  m_flags m' = N.lor (m_flags m) f /\ m_ref m' = m_ref m /\ m_utime m' = m_utime m /\ m_word m' < 2 ^ 64 /\
  (changed = true <-> m_flags m' <> m_flags m).
Proof.
  intros m f W F. unfold add_flags. set (m' := Meta (N.lor (m_word m) (N.shiftl f OFFSET)) (m_utime m)).
  assert (A : m_flags m' = N.lor (m_flags m) f).
  { apply N.bits_inj. intros i. rewrite N.lor_spec, !flags_bit. unfold m'; cbn [m_word]. rewrite N.lor_spec. unfold OFFSET.
    rewrite N.shiftl_spec_high' by lia. replace (i + 32 - 32) with i by lia. destruct (N.ltb_spec i 32); rewrite ?andb_true_r; auto.
    rewrite (bit_high f 32) by lia. now rewrite !andb_false_r. }
  split; [exact A|]. split; [|split; [reflexivity|split]].
  - unfold m_ref, m'. cbn [m_word]. apply N.bits_inj. intros i. destruct (N.lt_ge_cases i 32).
    + rewrite !N.mod_pow2_bits_low by lia. rewrite N.lor_spec. unfold OFFSET. rewrite N.shiftl_spec_low by lia. apply orb_false_r.
    + now rewrite !N.mod_pow2_bits_high by lia.
  - unfold m'; cbn [m_word]. apply lt_pow2_bits. intros i L. rewrite N.lor_spec. unfold OFFSET. rewrite N.shiftl_spec_high' by lia.
    rewrite (bit_high _ 64), (bit_high f 32) by lia. reflexivity.
  - assert (S : N.land (m_word m) (N.shiftl f OFFSET) =? N.shiftl f OFFSET = true <-> sub f (m_flags m)).
    { rewrite land_sub. split; intros H i Hi.
      - rewrite flags_bit. assert (i < 32) by (destruct (N.lt_ge_cases i 32); auto; rewrite (bit_high f 32) in Hi by lia; discriminate).
        destruct (N.ltb_spec i 32); [|lia]. rewrite andb_true_r. apply H. unfold OFFSET. rewrite N.shiftl_spec_high' by lia. now replace (i + 32 - 32) with i by lia.
      - unfold OFFSET in Hi. destruct (N.lt_ge_cases i 32); [rewrite N.shiftl_spec_low in Hi by lia; discriminate|].
        rewrite N.shiftl_spec_high' in Hi by lia. specialize (H _ Hi). rewrite flags_bit in H. apply andb_true_iff in H as [H _].
        now replace (i - 32 + 32) with i in H by lia. }
    assert (E : sub f (m_flags m) <-> m_flags m' = m_flags m).
    { rewrite A. split; intros H.
      - apply sub_antisym; [apply sub_lor; [apply sub_refl|exact H]|apply sub_lor_l].
      - rewrite <- H. apply sub_lor_r. }
    rewrite negb_true_iff. split.
    + intros H C. apply E, S in C. congruence.
    + intros H. destruct (_ =? _) eqn:Q; auto. exfalso. apply H, E, S. reflexivity.
Qed.

(** Removing clears exactly those flags. *)
Theorem C23_remove_flags : forall m f, m_word m < 2 ^ 64 -> f < 2 ^ 32 ->
  let '(m', changed) := remove_flags f m in
  m_flags m' = N.ldiff (m_flags m) f /\ m_ref m' = m_ref m /\ m_utime m' = m_utime m /\
  (changed = true <-> m_flags m' <> m_flags m).
Proof.
  intros m f W F. unfold remove_flags. set (m' := Meta _ (m_utime m)).
  assert (B : forall i, N.testbit (m_word m') i = N.testbit (m_word m) i && negb ((32 <=? i) && N.testbit f (i - 32))).
  { intros i. unfold m'; cbn [m_word]. rewrite N.land_spec, N.lxor_spec. unfold OFFSET. destruct (N.lt_ge_cases i 64).
    - rewrite N.ones_spec_low by lia. destruct (N.leb_spec 32 i).
      + rewrite N.shiftl_spec_high' by lia. cbn [andb]. now destruct (N.testbit f (i - 32)).
      + now rewrite N.shiftl_spec_low by lia.
    - rewrite (bit_high (m_word m) 64) by lia. reflexivity. }
  assert (A : m_flags m' = N.ldiff (m_flags m) f).
  { apply N.bits_inj. intros i. rewrite N.ldiff_spec, !flags_bit, B. destruct (N.leb_spec 32 (i + 32)); [|lia].
    replace (i + 32 - 32) with i by lia. cbn [andb]. destruct (N.testbit (m_word m) (i + 32)), (i <? 32), (N.testbit f i); reflexivity. }
  split; [exact A|]. split; [|split; [reflexivity|]].
  - unfold m_ref. apply N.bits_inj. intros i. destruct (N.lt_ge_cases i 32).
    + rewrite !N.mod_pow2_bits_low by lia. rewrite B. destruct (N.leb_spec 32 i); [lia|]. cbn [andb negb]. apply andb_true_r.
    + now rewrite !N.mod_pow2_bits_high by lia.
  - assert (E : (exists i, N.testbit (m_flags m) i = true /\ N.testbit f i = true) <-> m_flags m' <> m_flags m).
    { rewrite A. split.
      - intros (i & H1 & H2) C. rewrite <- C, N.ldiff_spec, H2, andb_false_r in H1. discriminate.
      - intros H. destruct (N.eq_dec (N.land (m_flags m) f) 0) as [Z|NZ].
        + exfalso. apply H. apply N.bits_inj. intros i. rewrite N.ldiff_spec.
          assert (N.testbit (N.land (m_flags m) f) i = false) by (rewrite Z; apply N.bits_0). rewrite N.land_spec in H0.
          destruct (N.testbit (m_flags m) i), (N.testbit f i); auto; discriminate.
        + exists (N.log2 (N.land (m_flags m) f)). pose proof (N.bit_log2 _ NZ) as Q. rewrite N.land_spec in Q. now apply andb_true_iff in Q. }
    rewrite <- E, negb_true_iff, N.eqb_neq. split.
    + intros NZ. pose proof (N.bit_log2 _ NZ) as Q. set (k := N.log2 _) in *. rewrite N.land_spec in Q. apply andb_true_iff in Q as [Q1 Q2].
      unfold OFFSET in Q2. destruct (N.lt_ge_cases k 32); [rewrite N.shiftl_spec_low in Q2 by lia; discriminate|].
      rewrite N.shiftl_spec_high' in Q2 by lia. exists (k - 32). split; auto. rewrite flags_bit. replace (k - 32 + 32) with k by lia. rewrite Q1.
      destruct (N.ltb_spec (k - 32) 32); auto. rewrite (bit_high f 32) in Q2 by lia. discriminate.
    + intros (i & H1 & H2) Z. rewrite flags_bit in H1. apply andb_true_iff in H1 as [H1 H3].
      assert (Q : N.testbit (N.land (m_word m) (N.shiftl f OFFSET)) (i + 32) = false) by (rewrite Z; apply N.bits_0).
      rewrite N.land_spec, H1 in Q. unfold OFFSET in Q. rewrite N.shiftl_spec_high' in Q by lia. replace (i + 32 - 32) with i in Q by lia. rewrite H2 in Q. discriminate.
Qed.

(** Encoding and decoding keep everything. *)
Theorem C23_roundtrip : forall m, m_word m < 2 ^ 64 -> m_utime m < 2 ^ 32 -> dec_meta (enc_meta m) = Some m /\ length (enc_meta m) = 12%nat.
Proof.
  intros [w u] W U. split; [now apply dec_enc|]. unfold enc_meta. rewrite app_length, !le_length. reflexivity.
Qed.

(** ** the stored row and concurrent setters *)

(** the union of a list of metas *)
Definition union (l : list meta) : meta := fold_left (fun a m => Meta (N.lor (m_word a) (m_word m)) (N.lor (m_utime a) (m_utime m))) l (Meta 0 0).
Lemma union_from : forall l a, fold_left (fun a m => Meta (N.lor (m_word a) (m_word m)) (N.lor (m_utime a) (m_utime m))) l a =
  Meta (N.lor (m_word a) (m_word (union l))) (N.lor (m_utime a) (m_utime (union l))).
Proof.
  unfold union. induction l as [|x l IH]; intros a; cbn [fold_left m_word m_utime].
  - rewrite !N.lor_0_r. now destruct a.
  - rewrite IH. rewrite (IH (Meta (N.lor 0 (m_word x)) (N.lor 0 (m_utime x)))). cbn [m_word m_utime]. rewrite !N.lor_0_l, !N.lor_assoc. reflexivity.
Qed.
Lemma union_app a b : union (a ++ b) = Meta (N.lor (m_word (union a)) (m_word (union b))) (N.lor (m_utime (union a)) (m_utime (union b))).
Proof. unfold union at 1. rewrite fold_left_app. apply union_from. Qed.
Lemma union_one m : union [m] = m.
Proof. unfold union. cbn [fold_left m_word m_utime]. rewrite !N.lor_0_l. now destruct m. Qed.

Lemma merge_union : forall ms a, fold_left zip_or (map enc_meta ms) (enc_meta a) =
  enc_meta (Meta (N.lor (m_word a) (m_word (union ms))) (N.lor (m_utime a) (m_utime (union ms)))).
Proof.
  induction ms as [|m ms IH]; intros a; cbn [map fold_left].
  - unfold union. cbn [fold_left m_word m_utime]. rewrite !N.lor_0_r. now destruct a.
  - destruct a as [w u], m as [w' u']. rewrite enc_lor, IH. cbn [m_word m_utime].
    change (Meta w' u' :: ms) with ([Meta w' u'] ++ ms). rewrite union_app, union_one. cbn [m_word m_utime]. now rewrite !N.lor_assoc.
Qed.
Definition base_of (o : option meta) : option bytes := option_map enc_meta o.
Definition base_union (o : option meta) (l : list meta) : meta := union (match o with Some m => m :: l | None => l end).
Lemma merge_enc o ms : block_handle_merge (base_of o) (map enc_meta ms) = enc_meta (base_union o ms).
Proof.
  unfold block_handle_merge, base_union. destruct o as [m|]; cbn [base_of option_map].
  - rewrite merge_union. f_equal. change (m :: ms) with ([m] ++ ms). rewrite union_app, union_one. reflexivity.
  - rewrite enc_zero, merge_union. cbn [m_word m_utime]. rewrite !N.lor_0_l. now destruct (union ms).
Qed.

(** all pending merge operands and the base are encodings; [ru] is their union *)
Definition row_abs (r : row) (ru : meta) : Prop :=
  exists o ms, r_base r = base_of o /\ r_ops r = map enc_meta ms /\ ru = base_union o ms /\ ~ (o = None /\ ms = []).
Lemma row_read_abs r ru : row_abs r ru -> row_read r = Some (enc_meta ru).
Proof.
  intros (o & ms & E1 & E2 & -> & NE). unfold row_read. rewrite E1, E2. rewrite <- merge_enc.
  destruct o as [m|]; cbn [base_of option_map]; destruct ms as [|m' ms]; cbn [map]; auto. exfalso. apply NE. auto.
Qed.
Lemma map_app_inv {A B} (f : A -> B) l a b : map f l = a ++ b -> exists x y, l = x ++ y /\ map f x = a /\ map f y = b.
Proof. apply map_eq_app. Qed.
Lemma union_group x g y : union (x ++ union g :: y) = union (x ++ g ++ y).
Proof. change (union g :: y) with ([union g] ++ y). rewrite !union_app, union_one. reflexivity. Qed.
Lemma compaction_abs r r' ru : compaction r r' -> row_abs r ru -> row_abs r' ru.
Proof.
  intros C (o & ms & E1 & E2 & -> & NE). destruct C as [e a g b|e a b]; cbn [r_base r_ops] in *.
  - apply eq_sym, map_app_inv in E2 as (x & y & -> & <- & E2). apply map_app_inv in E2 as (g' & z & -> & <- & <-).
    exists o, (x ++ union g' :: z). split; auto. split; [rewrite map_app; cbn [map]; pose proof (merge_enc None g') as ME; cbn [base_of option_map] in ME; now rewrite ME|]. split.
    + unfold base_union. destruct o as [m|]; [|symmetry; apply union_group]. change (m :: x ++ union g' :: z) with ((m :: x) ++ union g' :: z).
      rewrite union_group. reflexivity.
    + intros [_ H]. destruct x; discriminate.
  - apply eq_sym, map_app_inv in E2 as (x & y & -> & <- & <-). exists (Some (base_union o x)), y. cbn [base_of option_map].
    rewrite E1, merge_enc. split; auto. split; auto. split; [|intros [H _]; discriminate].
    unfold base_union. destruct o as [m|].
    + symmetry. exact (union_group [] (m :: x) y).
    + symmetry. exact (union_group [] x y).
Qed.

(** Any grouping of merges of any sequence of written metas: the row reads as their bitwise union. *)
Theorem C23_merge_grouping : forall ws r, ws <> [] ->
  (exists rs : list row, hd_error rs = Some (Row None (map enc_meta ws)) /\ last rs r = r /\
     forall i a b, nth_error rs i = Some a -> nth_error rs (S i) = Some b -> compaction a b) ->
  row_read r = Some (enc_meta (union ws)).
Proof.
  intros ws r NE (rs & H0 & HL & HS). apply row_read_abs.
  assert (A0 : row_abs (Row None (map enc_meta ws)) (union ws)) by (exists None, ws; repeat split; auto; intros [_ ?]; auto).
  revert H0 HL HS A0. generalize (Row None (map enc_meta ws)). induction rs as [|a rs IH]; intros r0 H0 HL HS A0; [discriminate|].
  injection H0 as ->. destruct rs as [|b rs]; [cbn in HL; now subst|].
  apply (IH b); [reflexivity|exact HL| |].
  - intros i x y Hx Hy. apply (HS (S i)); auto.
  - apply (compaction_abs r0 b); auto. apply (HS 0%nat); reflexivity.
Qed.

Section Sys.
  Context (k : bool) (u ref : N) (Hu : u < 2 ^ 32) (Href : ref < 2 ^ 32).

  (** a meta of this block: its seqno and time are the initial ones *)
  Definition of_block (m : meta) : Prop := m_word m < 2 ^ 64 /\ m_ref m = ref /\ m_utime m = u.
  Lemma word_decomp m i : N.testbit (m_word m) i = if i <? 32 then N.testbit (m_ref m) i else N.testbit (m_word m) i.
  Proof. destruct (N.ltb_spec i 32); auto. unfold m_ref. now rewrite N.mod_pow2_bits_low by lia. Qed.
  Lemma of_block_sub a b : of_block a -> of_block b -> (sub (m_word a) (m_word b) <-> sub (m_flags a) (m_flags b)).
  Proof.
    intros (A1 & A2 & A3) (B1 & B2 & B3). split; intros H i.
    - rewrite !flags_bit, !andb_true_iff. intros [? ?]; split; auto.
    - rewrite (word_decomp a), (word_decomp b), A2, B2. destruct (N.ltb_spec i 32); auto. intros T.
      destruct (N.lt_ge_cases i 64).
      + specialize (H (i - 32)). rewrite !flags_bit, !andb_true_iff in H. replace (i - 32 + 32) with i in H by lia. apply H. split; auto. apply N.ltb_lt. lia.
      + rewrite (bit_high _ 64) in T by lia. discriminate.
  Qed.
  Lemma of_block_eq a b : of_block a -> of_block b -> m_flags a = m_flags b -> a = b.
  Proof.
    intros A B E. assert (m_word a = m_word b) by (apply sub_antisym; apply of_block_sub; auto; rewrite E; apply sub_refl).
    destruct a as [w x], b as [w' x']. destruct A as (_ & _ & A), B as (_ & _ & B). cbn in *. congruence.
  Qed.
  Lemma of_block_lor a b : of_block a -> of_block b ->
    of_block (Meta (N.lor (m_word a) (m_word b)) (N.lor (m_utime a) (m_utime b))) /\
    m_flags (Meta (N.lor (m_word a) (m_word b)) (N.lor (m_utime a) (m_utime b))) = N.lor (m_flags a) (m_flags b).
  Proof.
    intros (A1 & A2 & A3) (B1 & B2 & B3). split; [split; [|split]|].
    - cbn [m_word]. apply lt_pow2_bits. intros i L. rewrite N.lor_spec, (bit_high (m_word a) 64), (bit_high (m_word b) 64) by lia. reflexivity.
    - unfold m_ref. cbn [m_word]. rewrite lor_mod_pow2. fold (m_ref a). fold (m_ref b). rewrite A2, B2. apply N.lor_diag.
    - cbn [m_utime]. rewrite A3, B3. apply N.lor_diag.
    - apply N.bits_inj. intros i. rewrite N.lor_spec, !flags_bit. cbn [m_word]. rewrite N.lor_spec. now destruct (N.testbit (m_word a) (i + 32)), (N.testbit (m_word b) (i + 32)), (i <? 32).
  Qed.

  Record sinv (s : sys) : Prop := {
    si_handle : of_block (s_handle s);
    si_row : exists ru, row_abs (s_row s) ru /\ of_block ru /\ sub (m_flags ru) (m_flags (s_handle s)) /\
             sub (s_durable s) (m_flags ru) /\
             (forall i, N.testbit (m_flags (s_handle s)) i = true -> N.testbit (m_flags ru) i = false ->
                exists t f, (s_pc s t = ToRead f \/ exists b, s_pc s t = ToMerge f b) /\ N.testbit f i = true);
    si_read : forall t f, s_pc s t = ToRead f -> sub f (m_flags (s_handle s));
    si_merge : forall t f b, s_pc s t = ToMerge f b -> exists m, b = enc_meta m /\ of_block m /\ sub f (m_flags m) /\ sub (m_flags m) (m_flags (s_handle s));
    si_asked : sub (m_flags (s_handle s)) (s_asked s) }.

  Lemma init_inv : sinv (sys_init k u ref).
  Proof.
    unfold sys_init. set (h := meta_new k u ref).
    assert (OB : of_block h).
    { split; [|split]; [|unfold m_ref|reflexivity]; cbn [h meta_new m_word].
      - apply lt_pow2_bits. intros i L. rewrite N.lor_spec, (bit_high ref 32) by lia. rewrite orb_false_r. destruct k; [|apply N.bits_0].
        apply (bit_high _ 44); [reflexivity|lia].
      - apply N.bits_inj. intros i. destruct (N.lt_ge_cases i 32).
        + rewrite N.mod_pow2_bits_low by lia. rewrite N.lor_spec. destruct k; [|now rewrite N.bits_0]. unfold OFFSET. now rewrite N.shiftl_spec_low by lia.
        + rewrite N.mod_pow2_bits_high by lia. now rewrite (bit_high ref 32) by lia. }
    split; cbn [s_handle s_row s_pc s_asked s_durable]; auto; try discriminate; try apply sub_refl.
    exists h. split; [|split; [|split; [|split]]]; auto; try apply sub_refl.
    - exists None, [h]. split; auto. split; auto. split; [symmetry; apply union_one|]. intros [_ ?]. discriminate.
    - intros i T F. congruence.
  Qed.

  Lemma upd_same t p f : upd t p f t = p.
  Proof. unfold upd. now rewrite Nat.eqb_refl. Qed.
  Lemma upd_cases t p f x : (x = t /\ upd t p f x = p) \/ (x <> t /\ upd t p f x = f x).
  Proof. unfold upd. destruct (Nat.eqb_spec x t); auto. Qed.

  Lemma step_inv s s' : sinv s -> sstep s s' -> sinv s'.
  Proof.
    intros I S. destruct I as [Ih (ru & R1 & R2 & R3 & R4 & R5) Ir Im Ia]. destruct S; cbn [s_handle s_row s_pc s_asked s_durable] in *.
    - (* add *)
      pose proof (C23_add_flags h f (proj1 Ih) H0) as X. destruct (add_flags f h) as [h' ch]. cbn [fst snd] in *.
      destruct X as (X1 & X2 & X3 & X4 & X5).
      assert (OB : of_block h') by (destruct Ih as (? & ? & ?); split; [auto|split; congruence]).
      assert (SB : sub (m_flags h) (m_flags h')) by (rewrite X1; apply sub_lor_l).
      split; cbn [s_handle s_row s_pc s_asked s_durable]; auto.
      + exists ru. split; auto. split; auto. split; [eapply sub_trans; eassumption|]. split; auto. intros i T F.
        destruct ch.
        * rewrite X1, N.lor_spec in T. destruct (N.testbit f i) eqn:Fi.
          -- exists t, f. rewrite upd_same. auto.
          -- rewrite orb_false_r in T. destruct (R5 i T F) as (t' & f' & Q & Q2). exists t', f'. split; auto.
             destruct (upd_cases t (ToRead f) p t') as [[-> E]|[N E]]; rewrite E; auto. rewrite H in Q. destruct Q as [Q|[b Q]]; discriminate.
        * assert (E : m_flags h' = m_flags h) by (destruct (N.eq_dec (m_flags h') (m_flags h)); auto; apply X5 in n; discriminate).
          rewrite E in T. destruct (R5 i T F) as (t' & f' & Q & Q2). exists t', f'. split; auto.
          destruct (upd_cases t Idle p t') as [[-> E2]|[N E2]]; rewrite E2; auto. rewrite H in Q. destruct Q as [Q|[b Q]]; discriminate.
      + intros t' f' E. destruct (upd_cases t (if ch then ToRead f else Idle) p t') as [[-> E2]|[N E2]]; rewrite E2 in E.
        * destruct ch; [|discriminate]. injection E as <-. rewrite X1. apply sub_lor_r.
        * eapply sub_trans; [eapply Ir; eassumption|exact SB].
      + intros t' f' b E. destruct (upd_cases t (if ch then ToRead f else Idle) p t') as [[-> E2]|[N E2]]; rewrite E2 in E.
        * destruct ch; discriminate.
        * destruct (Im _ _ _ E) as (m & ? & ? & ? & ?). exists m. split; auto. split; auto. split; auto. eapply sub_trans; eassumption.
      + rewrite X1. apply sub_lor; [eapply sub_trans; [exact Ia|apply sub_lor_l]|apply sub_lor_r].
    - (* read *)
      split; cbn [s_handle s_row s_pc s_asked s_durable]; auto.
      + exists ru. split; auto. split; auto. split; auto. split; auto. intros i T F. destruct (R5 i T F) as (t' & f' & Q & Q2).
        destruct (upd_cases t (ToMerge f (enc_meta h)) p t') as [[-> E]|[N E]].
        * exists t, f. rewrite upd_same. split; [right; eauto|]. rewrite H in Q. destruct Q as [Q|[b Q]]; [|discriminate]. congruence.
        * exists t', f'. rewrite E. auto.
      + intros t' f' E. destruct (upd_cases t (ToMerge f (enc_meta h)) p t') as [[-> E2]|[N E2]]; rewrite E2 in E; [discriminate|eauto].
      + intros t' f' b E. destruct (upd_cases t (ToMerge f (enc_meta h)) p t') as [[-> E2]|[N E2]]; rewrite E2 in E; [|eauto].
        injection E as <- <-. exists h. split; auto. split; auto. split; [eapply Ir; eassumption|apply sub_refl].
    - (* merge *)
      destruct (Im _ _ _ H) as (m & -> & M1 & M2 & M3). destruct (of_block_lor ru m R2 M1) as (L1 & L2).
      set (ru' := Meta (N.lor (m_word ru) (m_word m)) (N.lor (m_utime ru) (m_utime m))) in *.
      split; cbn [s_handle s_row s_pc s_asked s_durable]; auto.
      + exists ru'. split; [|split; [exact L1|split; [|split]]].
        * destruct R1 as (o & ms & E1 & E2 & E3 & NE). exists o, (ms ++ [m]). cbn [r_base r_ops]. split; auto.
          split; [rewrite map_app, E2; reflexivity|]. split; [|intros [_ ?]; destruct ms; discriminate].
          unfold ru', base_union in *. destruct o as [x|]; [change (x :: ms ++ [m]) with ((x :: ms) ++ [m])|]; rewrite union_app, union_one, <- E3; reflexivity.
        * rewrite L2. apply sub_lor; auto.
        * rewrite L2. apply sub_lor; [eapply sub_trans; [exact R4|apply sub_lor_l]|eapply sub_trans; [exact M2|apply sub_lor_r]].
        * intros i T F. rewrite L2, N.lor_spec in F. apply orb_false_iff in F as [F1 F2]. destruct (R5 i T F1) as (t' & f' & Q & Q2).
          exists t', f'. split; auto. destruct (upd_cases t Idle p t') as [[-> E]|[N E]]; rewrite E; auto. exfalso.
          rewrite H in Q. destruct Q as [Q|[b Q]]; [discriminate|]. injection Q as -> _. rewrite (M2 i Q2) in F2. discriminate.
      + intros t' f' E. destruct (upd_cases t Idle p t') as [[-> E2]|[N E2]]; rewrite E2 in E; [discriminate|eauto].
      + intros t' f' b E. destruct (upd_cases t Idle p t') as [[-> E2]|[N E2]]; rewrite E2 in E; [discriminate|eauto].
    - (* compaction *)
      split; cbn [s_handle s_row s_pc s_asked s_durable]; auto. exists ru. split; [eapply compaction_abs; eassumption|]. auto.
    - (* crash *)
      rewrite (row_read_abs _ _ R1) in H. injection H as <-. destruct ru as [w u']. destruct R2 as (W & Q & U'). cbn [m_utime] in U'.
      rewrite dec_enc in H0 by (cbn in *; lia || (subst; exact Hu)). injection H0 as <-.
      assert (OB : of_block (Meta w u')) by (split; auto).
      split; cbn [s_handle s_row s_pc s_asked s_durable]; auto; try discriminate.
      + exists (Meta w u'). split; auto. split; auto. split; [apply sub_refl|]. split; auto. intros i T F. congruence.
      + eapply sub_trans; eassumption.
  Qed.
  Lemma reach_inv s : sreach k u ref s -> sinv s.
  Proof. induction 1; [apply init_inv|eapply step_inv; eassumption]. Qed.
End Sys.

(** In every interleaving of setters, merges, compactions and crashes: the row can always be loaded; it keeps the block's
    masterchain reference and time; it holds every flag of every setter call that returned [true], and no flag nobody asked
    for; and when no setter is running it holds exactly the flags of the in-memory handle. *)
Theorem C23_no_flag_lost : forall k u ref s, u < 2 ^ 32 -> ref < 2 ^ 32 -> sreach k u ref s ->
  exists b m, row_read (s_row s) = Some b /\ dec_meta b = Some m /\
    m_ref m = ref /\ m_utime m = u /\
    (forall i, N.testbit (s_durable s) i = true -> N.testbit (m_flags m) i = true) /\
    (forall i, N.testbit (m_flags m) i = true -> N.testbit (s_asked s) i = true) /\
    (forall i, N.testbit (m_flags m) i = true -> N.testbit (m_flags (s_handle s)) i = true) /\
    ((forall t, s_pc s t = Idle) -> m = s_handle s).
Proof.
  intros k u ref s Hu Hr R. destruct (reach_inv k u ref Hu Hr s R) as [Ih (ru & R1 & R2 & R3 & R4 & R5) Ir Im Ia].
  exists (enc_meta ru), ru. split; [now apply row_read_abs|]. split.
  { destruct ru as [w u']. destruct R2 as (W & _ & U). apply dec_enc; auto. cbn in U. now rewrite U. }
  destruct R2 as (W & Q & U). split; auto. split; auto. split; auto. split; [intros i T; auto|]. split; auto.
  intros AI. assert (OBr : of_block u ref ru) by (split; auto). refine (of_block_eq u ref Hu Hr ru (s_handle s) OBr Ih _). apply sub_antisym; auto. intros i T.
  destruct (N.testbit (m_flags ru) i) eqn:E; auto. destruct (R5 i T E) as (t & f & [X|[b X]] & _); rewrite AI in X; discriminate.
Qed.

(** A setter that finds its flag already set in memory returns (false) without storing anything, although the first setter may
    not have stored it yet: after a crash the flag can be missing although a call that set it has returned. *)
Theorem C23_second_setter_refuted : exists s s1 s' f,
  sreach false 1 7 s /\ s_pc s 1%nat = Idle /\
  (* thread 1 runs a complete setter call for flag f: it returns at once *)
  sstep s s1 /\ s_pc s1 1%nat = Idle /\ s_asked s1 = N.lor (s_asked s) f /\ N.testbit f 10 = true /\ N.testbit (m_flags (s_handle s1)) 10 = true /\
  (* crash *)
  sstep s1 s' /\ N.testbit (m_flags (s_handle s')) 10 = false.
Proof.
  pose (s0 := sys_init false 1 7).
  pose (h1 := fst (add_flags (2 ^ 10) (s_handle s0))).
  pose (s := Sys h1 (s_row s0) (upd 0 (ToRead (2 ^ 10)) (s_pc s0)) (N.lor 0 (2 ^ 10)) 0).
  pose (s1 := Sys (fst (add_flags (2 ^ 10) h1)) (s_row s0) (upd 1 Idle (s_pc s)) (N.lor (s_asked s) (2 ^ 10)) 0).
  exists s, s1, (Sys (s_handle s0) (s_row s0) (fun _ => Idle) (s_asked s1) 0), (2 ^ 10).
  split. { eapply RStep; [apply RInit|]. exact (TAdd (s_handle s0) (s_row s0) (s_pc s0) 0 0 0%nat (2 ^ 10) eq_refl eq_refl). }
  split; [reflexivity|]. split. { exact (TAdd h1 (s_row s0) (s_pc s) (s_asked s) 0 1%nat (2 ^ 10) eq_refl eq_refl). }
  split; [reflexivity|]. split; [reflexivity|]. split; [reflexivity|]. split; [reflexivity|]. split; [|reflexivity].
  eapply TCrash; [reflexivity|]. reflexivity.
Qed.

(** a run with two racing setters, both merged *)
Example C23_nonvacuous : exists s, sreach true 5 9 s /\ N.testbit (s_durable s) 0 = true /\ N.testbit (s_durable s) 1 = true /\ (forall t, s_pc s t = Idle).
Proof.
  eexists. split.
  { eapply RStep; [eapply RStep; [eapply RStep; [eapply RStep; [eapply RStep; [eapply RStep; [apply RInit|]|]|]|]|]|].
    - apply (TAdd _ _ _ _ _ 0%nat 1); reflexivity.
    - apply (TAdd _ _ _ _ _ 1%nat 2); reflexivity.
    - apply (TRead _ _ _ _ _ 0%nat 1). reflexivity.
    - apply (TRead _ _ _ _ _ 1%nat 2). reflexivity.
    - eapply (TMerge _ _ _ _ _ 1%nat 2). reflexivity.
    - eapply (TMerge _ _ _ _ _ 0%nat 1). reflexivity. }
  split; [reflexivity|]. split; [reflexivity|]. intros [|[|t]]; reflexivity.
Qed.

Print Assumptions C23_add_flags. Print Assumptions C23_remove_flags. Print Assumptions C23_roundtrip.
Print Assumptions C23_merge_grouping. Print Assumptions C23_no_flag_lost. Print Assumptions C23_second_setter_refuted.

(** what garbage collection must keep, bit by bit: key blocks (11), persistent states (12), zerostates (16), and blocks whose
    block (20/21) or state (18/19) GC is to be skipped and not yet finished being skipped *)
Lemma land_pow2 f n : (N.land f (2 ^ n) =? 0) = negb (N.testbit f n) /\ (N.land f (2 ^ n) =? 2 ^ n) = N.testbit f n.
Proof.
  assert (P : N.land f (2 ^ n) = if N.testbit f n then 2 ^ n else 0).
  { apply N.bits_inj; intros k. rewrite N.land_spec, N.pow2_bits_eqb. destruct (N.eqb_spec n k) as [->|H].
    - destruct (N.testbit f k); cbn [andb]; [now rewrite N.pow2_bits_true|now rewrite N.bits_0].
    - rewrite andb_false_r. destruct (N.testbit f n); [|now rewrite N.bits_0]. now rewrite N.pow2_bits_false. }
  rewrite P. pose proof (N.pow_nonzero 2 n ltac:(discriminate)). destruct (N.testbit f n); cbn [negb]; split;
    first [now apply N.eqb_eq|apply N.eqb_neq; auto|auto].
Qed.
Theorem C23_retained_during_gc : forall f,
  retain_during_gc f = true <->
  N.testbit f 11 = true \/ N.testbit f 12 = true \/ N.testbit f 16 = true \/
  (N.testbit f 20 = true /\ N.testbit f 21 = false) \/ (N.testbit f 18 = true /\ N.testbit f 19 = false).
Proof.
  intros f. unfold retain_during_gc, intersects, contains, IS_KEY_BLOCK, IS_PERSISTENT, IS_ZEROSTATE, SKIP_BLOCKS_GC, SKIP_BLOCKS_GC_FINISHED, SKIP_STATES_GC, SKIP_STATES_GC_FINISHED.
  assert (L : negb (N.land f (N.lor (2 ^ 11) (N.lor (2 ^ 12) (2 ^ 16))) =? 0) = N.testbit f 11 || N.testbit f 12 || N.testbit f 16).
  { rewrite !N.land_lor_distr_r. destruct (land_pow2 f 11) as [A _], (land_pow2 f 12) as [B _], (land_pow2 f 16) as [C _].
    destruct (N.eqb_spec (N.lor (N.land f (2 ^ 11)) (N.lor (N.land f (2 ^ 12)) (N.land f (2 ^ 16)))) 0) as [E|E]; cbn [negb].
    - apply N.lor_eq_0_iff in E as [E1 E2]. apply N.lor_eq_0_iff in E2 as [E2 E3]. rewrite E1 in A. rewrite E2 in B. rewrite E3 in C.
      cbn in A, B, C. destruct (N.testbit f 11), (N.testbit f 12), (N.testbit f 16); auto; discriminate.
    - destruct (N.testbit f 11), (N.testbit f 12), (N.testbit f 16); auto. exfalso. apply E.
      apply N.eqb_eq in A, B, C. now rewrite A, B, C. }
  rewrite L. rewrite (proj2 (land_pow2 f 20)), (proj2 (land_pow2 f 21)), (proj2 (land_pow2 f 18)), (proj2 (land_pow2 f 19)).
  destruct (N.testbit f 11), (N.testbit f 12), (N.testbit f 16), (N.testbit f 20), (N.testbit f 21), (N.testbit f 18), (N.testbit f 19); cbn; intuition discriminate.
Qed.
Example C23_retained_example : retain_during_gc (2 ^ 20) = true /\ retain_during_gc (2 ^ 20 + 2 ^ 21 + 2 ^ 5) = false.
Proof. split; reflexivity. Qed.
Print Assumptions C23_retained_during_gc.
