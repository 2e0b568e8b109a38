From Verif Require Export QueueKeysModel.
From Coq Require Import ZifyBool ZifyNat ZifyN.
Local Open Scope N_scope.

Lemma p64 : 256 ^ N.of_nat 8 = 2 ^ 64. Proof. reflexivity. Qed.
Lemma p256 : 256 ^ N.of_nat 32 = 2 ^ 256. Proof. reflexivity. Qed.
Lemma p32 : 256 ^ N.of_nat 4 = 2 ^ 32. Proof. reflexivity. Qed.
Lemma p16 : 256 ^ N.of_nat 2 = 2 ^ 16. Proof. reflexivity. Qed.
Lemma p8 : 256 ^ N.of_nat 1 = 2 ^ 8. Proof. reflexivity. Qed.

(** *** the order on queue keys is a total order *)
Lemma qk_eta k : QK (qk_lt k) (qk_hash k) = k. Proof. destruct k; reflexivity. Qed.

Lemma qk_cmp_eq a b : qk_cmp a b = Eq <-> a = b.
Proof.
  unfold qk_cmp, cmp_then. destruct a as [l1 h1], b as [l2 h2]; cbn [qk_lt qk_hash].
  destruct (N.compare_spec l1 l2); destruct (N.compare_spec h1 h2);
    split; intros E; try discriminate; subst; try reflexivity; injection E; lia.
Qed.

Lemma qk_cmp_lt a b : qk_cmp a b = Lt <->
  qk_lt a < qk_lt b \/ (qk_lt a = qk_lt b /\ qk_hash a < qk_hash b).
Proof.
  unfold qk_cmp, cmp_then.
  destruct (N.compare_spec (qk_lt a) (qk_lt b)); destruct (N.compare_spec (qk_hash a) (qk_hash b));
    split; intros E; try discriminate; try reflexivity; try lia.
Qed.

Lemma qk_cmp_antisym a b : qk_cmp b a = CompOpp (qk_cmp a b).
Proof.
  unfold qk_cmp, cmp_then. rewrite (N.compare_antisym (qk_lt a)), (N.compare_antisym (qk_hash a)).
  destruct (qk_lt a ?= qk_lt b); reflexivity.
Qed.

Lemma qk_cmp_gt a b : qk_cmp a b = Gt <->
  qk_lt b < qk_lt a \/ (qk_lt a = qk_lt b /\ qk_hash b < qk_hash a).
Proof.
  rewrite (qk_cmp_antisym b a). split.
  - intros H. assert (H1 : qk_cmp b a = Lt) by (destruct (qk_cmp b a); auto; discriminate).
    apply qk_cmp_lt in H1. lia.
  - intros H. assert (H1 : qk_cmp b a = Lt) by (apply qk_cmp_lt; lia). now rewrite H1.
Qed.

Lemma qk_cmp_refl a : qk_cmp a a = Eq. Proof. now apply qk_cmp_eq. Qed.
Lemma qk_ltb_iff a b : qk_ltb a b = true <->
  qk_lt a < qk_lt b \/ (qk_lt a = qk_lt b /\ qk_hash a < qk_hash b).
Proof. unfold qk_ltb. rewrite <- qk_cmp_lt. destruct (qk_cmp a b); split; congruence. Qed.
Lemma qk_leb_iff a b : qk_leb a b = true <->
  qk_lt a < qk_lt b \/ (qk_lt a = qk_lt b /\ qk_hash a <= qk_hash b).
Proof.
  unfold qk_leb. destruct (qk_cmp a b) eqn:E.
  - apply qk_cmp_eq in E; subst. split; auto. intros _; right; lia.
  - apply qk_cmp_lt in E. split; auto. intros _. lia.
  - apply qk_cmp_gt in E. split; [discriminate|]. lia.
Qed.

(** *** [inc_rev] adds one *)
Lemma de_le_cons b l : de_le (b :: l) = b + 256 * de_le l.
Proof.
  unfold de_le. cbn [rev]. unfold de. rewrite fold_left_app. cbn [fold_left]. lia.
Qed.

Lemma inc_rev_length l : length (inc_rev l) = length l.
Proof. induction l as [|b l IH]; cbn [inc_rev]; auto. destruct (b + 1 <? 256); cbn [length]; congruence. Qed.

Lemma inc_rev_val l : bytes_ok l -> de_le l + 1 < 256 ^ N.of_nat (length l) ->
  de_le (inc_rev l) = de_le l + 1.
Proof.
  induction l as [|b l IH]; intros Hok Hlt.
  - cbn in Hlt. lia.
  - inversion Hok as [|? ? Hb Hl]; subst. cbn [inc_rev]. cbn [length] in Hlt. rewrite pow256_S in Hlt.
    rewrite de_le_cons in *. destruct (N.ltb_spec (b + 1) 256) as [H|H].
    + rewrite de_le_cons. rewrite N.mod_small by lia. lia.
    + assert (b = 255) by lia. subst b. rewrite de_le_cons.
      change ((255 + 1) mod 256) with 0. rewrite IH by (auto; lia). lia.
Qed.

Lemma next_hash h : h < hash_max ->
  de (rev (inc_rev (rev (be 32 h)))) = h + 1.
Proof.
  intros H. cut (de_le (inc_rev (le 32 h)) = h + 1); [unfold de_le, le; auto|].
  assert (Hh : h < 256 ^ N.of_nat 32) by (rewrite p256; unfold hash_max in H; lia).
  rewrite inc_rev_val.
  - now rewrite de_le_le.
  - apply le_ok.
  - rewrite le_length, de_le_le, p256 by assumption. unfold hash_max in H. lia.
Qed.

Lemma next_value_ok k : qk_ok k -> qk_ok (next_value k).
Proof.
  intros [Hl Hh]. unfold next_value.
  destruct (N.eqb_spec (qk_hash k) hash_max) as [E|E].
  - destruct (N.eqb_spec (qk_lt k) u64_max) as [E2|E2].
    + split; cbn [qk_lt qk_hash]; reflexivity.
    + split; cbn [qk_lt qk_hash]; unfold u64_max in *; lia.
  - assert (qk_hash k < hash_max) by (unfold hash_max in *; lia).
    rewrite next_hash by assumption. split; cbn [qk_lt qk_hash]; unfold hash_max in *; lia.
Qed.

Lemma next_value_gt k : qk_ok k -> k <> qk_max -> qk_cmp k (next_value k) = Lt.
Proof.
  intros [Hl Hh] Hne. apply qk_cmp_lt. unfold next_value.
  destruct (N.eqb_spec (qk_hash k) hash_max) as [E|E].
  - destruct (N.eqb_spec (qk_lt k) u64_max) as [E2|E2].
    + exfalso. apply Hne. rewrite <- (qk_eta k), E, E2. reflexivity.
    + cbn [qk_lt qk_hash]. lia.
  - assert (qk_hash k < hash_max) by (unfold hash_max in *; lia).
    rewrite next_hash by assumption. cbn [qk_lt qk_hash]. lia.
Qed.

Lemma next_value_least k k' : qk_ok k' -> qk_cmp k k' = Lt -> qk_cmp (next_value k) k' <> Gt.
Proof.
  intros [Hl Hh] H Hgt. apply qk_cmp_lt in H. apply qk_cmp_gt in Hgt.
  unfold next_value in Hgt. unfold hash_max, u64_max in *.
  destruct (N.eqb_spec (qk_hash k) (2 ^ 256 - 1)) as [E|E].
  - destruct (N.eqb_spec (qk_lt k) (2 ^ 64 - 1)) as [E2|E2]; cbn [qk_lt qk_hash] in Hgt; lia.
  - destruct (N.lt_ge_cases (qk_hash k) (2 ^ 256 - 1)) as [Hk|Hk].
    + rewrite next_hash in Hgt by exact Hk. cbn [qk_lt qk_hash] in Hgt. lia.
    + destruct Hgt as [Hgt|[Hgt _]]; cbn [qk_lt] in Hgt; lia.
Qed.

Lemma next_value_max : next_value qk_max = qk_max. Proof. reflexivity. Qed.

(** *** round trips *)
Ltac rd := first [rewrite read_be_be by
   (rewrite ?p64, ?p256, ?p32, ?p16, ?p8; first [assumption | apply to_u_bound])].

Lemma dec_enc_qkey k r : qk_ok k -> dec_qkey (enc_qkey k ++ r) = Some (k, r).
Proof.
  intros [H1 H2]. unfold dec_qkey, enc_qkey. rewrite <- app_assoc. rd. rd. now rewrite qk_eta.
Qed.
Lemma dec_enc_shard s r : sh_ok s -> dec_shard (enc_shard s ++ r) = Some (s, r).
Proof.
  intros [H1 H2]. unfold dec_shard, enc_shard. rewrite <- app_assoc. rd. rd.
  rewrite to_i_to_u by (cbn; lia). destruct s; reflexivity.
Qed.
Lemma be_1 x : x < 256 -> be 1 x = [x].
Proof. intros H. cbn [be N.of_nat]. rewrite N.pow_0_r, N.div_1_r, N.mod_small by assumption. reflexivity. Qed.
Lemma enc_raddr_be a : enc_raddr a = be 1 (to_u 8 (ra_wc a)) ++ be 32 (ra_acc a).
Proof.
  unfold enc_raddr. pose proof (to_u_bound 8 (ra_wc a)) as H. change (2 ^ 8) with 256 in H.
  rewrite be_1 by assumption. reflexivity.
Qed.
Lemma dec_enc_raddr a r : ra_ok a -> dec_raddr (enc_raddr a ++ r) = Some (a, r).
Proof.
  intros [H1 H2]. unfold dec_raddr. rewrite enc_raddr_be, <- app_assoc. rd. rd.
  rewrite to_i_to_u by (cbn; lia). destruct a; reflexivity.
Qed.
Lemma dec_enc_part p r : p < 2 ^ 16 -> dec_part (enc_part p ++ r) = Some (p, r).
Proof. intros H. unfold dec_part, enc_part. now rd. Qed.

Lemma dec_enc_mkey k r : mk_ok k -> dec_mkey (enc_mkey k ++ r) = Some (k, r).
Proof.
  intros (H1 & H2 & H3). unfold dec_mkey, enc_mkey. rewrite <- !app_assoc.
  rewrite dec_enc_part, dec_enc_shard, dec_enc_qkey by assumption. destruct k; reflexivity.
Qed.
Lemma dec_enc_statkey k r : sk_ok k -> dec_statkey (enc_statkey k ++ r) = Some (k, r).
Proof.
  intros (H1 & H2 & H3 & H4). unfold dec_statkey, enc_statkey. rewrite <- !app_assoc.
  rewrite dec_enc_shard, dec_enc_part, dec_enc_qkey, dec_enc_raddr by assumption. destruct k; reflexivity.
Qed.
Lemma dec_enc_tailkey k r : tk_ok k -> dec_tailkey (enc_tailkey k ++ r) = Some (k, r).
Proof.
  intros (H1 & H2). unfold dec_tailkey, enc_tailkey. rewrite <- !app_assoc.
  rewrite dec_enc_shard, dec_enc_qkey by assumption. destruct k; reflexivity.
Qed.
Lemma dec_enc_infokey k r : ik_ok k -> dec_infokey (enc_infokey k ++ r) = Some (k, r).
Proof.
  intros (H1 & H2). unfold dec_infokey, enc_infokey. rewrite <- !app_assoc.
  rewrite dec_enc_shard by assumption. rd. destruct k; reflexivity.
Qed.
Lemma dec_enc_ptrval p r : pv_ok p ->
  dec_ptrval (enc_ptrval p ++ r) = Some (p, be 4 (pv_seqno p) ++ r).
Proof.
  intros (H1 & H2). unfold dec_ptrval, enc_ptrval. rewrite <- !app_assoc.
  rewrite dec_enc_qkey by assumption. rd. destruct p; reflexivity.
Qed.

(** *** lengths *)
Lemma enc_qkey_len k : length (enc_qkey k) = 40%nat.
Proof. unfold enc_qkey. now rewrite app_length, !be_length. Qed.
Lemma enc_shard_len s : length (enc_shard s) = 12%nat.
Proof. unfold enc_shard. now rewrite app_length, !be_length. Qed.
Lemma enc_part_len p : length (enc_part p) = 2%nat.
Proof. apply be_length. Qed.
Lemma enc_raddr_len a : length (enc_raddr a) = 33%nat.
Proof. unfold enc_raddr. cbn [length]. now rewrite be_length. Qed.

(** *** order of encodings *)
Definition sh_cmp (a b : shard) : comparison :=
  cmp_then (to_u 32 (sh_wc a) ?= to_u 32 (sh_wc b)) (sh_prefix a ?= sh_prefix b).

Lemma lex_enc_qkey a b : qk_ok a -> qk_ok b -> lex (enc_qkey a) (enc_qkey b) = qk_cmp a b.
Proof.
  intros [H1 H2] [H3 H4]. unfold enc_qkey, qk_cmp.
  rewrite lex_app by now rewrite !be_length.
  rewrite !lex_be by (rewrite ?p64, ?p256; assumption). reflexivity.
Qed.
Lemma lex_enc_shard a b : sh_ok a -> sh_ok b -> lex (enc_shard a) (enc_shard b) = sh_cmp a b.
Proof.
  intros [H1 H2] [H3 H4]. unfold enc_shard, sh_cmp.
  rewrite lex_app by now rewrite !be_length.
  rewrite !lex_be by (rewrite ?p64, ?p32; first [assumption|apply to_u_bound]). reflexivity.
Qed.
Lemma lex_enc_part a b : a < 2 ^ 16 -> b < 2 ^ 16 -> lex (enc_part a) (enc_part b) = (a ?= b).
Proof. intros H1 H2. apply lex_be; rewrite p16; assumption. Qed.

Definition ra_bcmp (a b : raddr) : comparison :=
  cmp_then (to_u 8 (ra_wc a) ?= to_u 8 (ra_wc b)) (ra_acc a ?= ra_acc b).
Lemma lex_enc_raddr a b : ra_ok a -> ra_ok b -> lex (enc_raddr a) (enc_raddr b) = ra_bcmp a b.
Proof.
  intros [H1 H2] [H3 H4]. unfold enc_raddr, ra_bcmp, cmp_then. cbn [lex].
  rewrite lex_be by (rewrite p256; assumption). reflexivity.
Qed.

Lemma sh_cmp_eq a b : sh_ok a -> sh_ok b -> (sh_cmp a b = Eq <-> a = b).
Proof.
  intros Ha Hb. rewrite <- lex_enc_shard, lex_eq by assumption. split; [|now intros ->].
  intros E. pose proof (dec_enc_shard a [] Ha) as D. rewrite E, (dec_enc_shard b [] Hb) in D.
  congruence.
Qed.

Lemma sh_eqb_spec a b : reflect (a = b) (sh_eqb a b).
Proof.
  unfold sh_eqb. destruct a as [w1 p1], b as [w2 p2]; cbn [sh_wc sh_prefix].
  destruct (Z.eqb_spec w1 w2); destruct (N.eqb_spec p1 p2); cbn; constructor; congruence.
Qed.
Lemma sh_eqb_refl a : sh_eqb a a = true.
Proof. destruct (sh_eqb_spec a a); congruence. Qed.

Lemma lex_enc_mkey a b : mk_ok a -> mk_ok b ->
  lex (enc_mkey a) (enc_mkey b) =
  cmp_then (mk_part a ?= mk_part b) (cmp_then (sh_cmp (mk_shard a) (mk_shard b)) (qk_cmp (mk_key a) (mk_key b))).
Proof.
  intros (H1 & H2 & H3) (H4 & H5 & H6). unfold enc_mkey.
  rewrite lex_app by now rewrite !enc_part_len.
  rewrite lex_app by now rewrite !enc_shard_len.
  now rewrite lex_enc_part, lex_enc_shard, lex_enc_qkey by assumption.
Qed.
Lemma lex_enc_tailkey a b : tk_ok a -> tk_ok b ->
  lex (enc_tailkey a) (enc_tailkey b) = cmp_then (sh_cmp (tk_shard a) (tk_shard b)) (qk_cmp (tk_max a) (tk_max b)).
Proof.
  intros (H1 & H2) (H4 & H5). unfold enc_tailkey.
  rewrite lex_app by now rewrite !enc_shard_len.
  now rewrite lex_enc_shard, lex_enc_qkey by assumption.
Qed.
Lemma lex_enc_infokey a b : ik_ok a -> ik_ok b ->
  lex (enc_infokey a) (enc_infokey b) = cmp_then (sh_cmp (ik_shard a) (ik_shard b)) (ik_seqno a ?= ik_seqno b).
Proof.
  intros (H1 & H2) (H4 & H5). unfold enc_infokey.
  rewrite lex_app by now rewrite !enc_shard_len.
  rewrite lex_enc_shard, lex_be by (rewrite ?p32; assumption). reflexivity.
Qed.
Lemma lex_enc_statkey a b : sk_ok a -> sk_ok b ->
  lex (enc_statkey a) (enc_statkey b) =
  cmp_then (sh_cmp (sk_shard a) (sk_shard b)) (cmp_then (sk_part a ?= sk_part b)
    (cmp_then (qk_cmp (sk_max a) (sk_max b)) (ra_bcmp (sk_dest a) (sk_dest b)))).
Proof.
  intros (H1 & H2 & H3 & H4) (H5 & H6 & H7 & H8). unfold enc_statkey.
  rewrite lex_app by now rewrite !enc_shard_len.
  rewrite lex_app by now rewrite !enc_part_len.
  rewrite lex_app by now rewrite !enc_qkey_len.
  now rewrite lex_enc_shard, lex_enc_part, lex_enc_qkey, lex_enc_raddr by assumption.
Qed.

Lemma enc_mkey_inj a b : mk_ok a -> mk_ok b -> enc_mkey a = enc_mkey b -> a = b.
Proof.
  intros Ha Hb E. pose proof (dec_enc_mkey a [] Ha) as D. rewrite E, (dec_enc_mkey b [] Hb) in D. congruence.
Qed.
Lemma enc_tailkey_inj a b : tk_ok a -> tk_ok b -> enc_tailkey a = enc_tailkey b -> a = b.
Proof.
  intros Ha Hb E. pose proof (dec_enc_tailkey a [] Ha) as D. rewrite E, (dec_enc_tailkey b [] Hb) in D. congruence.
Qed.
Lemma enc_infokey_inj a b : ik_ok a -> ik_ok b -> enc_infokey a = enc_infokey b -> a = b.
Proof.
  intros Ha Hb E. pose proof (dec_enc_infokey a [] Ha) as D. rewrite E, (dec_enc_infokey b [] Hb) in D. congruence.
Qed.
Lemma enc_statkey_inj a b : sk_ok a -> sk_ok b -> enc_statkey a = enc_statkey b -> a = b.
Proof.
  intros Ha Hb E. pose proof (dec_enc_statkey a [] Ha) as D. rewrite E, (dec_enc_statkey b [] Hb) in D. congruence.
Qed.
Lemma enc_shard_inj a b : sh_ok a -> sh_ok b -> enc_shard a = enc_shard b -> a = b.
Proof.
  intros Ha Hb E. pose proof (dec_enc_shard a [] Ha) as D. rewrite E, (dec_enc_shard b [] Hb) in D. congruence.
Qed.
