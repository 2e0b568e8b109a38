(** Properties C01 and C02: queue storage keys. *)
From Verif Require Import QueueKeysModel QueueKeysProofs.
Local Open Scope N_scope.

(** *** Specification vocabulary *)

(** (lt, hash) order of messages, written out *)
Definition earlier (a b : qkey) : Prop :=
  qk_lt a < qk_lt b \/ (qk_lt a = qk_lt b /\ qk_hash a < qk_hash b).

(** workchain as stored (two's complement in 4 bytes) *)
Definition wc_rank (z : Z) : Z := if (z <? 0)%Z then (z + 2 ^ 32)%Z else z.

(** lexicographic order on (partition, workchain rank, prefix, lt, hash) *)
Definition msg_before (a b : mkey) : Prop :=
  mk_part a < mk_part b \/ (mk_part a = mk_part b /\
  ((wc_rank (sh_wc (mk_shard a)) < wc_rank (sh_wc (mk_shard b)))%Z \/
   (wc_rank (sh_wc (mk_shard a)) = wc_rank (sh_wc (mk_shard b)) /\
   (sh_prefix (mk_shard a) < sh_prefix (mk_shard b) \/
    (sh_prefix (mk_shard a) = sh_prefix (mk_shard b) /\ earlier (mk_key a) (mk_key b)))))).

Lemma to_u32_rank z : (- 2 ^ 31 <= z < 2 ^ 31)%Z -> to_u 32 z = Z.to_N (wc_rank z).
Proof.
  intros H. unfold to_u, wc_rank. destruct (Z.ltb_spec z 0) as [H1|H1]; f_equal.
  - symmetry. apply Z.mod_unique with (-1)%Z; lia.
  - apply Z.mod_small; lia.
Qed.

(** C01: every storage key survives serialization followed by deserialization, whatever bytes follow. *)
Theorem C01_message_key_roundtrip : forall k rest, mk_ok k ->
  dec_mkey (enc_mkey k ++ rest) = Some (k, rest).
Proof. exact dec_enc_mkey. Qed.
Print Assumptions C01_message_key_roundtrip.

Theorem C01_stat_key_roundtrip : forall k rest, sk_ok k ->
  dec_statkey (enc_statkey k ++ rest) = Some (k, rest).
Proof. exact dec_enc_statkey. Qed.
Print Assumptions C01_stat_key_roundtrip.

Theorem C01_diff_tail_key_roundtrip : forall k rest, tk_ok k ->
  dec_tailkey (enc_tailkey k ++ rest) = Some (k, rest).
Proof. exact dec_enc_tailkey. Qed.
Print Assumptions C01_diff_tail_key_roundtrip.

Theorem C01_diff_info_key_roundtrip : forall k rest, ik_ok k ->
  dec_infokey (enc_infokey k ++ rest) = Some (k, rest).
Proof. exact dec_enc_infokey. Qed.
Print Assumptions C01_diff_info_key_roundtrip.

Theorem C01_commit_pointer_roundtrip : forall s rest v, sh_ok s -> pv_ok v ->
  dec_ptrkey (enc_ptrkey s ++ rest) = Some (s, rest) /\
  exists rest', dec_ptrval (enc_ptrval v) = Some (v, rest').
Proof.
  intros s rest v Hs Hv. split; [exact (dec_enc_shard s rest Hs)|].
  exists (be 4 (pv_seqno v) ++ []). rewrite <- (app_nil_r (enc_ptrval v)). exact (dec_enc_ptrval v [] Hv).
Qed.
Print Assumptions C01_commit_pointer_roundtrip.

(** C01: byte order of message keys is the logical order. *)
Theorem C01_message_key_order : forall a b, mk_ok a -> mk_ok b ->
  (lex (enc_mkey a) (enc_mkey b) = Lt <-> msg_before a b) /\
  (lex (enc_mkey a) (enc_mkey b) = Eq <-> a = b).
Proof.
  intros a b Ha Hb. split.
  - rewrite lex_enc_mkey by assumption. unfold msg_before.
    destruct Ha as (H1 & (H2 & H2') & H3), Hb as (H4 & (H5 & H5') & H6).
    unfold sh_cmp, cmp_then. rewrite !to_u32_rank by assumption.
    assert (R : forall z, (- 2 ^ 31 <= z < 2 ^ 31 -> 0 <= wc_rank z)%Z).
    { intros z Hz. unfold wc_rank. destruct (Z.ltb_spec z 0); lia. }
    pose proof (R _ H2) as R1. pose proof (R _ H5) as R2.
    set (ra := wc_rank (sh_wc (mk_shard a))) in *. set (rb := wc_rank (sh_wc (mk_shard b))) in *.
    unfold earlier.
    destruct (N.compare_spec (mk_part a) (mk_part b)) as [E1|E1|E1];
      [|split; [lia|reflexivity]|split; [discriminate|lia]].
    destruct (N.compare_spec (Z.to_N ra) (Z.to_N rb)) as [E2|E2|E2];
      [|split; [lia|reflexivity]|split; [discriminate|lia]].
    destruct (N.compare_spec (sh_prefix (mk_shard a)) (sh_prefix (mk_shard b))) as [E3|E3|E3];
      [|split; [lia|reflexivity]|split; [discriminate|lia]].
    pose proof (qk_cmp_lt (mk_key a) (mk_key b)) as Q.
    split; [intros E; assert (E' : qk_cmp (mk_key a) (mk_key b) = Lt) by exact E;
            apply Q in E'; lia|].
    intros E. apply Q. lia.
  - rewrite lex_eq. split; [apply enc_mkey_inj; assumption|now intros ->].
Qed.
Print Assumptions C01_message_key_order.

(** hence inside one (partition, shard) RocksDB iterates in (lt, hash) order *)
Theorem C01_scan_order_within_shard : forall p s a b,
  p < 2 ^ 16 -> sh_ok s -> qk_ok a -> qk_ok b ->
  (lex (enc_mkey (MK p s a)) (enc_mkey (MK p s b)) = Lt <-> earlier a b).
Proof.
  intros p s a b Hp Hs Ha Hb.
  rewrite lex_enc_mkey by (repeat split; cbn; try apply Hs; try apply Ha; try apply Hb; assumption).
  cbn [mk_part mk_shard mk_key]. rewrite N.compare_refl.
  assert (E : sh_cmp s s = Eq) by (apply sh_cmp_eq; auto). rewrite E. cbn [cmp_then].
  apply qk_cmp_lt.
Qed.
Print Assumptions C01_scan_order_within_shard.

(** keys of different tables are injective too *)
Theorem C01_encodings_injective :
  (forall a b, mk_ok a -> mk_ok b -> enc_mkey a = enc_mkey b -> a = b) /\
  (forall a b, sk_ok a -> sk_ok b -> enc_statkey a = enc_statkey b -> a = b) /\
  (forall a b, tk_ok a -> tk_ok b -> enc_tailkey a = enc_tailkey b -> a = b) /\
  (forall a b, ik_ok a -> ik_ok b -> enc_infokey a = enc_infokey b -> a = b) /\
  (forall a b, sh_ok a -> sh_ok b -> enc_ptrkey a = enc_ptrkey b -> a = b).
Proof.
  exact (conj enc_mkey_inj (conj enc_statkey_inj (conj enc_tailkey_inj (conj enc_infokey_inj enc_shard_inj)))).
Qed.
Print Assumptions C01_encodings_injective.

Example C01_example :
  let a := MK 3 (SH (-1) (2 ^ 63)) (QK 5 (2 ^ 256 - 1)) in
  let b := MK 3 (SH (-1) (2 ^ 63)) (QK 6 0) in
  mk_ok a /\ mk_ok b /\ lex (enc_mkey a) (enc_mkey b) = Lt.
Proof. cbv zeta. repeat split; cbn; try lia. Qed.

(** C02: [next_value] is the immediate successor in (lt, hash) order *)
Theorem C02_next_value_successor : forall k, qk_ok k -> k <> QK (2 ^ 64 - 1) (2 ^ 256 - 1) ->
  qk_ok (next_value k) /\ earlier k (next_value k) /\
  forall k', qk_ok k' -> earlier k k' -> next_value k = k' \/ earlier (next_value k) k'.
Proof.
  intros k Hk Hne. split; [apply next_value_ok; exact Hk|].
  split; [apply qk_cmp_lt, next_value_gt; assumption|].
  intros k' Hk' Hlt. apply qk_cmp_lt in Hlt. pose proof (next_value_least k k' Hk' Hlt) as H.
  destruct (qk_cmp (next_value k) k') eqn:E; [left; now apply qk_cmp_eq|right; now apply qk_cmp_lt|congruence].
Qed.
Print Assumptions C02_next_value_successor.

Theorem C02_next_value_saturates : forall k, qk_ok k ->
  (next_value k = k <-> k = QK (2 ^ 64 - 1) (2 ^ 256 - 1)).
Proof.
  intros k Hk. split.
  - intros E. destruct (qk_cmp k qk_max) eqn:C; [now apply qk_cmp_eq| |].
    + assert (k <> qk_max) by (intros ->; rewrite qk_cmp_refl in C; discriminate).
      pose proof (next_value_gt k Hk H) as G. rewrite E, qk_cmp_refl in G. discriminate.
    + apply qk_cmp_gt in C. destruct Hk as [H1 H2]. cbn [qk_max qk_lt qk_hash] in C.
      unfold u64_max, hash_max in C. lia.
  - intros ->. reflexivity.
Qed.
Print Assumptions C02_next_value_saturates.

Example C02_example_carry :
  next_value (QK 7 (2 ^ 16 - 1)) = QK 7 (2 ^ 16) /\ next_value (QK 7 (2 ^ 256 - 1)) = QK 8 0.
Proof. split; vm_compute; reflexivity. Qed.
