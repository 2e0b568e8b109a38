(** Property C24: package entry keys. *)
From Verif Require Import PkgModel.
Local Open Scope N_scope.
Local Opaque be le lex de de_le.

Lemma u32_lt z : to_u 32 z < 256 ^ N.of_nat 4.
Proof. change (256 ^ N.of_nat 4) with (2 ^ 32). apply to_u_bound. Qed.
Lemma wc_rt s : sh_ok s -> to_i 32 (to_u 32 (sh_wc s)) = sh_wc s.
Proof. intros [H _]. apply to_i_to_u; [reflexivity|exact H]. Qed.

Lemma dec_enc_pbid valid b r : pb_ok b -> valid (pb_shard b) = true -> dec_pbid valid (enc_pbid b ++ r) = Some (b, r).
Proof.
  destruct b as [[wc p] q h]. intros (S & Q & H) V. unfold dec_pbid, enc_pbid. cbn [pb_shard pb_seqno pb_root sh_wc sh_prefix] in *.
  rewrite <- !app_assoc. rewrite (read_be_be 4) by apply u32_lt. rewrite (read_be_be 8) by apply S. rewrite (read_be_be 4) by exact Q.
  rewrite (read_be_be 32) by exact H. change wc with (sh_wc (SH wc p)) at 1 2. rewrite (wc_rt (SH wc p) S). cbn [sh_wc]. now rewrite V.
Qed.
Lemma enc_pbid_len b : length (enc_pbid b) = 48%nat.
Proof. unfold enc_pbid. rewrite !app_length, !be_length. reflexivity. Qed.

Theorem C24_key_roundtrip : forall valid k, pb_ok (pk_block k) -> valid (pb_shard (pk_block k)) = true ->
  dec_pkey valid (enc_pkey k) = Some k /\ length (enc_pkey k) = 49%nat.
Proof.
  intros valid [b t] O V. cbn [pk_block] in *. unfold dec_pkey, enc_pkey. cbn [pk_block pk_ty]. rewrite dec_enc_pbid by auto.
  rewrite app_length, enc_pbid_len. split; [now destruct t|reflexivity].
Qed.
Lemma read_be_some' n l x r : bytes_ok l -> read_be n l = Some (x, r) -> l = be n x ++ r /\ x < 256 ^ N.of_nat n /\ bytes_ok r.
Proof. intros B E. destruct (read_be_some n l x r B E) as [-> H]. split; auto. split; auto. now apply Forall_app in B. Qed.
(** only encodings of keys decode *)
Theorem C24_decode_sound : forall valid l k, bytes_ok l -> dec_pkey valid l = Some k -> l = enc_pkey k /\ pb_ok (pk_block k) /\ valid (pb_shard (pk_block k)) = true.
Proof.
  intros valid l k B E. unfold dec_pkey, dec_pbid in E.
  destruct (read_be 4 l) as [[wc l1]|] eqn:E1; [|discriminate]. apply (read_be_some' _ _ _ _ B) in E1 as (-> & W & B1).
  destruct (read_be 8 l1) as [[p l2]|] eqn:E2; [|discriminate]. apply (read_be_some' _ _ _ _ B1) in E2 as (-> & P & B2).
  destruct (read_be 4 l2) as [[q l3]|] eqn:E3; [|discriminate]. apply (read_be_some' _ _ _ _ B2) in E3 as (-> & Q & B3).
  destruct (read_be 32 l3) as [[h l4]|] eqn:E4; [|discriminate]. apply (read_be_some' _ _ _ _ B3) in E4 as (-> & H & B4).
  cbv zeta in E. destruct (valid (SH (to_i 32 wc) p)) eqn:V; [|discriminate]. destruct l4 as [|t [|? ?]]; try discriminate.
  destruct (etype_of t) as [ty|] eqn:T; [|discriminate]. injection E as <-. cbn [pk_block pk_ty pb_shard].
  assert (TB : etype_byte ty = t).
  { unfold etype_of in T. destruct (N.eqb_spec t 0); [injection T as <-; auto|]. destruct (N.eqb_spec t 1); [injection T as <-; auto|].
    destruct (N.eqb_spec t 2); [injection T as <-; auto|discriminate]. }
  split; [|split; [|exact V]].
  - unfold enc_pkey, enc_pbid. cbn [pk_block pk_ty pb_shard pb_seqno pb_root sh_wc sh_prefix]. rewrite TB, to_u_to_i by (reflexivity || exact W).
    now rewrite <- !app_assoc.
  - split; [|split; auto]. cbn [pb_shard]. split; cbn [sh_wc sh_prefix]; [|exact P]. apply (to_i_bound 32); [reflexivity|exact W].
Qed.

Lemma cmp_then_assoc a b c : cmp_then (cmp_then a b) c = cmp_then a (cmp_then b c).
Proof. now destruct a. Qed.
(** The byte order of the keys (RocksDB, cassadilia) is Ord on keys. *)
Theorem C24_order : forall a b, pb_ok (pk_block a) -> pb_ok (pk_block b) -> lex (enc_pkey a) (enc_pkey b) = pkey_cmp a b.
Proof.
  intros [[[w p] q h] t] [[[w' p'] q' h'] t'] (S & Q & H) (S' & Q' & H').
  unfold enc_pkey, enc_pbid, pkey_cmp. cbn [pk_block pk_ty pb_shard pb_seqno pb_root sh_wc sh_prefix] in *.
  rewrite <- !app_assoc. rewrite !lex_app by (now rewrite !be_length).
  rewrite (lex_be 4) by apply u32_lt. rewrite (lex_be 8) by (apply S || apply S'). rewrite (lex_be 4) by (exact Q || exact Q').
  rewrite (lex_be 32) by (exact H || exact H').
  unfold cmp_then. Local Transparent lex. cbn [lex]. destruct (etype_byte t ?= etype_byte t'); reflexivity.
Qed.
Local Opaque lex.

(** All entries of one block are contiguous: nothing sorts between two entries of a block except entries of that block. *)
Theorem C24_block_contiguous : forall a k b, pb_ok (pk_block a) -> pb_ok (pk_block k) -> pb_ok (pk_block b) ->
  pk_block a = pk_block b -> lex (enc_pkey a) (enc_pkey k) <> Gt -> lex (enc_pkey k) (enc_pkey b) <> Gt -> pk_block k = pk_block a.
Proof.
  intros a k b Oa Ok Ob E H1 H2.
  assert (EN : enc_pbid (pk_block a) = enc_pbid (pk_block k)).
  { unfold enc_pkey in H1, H2. rewrite <- E in H2.
    rewrite lex_app in H1, H2 by (now rewrite !enc_pbid_len). rewrite (lex_antisym (enc_pbid (pk_block a)) (enc_pbid (pk_block k))) in H2.
    destruct (lex (enc_pbid (pk_block a)) (enc_pbid (pk_block k))) eqn:L; cbn [CompOpp cmp_then] in *; [now apply lex_eq in L|congruence|congruence]. }
  pose proof (dec_enc_pbid (fun _ => true) (pk_block a) [] Oa eq_refl) as D1.
  pose proof (dec_enc_pbid (fun _ => true) (pk_block k) [] Ok eq_refl) as D2. rewrite EN in D1. congruence.
Qed.

(** connection keys and stored block ids are unambiguous *)
Theorem C24_connection_key_injective : forall a b d e, pb_ok a -> pb_ok b -> enc_connkey a d = enc_connkey b e -> a = b /\ d = e.
Proof.
  intros a b d e Oa Ob E. unfold enc_connkey in E. apply app_inj_tail in E as [E ->]. split; auto.
  pose proof (dec_enc_pbid (fun _ => true) a [] Oa eq_refl) as D1. pose proof (dec_enc_pbid (fun _ => true) b [] Ob eq_refl) as D2. rewrite E in D1. congruence.
Qed.
Theorem C24_block_id_le_roundtrip : forall b r, fi_ok b -> dec_fullid_le (enc_fullid_le b ++ r) = Some (b, r).
Proof.
  intros [[[wc p] q h] f] r ((S & Q & H) & F). unfold dec_fullid_le, enc_fullid_le. cbn [fi_id fi_file pb_shard pb_seqno pb_root sh_wc sh_prefix] in *.
  rewrite <- !app_assoc. rewrite (read_le_le 4) by apply u32_lt. rewrite (read_le_le 8) by apply S. rewrite (read_le_le 4) by exact Q.
  rewrite (read_be_be 32) by exact H. rewrite (read_be_be 32) by exact F. change wc with (sh_wc (SH wc p)) at 1. now rewrite (wc_rt (SH wc p) S).
Qed.

Example C24_nonvacuous : exists a b, pb_ok (pk_block a) /\ pb_ok (pk_block b) /\
  sh_wc (pb_shard (pk_block a)) = (-1)%Z /\ sh_wc (pb_shard (pk_block b)) = 0%Z /\ pkey_cmp a b = Gt.
Proof.
  exists (PK (PB (SH (-1) (2 ^ 63)) 5 7) EProof), (PK (PB (SH 0 (2 ^ 63)) 9 7) EBlock).
  repeat split; cbn; try reflexivity; try lia.
Qed.
Print Assumptions C24_key_roundtrip. Print Assumptions C24_decode_sound. Print Assumptions C24_order.
Print Assumptions C24_block_contiguous. Print Assumptions C24_connection_key_injective. Print Assumptions C24_block_id_le_roundtrip.
