(* The log record format reads back what was written. *)
From Coq Require Import NArith ZArith List Bool Lia Permutation.
From Coq Require Import ZifyN ZifyNat ZifyBool.
From Verif Require Import AMap Bytes WalModel WalSpec.
Import ListNotations.
Open Scope N_scope.

Lemma beqb_spec : forall a b, reflect (a = b) (beqb a b).
Proof.
  induction a as [|x a IH]; intros [|y b]; cbn [beqb]; try (constructor; congruence).
  destruct (N.eqb_spec x y) as [->|E]; cbn [andb]; [|constructor; congruence].
  destruct (IH b) as [->|E]; constructor; congruence.
Qed.
Lemma beqb_refl a : beqb a a = true.
Proof. destruct (beqb_spec a a); congruence. Qed.

Definition nd_fits (d : ndelta) : Prop :=
  Forall nrec_fits (nd_ins d) /\ Forall (fun h => length h = 32%nat) (nd_rem d) /\
  N.of_nat (length (nd_ins d)) < 2 ^ 32 /\ N.of_nat (length (nd_rem d)) < 2 ^ 32.

Lemma dec_inserts_ok l : Forall nrec_fits l -> forall rest,
  dec_inserts (length l) (flat_map enc_ins l ++ rest) = Some (l, rest).
Proof.
  induction 1 as [|r l F HF IH]; intros rest; cbn [length flat_map dec_inserts]; [reflexivity|].
  destruct F as (A & B & C & D). unfold enc_ins. rewrite <- !app_assoc.
  rewrite take_n_app by exact A. rewrite read_le_le by exact B. rewrite read_le_le by exact C.
  rewrite read_le_le by exact D. rewrite take_n_app by (now rewrite Nat2N.id).
  rewrite IH. destruct r; reflexivity.
Qed.

Lemma dec_removes_ok l : Forall (fun h : chash => length h = 32%nat) l -> forall rest,
  dec_removes (length l) (concat l ++ rest) = Some (l, rest).
Proof.
  induction 1 as [|h l F HF IH]; intros rest; cbn [length concat dec_removes]; [reflexivity|].
  rewrite <- !app_assoc. rewrite take_n_app by exact F. now rewrite IH.
Qed.

Lemma ins_len l : Forall nrec_fits l ->
  N.of_nat (length (flat_map enc_ins l)) = N.of_nat (length l) * (32 + 8 + 4 + 2) + N.of_nat (length (flat_map nr_data l)).
Proof.
  induction 1 as [|r l F HF IH]; cbn [flat_map length]; [reflexivity|].
  destruct F as (A & _). unfold enc_ins at 1. rewrite !app_length, !le_length, A. lia.
Qed.
Lemma rem_len l : Forall (fun h : chash => length h = 32%nat) l ->
  N.of_nat (length (concat l)) = N.of_nat (length l) * 32.
Proof.
  induction 1 as [|h l F HF IH]; cbn [concat length]; [reflexivity|]. rewrite app_length, F. lia.
Qed.
Lemma data_len l : Forall nrec_fits l -> N.of_nat (length (flat_map nr_data l)) <= N.of_nat (length l) * 2 ^ 16.
Proof.
  induction 1 as [|r l F HF IH]; cbn [flat_map length]; [lia|].
  destruct F as (_ & _ & _ & D). rewrite app_length. lia.
Qed.

Lemma payload_length id d : nd_fits d -> N.of_nat (length (enc_payload id d)) = payload_len d.
Proof.
  intros (A & B & _). unfold enc_payload, payload_len. rewrite !app_length, !le_length.
  pose proof (ins_len _ A). pose proof (rem_len _ B). lia.
Qed.

Lemma payload_bound d : nd_fits d -> payload_len d + 8 < 2 ^ 64.
Proof.
  intros (A & B & C & D). unfold payload_len. pose proof (data_len _ A).
  change (2 ^ 64) with 18446744073709551616. change (2 ^ 32) with 4294967296 in *.
  change (2 ^ 16) with 65536 in *. lia.
Qed.

Theorem record_roundtrip hf id d rest :
  (forall b, length (hf b) = 32%nat) -> nd_fits d -> id < 2 ^ 64 ->
  dec_record hf (enc_record hf id d ++ rest) =
  Some (id, hf (le 8 (payload_len d) ++ enc_payload id d), d, rest).
Proof.
  intros HL F HI. pose proof (payload_bound d F) as PB. pose proof (payload_length id d F) as PL.
  destruct F as (FI & FR & CI & CR). unfold enc_record, dec_record. rewrite <- !app_assoc.
  rewrite take_n_app by apply HL. rewrite read_le_le by (change (256 ^ N.of_nat 8) with (2 ^ 64); lia).
  destruct (N.leb_spec (2 ^ 64) (payload_len d + 8)) as [L|L]; [exfalso; revert L PB; apply N.le_ngt|].
  rewrite take_n_app by (rewrite <- PL; now rewrite Nat2N.id).
  rewrite beqb_refl. cbn [negb]. unfold enc_payload. rewrite read_le_le by exact HI.
  rewrite read_le_le by exact CI. rewrite read_le_le by exact CR. rewrite !Nat2N.id.
  rewrite dec_inserts_ok by assumption. rewrite <- (app_nil_r (concat (nd_rem d))).
  rewrite dec_removes_ok by assumption. destruct d; reflexivity.
Qed.

Lemma enc_record_len hf id d : (forall b, length (hf b) = 32%nat) -> (40 <= length (enc_record hf id d))%nat.
Proof. intros H. unfold enc_record. rewrite !app_length, H, le_length. lia. Qed.

Lemma enc_record_hash hf id d : (forall b, length (hf b) = 32%nat) ->
  firstn 32 (enc_record hf id d) = hf (le 8 (payload_len d) ++ enc_payload id d).
Proof.
  intros H. unfold enc_record.
  set (b := le 8 (payload_len d) ++ enc_payload id d).
  clearbody b. rewrite <- (H b). rewrite firstn_app, Nat.sub_diag, firstn_all, firstn_O. apply app_nil_r.
Qed.

Lemma row_roundtrip idx data : idx < 2 ^ 64 -> dec_row (enc_row idx data) = Some (idx, data).
Proof. intros H. unfold dec_row, enc_row. now apply read_le_le. Qed.
