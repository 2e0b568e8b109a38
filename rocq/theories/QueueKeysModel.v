(** Queue keys and their storage encodings.
    Models: block-util/src/queue/proto.rs (QueueKey, RouterAddr, QueuePartitionIdx),
    storage-traits/src/stored_value.rs (ShardIdent) and collator/src/storage/models.rs. *)
From Verif Require Export Bytes.
Local Open Scope N_scope.

(** block-util/src/queue/proto.rs:160-165 [QueueKey { lt: u64, hash: HashBytes }].
    A 32-byte hash is represented by its big-endian value, so derived [Ord] on the byte
    array is [N.compare]. *)
Record qkey := QK { qk_lt : N; qk_hash : N }.
Definition qk_ok (k : qkey) : Prop := qk_lt k < 2 ^ 64 /\ qk_hash k < 2 ^ 256.

(** derived [Ord]: lt, then hash (proto.rs:159) *)
Definition qk_cmp (a b : qkey) : comparison :=
  cmp_then (qk_lt a ?= qk_lt b) (qk_hash a ?= qk_hash b).
Definition qk_ltb a b := match qk_cmp a b with Lt => true | _ => false end.
Definition qk_leb a b := match qk_cmp a b with Gt => false | _ => true end.

Definition u64_max : N := 2 ^ 64 - 1.
Definition u32_max : N := 2 ^ 32 - 1.
Definition hash_max : N := 2 ^ 256 - 1.

(** proto.rs:170-192 MIN, MAX, min_for_lt, max_for_lt *)
Definition qk_min : qkey := QK 0 0.
Definition qk_max : qkey := QK u64_max hash_max.
Definition qk_min_for_lt (lt : N) : qkey := QK lt 0.
Definition qk_max_for_lt (lt : N) : qkey := QK lt hash_max.

(** proto.rs:211-218: the carry loop over the bytes in reverse order:
    [overflowing_add(1)], stop at the first byte that does not overflow. *)
Fixpoint inc_rev (l : bytes) : bytes :=
  match l with
  | [] => []
  | b :: r => let res := (b + 1) mod 256 in
              if b + 1 <? 256 then res :: r else res :: inc_rev r
  end.

(** proto.rs:195-225 [next_value] *)
Definition next_value (k : qkey) : qkey :=
  if qk_hash k =? hash_max then
    if qk_lt k =? u64_max then QK u64_max hash_max
    else QK (qk_lt k + 1) 0
  else QK (qk_lt k) (de (rev (inc_rev (rev (be 32 (qk_hash k)))))).

(** ShardIdent: workchain i32 and 64-bit prefix with the terminating tag bit (type from the
    tycho-types dependency; only these two numbers are stored). *)
Record shard := SH { sh_wc : Z; sh_prefix : N }.
Definition sh_ok (s : shard) : Prop :=
  (- 2 ^ 31 <= sh_wc s < 2 ^ 31)%Z /\ sh_prefix s < 2 ^ 64.
Definition sh_eqb (a b : shard) : bool :=
  Z.eqb (sh_wc a) (sh_wc b) && (sh_prefix a =? sh_prefix b).

(** proto.rs:313-328 RouterAddr and its MIN/MAX *)
Record raddr := RA { ra_wc : Z; ra_acc : N }.
Definition ra_ok (a : raddr) : Prop := (- 128 <= ra_wc a < 128)%Z /\ ra_acc a < 2 ^ 256.
Definition ra_min : raddr := RA (-128) 0.
Definition ra_max : raddr := RA 127 hash_max.

(** ** StoredValue::serialize *)

(** proto.rs:268-271 *)
Definition enc_qkey (k : qkey) : bytes := be 8 (qk_lt k) ++ be 32 (qk_hash k).
(** storage-traits/src/stored_value.rs:115-119 *)
Definition enc_shard (s : shard) : bytes := be 4 (to_u 32 (sh_wc s)) ++ be 8 (sh_prefix s).
(** proto.rs:394-397: the workchain as one byte ([as u8]) *)
Definition enc_raddr (a : raddr) : bytes := to_u 8 (ra_wc a) :: be 32 (ra_acc a).
(** proto.rs:496-498 *)
Definition enc_part (p : N) : bytes := be 2 p.

(** collator/src/storage/models.rs:21-26,54-58 *)
Record mkey := MK { mk_part : N; mk_shard : shard; mk_key : qkey }.
Definition mk_ok (k : mkey) : Prop := mk_part k < 2 ^ 16 /\ sh_ok (mk_shard k) /\ qk_ok (mk_key k).
Definition enc_mkey (k : mkey) : bytes :=
  enc_part (mk_part k) ++ enc_shard (mk_shard k) ++ enc_qkey (mk_key k).

(** models.rs:78-83,138-143 *)
Record statkey := SK { sk_shard : shard; sk_part : N; sk_max : qkey; sk_dest : raddr }.
Definition sk_ok (k : statkey) : Prop :=
  sh_ok (sk_shard k) /\ sk_part k < 2 ^ 16 /\ qk_ok (sk_max k) /\ ra_ok (sk_dest k).
Definition enc_stat_prefix (s : shard) (p : N) (m : qkey) : bytes :=
  enc_shard s ++ enc_part p ++ enc_qkey m.
Definition enc_statkey (k : statkey) : bytes :=
  enc_shard (sk_shard k) ++ enc_part (sk_part k) ++ enc_qkey (sk_max k) ++ enc_raddr (sk_dest k).

(** models.rs:104-107,168-171 *)
Record tailkey := TK { tk_shard : shard; tk_max : qkey }.
Definition tk_ok (k : tailkey) : Prop := sh_ok (tk_shard k) /\ qk_ok (tk_max k).
Definition enc_tailkey (k : tailkey) : bytes := enc_shard (tk_shard k) ++ enc_qkey (tk_max k).

(** models.rs:119-122,195-198 *)
Record infokey := IK { ik_shard : shard; ik_seqno : N }.
Definition ik_ok (k : infokey) : Prop := sh_ok (ik_shard k) /\ ik_seqno k < 2 ^ 32.
Definition enc_infokey (k : infokey) : bytes := enc_shard (ik_shard k) ++ be 4 (ik_seqno k).

(** models.rs:329-331,345-347: CommitPointerKey is the shard *)
Definition enc_ptrkey (s : shard) : bytes := enc_shard s.
(** models.rs:335-338,365-368 CommitPointerValue *)
Record ptrval := PV { pv_key : qkey; pv_seqno : N }.
Definition pv_ok (p : ptrval) : Prop := qk_ok (pv_key p) /\ pv_seqno p < 2 ^ 32.
Definition enc_ptrval (p : ptrval) : bytes := enc_qkey (pv_key p) ++ be 4 (pv_seqno p).

(** ** StoredValue::deserialize. [None] is the panic for insufficient data.
    The explicit length checks of the code are subsumed by the reads running out of bytes:
    a compound [SIZE_HINT] check fails only when one of the component reads would fail too
    (for [ShardsInternalMessagesKey] the hint, 52, is smaller than the real size 54,
    models.rs:50, and the component reads do the remaining check). *)

(** proto.rs:273-288 *)
Definition dec_qkey (l : bytes) : option (qkey * bytes) :=
  match read_be 8 l with
  | Some (lt, l) => match read_be 32 l with
                    | Some (h, l) => Some (QK lt h, l)
                    | None => None
                    end
  | None => None
  end.
(** stored_value.rs:121-130 ([get_u32() as i32], [get_u64()], [new_unchecked]) *)
Definition dec_shard (l : bytes) : option (shard * bytes) :=
  match read_be 4 l with
  | Some (w, l) => match read_be 8 l with
                   | Some (p, l) => Some (SH (to_i 32 w) p, l)
                   | None => None
                   end
  | None => None
  end.
(** proto.rs:399-417 *)
Definition dec_raddr (l : bytes) : option (raddr * bytes) :=
  match read_be 1 l with
  | Some (w, l) => match read_be 32 l with
                   | Some (a, l) => Some (RA (to_i 8 w) a, l)
                   | None => None
                   end
  | None => None
  end.
(** proto.rs:500-511 *)
Definition dec_part (l : bytes) : option (N * bytes) := read_be 2 l.
(** models.rs:60-74 *)
Definition dec_mkey (l : bytes) : option (mkey * bytes) :=
  match dec_part l with
  | Some (p, l) => match dec_shard l with
    | Some (s, l) => match dec_qkey l with
      | Some (k, l) => Some (MK p s k, l) | None => None end
    | None => None end
  | None => None end.
(** models.rs:145-161 *)
Definition dec_statkey (l : bytes) : option (statkey * bytes) :=
  match dec_shard l with
  | Some (s, l) => match dec_part l with
    | Some (p, l) => match dec_qkey l with
      | Some (k, l) => match dec_raddr l with
        | Some (d, l) => Some (SK s p k d, l) | None => None end
      | None => None end
    | None => None end
  | None => None end.
(** models.rs:173-188 *)
Definition dec_tailkey (l : bytes) : option (tailkey * bytes) :=
  match dec_shard l with
  | Some (s, l) => match dec_qkey l with
    | Some (k, l) => Some (TK s k, l) | None => None end
  | None => None end.
(** models.rs:200-215 *)
Definition dec_infokey (l : bytes) : option (infokey * bytes) :=
  match dec_shard l with
  | Some (s, l) => match read_be 4 l with
    | Some (n, l) => Some (IK s n, l) | None => None end
  | None => None end.
(** models.rs:349-357 *)
Definition dec_ptrkey (l : bytes) : option (shard * bytes) := dec_shard l.
(** models.rs:370-381. NOTE: the code does not advance the reader past the seqno
    (it ends after [from_be_bytes]); the remaining bytes are not used by callers
    ([from_slice]). Modelled literally: the rest returned still starts with the seqno. *)
Definition dec_ptrval (l : bytes) : option (ptrval * bytes) :=
  match dec_qkey l with
  | Some (k, l) => match read_be 4 l with
    | Some (n, _) => Some (PV k n, l) | None => None end
  | None => None end.
