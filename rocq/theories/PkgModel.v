(** Models core/src/storage/block/package_entry.rs (PackageEntryKey, PartialBlockId), core/src/storage/block_connection/mod.rs
    make_key, core/src/storage/util/stored_value.rs (BlockId in little endian) and block-util/src/archive/proto.rs ArchiveEntryType. *)
From Verif Require Export QueueKeysModel.
Local Open Scope N_scope.

(** package_entry.rs:9-14 *)
Record pbid := PB { pb_shard : shard; pb_seqno : N; pb_root : N }.
Definition pb_ok (b : pbid) : Prop := sh_ok (pb_shard b) /\ pb_seqno b < 2 ^ 32 /\ pb_root b < 2 ^ 256.
(** block-util/src/archive/proto.rs:23-41 ArchiveEntryType, [as u8] and from_byte *)
Inductive etype := EBlock | EProof | EDiff.
Definition etype_byte (t : etype) : N := match t with EBlock => 0 | EProof => 1 | EDiff => 2 end.
Definition etype_of (b : N) : option etype :=
  if b =? 0 then Some EBlock else if b =? 1 then Some EProof else if b =? 2 then Some EDiff else None.
(** package_entry.rs:86-90 *)
Record pkey := PK { pk_block : pbid; pk_ty : etype }.

(** package_entry.rs:57-66 serialize; 68-88 deserialize is [dec_pbid] with an exact length *)
Definition enc_pbid (b : pbid) : bytes :=
  be 4 (to_u 32 (sh_wc (pb_shard b))) ++ be 8 (sh_prefix (pb_shard b)) ++ be 4 (pb_seqno b) ++ be 32 (pb_root b).
(** package_entry.rs:99-107 to_key_bytes *)
Definition enc_pkey (k : pkey) : bytes := enc_pbid (pk_block k) ++ [etype_byte (pk_ty k)].
(** block_connection/mod.rs:128-136 make_key; the direction byte is 0..3 *)
Definition enc_connkey (b : pbid) (dir : N) : bytes := enc_pbid b ++ [dir].

Section Dec.
  (** [ShardIdent::new(workchain, prefix)] of the tycho-types dependency: some validity predicate *)
  Context (valid : shard -> bool).
  Definition dec_pbid (l : bytes) : option (pbid * bytes) :=
    match read_be 4 l with
    | None => None
    | Some (wc, l1) =>
      match read_be 8 l1 with
      | None => None
      | Some (prefix, l2) =>
        match read_be 4 l2 with
        | None => None
        | Some (seqno, l3) =>
          match read_be 32 l3 with
          | None => None
          | Some (root, l4) =>
              let s := SH (to_i 32 wc) prefix in
              if valid s then Some (PB s seqno root, l4) else None
          end
        end
      end
    end.
  (** package_entry.rs:109-130 from_key_bytes *)
  Definition dec_pkey (l : bytes) : option pkey :=
    match dec_pbid l with
    | Some (b, [t]) => match etype_of t with Some ty => Some (PK b ty) | None => None end
    | _ => None
    end.
End Dec.

(** package_entry.rs:133-158 Ord: workchain cast to u32, prefix, seqno, root hash, type *)
Definition pkey_cmp (a b : pkey) : comparison :=
  let x := pk_block a in let y := pk_block b in
  cmp_then (to_u 32 (sh_wc (pb_shard x)) ?= to_u 32 (sh_wc (pb_shard y)))
  (cmp_then (sh_prefix (pb_shard x) ?= sh_prefix (pb_shard y))
  (cmp_then (pb_seqno x ?= pb_seqno y)
  (cmp_then (pb_root x ?= pb_root y) (etype_byte (pk_ty a) ?= etype_byte (pk_ty b))))).

(** BlockId and its little-endian form: util/stored_value.rs:4-12 write_block_id_le, 15-46 read_block_id_le
    ([new_unchecked]: no validity check; longer input is accepted) *)
Record fullid := FI { fi_id : pbid; fi_file : N }.
Definition fi_ok (b : fullid) : Prop := pb_ok (fi_id b) /\ fi_file b < 2 ^ 256.
Definition enc_fullid_le (b : fullid) : bytes :=
  let p := fi_id b in
  le 4 (to_u 32 (sh_wc (pb_shard p))) ++ le 8 (sh_prefix (pb_shard p)) ++ le 4 (pb_seqno p) ++ be 32 (pb_root p) ++ be 32 (fi_file b).
Definition dec_fullid_le (l : bytes) : option (fullid * bytes) :=
  match read_le 4 l with
  | None => None
  | Some (wc, l1) =>
    match read_le 8 l1 with
    | None => None
    | Some (prefix, l2) =>
      match read_le 4 l2 with
      | None => None
      | Some (seqno, l3) =>
        match read_be 32 l3 with
        | None => None
        | Some (root, l4) =>
            match read_be 32 l4 with
            | None => None
            | Some (file, l5) => Some (FI (PB (SH (to_i 32 wc) prefix) seqno root) file, l5)
            end
        end
      end
    end
  end.
