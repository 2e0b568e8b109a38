(** * StatModel: the stored status of a mempool point and the merge of its records

    /repo/consensus/src/models/point_status/*.rs. A status is written only by [merge_cf]
    (/repo/consensus/src/storage/store.rs:190-285, adapter_store.rs:160-195); RocksDB keeps the
    written operands and joins any adjacent ones with [points_status_merge],
    /repo/consensus/src/storage/tables.rs:86-96, when it compacts and when it reads. *)

From Coq Require Import List NArith Bool.
From Verif Require Import Bytes.
Import ListNotations.
Open Scope N_scope.

(** ** Statuses and their bytes *)

(** [PointStatusStored], point_status/all_stored.rs:7-17. [is_first_resolved] and [is_restored]
    are not stored. The root cause (an [IndirectLink], 120 bytes) and the author (a [PeerId], a
    constructor id and 32 bytes) are kept as bytes. *)
Inductive status :=
| SValid (first proof : bool) (anchor : N) (commit : option (N * N))
| STrans (proof dag : bool) (anchor : N) (commit : option (N * N)) (root : bytes)
| SComm (proof : bool) (anchor : N) (commit : option (N * N))
| SInvalid (proof dag : bool)
| SIll (proof final : bool)
| SFound (proof : bool)
| SNotFound (proof : bool) (author : bytes)
| SProven (proof : bool).

(** The bits of the second byte, point_status/mod.rs:39-45. *)
Definition bit_first : N := 128.
Definition bit_proof : N := 32.
Definition bit_final : N := 16.
Definition bit_dag : N := 4.
Definition bit (b : bool) (n : N) : N := if b then n else 0.

(** [CommitHistoryPart::write], point_status/committable.rs:81-88: big endian, an impossible
    zero round for none. *)
Definition commit_bytes (c : option (N * N)) : bytes :=
  match c with Some (r, s) => be 4 r ++ be 4 s | None => be 4 0 ++ be 4 0 end.

(** [write_to] and [fill] of the eight kinds. *)
Definition encode (s : status) : bytes :=
  match s with
  | SValid f p a c => 128 :: N.lor (bit f bit_first) (bit p bit_proof) :: a :: commit_bytes c
  | STrans p d a c r => 64 :: N.lor (bit p bit_proof) (bit d bit_dag) :: a :: commit_bytes c ++ r
  | SComm p a c => 32 :: bit p bit_proof :: a :: commit_bytes c
  | SInvalid p d => [8; N.lor (bit p bit_proof) (bit d bit_dag)]
  | SIll p f => [4; N.lor (bit p bit_proof) (bit f bit_final)]
  | SFound p => [2; bit p bit_proof]
  | SNotFound p a => 1 :: bit p bit_proof :: a
  | SProven p => [0; bit p bit_proof]
  end.

(** [BYTE_SIZE] by the first byte. *)
Definition type_len (t : N) : option nat :=
  match t with
  | 128 => Some 11%nat
  | 64 => Some 131%nat
  | 32 => Some 11%nat
  | 8 | 4 | 2 | 0 => Some 2%nat
  | 1 => Some 38%nat
  | _ => None
  end.

Definition ty (a : bytes) : N := nth 0 a 0.
Definition fl (a : bytes) : N := nth 1 a 0.

(** [read_flags], all_stored.rs:55-80, as a check. *)
Definition readable (a : bytes) : bool :=
  match type_len (ty a) with
  | Some n => (2 <=? length a)%nat && (length a =? n)%nat
  | None => false
  end.

(** [StatusFlags::contains]. *)
Definition has (f b : N) : bool := negb (N.land f b =? 0).

(** [CommitHistoryPart::RANGE] and [read]. *)
Definition crange (a : bytes) : bytes := firstn 8 (skipn 3 a).
Definition read_commit (c : bytes) : option (N * N) :=
  let r := de (firstn 4 c) in
  if r =? 0 then None else Some (r, de (skipn 4 c)).

(** [decode], all_stored.rs:82-95. Whether the bytes of the root cause or of the author are
    well formed is left out. *)
Definition decode (a : bytes) : option status :=
  if readable a then
    let f := fl a in
    let p := has f bit_proof in
    let an := nth 2 a 0 in
    let c := read_commit (crange a) in
    match ty a with
    | 128 => Some (SValid (has f bit_first) p an c)
    | 64 => Some (STrans p (has f bit_dag) an c (skipn 11 a))
    | 32 => Some (SComm p an c)
    | 8 => Some (SInvalid p (has f bit_dag))
    | 4 => Some (SIll p (has f bit_final))
    | 2 => Some (SFound p)
    | 1 => Some (SNotFound p (skipn 2 a))
    | 0 => Some (SProven p)
    | _ => None
    end
  else None.

(** ** The merge *)

(** [flags.intersects(AllCommittable)]. *)
Definition committable (a : bytes) : bool := negb (N.land (ty a) 224 =? 0).

(** [Iterator::max]: the last of the greatest. *)
Definition max2 (a b : bytes) : bytes := if lex_ltb b a then a else b.
Definition max_bytes (l : list bytes) : option bytes :=
  match l with
  | [] => None
  | a :: t => Some (fold_left max2 t a)
  end.

Definition set1 (x : N) (a : bytes) : bytes :=
  match a with t :: f :: r => t :: N.lor f x :: r | _ => a end.
Definition set_commit (x : N) (c : bytes) (a : bytes) : bytes :=
  match a with t :: f :: n :: r => t :: f :: N.lor n x :: c ++ skipn 8 r | _ => a end.

(** [merge_bytes], all_stored.rs:98-141. The three accumulators of the closure are separate
    passes here; the operands pass in order. *)
Definition merge_bytes (l : list bytes) : option bytes :=
  let ok := filter readable l in
  let second := fold_left (fun acc a => N.lor acc (fl a)) ok 0 in
  let anchor := fold_left (fun acc a => if committable a then N.lor acc (nth 2 a 0) else acc) ok 0 in
  let part := fold_left (fun acc a => if committable a && lex_ltb acc (crange a) then crange a else acc)
                ok (repeat 0 8) in
  match max_bytes ok with
  | None => None
  | Some a =>
      let r := set1 second a in
      Some (if committable a then set_commit anchor part r else r)
  end.

(** ** What the database does with the operands *)

(** Adjacent operands are joined at any time, in any groups; a group without a readable operand
    is refused. *)
Inductive compact : list bytes -> list bytes -> Prop :=
| C_refl l : compact l l
| C_join l a mid b r : compact l (a ++ mid ++ b) -> merge_bytes mid = Some r -> compact l (a ++ [r] ++ b).

(** A read joins what there is. *)
Definition stored (l : list bytes) : option status :=
  match merge_bytes l with Some r => decode r | None => None end.
