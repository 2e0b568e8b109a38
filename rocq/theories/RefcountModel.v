(** Models storage/src/kv/refcount.rs and the way RocksDB uses an associative merge operator. *)
From Verif Require Export Bytes.
From Coq Require Export ZArith.
Local Open Scope Z_scope.

(** refcount.rs:6-8: RcType = i64, 8 little-endian bytes *)
Definition rc_bytes (rc : Z) : bytes := le 8 (to_u 64 rc).
Definition rc_of (b : bytes) : Z := to_i 64 (de_le b).

(** refcount.rs:36-49 decode_value_with_rc *)
Definition decode_value_with_rc (b : bytes) : Z * option bytes :=
  match take_n 8 b with
  | None => (0, None)
  | Some (h, []) => (rc_of h, None)
  | Some (h, p) => let rc := rc_of h in if rc <=? 0 then (rc, None) else (rc, Some p)
  end.

(** refcount.rs:10-34 merge_operator. [rc += delta] is i64 addition; the result is taken modulo 2^64 only when it is
    encoded, so the model agrees with the code while the sum stays in the i64 range (a hypothesis of the theorems;
    outside it the code panics with overflow checks on). *)
Definition merge_step (acc : Z * option bytes) (operand : bytes) : Z * option bytes :=
  let '(rc, payload) := acc in
  let '(delta, new_payload) := decode_value_with_rc operand in
  (rc + delta, match payload with None => if 0 <? delta then new_payload else None | Some _ => payload end).
Definition merge_operator (existing : option bytes) (operands : list bytes) : bytes :=
  let start := match existing with None => (0, None) | Some b => decode_value_with_rc b end in
  let '(rc, payload) := fold_left merge_step operands start in
  match rc ?= 0 with
  | Lt => rc_bytes rc
  | Eq => []
  | Gt => rc_bytes rc ++ match payload with Some p => p | None => [] end
  end.

(** refcount.rs:52-61 strip_refcount *)
Definition strip_refcount (b : bytes) : option bytes :=
  match take_n 8 b with
  | None => None
  | Some (h, p) => if 0 <? rc_of h then Some p else None
  end.

(** The writers' operands: refcount.rs:63-68 add_positive_refount, 70-72 encode_positive_refcount,
    74-76 encode_negative_refcount; all with a u32 count. *)
Inductive write := WAdd (rc : N) (data : bytes) | WInc (rc : N) | WDec (rc : N).
Definition write_ok (w : write) : Prop :=
  match w with WAdd rc d => (rc < 2 ^ 32)%N /\ bytes_ok d | WInc rc | WDec rc => (rc < 2 ^ 32)%N end.
Definition operand (w : write) : bytes :=
  match w with
  | WAdd rc d => rc_bytes (Z.of_N rc) ++ d
  | WInc rc => rc_bytes (Z.of_N rc)
  | WDec rc => rc_bytes (- Z.of_N rc)
  end.

(** What RocksDB stores for a key: an optional base value and the pending merge operands, oldest first. It may at any time
    replace adjacent operands by their partial merge (merge_operator without base) or merge the oldest ones into the base. *)
Record cell := Cell { c_base : option bytes; c_ops : list bytes }.
Inductive step : cell -> option write -> cell -> Prop :=
| SWrite c w : step c (Some w) (Cell (c_base c) (c_ops c ++ [operand w]))
| SPartial e a g b : step (Cell e (a ++ g ++ b)) None (Cell e (a ++ merge_operator None g :: b))
| SFull e a b : step (Cell e (a ++ b)) None (Cell (Some (merge_operator e a)) b).
(** a history, and the writes it contains in order *)
Inductive hist : list write -> cell -> Prop :=
| HStart : hist [] (Cell None [])
| HWrite ws c w c' : hist ws c -> step c (Some w) c' -> hist (ws ++ [w]) c'
| HCompact ws c c' : hist ws c -> step c None c' -> hist ws c'.
(** a read of the key *)
Definition read (c : cell) : option bytes :=
  match c_base c, c_ops c with None, [] => None | e, [] => e | e, ops => Some (merge_operator e ops) end.
