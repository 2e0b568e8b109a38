(** Models core/src/storage/block_handle/meta.rs (BlockMeta, BlockFlags), core/src/storage/tables.rs:368-386
    (block_handle_merge) and the set-flag-then-store pattern of core/src/storage/block_handle/mod.rs:38-126. *)
From Verif Require Export Bytes.
Local Open Scope N_scope.

(** meta.rs:24-28: [flags] is one atomic u64: flag bits in the high half, the referencing masterchain seqno in the low half. *)
Record meta := Meta { m_word : N; m_utime : N }.
(** meta.rs:173 BLOCK_FLAGS_OFFSET *)
Definition OFFSET : N := 32.
(** meta.rs:117-148 the flag constants used below *)
Definition IS_KEY_BLOCK : N := 2 ^ 11.
Definition IS_PERSISTENT : N := 2 ^ 12.
Definition IS_ZEROSTATE : N := 2 ^ 16.
Definition SKIP_STATES_GC : N := 2 ^ 18.
Definition SKIP_STATES_GC_FINISHED : N := 2 ^ 19.
Definition SKIP_BLOCKS_GC : N := 2 ^ 20.
Definition SKIP_BLOCKS_GC_FINISHED : N := 2 ^ 21.

(** meta.rs:38-51 with_data *)
Definition meta_new (is_key_block : bool) (gen_utime ref_by_mc_seqno : N) : meta :=
  Meta (N.lor (if is_key_block then N.shiftl IS_KEY_BLOCK OFFSET else 0) ref_by_mc_seqno) gen_utime.
(** meta.rs:63-66 flags: [(word >> 32) as u32] *)
Definition m_flags (m : meta) : N := N.shiftr (m_word m) OFFSET mod 2 ^ 32.
(** meta.rs:68-70 ref_by_mc_seqno: [word as u32] *)
Definition m_ref (m : meta) : N := m_word m mod 2 ^ 32.
(** meta.rs:76-79 add_flags: one atomic fetch_or *)
Definition add_flags (f : N) (m : meta) : meta * bool :=
  let f64 := N.shiftl f OFFSET in
  (Meta (N.lor (m_word m) f64) (m_utime m), negb (N.land (m_word m) f64 =? f64)).
(** meta.rs:81-84 remove_flags: one atomic fetch_and with the complement (u64) *)
Definition remove_flags (f : N) (m : meta) : meta * bool :=
  let f64 := N.shiftl f OFFSET in
  (Meta (N.land (m_word m) (N.lxor f64 (N.ones 64))) (m_utime m), negb (N.land (m_word m) f64 =? 0)).
(** meta.rs:94-98 serialize, 100-112 deserialize (None: the length assertion panics) *)
Definition enc_meta (m : meta) : bytes := le 8 (m_word m) ++ le 4 (m_utime m).
Definition dec_meta (b : bytes) : option meta :=
  match read_le 8 b with
  | Some (w, r) => match read_le 4 r with Some (u, []) => Some (Meta w u) | _ => None end
  | None => None
  end.
(** meta.rs:151-171 *)
Definition contains (f g : N) : bool := N.land f g =? g.
Definition intersects (f g : N) : bool := negb (N.land f g =? 0).
Definition retain_during_gc (f : N) : bool :=
  intersects f (N.lor IS_KEY_BLOCK (N.lor IS_PERSISTENT IS_ZEROSTATE))
  || (contains f SKIP_BLOCKS_GC && negb (contains f SKIP_BLOCKS_GC_FINISHED))
  || (contains f SKIP_STATES_GC && negb (contains f SKIP_STATES_GC_FINISHED)).

(** tables.rs:368-386 block_handle_merge; lengths other than 12 panic in the code and do not occur *)
Fixpoint zip_or (a b : bytes) : bytes :=
  match a, b with x :: a', y :: b' => N.lor x y :: zip_or a' b' | _, _ => [] end.
Definition block_handle_merge (current : option bytes) (operands : list bytes) : bytes :=
  fold_left zip_or operands (match current with Some v => v | None => repeat 0 12 end).

(** The row of one block in RocksDB: base value and pending operands, oldest first; RocksDB may merge at any time. *)
Record row := Row { r_base : option bytes; r_ops : list bytes }.
Definition row_read (r : row) : option bytes :=
  match r_base r, r_ops r with None, [] => None | e, [] => e | e, ops => Some (block_handle_merge e ops) end.
Inductive compaction : row -> row -> Prop :=
| CPartial e a g b : compaction (Row e (a ++ g ++ b)) (Row e (a ++ block_handle_merge None g :: b))
| CFull e a b : compaction (Row e (a ++ b)) (Row (Some (block_handle_merge e a)) b).

(** A setter call (mod.rs:38-126): [add_flags]; when it changed something, read the meta ([to_vec], mod.rs:242) and merge it
    into the row (mod.rs:240-246). Each is one atomic step of a thread. [p_f] is the flag set of the running call. *)
Inductive pc := Idle | ToRead (f : N) | ToMerge (f : N) (b : bytes).
Record sys := Sys {
  s_handle : meta;            (* the shared in-memory handle *)
  s_row : row;                (* the stored row *)
  s_pc : nat -> pc;           (* what each thread is doing *)
  s_asked : N;                (* ghost: union of all flags ever passed to a setter *)
  s_durable : N               (* ghost: union of the flags of all setter calls that returned true *)
}.
Definition upd (t : nat) (p : pc) (f : nat -> pc) : nat -> pc := fun x => if Nat.eqb x t then p else f x.
Inductive sstep : sys -> sys -> Prop :=
| TAdd h r p a d t f : p t = Idle -> f < 2 ^ 32 ->
    sstep (Sys h r p a d)
          (Sys (fst (add_flags f h)) r (upd t (if snd (add_flags f h) then ToRead f else Idle) p) (N.lor a f) d)
| TRead h r p a d t f : p t = ToRead f -> sstep (Sys h r p a d) (Sys h r (upd t (ToMerge f (enc_meta h)) p) a d)
| TMerge h r p a d t f b : p t = ToMerge f b ->
    sstep (Sys h r p a d) (Sys h (Row (r_base r) (r_ops r ++ [b])) (upd t Idle p) a (N.lor d f))
| TCompact h r r' p a d : compaction r r' -> sstep (Sys h r p a d) (Sys h r' p a d)
(* the process dies; the handle is loaded again from the row (mod.rs:188-205 load_handle) *)
| TCrash h r p a d b h' : row_read r = Some b -> dec_meta b = Some h' -> sstep (Sys h r p a d) (Sys h' r (fun _ => Idle) a d).

(** mod.rs:128-186 create_or_load_handle for a new block: the handle is created and stored *)
Definition sys_init (is_key : bool) (utime ref : N) : sys :=
  let h := meta_new is_key utime ref in Sys h (Row None [enc_meta h]) (fun _ => Idle) (m_flags h) (m_flags h).
Inductive sreach (is_key : bool) (utime ref : N) : sys -> Prop :=
| RInit : sreach is_key utime ref (sys_init is_key utime ref)
| RStep s s' : sreach is_key utime ref s -> sstep s s' -> sreach is_key utime ref s'.
