(** Processed-upto info: collator/src/types/processed_upto.rs, and the ranges computed from it
    (collator/src/internal_queue/types/ranges.rs:66-100).
    The blockchain representation uses dictionaries keyed by fixed-width bit strings; a dictionary is modelled as a table
    sorted by the big-endian encoding of its key. The leaf values are stored structurally: the cell encoding of the leaf
    structures (tycho-types) and [Lazy::new]/[load] of the execution params are trusted to be lossless. *)
From Verif Require Export KV QueueKeysModel OMap AMap QueueStoreModel QueueIterModel.
Local Open Scope N_scope.

(** ** The collator's types *)
(** processed_upto.rs:231-238 ExternalsRangeInfo *)
Record ext_info := EI { ei_from : N * N; ei_to : N * N; ei_time : N; ei_skip : N; ei_proc : N }.
(** 319-323 ShardRangeInfo *)
Record sh_info := SI { si_from : N; si_to : N }.
(** 312-317 InternalsRangeStuff *)
Record int_info := II { ii_skip : N; ii_proc : N; ii_shards : omap shard sh_info }.
(** 160-173, 263-267: one partition *)
Record par_info := PI {
  pi_ext_to : N * N; pi_ext : omap N ext_info;
  pi_int_to : omap shard qkey; pi_int : omap N int_info }.
(** 18-30 ProcessedUptoInfoStuff *)
Record upto := UP { up_parts : omap N par_info; up_params : option N }.

(** ** The blockchain types (tycho-types) *)
Record ext_bc := EB { eb_from : N * N; eb_to : N * N; eb_time : N; eb_skip : N; eb_proc : N }.
Record sh_bc := SB { sb_from : N; sb_to : N }.
Record int_bc := IB { ib_skip : N; ib_proc : N; ib_shards : kv sh_bc }.
Record par_bc := PB { pb_ext_to : N * N; pb_ext : kv ext_bc; pb_int_to : kv (N * N); pb_int : kv int_bc }.
Record upto_bc := UB { ub_parts : kv par_bc; ub_params : option N }.

(** ** Conversions *)
(** a [for] loop that [set]s every entry into an empty dictionary *)
Definition to_dict {K V W} (enc : K -> bytes) (f : V -> W) (m : omap K V) : kv W :=
  fold_left (fun d e => kv_put (enc (fst e)) (f (snd e)) d) m [].
(** a [for] loop over a dictionary that inserts every entry into an empty BTreeMap; [None] is [?] *)
Definition of_dict_step {K V W} (cmp : K -> K -> comparison) (dec : bytes -> option K) (f : W -> option V)
    (acc : option (omap K V)) (e : bytes * W) : option (omap K V) :=
  match acc, dec (fst e), f (snd e) with
  | Some m, Some k, Some v => Some (oput cmp k v m)
  | _, _, _ => None
  end.
Definition of_dict {K V W} (cmp : K -> K -> comparison) (dec : bytes -> option K) (f : W -> option V) (d : kv W) : option (omap K V) :=
  fold_left (of_dict_step cmp dec f) d (Some []).

(** 240-261 *)
Definition ext_to_bc (r : ext_info) : ext_bc := EB (ei_from r) (ei_to r) (ei_time r) (ei_skip r) (ei_proc r).
Definition ext_of_bc (r : ext_bc) : ext_info := EI (eb_from r) (eb_to r) (eb_time r) (eb_skip r) (eb_proc r).
(** 325-340 *)
Definition sh_to_bc (r : sh_info) : sh_bc := SB (si_from r) (si_to r).
Definition sh_of_bc (r : sh_bc) : sh_info := SI (sb_from r) (sb_to r).
(** dictionary keys: partition u16, seqno u32, ShardIdentFull *)
Definition enc_u16 (n : N) : bytes := be 2 n.
Definition enc_u32 (n : N) : bytes := be 4 n.
Definition dec_u16 (b : bytes) : option N := option_map fst (read_be 2 b).
Definition dec_u32 (b : bytes) : option N := option_map fst (read_be 4 b).

Section Conv.
  (** [ShardIdent::try_from(ShardIdentFull)] accepts this shard (tycho-types) *)
  Variable valid : shard -> bool.
  Definition dec_shard_key (b : bytes) : option shard :=
    match dec_shard b with Some (s, _) => if valid s then Some s else None | None => None end.

  (** 134-146: one internals range *)
  Definition int_to_bc (r : int_info) : int_bc := IB (ii_skip r) (ii_proc r) (to_dict enc_shard sh_to_bc (ii_shards r)).
  (** 86-99 *)
  Definition int_of_bc (r : int_bc) : option int_info :=
    option_map (II (ib_skip r) (ib_proc r)) (of_dict sh_ord dec_shard_key (fun x => Some (sh_of_bc x)) (ib_shards r)).
  (** 121-148: one partition *)
  Definition par_to_bc (p : par_info) : par_bc :=
    PB (pi_ext_to p) (to_dict enc_u32 ext_to_bc (pi_ext p))
       (to_dict enc_shard (fun k => (qk_lt k, qk_hash k)) (pi_int_to p))
       (to_dict enc_u32 int_to_bc (pi_int p)).
  (** 72-101 *)
  Definition par_of_bc (p : par_bc) : option par_info :=
    match of_dict N.compare dec_u32 (fun x => Some (ext_of_bc x)) (pb_ext p),
          of_dict sh_ord dec_shard_key (fun x => Some (QK (fst x) (snd x))) (pb_int_to p),
          of_dict N.compare dec_u32 int_of_bc (pb_int p) with
    | Some e, Some t, Some i => Some (PI (pb_ext_to p) e t i)
    | _, _, _ => None
    end.
  (** 115-157 *)
  Definition to_bc (u : upto) : upto_bc := UB (to_dict enc_u16 par_to_bc (up_parts u)) (up_params u).
  (** 65-112 *)
  Definition of_bc (u : upto_bc) : option upto :=
    option_map (fun ps => UP ps (ub_params u)) (of_dict N.compare dec_u16 par_of_bc (ub_parts u)).
End Conv.

(** ** Positions *)
(** 33-38 *)
Definition has_non_zero_offset (u : upto) : bool :=
  existsb (fun e : N * par_info =>
    existsb (fun r : N * ext_info => 0 <? ei_proc (snd r)) (pi_ext (snd e)) ||
    existsb (fun r : N * int_info => 0 <? ii_proc (snd r)) (pi_int (snd e))) (up_parts u).

(** std::cmp::min: the first argument unless the second is smaller *)
Definition qk_min2 (a b : qkey) : qkey := match qk_cmp b a with Lt => b | _ => a end.
(** the [entry().and_modify(min).or_insert()] of 50-54 and 429-432 *)
Definition min_entry (acc : omap shard qkey) (e : shard * qkey) : omap shard qkey :=
  oput sh_ord (fst e) (match oget sh_ord (fst e) acc with Some m => qk_min2 m (snd e) | None => snd e end) acc.
(** 47-57 *)
Definition min_internals (u : upto) : omap shard qkey :=
  fold_left (fun acc (e : N * par_info) => fold_left min_entry (pi_int_to (snd e)) acc) (up_parts u) [].

(** (MempoolAnchorId, u64) in derived lexicographic order *)
Definition pos_cmp (a b : N * N) : comparison := cmp_then (fst a ?= fst b) (snd a ?= snd b).
(** 346-362, on the blockchain representation *)
Definition min_ext_bc (u : upto_bc) : N * N :=
  match fold_left (fun acc (e : bytes * par_bc) =>
     match acc with
     | None => Some (pb_ext_to (snd e))
     | Some m => match pos_cmp (pb_ext_to (snd e)) m with Lt => Some (pb_ext_to (snd e)) | _ => Some m end
     end) (ub_parts u) None with Some m => m | None => (0, 0) end.
(** 364-378, on the collator's representation: [min_by] keeps the earlier of equal elements *)
Definition min_ext (u : upto) : N * N :=
  match map (fun e : N * par_info => pi_ext_to (snd e)) (up_parts u) with
  | [] => (0, 0)
  | x :: r => fold_left (fun m y => match pos_cmp m y with Gt => y | _ => m end) r x
  end.

(** FastHashMap<ShardIdent, (bool, ProcessedToByPartitions)> in some iteration order *)
Definition by_parts := amap N (omap shard qkey).
Definition all_shards := amap shard (bool * by_parts).
(** 380-415 build_all_shards_processed_to_by_partitions. [next]: shard and seqno of the block being built;
    [mc_shards]: shard, seqno and top_sc_block_updated of the masterchain's shard descriptions. [None]: the [unwrap]
    panics. The u32 subtraction is written as it behaves in release builds (wrap-around). *)
Definition mc_shard : shard := SH (-1) (2 ^ 63).
Definition build_all (next : shard * N) (cur mc : by_parts) (mc_shards_to : all_shards)
    (mc_shards : list (shard * (N * bool))) : option all_shards :=
  let res := if is_mc (fst next) then mc_shards_to else aset sh_eqb mc_shard (true, mc) mc_shards_to in
  let upd := if is_mc (fst next) then Some true
             else match find (fun e => sh_eqb (fst e) (fst next)) mc_shards with
                  | None => None
                  | Some e => Some (snd (snd e) || (1 <? (snd next + 2 ^ 32 - fst (snd e)) mod 2 ^ 32))
                  end in
  match upd with
  | None => None
  | Some b => Some (aset sh_eqb (fst next) (b, cur) res)
  end.

(** 417-438 find_min_processed_to_by_shards *)
Definition find_min (m : all_shards) : omap shard qkey :=
  fold_left (fun acc (e : shard * (bool * by_parts)) =>
    fold_left (fun acc (p : N * omap shard qkey) => fold_left min_entry (snd p) acc) (snd (snd e)) acc) m [].

(** ranges.rs:66-100 compute_cumulative_stats_ranges. [None]: [mc_top_shards_end_lts.get().unwrap()] panics. *)
Fixpoint stats_ranges (cur : shard) (prev_lt mc_lt : N) (tops : amap shard N) (from : omap shard qkey) : option (list brange) :=
  match from with
  | [] => Some []
  | (s, k) :: r =>
      match (if is_mc s then Some mc_lt else if sh_eqb s cur then Some prev_lt else aget sh_eqb s tops),
            stats_ranges cur prev_lt mc_lt tops r with
      | Some lt, Some rs => Some (BR s (Excl k) (Incl (qk_max_for_lt lt)) :: rs)
      | _, _ => None
      end
  end.
Definition compute_stats_ranges (cur : shard) (m : all_shards) (prev_lt mc_lt : N) (tops : amap shard N) : option (list brange) :=
  stats_ranges cur prev_lt mc_lt tops (find_min m).
