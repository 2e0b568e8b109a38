(* Which stored states the states GC removes, and how a state is loaded.

   /repo/core/src/storage/shard_state/mod.rs
   /repo/block-util/src/block/top_blocks.rs

   Simplifications: the content of a block (previous block, least referenced
   masterchain seqno, top shard blocks, state root) is a function of its id
   (its hash); splits and merges are not supported by the code either
   (state_applier.rs 93-96) and every block has one predecessor in its own
   shard; the cache of states in memory is left out of loading (as after a
   restart); cells are C64.  root_hash and file_hash are one number. *)
From Coq Require Import NArith List Bool Sorting.Permutation.
From Verif Require Import AMap TrkModel.
Import ListNotations.
Open Scope N_scope.

(* BlockId; the workchain as u32 *)
Record bid := mkBid { b_wc : N; b_pfx : N; b_seq : N; b_hash : N }.
Definition shard : Type := N * N.
Definition sh (b : bid) : shard := (b_wc b, b_pfx b).
Definition sh_eqb (a b : shard) : bool := (fst a =? fst b) && (snd a =? snd b).
Definition bid_eqb (a b : bid) : bool :=
  (b_wc a =? b_wc b) && (b_pfx a =? b_pfx b) && (b_seq a =? b_seq b) && (b_hash a =? b_hash b).
(* ShardIdent::MASTERCHAIN, is_masterchain (tycho_types) *)
Definition mc_wc : N := 2 ^ 32 - 1.
Definition mc_shard : shard := (mc_wc, 2 ^ 63).
Definition is_mc (s : shard) : bool := fst s =? mc_wc.
(* ShardIdent::intersects (tycho_types): one is an ancestor of the other *)
Definition low_bit (x : N) : N := N.land x (2 ^ 64 - x).
Definition intersects (a b : shard) : bool :=
  (fst a =? fst b) &&
  (let y := N.max (low_bit (snd a)) (low_bit (snd b)) in
   N.land (N.lxor (snd a) (snd b)) ((2 ^ 64 - y) * 2 mod 2 ^ 64) =? 0).

(* content of blocks, and CoreStorageConfig::store_shard_state_step *)
Record world := mkW {
  w_prev : bid -> bid;
  w_minref : bid -> N;
  w_tops : bid -> list bid;
  w_root : bid -> N;
  w_step : N
}.

(* the table of direct states: block id -> root hash *)
Definition stable : Type := list (bid * N).
(* what the handle and the connections say about a block:
   data and link to the previous block are there; SKIP_STATES_GC *)
Record hnd := mkH { h_data : bool; h_prev : bool; h_skip : bool }.
Definition hmap : Type := list (bid * hnd).

(* order of the keys: wc, prefix, seqno, hashes, all big endian *)
Definition kle (a b : bid) : bool :=
  (b_wc a <? b_wc b) ||
  ((b_wc a =? b_wc b) &&
   ((b_pfx a <? b_pfx b) ||
    ((b_pfx a =? b_pfx b) &&
     ((b_seq a <? b_seq b) ||
      ((b_seq a =? b_seq b) && (b_hash a <=? b_hash b)))))).

(* seek_for_prev: the greatest key not above the bound *)
Fixpoint seek_prev (bound : bid) (t : stable) : option bid :=
  match t with
  | [] => None
  | (k, _) :: r =>
    let best := seek_prev bound r in
    if kle k bound then
      match best with
      | Some q => if kle q k then Some k else Some q
      | None => Some k
      end
    else best
  end.
(* 1273-1302 (find_mc_block_id): the least key between the bounds *)
Fixpoint find_mc (s : N) (t : stable) : option bid :=
  match t with
  | [] => None
  | (k, _) :: r =>
    let best := find_mc s r in
    if sh_eqb (sh k) mc_shard && (b_seq k =? s) then
      match best with
      | Some q => if kle k q then Some k else Some q
      | None => Some k
      end
    else best
  end.

(* 1351-1414 (load_state_or_update) in the loop of 918-986 (load_state_ext):
   at most n blocks are looked at; the result is the pivot, its root and the
   blocks whose updates are applied to it, oldest first *)
Fixpoint walk (w : world) (n : nat) (t : stable) (h : hmap) (b : bid) : option (bid * N * list bid) :=
  match n with
  | O => None
  | S n' =>
    match aget bid_eqb b t with
    | Some r => Some (b, r, [])
    | None =>
      match aget bid_eqb b h with
      | Some x =>
        if h_data x && h_prev x then
          match walk w n' t h (w_prev w b) with
          | Some (p, r, u) => Some (p, r, u ++ [b])
          | None => None
          end
        else None
      | None => None
      end
    end
  end.
(* 918: max_tail = step, to_apply.len() <= max_tail *)
Definition load_state (w : world) (t : stable) (h : hmap) (b : bid) : option (bid * N * list bid) :=
  walk w (S (N.to_nat (w_step w))) t h b.
(* 519-552 (load_prev_state_root_no_cache): max_tail = step - 1; step 1 for the masterchain *)
Definition load_prev (w : world) (t : stable) (h : hmap) (b : bid) : option (bid * N * list bid) :=
  walk w (N.to_nat (if is_mc (sh b) then 1 else w_step w)) t h b.

(* 310-345: whether a state is stored directly; force = the new cells
   threshold or a top block *)
Definition direct_store (w : world) (force : bool) (b : bid) : bool :=
  (b_seq b mod (if is_mc (sh b) then 1 else w_step w) =? 0) || force.

(* top_blocks.rs 43-57 (contains_shard_seqno_ext): the map in its iteration order *)
Definition heights : Type := list (shard * N).
Definition sh_contains (hs : heights) (s : shard) (q : N) : bool :=
  match aget sh_eqb s hs with
  | Some top => top <=? q
  | None =>
    match find (fun e => intersects s (fst e)) hs with
    | Some (_, top) => top <=? q
    | None => false
    end
  end.
(* top_blocks.rs 145-151 (contains_shard_seqno) *)
Definition tb_contains (mc_seq : N) (hs : heights) (s : shard) (q : N) : bool :=
  if is_mc s then mc_seq <=? q else sh_contains hs s q.

Definition has_data (h : hmap) (b : bid) : bool :=
  match aget bid_eqb b h with Some x => h_data x | None => false end.
Definition skip_gc (h : hmap) (b : bid) : bool :=
  match aget bid_eqb b h with Some x => h_skip x | None => false end.

(* 1168-1206 (compute_recent_blocks, with the snapshot) *)
Definition gc_edge (w : world) (t : stable) (h : hmap) (trk : option N) (target : N) : option bid :=
  let seq := match trk with Some m => if m <? target then m else target | None => target end in
  match find_mc seq t with
  | None => None
  | Some b =>
    if has_data h b then
      match find_mc (w_minref w b) t with
      | None => None
      | Some e => if has_data h e then Some e else None
      end
    else None
  end.
(* 1218-1256: the latest direct state at or before each top block *)
Fixpoint gc_heights (t : stable) (tops : list bid) (acc : heights) : option heights :=
  match tops with
  | [] => Some acc
  | b :: r =>
    match seek_prev (mkBid (b_wc b) (b_pfx b) (b_seq b) (2 ^ 512 - 1)) t with
    | Some q =>
      if sh_eqb (sh q) (sh b) then gc_heights t r (aset sh_eqb (sh b) (b_seq q) acc) else None
    | None => None
    end
  end.
(* 1041-1071: the candidates *)
Definition gc_candidates (mc_seq : N) (hs : heights) (t : stable) : list bid :=
  map fst (filter (fun e => negb ((b_seq (fst e) =? 0) || tb_contains mc_seq hs (sh (fst e)) (b_seq (fst e)))) t).
(* 1076-1118: one candidate *)
Definition gc_remove (h : hmap) (b : bid) (t : stable) : stable :=
  if skip_gc h b then t else adel bid_eqb b t.

(* a GC run: not running; edge found; heights found; removing *)
Inductive gphase :=
| GIdle
| GEdge (e : bid)
| GTop (e : bid) (hs : heights)
| GDel (e : bid) (hs : heights) (cands : list bid).

(* g_all, g_edges: every state ever stored, every edge ever used (ghosts);
   g_stored: blocks whose handle says has_state or has_virtual_state *)
Record gsys := mkG {
  g_states : stable; g_all : stable; g_stored : list bid; g_handles : hmap;
  g_trk : tsys; g_gc : gphase; g_edges : list (bid * heights)
}.
Definition g_init : gsys := mkG [] [] [] [] (mkTS tr_new [] []) GIdle [].

Inductive gstep (w : world) : gsys -> gsys -> Prop :=
(* block data, connections and flags are written; also block GC *)
| g_handle s b x :
    gstep w s (mkG (g_states s) (g_all s) (g_stored s) (aset bid_eqb b x (g_handles s)) (g_trk s) (g_gc s) (g_edges s))
(* a state without a previous one: zerostate, persistent state (718-760, 228-262) *)
| g_import s b :
    gstep w s (mkG (aset bid_eqb b (w_root w b) (g_states s)) (aset bid_eqb b (w_root w b) (g_all s))
                   (b :: g_stored s) (g_handles s) (g_trk s) (g_gc s) (g_edges s))
(* 278-500 (begin_store_next_state): the previous block has a state *)
| g_store_direct s b force : In (w_prev w b) (g_stored s) -> b_seq b <> 0 -> ~ In b (g_stored s) ->
    direct_store w force b = true ->
    gstep w s (mkG (aset bid_eqb b (w_root w b) (g_states s)) (aset bid_eqb b (w_root w b) (g_all s))
                   (b :: g_stored s) (g_handles s) (g_trk s) (g_gc s) (g_edges s))
| g_store_virtual s b force : In (w_prev w b) (g_stored s) -> b_seq b <> 0 -> ~ In b (g_stored s) ->
    direct_store w force b = false ->
    gstep w s (mkG (g_states s) (g_all s) (b :: g_stored s) (g_handles s) (g_trk s) (g_gc s) (g_edges s))
(* states in memory come and go (C65) *)
| g_track s T : tstep (g_trk s) T ->
    gstep w s (mkG (g_states s) (g_all s) (g_stored s) (g_handles s) T (g_gc s) (g_edges s))
(* 1022-1160 (remove_outdated_states) *)
| g_start s target e : g_gc s = GIdle ->
    gc_edge w (g_states s) (g_handles s) (tr_seqno (ts_tr (g_trk s))) target = Some e ->
    gstep w s (mkG (g_states s) (g_all s) (g_stored s) (g_handles s) (g_trk s) (GEdge e) (g_edges s))
(* the hash map of heights has any iteration order *)
| g_tops s e hs0 hs : g_gc s = GEdge e -> gc_heights (g_states s) (w_tops w e) [] = Some hs0 -> Permutation hs0 hs ->
    gstep w s (mkG (g_states s) (g_all s) (g_stored s) (g_handles s) (g_trk s) (GTop e hs) ((e, hs) :: g_edges s))
| g_collect s e hs : g_gc s = GTop e hs ->
    gstep w s (mkG (g_states s) (g_all s) (g_stored s) (g_handles s) (g_trk s)
                   (GDel e hs (gc_candidates (b_seq e) hs (g_states s))) (g_edges s))
| g_del s e hs b r : g_gc s = GDel e hs (b :: r) ->
    gstep w s (mkG (gc_remove (g_handles s) b (g_states s)) (g_all s) (g_stored s) (g_handles s) (g_trk s)
                   (GDel e hs r) (g_edges s))
(* the run ends, fails or finds nothing *)
| g_end s : gstep w s (mkG (g_states s) (g_all s) (g_stored s) (g_handles s) (g_trk s) GIdle (g_edges s))
(* restart: nothing is in memory *)
| g_restart s : gstep w s (mkG (g_states s) (g_all s) (g_stored s) (g_handles s) (mkTS tr_new [] []) GIdle (g_edges s)).

Inductive greach (w : world) : gsys -> Prop :=
| gr_init : greach w g_init
| gr_step s s' : greach w s -> gstep w s s' -> greach w s'.
