(** Model of the collation manager's blocks cache:
    /repo/collator/src/manager/blocks_cache.rs, the entry types of
    /repo/collator/src/manager/types.rs and the decision what to do with an extracted master
    block in /repo/collator/src/manager/commit.rs.

    Simplifications.
    - Every method of [BlocksCache] is one atomic step. In the code a method takes the lock of
      the master group and then the locks of the shard groups one after another.
    - A [BlockId] is (shard, seqno, hash): workchain and prefix are one number with 0 for the
      masterchain, root hash and file hash are one number.
    - Block contents, states, queue diffs, signatures and [ProcessedUptoInfoStuff] are numbers
      carried along. Token sums are unbounded (the code fails when a sum exceeds 120 bits).
    - The iteration order of a [DashMap] is the order of the association list. *)
From Verif Require Export AMap OMap.
From Coq Require Export NArith.
Open Scope N_scope.

(** tycho_types [BlockId]; comparison of two ids is on all the fields *)
Record bid := mkbid { b_shard : N; b_seqno : N; b_hash : N }.
Definition bid_eqb (a b : bid) : bool :=
  (b_shard a =? b_shard b) && (b_seqno a =? b_seqno b) && (b_hash a =? b_hash b).
(** [BlockId::is_masterchain] *)
Definition is_mc (s : N) : bool := s =? 0.

(** [BlockIdShort], alias [BlockCacheKey]: types.rs 29 *)
Definition key := (N * N)%type.
Definition key_of (b : bid) : key := (b_shard b, b_seqno b).

(** [TopBlockIdUpdated], [TopBlockId]: /repo/collator/src/types.rs *)
Record top := mktop { t_id : bid; t_ref : N; t_updated : bool }.

(** [CandidateStatus]: types.rs 199-205 *)
Inductive status := StCollated | StValidated | StSkipped | StSynced.
Definition status_eqb (a b : status) : bool :=
  match a, b with
  | StCollated, StCollated | StValidated, StValidated
  | StSkipped, StSkipped | StSynced, StSynced => true
  | _, _ => false
  end.

(** the fields of [BlockCandidate] the cache reads; [c_info] stands for
    [AdditionalShardBlockCacheInfo] (block info and processed-to anchor), [c_flow] for the pair
    (fees collected, created) of its value flow *)
Record cand := mkcand {
  c_id : bid; c_prevs : list bid; c_ref : N; c_info : N; c_flow : N * N }.

(** [BlockCacheEntryData]: types.rs 207-236. [sigs] are the stored signatures. *)
Inductive edata :=
| DCollated (c : cand) (sigs : N) (st : status) (received : bool)
| DReceived (collated : bool) (info : option N).

(** [BlockCacheEntry]: types.rs 299-318 *)
Record entry := mkentry {
  e_id : bid; e_data : edata; e_prevs : list bid; e_tops : list top;
  e_anchor : option N; e_ref : N }.

(** [ReceivedBlockContext]: blocks_cache.rs 1215-1224, with the top shard blocks and the top
    processed anchor that [from_received] reads from the state *)
Record recv := mkrecv {
  r_id : bid; r_prevs : list bid; r_tops : list top; r_anchor : N; r_ref : N }.

(** [BlockCacheEntry::from_collated]: types.rs 321-348 *)
Definition from_collated (c : cand) (tops : list top) (anchor : option N) : entry :=
  mkentry (c_id c) (DCollated c 0 StCollated false) (c_prevs c) tops anchor (c_ref c).

(** [BlockCacheEntry::from_received]: types.rs 350-395 *)
Definition from_received (r : recv) : entry :=
  let mc := is_mc (b_shard (r_id r)) in
  mkentry (r_id r) (DReceived false None) (r_prevs r)
    (if mc then r_tops r else []) (if mc then Some (r_anchor r) else None) (r_ref r).

(** the pattern [Received | Collated { received_after_collation: true }]: blocks_cache.rs
    545-552, 618-625, 636-645, 677-684 *)
Definition applied (e : entry) : bool :=
  match e_data e with DReceived _ _ => true | DCollated _ _ _ rcv => rcv end.
(** the pattern [Received]: blocks_cache.rs 847, 871 *)
Definition is_received (e : entry) : bool :=
  match e_data e with DReceived _ _ => true | DCollated _ _ _ _ => false end.

(** [BlocksCacheGroup]: blocks_cache.rs 906-912 *)
Record group (T : Type) := mkgroup {
  g_blocks : list (N * entry); g_synced : option N; g_data : T; g_gc : option N }.
Arguments mkgroup {T}. Arguments g_blocks {T}. Arguments g_synced {T}.
Arguments g_data {T}. Arguments g_gc {T}.

(** [MasterBlocksCacheData]: blocks_cache.rs 1081-1086 *)
Record mdata := mkmdata { m_last : list (N * bid); m_range : option (N * N) }.
(** [ShardBlocksCacheData]: blocks_cache.rs 1163-1166; [s_fees] and [s_created] are the proof
    funds *)
Record sdata := mksdata { s_flow : N * N; s_fees : N; s_created : N }.

Definition empty_m : group mdata := mkgroup [] None (mkmdata [] None) None.
Definition empty_s : group sdata := mkgroup [] None (mksdata (0, 0) 0 0) None.

(** [BlocksCacheInner]: blocks_cache.rs 33-37 *)
Record cache := mkcache {
  k_zs : N; k_masters : group mdata; k_shards : list (N * group sdata) }.
(** [BlocksCache::new]: 45-55 *)
Definition new_cache (zs : N) : cache := mkcache zs empty_m [].

Definition bget (n : N) (m : list (N * entry)) : option entry := oget N.compare n m.
Definition bput (n : N) (e : entry) (m : list (N * entry)) : list (N * entry) := oput N.compare n e m.
Definition bdel (n : N) (m : list (N * entry)) : list (N * entry) := odel N.compare n m.

(** [move_range_start]: 1115-1123 *)
Definition move_range_start (n : N) (m : mdata) : mdata :=
  match m_range m with
  | Some (a, b) =>
      if a <=? n then mkmdata (m_last m) (if n + 1 <=? b then Some (n + 1, b) else None) else m
  | None => m
  end.

(** [move_range_end]: 1125-1131 *)
Definition move_range_end (n : N) (m : mdata) : mdata :=
  mkmdata (m_last m)
    (match m_range m with Some (a, _) => Some (a, n) | None => Some (n, n) end).

(** [insert_last_collated_block_id]: 1089-1093, with [on_update_collated] and
    [on_insert_collated] of the master data: 1138-1146 *)
Definition m_on_collated (c : cand) (m : mdata) : mdata :=
  let m := move_range_start (b_seqno (c_id c)) m in
  mkmdata (oput N.compare (b_seqno (c_id c)) (c_id c) (m_last m)) (m_range m).

(** [on_update_received], [on_insert_received] of the master data: 1148-1156 *)
Definition m_on_received (id : bid) (m : mdata) : mdata := move_range_end (b_seqno id) m.

(** [remove_last_collated_block_ids_from]: 1095-1098 *)
Definition remove_last_from (n : N) (m : mdata) : mdata :=
  mkmdata (filter (fun p => fst p <? n) (m_last m)) (m_range m).
(** [remove_last_collated_block_ids_before]: 1100-1103 *)
Definition remove_last_before (n : N) (m : mdata) : mdata :=
  mkmdata (filter (fun p => n <=? fst p) (m_last m)) (m_range m).

(** [get_last_collated_block_id]: 1105-1109 (last key) *)
Fixpoint last_of (l : list (N * bid)) : option bid :=
  match l with [] => None | [(_, b)] => Some b | _ :: r => last_of r end.
Definition last_collated (m : mdata) : option bid := last_of (m_last m).

(** [update_top_shard_block_additional_info]: 1169-1180, with [on_update_collated] and
    [on_insert_collated] of the shard data: 1192-1199 *)
Definition s_on_collated (c : cand) (s : sdata) : sdata :=
  mksdata (c_flow c) (s_fees s + fst (c_flow c)) (s_created s + snd (c_flow c)).
(** [on_update_received], [on_insert_received] of the shard data: 1201-1207 *)
Definition s_on_received (_ : bid) (s : sdata) : sdata := s.
(** [reset_top_shard_block_additional_info]: 1182-1185 *)
Definition s_reset (_ : sdata) : sdata := mksdata (0, 0) 0 0.

Definition with_blocks {T} (g : group T) (b : list (N * entry)) : group T :=
  mkgroup b (g_synced g) (g_data g) (g_gc g).
Definition with_data {T} (g : group T) (d : T) : group T :=
  mkgroup (g_blocks g) (g_synced g) d (g_gc g).

(** [StoredBlock]: 1285-1288 as (received_and_collated, block_mismatch).
    [store_collated_block]: 916-979; [None] is the [bail!] *)
Definition store_collated_group {T} (on : cand -> T -> T) (g : group T)
    (c : cand) (tops : list top) (anchor : option N) : option (group T * (bool * bool)) :=
  let n := b_seqno (c_id c) in
  match bget n (g_blocks g) with
  | Some e =>
      match e_data e with
      | DCollated _ _ _ _ => None
      | DReceived _ info =>
          if bid_eqb (e_id e) (c_id c) then
            let info' := if is_mc (b_shard (c_id c)) then info else Some (c_info c) in
            let e' := mkentry (e_id e) (DReceived true info') (e_prevs e) (e_tops e)
                        (e_anchor e) (e_ref e) in
            Some (mkgroup (bput n e' (g_blocks g)) (g_synced g) (on c (g_data g)) (g_gc g),
                  (true, false))
          else Some (g, (false, true))
      end
  | None =>
      Some (mkgroup (bput n (from_collated c tops anchor) (g_blocks g)) (g_synced g)
              (on c (g_data g)) (g_gc g), (false, false))
  end.

(** [store_received_block]: 982-1054; [None] is the [bail!] *)
Definition store_received_group {T} (on : bid -> T -> T) (g : group T) (r : recv)
    : option (group T * (bool * bool)) :=
  let n := b_seqno (r_id r) in
  match bget n (g_blocks g) with
  | Some e =>
      match e_data e with
      | DReceived _ _ => None
      | DCollated c sigs _ _ =>
          if bid_eqb (e_id e) (r_id r) then
            let e' := mkentry (e_id e) (DCollated c sigs StSynced true) (e_prevs e) (e_tops e)
                        (e_anchor e) (e_ref e) in
            Some (mkgroup (bput n e' (g_blocks g)) (g_synced g) (on (e_id e) (g_data g)) (g_gc g),
                  (true, false))
          else
            Some (mkgroup (bput n (from_received r) (g_blocks g)) (g_synced g)
                    (on (r_id r) (g_data g)) (g_gc g), (false, true))
      end
  | None =>
      Some (mkgroup (bput n (from_received r) (g_blocks g)) (g_synced g)
              (on (r_id r) (g_data g)) (g_gc g), (false, false))
  end.

(** [check_refresh_last_known_synced]: 1057-1065; the flag says "not newer" *)
Definition refresh_synced {T} (n : N) (g : group T) : group T * bool :=
  match g_synced g with
  | Some k => if n <=? k then (g, true)
              else (mkgroup (g_blocks g) (Some n) (g_data g) (g_gc g), false)
  | None => (mkgroup (g_blocks g) (Some n) (g_data g) (g_gc g), false)
  end.

(** [BlockCacheStoreResult]: types.rs 144-150 *)
Record store_res := mkres {
  x_both : bool; x_mismatch : bool; x_last : option bid; x_range : option (N * N) }.

Definition shard_group (k : cache) (s : N) : group sdata :=
  match aget N.eqb s (k_shards k) with Some g => g | None => empty_s end.
Definition set_masters (k : cache) (g : group mdata) : cache := mkcache (k_zs k) g (k_shards k).
Definition set_shard (k : cache) (s : N) (g : group sdata) : cache :=
  mkcache (k_zs k) (k_masters k) (aset N.eqb s g (k_shards k)).
Definition res_of (k : cache) (b : bool * bool) : store_res :=
  mkres (fst b) (snd b) (last_collated (g_data (k_masters k))) (m_range (g_data (k_masters k))).

Inductive outcome :=
| RErr                              (** the method returned an error *)
| RUnit
| RStored (r : store_res)
| RSkipped                          (** [Ok(None)] of [store_received] *)
| RStatus (s : option status)
| RGone                             (** [McBlockSubgraphExtract::AlreadyExtracted] *)
| RGraph (m : entry) (shards : list entry) (is_last : bool)
| RTops (l : list (bid * N * (N * N) * (N * N)))
    (** id, info, value flow, proof funds of each top shard block *)
| RPeek (r : option (bid * list bid * option key)).

(** [BlocksCache::store_collated]: 334-378 *)
Definition do_collated (k : cache) (c : cand) (tops : list top) (anchor : option N)
    : cache * outcome :=
  if is_mc (b_shard (c_id c)) then
    match store_collated_group m_on_collated (k_masters k) c tops anchor with
    | Some (g, b) => let k' := set_masters k g in (k', RStored (res_of k' b))
    | None => (k, RErr)
    end
  else
    match store_collated_group s_on_collated (shard_group k (b_shard (c_id c))) c tops anchor with
    | Some (g, b) => let k' := set_shard k (b_shard (c_id c)) g in (k', RStored (res_of k' b))
    | None => (set_shard k (b_shard (c_id c)) (shard_group k (b_shard (c_id c))), RErr)
    end.

(** [BlocksCache::store_received]: 384-474, [ReceivedBlockContext::load]: 1227-1282 (a block of
    the zerostate has no predecessors; older ones are refused; that the block and its diff are
    in the storage is assumed) *)
Definition do_received (k : cache) (r : recv) : cache * outcome :=
  if r_ref r <? k_zs k then (k, RErr)
  else
    let r := if r_ref r =? k_zs k
             then mkrecv (r_id r) [] (r_tops r) (r_anchor r) (r_ref r) else r in
    let n := b_seqno (r_id r) in
    if is_mc (b_shard (r_id r)) then
      let (g, old) := refresh_synced n (k_masters k) in
      if old then (k, RSkipped)
      else match store_received_group m_on_received g r with
           | Some (g, b) =>
               let g := if snd b then with_data g (remove_last_from n (g_data g)) else g in
               let k' := set_masters k g in (k', RStored (res_of k' b))
           | None => (set_masters k g, RErr)
           end
    else
      let s := b_shard (r_id r) in
      let (g, old) := refresh_synced n (shard_group k s) in
      if old then (set_shard k s g, RSkipped)
      else match store_received_group s_on_received g r with
           | Some (g, b) =>
               let k' := set_shard k s g in
               let m := k_masters k' in
               let k' := if snd b
                         then set_masters k' (with_data m (remove_last_from (r_ref r) (g_data m)))
                         else k' in
               (k', RStored (res_of k' b))
           | None => (set_shard k s g, RErr)
           end.

(** [store_master_block_validation_result]: 477-548; [complete = Some sigs] is
    [ValidationStatus::Complete] *)
Definition do_validated (k : cache) (id : bid) (complete : option N) : cache * outcome :=
  let '(new, sigs) := match complete with Some x => (StValidated, x) | None => (StSkipped, 0) end in
  match bget (b_seqno id) (g_blocks (k_masters k)) with
  | None => (k, RStatus None)
  | Some e =>
      match e_data e with
      | DReceived _ _ => (k, RStatus None)
      | DCollated c _ st rcv =>
          if status_eqb st StSynced then (k, RStatus None)
          else if status_eqb st new then (k, RStatus None)
          else
            let e' := mkentry (e_id e) (DCollated c sigs new rcv) (e_prevs e) (e_tops e)
                        (e_anchor e) (e_ref e) in
            (set_masters k (with_blocks (k_masters k)
                              (bput (b_seqno id) e' (g_blocks (k_masters k)))),
             RStatus (Some new))
      end
  end.

(** the first applied master block from a seqno on: 541-554, 615-626 *)
Definition first_applied (from : N) (m : list (N * entry)) : option (N * entry) :=
  find (fun p => (from <=? fst p) && applied (snd p)) m.

(** the filter of the top shard blocks: 582-586, 703-711 *)
Definition included_top (zs : N) (t : top) : bool := t_updated t && (zs <? t_ref t).

(** [extract_mc_block_subgraph], the loop of step 4: 719-743. [n] bounds the iterations (see
    [extract_fuel]). Every iteration removes the entry it finds, extracted or not. *)
Fixpoint extract_loop (fuel : nat) (mc : N) (queue : list bid) (shs : list (N * group sdata))
    (acc : list entry) : list (N * group sdata) * list entry :=
  match fuel with
  | O => (shs, acc)
  | S fuel =>
      match queue with
      | [] => (shs, acc)
      | id :: queue =>
          match aget N.eqb (b_shard id) shs with
          | None => extract_loop fuel mc queue shs acc
          | Some g =>
              match bget (b_seqno id) (g_blocks g) with
              | None => extract_loop fuel mc queue shs acc
              | Some e =>
                  let g := with_blocks g (bdel (b_seqno id) (g_blocks g)) in
                  if e_ref e =? mc then
                    let g := fst (refresh_synced (b_seqno (e_id e)) g) in
                    extract_loop fuel mc (queue ++ e_prevs e)
                      (aset N.eqb (b_shard id) g shs) (acc ++ [e])
                  else
                    extract_loop fuel mc queue (aset N.eqb (b_shard id) g shs) acc
              end
          end
      end
  end.

(** enough iterations for the loop: the queue and every cached predecessor link *)
Fixpoint count_prevs (m : list (N * entry)) : nat :=
  match m with [] => O | (_, e) :: r => (length (e_prevs e) + count_prevs r)%nat end.
Fixpoint count_links (shs : list (N * group sdata)) : nat :=
  match shs with [] => O | (_, g) :: r => (count_prevs (g_blocks g) + count_links r)%nat end.
Definition extract_fuel (queue : list bid) (shs : list (N * group sdata)) : nat :=
  (length queue + count_links shs)%nat.

(** [extract_mc_block_subgraph]: 700-761; the extracted shard blocks in reverse order of
    extraction *)
Definition extract_subgraph (k : cache) (m : entry) : cache * list entry :=
  let queue := map t_id (filter (included_top (k_zs k)) (e_tops m)) in
  let '(shs, acc) := extract_loop (extract_fuel queue (k_shards k)) (b_seqno (e_id m)) queue
                       (k_shards k) [] in
  (mkcache (k_zs k) (k_masters k) shs, rev acc).

(** [pop_front_applied_mc_block_subgraph]: 607-663 *)
Definition do_pop (k : cache) (from : N) : cache * outcome :=
  let g := k_masters k in
  match first_applied from (g_blocks g) with
  | None => (k, RErr)
  | Some (n, e) =>
      let is_last := negb (existsb (fun p => (n <? fst p) && applied (snd p)) (g_blocks g)) in
      let s := b_seqno (e_id e) in
      let g := mkgroup (bdel n (g_blocks g)) (g_synced g)
                 (move_range_start s (remove_last_before s (g_data g))) (g_gc g) in
      let '(k', shs) := extract_subgraph (set_masters k g) e in
      (k', RGraph e shs is_last)
  end.

(** [extract_mc_block_subgraph_for_sync]: 667-698 (the flag of [RGraph] is unused) *)
Definition do_extract (k : cache) (id : bid) : cache * outcome :=
  let g := k_masters k in
  let n := b_seqno id in
  match bget n (g_blocks g) with
  | None => (k, RGone)
  | Some e =>
      let g := with_blocks g (bdel n (g_blocks g)) in
      let g := if applied e then with_data g (move_range_start n (g_data g)) else g in
      let g := fst (refresh_synced n g) in
      let g := with_data g (remove_last_before n (g_data g)) in
      let '(k', shs) := extract_subgraph (set_masters k g) e in
      (k', RGraph e shs false)
  end.

(** the top shard blocks of the peeked master block: 578-604 *)
Fixpoint peek_tops (k : cache) (mc : N) (tops : list top) (acc : list bid)
    : list bid * option key :=
  match tops with
  | [] => (acc, None)
  | t :: r =>
      if negb (t_updated t) || (t_ref t <=? k_zs k) then peek_tops k mc r acc
      else
        let found :=
          match aget N.eqb (b_shard (t_id t)) (k_shards k) with
          | Some g => match bget (b_seqno (t_id t)) (g_blocks g) with
                      | Some e => e_ref e =? mc
                      | None => false
                      end
          | None => false
          end in
        if found then peek_tops k mc r (acc ++ [t_id t]) else (acc, Some (key_of (t_id t)))
  end.

(** [peek_front_applied_mc_block_subgraph]: 534-605, without the queue diffs *)
Definition do_peek (k : cache) (from : N) : outcome :=
  match first_applied from (g_blocks (k_masters k)) with
  | None => RPeek None
  | Some (_, e) =>
      let '(l, miss) := peek_tops k (b_seqno (e_id e)) (e_tops e) [] in
      RPeek (Some (e_id e, l, miss))
  end.

(** [set_gc_to_boundary]: 763-777 (a key without a shard group is ignored) *)
Fixpoint do_set_gc (k : cache) (keys : list key) : cache :=
  match keys with
  | [] => k
  | (s, n) :: r =>
      let k' :=
        if is_mc s then
          let g := k_masters k in
          set_masters k (mkgroup (g_blocks g) (g_synced g) (g_data g) (Some n))
        else match aget N.eqb s (k_shards k) with
             | Some g => set_shard k s (mkgroup (g_blocks g) (g_synced g) (g_data g) (Some n))
             | None => k
             end in
      do_set_gc k' r
  end.

Fixpoint remove_last_befores (l : list N) (m : mdata) : mdata :=
  match l with [] => m | n :: r => remove_last_befores r (remove_last_before n m) end.
Fixpoint remove_last_froms (l : list N) (m : mdata) : mdata :=
  match l with [] => m | n :: r => remove_last_froms r (remove_last_from n m) end.

Definition gc_shard (g : group sdata) : group sdata :=
  match g_gc g with
  | Some n => with_blocks g (filter (fun p => n <=? fst p) (g_blocks g))
  | None => g
  end.

(** [gc_prev_blocks]: 779-834 *)
Definition do_gc (k : cache) : cache :=
  let g := k_masters k in
  let g' :=
    match g_gc g with
    | Some n =>
        let removed := map fst (filter (fun p => negb (n <=? fst p)) (g_blocks g)) in
        mkgroup (filter (fun p => n <=? fst p) (g_blocks g)) (g_synced g)
          (remove_last_befores removed (g_data g)) (g_gc g)
    | None => g
    end in
  mkcache (k_zs k) g' (map (fun p => (fst p, gc_shard (snd p))) (k_shards k)).

Definition keep_next (n : N) (p : N * entry) : bool := (fst p <=? n) || is_received (snd p).

(** [remove_next_collated_blocks_from_cache]: 836-895 *)
Fixpoint do_remove_next (k : cache) (keys : list key) : cache :=
  match keys with
  | [] => k
  | (s, n) :: r =>
      let k' :=
        if is_mc s then
          let g := k_masters k in
          let removed := map fst (filter (fun p => negb (keep_next n p)) (g_blocks g)) in
          set_masters k (mkgroup (filter (keep_next n) (g_blocks g)) (g_synced g)
                           (remove_last_froms removed (g_data g)) (g_gc g))
        else match aget N.eqb s (k_shards k) with
             | Some g => set_shard k s (with_blocks g (filter (keep_next n) (g_blocks g)))
             | None => k
             end in
      do_remove_next k' r
  end.

(** [get_additional_shard_block_cache_info]: types.rs 239-254 *)
Definition entry_info (e : entry) : option N :=
  match e_data e with DCollated c _ _ _ => Some (c_info c) | DReceived _ i => i end.

(** the highest block of the shard for the next master block that has the additional info:
    67-92 *)
Definition top_candidate (mc : N) (m : list (N * entry)) : option (bid * N) :=
  match find (fun p => (e_ref (snd p) =? mc) &&
                       match entry_info (snd p) with Some _ => true | None => false end) (rev m) with
  | Some (_, e) => match entry_info e with Some i => Some (e_id e, i) | None => None end
  | None => None
  end.

Fixpoint top_infos (mc : N) (shs : list (N * group sdata))
    : list (N * group sdata) * list (bid * N * (N * N) * (N * N)) :=
  match shs with
  | [] => ([], [])
  | (s, g) :: r =>
      let '(r', l) := top_infos mc r in
      match top_candidate mc (g_blocks g) with
      | Some (id, i) =>
          ((s, with_data g (s_reset (g_data g))) :: r',
           (id, i, s_flow (g_data g), (s_fees (g_data g), s_created (g_data g))) :: l)
      | None => ((s, g) :: r', l)
      end
  end.

(** [get_top_shard_blocks_info_for_mc_block]: 62-95; [std::mem::take] of the flow and the funds *)
Definition do_tops (k : cache) (mc : N) : cache * outcome :=
  let '(shs, l) := top_infos mc (k_shards k) in
  (mkcache (k_zs k) (k_masters k) shs, RTops l).

(** [reset_top_shard_blocks_additional_info]: 157-161 *)
Definition do_reset (k : cache) : cache :=
  mkcache (k_zs k) (k_masters k)
    (map (fun p => (fst p, with_data (snd p) (s_reset (g_data (snd p))))) (k_shards k)).

Inductive op :=
| OCollated (c : cand) (tops : list top) (anchor : option N)
| OReceived (r : recv)
| OValidated (id : bid) (complete : option N)
| OPeek (from : N)
| OPop (from : N)
| OExtract (id : bid)
| OSetGc (keys : list key)
| OGc
| ORemoveNext (keys : list key)
| OTops (mc : N)
| OReset.

Definition exec (k : cache) (o : op) : cache * outcome :=
  match o with
  | OCollated c tops a => do_collated k c tops a
  | OReceived r => do_received k r
  | OValidated id v => do_validated k id v
  | OPeek f => (k, do_peek k f)
  | OPop f => do_pop k f
  | OExtract id => do_extract k id
  | OSetGc l => (do_set_gc k l, RUnit)
  | OGc => (do_gc k, RUnit)
  | ORemoveNext l => (do_remove_next k l, RUnit)
  | OTops mc => do_tops k mc
  | OReset => (do_reset k, RUnit)
  end.

(** [send_block_to_sync]: commit.rs 175-209, the block handed to the node to be applied, with its
    signatures *)
Definition send_to_sync (e : entry) : list (cand * N) :=
  match e_data e with
  | DCollated c sigs st false =>
      match st with StSynced | StSkipped => [] | StCollated | StValidated => [(c, sigs)] end
  | _ => []
  end.
(** the decision of [commit_valid_master_block]: commit.rs 78-149. The result: the blocks handed to
    the node to be applied, whether the queue diff is committed right now, and the anchor
    reported to the mempool *)
Definition commit_actions (m : entry) (shards : list entry) : list (cand * N) * bool * option N :=
  match e_data m with
  | DCollated _ _ StValidated false => (send_to_sync m ++ flat_map send_to_sync shards, false, None)
  | DCollated _ _ StSkipped _ | DCollated _ _ StCollated _ => ([], false, None)
  | _ => ([], true, e_anchor m)
  end.
(** [get_top_blocks_keys]: types.rs 407-419 *)
Definition top_keys (m : entry) : list key := key_of (e_id m) :: map (fun t => key_of (t_id t)) (e_tops m).

(** [commit_valid_master_block]: commit.rs 36-173; [notify] is the anchor found by
    [notify_to_mempool_and_process_delayed_mc_state_update] before *)
Definition commit_valid (k : cache) (id : bid) (notify : option N)
    : cache * (list (cand * N) * bool * option N) :=
  match do_extract k id with
  | (k', RGraph m shs _) => (do_gc (do_set_gc k' (top_keys m)), commit_actions m shs)
  | (k', _) => (do_gc k', ([], false, notify))
  end.
