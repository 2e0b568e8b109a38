(** Specification of the collation manager's blocks cache, in terms of what a caller sees:
    the block held at a height of a chain, the height up to which a chain is known to be
    synced, and the history of calls with their results. *)
From Verif Require Export BcModel.

(** the block held at height [n] of chain [s] (0 is the masterchain) *)
Definition block_at (k : cache) (s n : N) : option entry :=
  if is_mc s then bget n (g_blocks (k_masters k))
  else match aget N.eqb s (k_shards k) with Some g => bget n (g_blocks g) | None => None end.

(** the height up to which blocks of the chain are known to be on chain already *)
Definition known_height (k : cache) (s : N) : option N :=
  if is_mc s then g_synced (k_masters k)
  else match aget N.eqb s (k_shards k) with Some g => g_synced g | None => None end.

Definition not_newer (k : cache) (s n : N) : Prop :=
  exists y, known_height k s = Some y /\ n <= y.

(** the last master block of our own that the cache reports, and the range of received master
    blocks that it reports as waiting *)
Definition own_last (k : cache) : option bid := last_collated (g_data (k_masters k)).
Definition own_ids (k : cache) : list (N * bid) := m_last (g_data (k_masters k)).
Definition waiting (k : cache) : option (N * N) := m_range (g_data (k_masters k)).

(** A call the manager can make: the context of a received master block names that block
    (the assertion at blocks_cache.rs 1238) *)
Definition wf_op (o : op) : Prop :=
  match o with
  | OReceived r => is_mc (b_shard (r_id r)) = true -> r_ref r = b_seqno (r_id r)
  | _ => True
  end.

(** histories of a cache created with zerostate [zs], newest call first *)
Inductive hist (zs : N) : list (op * outcome) -> cache -> Prop :=
| hist_new : hist zs [] (new_cache zs)
| hist_step h k o : hist zs h k -> wf_op o ->
    hist zs ((o, snd (exec k o)) :: h) (fst (exec k o)).

(** the heights of chain [s] accepted by [store_received], newest first *)
Fixpoint accepted (s : N) (h : list (op * outcome)) : list N :=
  match h with
  | [] => []
  | (OReceived r, RStored _) :: h =>
      if b_shard (r_id r) =? s then b_seqno (r_id r) :: accepted s h else accepted s h
  | _ :: h => accepted s h
  end.

Fixpoint decreasing (l : list N) : Prop :=
  match l with
  | [] => True
  | a :: r => match r with [] => True | b :: _ => b < a end /\ decreasing r
  end.

(** The received master blocks that still wait to be processed, newest first: a block waits from
    the moment it is accepted until the node collates its own master block of that or a greater
    height, or a received master block of that or a greater height is taken out. *)
Fixpoint pending (h : list (op * outcome)) : list N :=
  match h with
  | [] => []
  | (o, r) :: h =>
      let p := pending h in
      match o, r with
      | OReceived b, RStored _ => if is_mc (b_shard (r_id b)) then b_seqno (r_id b) :: p else p
      | OCollated c _ _, RStored x =>
          if is_mc (b_shard (c_id c)) && negb (x_mismatch x)
          then filter (fun n => b_seqno (c_id c) <? n) p else p
      | OPop _, RGraph m _ _ => filter (fun n => b_seqno (e_id m) <? n) p
      | OExtract _, RGraph m _ _ =>
          if applied m then filter (fun n => b_seqno (e_id m) <? n) p else p
      | _, _ => p
      end
  end.

(** every accepted master block is the next one after the previously accepted *)
Fixpoint contiguous (l : list N) : Prop :=
  match l with
  | [] => True
  | a :: r => match r with [] => True | b :: _ => a = b + 1 end /\ contiguous r
  end.

(** the blocks that belong to a master block: reached from its newly included top shard blocks
    through links to predecessors that are held in the cache and refer to the same master block *)
Inductive visits (k : cache) (m : entry) : bid -> Prop :=
| visits_top t : In t (e_tops m) -> t_updated t = true -> k_zs k < t_ref t -> visits k m (t_id t)
| visits_prev id e p : visits k m id ->
    is_mc (b_shard id) = false -> block_at k (b_shard id) (b_seqno id) = Some e ->
    e_ref e = b_seqno (e_id m) -> In p (e_prevs e) -> visits k m p.
Definition belongs (k : cache) (m : entry) (e : entry) : Prop :=
  exists id, visits k m id /\ is_mc (b_shard id) = false /\
    block_at k (b_shard id) (b_seqno id) = Some e /\ e_ref e = b_seqno (e_id m).

(** garbage collection is only asked for below master blocks known to be on chain *)
Definition sane_gc (k : cache) (o : op) : Prop :=
  match o with
  | OSetGc keys => forall n, In (0, n) keys -> not_newer k 0 n
  | _ => True
  end.
