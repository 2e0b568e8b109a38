(** Reading the internal queue: bounded ranges, per-shard iterators and the merge iterator.
    Models: collator/src/internal_queue/types/ranges.rs, collator/src/storage/iterator.rs,
    collator/src/internal_queue/state/{shard_iterator,state_iterator,storage}.rs. *)
From Verif Require Export QueueStoreModel AMap.
From Coq Require Export Permutation.
Local Open Scope N_scope.

(** ranges.rs:8-12 *)
Inductive bound := Incl (k : qkey) | Excl (k : qkey).
(** ranges.rs:14-19, 21-26 *)
Record srange := SR { sr_shard : shard; sr_from : qkey; sr_to : qkey }.
Record brange := BR { br_shard : shard; br_from : bound; br_to : bound }.
(** ranges.rs:28-46 *)
Definition to_range (b : brange) : srange :=
  SR (br_shard b)
     (match br_from b with Incl k => k | Excl k => next_value k end)
     (match br_to b with Incl k => next_value k | Excl k => k end).

(** one row of the messages table *)
Definition row : Type := (bytes * (bytes * msg))%type.

(** snapshot.rs:77-96 iter_messages: raw iterator with lower (inclusive) and upper (exclusive) bound;
    [seek_to_first] then [next] (storage/iterator.rs:24-56) walks the rows in key order. *)
Definition iter_messages (st : store) (from to : mkey) : list row :=
  kv_scan (enc_mkey from) (enc_mkey to) (st_msgs st).

(** number of trailing zero bits *)
Fixpoint ctz (p : positive) : N := match p with xO q => N.succ (ctz q) | _ => 0 end.
(** tycho-types ShardIdent::contains_address: same workchain, and the address agrees with the shard prefix above
    the tag bit. The dependency's source is not in /repo; this is its documented contract. *)
Definition contains_address (r : shard) (wc : Z) (prefix : N) : bool :=
  match sh_prefix r with
  | 0 => false
  | Npos p => let shift := ctz p + 1 in
      Z.eqb (sh_wc r) wc && (N.shiftr (Npos p) shift =? N.shiftr prefix shift)
  end.

(** storage/iterator.rs:48-54: [value[0] as i8], 8 little-endian bytes *)
Definition header_addr (h : bytes) : option (Z * N) :=
  match h with
  | b :: r => match take_n 8 r with Some (p, _) => Some (to_i 8 b, de_le p) | None => None end
  | [] => None
  end.

(** shard_iterator.rs:8-11, 26-38. [None] is a panic on a malformed row. *)
Inductive iter_result := RValue (m : msg) | RSkip (s : shard) (k : qkey).
Definition row_result (recv : shard) (e : row) : option iter_result :=
  match dec_mkey (fst e), header_addr (fst (snd e)) with
  | Some (k, _), Some (wc, p) =>
      Some (if contains_address recv wc p then RValue (snd (snd e)) else RSkip (mk_shard k) (mk_key k))
  | _, _ => None
  end.

(** state_iterator.rs:79-85. [it_iters]: remaining rows of every live shard iterator; [it_heap]: the binary heap as a
    multiset; [it_inq]: the set of shards in the heap; [it_pos]: current_position. *)
Record sit := SIT {
  it_iters : list (shard * list row); it_heap : list (shard * msg);
  it_inq : list shard; it_pos : amap shard qkey }.

(** state_iterator.rs:88-114 and state/storage.rs:172-189 iterator(): [None] is the [bail!] on a repeated shard *)
Fixpoint has_dup (l : list shard) : bool :=
  match l with [] => false | s :: r => existsb (sh_eqb s) r || has_dup r end.
Definition iterator (st : store) (part : N) (ranges : list srange) : option sit :=
  if has_dup (map sr_shard ranges) then None
  else Some (SIT (map (fun r => (sr_shard r, iter_messages st (MK part (sr_shard r) (sr_from r))
                                                           (MK part (sr_shard r) (sr_to r)))) ranges) [] [] []).

(** state_iterator.rs:124-143: read one shard iterator up to its first accepted message *)
Fixpoint pull (recv : shard) (l : list row) (pos : amap shard qkey) : option (option msg * list row * amap shard qkey) :=
  match l with
  | [] => Some (None, [], pos)
  | e :: r =>
      match row_result recv e with
      | None => None
      | Some (RValue m) => Some (Some m, r, pos)
      | Some (RSkip s k) => pull recv r (aset sh_eqb s k pos)
      end
  end.

(** state_iterator.rs:116-154 refill_queue; [order] is the iteration order of the hash map *)
Fixpoint refill (recv : shard) (order : list (shard * list row)) (st : sit) : option sit :=
  match order with
  | [] => Some st
  | (s, l) :: r =>
      if existsb (sh_eqb s) (it_inq st)
      then refill recv r (SIT (it_iters st ++ [(s, l)]) (it_heap st) (it_inq st) (it_pos st))
      else match pull recv l (it_pos st) with
           | None => None
           | Some (Some m, l', pos) =>
               refill recv r (SIT (it_iters st ++ [(s, l')]) ((s, m) :: it_heap st) (s :: it_inq st) pos)
           | Some (None, _, pos) => refill recv r (SIT (it_iters st) (it_heap st) (it_inq st) pos)
           end
  end.

(** state_iterator.rs:158-173 next(). The hash map may be walked in any order, and any of several minimal
    heap entries may be popped. *)
Inductive it_next (recv : shard) (st : sit) : option (shard * msg) -> sit -> Prop :=
| next_some order st1 s m rest :
    Permutation order (it_iters st) ->
    refill recv order (SIT [] (it_heap st) (it_inq st) (it_pos st)) = Some st1 ->
    Permutation (it_heap st1) ((s, m) :: rest) ->
    Forall (fun x => qk_leb (m_key m) (m_key (snd x)) = true) rest ->
    it_next recv st (Some (s, m))
      (SIT (it_iters st1) rest (filter (fun x => negb (sh_eqb s x)) (it_inq st1)) (aset sh_eqb s (m_key m) (it_pos st1)))
| next_none order st1 :
    Permutation order (it_iters st) ->
    refill recv order (SIT [] (it_heap st) (it_inq st) (it_pos st)) = Some st1 ->
    it_heap st1 = [] ->
    it_next recv st None st1.

(** the refill panics or fails *)
Definition it_fails (recv : shard) (st : sit) : Prop :=
  exists order, Permutation order (it_iters st) /\
    refill recv order (SIT [] (it_heap st) (it_inq st) (it_pos st)) = None.

(** a sequence of [next] calls that returned the messages [out] *)
Inductive it_run (recv : shard) (st : sit) : list (shard * msg) -> sit -> Prop :=
| run_nil : it_run recv st [] st
| run_snoc out st1 x st2 : it_run recv st out st1 -> it_next recv st1 (Some x) st2 -> it_run recv st (out ++ [x]) st2.
