(** The TL wire format of queue diffs and of persistent queue states.
    Models: block-util/src/queue/proto.rs (QueueDiff, QueueState and the list helpers), block-util/src/tl.rs
    (hash_bytes, shard_ident), util/src/tl.rs (BigBytes) and block-util/src/queue/queue_diff.rs.
    A reader is a function from the remaining input to the value and the new remaining input; [None] is any TlError. *)
From Verif Require Export Bytes QueueKeysModel OMap QueueStoreModel RouterModel SortN.
Local Open Scope N_scope.

(** ** Scalars. tl_proto writes integers in little-endian order *)
Definition w_u32 (n : N) : bytes := le 4 n.
Definition w_u64 (n : N) : bytes := le 8 n.
Definition r_u32 := read_le 4.
Definition r_u64 := read_le 8.
(** tl.rs:14-22 hash_bytes *)
Definition w_hash (h : N) : bytes := be 32 h.
Definition r_hash := read_be 32.
(** proto.rs:159-165, derived *)
Definition w_qk (k : qkey) : bytes := w_u64 (qk_lt k) ++ w_hash (qk_hash k).
Definition r_qk (l : bytes) : option (qkey * bytes) :=
  match r_u64 l with
  | Some (lt, l) => match r_hash l with Some (h, l) => Some (QK lt h, l) | None => None end
  | None => None
  end.
(** proto.rs:369-375: the i8 workchain is written as an i32 *)
Definition w_ra (a : raddr) : bytes := le 4 (to_u 32 (ra_wc a)) ++ w_hash (ra_acc a).
(** proto.rs:381-388: [i32::try_into::<i8>] *)
Definition r_ra (l : bytes) : option (raddr * bytes) :=
  match r_u32 l with
  | Some (w, l) =>
      if ((- 128 <=? to_i 32 w) && (to_i 32 w <? 128))%Z then
        match r_hash l with Some (h, l) => Some (RA (to_i 32 w) h, l) | None => None end
      else None
  | None => None
  end.

(** the reading loop shared by [processed_to_map::read] (proto.rs:546-561), the partitions loop (605-639) and the accounts
    loop (624-636) of [router_partitions_map::read]: read a key, refuse it unless it is above the previous one, read the
    rest of the entry, insert into the BTreeMap/BTreeSet *)
Fixpoint read_map {K V} (cmp : K -> K -> comparison) (rk : bytes -> option (K * bytes)) (rv : bytes -> option (V * bytes))
    (n : nat) (prev : option K) (items : omap K V) (l : bytes) : option (omap K V * bytes) :=
  match n with
  | O => Some (items, l)
  | S n =>
      match rk l with
      | None => None
      | Some (k, l) =>
          if match prev with Some p => match cmp k p with Gt => false | _ => true end | None => false end then None
          else match rv l with
               | None => None
               | Some (v, l) => read_map cmp rk rv n (Some k) (oput cmp k v items) l
               end
      end
  end.

(** messages_list::read's loop (proto.rs:739-750) *)
Fixpoint read_hashes (n : nat) (prev : N) (items : list N) (l : bytes) : option (list N * bytes) :=
  match n with
  | O => Some (items, l)
  | S n => match r_hash l with
           | None => None
           | Some (h, l) => if h <=? prev then None else read_hashes n h (items ++ [h]) l
           end
  end.

(** proto.rs:12-37 QueueDiff *)
Record wdiff := WD {
  wd_hash : N; wd_prev : N; wd_shard : shard; wd_seqno : N; wd_proc : omap shard qkey;
  wd_min : qkey; wd_max : qkey; wd_msgs : list N; wd_src : rparts; wd_dst : rparts }.
Definition set_hash (d : wdiff) (h : N) : wdiff :=
  WD h (wd_prev d) (wd_shard d) (wd_seqno d) (wd_proc d) (wd_min d) (wd_max d) (wd_msgs d) (wd_src d) (wd_dst d).

(** ** Writers *)
(** tl.rs:36-40 *)
Definition w_shard (s : shard) : bytes := le 4 (to_u 32 (sh_wc s)) ++ w_u64 (sh_prefix s).
(** 531-538; [len() as u32] *)
Definition w_count {A} (l : list A) : bytes := w_u32 (N.of_nat (length l)).
Definition w_proc (m : omap shard qkey) : bytes :=
  w_count m ++ concat (map (fun e => w_shard (fst e) ++ w_qk (snd e)) m).
(** 582-594 *)
Definition w_accounts (s : raset) : bytes := w_count s ++ concat (map (fun e => w_ra (fst e)) s).
Definition w_parts (m : rparts) : bytes :=
  w_count m ++ concat (map (fun e => w_u32 (fst e) ++ w_accounts (snd e)) m).
(** 715-728 *)
Definition w_msgs (l : list N) : bytes := w_count l ++ concat (map w_hash l).

Section TL.
  (** [ShardIdent::new] accepts (tycho-types); the constructor ids; Boc::file_hash_blake *)
  Variable valid : shard -> bool.
  Variables diff_id hdr_id state_id : N.
  Variable H : bytes -> N.

  (** tl.rs:42-47 *)
  Definition r_shard (l : bytes) : option (shard * bytes) :=
    match r_u32 l with
    | Some (w, l) => match r_u64 l with
                     | Some (p, l) => if valid (SH (to_i 32 w) p) then Some (SH (to_i 32 w) p, l) else None
                     | None => None
                     end
    | None => None
    end.

  (** 70-84 QueueDiff::write_to *)
  Definition w_diff (d : wdiff) : bytes :=
    w_u32 diff_id ++ w_hash (wd_prev d) ++ w_shard (wd_shard d) ++ w_u32 (wd_seqno d) ++ w_proc (wd_proc d) ++
    w_qk (wd_min d) ++ w_qk (wd_max d) ++ w_msgs (wd_msgs d) ++ w_parts (wd_src d) ++ w_parts (wd_dst d).

  (** 540-564 processed_to_map::read, MAX_SIZE = 1000 *)
  Definition r_proc (l : bytes) : option (omap shard qkey * bytes) :=
    match r_u32 l with
    | Some (n, l) => if 1000 <? n then None else read_map sh_ord r_shard r_qk (N.to_nat n) None [] l
    | None => None
    end.
  (** 596-642 router_partitions_map::read, MAX_ADDRS_PER_PARTITION = 10_000_000 *)
  Definition r_part_idx (l : bytes) : option (N * bytes) :=
    match r_u32 l with Some (i, l) => if i <? 2 ^ 16 then Some (i, l) else None | None => None end.
  Definition r_accounts (l : bytes) : option (raset * bytes) :=
    match r_u32 l with
    | Some (n, l) => if 10000000 <? n then None
                     else read_map ra_cmp r_ra (fun l => Some (tt, l)) (N.to_nat n) None [] l
    | None => None
    end.
  Definition r_parts (l : bytes) : option (rparts * bytes) :=
    match r_u32 l with
    | Some (n, l) => if 65535 + 1 <? n then None else read_map N.compare r_part_idx r_accounts (N.to_nat n) None [] l
    | None => None
    end.
  (** 730-753 messages_list::read, MAX_SIZE = 10_000_000 *)
  Definition r_msgs (l : bytes) : option (list N * bytes) :=
    match r_u32 l with
    | Some (n, l) => if 10000000 <? n then None else read_hashes (N.to_nat n) 0 [] l
    | None => None
    end.

  (** 90-119 QueueDiff::read_from; the hash is computed over the bytes consumed *)
  Definition r_diff (l0 : bytes) : option (wdiff * bytes) :=
    match r_u32 l0 with | None => None | Some (id, l) =>
    if negb (id =? diff_id) then None else
    match r_hash l with | None => None | Some (prev, l) =>
    match r_shard l with | None => None | Some (sh, l) =>
    match r_u32 l with | None => None | Some (seqno, l) =>
    match r_proc l with | None => None | Some (proc, l) =>
    match r_qk l with | None => None | Some (mn, l) =>
    match r_qk l with | None => None | Some (mx, l) =>
    match r_msgs l with | None => None | Some (msgs, l) =>
    match r_parts l with | None => None | Some (src, l) =>
    match r_parts l with | None => None | Some (dst, l) =>
    if qk_ltb mx mn then None else
    Some (WD (H (firstn (length l0 - length l) l0)) prev sh seqno proc mn mx msgs src dst, l)
    end end end end end end end end end end.

  (** 657-672 queue_diffs_list::write; [None]: "diffs list must not be empty" panics *)
  Definition w_diffs (ds : list wdiff) : option bytes :=
    match ds with [] => None | _ => Some (w_count ds ++ concat (map w_diff ds)) end.
  (** 674-702 queue_diffs_list::read, MAX_SIZE = 1000 *)
  Fixpoint r_diffs_loop (n : nat) (seq prev : N) (items : list wdiff) (l : bytes) : option (list wdiff * bytes) :=
    match n with
    | O => Some (items, l)
    | S n => match r_diff l with
             | None => None
             | Some (d, l) => if (seq <=? wd_seqno d) || negb (prev =? wd_hash d) then None
                              else r_diffs_loop n (wd_seqno d) (wd_prev d) (items ++ [d]) l
             end
    end.
  Definition r_diffs (l : bytes) : option (list wdiff * bytes) :=
    match r_u32 l with
    | None => None
    | Some (n, l) =>
        if (1000 <? n) || (n =? 0) then None else
        match r_diff l with
        | None => None
        | Some (d, l) => r_diffs_loop (N.to_nat n - 1) (wd_seqno d) (wd_prev d) [d] l
        end
    end.

  (** queue_diff.rs:161-179 QueueDiffStuff::deserialize, for a block with short id (s, n) *)
  Definition stuff_deserialize (s : shard) (n : N) (data : bytes) : option wdiff :=
    match r_diff data with
    | None => None
    | Some (d, rest) =>
        if negb (sh_eqb s (wd_shard d) && (n =? wd_seqno d)) then None
        else match rest with [] => Some (set_hash d (H data)) | _ => None end
    end.
  (** queue_diff.rs:22-61 builder: with_processed_to, with_router, with_messages, serialize *)
  Definition build_diff (sh : shard) (seqno prev : N) (proc : omap shard qkey) (src dst : rparts) (mn mx : qkey)
      (hashes : list N) : wdiff * bytes :=
    let d := WD 0 prev sh seqno proc mn mx (isort hashes) src dst in
    (set_hash d (H (w_diff d)), w_diff d).

  (** *** Persistent queue state *)
  (** util/src/tl.rs:162-164 *)
  Definition padding (len : N) : N := (4 - len mod 4) mod 4.
  (** util/src/tl.rs:133-142 BigBytes::write *)
  Definition w_big (b : bytes) : bytes :=
    let len := N.of_nat (length b) in
    w_u32 len ++ b ++ (if len mod 4 =? 0 then [] else firstn (N.to_nat (4 - len mod 4)) [0; 0; 0]).
  (** 144-159 BigBytes::read; the padding bytes are skipped without looking at them *)
  Definition r_big (max : N) (l : bytes) : option (bytes * bytes) :=
    match r_u32 l with
    | None => None
    | Some (len, l) =>
        if max <? len then None
        else if N.of_nat (length l) <? len + padding len then None
        else Some (firstn (N.to_nat len) l, skipn (N.to_nat (len + padding len)) l)
    end.
  (** proto.rs:756-789 state_messages_list, MAX_CHUNKS = 10_000_000, MAX_CHUNK_SIZE = 100 << 20 *)
  Definition max_chunk : N := 100 * 2 ^ 20.
  Definition w_chunks (cs : list bytes) : bytes := w_count cs ++ concat (map w_big cs).
  Fixpoint r_chunks_loop (n : nat) (items : list bytes) (l : bytes) : option (list bytes * bytes) :=
    match n with
    | O => Some (items, l)
    | S n => match r_big max_chunk l with
             | None => None
             | Some (b, l) => r_chunks_loop n (items ++ [b]) l
             end
    end.
  Definition r_chunks (l : bytes) : option (list bytes * bytes) :=
    match r_u32 l with
    | Some (n, l) => if 10000000 <? n then None else r_chunks_loop (N.to_nat n) [] l
    | None => None
    end.
  (** 148-156 QueueStateHeader and 122-131 QueueState, derived TlWrite/TlRead (boxed) *)
  Record whdr := WH { wh_shard : shard; wh_seqno : N; wh_diffs : list wdiff }.
  Record wstate := WS { ws_hdr : whdr; ws_msgs : list bytes }.
  Definition w_hdr (h : whdr) : option bytes :=
    match w_diffs (wh_diffs h) with
    | Some b => Some (w_u32 hdr_id ++ w_shard (wh_shard h) ++ w_u32 (wh_seqno h) ++ b)
    | None => None
    end.
  Definition r_hdr (l : bytes) : option (whdr * bytes) :=
    match r_u32 l with | None => None | Some (id, l) =>
    if negb (id =? hdr_id) then None else
    match r_shard l with | None => None | Some (s, l) =>
    match r_u32 l with | None => None | Some (n, l) =>
    match r_diffs l with | None => None | Some (ds, l) => Some (WH s n ds, l) end end end end.
  Definition w_state (s : wstate) : option bytes :=
    match w_hdr (ws_hdr s) with
    | Some b => Some (w_u32 state_id ++ b ++ w_chunks (ws_msgs s))
    | None => None
    end.
  Definition r_state (l : bytes) : option (wstate * bytes) :=
    match r_u32 l with | None => None | Some (id, l) =>
    if negb (id =? state_id) then None else
    match r_hdr l with | None => None | Some (h, l) =>
    match r_chunks l with | None => None | Some (cs, l) => Some (WS h cs, l) end end end.
End TL.
