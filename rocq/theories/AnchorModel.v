(** * AnchorModel: the collator's cache of imported anchors

    /repo/collator/src/collator/anchors_cache.rs (whole file but its tests) and the two
    importers of /repo/collator/src/collator/mod.rs: [import_next_anchor] (1125-1192) and
    [import_init_anchors] (1194-1355).

    Simplifications: [VecDeque] is a list with the front at the head; [Arc] and clones are
    values; metrics and logs are left out; [usize] and [u64] counters are [N] without overflow.
    An anchor carries the number of its externals and the number of them addressed to this
    shard ([count_externals_for(&shard_id, 0)], a pure function of the anchor and the shard)
    instead of the messages themselves. *)

From Coq Require Import List NArith Bool.
Import ListNotations.
Open Scope N_scope.

(** [MempoolAnchor], /repo/collator/src/mempool/mod.rs: id, chain_time, externals, author
    ([prev_id] plays no part in these files). *)
Record anchor := mkA {
  a_id : N; a_ct : N;
  a_all : N;        (* anchor.externals.len() *)
  a_our : N;        (* anchor.count_externals_for(&shard_id, 0) *)
  a_author : N }.

(** [AnchorInfo], anchors_cache.rs:9-18. *)
Record info := mkI { i_id : N; i_ct : N; i_all : N; i_our : N; i_author : N }.

(** [AnchorInfo::from_anchor], anchors_cache.rs:20-30. *)
Definition info_of (a : anchor) (our : N) : info :=
  mkI (a_id a) (a_ct a) (a_all a) our (a_author a).

(** [CachedAnchor] with its key, anchors_cache.rs:32-36. *)
Record cached := mkC { c_key : N; c_anchor : anchor; c_our : N }.

(** [AnchorsCache], anchors_cache.rs:38-43. *)
Record acache := mkAC {
  ac_cache : list cached;
  ac_hist : list info;
  ac_pend : bool }.

(** [AnchorsCache::default()]. *)
Definition ac_empty : acache := mkAC [] [] false.

(** [add_imported_anchor_info], anchors_cache.rs:46-48. *)
Definition add_info (i : info) (c : acache) : acache :=
  mkAC (ac_cache c) (ac_hist c ++ [i]) (ac_pend c).

(** [remove_imported_anchors_info_before], anchors_cache.rs:50-58: the front goes while it is
    older than [ct] and is not the only one. *)
Fixpoint drop_before (ct : N) (h : list info) : list info :=
  match h with
  | x :: t =>
      match t with
      | [] => h
      | _ => if i_ct x <? ct then drop_before ct t else h
      end
  | [] => []
  end.

(** The loop of [remove_imported_anchors_info_above] over the reversed history. *)
Fixpoint drop_above_rev (ct : N) (r : list info) : list info :=
  match r with
  | x :: t =>
      match t with
      | [] => r
      | _ => if ct <? i_ct x then drop_above_rev ct t else r
      end
  | [] => []
  end.

(** [remove_imported_anchors_info_above], anchors_cache.rs:60-68. *)
Definition drop_above (ct : N) (h : list info) : list info :=
  rev (drop_above_rev ct (rev h)).

Definition last_opt {A} (l : list A) : option A := hd_error (rev l).

(** [last_imported_anchor_info], anchors_cache.rs:70-72. *)
Definition last_info (c : acache) : option info := last_opt (ac_hist c).

(** [last_imported_anchor_info_at_ct], anchors_cache.rs:74-82. *)
Definition last_info_at_ct (ct : N) (c : acache) : option info :=
  match find (fun i => i_ct i <=? ct) (rev (ac_hist c)) with
  | Some i => Some i
  | None => hd_error (ac_hist c)
  end.

(** [add], anchors_cache.rs:88-98. *)
Definition add (a : anchor) (our : N) (c : acache) : acache :=
  let c := add_info (info_of a our) c in
  if 0 <? our
  then mkAC (ac_cache c ++ [mkC (a_id a) a our]) (ac_hist c) true
  else c.

Definition nonempty {A} (l : list A) : bool := match l with [] => false | _ => true end.

(** [pop_front], anchors_cache.rs:100-109. *)
Definition pop_front (c : acache) : acache * option (N * anchor) :=
  match ac_cache c with
  | [] => (c, None)
  | x :: t =>
      (mkAC t (drop_before (a_ct (c_anchor x)) (ac_hist c)) (nonempty t),
       Some (c_key x, c_anchor x))
  end.

(** The loop of [remove_last_imported_above] over the reversed cache. *)
Fixpoint cut_rev (ct : N) (r : list cached) : list cached :=
  match r with
  | x :: t => if ct <? a_ct (c_anchor x) then cut_rev ct t else r
  | [] => []
  end.

(** [remove_last_imported_above], anchors_cache.rs:111-130. *)
Definition remove_above (ct : N) (c : acache) : acache * option info :=
  let k := rev (cut_rev ct (rev (ac_cache c))) in
  let was_removed := Nat.ltb (length k) (length (ac_cache c)) in
  let c' := mkAC k (drop_above ct (ac_hist c))
                 (if was_removed then nonempty k else ac_pend c) in
  (c', last_info c').

(** [clear], anchors_cache.rs:132-136. *)
Definition clear (c : acache) : acache := mkAC [] [] false.

(** [get], anchors_cache.rs:143-147. *)
Definition get (n : nat) (c : acache) : option (N * anchor) :=
  option_map (fun x => (c_key x, c_anchor x)) (nth_error (ac_cache c) n).

(** [check_has_pending_externals_in_range], anchors_cache.rs:170-174 (only the anchor id of the
    key is used). *)
Definition pending_in_range (up_to : N) (c : acache) : bool :=
  existsb (fun x => (c_key x <=? up_to) && (0 <? c_our x)) (ac_cache c).

(** ** The transaction, anchors_cache.rs:177-345 *)

(** [UndoOp], anchors_cache.rs:177-190. *)
Inductive undo :=
| UPop (key : N) (ca : cached) (infos : list info) (old_pend : bool)
| UAbove (cs : list cached) (is_ : list info) (old_pend : bool).

(** [AnchorsCacheTransaction], anchors_cache.rs:192-196; the log's top is the head. *)
Record tx := mkTx { t_cache : acache; t_log : list undo; t_committed : bool }.

(** [new], anchors_cache.rs:199-205. *)
Definition tx_new (c : acache) : tx := mkTx c [] false.

(** The collecting loop of the transaction's [pop_front], anchors_cache.rs:213-224:
    [remaining_len] counts down. *)
Fixpoint collect_before (ct : N) (remaining : nat) (h : list info) : list info :=
  match h with
  | x :: t =>
      if (i_ct x <? ct) && Nat.ltb 1 remaining
      then x :: collect_before ct (pred remaining) t
      else []
  | [] => []
  end.

(** [pop_front], anchors_cache.rs:207-234. *)
Definition tx_pop (t : tx) : tx * option (N * anchor) :=
  let c := t_cache t in
  match ac_cache c with
  | [] => (t, None)
  | x :: _ =>
      let removed := collect_before (a_ct (c_anchor x)) (length (ac_hist c)) (ac_hist c) in
      let u := UPop (c_key x) x removed (ac_pend c) in
      let '(c', r) := pop_front c in
      (mkTx c' (u :: t_log t) (t_committed t), r)
  end.

(** The two collecting loops of the transaction's [remove_last_imported_above],
    anchors_cache.rs:240-261, on the reversed deques: what was popped (first popped first) and
    what is left (reversed). *)
Fixpoint split_cache_rev (ct : N) (r : list cached) : list cached * list cached :=
  match r with
  | x :: t =>
      if ct <? a_ct (c_anchor x)
      then let '(p, k) := split_cache_rev ct t in (x :: p, k)
      else ([], r)
  | [] => ([], [])
  end.
Fixpoint split_hist_rev (ct : N) (r : list info) : list info * list info :=
  match r with
  | x :: t =>
      if (ct <? i_ct x) && Nat.ltb 1 (length r)
      then let '(p, k) := split_hist_rev ct t in (x :: p, k)
      else ([], r)
  | [] => ([], [])
  end.

(** [remove_last_imported_above], anchors_cache.rs:236-272. *)
Definition tx_above (ct : N) (t : tx) : tx :=
  let c := t_cache t in
  let '(pc, kc) := split_cache_rev ct (rev (ac_cache c)) in
  let '(ph, kh) := split_hist_rev ct (rev (ac_hist c)) in
  let pend := if nonempty pc then nonempty kc else ac_pend c in
  mkTx (mkAC (rev kc) (rev kh) pend) (UAbove pc ph (ac_pend c) :: t_log t) (t_committed t).

(** [commit], anchors_cache.rs:274-276. *)
Definition tx_commit (t : tx) : tx := mkTx (t_cache t) (t_log t) true.

(** One step of [rollback], anchors_cache.rs:280-316. The pushes of the [rev()]-ed vectors, one
    at a time, are folds. *)
Definition undo_one (u : undo) (c : acache) : acache :=
  match u with
  | UPop key ca infos old =>
      mkAC (mkC key (c_anchor ca) (c_our ca) :: ac_cache c)
           (fold_left (fun h i => i :: h) (rev infos) (ac_hist c)) old
  | UAbove cs is_ old =>
      mkAC (fold_left (fun k x => k ++ [x]) (rev cs) (ac_cache c))
           (fold_left (fun h i => h ++ [i]) (rev is_) (ac_hist c)) old
  end.

(** [rollback], anchors_cache.rs:278-317: pops the log until it is empty. *)
Fixpoint undo_all (l : list undo) (c : acache) : acache :=
  match l with
  | [] => c
  | u :: t => undo_all t (undo_one u c)
  end.
Definition tx_rollback (t : tx) : tx := mkTx (undo_all (t_log t) (t_cache t)) [] (t_committed t).

(** [Drop], anchors_cache.rs:337-343: what the caller's cache is once the transaction is gone. *)
Definition tx_drop (t : tx) : acache :=
  if t_committed t then t_cache t else t_cache (tx_rollback t).

(** ** The importers, mod.rs *)

(** The mempool adapter answers [get_next_anchor]/[get_anchor_by_id]. The anchors the mempool
    produces are one list [M] (in order); an answer is the anchor, or the call fails: not found,
    an error, or the caller's future is dropped while it waits (the [select!] of
    mod.rs:576-589). Which calls fail is an oracle [ok : nat -> bool] over the calls made. *)
Definition next_in (M : list anchor) (prev : N) : option anchor :=
  find (fun a => prev <? a_id a) M.
Definition by_id (M : list anchor) (id : N) : option anchor :=
  find (fun a => a_id a =? id) M.

(** [get_last_imported_anchor_id_and_ct().unwrap_or_default()], anchors_cache.rs:84-86 and
    mod.rs:1140-1142: only the id is used. *)
Definition last_id (c : acache) : N :=
  match last_info c with Some i => i_id i | None => 0 end.

(** [import_next_anchor], mod.rs:1125-1192, past the check that may skip the import. *)
Definition import_next (M : list anchor) (ok : bool) (c : acache) : acache * option anchor :=
  if ok then
    match next_in M (last_id c) with
    | Some a => (add a (a_our a) c, Some a)
    | None => (c, None)
    end
  else (c, None).

(** The source of an anchor of [ImportInitAnchorsResult::anchors_info]. *)
Inductive source := FromCache (i : info) | Imported (i : info).

(** What the scan of the cache found, mod.rs:1209-1256. *)
Record scan := mkScan {
  s_all : bool;                 (* all_anchors_are_taken_from_cache *)
  s_p : bool;                   (* processed_to_anchor_exists_in_cache *)
  s_last : option anchor;       (* last_anchor *)
  s_infos : list source }.

(** The scanning loop, mod.rs:1218-1256. *)
Fixpoint scan_cache (p off B : N) (l : list cached) (s : scan) : scan :=
  match l with
  | [] => s
  | x :: t =>
      let a := c_anchor x in
      if p <=? a_id a then
        let here := a_id a =? p in
        let s := if here then mkScan (s_all s) true (s_last s) (s_infos s) else s in
        if here && (a_all a =? off) then scan_cache p off B t s      (* continue *)
        else if negb (s_p s) then s                                  (* break *)
        else
          scan_cache p off B t
            (mkScan (if a_ct a =? B then true else s_all s) (s_p s) (Some a)
                    (s_infos s ++ [FromCache (info_of a (a_our a))]))
      else scan_cache p off B t s
  end.

(** The importing loop, mod.rs:1296-1352. [fuel] bounds the number of turns: it is enough when
    it exceeds the number of anchors of [M] (every turn moves to a later anchor). *)
Inductive iout := IOk | IFailed | INoFuel.

Definition add_loaded (p off : N) (a : anchor) (c : acache) : acache :=
  if (a_id a =? p) && (a_all a =? off)
  then add_info (info_of a (a_our a)) c
  else add a (a_our a) c.

Fixpoint import_loop (fuel : nat) (M : list anchor) (ok : nat -> bool) (calls : nat)
    (p off B cur : N) (prev ct : N) (nxt : option anchor)
    (c : acache) (infos : list source) (count : N)
    : iout * acache * list source * N :=
  match fuel with
  | O => (INoFuel, c, infos, count)
  | S f =>
      let '(c, infos) :=
        match nxt with
        | Some a => (add_loaded p off a c, infos ++ [Imported (info_of a (a_our a))])
        | None => (c, infos)
        end in
      let count := if cur <? ct then count + 1 else count in
      if B <=? ct then (IOk, c, infos, count)
      else if ok calls then
        match next_in M prev with
        | Some a =>
            import_loop f M ok (Datatypes.S calls) p off B cur (a_id a) (a_ct a) (Some a) c infos count
        | None => (IFailed, c, infos, count)
        end
      else (IFailed, c, infos, count)
  end.

(** [import_init_anchors], mod.rs:1198-1355: [p], [off] are [processed_to_anchor_id] and
    [processed_to_msgs_offset], [B] is [last_block_chain_time], [cur] is
    [current_shard_last_imported_chain_time]. *)
Definition import_init (fuel : nat) (M : list anchor) (ok : nat -> bool)
    (p off B cur : N) (c : acache) : iout * acache * list source * N :=
  let c := fst (remove_above B c) in
  let s := scan_cache p off B (ac_cache c) (mkScan false false None []) in
  if s_all s then (IOk, c, s_infos s, 0)
  else
    let c := if s_p s then c else clear c in
    match s_last s with
    | Some a => import_loop fuel M ok 0 p off B cur (a_id a) (a_ct a) None c (s_infos s) 0
    | None =>
        if ok O then
          match by_id M p with
          | Some a =>
              import_loop fuel M ok 1 p off B cur (a_id a) (a_ct a) (Some a) c (s_infos s) 0
          | None => (IFailed, c, s_infos s, 0)
          end
        else (IFailed, c, s_infos s, 0)
    end.
