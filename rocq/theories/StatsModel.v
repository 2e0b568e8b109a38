(** Message statistics of the collator.
    Models: collator/src/internal_queue/types/stats.rs:19-234 (QueueStatistics and its views),
    collator/src/collator/statistics/queue.rs:9-109 (TrackedQueueStatistics),
    collator/src/collator/statistics/cumulative.rs (CumulativeStatistics).
    Simplifications: counters are unbounded numbers (the code uses u64 [+=]); [None] is a panic, including an underflow of
    [tracked_total -= count]; the RwLock/Arc around the tracked statistics is left out (every access takes the lock);
    hash maps are walked in list order. *)
From Verif Require Export ProcModel.
Local Open Scope N_scope.

(** FastHashMap<IntAddr, u64> *)
Definition astats := amap raddr N.

Section Stats.
  (** tycho-types ShardIdent::contains_address *)
  Variable contains : shard -> raddr -> bool.

  (** ** stats.rs:19-23 QueueStatistics *)
  Record qstats := QST { qs_base : astats; qs_tx : option astats }.
  Definition qs_new : qstats := QST [] None.
  (** 26-32 *)
  Definition qs_begin (q : qstats) : option qstats :=
    match qs_tx q with Some _ => None | None => Some (QST (qs_base q) (Some [])) end.
  (** 34-47 *)
  Definition qs_commit (q : qstats) : option qstats :=
    match qs_tx q with
    | None => None
    | Some tx => Some (QST (fold_left (fun (b : astats) (e : raddr * N) =>
                         if snd e =? 0 then adel ra_eqb (fst e) b else aset ra_eqb (fst e) (snd e) b) tx (qs_base q)) None)
    end.
  (** 49-53 *)
  Definition qs_rollback (q : qstats) : option qstats :=
    match qs_tx q with None => None | Some _ => Some (QST (qs_base q) None) end.
  (** 55-57 *)
  Definition qs_in_tx (q : qstats) : bool := match qs_tx q with Some _ => true | None => false end.
  (** 82-129 decrement_for_account *)
  Definition qs_dec (a : raddr) (n : N) (q : qstats) : option qstats :=
    match qs_tx q with
    | Some tx =>
        match (match aget ra_eqb a tx with Some c => Some c | None => aget ra_eqb a (qs_base q) end) with
        | None => None
        | Some c => if c <? n then None else Some (QST (qs_base q) (Some (aset ra_eqb a (c - n) tx)))
        end
    | None =>
        match aget ra_eqb a (qs_base q) with
        | None => None
        | Some c => if c <? n then None
                    else Some (QST (if c - n =? 0 then adel ra_eqb a (qs_base q) else aset ra_eqb a (c - n) (qs_base q)) None)
        end
    end.
  (** 131-150 increment_for_account *)
  Definition qs_inc (a : raddr) (n : N) (q : qstats) : qstats :=
    match qs_tx q with
    | Some tx =>
        let cur := match aget ra_eqb a tx with
                   | Some c => c
                   | None => match aget ra_eqb a (qs_base q) with Some c => c | None => 0 end
                   end in
        QST (qs_base q) (Some (aset ra_eqb a (cur + n) tx))
    | None => QST (aset ra_eqb a (match aget ra_eqb a (qs_base q) with Some c => c + n | None => n end) (qs_base q)) None
    end.
  (** 152-156 append *)
  Definition qs_append (other : astats) (q : qstats) : qstats :=
    fold_left (fun q (e : raddr * N) => qs_inc (fst e) (snd e) q) other q.
  (** 165-173 StatisticsView::get *)
  Definition qs_get (a : raddr) (q : qstats) : option N :=
    let base := match aget ra_eqb a (qs_base q) with Some v => if 0 <? v then Some v else None | None => None end in
    match qs_tx q with
    | Some tx => match aget ra_eqb a tx with Some v => if 0 <? v then Some v else None | None => base end
    | None => base
    end.
  (** 199-234 StatisticsViewIter: first the changed accounts, then the others *)
  Definition qs_iter (q : qstats) : list (raddr * N) :=
    match qs_tx q with Some tx => filter (fun e : raddr * N => 0 <? snd e) tx | None => [] end ++
    filter (fun e : raddr * N => negb (match qs_tx q with Some tx => amem ra_eqb (fst e) tx | None => false end) && (0 <? snd e))
      (qs_base q).

  (** ** queue.rs:9-20 TrackedQueueStatistics *)
  Record tracked := TR { tr_stats : qstats; tr_total : N; tr_snap : N }.
  (** 23-28 *)
  Definition tr_new : tracked := TR qs_new 0 0.
  (** 56-65 append *)
  Definition tr_append (track : shard) (other : astats) (t : tracked) : tracked :=
    TR (qs_append other (tr_stats t))
       (fold_left (fun n (e : raddr * N) => if contains track (fst e) then n + snd e else n) other (tr_total t)) (tr_snap t).
  (** 69-73, 75-77, 79-83 *)
  Definition tr_begin (t : tracked) : option tracked :=
    match qs_begin (tr_stats t) with Some q => Some (TR q (tr_total t) (tr_total t)) | None => None end.
  Definition tr_commit (t : tracked) : option tracked :=
    match qs_commit (tr_stats t) with Some q => Some (TR q (tr_total t) (tr_snap t)) | None => None end.
  Definition tr_rollback (t : tracked) : option tracked :=
    match qs_rollback (tr_stats t) with Some q => Some (TR q (tr_snap t) (tr_snap t)) | None => None end.
  (** 101-109 decrement_for_account *)
  Definition tr_dec (track : shard) (a : raddr) (n : N) (t : tracked) : option tracked :=
    match qs_dec a n (tr_stats t) with
    | None => None
    | Some q => if contains track a then if tr_total t <? n then None else Some (TR q (tr_total t - n) (tr_snap t))
                else Some (TR q (tr_total t) (tr_snap t))
    end.

  (** ** cumulative.rs *)
  (** source shard, partition, max message key of a diff. The nested map shard -> partition -> key -> statistics
      (cumulative.rs:65) is flattened; dropping empty inner maps (145-148, 446-451) then has no counterpart. *)
  Definition ekey : Type := (shard * N * qkey)%type.
  Definition ek_src (k : ekey) : shard := fst (fst k).
  Definition ek_part (k : ekey) : N := snd (fst k).
  Definition ek_max (k : ekey) : qkey := snd k.
  Definition qk_eqb (a b : qkey) : bool := (qk_lt a =? qk_lt b) && (qk_hash a =? qk_hash b).
  Definition ek_eqb (a b : ekey) : bool := sh_eqb (ek_src a) (ek_src b) && (ek_part a =? ek_part b) && qk_eqb (ek_max a) (ek_max b).
  (** 28-34 *)
  Definition pstats : Type := (qstats * tracked)%type.
  (** 36-52 CumulativeStatisticsTx *)
  Record ctx := CTX {
    x_added : list ekey; x_newp : list N; x_all : all_shards; x_upd : amap shard by_parts; x_staged : list (shard * ekey) }.
  (** 54-72 *)
  Record cum := CU { cu_for : shard; cu_all : all_shards; cu_stats : amap ekey astats; cu_res : amap N pstats; cu_tx : option ctx }.
  (** 155-171 *)
  Definition cu_new (for_shard : shard) (all : all_shards) : cum := CU for_shard all [] [] None.

  (** [processed_to.get(partition)?.get(src_shard)?] and the comparison [diff_max_message <= to_key] (333-336, 391-400) *)
  Definition pt_to (pt : by_parts) (k : ekey) : option qkey :=
    match aget N.eqb (ek_part k) pt with Some m => oget sh_ord (ek_src k) m | None => None end.
  Definition covers (pt : by_parts) (k : ekey) : bool :=
    match pt_to pt k with Some to => qk_leb (ek_max k) to | None => false end.

  (** option-valued map over the result table *)
  Fixpoint map_res (f : pstats -> option pstats) (m : amap N pstats) : option (amap N pstats) :=
    match m with
    | [] => Some []
    | (p, s) :: r => match f s, map_res f r with Some s', Some r' => Some ((p, s') :: r') | _, _ => None end
    end.

  (** 319-372 apply_diff; [None]: the assertion on a repeated diff key *)
  Definition apply_diff_cum (k : ekey) (stats : astats) (c : cum) : option cum :=
    let flt := fold_left (fun (st : astats) (e : shard * (bool * by_parts)) =>
                 if covers (snd (snd e)) k then filter (fun x : raddr * N => negb (contains (fst e) (fst x))) st else st)
                 (cu_all c) stats in
    let p := ek_part k in
    let fresh := negb (amem N.eqb p (cu_res c)) in
    let cur := match aget N.eqb p (cu_res c) with Some s => s | None => (qs_new, tr_new) end in
    let res := aset N.eqb p (qs_append flt (fst cur), tr_append (cu_for c) flt (snd cur)) (cu_res c) in
    if amem ek_eqb k (cu_stats c) then None
    else Some (CU (cu_for c) (cu_all c) (aset ek_eqb k flt (cu_stats c)) res
           (match cu_tx c with
            | Some x => Some (CTX (x_added x ++ [k]) (if fresh then p :: x_newp x else x_newp x) (x_all x) (x_upd x) (x_staged x))
            | None => None
            end)).

  (** 424-436: the decrements for one diff *)
  Definition dec_one (for_shard dst : shard) (acc : option pstats) (e : raddr * N) : option pstats :=
    match acc with
    | None => None
    | Some s =>
        if contains dst (fst e) then
          match qs_dec (fst e) (snd e) (fst s) with
          | None => None
          | Some q => if sh_eqb for_shard dst then Some (q, snd s)
                      else match tr_dec for_shard (fst e) (snd e) (snd s) with Some t => Some (q, t) | None => None end
          end
        else Some s
    end.
  Definition dec_entry (for_shard dst : shard) (k : ekey) (stats : astats) (res : amap N pstats) : option (amap N pstats) :=
    let cur := match aget N.eqb (ek_part k) res with Some s => s | None => (qs_new, tr_new) end in
    match fold_left (dec_one for_shard dst) stats (Some cur) with
    | Some s => Some (aset N.eqb (ek_part k) s res)
    | None => None
    end.
  (** 388-437: the walk over the diffs covered by [processed_to]. [staged]: Some set in Staged mode, None in Immediate mode *)
  Definition dec_pass_step (for_shard dst : shard) (pt : by_parts) (staged_mode : bool)
      (acc : option (amap N pstats * list (shard * ekey))) (e : ekey * astats) : option (amap N pstats * list (shard * ekey)) :=
    match acc with
    | None => None
    | Some (res, staged) =>
        if covers pt (fst e) then
          if staged_mode && existsb (fun x => sh_eqb (fst x) dst && ek_eqb (snd x) (fst e)) staged then Some (res, staged)
          else match dec_entry for_shard dst (fst e) (snd e) res with
               | Some res' => Some (res', if staged_mode then staged ++ [(dst, fst e)] else staged)
               | None => None
               end
        else Some (res, staged)
    end.
  (** 438-451: the retain part of Immediate and CommitRetainOnly *)
  Definition retain_pass (dst : shard) (pt : by_parts) (m : amap ekey astats) : amap ekey astats :=
    filter (fun e : ekey * astats => negb (match pt_to pt (fst e), snd e with Some _, [] => true | _, _ => false end))
      (map (fun e : ekey * astats =>
              (fst e, if covers pt (fst e) then filter (fun x : raddr * N => negb (contains dst (fst x))) (snd e) else snd e)) m).

  (** 234-264 handle_processed_to_update (with 374-452 in Staged or Immediate mode) *)
  Definition handle_update (dst : shard) (pt : by_parts) (c : cum) : option cum :=
    let staged := match cu_tx c with Some x => x_staged x | None => [] end in
    match fold_left (dec_pass_step (cu_for c) dst pt (match cu_tx c with Some _ => true | None => false end)) (cu_stats c)
            (Some (cu_res c, staged)) with
    | None => None
    | Some (res, staged') =>
        Some (CU (cu_for c) (aset sh_eqb dst (true, pt) (cu_all c))
                 (match cu_tx c with Some _ => cu_stats c | None => retain_pass dst pt (cu_stats c) end) res
                 (match cu_tx c with
                  | Some x => Some (CTX (x_added x) (x_newp x) (x_all x) (aset sh_eqb dst pt (x_upd x)) staged')
                  | None => None
                  end))
    end.

  (** HashMap/BTreeMap equality: same size and every entry of the left one found in the right one *)
  Definition opt_eqb {V} (eqb : V -> V -> bool) (a : V) (b : option V) : bool := match b with Some b => eqb a b | None => false end.
  Definition om_eqb (a b : omap shard qkey) : bool :=
    Nat.eqb (length a) (length b) && forallb (fun e : shard * qkey => opt_eqb qk_eqb (snd e) (oget sh_ord (fst e) b)) a.
  Definition pt_eqb (a b : by_parts) : bool :=
    Nat.eqb (length a) (length b) && forallb (fun e : N * omap shard qkey => opt_eqb om_eqb (snd e) (aget N.eqb (fst e) b)) a.
  Definition all_eqb (a b : all_shards) : bool :=
    Nat.eqb (length a) (length b) &&
    forallb (fun e : shard * (bool * by_parts) =>
      opt_eqb (fun x y : bool * by_parts => Bool.eqb (fst x) (fst y) && pt_eqb (snd x) (snd y)) (snd e) (aget sh_eqb (fst e) b)) a.

  (** 208-231 update_processed_to_by_partitions *)
  Definition update_step (acc : option cum) (e : shard * (bool * by_parts)) : option cum :=
    match acc with
    | None => None
    | Some c =>
        let changed := match aget sh_eqb (fst e) (cu_all c) with
                       | Some (_, old) => negb (pt_eqb old (snd (snd e))) | None => true end in
        if changed then handle_update (fst e) (snd (snd e)) c else Some c
    end.
  Definition update_processed_to (new : all_shards) (c : cum) : option cum :=
    if all_eqb (cu_all c) new then Some c
    else match fold_left update_step new (Some c) with
         | None => None
         | Some c' => Some (CU (cu_for c') new (cu_stats c') (cu_res c') (cu_tx c'))
         end.

  (** 75-89 begin, 91-117 commit, 119-152 rollback *)
  Definition cu_begin (c : cum) : option cum :=
    match cu_tx c with
    | Some _ => None
    | None =>
        match map_res (fun s => match qs_begin (fst s), tr_begin (snd s) with Some q, Some t => Some (q, t) | _, _ => None end) (cu_res c) with
        | None => None
        | Some res => Some (CU (cu_for c) (cu_all c) (cu_stats c) res (Some (CTX [] [] (cu_all c) [] [])))
        end
    end.
  Definition if_tx {T} (b : bool) (f : T -> option T) (x : T) : option T := if b then f x else Some x.
  Definition end_res (fq : qstats -> option qstats) (ft : tracked -> option tracked) : amap N pstats -> option (amap N pstats) :=
    map_res (fun s => match if_tx (qs_in_tx (fst s)) fq (fst s), if_tx (qs_in_tx (tr_stats (snd s))) ft (snd s) with
                      | Some q, Some t => Some (q, t) | _, _ => None end).
  Definition cu_commit (c : cum) : option cum :=
    match cu_tx c with
    | None => None
    | Some x =>
        match end_res qs_commit tr_commit (cu_res c) with
        | None => None
        | Some res => Some (CU (cu_for c) (cu_all c) (fold_left (fun m (e : shard * by_parts) => retain_pass (fst e) (snd e) m) (x_upd x) (cu_stats c))
                               res None)
        end
    end.
  Definition cu_rollback (c : cum) : option cum :=
    match cu_tx c with
    | None => None
    | Some x =>
        match end_res qs_rollback tr_rollback (cu_res c) with
        | None => None
        | Some res =>
            Some (CU (cu_for c) (x_all x) (fold_left (fun m k => adel ek_eqb k m) (x_added x) (cu_stats c))
                     (fold_left (fun m p => adel N.eqb p m) (x_newp x) res) None)
        end
    end.

  (** a reader takes [n] messages of account [a] from the remaining statistics of a partition (queue.rs:101-109 through
      messages_reader/internals_reader.rs); no statistics for the partition: nothing happens *)
  Definition reader_dec (p : N) (a : raddr) (n : N) (c : cum) : option cum :=
    match aget N.eqb p (cu_res c) with
    | None => Some c
    | Some s => match tr_dec (cu_for c) a n (snd s) with
                | Some t => Some (CU (cu_for c) (cu_all c) (cu_stats c) (aset N.eqb p (fst s, t) (cu_res c)) (cu_tx c))
                | None => None
                end
    end.

  Inductive sop :=
  | SApply (k : ekey) (stats : astats)
  | SUpdate (new : all_shards)
  | SHandle (dst : shard) (pt : by_parts)
  | SRead (p : N) (a : raddr) (n : N)
  | SBegin | SCommit | SRollback.
  Definition sstep (c : cum) (o : sop) : option cum :=
    match o with
    | SApply k st => apply_diff_cum k st c
    | SUpdate new => update_processed_to new c
    | SHandle dst pt => handle_update dst pt c
    | SRead p a n => reader_dec p a n c
    | SBegin => cu_begin c
    | SCommit => cu_commit c
    | SRollback => cu_rollback c
    end.
  Fixpoint srun (c : cum) (os : list sop) : option cum :=
    match os with [] => Some c | o :: r => match sstep c o with Some c' => srun c' r | None => None end end.

  (** 297-309 get_aggregated_result: the first partition's initial statistics, then the others added to it *)
  Definition aggregated (c : cum) : qstats :=
    match cu_res c with
    | [] => qs_new
    | (_, s) :: r => fold_left (fun q (e : N * pstats) => qs_append (qs_iter (fst (snd e))) q) r (fst s)
    end.
  (** 311-316 *)
  Definition remaining_total (c : cum) : N := fold_left (fun n (e : N * pstats) => n + tr_total (snd (snd e))) (cu_res c) 0.
End Stats.
