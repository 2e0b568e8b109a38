(** Specification of the message statistics, independent of how StatsModel keeps them. *)
From Verif Require Export StatsModel.
Local Open Scope N_scope.

(** the count of an account in a finite table *)
Definition cnt (st : astats) (a : raddr) : N := match aget ra_eqb a st with Some n => n | None => 0 end.
(** the sum of [f] over a list *)
Definition lsum {T} (f : T -> N) (l : list T) : N := fold_right (fun x s => f x + s) 0 l.

(** ** C38: a table of counters with one saved copy *)
Inductive tsop :=
| TAppend (st : astats) | TDec (a : raddr) (n : N) | TBegin | TCommit | TRollback.
(** current counters, and the counters at the begin of the transaction *)
Record tspec := TS { ts_cur : raddr -> N; ts_saved : option (raddr -> N) }.
Definition ts_init : tspec := TS (fun _ => 0) None.
(** [None]: not allowed (a panic in the code) *)
Definition ts_step (s : tspec) (o : tsop) : option tspec :=
  match o with
  | TAppend st => Some (TS (fun a => ts_cur s a + cnt st a) (ts_saved s))
  | TDec a n => if ts_cur s a <? n then None
                else Some (TS (fun b => if ra_eqb b a then ts_cur s b - n else ts_cur s b) (ts_saved s))
  | TBegin => match ts_saved s with None => Some (TS (ts_cur s) (Some (ts_cur s))) | Some _ => None end
  | TCommit => match ts_saved s with None => None | Some _ => Some (TS (ts_cur s) None) end
  | TRollback => match ts_saved s with None => None | Some f => Some (TS f None) end
  end.
Fixpoint ts_run (s : tspec) (os : list tsop) : option tspec :=
  match os with [] => Some s | o :: r => match ts_step s o with Some s' => ts_run s' r | None => None end end.
(** appended tables are maps; a decrement is by at least one *)
Definition tsop_ok (o : tsop) : Prop :=
  match o with TAppend st => NoDup (akeys st) | TDec _ n => 0 < n | _ => True end.

Section StatsSpec.
  Variable contains : shard -> raddr -> bool.

  (** the same operations on the modelled code *)
  Definition tr_step (track : shard) (t : tracked) (o : tsop) : option tracked :=
    match o with
    | TAppend st => Some (tr_append contains track st t)
    | TDec a n => tr_dec contains track a n t
    | TBegin => tr_begin t
    | TCommit => tr_commit t
    | TRollback => tr_rollback t
    end.
  Fixpoint tr_run (track : shard) (t : tracked) (os : list tsop) : option tracked :=
    match os with [] => Some t | o :: r => match tr_step track t o with Some t' => tr_run track t' r | None => None end end.

  (** ** C39 *)
  (** the processed position of destination shard [d] covers diff [k] *)
  Definition fcov (f : all_shards) (d : shard) (k : ekey) : bool :=
    match aget sh_eqb d f with Some (_, pt) => covers pt k | None => false end.
  (** the messages of diff [k] to account [a] are processed according to [f] *)
  Definition done (f : all_shards) (k : ekey) (a : raddr) : bool :=
    existsb (fun e : shard * (bool * by_parts) => contains (fst e) a && fcov f (fst e) k) f.

  (** an apdiff diff: its key, its statistics, and the processed positions at that time *)
  Record apdiff := ApDiff { ap_key : ekey; ap_stats : astats; ap_force : all_shards }.
  Record sbase := SBase { sb_log : list apdiff; sb_force : all_shards; sb_reads : list (N * raddr * N) }.
  Record sspec := SSpec { ss_now : sbase; ss_saved : option sbase }.

  (** messages to [a] in partition [p] which are not processed yet *)
  Definition unprocessed (b : sbase) (p : N) (a : raddr) : N :=
    lsum (fun e => if (ek_part (ap_key e) =? p) && negb (done (sb_force b) (ap_key e) a) then cnt (ap_stats e) a else 0) (sb_log b).
  (** messages to [a] in partition [p] which were not processed yet when their diff was apdiff *)
  Definition received (b : sbase) (p : N) (a : raddr) : N :=
    lsum (fun e => if (ek_part (ap_key e) =? p) && negb (done (ap_force e) (ap_key e) a) then cnt (ap_stats e) a else 0) (sb_log b).
  Definition nread (b : sbase) (p : N) (a : raddr) : N :=
    lsum (fun r : N * raddr * N => if (fst (fst r) =? p) && ra_eqb (snd (fst r)) a then snd r else 0) (sb_reads b).
  (** what is left to read: of the own shard's accounts by reading, of the others' by their progress *)
  Definition left_to_read (for_shard : shard) (b : sbase) (p : N) (a : raddr) : N :=
    if contains for_shard a then received b p a - nread b p a else unprocessed b p a.

  Definition on_now (s : sspec) (b : sbase) : sspec := SSpec b (ss_saved s).
  Definition ss_step (for_shard : shard) (s : sspec) (o : sop) : option sspec :=
    let b := ss_now s in
    match o with
    | SApply k st => Some (on_now s (SBase (sb_log b ++ [ApDiff k st (sb_force b)]) (sb_force b) (sb_reads b)))
    | SUpdate new => Some (on_now s (SBase (sb_log b) new (sb_reads b)))
    | SHandle d pt => Some (on_now s (SBase (sb_log b) (aset sh_eqb d (true, pt) (sb_force b)) (sb_reads b)))
    | SRead p a n =>
        if existsb (fun e => ek_part (ap_key e) =? p) (sb_log b) then
          if left_to_read for_shard b p a <? n then None
          else Some (on_now s (SBase (sb_log b) (sb_force b) (sb_reads b ++ [(p, a, n)])))
        else Some s
    | SBegin => match ss_saved s with None => Some (SSpec b (Some b)) | Some _ => None end
    | SCommit => match ss_saved s with None => None | Some _ => Some (SSpec b None) end
    | SRollback => match ss_saved s with None => None | Some b0 => Some (SSpec b0 None) end
    end.

  (** every processed position that was in force stays covered *)
  Definition forward (old new : all_shards) : Prop :=
    forall d k, fcov old d k = true -> fcov new d k = true.
  Definition pt_ok (pt : by_parts) : Prop :=
    NoDup (akeys pt) /\ forall p m, In (p, m) pt -> osorted sh_ord m.
  Definition force_ok (D : list shard) (f : all_shards) : Prop :=
    NoDup (akeys f) /\ forall d v, In (d, v) f -> In d D /\ pt_ok (snd v).
  (** what the callers guarantee. [D]: the destination shards, pairwise disjoint *)
  Definition sop_env (D : list shard) (for_shard : shard) (s : sspec) (o : sop) : Prop :=
    let b := ss_now s in
    match o with
    | SApply k st => ~ In k (map ap_key (sb_log b)) /\ NoDup (akeys st) /\ (forall a n, In (a, n) st -> 0 < n)
    | SUpdate new => force_ok D new /\ forward (sb_force b) new
    | SHandle d pt => In d D /\ pt_ok pt /\ forward (sb_force b) (aset sh_eqb d (true, pt) (sb_force b))
    | SRead p a n => contains for_shard a = true /\ 0 < n
    | _ => True
    end.
  Definition disjoint_shards (D : list shard) : Prop :=
    forall d1 d2 a, In d1 D -> In d2 D -> contains d1 a = true -> contains d2 a = true -> d1 = d2.
  (** the specification run, with the environment respected at each step *)
  Inductive ss_run (D : list shard) (for_shard : shard) : sspec -> list sop -> option sspec -> Prop :=
  | SRnil : forall s, ss_run D for_shard s [] (Some s)
  | SRfail : forall s o os, sop_env D for_shard s o -> ss_step for_shard s o = None -> ss_run D for_shard s (o :: os) None
  | SRcons : forall s o os s' r, sop_env D for_shard s o -> ss_step for_shard s o = Some s' ->
      ss_run D for_shard s' os r -> ss_run D for_shard s (o :: os) r.
  Definition ss_init (all : all_shards) : sspec := SSpec (SBase [] all []) None.
End StatsSpec.
