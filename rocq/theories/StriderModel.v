(** * Block strider: model of `BlockStrider::run` and of its persistent state.

    Models /repo/core/src/block_strider/mod.rs:145-434 (run loop, processing of
    one masterchain block, download and processing of the shard blocks) and
    /repo/core/src/block_strider/state.rs:47-103
    (`PersistentBlockStriderState`), as a labelled machine: every await point
    of the code is a step boundary, the environment (provider, subscribers,
    delayed tasks, scheduler, crashes) chooses the label. *)
From Coq Require Import List NArith Lia Bool.
Import ListNotations.
Open Scope N_scope.

(** A `BlockId`: shard, seqno, hash.  Simplification: the shard ident is a
    number (0 is the masterchain) and root/file hash are one number. *)
Record blk := MkBlk { b_shard : N; b_seq : N; b_hash : N }.

Definition blk_eqb (a b : blk) : bool :=
  (b_shard a =? b_shard b) && (b_seq a =? b_seq b) && (b_hash a =? b_hash b).

Definition is_mc (b : blk) : bool := b_shard b =? 0.

(** `PrevBlockRef`, `BlockInfo` (the fields read by the strider). *)
Inductive prevref := PSingle (seq hash : N) | PMerge.
Record binfo := MkInfo { bi_split : bool; bi_merge : bool; bi_prev : prevref }.

(** Everything that is fixed during one history: the content of the blocks (a
    block is determined by its id), the storage content at the first start:
    the last masterchain block id (mod.rs:150, state.rs:61-66; the zerostate
    id if none was ever stored) and the blocks whose handle already carries the
    "committed" flag (set by the starter, cold_boot.rs:441,571,588,621). *)
Record scfg := MkScfg {
  c_info : blk -> binfo;
  c_tops : blk -> list blk;    (* `custom.shards.latest_blocks()` *)
  c_mc0  : blk;
  c_com0 : blk -> bool }.

(** What has been written to the storage, newest first.  [WPrep]/[WHand] stand
    for the effects of a successful `prepare_block` / `handle_block` of the
    subscriber; [WShard] is the committed flag of a shard block handle,
    [WMaster] the last masterchain block id in the node state. *)
Inductive wr := WPrep (b : blk) | WHand (b : blk) | WShard (b : blk) | WMaster (b : blk).

(** state.rs:61-66 `load_last_mc_block_id` *)
Fixpoint last_mc (c : scfg) (w : list wr) : blk :=
  match w with
  | [] => c_mc0 c
  | WMaster m :: _ => m
  | _ :: r => last_mc c r
  end.

Definition is_wshard (b : blk) (x : wr) : bool :=
  match x with WShard y => blk_eqb b y | _ => false end.

(** state.rs:68-78 `is_committed` *)
Definition is_committed (c : scfg) (w : list wr) (b : blk) : bool :=
  if is_mc b then b_seq b <=? b_seq (last_mc c w)
  else c_com0 c b || existsb (is_wshard b) w.

(** Contract of `BlockProvider::get_next_block` (provider/mod.rs:39-49:
    "Block provider *MUST* validate the block before returning it"): the block
    it returns for [p] is a masterchain block that follows [p]. *)
Definition next_ok (c : scfg) (p m : blk) : bool :=
  is_mc m && (b_seq m =? b_seq p + 1) &&
  match bi_prev (c_info c m) with
  | PSingle s h => is_mc p && (s =? b_seq p) && (h =? b_hash p)
  | PMerge => false
  end.

(** ** Download of one shard: mod.rs:266-319 *)

(** One `download_shard_blocks` future: `top_block_id` (the mutable variable),
    the result vector (head = last pushed) and `depth`. *)
Record dl := MkDl { d_cur : blk; d_acc : list blk; d_depth : N; d_done : bool }.

Definition max_depth : N := 32.    (* mod.rs:272 *)

Inductive dres := DFail | DStep (fetched : option blk) (d : dl).

(** One iteration of the loop mod.rs:282-316; [ok] tells if `fetch_block`
    (mod.rs:421-433) succeeds.  The provider contract says that it returns
    exactly the requested block. *)
Definition dl_iter (c : scfg) (w : list wr) (d : dl) (ok : bool) : dres :=
  if (0 <? b_seq (d_cur d)) && negb (is_committed c w (d_cur d)) then
    if ok then
      let b := d_cur d in
      let acc := b :: d_acc d in
      let i := c_info c b in
      if bi_split i || bi_merge i then DStep (Some b) (MkDl b acc (d_depth d) true)
      else
        match bi_prev i with
        | PMerge => DFail
        | PSingle s h =>
            let depth := d_depth d + 1 in
            if max_depth <=? depth then DFail
            else DStep (Some b) (MkDl (MkBlk (b_shard b) s h) acc depth false)
        end
    else DFail
  else DStep None (MkDl (d_cur d) (d_acc d) (d_depth d) true).

(** ** Processing of one shard: mod.rs:321-379 *)

Inductive pst := PRun | POk | PErr.             (* a spawned `prepare_block` *)
Inductive lstage := SHand | SGc | SJoin | SComm. (* what comes next for the current block *)

(** One `process_shard_blocks` future: the vector of blocks left (head = next
    to pop), the prepare task of the next block, the current block. *)
Record line := MkLine {
  l_started : bool;
  l_rest : list blk;
  l_next : option (blk * pst);
  l_cur : option (blk * lstage) }.

Definition new_line (bs : list blk) : line := MkLine false bs None None.

Definition line_done (l : line) : bool :=
  l_started l &&
  match l_next l, l_cur l with None, None => true | _, _ => false end.

(** `blocks.pop().map(start_preparing_block)` mod.rs:352,358 *)
Definition pop_prep (rest : list blk) : option (blk * pst) * list blk :=
  match rest with
  | [] => (None, [])
  | b :: r => (Some (b, PRun), r)
  end.

(** ** The whole strider *)

Inductive mstage := MTake | MHand | MGc | MJoin | MComm.

Inductive phase :=
| PhWait (p : blk)                       (* awaiting the next master block after [p] *)
| PhDown (m : blk) (ds : list dl)        (* mod.rs:203-219: shard downloads *)
| PhProc (m : blk) (ls : list line)      (* mod.rs:223 waiting for the shard futures *)
| PhMast (m : blk) (st : mstage)         (* mod.rs:226-249 *)
| PhClean (m : blk)                      (* mod.rs:170 `cleanup_until` *)
| PhEnd                                  (* `run` returned Ok *)
| PhFail.                                (* `run` returned an error *)

(** The prefetch task of mod.rs:151,159 *)
Inductive pfetch := FRun (p : blk) | FGot (p m : blk) | FNone | FErr.

(** Observable events.  [EPrep0 b m top]: `prepare_block` called for block [b]
    in the context of master block [m] with flag `is_top_block = top`;
    [EPrep1 b ok]: it returned; [EHand0]/[EHand1]: `handle_block` called /
    returned Ok; [EGc]: `update_gc_state`; [EComS b h]: `commit_shard` ([h]: the
    block handle exists); [EComM]: `commit_master`; [EFetch b m]: `get_block`
    request; [EClean]: `cleanup_until`; [ECrash n]: the process dies, the [n]
    oldest storage writes survive, and the node is started again. *)
Inductive ev :=
| EFetch (b m : blk) | EPrep0 (b m : blk) (top : bool) | EPrep1 (b : blk) (ok : bool)
| EHand0 (b m : blk) | EHand1 (b m : blk) | EGc (b : blk)
| EComS (b : blk) (h : bool) | EComM (m : blk) | EClean (n : N) | ECrash (n : nat).

Record sst := MkSst {
  s_wal : list wr;
  s_ph : phase;
  s_pf : pfetch;
  s_mp : pst;                 (* the prepare task of the current master block *)
  s_tr : list ev }.           (* newest first *)

Definition sst0 (c : scfg) : sst :=
  MkSst [] (PhWait (c_mc0 c)) (FRun (c_mc0 c)) PRun [].

Inductive label :=
| LFetched (m : blk) | LNoMore | LFetchErr       (* the prefetch task completes *)
| LNext (ok : bool)                              (* mod.rs:153-159, 180-215 *)
| LDown (i : nat) (ok : bool) | LDownAll
| LBegin (i : nat) | LPrep (i : nat) (ok : bool) | LTake (i : nat)
| LHand (i : nat) (ok : bool) | LGc (i : nat) | LJoin (i : nat) (ok : bool)
| LCommit (i : nat) (h : bool) | LProcAll
| LPrepM (ok : bool) | LTakeM | LHandM (ok : bool) | LGcM | LJoinM (ok : bool) | LCommitM
| LClean (ok : bool)
| LCrash (n : nat).

Fixpoint set_nth {A} (i : nat) (x : A) (l : list A) : list A :=
  match l, i with
  | [], _ => []
  | _ :: r, O => x :: r
  | y :: r, S j => y :: set_nth j x r
  end.

(** block-util/src/block/top_blocks.rs:14-16,32-55 `ShardHeights::contains` on
    the map filled at mod.rs:206-209 (a later insert replaces an earlier one).
    Simplification: the fallback for a shard that is not in the map is left
    out, a block of a line always has the shard of its top block. *)
Definition is_top (tops : list blk) (b : blk) : bool :=
  match find (fun t => b_shard t =? b_shard b) (rev tops) with
  | Some t => b_seq t <=? b_seq b
  | None => false
  end.

Definition set_ph (s : sst) (p : phase) : sst :=
  MkSst (s_wal s) p (s_pf s) (s_mp s) (s_tr s).
Definition log_ev (s : sst) (e : ev) : sst :=
  MkSst (s_wal s) (s_ph s) (s_pf s) (s_mp s) (e :: s_tr s).
Definition write (s : sst) (x : wr) : sst :=
  MkSst (x :: s_wal s) (s_ph s) (s_pf s) (s_mp s) (s_tr s).
Definition set_pf (s : sst) (f : pfetch) : sst :=
  MkSst (s_wal s) (s_ph s) f (s_mp s) (s_tr s).
Definition set_mp (s : sst) (p : pst) : sst :=
  MkSst (s_wal s) (s_ph s) (s_pf s) p (s_tr s).

Definition prep_events (c : scfg) (m : blk) (s : sst) (nx : option (blk * pst)) : sst :=
  match nx with
  | None => s
  | Some (b, _) => log_ev s (EPrep0 b m (is_top (c_tops c m) b))
  end.

Definition upd_line (s : sst) (m : blk) (ls : list line) (i : nat) (l : line) : sst :=
  set_ph s (PhProc m (set_nth i l ls)).

Definition all_done_d (ds : list dl) : bool := forallb d_done ds.

Definition sstep (c : scfg) (s : sst) (l : label) : option sst :=
  match l with
  (* the prefetch task, mod.rs:399-419 *)
  | LFetched m =>
      match s_pf s with
      | FRun p => if next_ok c p m then Some (set_pf s (FGot p m)) else None
      | _ => None
      end
  | LNoMore => match s_pf s with FRun _ => Some (set_pf s FNone) | _ => None end
  | LFetchErr => match s_pf s with FRun _ => Some (set_pf s FErr) | _ => None end
  (* mod.rs:153-215; [ok = false]: `load_info` / `load_custom` fails *)
  | LNext ok =>
      match s_ph s with
      | PhWait _ =>
          match s_pf s with
          | FGot _ m =>
              if ok then
                let s1 := log_ev (set_mp (set_pf s (FRun m)) PRun) (EPrep0 m m true) in
                Some (set_ph s1 (PhDown m (map (fun t => MkDl t [] 0 false) (c_tops c m))))
              else Some (set_ph s PhFail)
          | FNone => Some (set_ph s PhEnd)
          | FErr => Some (set_ph s PhFail)
          | FRun _ => None
          end
      | _ => None
      end
  | LDown i ok =>
      match s_ph s with
      | PhDown m ds =>
          match nth_error ds i with
          | Some d =>
              if d_done d then None
              else
                match dl_iter c (s_wal s) d ok with
                | DFail => Some (set_ph (log_ev s (EFetch (d_cur d) m)) PhFail)
                | DStep f d' =>
                    let s1 := match f with Some b => log_ev s (EFetch b m) | None => s end in
                    Some (set_ph s1 (PhDown m (set_nth i d' ds)))
                end
          | None => None
          end
      | _ => None
      end
  (* mod.rs:212-219: the shard futures are created one by one, but none of them
     is polled before the last download is over *)
  | LDownAll =>
      match s_ph s with
      | PhDown m ds =>
          if all_done_d ds then Some (set_ph s (PhProc m (map (fun d => new_line (d_acc d)) ds)))
          else None
      | _ => None
      end
  (* mod.rs:352 *)
  | LBegin i =>
      match s_ph s with
      | PhProc m ls =>
          match nth_error ls i with
          | Some l =>
              if l_started l then None
              else
                let '(nx, rest) := pop_prep (l_rest l) in
                Some (upd_line (prep_events c m s nx) m ls i (MkLine true rest nx None))
          | None => None
          end
      | _ => None
      end
  (* the spawned task mod.rs:344-349 *)
  | LPrep i ok =>
      match s_ph s with
      | PhProc m ls =>
          match nth_error ls i with
          | Some l =>
              match l_next l with
              | Some (b, PRun) =>
                  let s1 := log_ev s (EPrep1 b ok) in
                  let s2 := if ok then write s1 (WPrep b) else s1 in
                  Some (upd_line s2 m ls i
                          (MkLine (l_started l) (l_rest l)
                                  (Some (b, if ok then POk else PErr)) (l_cur l)))
              | _ => None
              end
          | None => None
          end
      | _ => None
      end
  (* mod.rs:354-363; the next prepare task is spawned before the result of this
     one is looked at *)
  | LTake i =>
      match s_ph s with
      | PhProc m ls =>
          match nth_error ls i with
          | Some l =>
              match l_cur l, l_next l with
              | None, Some (b, POk) =>
                  let '(nx, rest) := pop_prep (l_rest l) in
                  let s1 := log_ev (prep_events c m s nx) (EHand0 b m) in
                  Some (upd_line s1 m ls i (MkLine true rest nx (Some (b, SHand))))
              | None, Some (_, PErr) =>
                  let '(nx, _) := pop_prep (l_rest l) in
                  Some (set_ph (prep_events c m s nx) PhFail)
              | _, _ => None
              end
          | None => None
          end
      | _ => None
      end
  (* mod.rs:363 *)
  | LHand i ok =>
      match s_ph s with
      | PhProc m ls =>
          match nth_error ls i with
          | Some l =>
              match l_cur l with
              | Some (b, SHand) =>
                  if ok then
                    Some (upd_line (write (log_ev s (EHand1 b m)) (WHand b)) m ls i
                            (MkLine true (l_rest l) (l_next l) (Some (b, SGc))))
                  else Some (set_ph s PhFail)
              | _ => None
              end
          | None => None
          end
      | _ => None
      end
  (* mod.rs:366-371 *)
  | LGc i =>
      match s_ph s with
      | PhProc m ls =>
          match nth_error ls i with
          | Some l =>
              match l_cur l with
              | Some (b, SGc) =>
                  Some (upd_line (log_ev s (EGc b)) m ls i
                          (MkLine true (l_rest l) (l_next l) (Some (b, SJoin))))
              | _ => None
              end
          | None => None
          end
      | _ => None
      end
  (* mod.rs:374 *)
  | LJoin i ok =>
      match s_ph s with
      | PhProc m ls =>
          match nth_error ls i with
          | Some l =>
              match l_cur l with
              | Some (b, SJoin) =>
                  if ok then
                    Some (upd_line s m ls i
                            (MkLine true (l_rest l) (l_next l) (Some (b, SComm))))
                  else Some (set_ph s PhFail)
              | _ => None
              end
          | None => None
          end
      | _ => None
      end
  (* mod.rs:377-379, state.rs:90-103: without a block handle nothing is written *)
  | LCommit i h =>
      match s_ph s with
      | PhProc m ls =>
          match nth_error ls i with
          | Some l =>
              match l_cur l with
              | Some (b, SComm) =>
                  let s1 := log_ev s (EComS b h) in
                  let s2 := if h then write s1 (WShard b) else s1 in
                  Some (upd_line s2 m ls i (MkLine true (l_rest l) (l_next l) None))
              | _ => None
              end
          | None => None
          end
      | _ => None
      end
  (* mod.rs:222-226 *)
  | LProcAll =>
      match s_ph s with
      | PhProc m ls => if forallb line_done ls then Some (set_ph s (PhMast m MTake)) else None
      | _ => None
      end
  (* the spawned task mod.rs:198-202; it runs during the whole processing *)
  | LPrepM ok =>
      match s_mp s with
      | PRun =>
          match s_ph s with
          | PhDown m _ | PhProc m _ | PhMast m _ =>
              let s1 := set_mp (log_ev s (EPrep1 m ok)) (if ok then POk else PErr) in
              Some (if ok then write s1 (WPrep m) else s1)
          | _ => None
          end
      | _ => None
      end
  (* mod.rs:227-230 *)
  | LTakeM =>
      match s_ph s with
      | PhMast m MTake =>
          match s_mp s with
          | POk => Some (set_ph (log_ev s (EHand0 m m)) (PhMast m MHand))
          | PErr => Some (set_ph s PhFail)
          | PRun => None
          end
      | _ => None
      end
  | LHandM ok =>
      match s_ph s with
      | PhMast m MHand =>
          if ok then Some (set_ph (write (log_ev s (EHand1 m m)) (WHand m)) (PhMast m MGc))
          else Some (set_ph s PhFail)
      | _ => None
      end
  (* mod.rs:233-238 *)
  | LGcM =>
      match s_ph s with
      | PhMast m MGc => Some (set_ph (log_ev s (EGc m)) (PhMast m MJoin))
      | _ => None
      end
  (* mod.rs:241 *)
  | LJoinM ok =>
      match s_ph s with
      | PhMast m MJoin => Some (set_ph s (if ok then PhMast m MComm else PhFail))
      | _ => None
      end
  (* mod.rs:244-248, state.rs:83-88 *)
  | LCommitM =>
      match s_ph s with
      | PhMast m MComm => Some (set_ph (write (log_ev s (EComM m)) (WMaster m)) (PhClean m))
      | _ => None
      end
  (* mod.rs:168-171 *)
  | LClean ok =>
      match s_ph s with
      | PhClean m =>
          if ok then Some (set_ph (log_ev s (EClean (b_seq m))) (PhWait m))
          else Some (set_ph (log_ev s (EClean (b_seq m))) PhFail)
      | _ => None
      end
  (* the process dies anywhere (also after `run` returned), the [n] oldest
     writes survive; `run` is started again: mod.rs:150-151 *)
  | LCrash n =>
      let w := skipn (length (s_wal s) - n)%nat (s_wal s) in
      let k := last_mc c w in
      Some (MkSst w (PhWait k) (FRun k) PRun (ECrash n :: s_tr s))
  end.

Inductive reach (c : scfg) : sst -> Prop :=
| reach0 : reach c (sst0 c)
| reachS : forall s l s', reach c s -> sstep c s l = Some s' -> reach c s'.
