(** Model of the validator session: collator/src/validator/impls/std_impl/session.rs
    (ValidatorSession::new L60-151, cancel/cancel_until L161-189, validate_block L195-352,
    prepare_new_signatures L354-392, reuse_signatures L394-470, create_cache_slots L472-486,
    Inner::receive_signature L538-643, SessionState::add_signature L677-758, BlockSignaturesBuilder::build
    L773-793, exchange_signatures L843-905), as an interleaving machine: any number of calls of
    validate_block, exchange_signatures (RPCs of peers), cancel and cancel_until run concurrently, together
    with the signature-fetching tasks validate_block spawns; each label executes one shared-memory access of
    one thread.

    Simplifications: sequentially consistent memory; a signature is a number, ed25519 is a pair of abstract
    functions (sign, verify) over the signed data (root hash, file hash); the answers of remote peers are
    arbitrary signatures; time-outs, back-off, semaphores, metrics, tracing and slasher events are dropped;
    TreeIndex operations are atomic per key and range operations visit keys one by one in ascending order;
    a task whose handle was dropped is a thread that is never scheduled again. *)
From Coq Require Import NArith Lia List Bool.
From Verif Require Import AMap.
Import ListNotations.
Open Scope N_scope.

Definition u64_mod : N := 2 ^ 64.
(** u64 addition of a release build *)
Definition vadd (a b : N) : N := (a + b) mod u64_mod.
(** u64::saturating_mul *)
Definition vsmul (a b : N) : N := N.min (a * b) (u64_mod - 1).
Definition u32_top : N := 2 ^ 32 - 1.

(** BlockId (the shard is the session's) *)
Record vblock := VB { vb_seqno : N; vb_root : N; vb_file : N }.
(** Block::build_data_for_sign: a constant tag followed by both hashes *)
Definition vdata (b : vblock) : N * N := (vb_root b, vb_file b).

(** What ValidatorSession::new fixes (L60-136): the other validators and their weights, the own peer and
    weight, the threshold, the two config numbers, and the signature scheme. PeerId = public key
    (collator/src/validator/mod.rs L105-118). *)
Record vcfg := VC {
  vc_vals : amap N N;     (* others: peer -> weight *)
  vc_own : N; vc_ownw : N;
  vc_thr : N;
  vc_slots : N;                   (* signature_cache_slots *)
  vc_keep : N;                    (* old_blocks_to_keep *)
  vc_verify : N -> N * N -> N -> bool;
  vc_sign : N * N -> N
}.

(** L67-82: the map of validators, the sum of the weights, the threshold, own entry removed *)
Definition vmap_of (vals : list (N * N)) : amap N N :=
  fold_left (fun m e => aset N.eqb (fst e) (snd e) m) vals [].
Definition vsum (m : list (N * N)) : N := fold_left (fun a e => vadd a (snd e)) m 0.
Definition vthreshold (mx : N) : N := vsmul mx 2 / 3 + 1.
Definition vnew (vals : list (N * N)) (own slots keep : N) (ver : N -> N * N -> N -> bool) (sgn : N * N -> N) : option vcfg :=
  let m := vmap_of vals in
  match aget N.eqb own m with
  | None => None
  | Some w => Some (VC (adel N.eqb own m) own w (vthreshold (vsum m)) slots keep ver sgn)
  end.

(** SignatureSlotsMap / CachedSignatures: peer -> Option<signature> *)
Definition vslots := amap N (option N).
Definition vempty (c : vcfg) : vslots := map (fun e => (fst e, None)) (vc_vals c).

(** BlockSignatures L795-803 *)
Record vobj := VO {
  vo_blk : vblock;
  vo_own : N;
  vo_slots : vslots;
  vo_weight : N;
  vo_validated : bool;
  vo_cancelled : bool
}.

(** results of the calls *)
Inductive vstatus := VSkipped | VComplete (sigs : amap N N) (total : N)
                   | VErrInProgress | VErrNoMore.
Inductive verr := ECancelled | ENoSlot | EUnknownPeer | EInvalid | EChanged.
Inductive xres := XComplete (sig : N) | XCached | XErr (e : verr).

(** continuation of add_signature: exchange RPC for a seqno, or a fetching task *)
Inductive akont := KX (q : N) | KT.

(** program counters *)
Inductive vth :=
(* validate_block *)
| VBegin (b : vblock) | VMin (b : vblock) | VSlotLoad (b : vblock) | VSlots (b : vblock) (i to : N)
| VPeek (b : vblock)
| VBuild (b : vblock) (cid : N) (todo : list N) (slots : vslots) (w : N)
| VInsert (b : vblock) (cid : option N) (slots : vslots) (w : N)
| VCheck1 (b : vblock) (o : N) (cid : option N) | VCheck2 (b : vblock) (o : N) (cid : option N)
| VFail1 (b : vblock) (o : N) | VFail2 (b : vblock)
| VUncache (b : vblock) (o : N) (cid : option N)
| VScan (b : vblock) (o : N) (cid : option N) (todo : list N) (res : amap N N) (total : N) (pend : list (N * N))
| VSpawn (b : vblock) (o : N) (cid : option N) (p : N) (todo : list N) (res : amap N N) (total : N) (pend : list (N * N))
| VWait (b : vblock) (o : N) (res : amap N N) (total : N) (pend : list (N * N))
| VRet (b : vblock) (r : vstatus)
(* receive_signature *)
| TStart (o p : N) (cached : option N) | TWait (o p : N) | TReload (o p : N) | TRet (o p s : N)
(* add_signature *)
| ALoad (k : akont) (o p s : N) | ACas (k : akont) (o p s : N) | AAdd (k : akont) (o p s : N)
| AFlag (k : akont) (o p s : N) (can : bool)
(* exchange_signatures *)
| XBegin (p q s : N) | XBlock (p q s : N) | XFlag (p q s o : N) | XPeekC (p q s : N) | XStore (p q s c : N)
| XRet (p q : N) (r : xres)
(* cancel, cancel_until *)
| CBegin | CToken | CRet
| UBegin (q : N) | UMin (q : N) | UCache (q k : N) | UScan (q k : N) | URem (q k : N) | URet (q : N)
(* a failed expect("peer info out of sync") *)
| Panicked.

Record vst := VS {
  vs_blocks : amap N N;     (* block_signatures: seqno -> object *)
  vs_caches : amap N N;     (* cached_signatures: seqno -> cache object *)
  vs_objs : amap N vobj;
  vs_cobjs : amap N vslots;
  vs_token : bool;                  (* the session's cancellation token *)
  vs_until : N;
  vs_min : N;
  vs_ths : amap N vth;
  vs_fresh : N                      (* allocator of object, cache and thread ids *)
}.

Inductive vlabel :=
| LValidate (b : vblock) | LExchange (p q s : N) | LCancel | LUntil (q : N)
| LRun (t : N)                      (* next access of thread t *)
| LNet (t s : N)                    (* fetching task t receives the signature s from its peer *)
| LTake (t u : N)                   (* validate_block thread t takes the result of its finished task u *)
| LSkip (t : N).                    (* validate_block thread t sees its token cancelled *)

Definition set_th (t : N) (x : vth) (s : vst) : vst :=
  VS (vs_blocks s) (vs_caches s) (vs_objs s) (vs_cobjs s) (vs_token s) (vs_until s) (vs_min s)
     (aset N.eqb t x (vs_ths s)) (vs_fresh s).
Definition set_obj (o : N) (x : vobj) (s : vst) : vst :=
  VS (vs_blocks s) (vs_caches s) (aset N.eqb o x (vs_objs s)) (vs_cobjs s) (vs_token s) (vs_until s) (vs_min s)
     (vs_ths s) (vs_fresh s).
Definition set_blocks (m : amap N N) (s : vst) : vst :=
  VS m (vs_caches s) (vs_objs s) (vs_cobjs s) (vs_token s) (vs_until s) (vs_min s) (vs_ths s) (vs_fresh s).
Definition set_caches (m : amap N N) (s : vst) : vst :=
  VS (vs_blocks s) m (vs_objs s) (vs_cobjs s) (vs_token s) (vs_until s) (vs_min s) (vs_ths s) (vs_fresh s).
Definition set_cobj (c : N) (x : vslots) (s : vst) : vst :=
  VS (vs_blocks s) (vs_caches s) (vs_objs s) (aset N.eqb c x (vs_cobjs s)) (vs_token s) (vs_until s) (vs_min s)
     (vs_ths s) (vs_fresh s).
Definition set_until (q : N) (s : vst) : vst :=
  VS (vs_blocks s) (vs_caches s) (vs_objs s) (vs_cobjs s) (vs_token s) q (vs_min s) (vs_ths s) (vs_fresh s).
Definition set_min (q : N) (s : vst) : vst :=
  VS (vs_blocks s) (vs_caches s) (vs_objs s) (vs_cobjs s) (vs_token s) (vs_until s) q (vs_ths s) (vs_fresh s).
Definition set_token (s : vst) : vst :=
  VS (vs_blocks s) (vs_caches s) (vs_objs s) (vs_cobjs s) true (vs_until s) (vs_min s) (vs_ths s) (vs_fresh s).
Definition bump (s : vst) : vst :=
  VS (vs_blocks s) (vs_caches s) (vs_objs s) (vs_cobjs s) (vs_token s) (vs_until s) (vs_min s) (vs_ths s) (vs_fresh s + 1).
(** start a thread *)
Definition spawn (x : vth) (s : vst) : vst := bump (set_th (vs_fresh s) x s).

(** the object with one slot filled / weight / flags changed *)
Definition obj_slot (p s : N) (x : vobj) : vobj :=
  VO (vo_blk x) (vo_own x) (aset N.eqb p (Some s) (vo_slots x)) (vo_weight x) (vo_validated x) (vo_cancelled x).
Definition obj_weight (w : N) (x : vobj) : vobj :=
  VO (vo_blk x) (vo_own x) (vo_slots x) w (vo_validated x) (vo_cancelled x).
Definition obj_validated (x : vobj) : vobj :=
  VO (vo_blk x) (vo_own x) (vo_slots x) (vo_weight x) true (vo_cancelled x).
Definition obj_cancel (x : vobj) : vobj :=
  VO (vo_blk x) (vo_own x) (vo_slots x) (vo_weight x) (vo_validated x) true.

(** the smallest key of a tree in [lo, hi] *)
Definition nextk (lo hi : N) (m : list (N * N)) : option N :=
  fold_right (fun e a => if (lo <=? fst e) && (fst e <=? hi)
                         then match a with Some k => Some (N.min k (fst e)) | None => Some (fst e) end else a) None m.

(** content of a slot: None = no such peer *)
Definition slot_of (p : N) (m : vslots) : option (option N) := aget N.eqb p m.

(** add_signature L677-758, one access per step; [w] is the peer's weight *)
Definition add_done (k : akont) (o p sg : N) (x : vobj) : vth :=
  match k with KX q => XRet p q (XComplete (vo_own x)) | KT => TRet o p sg end.
Definition add_changed (k : akont) (o p : N) : vth :=
  match k with KX q => XRet p q (XErr EChanged) | KT => TReload o p end.
Definition add_invalid (k : akont) (o p : N) : vth :=
  match k with KX q => XRet p q (XErr EInvalid) | KT => TWait o p end.

Definition run_add (c : vcfg) (t : N) (th : vth) (s : vst) : option vst :=
  match th with
  | ALoad k o p sg =>
      match aget N.eqb o (vs_objs s) with
      | None => None
      | Some x =>
          match slot_of p (vo_slots x) with
          | None => None
          | Some (Some saved) => Some (set_th t (if saved =? sg then add_done k o p sg x else add_changed k o p) s)
          | Some None =>
              match aget N.eqb p (vc_vals c) with
              | None => Some (set_th t Panicked s)
              | Some _ =>
                  Some (set_th t (if vc_verify c p (vdata (vo_blk x)) sg then ACas k o p sg else add_invalid k o p) s)
              end
          end
      end
  | ACas k o p sg =>
      match aget N.eqb o (vs_objs s) with
      | None => None
      | Some x =>
          match slot_of p (vo_slots x) with
          | None => None
          | Some None => Some (set_th t (AAdd k o p sg) (set_obj o (obj_slot p sg x) s))
          | Some (Some saved) => Some (set_th t (if saved =? sg then AFlag k o p sg false else add_changed k o p) s)
          end
      end
  | AAdd k o p sg =>
      match aget N.eqb o (vs_objs s), aget N.eqb p (vc_vals c) with
      | Some x, Some w =>
          let total := vadd (vo_weight x) w in
          Some (set_th t (AFlag k o p sg (vc_thr c <=? total)) (set_obj o (obj_weight total x) s))
      | _, _ => None
      end
  | AFlag k o p sg can =>
      match aget N.eqb o (vs_objs s) with
      | None => None
      | Some x => Some (set_th t (add_done k o p sg x) (if can then set_obj o (obj_validated x) s else s))
      end
  | _ => None
  end.

(** receive_signature L538-643 *)
Definition run_task (t : N) (th : vth) (s : vst) : option vst :=
  match th with
  | TStart o p (Some sg) => Some (set_th t (ALoad KT o p sg) s)
  | TStart o p None => Some (set_th t (TWait o p) s)
  | TWait o p =>                                     (* SignatureFuture: the slot was filled by an RPC *)
      match aget N.eqb o (vs_objs s) with
      | None => None
      | Some x => match slot_of p (vo_slots x) with
                  | Some (Some sg) => Some (set_th t (ALoad KT o p sg) s)
                  | _ => None
                  end
      end
  | TReload o p =>                                   (* SignatureChanged: slot.load_full() *)
      match aget N.eqb o (vs_objs s) with
      | None => None
      | Some x => match slot_of p (vo_slots x) with
                  | Some (Some sg) => Some (set_th t (TRet o p sg) s)
                  | Some None => Some (set_th t (TWait o p) s)
                  | None => None
                  end
      end
  | _ => None
  end.

(** exchange_signatures L843-905 *)
Definition run_exch (t : N) (th : vth) (s : vst) : option vst :=
  match th with
  | XBegin p q sg => Some (set_th t (if vs_token s then XRet p q (XErr ECancelled) else XBlock p q sg) s)
  | XBlock p q sg =>
      match aget N.eqb q (vs_blocks s) with
      | None => Some (set_th t (XPeekC p q sg) s)
      | Some o =>
          match aget N.eqb o (vs_objs s) with
          | None => None
          | Some x => match slot_of p (vo_slots x) with
                      | None => Some (set_th t (XRet p q (XErr EUnknownPeer)) s)
                      | Some _ => Some (set_th t (XFlag p q sg o) s)
                      end
          end
      end
  | XFlag p q sg o =>
      match aget N.eqb o (vs_objs s) with
      | None => None
      | Some x => Some (set_th t (if vo_validated x then XRet p q (XComplete (vo_own x)) else ALoad (KX q) o p sg) s)
      end
  | XPeekC p q sg =>
      match aget N.eqb q (vs_caches s) with
      | None => Some (set_th t (XRet p q (XErr ENoSlot)) s)
      | Some ci =>
          match aget N.eqb ci (vs_cobjs s) with
          | None => None
          | Some m => match slot_of p m with
                      | None => Some (set_th t (XRet p q (XErr EUnknownPeer)) s)
                      | Some _ => Some (set_th t (XStore p q sg ci) s)
                      end
          end
      end
  | XStore p q sg ci =>
      match aget N.eqb ci (vs_cobjs s) with
      | None => None
      | Some m => Some (set_th t (XRet p q XCached) (set_cobj ci (aset N.eqb p (Some sg) m) s))
      end
  | _ => None
  end.

(** cancel L161-167, cancel_until L169-189 *)
Definition run_cancel (c : vcfg) (t : N) (th : vth) (s : vst) : option vst :=
  match th with
  | CBegin => Some (set_th t CToken (set_until u32_top s))
  | CToken => Some (set_th t CRet (set_token s))
  | UBegin q => Some (set_th t (UMin q) (set_until (N.max (vs_until s) q) s))
  | UMin q => Some (set_th t (UCache q 0) (set_min (N.max (vs_min s) q) s))
  | UCache q k =>
      match nextk k q (vs_caches s) with
      | Some k' => Some (set_th t (UCache q (k' + 1)) (set_caches (adel N.eqb k' (vs_caches s)) s))
      | None => Some (set_th t (UScan q 0) s)
      end
  | UScan q k =>
      match nextk k q (vs_blocks s) with
      | Some k' =>
          match aget N.eqb k' (vs_blocks s) with
          | None => None
          | Some o => match aget N.eqb o (vs_objs s) with
                      | None => None
                      | Some x => Some (set_th t (UScan q (k' + 1)) (set_obj o (obj_cancel x) s))
                      end
          end
      | None => Some (set_th t (URem q 0) s)
      end
  | URem q k =>
      match nextk k (q - vc_keep c) (vs_blocks s) with
      | Some k' => Some (set_th t (URem q (k' + 1)) (set_blocks (adel N.eqb k' (vs_blocks s)) s))
      | None => Some (set_th t (URet q) s)
      end
  | _ => None
  end.

(** validate_block L195-352 *)
Definition run_validate (c : vcfg) (t : N) (th : vth) (s : vst) : option vst :=
  match th with
  | VBegin b => Some (set_th t (if vb_seqno b <=? vs_until s then VRet b VSkipped else VMin b) s)
  | VMin b => Some (set_th t (VSlotLoad b) (set_min (N.max (vs_min s) (vb_seqno b)) s))
  (* create_cache_slots(seqno + 1, n) L472-486 *)
  | VSlotLoad b => Some (set_th t (VSlots b (N.max (vs_min s) (vb_seqno b + 1)) (vb_seqno b + 1 + vc_slots c)) s)
  | VSlots b i to =>
      if i <? to then
        match aget N.eqb i (vs_caches s) with
        | Some _ => Some (set_th t (VSlots b (i + 1) to) s)
        | None =>
            Some (set_th t (VSlots b (i + 1) to)
                    (bump (set_caches (aset N.eqb i (vs_fresh s) (vs_caches s)) (set_cobj (vs_fresh s) (vempty c) s))))
        end
      else Some (set_th t (VPeek b) s)
  | VPeek b =>
      match aget N.eqb (vb_seqno b) (vs_caches s) with
      | None => Some (set_th t (VInsert b None (vempty c) (vc_ownw c)) s)        (* prepare_new_signatures *)
      | Some ci => match aget N.eqb ci (vs_cobjs s) with
                   | None => None
                   | Some m => Some (set_th t (VBuild b ci (akeys m) [] (vc_ownw c)) s)
                   end
      end
  (* reuse_signatures: one cached slot per step *)
  | VBuild b ci (p :: todo) slots w =>
      match aget N.eqb ci (vs_cobjs s) with
      | None => None
      | Some m =>
          match slot_of p m with
          | None => None
          | Some None => Some (set_th t (VBuild b ci todo (aset N.eqb p None slots) w) s)
          | Some (Some sg) =>
              match aget N.eqb p (vc_vals c) with
              | None => Some (set_th t Panicked s)
              | Some wt =>
                  if vc_verify c p (vdata b) sg
                  then Some (set_th t (VBuild b ci todo (aset N.eqb p (Some sg) slots) (vadd w wt)) s)
                  else Some (set_th t (VBuild b ci todo (aset N.eqb p None slots) w) s)
              end
          end
      end
  | VBuild b ci [] slots w => Some (set_th t (VInsert b (Some ci) slots w) s)
  (* build L773-793 and TreeIndex::insert *)
  | VInsert b ci slots w =>
      match aget N.eqb (vb_seqno b) (vs_blocks s) with
      | Some _ => Some (set_th t (VRet b VErrInProgress) s)
      | None =>
          let o := vs_fresh s in
          let x := VO b (vc_sign c (vdata b)) slots w (vc_thr c <=? w) false in
          Some (set_th t (VCheck1 b o ci) (bump (set_blocks (aset N.eqb (vb_seqno b) o (vs_blocks s)) (set_obj o x s))))
      end
  | VCheck1 b o ci => Some (set_th t (if vb_seqno b <=? vs_until s then VFail1 b o else VCheck2 b o ci) s)
  | VCheck2 b o ci =>
      match aget N.eqb o (vs_objs s) with
      | None => None
      | Some x => Some (set_th t (if vo_cancelled x || vs_token s then VFail1 b o else VUncache b o ci) s)
      end
  | VFail1 b o =>
      match aget N.eqb o (vs_objs s) with
      | None => None
      | Some x => Some (set_th t (VFail2 b) (set_obj o (obj_cancel x) s))
      end
  | VFail2 b => Some (set_th t (VRet b VSkipped) (set_blocks (adel N.eqb (vb_seqno b) (vs_blocks s)) s))
  | VUncache b o ci =>
      match aget N.eqb o (vs_objs s) with
      | None => None
      | Some x =>
          Some (set_th t (VScan b o ci (akeys (vo_slots x)) [(vc_own c, vo_own x)] (vc_ownw c) [])
                  (set_caches (adel N.eqb (vb_seqno b) (vs_caches s)) s))
      end
  (* the loop over other_signatures L288-314 *)
  | VScan b o ci (p :: todo) res total pend =>
      match aget N.eqb o (vs_objs s) with
      | None => None
      | Some x =>
          match slot_of p (vo_slots x) with
          | None => None
          | Some (Some sg) =>
              match aget N.eqb p (vc_vals c) with
              | None => Some (set_th t Panicked s)
              | Some w => Some (set_th t (VScan b o ci todo (aset N.eqb p sg res) (vadd total w) pend) s)
              end
          | Some None => Some (set_th t (VSpawn b o ci p todo res total pend) s)
          end
      end
  | VScan b o ci [] res total pend => Some (set_th t (VWait b o res total pend) s)
  (* the cached signature is read once more and the fetching task started *)
  | VSpawn b o ci p todo res total pend =>
      let cached := match ci with
                    | None => None
                    | Some ci => match aget N.eqb ci (vs_cobjs s) with
                                 | None => None
                                 | Some m => match slot_of p m with Some (Some sg) => Some sg | _ => None end
                                 end
                    end in
      Some (set_th t (VScan b o ci todo res total ((vs_fresh s, p) :: pend)) (spawn (TStart o p cached) s))
  (* the loop L319-344 exits *)
  | VWait b o res total pend =>
      if total <? vc_thr c
      then match pend with [] => Some (set_th t (VRet b VErrNoMore) s) | _ => None end
      else Some (set_th t (VRet b (VComplete res total)) s)
  | _ => None
  end.

Definition run_th (c : vcfg) (t : N) (th : vth) (s : vst) : option vst :=
  match th with
  | ALoad _ _ _ _ | ACas _ _ _ _ | AAdd _ _ _ _ | AFlag _ _ _ _ _ => run_add c t th s
  | TStart _ _ _ | TWait _ _ | TReload _ _ => run_task t th s
  | XBegin _ _ _ | XBlock _ _ _ | XFlag _ _ _ _ | XPeekC _ _ _ | XStore _ _ _ _ => run_exch t th s
  | CBegin | CToken | UBegin _ | UMin _ | UCache _ _ | UScan _ _ | URem _ _ => run_cancel c t th s
  | _ => run_validate c t th s
  end.

Definition vstep (c : vcfg) (s : vst) (l : vlabel) : option vst :=
  match l with
  | LValidate b => if vb_seqno b <=? u32_top then Some (spawn (VBegin b) s) else None      (* seqno: u32 *)
  | LExchange p q sg => Some (spawn (XBegin p q sg) s)
  | LCancel => Some (spawn CBegin s)
  | LUntil q => if q <=? u32_top then Some (spawn (UBegin q) s) else None                  (* block_seqno: u32 *)
  | LRun t => match aget N.eqb t (vs_ths s) with Some th => run_th c t th s | None => None end
  | LNet t sg =>
      match aget N.eqb t (vs_ths s) with
      | Some (TWait o p) => Some (set_th t (ALoad KT o p sg) s)
      | _ => None
      end
  | LTake t u =>                                      (* futures.next() L320-343 *)
      match aget N.eqb t (vs_ths s), aget N.eqb u (vs_ths s) with
      | Some (VWait b o res total pend), Some (TRet _ p sg) =>
          if (total <? vc_thr c) && existsb (fun e => fst e =? u) pend then
            match aget N.eqb p (vc_vals c) with
            | None => Some (set_th t Panicked s)
            | Some w =>
                Some (set_th t (VWait b o (aset N.eqb p sg res) (vadd total w)
                                      (filter (fun e => negb (fst e =? u)) pend)) s)
            end
          else None
      | _, _ => None
      end
  | LSkip t =>                                        (* block_cancelled branch L326-333 *)
      match aget N.eqb t (vs_ths s) with
      | Some (VWait b o res total pend) =>
          match aget N.eqb o (vs_objs s) with
          | Some x => if (total <? vc_thr c) && (vo_cancelled x || vs_token s)
                      then Some (set_th t (VRet b VSkipped) s) else None
          | None => None
          end
      | _ => None
      end
  end.

Fixpoint vrun (c : vcfg) (s : vst) (l : list vlabel) : option vst :=
  match l with
  | [] => Some s
  | a :: r => match vstep c s a with Some s' => vrun c s' r | None => None end
  end.

(** after ValidatorSession::new(start): cache slots for start .. start + n (L147-148) *)
Fixpoint vinit_slots (c : vcfg) (q : N) (n : nat) (s : vst) : vst :=
  match n with
  | O => s
  | S n' => vinit_slots c (q + 1) n'
              (bump (set_caches (aset N.eqb q (vs_fresh s) (vs_caches s)) (set_cobj (vs_fresh s) (vempty c) s)))
  end.
Definition vinit (c : vcfg) (start : N) : vst :=
  vinit_slots c start (N.to_nat (vc_slots c)) (VS [] [] [] [] false 0 start [] 0).
