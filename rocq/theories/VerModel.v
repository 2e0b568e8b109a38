(** Model of the mempool point verifier: consensus/src/dag/verifier.rs, with the point structure it checks
    (consensus/src/models/point/data.rs, info.rs, link.rs), the leader schedule (consensus/src/dag/proof_leader.rs) and
    the verdicts a point gets (consensus/src/models/dag_point.rs, consensus/src/dag/dag_point_future.rs).
    Peers, digests, rounds and times are numbers; a hash map is an association list. An [expect]/[assert!]/[panic!]
    gives [None]. *)
From Coq Require Export List NArith Lia Bool Permutation.
Export ListNotations.
From Verif Require Export AMap.
From Verif Require Import PeerCountModel.
Local Open Scope N_scope.

Notation peer := N (only parsing).
Notation digest := N (only parsing).
Notation round := N (only parsing).

(** models/point/info.rs:54-60 *)
Record pid := mkPid { p_round : round; p_digest : digest; p_author : peer }.
Definition pid_eqb (a b : pid) : bool :=
  (p_round a =? p_round b) && (p_digest a =? p_digest b) && (p_author a =? p_author b).
(** models/point/link.rs:48-55 *)
Inductive through := ThInc (p : peer) | ThWit (p : peer).
(** link.rs:37-42 *)
Record ilink := mkIL { il_to : pid; il_path : through }.
(** link.rs:25-31 AnchorLink *)
Inductive alink := LDirect (t : through) | LIndirect (l : ilink).
(** link.rs:11-15 AnyLink *)
Inductive anylink := ToSelf | Direct (t : through) | Indirect (l : ilink).
(** link.rs:18-22 ChainedProofLink *)
Inductive chlink := Inapplicable | PrevPoint (chained : N) | ChIndirect (l : ilink).
(** models/point/data.rs:48-78 PointRole *)
Inductive prole :=
| Regular (anchor_proof anchor_trigger : alink)
| AnchorProof (anchor_proof : ilink) (anchor_trigger : alink)
| AnchorTrigger
| Sticky (seq_no : N)
| Genesis.
(** data.rs:148-152 *)
Inductive srole := STrigger | SProof.
(** data.rs:15-40, info.rs:32-38. Signatures are not modelled: they are checked by [check_evidence] before or apart
    from the verifier (info.rs:149-154), see DESIGN *)
Record info := mkInfo {
  i_id : pid; i_includes : list (peer * digest); i_witness : list (peer * digest); i_evidence : list (peer * N);
  i_role : prole; i_time : N; i_atime : N; i_plen : N; i_pbytes : N }.
(** engine/mempool_config.rs and ConsensusConfig: the values used here *)
Record vconf := mkConf {
  c_genesis : round; c_skew : N; c_history : N; c_sticky : N; c_payload : N }.

(** models/point/parts.rs:174-180 Round::prev: panics at zero *)
Definition rprev (r : round) : option round := if r =? 0 then None else Some (r - 1).
(** parts.rs:219-227: additions saturate *)
Definition u32_max : N := 2 ^ 32 - 1.
Definition u64_max : N := 2 ^ 64 - 1.
Definition radd (r n : N) : N := N.min (r + n) u32_max.
Definition tadd (r n : N) : N := N.min (r + n) u64_max.

Definition i_round (i : info) : round := p_round (i_id i).
Definition i_author (i : info) : peer := p_author (i_id i).
Definition i_digest (i : info) : digest := p_digest (i_id i).
Definition isnil {A} (l : list A) : bool := match l with [] => true | _ => false end.
Definition isSome {A} (o : option A) : bool := match o with Some _ => true | None => false end.

(** data.rs:83-97 *)
Definition anchor_proof (i : info) : anylink :=
  match i_role i with
  | Regular (LDirect t) _ => Direct t
  | Regular (LIndirect l) _ => Indirect l
  | AnchorProof _ _ | Sticky _ | Genesis => ToSelf
  | AnchorTrigger => Direct (ThInc (i_author i))
  end.
(** data.rs:99-109 *)
Definition anchor_trigger (i : info) : anylink :=
  match i_role i with
  | Regular _ (LDirect t) | AnchorProof _ (LDirect t) => Direct t
  | Regular _ (LIndirect l) | AnchorProof _ (LIndirect l) => Indirect l
  | AnchorTrigger | Sticky _ | Genesis => ToSelf
  end.
(** data.rs:111-119 *)
Definition chained_proof (i : info) : chlink :=
  match i_role i with
  | Regular _ _ | AnchorTrigger | Genesis => Inapplicable
  | AnchorProof l _ => ChIndirect l
  | Sticky n => PrevPoint n
  end.
(** data.rs:121-126 *)
Definition requires_prev (i : info) : bool :=
  match i_role i with Regular _ _ | Genesis => false | _ => true end.
(** info.rs:137-139 *)
Definition prev_digest (i : info) : option digest := aget N.eqb (i_author i) (i_includes i).
(** data.rs:279-284 *)
Definition anchor_link (r : srole) (i : info) : anylink :=
  match r with STrigger => anchor_trigger i | SProof => anchor_proof i end.
Definition is_self (l : anylink) : bool := match l with ToSelf => true | _ => false end.
(** data.rs:288-303 (rounds of the links; the caller has round > genesis > 0, so [prev] does not panic on well-formed
    points: a saturating subtraction here, see [verified_links_below] for why it is never reached) *)
Definition anchor_round (r : srole) (i : info) : round :=
  match anchor_link r i with
  | ToSelf => i_round i
  | Direct (ThInc _) => i_round i - 1
  | Direct (ThWit _) => i_round i - 2
  | Indirect l => p_round (il_to l)
  end.
(** data.rs:353-363 through_id *)
Definition through_id (i : info) (t : through) : option pid :=
  match t with
  | ThInc p => match aget N.eqb p (i_includes i) with Some d => Some (mkPid (i_round i - 1) d p) | None => None end
  | ThWit p => match aget N.eqb p (i_witness i) with Some d => Some (mkPid (i_round i - 2) d p) | None => None end
  end.
(** data.rs:320-336, info.rs:253-258 anchor_link_through; [None] is the panic "usage of ill-formed point" *)
Definition anchor_through (r : srole) (i : info) : option pid :=
  match anchor_link r i with
  | ToSelf => Some (i_id i)
  | Direct t => through_id i t
  | Indirect l => through_id i (il_path l)
  end.
(** data.rs:307-316, info.rs:246-250 anchor_id *)
Definition anchor_id (r : srole) (i : info) : option pid :=
  match anchor_link r i with
  | Indirect l => Some (il_to l)
  | _ => anchor_through r i
  end.
(** info.rs:141-147 *)
Definition prev_id (i : info) : option pid :=
  match prev_digest i with Some d => Some (mkPid (i_round i - 1) d (i_author i)) | None => None end.
(** info.rs:187-192 indirect_anchor_proof *)
Definition indirect_proof (i : info) : option ilink :=
  match chained_proof i with ChIndirect l => Some l | _ => None end.
(** info.rs:194-199 *)
Definition sticky_anchors (i : info) : option N :=
  match chained_proof i with PrevPoint n => Some n | _ => None end.
(** info.rs:201-207 *)
Definition chained_round (i : info) : option round :=
  match chained_proof i with
  | Inapplicable => None
  | PrevPoint _ => Some (i_round i - 1)
  | ChIndirect l => Some (p_round (il_to l))
  end.
(** info.rs:219-235 chained_anchor_proof_to_through; the outer [None] is a panic *)
Definition chained_to_through (i : info) : option (option (pid * option pid)) :=
  match chained_proof i with
  | Inapplicable => Some None
  | PrevPoint _ => match prev_id i with Some p => Some (Some (p, None)) | None => None end
  | ChIndirect l => match through_id i (il_path l) with Some t => Some (Some (il_to l, Some t)) | None => None end
  end.
(** data.rs:340-351 inherited_anchor_proof_id, info.rs:238-241 trigger_bound_proof_id; the outer [None] is a panic *)
Definition trigger_bound (i : info) : option (option pid) :=
  match (match i_role i with
         | AnchorTrigger | Sticky _ | Genesis => Some None
         | Regular (LDirect t) _ => match through_id i t with Some p => Some (Some p) | None => None end
         | Regular (LIndirect l) _ => Some (Some (il_to l))
         | AnchorProof l _ => Some (Some (il_to l))
         end) with
  | None => None
  | Some None => Some None
  | Some (Some p) => Some (if p_round p <? anchor_round STrigger i then Some p else None)
  end.

(** data.rs:170-195 is_proof_link_ok *)
Definition far_enough (c : vconf) (r proof_round : round) : bool :=
  if c_sticky c =? 0 then 2 <? r - proof_round else 3 <? r - proof_round.
Definition proof_link_ok (c : vconf) (is_leader : bool) (i : info) : bool :=
  match i_role i with
  | Regular _ _ => negb (is_leader && isSome (prev_digest i) && far_enough c (i_round i) (anchor_round SProof i))
  | AnchorProof l _ => is_leader && far_enough c (i_round i) (p_round (il_to l))
  | AnchorTrigger | Sticky _ | Genesis => true
  end.

(** data.rs:128-146 *)
Inductive pmap := MEvidence | MIncludes | MWitness.
Inductive structure_issue :=
| ExpectedGenesis (b : bool) | AuthorInMap (m : pmap) | BadLink (r : srole) (m : pmap)
| TooCloseChained (r : round) | BadChained (m : pmap) | SelfStage (r : srole) | BadAnchorTime | NoPrevPoint.

(** data.rs:265-276 indirect_link_error *)
Definition indirect_error (i : info) (l : ilink) : option pmap :=
  match il_path l with
  | ThInc p => if negb (amem N.eqb p (i_includes i)) || (i_round i - 1 <=? p_round (il_to l)) then Some MIncludes else None
  | ThWit p => if negb (amem N.eqb p (i_witness i)) || (i_round i - 2 <=? p_round (il_to l)) then Some MWitness else None
  end.
(** data.rs:238-250: one of the two links *)
Definition link_error (i : info) (r : srole) : option structure_issue :=
  match (match anchor_link r i with
         | ToSelf => if isSome (prev_digest i) then None else Some MIncludes
         | Direct (ThInc p) => if amem N.eqb p (i_includes i) then None else Some MIncludes
         | Direct (ThWit p) => if amem N.eqb p (i_witness i) then None else Some MWitness
         | Indirect l => indirect_error i l
         end) with
  | Some m => Some (BadLink r m)
  | None => if isnil (i_evidence i) && is_self (anchor_link r i) then Some (SelfStage r) else None
  end.
(** data.rs:221-236: the chained proof *)
Definition chained_error (i : info) : option structure_issue :=
  match chained_proof i with
  | Inapplicable => None
  | PrevPoint _ => if isSome (prev_digest i) then None else Some (BadChained MIncludes)
  | ChIndirect l =>
    if i_round i - 2 <=? p_round (il_to l) then Some (TooCloseChained (p_round (il_to l)))
    else match indirect_error i l with Some m => Some (BadChained m) | None => None end
  end.
Definition orelse {A} (a b : option A) : option A := match a with Some _ => a | None => b end.
(** data.rs:199-263 check_non_genesis_structure; [None] is Ok *)
Definition structure_error (i : info) : option structure_issue :=
  let has_prev := amem N.eqb (i_author i) (i_includes i) in
  orelse (if requires_prev i && negb has_prev then Some NoPrevPoint else None)
  (orelse (if Bool.eqb (isnil (i_evidence i)) has_prev then Some (AuthorInMap MIncludes) else None)
  (orelse (if amem N.eqb (i_author i) (i_evidence i) then Some (AuthorInMap MEvidence) else None)
  (orelse (if amem N.eqb (i_author i) (i_witness i) then Some (AuthorInMap MWitness) else None)
  (orelse (chained_error i)
  (orelse (link_error i SProof)
  (orelse (link_error i STrigger)
          (if i_time i <=? i_atime i then Some BadAnchorTime else None))))))).
(** info.rs:160-175 check_structure *)
Definition check_structure (is_genesis : bool) (i : info) : option structure_issue :=
  if is_genesis then
    match i_role i with
    | Genesis => if i_time i =? i_atime i then None else Some BadAnchorTime
    | _ => Some (ExpectedGenesis true)
    end
  else match i_role i with Genesis => Some (ExpectedGenesis false) | _ => structure_error i end.

(** verifier.rs:57-91 IllFormedReason (payloads that only serve logging are left out) *)
Inductive ill_reason :=
| IAfterLoad (is_final : bool) | IEvidenceSig | IBeforeGenesis | ITooLarge | IStructure (s : structure_issue)
| ITooManySticky | IAcrossGenesis | IUnknownAuthor | IMustBeEmpty (m : pmap) | IUnknownPeers (m : pmap)
| IUnknownPeerInLink (r : srole) | IUnknownPeerInChained | ILackOfPeers (m : pmap) | IBadProofLink (is_leader : bool).
(** verifier.rs:94-135 InvalidReason *)
Inductive inv_reason :=
| RAfterLoad (has_dag_round : bool) | RNoRoundInDag (m : pmap) | RDependencyRoundDropped | RNotTrigger (p : pid)
| RTimeNotGreater (p : pid) | RProofAnchorTime (p : pid) | RAnchorTimeNotInherited (p : pid)
| RMustHaveReferencedPrev (p : pid) | RMustHaveSkippedRound (p : pid) | RTooFarInFuture (p : pid)
| RNewerAnchor (r : srole) (p : pid) | RAnchorLink (r : srole) (p : pid) | RAnchorLinkRole (r : srole) (p : pid)
| RAnchorLinkBadPath (r : srole) (p : pid) | RChainedRole (p : pid) | RChainedBadPath (p : pid)
| RBadSticky (p : pid) | RNewerProofToChain (p : pid) | RTriggerProofMismatch (p : pid) (direct : bool)
| RDepIllFormed (p : pid) | RDepNotFound (p : pid).
(** verifier.rs:149-157 *)
Definition has_dag_round (r : inv_reason) : bool :=
  match r with
  | RAfterLoad b => b
  | RNoRoundInDag _ | RDependencyRoundDropped => false
  | _ => true
  end.
(** verifier.rs:160-164 InvalidDependency *)
Record invdep := mkInv { v_link : ilink; v_reason : inv_reason }.

(** ** BasicVerifier (verifier.rs:738-1012) *)
Inductive vres := VOk | VFail | VIll (r : ill_reason) | VPanic.
Section Basic.
  Context (c : vconf) (peers : round -> list peer).
  Definition known (r : round) (p : peer) : bool := existsb (N.eqb p) (peers r).
  Definition plen (r : round) : N := N.of_nat (length (peers r)).
  (* 783-803: [genesis] says that the set must be of one peer *)
  Definition pcount (genesis : bool) (r : round) : pc_res :=
    if genesis then (if plen r =? full pc_genesis then PcOk pc_genesis else PcErr) else peer_count (plen r).
  (* 805-859: the counts for the point's round, the one before and the one before that *)
  Definition basic_counts (i : info) : vres + (N * option N * option N) :=
    let d := i_round i - (c_genesis c - 1) in
    if c_genesis c =? 0 then inl VPanic else
    let get g r (k : N -> vres + (N * option N * option N)) :=
      match pcount g r with PcOk f => k f | PcErr => inl VFail | PcPanic => inl VPanic end in
    match d with
    | 0 => inl (VIll IBeforeGenesis)
    | 1 => get true (i_round i) (fun a => inr (a, None, None))
    | 2 => get false (i_round i) (fun a => get true (i_round i - 1) (fun b => inr (a, Some b, None)))
    | _ =>
      (* the witness count is evaluated first, 847-852 *)
      get (d =? 3) (i_round i - 2) (fun w =>
      get false (i_round i) (fun a => get false (i_round i - 1) (fun b => inr (a, Some b, Some w))))
    end.
  (* 861-887: authors of indirect links are known *)
  Definition link_peers_error (i : info) : option ill_reason :=
    let unknown l := negb (known (p_round (il_to l)) (p_author (il_to l))) in
    orelse (match indirect_proof i with Some l => if unknown l then Some IUnknownPeerInChained else None | None => None end)
    (orelse (match anchor_proof i with Indirect l => if unknown l then Some (IUnknownPeerInLink SProof) else None | _ => None end)
            (match anchor_trigger i with Indirect l => if unknown l then Some (IUnknownPeerInLink STrigger) else None | _ => None end)).
  (* 889-925 check_well_formed *)
  Definition well_formed_error (i : info) : option ill_reason :=
    if i_round i =? c_genesis c then
      if 0 <? i_plen i then Some ITooLarge
      else match check_structure true i with Some e => Some (IStructure e) | None => None end
    else if c_payload c <? i_pbytes i then Some ITooLarge
    else match check_structure false i with
         | Some e => Some (IStructure e)
         | None =>
           if match sticky_anchors i with Some n => c_sticky c <=? n | None => false end then Some ITooManySticky
           else if (anchor_round SProof i <? c_genesis c) || (anchor_round STrigger i <? c_genesis c)
                   || match chained_round i with Some t => t <? c_genesis c | None => false end
           then Some IAcrossGenesis else None
         end.
  (* 928-1011 check_peers *)
  Definition all_known {V} (r : round) (m : list (peer * V)) : bool := forallb (fun e => known r (fst e)) m.
  Definition nlen {A} (l : list A) : N := N.of_nat (length l).
  Definition peers_error (i : info) (ca : N) (cb cw : option N) : option ill_reason :=
    if negb (known (i_round i) (i_author i)) then Some IUnknownAuthor else
    orelse (if isnil (i_evidence i) then None
            else if ca =? pc_genesis then Some (IMustBeEmpty MEvidence)
            else if negb (all_known (i_round i) (i_evidence i)) then Some (IUnknownPeers MEvidence)
            else if nlen (i_evidence i) <? majority_of_others ca then Some (ILackOfPeers MEvidence) else None)
    (orelse (match cb with
             | None => if isnil (i_includes i) then None else Some (IMustBeEmpty MIncludes)
             | Some b => if negb (all_known (i_round i - 1) (i_includes i)) then Some (IUnknownPeers MIncludes)
                         else if nlen (i_includes i) <? majority b then Some (ILackOfPeers MIncludes) else None
             end)
            (match cw with
             | None => if isnil (i_witness i) then None else Some (IMustBeEmpty MWitness)
             | Some _ => if negb (all_known (i_round i - 2) (i_witness i)) then Some (IUnknownPeers MWitness) else None
             end)).
  (* 752-761 verify *)
  Definition basic_verify (i : info) : vres :=
    match basic_counts i with
    | inl e => e
    | inr (ca, cb, cw) =>
      match link_peers_error i with
      | Some e => VIll e
      | None =>
        match well_formed_error i with
        | Some e => VIll e
        | None => match peers_error i ca cb cw with Some e => VIll e | None => VOk end
        end
      end
    end.
End Basic.

(** ** proof_leader.rs: [coin] is the seeded generator (51-52), any function into the range *)
Definition wave : N := 3.
Section Leader.
  Context (c : vconf) (ordered : round -> list peer) (peers : round -> list peer) (coin : round -> nat -> nat).
  (* 24-27 *)
  Definition candidate_round (r : round) : round := N.max (r / wave * wave) (c_genesis c).
  (* 45-66; an empty set panics *)
  Definition leader (r : round) : option peer :=
    match ordered (candidate_round r) with
    | [] => None
    | p0 :: _ =>
      let l := nth (coin (candidate_round r) (length (ordered (candidate_round r)))) (ordered (candidate_round r)) p0 in
      if existsb (N.eqb l) (peers r) && (r mod wave =? 1) then Some l else None
    end.
  (* verifier.rs:299-303 *)
  Definition is_leader (i : info) : bool :=
    match leader (i_round i) with Some l => l =? i_author i | None => false end.
End Leader.
(* proof_leader.rs:78-84 *)
Definition align_genesis (start : N) : round :=
  let q := (start + 1) / wave in (if q =? 0 then 1 else q) * wave + 1.

(** ** Verdicts and snapshots of points (models/dag_point.rs:22-41) *)
Inductive verdict :=
| VdValid (i : info)
| VdTrans (i : info) (root : invdep)
| VdInvalid (i : info) (r : inv_reason)
| VdIll (p : pid) (r : ill_reason)
| VdNotFound (p : pid).
(** what a reader of a dag point sees: the verdict, is it certified and is it the first valid one at its location *)
Record dagpoint := mkDp { d_v : verdict; d_cert : bool; d_first : bool }.
(** dag_point.rs:121-129 *)
Definition vd_id (v : verdict) : pid :=
  match v with
  | VdValid i | VdTrans i _ | VdInvalid i _ => i_id i
  | VdIll p _ | VdNotFound p => p
  end.
Definition d_id (d : dagpoint) : pid := vd_id (d_v d).

(** ** Verifier::validate *)
(* verifier.rs:639-697 dependency: the checked info or a reason to invalidate, and the new latest invalid dependency *)
Definition better_cause (old : option invdep) (root : pid) (r : inv_reason) : bool :=
  match old with
  | None => true
  | Some o =>
    (p_round (il_to (v_link o)) <? p_round root)
    || ((p_round (il_to (v_link o)) =? p_round root) && negb (has_dag_round (v_reason o)) && has_dag_round r)
  end.
Definition note_cause (old : option invdep) (d : dagpoint) (th : option through) (prev : round)
  (root : pid) (r : inv_reason) : option invdep :=
  if better_cause old root r then
    Some (mkInv (mkIL root (match th with
                            | Some t => t
                            | None => if p_round (d_id d) =? prev then ThInc (p_author (d_id d)) else ThWit (p_author (d_id d))
                            end)) r)
  else old.
Definition dependency (c : vconf) (old : option invdep) (d : dagpoint) (th : option through) (prev : round)
  : option invdep * (info + inv_reason) :=
  match d_v d with
  | VdValid i => (old, inl i)
  | VdInvalid i r => if d_cert d then (old, inl i) else (note_cause old d th prev (i_id i) r, inl i)
  | VdTrans i root =>
    if d_cert d then (old, inl i)
    else if radd (p_round (il_to (v_link root))) (c_history c) <=? prev then (old, inl i)
    else (note_cause old d th prev (il_to (v_link root)) (v_reason root), inl i)
  | VdIll p _ => (old, inr (RDepIllFormed p))
  | VdNotFound p => (old, inr (RDepNotFound p))
  end.

(* the last reason found replaces the ones before it *)
Definition upd (r o : option inv_reason) : option inv_reason := match o with Some _ => o | None => r end.
Definition why (b : bool) (r : inv_reason) : option inv_reason := if b then Some r else None.

(* verifier.rs:699-733 is_proof_ok (its asserts hold at the only call) *)
Definition proof_bad (i proven : info) : option inv_reason :=
  if is_self (anchor_proof proven) && negb (is_self (anchor_trigger i)) then Some (RNotTrigger (i_id proven))
  else if i_time i <=? i_time proven then Some (RTimeNotGreater (i_id proven))
  else if is_self (anchor_proof i) && negb (i_atime i =? i_time proven) then Some (RProofAnchorTime (i_id proven))
  else None.

(* what is computed once from the point, verifier.rs:385-404 *)
Record ctx := mkCtx {
  x_tid : pid; x_pid : pid; x_tth : pid; x_pth : pid; x_bound : option pid; x_chain : option (pid * option pid) }.
Definition mk_ctx (i : info) : option ctx :=
  match anchor_id STrigger i, anchor_id SProof i, anchor_through STrigger i, anchor_through SProof i,
        trigger_bound i, chained_to_through i with
  | Some a, Some b, Some t, Some p, Some bd, Some ch => Some (mkCtx a b t p bd ch)
  | _, _, _, _, _, _ => None
  end.
(* the final destinations of a dependency's links; a checked dependency is well-formed *)
Definition dest (r : srole) (i : info) : pid := match anchor_id r i with Some p => p | None => i_id i end.
Definition bound_mismatch (b : option pid) (dep : info) : bool :=
  match b with Some p => negb (pid_eqb p (dest SProof dep)) | None => false end.

(* verifier.rs:626-636 check_trigger_target *)
Definition trigger_bad (bound : option pid) (t : info) : option inv_reason :=
  if negb (is_self (anchor_trigger t)) then Some (RAnchorLink STrigger (i_id t))
  else why (bound_mismatch bound t) (RTriggerProofMismatch (i_id t) true).

(* verifier.rs:530-544: the number of sticky anchors continues the one of the dependency *)
Definition sticky_bad (c : vconf) (i dep : info) : bool :=
  match sticky_anchors i with
  | None => false
  | Some n =>
    negb ((n <? c_sticky c)
          && match sticky_anchors dep with
             | Some p => if p <? 255 then p + 1 =? n else false
             | None => n =? 0
             end)
  end.

(* verifier.rs:461-546: all the checks against one direct dependency, in the order of the code *)
Definition dep_checks (c : vconf) (i : info) (x : ctx) (is_prev : bool) (id : pid) (dep : info) : list (option inv_reason) :=
  [ if is_prev then proof_bad i dep else None;
    why (tadd (i_time i) (c_skew c) <? i_time dep) (RTooFarInFuture id);
    why (p_round (x_tid x) <? anchor_round STrigger dep) (RNewerAnchor STrigger id);
    why (p_round (x_pid x) <? anchor_round SProof dep) (RNewerAnchor SProof id);
    why (pid_eqb id (x_pid x) && negb (is_self (anchor_proof dep))) (RAnchorLink SProof id);
    if pid_eqb id (x_tid x) then trigger_bad (x_bound x) dep else None;
    if pid_eqb id (x_tth x) then
      if negb (pid_eqb (dest STrigger dep) (x_tid x)) then Some (RAnchorLinkBadPath STrigger id)
      else why (negb (pid_eqb (x_tth x) (x_tid x)) && bound_mismatch (x_bound x) dep) (RTriggerProofMismatch id false)
    else None;
    why (pid_eqb id (x_pth x) && negb (pid_eqb (dest SProof dep) (x_pid x))) (RAnchorLinkBadPath SProof id);
    why (pid_eqb id (x_pth x) && negb (i_atime dep =? i_atime i)) (RAnchorTimeNotInherited id);
    match x_chain x with
    | Some (to, _) => why (p_round to <? p_round (dest SProof dep)) (RNewerProofToChain id)
    | None => None
    end;
    match x_chain x with
    | Some (to, Some th) => why (pid_eqb id th && negb (pid_eqb (dest SProof dep) to)) (RChainedBadPath id)
    | Some (to, None) => why (pid_eqb id to && negb (is_self (anchor_proof dep))) (RChainedBadPath id)
    | None => None
    end;
    match x_chain x with
    | Some (to, None) => why (pid_eqb id to && sticky_bad c i dep) (RBadSticky id)
    | _ => None
    end ].

(* verifier.rs:424-449: another version of the author's previous point *)
Definition other_bad (i : info) (d : dagpoint) : option inv_reason :=
  match d_v d with
  | VdValid _ => why (negb (isSome (prev_digest i)) && d_first d) (RMustHaveReferencedPrev (d_id d))
  | VdTrans _ _ | VdInvalid _ _ | VdIll _ _ => Some (RMustHaveSkippedRound (d_id d))
  | VdNotFound _ => why (d_cert d) (RMustHaveReferencedPrev (d_id d))
  end.

(* verifier.rs:399-550 one turn of the loop; [None]: the assertion that the previous point is certified fails *)
Definition at_prev_loc (i : info) (id : pid) : bool :=
  (p_round id =? i_round i - 1) && (p_author id =? i_author i).
Definition check_one (c : vconf) (i : info) (x : ctx) (st : option inv_reason * option invdep) (d : dagpoint)
  : option (option inv_reason * option invdep) :=
  let id := d_id d in
  let go is_prev :=
    match dependency c (snd st) d None (i_round i - 1) with
    | (v, inr r) => (Some r, v)
    | (v, inl dep) => (fold_left upd (dep_checks c i x is_prev id dep) (fst st), v)
    end in
  if at_prev_loc i id then
    if match prev_digest i with Some pd => pd =? p_digest id | None => false end then
      if d_cert d then Some (go true) else None
    else Some (upd (fst st) (other_bad i d), snd st)
  else Some (go false).
(* a dropped round ends the loop, 400-405 *)
Fixpoint check_deps (c : vconf) (i : info) (x : ctx) (ds : list (option dagpoint)) (st : option inv_reason * option invdep)
  : option (option inv_reason * option invdep) :=
  match ds with
  | [] => Some st
  | None :: _ => Some (match fst st with Some _ => st | None => (Some RDependencyRoundDropped, snd st) end)
  | Some d :: r => match check_one c i x st d with Some st' => check_deps c i x r st' | None => None end
  end.

(* verifier.rs:590-622: checks against the target of an indirect link *)
Definition indirect_checks (c : vconf) (i : info) (x : ctx) (id : pid) (dep : info) : list (option inv_reason) :=
  [ why (tadd (i_time i) (c_skew c) <? i_time dep) (RTooFarInFuture id);
    match anchor_trigger i with
    | Indirect l => if pid_eqb id (il_to l) then trigger_bad (x_bound x) dep else None
    | _ => None
    end;
    match anchor_proof i with
    | Indirect l =>
      if pid_eqb id (il_to l) then
        if negb (is_self (anchor_proof dep)) then Some (RAnchorLinkRole SProof id)
        else why (negb (i_atime dep =? i_atime i)) (RAnchorTimeNotInherited id)
      else None
    | _ => None
    end;
    match indirect_proof i with
    | Some l => why (pid_eqb id (il_to l) && negb (is_self (anchor_proof dep))) (RChainedRole id)
    | None => None
    end ].
(* 570-625; a target whose round is gone is skipped, so it is not in the list *)
Fixpoint check_indirect (c : vconf) (i : info) (x : ctx) (ds : list (dagpoint * through)) (st : option inv_reason * option invdep)
  : option inv_reason * option invdep :=
  match ds with
  | [] => st
  | (d, th) :: r =>
    check_indirect c i x r
      (match dependency c (snd st) d (Some th) (i_round i - 1) with
       | (v, inr e) => (Some e, v)
       | (v, inl dep) => (fold_left upd (indirect_checks c i x (d_id d) dep) (fst st), v)
       end)
  end.

(* verifier.rs:46-52 *)
Inductive result := RsIll (r : ill_reason) | RsInvalid (r : inv_reason) | RsTrans (v : invdep) | RsValid.

(* verifier.rs:169-291 validate. [r0 r1 r2]: is the dag round of the point, the one before and the one before that in
   memory; [ds]: the results of the direct dependencies and of the other points at the author's previous location in
   the order they resolve ([None] is a dropped round), [is]: the targets of indirect links, in the order they resolve *)
Definition validate (c : vconf) (leader : bool) (i : info) (r0 r1 r2 : bool)
  (ds : list (option dagpoint)) (inds : list (dagpoint * through)) : option result :=
  if i_round i <? c_genesis c then None
  else if i_round i =? c_genesis c then Some RsValid
  else if negb (proof_link_ok c leader i) then Some (RsIll (IBadProofLink leader))
  else if negb r0 then Some (RsInvalid (RNoRoundInDag MEvidence))
  else if negb r1 then Some (RsInvalid (RNoRoundInDag MIncludes))
  else if negb r2 && negb (isnil (i_witness i)) then Some (RsInvalid (RNoRoundInDag MWitness))
  else match mk_ctx i with
  | None => None
  | Some x =>
    match check_deps c i x ds (None, None) with
    | None => None
    | Some (Some r, _) => Some (RsInvalid r)
    | Some (None, v) =>
      match check_indirect c i x inds (None, v) with
      | (Some r, _) => Some (RsInvalid r)
      | (None, Some v') => Some (RsTrans v')
      | (None, None) => Some RsValid
      end
    end
  end.
(* dag_point_future.rs:636-690 acquire_validated *)
Definition verdict_of (i : info) (r : result) : verdict :=
  match r with
  | RsValid => VdValid i
  | RsTrans v => VdTrans i v
  | RsInvalid e => VdInvalid i e
  | RsIll e => VdIll (i_id i) e
  end.
(* dag_point_future.rs:533-581: a status read back from the storage; reasons are not stored *)
Definition after_load (v : verdict) : verdict :=
  match v with
  | VdTrans i root => VdTrans i (mkInv (v_link root) (RAfterLoad (has_dag_round (v_reason root))))
  | VdInvalid i r => VdInvalid i (RAfterLoad (has_dag_round r))
  | VdIll p r => VdIll p (IAfterLoad (match r with IAfterLoad b => b | IEvidenceSig => true | _ => false end))
  | v => v
  end.

(** ** The history of a node: the points it judged, in the order they were judged. A point may be judged again
    (after its round was dropped), each judgement is a new entry. *)
Record entry := mkEntry {
  e_v : verdict;
  (* reads of validate: index of the judgement read and what was seen *)
  e_deps : list (nat * dagpoint); e_inds : list (nat * dagpoint) }.
Section History.
  Context (c : vconf) (peers : round -> list peer) (ldr : info -> bool).
  Definition sees (h : list entry) (r : nat * dagpoint) : Prop :=
    exists e, nth_error h (fst r) = Some e /\ (d_v (snd r) = e_v e \/ d_v (snd r) = after_load (e_v e)).
  (* ids of the direct dependencies, verifier.rs:336-372 *)
  Definition inc_ids (i : info) : list pid := map (fun e => mkPid (i_round i - 1) (snd e) (fst e)) (i_includes i).
  Definition wit_ids (i : info) : list pid := map (fun e => mkPid (i_round i - 2) (snd e) (fst e)) (i_witness i).
  (* the reads of one validation: every include and witness, other versions of the previous point, in any order;
     some may be gone. Prev point: its certificate is marked before the loop (verifier.rs:240-244) *)
  Definition is_other (i : info) (p : pid) : Prop :=
    at_prev_loc i p = true /\ prev_digest i <> Some (p_digest p).
  Record reads_ok (h : list entry) (i : info) (ds : list (nat * dagpoint)) : Prop := {
    ro_sees : Forall (sees h) ds;
    ro_ids : exists others, Forall (is_other i) others /\
             Permutation (map (fun r => d_id (snd r)) ds) (inc_ids i ++ wit_ids i ++ others);
    ro_prev : forall r, In r ds -> prev_id i = Some (d_id (snd r)) -> d_cert (snd r) = true }.
  (* targets of indirect links, verifier.rs:555-590 *)
  Definition ind_links (i : info) : list ilink :=
    match anchor_trigger i with Indirect l => [l] | _ => [] end ++
    match anchor_proof i with Indirect l => [l] | _ => [] end ++
    match indirect_proof i with Some l => [l] | None => [] end.
  Definition inds_ok (h : list entry) (i : info) (is : list (nat * dagpoint * through)) : Prop :=
    Forall (fun r => sees h (fst r) /\
      exists l, In l (ind_links i) /\ d_id (snd (fst r)) = il_to l /\ snd r = il_path l) is.
  (* what the types guarantee: a hash map has one entry per key, rounds are u32, times are u64 *)
  Definition info_ok (i : info) : Prop :=
    NoDup (akeys (i_includes i)) /\ NoDup (akeys (i_witness i)) /\ NoDup (akeys (i_evidence i)) /\
    i_round i <= u32_max /\ i_time i <= u64_max.

  Inductive hstep : list entry -> list entry -> Prop :=
  (* a verified point is validated, all its dependencies resolve *)
  | h_check h i r0 r1 r2 ds is res :
      info_ok i -> basic_verify c peers i = VOk ->
      reads_ok h i ds -> inds_ok h i is ->
      validate c (ldr i) i r0 r1 r2 (map (fun r => Some (snd r)) ds) (map (fun r => (snd (fst r), snd r)) is) = Some res ->
      hstep h (h ++ [mkEntry (verdict_of i res) ds (map fst is)])
  (* a round of the dependencies is not in memory, or goes away before they resolve *)
  | h_gone h i r0 r1 r2 ds is res :
      info_ok i -> basic_verify c peers i = VOk ->
      (r0 = false \/ r1 = false \/ (r2 = false /\ i_witness i <> []) \/ In None ds) ->
      i_round i <> c_genesis c ->
      validate c (ldr i) i r0 r1 r2 ds is = Some res ->
      hstep h (h ++ [mkEntry (verdict_of i res) [] []])
  (* a point that failed verification or its signatures are bad (dag_point_future.rs:229-283, 429-447) *)
  | h_ill h p r : hstep h (h ++ [mkEntry (VdIll p r) [] []])
  (* a point that was not found (448-494) *)
  | h_notfound h p : hstep h (h ++ [mkEntry (VdNotFound p) [] []])
  (* an own verified point whose status was rolled back (194-219) *)
  | h_rollback h i : info_ok i -> basic_verify c peers i = VOk ->
      hstep h (h ++ [mkEntry (VdInvalid i (RAfterLoad true)) [] []]).
  Inductive hist : list entry -> Prop :=
  | hist_nil : hist []
  | hist_step h h' : hist h -> hstep h h' -> hist h'.
End History.
