(** Model of the node's own points: consensus/src/dag/producer.rs (all of it) and the gate before it,
    consensus/src/engine/round_task.rs:95-126. Points, links and roles are those of VerModel. A hash map is an
    association list in any order: theorems range over all lists, so over all orders of iteration. *)
From Verif Require Export VerModel.
From Verif Require Import PeerCountModel.
Local Open Scope N_scope.

(** producer.rs:13-20; [lo_signers] is the F of PeerCount *)
Record lastown := mkLo {
  lo_digest : digest; lo_evidence : list (peer * N); lo_includes : list (peer * digest);
  lo_sticky : option N; lo_round : round; lo_signers : N }.
(** producer.rs:22-41 *)
Inductive perror := PNotAllowed | PNotEnoughEvidence | PNotScheduled | PPrevMismatch.
Inductive pres := PMade (i : info) | PErr (e : perror) | PPanic.

(** Iterator::max_by_key over map entries: the last of the greatest *)
Fixpoint max_by (f : info -> N) (l : list (peer * info)) : option info :=
  match l with
  | [] => None
  | (_, i) :: r => match max_by f r with
                   | Some j => if f i <=? f j then Some j else Some i
                   | None => Some i
                   end
  end.
(** producer.rs:353-381 link_source; [None]: no includes, the [expect] at 360 *)
Definition link_source (inc wit : list (peer * info)) (s : srole) : option (info * through) :=
  match max_by (anchor_round s) inc with
  | None => None
  | Some k =>
    match max_by (anchor_round s) wit with
    | Some w => if anchor_round s k <? anchor_round s w then Some (w, ThWit (i_author w)) else Some (k, ThInc (i_author k))
    | None => Some (k, ThInc (i_author k))
    end
  end.
(** producer.rs:383-407 link; [None]: Round::prev below zero, or [anchor_id] of an ill-formed point *)
Definition mk_link (r : round) (src : info * through) (s : srole) : option alink :=
  let direct := match snd src with
                | ThInc _ => rprev r
                | ThWit _ => match rprev r with Some q => rprev q | None => None end
                end in
  match direct with
  | None => None
  | Some q =>
    if (i_round (fst src) =? q) && is_self (anchor_link s (fst src)) then Some (LDirect (snd src))
    else match anchor_id s (fst src) with Some t => Some (LIndirect (mkIL t (snd src))) | None => None end
  end.
(** producer.rs:325-345 anchor_links: the proof and the trigger *)
Definition anchor_links (r : round) (inc wit : list (peer * info)) : option (alink * alink) :=
  match link_source inc wit STrigger, link_source inc wit SProof with
  | Some ts, Some ps =>
    let ps := if anchor_round SProof (fst ps) <? anchor_round STrigger (fst ts) then ts else ps in
    match mk_link r ps SProof, mk_link r ts STrigger with Some p, Some t => Some (p, t) | _, _ => None end
  | _, _ => None
  end.

(** producer.rs:89-99: the digest of the previous own point when it has enough signatures; the error when it has not *)
Definition proven_vertex (last : option lastown) (r : round) : option (option digest) :=
  match last with
  | Some p =>
    if lo_round p =? r - 1 then
      if majority_of_others (lo_signers p) <=? N.of_nat (length (lo_evidence p)) then Some (Some (lo_digest p)) else None
    else Some None
  | None => Some None
  end.
(** 107-122 *)
Definition proof_far (c : vconf) (r : round) (p : alink) : bool :=
  match p with
  | LIndirect l => let n := r - p_round (il_to l) in if c_sticky c =? 0 then 2 <? n else 3 <? n
  | LDirect _ => false
  end.
Definition is_trigger (me : peer) (p : alink) : bool :=
  match p with LDirect (ThInc a) => a =? me | _ => false end.
(** 101-161; [sticky] is the counter of the previous own point, when that point is proven *)
Definition pick_role (c : vconf) (proven : option (option N)) (is_leader : bool) (me : peer) (r : round) (p t : alink) : prole :=
  match proven with
  | None => Regular p t
  | Some (Some n) => if N.min (n + 1) 255 <? c_sticky c then Sticky (n + 1) else AnchorTrigger
  | Some None =>
    if is_trigger me p then (if 0 <? c_sticky c then Sticky 0 else AnchorTrigger)
    else match p with
         | LIndirect l => if is_leader && proof_far c r p then AnchorProof l t else Regular p t
         | LDirect _ => Regular p t
         end
  end.
(** 287-316 check_prev_point (the release build: the debug assertion is left out) *)
Definition check_prev (included proven : option digest) : pres + unit :=
  match included, proven with
  | None, None => inr tt
  | Some a, Some b => if a =? b then inr tt else inl (PErr PPrevMismatch)
  | Some _, None => inl (PErr PPrevMismatch)
  | None, Some _ => inl PPanic
  end.
(** 244-281 get_time: the time and the anchor time; [None]: one of the two [expect]s. [now] is the clock *)
Definition get_time (proof : anylink) (prev : option info) (inc wit : list (peer * info)) (now : N) : option (N * N) :=
  match (match proof with
         | ToSelf => match prev with Some k => Some (i_time k) | None => None end
         | Direct th | Indirect (mkIL _ th) =>
           match (match th with ThInc p => aget N.eqb p inc | ThWit p => aget N.eqb p wit end) with
           | Some k => Some (i_atime k) | None => None end
         end) with
  | None => None
  | Some at_ =>
    let deps := match prev with None => at_ | Some k => N.max at_ (i_time k) end in
    Some (N.max now (tadd deps 1), at_)
  end.
(** data.rs:83-97 for a role and an author *)
Definition role_proof (me : peer) (x : prole) : anylink :=
  match x with
  | Regular (LDirect t) _ => Direct t
  | Regular (LIndirect l) _ => Indirect l
  | AnchorProof _ _ | Sticky _ | Genesis => ToSelf
  | AnchorTrigger => Direct (ThInc me)
  end.
Definition opt_eqb (a b : option N) : bool :=
  match a, b with Some x, Some y => x =? y | None, None => true | _, _ => false end.
(** values of a map, keyed by author: 191-194, 202-205. Authors of one round's map are distinct, so collecting the
    pairs into a hash map drops nothing *)
Definition refs (l : list (peer * info)) : list (peer * digest) := map (fun e => (i_author (snd e), i_digest (snd e))) l.
(** 163-168: are the messages of the payload new ones only *)
Definition only_fresh (last : option lastown) : bool :=
  match last with None => true | Some l => reliable_minority (lo_signers l) <=? N.of_nat (length (lo_evidence l)) end.

(** producer.rs:74-226 create. [fetch] is InputBuffer::fetch: number of messages and their bytes, [dg] the digest the
    point will have *)
Definition create (c : vconf) (last : option lastown) (fetch : bool -> N * N) (me : peer) (r : round) (leader : option peer)
  (inc wit : list (peer * info)) (now : N) (dg : digest) : pres :=
  match proven_vertex last r with
  | None => PErr PNotEnoughEvidence
  | Some proven =>
    match anchor_links r inc wit with
    | None => PPanic
    | Some (p, t) =>
      let is_leader := match leader with Some l => l =? me | None => false end in
      let sticky := match proven, last with Some _, Some l => Some (lo_sticky l) | _, _ => None end in
      let role := pick_role c sticky is_leader me r p t in
      let load := fetch (only_fresh last) in
      let prev := aget N.eqb me inc in
      match check_prev (match prev with Some k => Some (i_digest k) | None => None end) proven with
      | inl e => e
      | inr _ =>
        match get_time (role_proof me role) prev inc wit now with
        | None => PPanic
        | Some (time, atime) =>
          if opt_eqb proven (aget N.eqb me (refs inc)) then
            PMade (mkInfo (mkPid r dg me) (refs inc) (refs wit)
                          (match proven, last with Some _, Some l => lo_evidence l | _, _ => [] end)
                          role time atime (fst load) (snd load))
          else PPanic
        end
      end
    end
  end.

(** What the producer reads from the dag: the node's key for the round (none when the node is not scheduled), the
    round and its leader, the valid points of the previous round that reached the threshold (dag/threshold.rs:136-186),
    the F of that round, the locations two rounds back with the first point there when it is signed ([None]: that round is
    gone), the clock. *)
Record phead := mkHead {
  hd_me : option peer; hd_round : round; hd_leader : option peer;
  hd_reached : list (peer * info); hd_count : N; hd_locs : option (list (peer * option info)); hd_now : N }.
(** producer.rs:241-269 witness *)
Definition skip_wit (last : option lastown) (me : peer) (finished : round) (p : peer) : bool :=
  match last with
  | Some l => if lo_round l =? finished then amem N.eqb p (lo_includes l) else p =? me
  | None => p =? me
  end.
Fixpoint sel_wit (skip : peer -> bool) (l : list (peer * option info)) : list (peer * info) :=
  match l with
  | [] => []
  | (p, Some k) :: r => if skip p then sel_wit skip r else (p, k) :: sel_wit skip r
  | (_, None) :: r => sel_wit skip r
  end.
Definition witness_of (last : option lastown) (me : peer) (hd : phead) : list (peer * info) :=
  match hd_locs hd with
  | None => []
  | Some locs => sel_wit (skip_wit last me (hd_round hd - 1)) locs
  end.
(** producer.rs:46-71 new_point, with the assertion of 210-222 *)
Definition new_point (c : vconf) (last : option lastown) (fetch : bool -> N * N) (hd : phead) (dg : digest) : pres :=
  match hd_me hd with
  | None => PErr PNotScheduled
  | Some me =>
    if majority (hd_count hd) <=? N.of_nat (length (hd_reached hd)) then
      create c last fetch me (hd_round hd) (hd_leader hd) (hd_reached hd) (witness_of last me hd) (hd_now hd) dg
    else PPanic
  end.
(** round_task.rs:104-126, then 146-157 *)
Definition own_point (c : vconf) (last : option lastown) (fetch : bool -> N * N) (hd : phead) (dg : digest) : pres :=
  match last with
  | None => new_point c last fetch hd dg
  | Some l =>
    let finished := hd_round hd - 1 in
    if lo_round l <? finished then new_point c last fetch hd dg
    else if lo_round l =? finished then
      if majority_of_others (lo_signers l) <=? N.of_nat (length (lo_evidence l)) then new_point c last fetch hd dg
      else PErr PNotAllowed
    else PPanic
  end.
