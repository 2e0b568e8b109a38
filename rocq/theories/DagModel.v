(** Model of the consensus commit path: consensus/src/dag/commit/back.rs (DagBack) and
    consensus/src/dag/commit/mod.rs (Committer).

    Simplifications, valid for the whole file:
    - digests, peers and rounds are numbers; rounds are unbounded (the u32 exhaustion panic of
      [Round::next], parts.rs L181-186, and the saturation of [Round + n] are not modelled);
    - [DagRound] objects are shared between DagFront and DagBack through Arc; there is one object per
      round number during the life of a DagFront, so its contents (point versions, the
      [used_anchor_proof] OnceLock, the committed flags of the point certificates) are kept in global
      tables, and the [BTreeMap<Round, DagRound>] of DagBack is the interval [bottom..top] of the
      rounds it holds (contiguity is asserted by the code at each mutation, back.rs L61-101,106-116);
    - the certification height asserted by [set_committed] (cert.rs L179-183) is not modelled, only its
      "committed twice" assertion is;
    - metrics, spans, the RoundInspector statistics and [direct_trigger] (logging only) are left out. *)
From Coq Require Import List Bool NArith.
From Verif Require Import AMap.
Import ListNotations.
Local Open Scope N_scope.

(** consensus/src/models/point/id.rs PointId *)
Record pid := mkpid { pi_round : N; pi_author : N; pi_digest : N }.
Definition pid_eqb (a b : pid) : bool :=
  (pi_round a =? pi_round b) && (pi_author a =? pi_author b) && (pi_digest a =? pi_digest b).

(** consensus/src/models/point/info.rs PointInfo: the links the commit path reads.
    [p_includes]/[p_witness]: peer -> digest at the previous / the one before previous round
    (info.rs includes(), witness()); [p_prev]: prev_digest(); [p_chain]: chained_anchor_proof_to(),
    L224-232; [p_is_proof]: anchor_proof() == ToSelf; [p_is_trigger]: anchor_trigger() == ToSelf. *)
Record point := mkpoint {
  p_id : pid; p_includes : list (N * N); p_witness : list (N * N);
  p_prev : option N; p_chain : option pid; p_is_proof : bool; p_is_trigger : bool }.

Definition p_round (p : point) : N := pi_round (p_id p).

(** info.rs L150-156 prev_id *)
Definition prev_id (p : point) : option pid :=
  match p_prev p with
  | Some d => Some (mkpid (p_round p - 1) (pi_author (p_id p)) d)
  | None => None
  end.

(** A resolved [DagPoint] (consensus/src/models/dag_point.rs) or a cancelled task;
    [EOther certified] is Invalid / IllFormed / NotFound. *)
Inductive entry :=
| EValid (p : point)
| ETransInvalid (p : point) (has_proof certified : bool)
| EOther (r : N) (certified : bool)
| ECancelled.

(** EngineResult plus the panics of the code *)
Inductive res (A : Type) := Ok (a : A) | Conflict (r : N) | Cancelled | Panic.
Arguments Ok {A} _. Arguments Conflict {A} _. Arguments Cancelled {A}. Arguments Panic {A}.

Definition bind {A B} (x : res A) (f : A -> res B) : res B :=
  match x with Ok a => f a | Conflict r => Conflict r | Cancelled => Cancelled | Panic => Panic end.

(** MempoolConfig: genesis_round, commit_history_rounds, deduplicate_rounds *)
Record conf := mkconf { genesis : N; hist_rounds : N; dedup_rounds : N }.

(** DagBack (back.rs L18-23) and the contents of its DagRounds *)
Record dag := mkdag {
  d_bottom : N; d_top : N;
  d_pts : list (pid * entry);       (* versions of DagLocation, resolved futures only *)
  d_used : list (N * N);            (* round -> used_anchor_proof author *)
  d_committed : list pid;           (* certificates with the COMMITTED flag *)
  d_last : option N }.              (* last_committed_proof *)

Definition is_committed (d : dag) (i : pid) : bool := existsb (pid_eqb i) (d_committed d).

(** back.rs L325-346 ready_valid_point: [None] (not created or not ready) is [expect]ed, a panic *)
Definition ready_valid_point (d : dag) (i : pid) : res point :=
  match aget pid_eqb i (d_pts d) with
  | None => Panic
  | Some ECancelled => Cancelled
  | Some (EValid p) => Ok p
  | Some (ETransInvalid _ _ cert) | Some (EOther _ cert) =>
      if cert then Conflict (pi_round i) else Panic
  end.

(** back.rs L307-323 chained_proof *)
Definition chained_proof (d : dag) (i : pid) : res point :=
  bind (ready_valid_point d i) (fun p => if p_is_proof p then Ok p else Panic).

(** back.rs L349-373 committable_point *)
Definition committable_point (d : dag) (i : pid) : res point :=
  match aget pid_eqb i (d_pts d) with
  | None => Panic
  | Some ECancelled => Cancelled
  | Some (EValid p) => Ok p
  | Some (ETransInvalid p has_proof _) => if has_proof then Conflict (pi_round i) else Ok p
  | Some (EOther _ cert) => if cert then Conflict (pi_round i) else Panic
  end.

(** rounds hi, hi-1, ..., lo: [BTreeMap::range(lo..=hi).rev()] over a contiguous map *)
Fixpoint down (n : nat) (hi : N) : list N :=
  match n with O => [] | S n => hi :: down n (hi - 1) end.
Definition rounds_desc (lo hi : N) : list N := down (N.to_nat (hi + 1 - lo)) hi.
(** the rounds of [lo..=hi] present in the dag, newest first *)
Definition dag_range (d : dag) (lo hi : N) : list N :=
  rounds_desc (N.max lo (d_bottom d)) (N.min hi (d_top d)).

(** mod.rs L27-32 EnqueuedAnchor *)
Record enq := mkenq { q_anchor : point; q_proof : point; q_prev_proof : N }.

(** back.rs L139-219: the while loop of anchor_chain; [bot] is bottom_round of L117 *)
Fixpoint chain_loop (d : dag) (bot : N) (rds : list N) (lookup : pid) (acc : list enq) : res (list enq) :=
  match rds with
  | [] => Ok acc
  | r :: rest =>
      if pi_round lookup <? r then chain_loop d bot rest lookup acc
      else if negb (r =? pi_round lookup) then Panic
      else match aget N.eqb r (d_used d) with
      | Some a => if pi_author lookup =? a then (if bot <=? r then Ok acc else Panic) else Panic
      | None =>
          bind (chained_proof d lookup) (fun proof =>
          match prev_id proof with
          | None => Panic
          | Some anchor_id =>
              match rest with
              | [] => if pi_round anchor_id <=? d_bottom d then Ok acc else Panic
              | r2 :: _ =>
                  if negb (r2 =? pi_round anchor_id) then Panic
                  else bind (ready_valid_point d anchor_id) (fun anchor =>
                    match p_chain proof with
                    | None => Panic
                    | Some l => chain_loop d bot rest l (mkenq anchor proof (pi_round l) :: acc)
                    end)
              end
          end)
      end
  end.

(** back.rs L119-227 anchor_chain *)
Definition anchor_chain (d : dag) (trigger : point) : res (list enq) :=
  let bot := match d_last d with Some p => p | None => d_bottom d end in
  if p_round trigger - 1 <? bot then Ok []
  else match prev_id trigger with
  | None => Panic
  | Some l =>
      bind (chain_loop d bot (dag_range d bot (p_round trigger - 1)) l []) (fun result =>
      match result with
      | [] => Ok []
      | e :: _ => if q_prev_proof e <=? bot then Ok result else Panic
      end)
  end.

Section Gather.
  (** rand_pcg::Pcg64 and [SliceRandom::shuffle]: any deterministic generator whose shuffle permutes *)
  Variable rng : Type.
  Variable seed : N -> rng.
  Variable shuffle : rng -> list (N * N) -> list (N * N) * rng.
  (** iteration order of the hash maps: any function of the map *)
  Variable horder : list (N * N) -> list (N * N).

  (** lexicographic (digest, peer) insertion sort: [sort_unstable], back.rs L273 *)
  Definition dp_leb (a b : N * N) : bool :=
    (fst a <? fst b) || ((fst a =? fst b) && (snd a <=? snd b)).
  Fixpoint dp_ins (x : N * N) (l : list (N * N)) : list (N * N) :=
    match l with [] => [x] | y :: r => if dp_leb x y then x :: l else y :: dp_ins x r end.
  Fixpoint dp_sort (l : list (N * N)) : list (N * N) :=
    match l with [] => [] | x :: r => dp_ins x (dp_sort r) end.

  (** back.rs L239-246 extend: digest -> peer map extended by a peer -> digest map *)
  Definition extend (to : list (N * N)) (from : list (N * N)) : list (N * N) :=
    fold_left (fun m pd => aset N.eqb (snd pd) (fst pd) m) (horder from) to.

  (** back.rs L275-290: the loop over the points of one round; [acc] is the VecDeque (push_front = cons) *)
  Fixpoint gather_round (d : dag) (r : N) (sorted : list (N * N)) (r1 r2 : list (N * N)) (acc : list point)
    : res (list (N * N) * list (N * N) * list point) :=
    match sorted with
    | [] => Ok (r1, r2, acc)
    | (digest, peer) :: rest =>
        bind (committable_point d (mkpid r peer digest)) (fun p =>
        if is_committed d (p_id p) then gather_round d r rest r1 r2 acc
        else gather_round d r rest (extend r1 (p_includes p)) (extend r2 (p_witness p)) (p :: acc))
    end.

  (** back.rs L262-292: the loop over the rounds; returns the points and [next_round] *)
  Fixpoint gather_loop (d : dag) (rds : list N) (next : N) (g : rng) (r0 r1 : list (N * N)) (acc : list point)
    : res (list point * N) :=
    match rds with
    | [] => Ok (acc, next)
    | r :: rest =>
        if negb (r + 1 =? next) then Panic
        else let sg := shuffle g (dp_sort (horder r0)) in
             bind (gather_round d r (fst sg) r1 [] acc) (fun x =>
               gather_loop d rest r (snd sg) (fst (fst x)) (snd (fst x)) (snd x))
    end.

  (** back.rs L249-250 history_limit *)
  Definition history_limit (c : conf) (anchor_round : N) : N :=
    N.max (genesis c + 1) (anchor_round - hist_rounds c).

  (** back.rs L233-304 gather_uncommitted; an inverted [RangeInclusive] makes [BTreeMap::range] panic *)
  Definition gather_uncommitted (c : conf) (d : dag) (fhb : N) (anchor : point) : res (list point) :=
    let limit := history_limit c (p_round anchor) in
    if p_round anchor <? limit then Panic
    else bind (gather_loop d (dag_range d limit (p_round anchor)) (p_round anchor + 1)
                 (seed (pi_digest (p_id anchor)))
                 [(pi_digest (p_id anchor), pi_author (p_id anchor))] [] [])
         (fun x => if (fhb <=? limit) && negb (snd x =? limit) then Panic else Ok (fst x)).

  (** AnchorData (consensus/src/models/output.rs) *)
  Record adata := mkadata {
    a_anchor : point; a_proof : point; a_prev_anchor : option N; a_history : list point; a_executable : bool }.

  (** Committer, mod.rs L34-45 *)
  Record committer := mkcom { c_dag : dag; c_fhb : N; c_gap : option bool; c_first_exec : N }.

  Definition set_dag (d : dag) (s : committer) : committer := mkcom d (c_fhb s) (c_gap s) (c_first_exec s).

  (** mod.rs L275-281: set_committed for every point, panics on "committed twice" (cert.rs L179-183) *)
  Fixpoint mark_all (d : dag) (l : list point) : res dag :=
    match l with
    | [] => Ok d
    | p :: r => if is_committed d (p_id p) then Panic
                else mark_all (mkdag (d_bottom d) (d_top d) (d_pts d) (d_used d) (p_id p :: d_committed d) (d_last d)) r
    end.

  (** mod.rs L249-306 dequeue_anchor; an error leaves the state as it is *)
  Definition dequeue_anchor (c : conf) (s : committer) (next : enq) : res (committer * adata) :=
    let d := c_dag s in
    let pr := p_round (q_proof next) in
    bind (gather_uncommitted c d (c_fhb s) (q_anchor next)) (fun un =>
    if negb (match d_last d with None => true | Some l => l <? pr end) then Panic
    else if negb ((d_bottom d <=? pr) && (pr <=? d_top d)) then Panic
    else if amem N.eqb pr (d_used d) then Panic
    else
      let d1 := mkdag (d_bottom d) (d_top d) (d_pts d)
                  (aset N.eqb pr (pi_author (p_id (q_anchor next))) (d_used d)) (d_committed d) (Some pr) in
      bind (mark_all d1 un) (fun d2 =>
      let ex := c_first_exec s <=? p_round (q_anchor next) in
      match c_gap s with
      | Some false => Panic
      | Some true =>
          if ex then Ok (mkcom d2 (c_fhb s) None (c_first_exec s),
                         mkadata (q_anchor next) (q_proof next) None un ex)
          else Ok (mkcom d2 (c_fhb s) (c_gap s) (c_first_exec s),
                   mkadata (q_anchor next) (q_proof next)
                     (if genesis c <? q_prev_proof next - 1 then Some (q_prev_proof next - 1) else None) un ex)
      | None => Ok (mkcom d2 (c_fhb s) None (c_first_exec s),
                    mkadata (q_anchor next) (q_proof next)
                      (if genesis c <? q_prev_proof next - 1 then Some (q_prev_proof next - 1) else None) un ex)
      end)).

  (** mod.rs L225-245: the loop of [commit]. Result: the new state, the anchors dequeued ([committed] of
      L225) and how the loop ended. On an error the code drops the vector [committed]: the anchors
      dequeued before the error are not returned, but their points stay marked. *)
  Fixpoint dequeue_all (c : conf) (s : committer) (chain : list enq) : committer * list adata * res unit :=
    match chain with
    | [] => (s, [], Ok tt)
    | e :: rest =>
        match dequeue_anchor c s e with
        | Ok (s', a) => let x := dequeue_all c s' rest in (fst (fst x), a :: snd (fst x), snd x)
        | Conflict r => (s, [], Conflict r)
        | Cancelled => (s, [], Cancelled)
        | Panic => (s, [], Panic)
        end
    end.

  (** mod.rs L309-319 filter, L196-216 the head of [commit] *)
  Definition commit (c : conf) (s : committer) (trigger : entry) : committer * list adata * res unit :=
    let bottom := d_bottom (c_dag s) in
    match trigger with
    | EValid p =>
        if negb (p_is_trigger p) then (s, [], Ok tt)
        else if p_round p <? bottom then (s, [], Ok tt)
        else if p_round p =? genesis c then (s, [], Ok tt)
        else match anchor_chain (c_dag s) p with
             | Ok chain => dequeue_all c s chain
             | Conflict r => (s, [], Conflict r)
             | Cancelled => (s, [], Cancelled)
             | Panic => (s, [], Panic)
             end
    | ETransInvalid p has_proof _ =>
        if has_proof && (bottom <=? p_round p) then (s, [], Conflict (p_round p)) else (s, [], Ok tt)
    | EOther r cert => if cert && (bottom <=? r) then (s, [], Conflict r) else (s, [], Ok tt)
    | ECancelled => (s, [], Ok tt)   (* no such argument: [next_trigger] ends first, mod.rs L91-103 *)
    end.

  (** back.rs L106-116 drain_upto on the interval *)
  Definition drain_upto (d : dag) (nb : N) : dag :=
    mkdag (N.max (d_bottom d) nb) (d_top d) (d_pts d) (d_used d) (d_committed d) (d_last d).

  (** mod.rs L136-157 drop_upto *)
  Definition drop_upto (c : conf) (s : committer) (nb : N) : committer :=
    let d := c_dag s in
    let ab := N.min nb (d_top d) in
    let d1 := drain_upto d ab in
    let d2 := mkdag (d_bottom d1) (d_top d1) (d_pts d1) (d_used d1) (d_committed d1)
                (match d_last d1 with Some l => if l <? ab then None else Some l | None => None end) in
    mkcom d2 (ab + hist_rounds c) (Some false) (ab + hist_rounds c + dedup_rounds c).

  (** mod.rs L69-89 init *)
  Definition init (c : conf) (d : dag) (bottom : N) (gap : bool) : committer :=
    let fhb := if bottom <=? genesis c + hist_rounds c then bottom else bottom + hist_rounds c in
    mkcom (mkdag bottom bottom (d_pts d) (d_used d) (d_committed d) None) fhb
      (if gap then Some false else None)
      (if gap then fhb + dedup_rounds c else bottom).

  (** The calls made by DagFront (front.rs) and CommitterTask (engine/committer_task.rs), and the
      resolution of points by the DAG tasks. [None]: the process panicked. *)
  Inductive op :=
  | OResolve (i : pid) (e : entry)         (* a point version becomes ready in its DagLocation *)
  | OExtend (fb ft : N)                    (* extend_from_ahead with rounds fb..=ft, back.rs L61-93 *)
  | OCommit (trigger : entry)
  | ODrop (nb : N)
  | ORemove (anchor_round : N)             (* remove_committed, mod.rs L159-193 *)
  | OOnceGap                               (* is_once_after_gap, mod.rs L117-124 *)
  | OFirstExec (r : N)                     (* engine/impl_.rs L177 *)
  | OReset (bottom : N).                   (* front.rs sync_back: reset() and init(.., true) *)

  (** Result: new state, anchors sent to the consumer, anchors dequeued (a superset: see dequeue_all).
      On [Conflict] the committer task either calls [ODrop] and retries or stops (committer_task.rs L113-160). *)
  Definition step (c : conf) (s : committer) (o : op) : option (committer * list adata * list adata) :=
    let d := c_dag s in
    match o with
    | OResolve i e =>
        match aget pid_eqb i (d_pts d) with
        | Some _ => Some (s, [], [])           (* a version is created once *)
        | None => Some (set_dag (mkdag (d_bottom d) (d_top d) ((i, e) :: d_pts d) (d_used d) (d_committed d) (d_last d)) s, [], [])
        end
    | OExtend fb ft =>
        if ft <? fb then Some (s, [], [])
        else if d_top d + 1 <? fb then None
        else Some (set_dag (mkdag (d_bottom d) (N.max (d_top d) ft) (d_pts d) (d_used d) (d_committed d) (d_last d)) s, [], [])
    | OCommit t =>
        let x := commit c s t in
        match snd x with
        | Ok _ => Some (fst (fst x), snd (fst x), snd (fst x))
        | Panic => None
        | Conflict _ | Cancelled => Some (fst (fst x), [], snd (fst x))
        end
    | ODrop nb => Some (drop_upto c s nb, [], [])
    | ORemove ar =>
        let nb := ar - hist_rounds c in
        if d_top d <? nb then None          (* the "drained not contiguous" assertion, or an empty DAG *)
        else Some (set_dag (drain_upto d nb) s, [], [])
    | OOnceGap =>
        match c_gap s with
        | Some false => Some (mkcom d (c_fhb s) (Some true) (c_first_exec s), [], [])
        | _ => Some (s, [], [])
        end
    | OFirstExec r => Some (mkcom d (c_fhb s) (c_gap s) r, [], [])
    | OReset b => Some (init c d b true, [], [])
    end.

  (** DagFront::new (front.rs L19-42): the committer starts at the genesis round, whose proof is used *)
  Definition start (c : conf) (genesis_author : N) (gap : bool) : committer :=
    init c (mkdag 0 0 [] [(genesis c, genesis_author)] [] None) (genesis c) gap.
End Gather.
