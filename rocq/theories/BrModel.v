(** How a node sends its own point to the others, gathers their signatures and decides that the
    round is over.

    Models consensus/src/intercom/broadcast/broadcaster.rs and collector.rs and how
    consensus/src/engine/round_task.rs 206-262 connects them.

    Peers are numbers; a set is a list without repetitions (shown in BrInv), read by [mem]; maps
    are association lists. A pending future is the peer it was made for; futures complete in any
    order. A failed [assert!] is [None]. Metrics, logs and the contents of messages are left out:
    of a signature only whether it verifies counts, through [v_verify]. *)
From Coq Require Import List Bool NArith Lia.
From Verif Require Import PsModel PeerCountModel.
Import ListNotations.
Local Open Scope N_scope.

(** What a broadcaster is made with: the author of the point, the validators of the next round
    and their F (broadcaster.rs 80-93), [min_sign_attempts], the check of a signature. *)
Record env := Env { v_author : peer; v_signers : list peer; v_f : N; v_min : N; v_verify : peer -> N -> bool }.

(** broadcaster.rs 30-54. [b_bfut], [b_sfut]: pending broadcast and signature queries, the latter
    with [after_bcast]. *)
Record bc := Bc {
  b_removed : list peer;
  b_inflight : list peer;
  b_rej : list peer;
  b_sigs : list (peer * N);
  b_bpeers : list peer;
  b_speers : list peer;
  b_bfut : list peer;
  b_sfut : list (peer * bool) }.

(** broadcaster.rs 103-126 *)
Definition bc_new (v : env) (receivers : list peer) : bc := Bc [v_author v] [] [] [] receivers [] [] [].

(** broadcaster.rs 419-445 *)
Definition broadcast (s : bc) (p : peer) : option bc :=
  if mem p (b_removed s) then Some s
  else if mem p (b_inflight s) then None
  else Some (Bc (b_removed s) (p :: b_inflight s) (b_rej s) (b_sigs s) (b_bpeers s) (b_speers s) (b_bfut s ++ [p]) (b_sfut s)).

(** broadcaster.rs 447-477 *)
Definition request_signature (v : env) (after : bool) (s : bc) (p : peer) : option bc :=
  if negb (mem p (b_removed s)) && mem p (v_signers v) then
    if mem p (b_inflight s) then None
    else Some (Bc (b_removed s) (p :: b_inflight s) (b_rej s) (b_sigs s) (b_bpeers s) (b_speers s) (b_bfut s) (b_sfut s ++ [(p, after)]))
  else Some s.

Fixpoint each (f : bc -> peer -> option bc) (l : list peer) (s : bc) : option bc :=
  match l with
  | [] => Some s
  | p :: r => match f s p with Some s' => each f r s' | None => None end
  end.

(** broadcaster.rs 156-158 and 211-213 *)
Definition send_all (s : bc) : option bc :=
  each broadcast (b_bpeers s)
    (Bc (b_removed s) (b_inflight s) (b_rej s) (b_sigs s) [] (b_speers s) (b_bfut s) (b_sfut s)).

(** broadcaster.rs 290-314 *)
Definition match_attempt (v : env) (attempt : N) (s : bc) : option bc :=
  if attempt =? 0 then
    each broadcast (v_signers v) (Bc (b_removed s) [] [] (b_sigs s) (b_bpeers s) [] [] [])
  else if 1 <? attempt then
    each (request_signature v false) (b_speers s)
      (Bc (b_removed s) (b_inflight s) (b_rej s) (b_sigs s) (b_bpeers s) [] (b_bfut s) (b_sfut s))
  else Some s.

(** [QueryError] or the response of a peer *)
Inductive bcast_result := BTlError | BNetwork | BOk.
Inductive sig_result := STlError | SNetwork | SSignature (sig : N) | SNoPoint | STryLater | SRejected.

Definition rm1 (p : peer) (l : list peer) : list peer :=
  (fix go l := match l with [] => [] | q :: r => if q =? p then r else q :: go r end) l.
Definition rm1s (p : peer) (l : list (peer * bool)) : list (peer * bool) :=
  (fix go l := match l with [] => [] | q :: r => if fst q =? p then r else q :: go r end) l.

Definition reject (s : bc) (p : peer) : bc :=
  Bc (b_removed s) (b_inflight s) (add p (b_rej s)) (b_sigs s) (b_bpeers s) (b_speers s) (b_bfut s) (b_sfut s).
Definition enqueue (s : bc) (p : peer) : bc :=
  Bc (b_removed s) (b_inflight s) (b_rej s) (b_sigs s) (b_bpeers s) (add p (b_speers s)) (b_bfut s) (b_sfut s).
Definition sign (s : bc) (p : peer) (sig : N) : bc :=
  Bc (b_removed s) (b_inflight s) (b_rej s) ((p, sig) :: filter (fun e => negb (fst e =? p)) (b_sigs s))
     (b_bpeers s) (b_speers s) (b_bfut s) (b_sfut s).

(** broadcaster.rs 316-350 *)
Definition match_broadcast_result (v : env) (s : bc) (p : peer) (r : bcast_result) : option bc :=
  if mem p (b_inflight s) then
    let s1 := Bc (b_removed s) (del p (b_inflight s)) (b_rej s) (b_sigs s) (b_bpeers s) (b_speers s) (rm1 p (b_bfut s)) (b_sfut s) in
    match r with
    | BTlError => Some (reject s1 p)
    | BNetwork => Some (enqueue s1 p)
    | BOk => request_signature v true s1 p
    end
  else None.

(** broadcaster.rs 352-417 *)
Definition match_signature_result (v : env) (s : bc) (p : peer) (after : bool) (r : sig_result) : option bc :=
  if mem p (b_inflight s) then
    let s1 := Bc (b_removed s) (del p (b_inflight s)) (b_rej s) (b_sigs s) (b_bpeers s) (b_speers s) (b_bfut s) (rm1s p (b_sfut s)) in
    match r with
    | STlError => Some (reject s1 p)
    | SNetwork => Some (enqueue s1 p)
    | SSignature sig =>
        if mem p (v_signers v) then
          if v_verify v p sig then Some (sign s1 p sig) else Some (reject s1 p)
        else Some s1
    | SNoPoint => if after then Some (enqueue s1 p) else broadcast s1 p
    | STryLater => Some (enqueue s1 p)
    | SRejected => if mem p (v_signers v) then Some (reject s1 p) else Some s1
    end
  else None.

(** broadcaster.rs 479-512: [true] is [PeerState::Resolved] *)
Definition match_peer_update (s : bc) (p : peer) (resolved : bool) : option bc :=
  if resolved then
    let s1 := Bc (del p (b_removed s)) (b_inflight s) (del p (b_rej s)) (b_sigs s) (b_bpeers s) (b_speers s) (b_bfut s) (b_sfut s) in
    if mem p (b_inflight s) then Some s1
    else broadcast (Bc (b_removed s1) (b_inflight s1) (b_rej s1) (b_sigs s1) (del p (b_bpeers s1)) (del p (b_speers s1)) (b_bfut s1) (b_sfut s1)) p
  else Some (Bc (add p (b_removed s)) (b_inflight s) (b_rej s) (b_sigs s) (b_bpeers s) (b_speers s) (b_bfut s) (b_sfut s)).

(** ** The round: broadcaster and collector *)

(** [PMake]: the own point is being made (round_task.rs 214). [PNone]: no own point in this round
    (round_task.rs 226-230). [PRun]: [Broadcaster::run].
    [PEnd]: it returned. [PCont]: [Broadcaster::run_continue]. *)
Inductive phase := PMake | PNone | PRun | PEnd | PCont.
(** why the collector stopped *)
Inductive why := Ready | Failed | Outrun.

(** [y_signal]: what was sent through [bcaster_signal], [true] is [Ok]. [y_evidence]: the
    evidence that [run] returned. [y_attempt], [y_unseen]: the status watch and whether the
    broadcaster has not seen its last change. *)
Record sys := Sys {
  y_bc : bc;
  y_phase : phase;
  y_signal : option bool;
  y_evidence : option (list (peer * N));
  y_retry : N;
  y_includes : bool;
  y_ok : bool;
  y_attempt : N;
  y_unseen : bool;
  y_end : option why }.

Inductive event :=
| EPoint (receivers : list peer)  (* the own point is made; the schedule's broadcast receivers *)
| ENoPoint                 (* no own point in this round *)
| EThreshold               (* enough points of the round are validated *)
| ESignal                  (* the collector gets the broadcaster's signal *)
| ETick                    (* the collector's retry interval *)
| ERounds (con tka : round)  (* consensus round or top known anchor changed *)
| EStatus                  (* the broadcaster sees the collector's status *)
| EClosed                  (* the broadcaster sees that the collector stopped *)
| EUpdate (p : peer) (resolved : bool)
| EBcast (p : peer) (r : bcast_result)
| ESig (p : peer) (after : bool) (r : sig_result)
| EContinue                (* [run_continue] starts *)
| ERetry.                  (* the retry interval of [run_continue] *)

Definition running (y : sys) : bool := match y_end y with None => true | Some _ => false end.
Definition active (y : sys) : bool := match y_phase y with PRun | PCont => true | _ => false end.
Definition is_run (y : sys) : bool := match y_phase y with PRun => true | _ => false end.

(** which events can happen; the guards of collector.rs 92-139 and of broadcaster.rs 163-190 *)
Definition enabled (y : sys) (e : event) : bool :=
  match e with
  | EPoint _ | ENoPoint => match y_phase y with PMake => true | _ => false end
  | EThreshold => running y && negb (y_includes y)
  | ESignal => running y && negb (y_ok y) && match y_signal y with Some _ => true | None => false end
  | ETick => running y
  | ERounds _ _ => running y
  | EStatus => is_run y && y_unseen y
  | EClosed => is_run y && negb (y_unseen y) && negb (running y)
  | EUpdate _ _ => active y
  | EBcast p _ => active y && mem p (b_bfut (y_bc y))
  | ESig p a _ => active y && existsb (fun q => (fst q =? p) && Bool.eqb (snd q) a) (b_sfut (y_bc y))
  | EContinue => match y_phase y with PEnd => true | _ => false end
  | ERetry => match y_phase y with PCont => true | _ => false end
  end.

Definition with_bc (y : sys) (s : bc) : sys :=
  Sys s (y_phase y) (y_signal y) (y_evidence y) (y_retry y) (y_includes y) (y_ok y) (y_attempt y) (y_unseen y) (y_end y).
Definition on_bc (y : sys) (o : option bc) : option sys := match o with Some s => Some (with_bc y s) | None => None end.
Definition stop (y : sys) (w : why) : sys :=
  Sys (y_bc y) (y_phase y) (y_signal y) (y_evidence y) (y_retry y) (y_includes y) (y_ok y) (y_attempt y) (y_unseen y) (Some w).
(** broadcaster.rs 193-201: the evidence is taken out *)
Definition finish (y : sys) : sys :=
  let s := y_bc y in
  Sys (Bc (b_removed s) (b_inflight s) (b_rej s) [] (b_bpeers s) (b_speers s) (b_bfut s) (b_sfut s))
      PEnd (y_signal y) (Some (b_sigs s)) (y_retry y) (y_includes y) (y_ok y) (y_attempt y) (y_unseen y) (y_end y).
Definition send (y : sys) (b : bool) : sys :=
  Sys (y_bc y) (y_phase y) (match y_signal y with Some o => Some o | None => Some b end)
      (y_evidence y) (y_retry y) (y_includes y) (y_ok y) (y_attempt y) (y_unseen y) (y_end y).
Definition seen (y : sys) : sys :=
  Sys (y_bc y) (y_phase y) (y_signal y) (y_evidence y) (y_retry y) (y_includes y) (y_ok y) (y_attempt y) false (y_end y).

(** broadcaster.rs 245-288 for a change of the status *)
Definition should_finish (v : env) (y : sys) : option sys :=
  if reliable_minority (v_f v) <=? N.of_nat (length (b_rej (y_bc y))) then Some (finish (send y false))
  else
    let y1 := if (v_min v <=? y_attempt y) && (majority_of_others (v_f v) <=? N.of_nat (length (b_sigs (y_bc y))))
              then send y true else y in
    on_bc y1 (match_attempt v (y_attempt y) (y_bc y1)).

(** round_task.rs 214-231, collector.rs 92-139, 145-170, 172-214; [cur] is the round of the point *)
Definition step (v : env) (cur : round) (y : sys) (e : event) : option sys :=
  match e with
  | EPoint rs =>
      match send_all (bc_new v (nodup N.eq_dec rs)) with
      | Some s => Some (Sys s PRun (y_signal y) (y_evidence y) (y_retry y) (y_includes y) (y_ok y) (y_attempt y) (y_unseen y) (y_end y))
      | None => None
      end
  | ENoPoint =>
      Some (Sys (y_bc y) PNone (Some true) (y_evidence y) (y_retry y) (y_includes y) (y_ok y) (y_attempt y) (y_unseen y) (y_end y))
  | EThreshold =>
      let y1 := Sys (y_bc y) (y_phase y) (y_signal y) (y_evidence y) (y_retry y) true (y_ok y) (y_attempt y) (y_unseen y) (y_end y) in
      Some (if y_ok y then stop y1 Ready else y1)
  | ESignal =>
      match y_signal y with
      | Some true =>
          let y1 := Sys (y_bc y) (y_phase y) (y_signal y) (y_evidence y) (y_retry y) (y_includes y) true (y_attempt y) (y_unseen y) (y_end y) in
          Some (if y_includes y then stop y1 Ready else y1)
      | Some false => Some (stop y Failed)
      | None => Some y
      end
  | ETick =>
      Some (if y_includes y && y_ok y then stop y Ready
            else Sys (y_bc y) (y_phase y) (y_signal y) (y_evidence y) (y_retry y) (y_includes y) (y_ok y)
                     ((y_attempt y + 1) mod 256) true (y_end y))
  | ERounds con tka => Some (if (cur + 1 <? con) || (cur <=? tka) then stop y Outrun else y)
  | EStatus => should_finish v (seen y)
  | EClosed => Some (finish y)
  | EUpdate p st => on_bc y (match_peer_update (y_bc y) p st)
  | EBcast p r => on_bc y (match_broadcast_result v (y_bc y) p r)
  | ESig p a r => on_bc y (match_signature_result v (y_bc y) p a r)
  | EContinue =>
      match send_all (y_bc y) with
      | Some s => Some (Sys s PCont (y_signal y) (y_evidence y) 1 (y_includes y) (y_ok y) (y_attempt y) (y_unseen y) (y_end y))
      | None => None
      end
  | ERetry =>
      let a := (y_retry y + 1) mod 256 in
      match match_attempt v a (y_bc y) with
      | Some s => Some (Sys s (y_phase y) (y_signal y) (y_evidence y) a (y_includes y) (y_ok y) (y_attempt y) (y_unseen y) (y_end y))
      | None => None
      end
  end.

(** The start of a round. *)
Definition bc_none : bc := Bc [] [] [] [] [] [] [] [].
Definition round_start : sys := Sys bc_none PMake None None 0 false false 0 false None.
(** The broadcast of an older point goes on, round_task.rs 79-93. *)
Definition old_point (v : env) (receivers : list peer) : sys :=
  Sys (bc_new v (nodup N.eq_dec receivers)) PEnd None None 0 false false 0 false (Some Outrun).

(** [runs v cur y l y']: the events [l], each possible in its turn, lead from [y] to [y']. *)
Inductive runs (v : env) (cur : round) (y : sys) : list event -> sys -> Prop :=
| r_nil : runs v cur y [] y
| r_snoc l z e z' : runs v cur y l z -> enabled z e = true -> step v cur z e = Some z' -> runs v cur y (l ++ [e]) z'.
