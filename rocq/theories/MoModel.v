(** C90: bans of mempool peers by the moderator.

    Models consensus/src/moderator/ban/{peer_events,current_bans,cache,state,core}.rs and the choice of
    journal records to restore in storage/store.rs 41-75 and impl_.rs 55-77.

    Simplifications: peers, tags of events and moments (milliseconds) are numbers, without the bound of a
    u64 on additions, and the sequence numbers of keys do not wrap; the clock does not go back, and the
    delay queue does not fire before the time given to it; the moment of a journal key is that of the
    critical section which makes it, so the order of keys is the order of execution; the duplicate filter of
    DAG events (C16), metrics, evidence and messages are left out.  The journal holds what was sent to its
    writer; what a crash loses of it is the work of whole critical sections at its end, so a crash is a
    restart of an earlier state. *)
From Coq Require Import List NArith Bool Arith.
Import ListNotations.
Local Open Scope N_scope.

(** record_key.rs 31-36: ordered by time, then sequence number *)
Record key := { k_time : N; k_seq : N }.
Definition key_eqb (a b : key) : bool := (k_time a =? k_time b) && (k_seq a =? k_seq b).
Definition key_leb (a b : key) : bool :=
  (k_time a <? k_time b) || ((k_time a =? k_time b) && (k_seq a <=? k_seq b)).

(** config.rs 118-135 BanConfigValue: duration of a ban; window and number of tolerated events *)
Record conf_value := { c_dur : N; c_tol : option (N * nat) }.
Definition config := N -> conf_value.

(** peer_events.rs 15-19 EventHistory *)
Record hist := { h_last : option N; h_tol : list key }.
Definition h_empty : hist := {| h_last := None; h_tol := [] |}.
Definition min_key (k : key) (l : list key) : key := fold_left (fun m x => if key_leb m x then m else x) l k.

(** peer_events.rs 23-83 PeerEvents::maybe_ban_until, for one tag *)
Definition maybe_ban_until (c : conf_value) (k : key) (h : hist) : hist * option N :=
  let last := match h_last h with None => k_time k | Some l => N.max l (k_time k) end in
  match c_tol c with
  | None => ({| h_last := Some last; h_tol := h_tol h |}, Some (last + c_dur c))
  | Some (win, cnt) =>
      let fresh x := last - win <=? k_time x in
      if fresh k then
        let l := filter fresh (if existsb (key_eqb k) (h_tol h) then h_tol h else k :: h_tol h) in
        if (cnt <? length l)%nat then
          ({| h_last := Some last; h_tol := filter (fun x => negb (key_eqb x (min_key k l))) l |},
           Some (last + c_dur c))
        else ({| h_last := Some last; h_tol := l |}, None)
      else ({| h_last := Some last; h_tol := h_tol h |}, None)
  end.

(** ban/mod.rs 7-11 CurrentBan *)
Record ban := { b_until : N; b_key : key }.
(** journal records: storage tables, only what restore reads *)
Inductive kind := REvent (tag : N) (related : bool) | RBanned (until : N) | RUnbanned.
Record record := { r_key : key; r_peer : N; r_kind : kind }.
(** ban/mod.rs 13-24 UpdaterQueueItem *)
Inductive item := IEvent (p tag : N) (store related : bool) | IBanned (p : N) (b : ban) | IUnban (p : N).

Record st := {
  events : N -> N -> hist;      (* BanCache::events, per peer and tag *)
  cur : N -> option ban;        (* CurrentBans *)
  net : N -> bool;              (* banned in the PeerSchedule *)
  chan : list item;             (* updates_tx *)
  sched : N -> option ban;      (* UnbanScheduler::last_bans with its entries in the delay queue *)
  journal : list record;
  now : N; seq : N;
  crashed : bool                (* some assertion failed *)
}.

Definition put {A} (p : N) (v : A) (f : N -> A) : N -> A := fun x => if x =? p then v else f x.

(** what a caller or requester is told *)
Inductive out := ONone | OBanned (ok : bool) | OUnbanned (ok : bool).

Section Moderator.
Context (conf : config).

Definition crash (s : st) : st * out :=
  ({| events := events s; cur := cur s; net := net s; chan := chan s; sched := sched s;
      journal := journal s; now := now s; seq := seq s; crashed := true |}, ONone).

(** current_bans.rs 17-37 CurrentBans::upsert: [None] if a ban at least as long is there *)
Definition upsert (c : N -> option ban) (p : N) (b : ban) : option ((N -> option ban) * bool) :=
  match c p with
  | Some old => if b_until old <? b_until b then Some (put p (Some b) c, false) else None
  | None => Some (put p (Some b) c, true)
  end.

(** cache.rs 139-166 and 173-184, state.rs 58-90: an upsert, its message to the scheduler, and the ban at
    network level if it is the first *)
Definition apply_ban (s : st) (p : N) (b : ban) : st * bool :=
  match upsert (cur s) p b with
  | Some (c, first) =>
      ({| events := events s; cur := c; net := if first then put p true (net s) else net s;
          chan := chan s ++ [IBanned p b]; sched := sched s; journal := journal s;
          now := now s; seq := seq s; crashed := crashed s |}, true)
  | None => (s, false)
  end.

(** record_key.rs 11-28: a new key *)
Definition new_key (s : st) : key := {| k_time := now s; k_seq := seq s |}.
Definition with_key (s : st) : st :=
  {| events := events s; cur := cur s; net := net s; chan := chan s; sched := sched s;
     journal := journal s; now := now s; seq := seq s + 1; crashed := crashed s |}.
Definition log (s : st) (r : record) : st :=
  {| events := events s; cur := cur s; net := net s; chan := chan s; sched := sched s;
     journal := journal s ++ [r]; now := now s; seq := seq s; crashed := crashed s |}.
Definition with_events (s : st) (e : N -> N -> hist) : st :=
  {| events := e; cur := cur s; net := net s; chan := chan s; sched := sched s;
     journal := journal s; now := now s; seq := seq s; crashed := crashed s |}.
Definition send (s : st) (i : item) : st :=
  {| events := events s; cur := cur s; net := net s; chan := chan s ++ [i]; sched := sched s;
     journal := journal s; now := now s; seq := seq s; crashed := crashed s |}.

(** core.rs 201-258 on_event, with cache.rs 139-166 maybe_ban *)
Definition on_event (s : st) (p tag : N) (store related : bool) : st :=
  if store then
    let k := new_key s in
    let s1 := log (with_key s) {| r_key := k; r_peer := p; r_kind := REvent tag related |} in
    if related then
      let '(h, u) := maybe_ban_until (conf tag) k (events s1 p tag) in
      let s2 := with_events s1 (put p (put tag h (events s1 p)) (events s1)) in
      match u with
      | Some until =>
          let b := {| b_until := until; b_key := new_key s2 |} in
          let '(s3, _) := apply_ban (with_key s2) p b in
          log s3 {| r_key := b_key b; r_peer := p; r_kind := RBanned until |}
      | None => s2
      end
    else s1
  else s.

(** cache.rs 189-204 BanCache::unban: [None] is a panic *)
Definition unban (s : st) (p expected : N) : option (st * bool) :=
  match cur s p with
  | Some b =>
      if b_until b <? expected then None
      else if b_until b =? expected then
        Some ({| events := events s; cur := put p None (cur s); net := put p false (net s); chan := chan s;
                 sched := sched s; journal := journal s; now := now s; seq := seq s; crashed := crashed s |}, true)
      else Some (s, false)
  | None => None
  end.

Definition with_sched (s : st) (f : N -> option ban) : st :=
  {| events := events s; cur := cur s; net := net s; chan := chan s; sched := f;
     journal := journal s; now := now s; seq := seq s; crashed := crashed s |}.
Definition with_chan (s : st) (c : list item) : st :=
  {| events := events s; cur := cur s; net := net s; chan := c; sched := sched s;
     journal := journal s; now := now s; seq := seq s; crashed := crashed s |}.

(** the end of core.rs 280-325 and 327-362: unban and log it *)
Definition do_unban (s : st) (p expected : N) (manual : bool) : st * out :=
  match unban s p expected with
  | None => crash s
  | Some (s1, true) =>
      (log (with_key s1) {| r_key := new_key s1; r_peer := p; r_kind := RUnbanned |},
       if manual then OUnbanned true else ONone)
  | Some (s1, false) => (s1, if manual then OUnbanned false else ONone)
  end.

Inductive op :=
| OTick (d : N)                                   (* time passes *)
| OReport (p tag : N) (store related : bool)      (* core.rs 92-96 *)
| OManualBan (p until : N)                        (* core.rs 98-122 *)
| OManualUnban (p : N)                            (* core.rs 124-135 *)
| ORecv                                           (* core.rs 166-199: the scheduler takes a message *)
| OAuto (p : N)                                   (* core.rs 166-199: an entry of the delay queue is due *)
| ORestart (ps : list N).                         (* the node starts again; peers in any order *)

(** *** Restore *)
(** cache.rs 46-59 Temp: the end of a ban, and its key if it comes from the journal *)
Definition temp := (N * option key)%type.
Record rst := { rs_events : N -> N -> hist; rs_temp : N -> option temp }.
(** cache.rs 61-104: one record *)
Definition restore_one (at_ : N) (r : rst) (x : record) : rst :=
  let p := r_peer x in
  match r_kind x with
  | REvent tag related =>
      if related then
        let '(h, u) := maybe_ban_until (conf tag) (r_key x) (rs_events r p tag) in
        let ev := put p (put tag h (rs_events r p)) (rs_events r) in
        match u with
        | Some until =>
            if (at_ <? until) && match rs_temp r p with None => true | Some (o, _) => o <? until end then
              {| rs_events := ev; rs_temp := put p (Some (until, None)) (rs_temp r) |}
            else {| rs_events := ev; rs_temp := rs_temp r |}
        | None => {| rs_events := ev; rs_temp := rs_temp r |}
        end
      else r                                      (* store.rs 60-64: not loaded *)
  | RBanned until =>
      if (at_ <? until) && match rs_temp r p with None => true | Some (o, _) => o <=? until end then
        {| rs_events := rs_events r; rs_temp := put p (Some (until, Some (r_key x))) (rs_temp r) |}
      else r
  | RUnbanned => {| rs_events := rs_events r; rs_temp := put p None (rs_temp r) |}
  end.
Definition rst0 : rst := {| rs_events := fun _ _ => h_empty; rs_temp := fun _ => None |}.
Definition restore (at_ : N) (j : list record) : rst := fold_left (restore_one at_) j rst0.

(** cache.rs 106-137: a restored ban is stored and sent on; one that was not in the journal gets a key and a
    record.  state.rs 33-50, 52-56: all of them reach the network level *)
Definition install (t : N -> option temp) (s : st) (p : N) : st :=
  match t p with
  | None => s
  | Some (u, Some k) =>
      send {| events := events s; cur := match upsert (cur s) p {| b_until := u; b_key := k |} with Some (c, _) => c | None => cur s end;
              net := put p true (net s); chan := chan s; sched := sched s; journal := journal s;
              now := now s; seq := seq s; crashed := crashed s |} (IBanned p {| b_until := u; b_key := k |})
  | Some (u, None) =>
      let b := {| b_until := u; b_key := new_key s |} in
      log (send {| events := events s; cur := match upsert (cur s) p b with Some (c, _) => c | None => cur s end;
                   net := put p true (net s); chan := chan s; sched := sched s; journal := journal s;
                   now := now s; seq := seq s + 1; crashed := crashed s |} (IBanned p b))
          {| r_key := b_key b; r_peer := p; r_kind := RBanned u |}
  end.
(** impl_.rs 40-120, ban/core.rs 76-90: a new moderator over the journal; [ps] are the peers in the order of a hash map *)
Definition fresh_start (r : rst) (j : list record) (t : N) : st :=
  {| events := rs_events r; cur := fun _ => None; net := fun _ => false; chan := []; sched := fun _ => None;
     journal := j; now := t; seq := 1; crashed := false |}.
Definition start (j : list record) (t : N) (ps : list N) : st :=
  let r := restore t j in fold_left (install (rs_temp r)) ps (fresh_start r j t).

Definition step (s : st) (o : op) : st * out :=
  if crashed s then (s, ONone) else
  match o with
  | OTick d =>
      ({| events := events s; cur := cur s; net := net s; chan := chan s; sched := sched s;
          journal := journal s; now := now s + d; seq := seq s; crashed := crashed s |}, ONone)
  | OReport p tag store related => (send s (IEvent p tag store related), ONone)
  | OManualBan p until =>
      let b := {| b_until := until; b_key := new_key s |} in
      let '(s1, ok) := apply_ban (with_key s) p b in
      if ok then (log s1 {| r_key := b_key b; r_peer := p; r_kind := RBanned until |}, OBanned true)
      else (s1, OBanned false)
  | OManualUnban p => (send s (IUnban p), ONone)
  | ORecv =>
      match chan s with
      | [] => (s, ONone)
      | i :: rest =>
          let s := with_chan s rest in
          match i with
          | IEvent p tag store related => (on_event s p tag store related, ONone)
          | IBanned p b =>                           (* core.rs 260-278 on_banned *)
              match sched s p with
              | Some old => if b_until old <? b_until b then (with_sched s (put p (Some b) (sched s)), ONone) else crash s
              | None => (with_sched s (put p (Some b) (sched s)), ONone)
              end
          | IUnban p =>                              (* core.rs 280-325 on_manual_unban *)
              match sched s p with
              | None => (s, OUnbanned false)
              | Some b => do_unban (with_sched s (put p None (sched s))) p (b_until b) true
              end
          end
      end
  | OAuto p =>
      match sched s p with
      | Some b => if b_until b <=? now s then do_unban (with_sched s (put p None (sched s))) p (b_until b) false
                  else (s, ONone)
      | None => (s, ONone)
      end
  | ORestart ps => (start (journal s) (now s + 1) ps, ONone)   (* a restart takes at least a millisecond *)
  end.
Definition run (s : st) (l : list op) : st := fold_left (fun s o => fst (step s o)) l s.
Definition init : st := start [] 0 [].

(** A restart installs the restored bans in some order, each once. *)
Definition enumerates (t : N -> option temp) (ps : list N) : Prop :=
  NoDup ps /\ forall p, In p ps <-> t p <> None.
Fixpoint fair (s : st) (l : list op) : Prop :=
  match l with
  | [] => True
  | o :: r =>
      match o with ORestart ps => enumerates (rs_temp (restore (now s + 1) (journal s))) ps | _ => True end
      /\ fair (fst (step s o)) r
  end.

(** *** What of the journal is read: store.rs 41-75 and impl_.rs 55-77 *)
Definition loaded (special_since all_since : N) (j : list record) : list record :=
  filter (fun x =>
    (N.min special_since all_since <=? k_time (r_key x)) &&
    if k_time (r_key x) <? all_since then match r_kind x with REvent _ _ => false | _ => true end
    else true) j.
End Moderator.
