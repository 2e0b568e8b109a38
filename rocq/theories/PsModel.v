(** The mempool's peer schedule: which validators belong to which round, and which of them can
    be contacted.

    Models consensus/src/intercom/peer_schedule/{epoch_starts,stateful,stateless,locked,impl_,
    stats_ranges}.rs and the choice of the round at which a new validator set takes over,
    collator/src/collator/do_collate/finalize.rs 1386-1570 ([vset_update_start]).

    Peers and rounds are numbers ([PeerId] is compared only for equality; [Round] is a [u32],
    modelled without the upper bound). A [FastHashMap]/[FastHashSet] is a list, read by
    membership or by the first entry of a key. Arrays of four slots are [quad]s. Metrics and log
    messages are left out. A failed [assert!]/[expect] is [None]. *)
From Coq Require Import List Bool NArith Lia.
Import ListNotations.
Local Open Scope N_scope.

Definition peer := N.
Definition round := N.

Definition mem (p : peer) (l : list peer) : bool := existsb (N.eqb p) l.
Definition del (p : peer) (l : list peer) : list peer := filter (fun q => negb (q =? p)) l.
Definition add (p : peer) (l : list peer) : list peer := if mem p l then l else p :: l.

(** [FastHashMap<PeerId, PeerState>]: [true] is [PeerState::Resolved], [false] is [Unknown]
    (impl_.rs 41-47). *)
Definition states := list (peer * bool).
Fixpoint look (p : peer) (m : states) : option bool :=
  match m with
  | [] => None
  | (q, b) :: r => if p =? q then Some b else look p r
  end.
Definition has (p : peer) (m : states) : bool := match look p m with Some _ => true | None => false end.
Definition put (p : peer) (b : bool) (m : states) : states :=
  map (fun e => if fst e =? p then (fst e, b) else e) m.

Record quad (A : Type) := Quad { q0 : A; q1 : A; q2 : A; q3 : A }.
Arguments Quad {A}. Arguments q0 {A}. Arguments q1 {A}. Arguments q2 {A}. Arguments q3 {A}.
(** [rotate_left(1)] *)
Definition rot {A} (q : quad A) : quad A := Quad (q1 q) (q2 q) (q3 q) (q0 q).
Definition at_slot {A} (q : quad A) (i : nat) : A :=
  match i with O => q0 q | 1%nat => q1 q | 2%nat => q2 q | _ => q3 q end.

(** ** epoch_starts.rs *)

(** epoch_starts.rs 6-9 *)
Record starts := Starts { s_old : round; s_prev : round; s_curr : round; s_next : option round }.
(** epoch_starts.rs 11-18: [Round::BOTTOM] is 0 *)
Definition starts0 := Starts 0 0 0 None.
(** epoch_starts.rs 40-52 *)
Definition arr_idx (s : starts) (r : round) : option nat :=
  if match s_next s with Some n => n <=? r | None => false end then Some 3%nat
  else if s_curr s <=? r then Some 2%nat
  else if s_prev s <=? r then Some 1%nat
  else if s_old s <=? r then Some 0%nat
  else None.
(** epoch_starts.rs 33-38 *)
Definition epoch_start (s : starts) (r : round) : option round :=
  match arr_idx s r with
  | None => None
  | Some i => match i with
              | 3%nat => s_next s
              | 2%nat => Some (s_curr s)
              | 1%nat => Some (s_prev s)
              | _ => Some (s_old s)
              end
  end.
(** epoch_starts.rs 54-65 *)
Definition rotate_starts (s : starts) : option starts :=
  match s_next s with
  | Some n => if s_curr s <? n then Some (Starts (s_prev s) (s_curr s) n None) else None
  | None => None
  end.
Definition with_next (s : starts) (n : round) : starts := Starts (s_old s) (s_prev s) (s_curr s) (Some n).

(** ** stateful.rs *)

(** stateful.rs 12-23 *)
Record ful := Ful {
  f_vset : quad states;
  f_sub : quad states;
  f_starts : starts;
  f_recv : list peer;
  f_all : list peer;
  f_forget : list peer }.
Definition ful0 := Ful (Quad [] [] [] []) (Quad [] [] [] []) starts0 [] [] [].

(** stateful.rs 32-34 *)
Definition in_any_vset (f : ful) (p : peer) : bool :=
  has p (q0 (f_vset f)) || has p (q1 (f_vset f)) || has p (q2 (f_vset f)) || has p (q3 (f_vset f)).
(** stateful.rs 37-44 *)
Definition peers_state_for (f : ful) (r : round) : states :=
  match arr_idx (f_starts f) r with Some i => at_slot (f_sub f) i | None => [] end.
(** stateful.rs 47-51 *)
Definition peer_state (f : ful) (p : peer) : bool := mem p (f_all f).

Definition differs (p : peer) (st : bool) (m : states) : bool :=
  match look p m with Some old => negb (Bool.eqb old st) | None => false end.
Definition upd_sub (p : peer) (st : bool) (m : states) : states :=
  if differs p st m then put p st m else m.
(** stateful.rs 55-92 *)
Definition set_state (f : ful) (p : peer) (st : bool) : ful * bool :=
  let v := f_vset f in
  let a := f_sub f in
  let v' := Quad (upd_sub p st (q0 v)) (upd_sub p st (q1 v)) (upd_sub p st (q2 v)) (upd_sub p st (q3 v)) in
  let a' := Quad (upd_sub p st (q0 a)) (upd_sub p st (q1 a)) (upd_sub p st (q2 a)) (upd_sub p st (q3 a)) in
  let is_recv := differs p st (q2 a) || differs p st (q3 a) in
  let applied := differs p st (q0 a) || differs p st (q1 a) || is_recv in
  if applied then
    (Ful v' a' (f_starts f)
       (if is_recv then (if st then add p (f_recv f) else del p (f_recv f)) else f_recv f)
       (if st then add p (f_all f) else del p (f_all f))
       (f_forget f), true)
  else (Ful v' a' (f_starts f) (f_recv f) (f_all f) (f_forget f), false).

Definition dels (ps : list peer) (l : list peer) : list peer := filter (fun q => negb (mem q ps)) l.
Definition of_peers (all : list peer) (ps : list peer) : states :=
  map (fun p => (p, mem p all)) (nodup N.eq_dec ps).
(** stateful.rs 96-131 *)
Definition set_next_validator_set (f : ful) (ps : list peer) (all : list peer) : ful * list peer :=
  let v := f_vset f in
  let nv := of_peers all ps in
  let fg := filter (fun p => negb (has p (q0 v) || has p (q1 v) || has p (q2 v) || has p nv)) (map fst (q3 v)) in
  (Ful (Quad (q0 v) (q1 v) (q2 v) nv) (f_sub f) (f_starts f) (dels fg (f_recv f)) all (f_forget f ++ fg), fg).

Definition resolved_of (m : states) : list peer := map fst (filter snd m).
(** stateful.rs 133-153 *)
Definition set_next_subset_f (f : ful) (ps : list (peer * N)) : ful :=
  let a := f_sub f in
  let na := of_peers (f_all f) (map fst ps) in
  Ful (f_vset f) (Quad (q0 a) (q1 a) (q2 a) na) (f_starts f)
      (nodup N.eq_dec (resolved_of (q2 a) ++ resolved_of na)) (f_all f) (f_forget f).

(** stateful.rs 156-166 *)
Definition rotate_f (f : ful) : option ful :=
  match q0 (f_vset f), q0 (f_sub f) with
  | [], [] =>
      match rotate_starts (f_starts f) with
      | Some s => Some (Ful (rot (f_vset f)) (rot (f_sub f)) s (f_recv f) (f_all f) (f_forget f))
      | None => None
      end
  | _, _ => None
  end.

(** stateful.rs 170-189 *)
Definition forget_oldest_f (f : ful) : ful * list peer :=
  let v := f_vset f in
  let gone := filter (fun e => negb (has (fst e) (q1 v)) && negb (has (fst e) (q2 v)) && negb (has (fst e) (q3 v))) (q0 v) in
  let fg := map fst gone in
  let off := map fst (filter snd gone) in
  (Ful (Quad [] (q1 v) (q2 v) (q3 v)) (Quad [] (q1 (f_sub f)) (q2 (f_sub f)) (q3 (f_sub f)))
       (f_starts f) (dels off (f_recv f)) (dels off (f_all f)) (f_forget f ++ fg), fg).

(** ** stateless.rs *)

(** stateless.rs 15-30: the empty collections are left out *)
Record less := Less {
  l_local : peer;
  l_slots : quad (list (peer * N));
  l_vec : quad (list peer);
  l_set : quad (list peer);
  l_banned : list peer;
  l_starts : starts }.
(** stateless.rs 39-54 *)
Definition less0 (local : peer) := Less local (Quad [] [] [] []) (Quad [] [] [] []) (Quad [] [] [] []) [] starts0.

(** stateless.rs 102-109 *)
Definition peers_ordered_for (l : less) (r : round) : list peer :=
  match arr_idx (l_starts l) r with Some i => at_slot (l_vec l) i | None => [] end.
(** stateless.rs 111-118 *)
Definition peers_for (l : less) (r : round) : list peer :=
  match arr_idx (l_starts l) r with Some i => at_slot (l_set l) i | None => [] end.
(** stateless.rs 131-133 *)
Definition is_banned (l : less) (p : peer) : bool := mem p (l_banned l).
(** stateless.rs 122-129 *)
Definition is_in_active_v_subset (l : less) (p : peer) : bool :=
  if mem p (q2 (l_set l)) then negb (is_banned l p)
  else if mem p (q1 (l_set l)) then negb (is_banned l p)
  else if mem p (q3 (l_set l)) then negb (is_banned l p)
  else if mem p (q0 (l_set l)) then negb (is_banned l p)
  else false.
(** stateless.rs 86-93: whether the node may use its key for the round *)
Definition local_keys (l : less) (r : round) : bool := mem (l_local l) (peers_for l r).
(** stateless.rs 32-36, 74-84 *)
Record key_group := Keys { to_produce : bool; to_include : bool; to_witness : bool }.
Definition keys_at (l : less) (current : round) : key_group :=
  let inc := local_keys l (current + 1) in
  let pro := local_keys l current in
  Keys pro inc (if inc then pro else false).

(** [sort_unstable_by_key] on the position in the blockchain config: with equal keys any order
    is possible, here that of a stable sort *)
Fixpoint ins_idx (e : peer * N) (l : list (peer * N)) : list (peer * N) :=
  match l with
  | [] => [e]
  | x :: r => if snd e <=? snd x then e :: l else x :: ins_idx e r
  end.
Definition sort_idx (l : list (peer * N)) : list (peer * N) := fold_right ins_idx [] l.
Fixpoint enum_from (i : N) (l : list (peer * N)) : list (peer * N) :=
  match l with [] => [] | (p, _) :: r => (p, i) :: enum_from (i + 1) r end.

(** stateless.rs 143-160 *)
Definition set_next_peers (l : less) (start : round) (ps : list (peer * N)) : less :=
  let s := l_slots l in let v := l_vec l in let t := l_set l in
  Less (l_local l)
       (Quad (q0 s) (q1 s) (q2 s) (enum_from 0 (sort_idx ps)))
       (Quad (q0 v) (q1 v) (q2 v) (map fst ps))
       (Quad (q0 t) (q1 t) (q2 t) (map fst ps))
       (l_banned l) (with_next (l_starts l) start).
(** stateless.rs 162-164 *)
Definition insert_banned (l : less) (ps : list peer) : less :=
  Less (l_local l) (l_slots l) (l_vec l) (l_set l) (fold_left (fun b p => add p b) ps (l_banned l)) (l_starts l).
(** stateless.rs 166-170 *)
Definition remove_banned (l : less) (ps : list peer) : less :=
  Less (l_local l) (l_slots l) (l_vec l) (l_set l) (fold_left (fun b p => del p b) ps (l_banned l)) (l_starts l).
(** stateless.rs 188-193 *)
Definition forget_oldest_s (l : less) : less :=
  let s := l_slots l in let v := l_vec l in let t := l_set l in
  Less (l_local l) (Quad [] (q1 s) (q2 s) (q3 s)) (Quad [] (q1 v) (q2 v) (q3 v)) (Quad [] (q1 t) (q2 t) (q3 t))
       (l_banned l) (l_starts l).
(** stateless.rs 173-186 *)
Definition rotate_s (l : less) : option less :=
  match q0 (l_set l), q0 (l_vec l) with
  | [], [] =>
      match rotate_starts (l_starts l) with
      | Some s => Some (Less (l_local l) (rot (l_slots l)) (rot (l_vec l)) (rot (l_set l)) (l_banned l) s)
      | None => None
      end
  | _, _ => None
  end.

(** stats_ranges.rs 28-39 (the bound of [u32] on the sum is left out) *)
Definition stats_since (l : less) (lag : N) (anchor : round) : option round :=
  let a := epoch_start (l_starts l) anchor in
  let b := epoch_start (l_starts l) (anchor + lag) in
  match a, b with
  | Some x, Some y => if x =? y then a else None
  | None, None => a
  | _, _ => None
  end.
(** stats_ranges.rs 41-49 *)
Definition stats_slot_map (l : less) (anchor : round) : option (list (peer * N)) :=
  match arr_idx (l_starts l) anchor with
  | Some i => match at_slot (l_slots l) i with [] => None | m => Some m end
  | None => None
  end.

(** ** locked.rs *)

(** locked.rs 11-26. [k_entries] are the overlay's entries with "the handle is resolved"; the
    flag of a handle is never taken back (network/src/dht/peer_resolver.rs 514-517).
    [k_wait] are the peers that the current resolve task waits for. [k_sent] is everything sent
    to [updates], oldest first. *)
Record locked := Locked {
  k_local : peer;
  k_entries : states;
  k_wait : list peer;
  k_banned : list peer;
  k_sent : list (peer * bool);
  k_data : ful }.
(** locked.rs 29-38 *)
Definition locked0 (local : peer) := Locked local [] [] [] [] ful0.

(** network/src/overlay/private_overlay.rs 263-288: [net] tells whether the resolver already
    knows the peer when the handle is made *)
Definition e_insert (net : peer -> bool) (p : peer) (m : states) : states := if has p m then m else m ++ [(p, net p)].
(** network/src/overlay/private_overlay.rs 293-301 *)
Definition e_remove (p : peer) (m : states) : states := filter (fun e => negb (fst e =? p)) m.
Definition e_removes (ps : list peer) (m : states) : states := fold_left (fun m p => e_remove p m) ps m.
(** impl_.rs 306-319 *)
Definition resolved_waiters (m : states) (local : peer) : list peer :=
  map fst (filter (fun e => negb ((fst e =? local) || snd e)) m).

(** locked.rs 46-52 *)
Definition set_resolved (k : locked) (p : peer) : locked :=
  let '(d, ok) := set_state (k_data k) p true in
  Locked (k_local k) (k_entries k) (k_wait k) (k_banned k)
         (if ok then k_sent k ++ [(p, true)] else k_sent k) d.

(** locked.rs 57-69: one peer of [set_banned]; the flag is [need_resolve] *)
Definition ban_one (kb : locked * bool) (p : peer) : locked * bool :=
  let (k, need) := kb in
  let e := e_remove p (k_entries k) in
  let b := add p (k_banned k) in
  if in_any_vset (k_data k) p then
    let '(d, ok) := set_state (k_data k) p false in
    (Locked (k_local k) e (k_wait k) b (if ok then k_sent k ++ [(p, false)] else k_sent k) d, need || ok)
  else (Locked (k_local k) e (k_wait k) b (k_sent k) (k_data k), need).
Definition new_task (k : locked) : locked :=
  Locked (k_local k) (k_entries k) (resolved_waiters (k_entries k) (k_local k)) (k_banned k) (k_sent k) (k_data k).
(** locked.rs 54-76 *)
Definition set_banned_k (k : locked) (ps : list peer) : locked :=
  let '(k1, need) := fold_left ban_one ps (k, false) in
  if need then new_task k1 else k1.

(** locked.rs 81-98: one peer of [remove_bans] *)
Definition unban_one (net : peer -> bool) (kb : locked * bool) (p : peer) : locked * bool :=
  let (k, need) := kb in
  let b := del p (k_banned k) in
  if in_any_vset (k_data k) p then
    let e := e_insert net p (k_entries k) in
    if match look p e with Some true => true | _ => false end then
      let '(d, ok) := set_state (k_data k) p true in
      (Locked (k_local k) e (k_wait k) b (if ok then k_sent k ++ [(p, true)] else k_sent k) d, need)
    else (Locked (k_local k) e (k_wait k) b (k_sent k) (k_data k), true)
  else (Locked (k_local k) (k_entries k) (k_wait k) b (k_sent k) (k_data k), need).
(** locked.rs 78-105 *)
Definition remove_bans_k (net : peer -> bool) (k : locked) (ps : list peer) : locked :=
  let '(k1, need) := fold_left (unban_one net) ps (k, false) in
  if need then new_task k1 else k1.

(** locked.rs 107-121 *)
Definition forget_oldest_k (k : locked) : locked :=
  let '(d, fg) := forget_oldest_f (k_data k) in
  new_task (Locked (k_local k) (e_removes fg (k_entries k)) (k_wait k) (k_banned k) (k_sent k) d).

(** locked.rs 123-150 *)
Definition set_next_set (net : peer -> bool) (k : locked) (vset : list peer) : locked :=
  let e := fold_left (fun m p => if mem p (k_banned k) then m else e_insert net p m) vset (k_entries k) in
  let all := map fst (filter (fun x => snd x && negb (fst x =? k_local k)) e) in
  let '(d, fg) := set_next_validator_set (k_data k) vset all in
  new_task (Locked (k_local k) (e_removes fg e) (k_wait k) (k_banned k) (k_sent k) d).

(** ** impl_.rs *)

(** impl_.rs 36-39 *)
Record ps := Ps { p_lock : locked; p_less : less }.
(** impl_.rs 85-91 *)
Definition ps0 (local : peer) := Ps (locked0 local) (less0 local).

(** an epoch as the callers give it: first round, whole set, working subset with positions *)
Record epoch := Epoch { e_start : round; e_vset : list peer; e_sub : list (peer * N) }.
(** impl_.rs 53-65 [InitPeers] *)
Record init_peers := Init { ip_prev : epoch; ip_curr : epoch; ip_next : list peer }.

Definition with_data (k : locked) (d : ful) : locked :=
  Locked (k_local k) (k_entries k) (k_wait k) (k_banned k) (k_sent k) d.
Definition next_of (f : ful) (n : round) : ful :=
  Ful (f_vset f) (f_sub f) (with_next (f_starts f) n) (f_recv f) (f_all f) (f_forget f).

(** impl_.rs 200-242 *)
Definition set_next_subset (net : peer -> bool) (x : ps) (e : epoch) : ps :=
  if (e_start e <=? s_curr (f_starts (k_data (p_lock x)))) || match e_sub e with [] => true | _ => false end then x
  else
    let k := set_next_set net (p_lock x) (e_vset e) in
    let d := next_of (set_next_subset_f (k_data k) (e_sub e)) (e_start e) in
    Ps (with_data k d) (set_next_peers (p_less x) (e_start e) (e_sub e)).

Definition not_due (n : option round) (current : round) : bool :=
  match n with None => true | Some s => current <? s end.
(** impl_.rs 253-278 *)
Definition apply_impl (x : ps) (current : round) : option ps :=
  if not_due (s_next (f_starts (k_data (p_lock x)))) current then Some x
  else
    let k := forget_oldest_k (p_lock x) in
    match rotate_f (k_data k) with
    | Some d =>
        match rotate_s (forget_oldest_s (p_less x)) with
        | Some l => Some (Ps (with_data k d) l)
        | None => None
        end
    | None => None
    end.
(** impl_.rs 244-250 *)
Definition apply_scheduled (x : ps) (current : round) : option ps :=
  if not_due (s_next (l_starts (p_less x))) current then Some x else apply_impl x current.

Definition bindp (o : option ps) (f : ps -> option ps) : option ps := match o with Some x => f x | None => None end.
Definition next_vset (net : peer -> bool) (x : ps) (vset : list peer) : ps := Ps (set_next_set net (p_lock x) vset) (p_less x).

(** impl_.rs 93-139; [g] is the genesis round, [author] the genesis author *)
Definition init (net : peer -> bool) (g : round) (author : peer) (ip : init_peers) (x : ps) : option ps :=
  let x1 := set_next_subset net x (Epoch (g - 1) [] [(author, 0)]) in
  bindp (apply_impl x1 (g - 1)) (fun x2 =>
  let ag := g + 1 in
  let after_prev :=
    if ag <? e_start (ip_curr ip) then
      let ps_ := N.max (e_start (ip_prev ip)) ag in
      apply_impl (set_next_subset net x2 (Epoch ps_ (e_vset (ip_prev ip)) (e_sub (ip_prev ip)))) ps_
    else Some x2 in
  bindp after_prev (fun x3 =>
  let cs := N.max (e_start (ip_curr ip)) ag in
  let x4 := set_next_subset net x3 (Epoch cs (e_vset (ip_curr ip)) (e_sub (ip_curr ip))) in
  let x5 := match ip_next ip with
            | [] => Some x4
            | nv => bindp (apply_impl x4 cs) (fun y => Some (next_vset net y nv))
            end in
  bindp x5 (fun y => Some (Ps (new_task (p_lock y)) (p_less y))))).

(** impl_.rs 141-170 *)
Definition set_peers (net : peer -> bool) (ip : init_peers) (x : ps) : option ps :=
  let x1 := set_next_subset net x (ip_prev ip) in
  bindp (apply_impl x1 (e_start (ip_prev ip))) (fun x2 =>
  let x3 := set_next_subset net x2 (ip_curr ip) in
  match ip_next ip with
  | [] => Some x3
  | nv => bindp (apply_impl x3 (e_start (ip_curr ip))) (fun y => Some (next_vset net y nv))
  end).

(** impl_.rs 172-178 *)
Definition set_banned (x : ps) (l : list peer) : ps :=
  match l with [] => x | _ => Ps (set_banned_k (p_lock x) l) (insert_banned (p_less x) l) end.
(** impl_.rs 180-186 *)
Definition remove_bans (net : peer -> bool) (x : ps) (l : list peer) : ps :=
  match l with [] => x | _ => Ps (remove_bans_k net (p_lock x) l) (remove_banned (p_less x) l) end.
(** impl_.rs 196-198 *)
Definition take_forget (x : ps) : ps * list peer :=
  let d := k_data (p_lock x) in
  (Ps (with_data (p_lock x) (Ful (f_vset d) (f_sub d) (f_starts d) (f_recv d) (f_all d) [])) (p_less x), f_forget d).
(** a waiter completes only when its handle is resolved: impl_.rs 314-315 *)
Definition can_fire (k : locked) (p : peer) : bool :=
  mem p (k_wait k) && match look p (k_entries k) with Some false => false | _ => true end.
(** impl_.rs 336-349: the resolve task gets a resolved peer from its waiters *)
Definition task_fires (x : ps) (p : peer) : ps :=
  let k := p_lock x in
  let k1 := Locked (k_local k) (k_entries k) (del p (k_wait k)) (k_banned k) (k_sent k) (k_data k) in
  Ps (if mem p (k_banned k) then
        Locked (k_local k1) (e_remove p (k_entries k1)) (k_wait k1) (k_banned k1) (k_sent k1) (k_data k1)
      else set_resolved k1 p) (p_less x).
(** network/src/dht/peer_resolver.rs 514-517: the network resolves a peer; nothing happens in
    the schedule until the task is polled *)
Definition net_resolves (x : ps) (p : peer) : ps :=
  let k := p_lock x in
  Ps (Locked (k_local k) (put p true (k_entries k)) (k_wait k) (k_banned k) (k_sent k) (k_data k)) (p_less x).

(** Everything that happens to a schedule after [init]. Each call holds the write lock, so it is
    one step; [net] is what the network knows at the time of the call. *)
Inductive op :=
| OPeers (net : peer -> bool) (ip : init_peers)
| OAdvance (r : round)
| OBan (l : list peer)
| OUnban (net : peer -> bool) (l : list peer)
| OForgotten
| ONet (p : peer)
| OTask (p : peer).

Definition do (x : ps) (o : op) : option ps :=
  match o with
  | OPeers net ip => set_peers net ip x
  | OAdvance r => apply_scheduled x r
  | OBan l => Some (set_banned x l)
  | OUnban net l => Some (remove_bans net x l)
  | OForgotten => Some (fst (take_forget x))
  | ONet p => Some (net_resolves x p)
  | OTask p => if can_fire (p_lock x) p then Some (task_fires x p) else Some x
  end.
Fixpoint run (x : ps) (l : list op) : option ps :=
  match l with [] => Some x | o :: r => bindp (do x o) (fun y => run y r) end.

(** ** finalize.rs 1386-1570: the round of the next validator set *)

(** The part of the consensus info and of the config that is used. [c_lag] is
    [max_consensus_lag_rounds], [c_total] is [max_total_rounds()]. *)
Record cinfo := Cinfo { ci_prev : round; ci_switch : round; ci_genesis : round }.
Record kbstart := Kb {
  kb_overridden : bool;     (* is_consensus_info_overridden *)
  kb_config : bool;         (* is_consensus_config_changed *)
  kb_skip : bool;           (* is_curr_switch_after_pause *)
  kb_pause : round;         (* after_pause_round *)
  kb_total : N }.
(** finalize.rs 1429-1438 *)
Definition after_pause_round (processed lag : N) : round := processed + lag + 1.
(** finalize.rs 1405-1427 *)
Definition kb_new (overridden config : bool) (processed lag total : N) (ci : cinfo) : kbstart :=
  let ap := after_pause_round processed lag in
  Kb overridden config (ap <? ci_switch ci) ap total.
(** finalize.rs 1441-1487: the round and the changed consensus info *)
Definition kb_round (k : kbstart) (ci : cinfo) (processed_to : round) : round * cinfo :=
  if kb_overridden k then (ci_genesis ci + 1, ci)
  else if kb_config k then (processed_to + 1, Cinfo (ci_prev ci) (ci_switch ci) processed_to)
  else if kb_skip k then (N.max (kb_pause k) (ci_switch ci), ci)
  else if ci_genesis ci <? ci_switch ci then (N.max (kb_pause k) (ci_switch ci + kb_total k + 1), ci)
  else (kb_pause k, ci).
(** finalize.rs 1522-1538: the consensus info when the validator set or the shuffle flag changed;
    [same] when neither did *)
Definition kb_apply (k : kbstart) (same : bool) (start : round) (ci : cinfo) : cinfo :=
  if same then ci
  else Cinfo (if kb_skip k then ci_prev ci else ci_switch ci) start (ci_genesis ci).
