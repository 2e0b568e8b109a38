(** The table of active peers: additions by the manager, removals by any thread, events to subscribers.

    Models network/src/network/connection_manager.rs 980-1150 ([ActivePeers]). The shard lock of the entry is held from the lookup
    of an addition to its end (its match arm); a removal takes the entry in one step under that lock; the counter and the events of a removal, and
    the event of an addition, come after it. There is one manager, so one addition at a time ([next]
    stays as it is when it cannot begin). Channel capacity and metrics are not modelled. *)
From Coq Require Import List Bool Arith NArith.
From Verif Require Import CmModel.
Import ListNotations.

Inductive note := New (p : peer) | Lost (p : peer).
Record table := Tab {
  b_map : list conn; b_len : nat; b_log : list note; b_closed : list N;
  b_adding : option conn;            (* the counter is up, the insertion is to come: the entry is locked *)
  b_new : option peer;               (* the event of the addition is to come *)
  b_removing : list (peer * bool) }. (* taken out; [true]: the counter is still to go down; then the event *)
Definition fresh : table := Tab [] 0 [] [] None None [].
Definition at_peer (p : peer) (c : conn) : bool := (c_peer c =? p)%N.
Inductive op :=
| AStart (c : conn) | AInsert | ANew
| RTake (p : peer) (id : option N)   (* [remove], or [remove_with_stable_id] *)
| RDec (i : nat) | RSend (i : nat).
Fixpoint set_nth {A} (i : nat) (x : A) (l : list A) : list A := match i, l with _, [] => [] | O, _ :: r => x :: r | S i, y :: r => y :: set_nth i x r end.
Fixpoint del_nth {A} (i : nat) (l : list A) : list A := match i, l with _, [] => [] | O, _ :: r => r | S i, y :: r => y :: del_nth i r end.
Definition locked (p : peer) (t : table) : bool := match b_adding t with Some c => at_peer p c | None => false end.
Definition taken (id : option N) (c : conn) : bool := match id with None => true | Some i => (c_id c =? i)%N end.
Definition next (local : peer) (t : table) (o : op) : table :=
  match o with
  | AStart c =>
      match b_adding t, b_new t with
      | None, None =>
          match find (at_peer (c_peer c)) (b_map t) with
          | Some old =>
              if tie_breaking local (c_peer c) (c_origin old) (c_origin c)
              then Tab (filter (fun x => negb (at_peer (c_peer c) x)) (b_map t) ++ [c]) (b_len t) (b_log t ++ [Lost (c_peer c)]) (b_closed t ++ [c_id old]) None (Some (c_peer c)) (b_removing t)
              else Tab (b_map t) (b_len t) (b_log t) (b_closed t ++ [c_id c]) None None (b_removing t)
          | None => Tab (b_map t) (S (b_len t)) (b_log t) (b_closed t) (Some c) None (b_removing t)
          end
      | _, _ => t
      end
  | AInsert => match b_adding t with Some c => Tab (b_map t ++ [c]) (b_len t) (b_log t) (b_closed t) None (Some (c_peer c)) (b_removing t) | None => t end
  | ANew => match b_new t with Some p => Tab (b_map t) (b_len t) (b_log t ++ [New p]) (b_closed t) (b_adding t) None (b_removing t) | None => t end
  | RTake p id =>
      if locked p t then t
      else match find (at_peer p) (b_map t) with
           | Some c => if taken id c then Tab (filter (fun x => negb (at_peer p x)) (b_map t)) (b_len t) (b_log t) (b_closed t ++ [c_id c]) (b_adding t) (b_new t) (b_removing t ++ [(p, true)]) else t
           | None => t
           end
  | RDec i => match nth_error (b_removing t) i with Some (p, true) => Tab (b_map t) (b_len t - 1) (b_log t) (b_closed t) (b_adding t) (b_new t) (set_nth i (p, false) (b_removing t)) | _ => t end
  | RSend i => match nth_error (b_removing t) i with Some (p, false) => Tab (b_map t) (b_len t) (b_log t ++ [Lost p]) (b_closed t) (b_adding t) (b_new t) (del_nth i (b_removing t)) | _ => t end
  end.
Definition runs (local : peer) (t : table) (l : list op) : table := fold_left (next local) l t.
Definition at_rest (t : table) : Prop := b_adding t = None /\ b_new t = None /\ b_removing t = [].

(** ** Two nodes, and the connections between them *)
(** a link is dialed by the node with the smaller id ([l_small]) or by the other *)
Record link := Link { l_id : N; l_small : bool }.
Inductive side := Small | Great.
Definition seen (a b : peer) (x : side) (l : link) : conn :=
  match x with
  | Small => Conn (l_id l) b (if l_small l then Outbound else Inbound)
  | Great => Conn (l_id l) a (if l_small l then Inbound else Outbound)
  end.
Record pair := Pair { p_small : option link; p_great : option link; p_closed : list link }.
Definition slot (x : side) (s : pair) : option link := match x with Small => p_small s | Great => p_great s end.
Definition set_slot (x : side) (o : option link) (cl : list link) (s : pair) : pair := match x with Small => Pair o (p_great s) (p_closed s ++ cl) | Great => Pair (p_small s) o (p_closed s ++ cl) end.
Inductive move :=
| Add (x : side) (l : link)    (* the handshake is over on this side: the link is added to its table *)
| See (x : side) (l : link).   (* this side's handler sees that the link was closed, and removes it *)
Definition of (a b : peer) (x : side) : peer * peer := match x with Small => (a, b) | Great => (b, a) end.
Definition is_link (l m : link) : bool := (l_id l =? l_id m)%N && Bool.eqb (l_small l) (l_small m).
Definition move_ (a b : peer) (s : pair) (m : move) : pair :=
  match m with
  | Add x l =>
      match slot x s with
      | None => set_slot x (Some l) [] s
      | Some old =>
          let '(me, other) := of a b x in
          if tie_breaking me other (c_origin (seen a b x old)) (c_origin (seen a b x l))
          then set_slot x (Some l) [old] s else set_slot x (Some old) [l] s
      end
  | See x l =>
      match slot x s with
      | Some m => if is_link l m && existsb (is_link l) (p_closed s) then set_slot x None [] s else s
      | None => s
      end
  end.
Definition moves (a b : peer) (l : list move) : pair := fold_left (move_ a b) l (Pair None None []).
