(** The connection manager: requests to connect, incoming connections, and dialing of wanted peers.

    Models network/src/network/connection_manager.rs 213-915 and 1040-1150 (the table of active peers). One event of
    the loop in [start] (108-190) is one step: it runs in one task. A pending connection is a task that
    gives its result at any later point; an aborted one is reaped as cancelled or gives its result all
    the same (an abort does not stop a task that is in its last poll). The handshake, TLS and addresses
    are not modelled: the result of a task is part of its event. The deques of delayed callbacks by peer
    are one list in the order of pushes. [None] is a panic. Unbounded: identifiers, [last_seqno] (a u32),
    time in some unit. The info of a known peer has one address (the code takes the first). *)
From Coq Require Import List Bool Arith NArith.
Import ListNotations.

Inductive direction := Inbound | Outbound.
Definition peer := N.
Definition addr := N.
Record conn := Conn { c_id : N; c_peer : peer; c_origin : direction }.
(** 1135-1150 *)
Definition tie_breaking (local p : peer) (old new : direction) : bool :=
  match old, new with
  | Inbound, Inbound | Outbound, Outbound => true
  | Inbound, Outbound => (p <? local)%N
  | Outbound, Inbound => (local <? p)%N
  end.
Definition is_outbound (d : direction) : bool := match d with Outbound => true | Inbound => false end.

Inductive result := ROk (c : conn) | RErr (closed : bool) (e : N).
Inductive answer := AOk (c : conn) | AErr (e : N).
(** 695-700 *)
Record pending := Pend { e_seq : N; e_origin : direction; e_cbs : list nat; e_task : nat }.
Record task := Task { t_id : nat; t_addr : addr; t_seq : N; t_peer : peer; t_origin : direction; t_aborted : bool }.
(** 862-867; and its peer *)
Record delayed := Delayed { d_key : nat; d_peer : peer; d_exp : N; d_err : N; d_cbs : list nat }.
(** 890-893 *)
Record backoff := Backoff { b_next : N; b_attempts : N }.
Record config := Cfg { g_local : peer; g_delay : N; g_step : N; g_max : N; g_dials : nat; g_conns : option nat }.

Record state := St {
  s_now : N;
  s_active : list conn;                  (* ActivePeers: at most one of a peer *)
  s_entries : list (addr * pending);     (* pending_connection_callbacks *)
  s_tasks : list task;                   (* pending_connections *)
  s_delayed : list delayed; s_queue : list (nat * peer * N);  (* delayed_callbacks: callbacks, expirations *)
  s_dials : list (peer * nat);           (* pending_dials: the receiver of the callback *)
  s_backoff : list (peer * backoff);     (* dial_backoff_states *)
  s_answers : list (nat * answer);       (* what was sent to the callbacks *)
  s_cb : nat; s_tid : nat; s_key : nat }.
Definition start (now : N) : state := St now [] [] [] [] [] [] [] [] 0 0 0.

Definition set_active l s := St (s_now s) l (s_entries s) (s_tasks s) (s_delayed s) (s_queue s) (s_dials s) (s_backoff s) (s_answers s) (s_cb s) (s_tid s) (s_key s).
Definition set_entries l s := St (s_now s) (s_active s) l (s_tasks s) (s_delayed s) (s_queue s) (s_dials s) (s_backoff s) (s_answers s) (s_cb s) (s_tid s) (s_key s).
Definition set_tasks l s := St (s_now s) (s_active s) (s_entries s) l (s_delayed s) (s_queue s) (s_dials s) (s_backoff s) (s_answers s) (s_cb s) (s_tid s) (s_key s).
Definition set_delayed l q s := St (s_now s) (s_active s) (s_entries s) (s_tasks s) l q (s_dials s) (s_backoff s) (s_answers s) (s_cb s) (s_tid s) (s_key s).
Definition set_dials l b s := St (s_now s) (s_active s) (s_entries s) (s_tasks s) (s_delayed s) (s_queue s) l b (s_answers s) (s_cb s) (s_tid s) (s_key s).
Definition send (cbs : list nat) (a : answer) s := St (s_now s) (s_active s) (s_entries s) (s_tasks s) (s_delayed s) (s_queue s) (s_dials s) (s_backoff s) (s_answers s ++ map (fun k => (k, a)) cbs) (s_cb s) (s_tid s) (s_key s).
Definition new_cb s := St (s_now s) (s_active s) (s_entries s) (s_tasks s) (s_delayed s) (s_queue s) (s_dials s) (s_backoff s) (s_answers s) (S (s_cb s)) (s_tid s) (s_key s).

Definition get_active (p : peer) (s : state) : option conn := find (fun c => (c_peer c =? p)%N) (s_active s).
Definition get_entry (a : addr) (s : state) : option pending := match find (fun x => (fst x =? a)%N) (s_entries s) with Some x => Some (snd x) | None => None end.
Definition rm_entry (a : addr) (l : list (addr * pending)) : list (addr * pending) := filter (fun x => negb (fst x =? a)%N) l.
Definition abort (t : nat) (l : list task) : list task := map (fun x => if Nat.eqb (t_id x) t then Task (t_id x) (t_addr x) (t_seq x) (t_peer x) (t_origin x) true else x) l.

(** a new task for the address, and the entry with it *)
Definition spawn (a : addr) (p : peer) (seq : N) (o : direction) (cbs : list nat) (s : state) : state :=
  St (s_now s) (s_active s) (rm_entry a (s_entries s) ++ [(a, Pend seq o cbs (s_tid s))]) (s_tasks s ++ [Task (s_tid s) a seq p o false]) (s_delayed s) (s_queue s) (s_dials s) (s_backoff s) (s_answers s) (s_cb s) (S (s_tid s)) (s_key s).
(** 591-693 *)
Definition dial_peer (g : config) (a : addr) (p : peer) (cb : nat) (s : state) : state :=
  match get_active p s with
  | Some c => send [cb] (AOk c) s
  | None =>
      match get_entry a s with
      | None => spawn a p 0 Outbound [cb] s
      | Some e =>
          let cbs := e_cbs e ++ [cb] in
          if tie_breaking (g_local g) p (e_origin e) Outbound && negb (is_outbound (e_origin e))
          then spawn a p (e_seq e + 1) Outbound cbs (set_tasks (abort (e_task e) (s_tasks s)) s)
          else set_entries (rm_entry a (s_entries s) ++ [(a, Pend (e_seq e) (e_origin e) cbs (e_task e))]) s
      end
  end.
Inductive affinity := High | Allowed | Never.
(** 296-475: [aff] is what is known of the peer *)
Definition accepted (g : config) (aff : option affinity) (s : state) : bool :=
  match aff with
  | Some High | Some Allowed => true
  | Some Never => false
  | None => match g_conns g with Some n => negb (n <=? length (s_active s))%nat | None => true end
  end.
Definition incoming (g : config) (a : addr) (p : peer) (aff : option affinity) (s : state) : state :=
  if accepted g aff s then
    match get_entry a s with
    | None => spawn a p 0 Inbound [] s
    | Some e =>
        if tie_breaking (g_local g) p (e_origin e) Inbound
        then spawn a p (e_seq e + 1) Inbound (e_cbs e) (set_tasks (abort (e_task e) (s_tasks s)) s)
        else s
    end
  else s.

(** 555-589, 1051-1088: the connection that is kept *)
Definition add (g : config) (c : conn) (s : state) : conn * state :=
  match get_active (c_peer c) s with
  | Some old => if tie_breaking (g_local g) (c_peer c) (c_origin old) (c_origin c)
                then (c, set_active (filter (fun x => negb (c_peer x =? c_peer c)%N) (s_active s) ++ [c]) s)
                else (old, s)
  | None => (c, set_active (s_active s ++ [c]) s)
  end.
(** 797-821: [None] if a key is not in the queue *)
Definition in_queue (k : nat) (q : list (nat * peer * N)) : bool := existsb (fun x => Nat.eqb (fst (fst x)) k) q.
Definition rm_key (k : nat) (q : list (nat * peer * N)) : list (nat * peer * N) := filter (fun x => negb (Nat.eqb (fst (fst x)) k)) q.
Fixpoint rm_keys (l : list delayed) (q : list (nat * peer * N)) : option (list (nat * peer * N)) :=
  match l with [] => Some q | d :: r => if in_queue (d_key d) q then rm_keys r (rm_key (d_key d) q) else None end.
Definition of_peer (p : peer) (d : delayed) : bool := (d_peer d =? p)%N.
Definition execute_resolved (c : conn) (s : state) : option state :=
  let items := filter (of_peer (c_peer c)) (s_delayed s) in
  match rm_keys items (s_queue s) with
  | None => None
  | Some q => Some (fold_left (fun s d => send (d_cbs d) (AOk c) s) items (set_delayed (filter (fun d => negb (of_peer (c_peer c) d)) (s_delayed s)) q s))
  end.
(** 771-790 *)
Definition push_delayed (g : config) (p : peer) (e : N) (cbs : list nat) (s : state) : state :=
  let x := (s_now s + g_delay g)%N in
  St (s_now s) (s_active s) (s_entries s) (s_tasks s) (s_delayed s ++ [Delayed (s_key s) p x e cbs]) (s_queue s ++ [(s_key s, p, x)]) (s_dials s) (s_backoff s) (s_answers s) (s_cb s) (s_tid s) (S (s_key s)).
(** 823-858: the front items of the peer that are expired, and the rest *)
Fixpoint split_expired (p : peer) (now : N) (l : list delayed) : list delayed * list delayed :=
  match l with
  | [] => ([], [])
  | d :: r => if of_peer p d then (if (d_exp d <=? now)%N then let '(a, b) := split_expired p now r in (d :: a, b) else ([], l))
              else let '(a, b) := split_expired p now r in (a, d :: b)
  end.
Definition execute_expired (p : peer) (s : state) : state :=
  let '(out, rest) := split_expired p (s_now s) (s_delayed s) in
  fold_left (fun s d => send (d_cbs d) (AErr (d_err d)) s) out (set_delayed rest (fold_left (fun q d => rm_key (d_key d) q) out (s_queue s)) s).

(** 477-553 *)
Definition connecting_result (g : config) (t : task) (r : result) (s : state) : option state :=
  match get_entry (t_addr t) s with
  | None => Some s
  | Some e =>
      if negb (e_seq e =? t_seq t)%N then Some s
      else
        let s := set_entries (rm_entry (t_addr t) (s_entries s)) s in
        match r with
        | ROk c => let '(c, s) := add g c s in match execute_resolved c s with None => None | Some s => Some (send (e_cbs e) (AOk c) s) end
        | RErr closed err => if closed && negb (match e_cbs e with [] => true | _ => false end) then Some (push_delayed g (t_peer t) err (e_cbs e) s) else Some (send (e_cbs e) (AErr err) s)
        end
  end.

(** ** Dials: 213-288 *)
Definition answered (k : nat) (s : state) : option answer := match find (fun x => Nat.eqb (fst x) k) (s_answers s) with Some x => Some (snd x) | None => None end.
(** is the sender of the callback still there? *)
Definition waits (k : nat) (s : state) : bool := existsb (fun x => existsb (Nat.eqb k) (e_cbs (snd x))) (s_entries s) || existsb (fun d => existsb (Nat.eqb k) (d_cbs d)) (s_delayed s).
Definition get_backoff (p : peer) (l : list (peer * backoff)) : option backoff := match find (fun x => (fst x =? p)%N) l with Some x => Some (snd x) | None => None end.
Definition rm_backoff (p : peer) (l : list (peer * backoff)) : list (peer * backoff) := filter (fun x => negb (fst x =? p)%N) l.
(** 895-915 *)
Definition backoff_update (g : config) (now : N) (b : backoff) : backoff := let n := (b_attempts b + 1)%N in Backoff (now + N.min (g_max g) (g_step g * n)) n.
Definition backoff_new (g : config) (now : N) : backoff := backoff_update g now (Backoff now 0).
(** 216-243: [None] if a callback went away without an answer *)
Fixpoint retain_dials (g : config) (s : state) (l : list (peer * nat)) (b : list (peer * backoff)) : option (list (peer * nat) * list (peer * backoff)) :=
  match l with
  | [] => Some ([], b)
  | (p, k) :: r =>
      match answered k s with
      | Some (AOk _) => retain_dials g s r (rm_backoff p b)
      | Some (AErr _) => retain_dials g s r (rm_backoff p b ++ [(p, match get_backoff p b with Some x => backoff_update g (s_now s) x | None => backoff_new g (s_now s) end)])
      | None => if waits k s then match retain_dials g s r b with Some (l, b) => Some ((p, k) :: l, b) | None => None end else None
      end
  end.
(** 252-272 *)
Definition dial_wanted (g : config) (s : state) (x : peer * addr * affinity) : bool :=
  match x with
  | (p, _, High) => negb (p =? g_local g)%N && negb (match get_active p s with Some _ => true | None => false end) && negb (existsb (fun y => (fst y =? p)%N) (s_dials s)) &&
      match get_backoff p (s_backoff s) with Some b => (b_next b <? s_now s)%N | None => true end
  | _ => false
  end.
Definition start_dial (g : config) (s : state) (x : peer * addr * affinity) : state :=
  let '(p, a, _) := x in
  let s1 := dial_peer g a p (s_cb s) (new_cb s) in
  set_dials (s_dials s1 ++ [(p, s_cb s)]) (s_backoff s1) s1.
Definition check (g : config) (known : list (peer * addr * affinity)) (s : state) : option state :=
  match retain_dials g s (s_dials s) (s_backoff s) with
  | None => None
  | Some (l, b) =>
      let s := set_dials l b s in
      Some (fold_left (start_dial g) (firstn (g_dials g - length (s_tasks s)) (filter (dial_wanted g s) known)) s)
  end.

Inductive event :=
| EConnect (a : addr) (p : peer)
| EIncoming (a : addr) (p : peer) (aff : option affinity)
| EDone (t : nat) (r : result)           (* the result of a task *)
| ECancelled (t : nat)                   (* an aborted task is reaped *)
| EExpire (k : nat)                      (* a key of the queue that is due *)
| ECheck (known : list (peer * addr * affinity))
| ELost (id : N)                         (* a connection is closed and removed by its handler *)
| ETick (d : N).
Definition rm_task (t : nat) (l : list task) : list task := filter (fun x => negb (Nat.eqb (t_id x) t)) l.
Definition step (g : config) (s : state) (e : event) : option state :=
  match e with
  | EConnect a p => Some (dial_peer g a p (s_cb s) (new_cb s))
  | EIncoming a p aff => Some (incoming g a p aff s)
  | EDone t r => match find (fun x => Nat.eqb (t_id x) t) (s_tasks s) with
                 | Some x => connecting_result g x r (set_tasks (rm_task t (s_tasks s)) s)
                 | None => Some s
                 end
  | ECancelled t => match find (fun x => Nat.eqb (t_id x) t) (s_tasks s) with
                    | Some x => if t_aborted x then Some (set_tasks (rm_task t (s_tasks s)) s) else Some s
                    | None => Some s
                    end
  | EExpire k => match find (fun x => Nat.eqb (fst (fst x)) k) (s_queue s) with
                 | Some (_, p, x) => if (x <=? s_now s)%N then Some (execute_expired p (set_delayed (s_delayed s) (rm_key k (s_queue s)) s)) else Some s
                 | None => Some s
                 end
  | ECheck known => check g known s
  | ELost id => Some (set_active (filter (fun c => negb (c_id c =? id)%N) (s_active s)) s)
  | ETick d => Some (St (s_now s + d)%N (s_active s) (s_entries s) (s_tasks s) (s_delayed s) (s_queue s) (s_dials s) (s_backoff s) (s_answers s) (s_cb s) (s_tid s) (s_key s))
  end.
Fixpoint run (g : config) (s : state) (l : list event) : option state :=
  match l with [] => Some s | e :: r => match step g s e with Some s => run g s r | None => None end end.
