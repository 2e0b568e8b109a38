(** C88: the searches of the DHT (network/src/dht/query.rs).

    What is simplified.  The requests of a search run concurrently, at most ten of them at once
    (the semaphore): here any request that was made may be answered next, in any order.  An answer
    of a peer is any value, any list of peers, or a failure (an error or a timeout).  The
    signature of a peer info is a flag of the offer, and so is whether the table of known peers
    gives a handle for it ([retain_candidate]: no for banned peers only).  The candidates are the
    routing table of DhtModel with the target as the local id. *)
From Verif Require Import Bytes DhtModel.
From Coq Require Import List NArith Bool Arith.
Import ListNotations.
Local Open Scope N_scope.

(** one of the peers of an answer: [of_valid] is [verify(now)], [of_kept] is
    [retain_candidate(..).is_some()], [of_expired] is the test of the table for its oldest node *)
Record offer := Offer { of_node : node; of_valid : bool; of_kept : bool; of_expired : node -> bool }.
Definition of_id (o : offer) : id := n_id (of_node o).
Definition mem (i : id) (l : list id) : bool := existsb (id_eqb i) l.
Definition drop (i : id) (l : list id) : list id := filter (fun x => negb (id_eqb i x)) l.

Section Search.
(** the node itself, the target, [max_k] *)
Context (self target : id) (max_k : nat).

(** network/src/dht/query.rs:127-166: [Query::new]: the closest nodes of the routing table (to the
    target or to a random id: here any list) without the node itself *)
Definition first_candidates (l : list node) : table :=
  fold_left (fun t n => if id_eqb (n_id n) self then t else fst (add t n max_k (fun _ => false) true)) l (new_table target).

(** the requests made and those not yet answered *)
Record asked := Asked { a_all : list id; a_open : list id }.
(** network/src/dht/query.rs:194-199, 250-255: one [visit_closest] *)
Definition ask_closest (ok : id -> bool) (t : table) (a : asked) : asked :=
  fold_left (fun a n => if ok (n_id n) && negb (mem (n_id n) (a_all a))
                        then Asked (a_all a ++ [n_id n]) (a_open a ++ [n_id n]) else a) (closest t target max_k) a.
(** network/src/dht/query.rs:224-237: an offered peer *)
Definition take (t : table) (o : offer) : table :=
  if negb (of_valid o) then t else if id_eqb (of_id o) self then t
  else fst (add t (of_node o) max_k (of_expired o) (of_kept o)).

(** *** network/src/dht/query.rs:172-271: [find_value] *)
Context {V : Type} (valid : V -> bool).
Inductive answer := Found (v : V) | Nodes (l : list offer) | Failed.
Record search := Search { s_table : table; s_asked : asked; s_out : option V }.
Definition begin_ (l : list node) : search :=
  let t := first_candidates l in Search t (ask_closest (fun _ => true) t (Asked [] [])) None.
Definition next (s : search) (e : id * answer) : search :=
  let '(p, a) := e in
  match s_out s with
  | Some _ => s
  | None =>
      if negb (mem p (a_open (s_asked s))) then s
      else let asked := Asked (a_all (s_asked s)) (drop p (a_open (s_asked s))) in
           match a with
           | Found v => Search (s_table s) asked (if valid v then Some v else None)
           | Nodes l => let t := fold_left take l (s_table s) in Search t (ask_closest (fun _ => true) t asked) None
           | Failed => Search (s_table s) asked None
           end
  end.
Definition goes (l : list node) (es : list (id * answer)) : search := fold_left next es (begin_ l).
Definition finished (s : search) : Prop := s_out s <> None \/ a_open (s_asked s) = [].

(** *** network/src/dht/query.rs:273-378: [find_peers] *)
Context (created : node -> N) (max_depth : N).
Inductive reply := Peers (l : list offer) | NoReply.
(** the depths of the candidates and the result (functions: one entry per id) *)
Record walk := Walk { w_table : table; w_asked : asked; w_depth : id -> option N; w_result : id -> option node }.
Definition put {A} (i : id) (a : A) (f : id -> option A) : id -> option A := fun x => if id_eqb i x then Some a else f x.
(** network/src/dht/query.rs:197-203: the first requests have depth 0 *)
Definition walk_begin (l : list node) : walk :=
  let t := first_candidates l in
  let a := ask_closest (fun _ => true) t (Asked [] []) in
  Walk t a (fun i => if mem i (a_all a) then Some 0 else None) (fun _ => None).
(** network/src/dht/query.rs:325-354 *)
Definition walk_take (d : N) (w : walk) (o : offer) : walk :=
  if negb (of_valid o) then w else if id_eqb (of_id o) self then w
  else let i := of_id o in
       let depth := match w_depth w i with Some x => N.min x (d + 1) | None => d + 1 end in
       let best := match w_result w i with
                   | None => of_node o
                   | Some n => if created n <? created (of_node o) then of_node o else n
                   end in
       Walk (fst (add (w_table w) best max_k (of_expired o) (of_kept o))) (w_asked w)
            (put i depth (w_depth w)) (put i best (w_result w)).
Definition walk_next (w : walk) (e : id * reply) : walk :=
  let '(p, r) := e in
  if negb (mem p (a_open (w_asked w))) then w
  else let asked := Asked (a_all (w_asked w)) (drop p (a_open (w_asked w))) in
       let w := Walk (w_table w) asked (w_depth w) (w_result w) in
       match r with
       | NoReply => w
       | Peers l =>
           let d := match w_depth w p with Some d => d | None => 0 end in
           let w := fold_left (walk_take d) l w in
           let ok := fun i => match w_depth w i with Some x => x <=? max_depth | None => false end in
           Walk (w_table w) (ask_closest ok (w_table w) (w_asked w)) (w_depth w) (w_result w)
       end.
Definition walks (l : list node) (es : list (id * reply)) : walk := fold_left walk_next es (walk_begin l).
End Search.
Arguments Found {V} _.
Arguments Nodes {V} _.
Arguments Failed {V}.
