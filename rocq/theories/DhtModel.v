(** Model of the DHT key space and routing table.
    Sources: network/src/dht/mod.rs L741-771 ([random_key_at_distance], [xor_distance],
    [MAX_XOR_DISTANCE]) and network/src/dht/routing.rs L13-111, L133-207.
    A [PeerId] / key is a [u8; 32]: here a list of 32 bytes ([id_ok]). *)
From Verif Require Import Bytes.
From Coq Require Import List NArith Bool.
Import ListNotations.
Local Open Scope N_scope.

Definition id := bytes.
Definition id_ok (a : id) : Prop := length a = 32%nat /\ bytes_ok a.

Fixpoint id_eqb (a b : id) : bool :=
  match a, b with
  | [], [] => true
  | x :: a', y :: b' => (x =? y) && id_eqb a' b'
  | _, _ => false
  end.

(** mod.rs L771 *)
Definition MAX_XOR_DISTANCE : N := 256.

(** [<[u8]>::chunks(8)] of a 32 byte array, mod.rs L759 *)
Definition chunks8 (a : id) : list bytes :=
  map (fun i => firstn 8 (skipn (8 * i) a)) [0;1;2;3]%nat.

(** [u64::leading_zeros] *)
Definition leading_zeros64 (d : N) : N := 64 - N.size d.

(** mod.rs L758-769: the loop of [xor_distance], [i] is the [enumerate] index *)
Fixpoint xor_loop (i : N) (l r : list bytes) : N :=
  match l, r with
  | a :: l', b :: r' =>
      let diff := N.lxor (de a) (de b) in
      if diff =? 0 then xor_loop (i + 1) l' r'
      else MAX_XOR_DISTANCE - (i * 64 + leading_zeros64 diff)
  | _, _ => 0
  end.
Definition xor_distance (a b : id) : N := xor_loop 0 (chunks8 a) (chunks8 b).

(** mod.rs L741-756: [rnd] is the byte string [rng.fill_bytes] writes into
    [result[byte_offset..]] (it has that slice's length).  [distance > 256] underflows in
    the code and is excluded by the callers (bucket indices). *)
Definition set_nth (n : nat) (x : N) (l : bytes) : bytes :=
  firstn n l ++ x :: skipn (S n) l.
Definition random_key_at_distance (from : id) (distance : N) (rnd : bytes) : id :=
  let d := MAX_XOR_DISTANCE - distance in
  let byte_offset := N.to_nat (d / 8) in
  let result := firstn byte_offset from ++ rnd in
  let bit_offset := d mod 8 in
  if bit_offset =? 0 then result
  else
    let mask := N.shiftr 255 bit_offset in
    let cur := nth byte_offset result 0 in
    set_nth byte_offset
      (N.lxor cur (N.land (N.lxor cur (nth byte_offset from 0)) (N.lxor 255 mask))) result.

(** ** Routing table (routing.rs).
    A node is the id of its [PeerInfo] and a payload that stands for the rest of the entry
    (peer info contents, [last_updated_at]).  A [BTreeMap<usize, Bucket>] is a function from
    bucket index to node list: an absent bucket and an empty one are not told apart (no
    observer of the table distinguishes them: contains, closest, visit_closest, and the
    refresh loop which filters on [!is_empty()]). *)
Record node := mkNode { n_id : id; n_data : N }.
Definition buckets := N -> list node.
Record table := mkTable { local_id : id; bks : buckets }.

Definition set_bucket (b : buckets) (i : N) (v : list node) : buckets :=
  fun j => if j =? i then v else b j.

(** routing.rs L18-23 *)
Definition new_table (local : id) : table := mkTable local (fun _ => []).

(** routing.rs L156-160 *)
Definition bucket_contains (p : id) (l : list node) : bool :=
  existsb (fun n => id_eqb (n_id n) p) l.

(** [VecDeque::remove(position(id))] of routing.rs L177-185 *)
Fixpoint remove_first (p : id) (l : list node) : list node :=
  match l with
  | [] => []
  | n :: r => if id_eqb (n_id n) p then r else n :: remove_first p r
  end.

(** routing.rs L162-207.  [fok] says whether the callback [f] returned [Some] (it is called
    at most once, on exactly the paths below); [expired] is the expiry test applied to the
    front node. *)
Definition bucket_insert (l : list node) (p : node) (max_k : nat)
    (expired : node -> bool) (fok : bool) : list node * bool :=
  if bucket_contains (n_id p) l then
    if fok then (remove_first (n_id p) l ++ [p], true) else (l, false)
  else if (max_k <=? length l)%nat then
    match l with
    | front :: r => if expired front && fok then (r ++ [p], true) else (l, false)
    | [] => (l, false)
    end
  else if fok then (l ++ [p], true) else (l, false).

(** routing.rs L39-44 *)
Definition contains (t : table) (p : id) : bool :=
  bucket_contains p (bks t (xor_distance (local_id t) p)).

(** routing.rs L46-58 *)
Definition add (t : table) (p : node) (max_k : nat) (expired : node -> bool) (fok : bool)
  : table * bool :=
  let distance := xor_distance (local_id t) (n_id p) in
  if distance =? 0 then (t, false)
  else
    let r := bucket_insert (bks t distance) p max_k expired fok in
    (mkTable (local_id t) (set_bucket (bks t) distance (fst r)), snd r).

(** background_tasks.rs L172-174 over routing.rs L147-152: [retain_nodes] on every bucket *)
Definition retain (t : table) (keep : node -> bool) : table :=
  mkTable (local_id t) (fun i => filter keep (bks t i)).

(** bucket visiting order of routing.rs L70 and L99:
    [(distance..=MAX_XOR_DISTANCE).chain((0..distance).rev())] *)
Definition n_range (lo hi : N) : list N :=  (* lo..hi *)
  map (fun k => lo + N.of_nat k) (seq 0 (N.to_nat (hi - lo))).
Definition visit_order (distance : N) : list N :=
  n_range distance (MAX_XOR_DISTANCE + 1) ++ rev (n_range 0 distance).

(** the loop of routing.rs L70-81 *)
Fixpoint closest_loop (b : buckets) (order : list N) (count : nat) (acc : list node)
  : list node :=
  match order with
  | [] => acc
  | i :: r =>
      match (count - length acc)%nat with  (* checked_sub: None and Some(0) both break *)
      | O => acc
      | remaining => closest_loop b r count (acc ++ firstn remaining (b i))
      end
  end.
(** routing.rs L60-85 ([visit_closest], L87-111, applies its callback to the same nodes in
    the same order) *)
Definition closest (t : table) (key : id) (count : nat) : list node :=
  match count with
  | O => []
  | _ => closest_loop (bks t) (visit_order (xor_distance (local_id t) key)) count []
  end.

(** ** Histories *)
Inductive op :=
| OAdd (p : node) (expired : node -> bool) (fok : bool)
| ORetain (keep : node -> bool).
Definition step (max_k : nat) (t : table) (o : op) : table :=
  match o with
  | OAdd p e f => fst (add t p max_k e f)
  | ORetain k => retain t k
  end.
Definition run (max_k : nat) (local : id) (ops : list op) : table :=
  fold_left (step max_k) ops (new_table local).
Definition op_ok (o : op) : Prop :=
  match o with OAdd p _ _ => id_ok (n_id p) | ORetain _ => True end.

(** every node the table holds, by bucket index *)
Definition known (t : table) : list node :=
  flat_map (bks t) (n_range 0 (MAX_XOR_DISTANCE + 1)).
