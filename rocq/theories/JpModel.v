(** C91: points kept by the moderator's journal, counted by the records which refer to them.

    Models consensus/src/moderator/journal/{batch,point_ref_count}.rs, storage/store.rs 96-240 (store_records,
    get_point, delete), storage/db.rs 34-123 clean_events and storage/tables.rs journal_points_merge.

    Simplifications: a point key is a round and a digest, both numbers, and the bytes of a point are a number
    [content] of its key, as the key has the digest; counts are without the bound of a u32.  No event gives a
    whole point for its record (event.rs 87-260 fills only keys), so [RecordBatch::points] is empty.  One task
    writes, one batch at a time (impl_.rs 349-403), and each batch is atomic; keys of records do not repeat
    (C90), and what a record tells besides its points is left out.  A read of the database gives the merge of
    what was written; [merge_any_grouping] is why the order in which it merges does not matter. *)
From Coq Require Import List NArith ZArith Bool.
Import ListNotations.
Local Open Scope N_scope.

Definition pkey := (N * N)%type.
Definition rnd (k : pkey) : N := fst k.
Definition pkey_eqb (a b : pkey) : bool := (fst a =? fst b) && (snd a =? snd b).
Definition mem (k : pkey) (l : list pkey) : bool := existsb (pkey_eqb k) l.

(** point_ref_count.rs 7-21 JournalPoint *)
Inductive val := Data (n : N) (bytes : N) | Sub (n : N).
Definition ref_count (v : val) : N := match v with Data n _ | Sub n => n end.

(** point_ref_count.rs 36-114 JournalPoint::merge_bytes *)
Definition merge_step (acc : option (Z * option N)) (v : val) : option (Z * option N) :=
  match acc with
  | None => None
  | Some (c, d) =>
      match v with
      | Sub n => Some ((c - Z.of_N n)%Z, d)
      | Data n b =>
          match d with
          | Some b' => if b' =? b then Some ((c + Z.of_N n)%Z, Some b) else None
          | None => Some ((c + Z.of_N n)%Z, Some b)
          end
      end
  end.
Definition merge_end (acc : option (Z * option N)) : option val :=
  match acc with
  | None => None
  | Some (c, Some b) => if (c <? 0)%Z then Some (Sub (Z.to_N (- c))) else Some (Data (Z.to_N c) b)
  | Some (c, None) => if (0 <? c)%Z then None else Some (Sub (Z.to_N (- c)))
  end.
Definition merge (l : list val) : option val := merge_end (fold_left merge_step l (Some (0%Z, None))).

(** a record of the journal: its moment, and the points it refers to, with [is_stored] *)
Record rec := { r_time : N; r_refs : list (pkey * bool) }.
(** what is to be written: event.rs fill_points gives keys, maybe some of them twice *)
Record item := { i_time : N; i_keys : list pkey }.

Record db := { recs : list rec; pts : pkey -> option val; failed : bool }.
Definition empty : db := {| recs := []; pts := fun _ => None; failed := false |}.

(** batch.rs 43-73: the keys of one record, each once *)
Definition refs_of (i : item) : list pkey :=
  fold_left (fun l k => if mem k l then l else l ++ [k]) (i_keys i) [].
(** batch.rs 52-70: how many records of the batch refer to a key *)
Fixpoint bump (k : pkey) (l : list (pkey * N)) : list (pkey * N) :=
  match l with
  | [] => [(k, 1)]
  | (x, n) :: r => if pkey_eqb k x then (x, n + 1) :: r else (x, n) :: bump k r
  end.
Definition count_keys (items : list item) : list (pkey * N) :=
  fold_left (fun acc i => fold_left (fun a k => bump k a) (refs_of i) acc) items [].

Section Journal.
Context (content : pkey -> N).

(** store.rs 143-196, one key: the bytes found in the journal, or else among the points of the mempool;
    [None] is the failure for a lone [Sub] *)
Definition find_bytes (d : db) (main : pkey -> bool) (k : pkey) : option (option N) :=
  match pts d k with
  | Some (Data _ b) => Some (Some b)
  | Some (Sub _) => None
  | None => Some (if main k then Some (content k) else None)
  end.
(** the operand merged into the database for one key *)
Definition write_point (main : pkey -> bool) (d0 d : db) (kn : pkey * N) : db :=
  let '(k, n) := kn in
  match find_bytes d0 main k with
  | None => {| recs := recs d; pts := pts d; failed := true |}
  | Some None => d
  | Some (Some b) =>
      match merge (match pts d k with Some v => [v] | None => [] end ++ [Data n b]) with
      | Some v => {| recs := recs d; pts := fun x => if pkey_eqb x k then Some v else pts d x; failed := failed d |}
      | None => {| recs := recs d; pts := pts d; failed := true |}
      end
  end.
Definition is_found (d : db) (main : pkey -> bool) (k : pkey) : bool :=
  match find_bytes d main k with Some (Some _) => true | _ => false end.
(** store.rs 136-240 store_records *)
Definition store (d : db) (items : list item) (main : pkey -> bool) : db :=
  let d1 := fold_left (write_point main d) (count_keys items) d in
  {| recs := recs d ++ map (fun i => {| r_time := i_time i;
                                        r_refs := map (fun k => (k, is_found d main k)) (refs_of i) |}) items;
     pts := pts d1; failed := failed d1 |}.

(** db.rs 52-78: how many records of the range refer to a stored key, and the least and greatest round *)
Definition stored_refs (l : list rec) : list pkey :=
  flat_map (fun r => map fst (filter snd (r_refs r))) l.
Definition subs (l : list rec) (k : pkey) : N := N.of_nat (length (filter (pkey_eqb k) (stored_refs l))).
Definition max_round (l : list rec) : N := fold_left (fun m k => N.max m (rnd k)) (stored_refs l) 0.
Definition min_round (l : list rec) : N := fold_left (fun m k => N.min m (rnd k)) (stored_refs l) (2 ^ 32 - 1).
(** db.rs 42-123 clean_events *)
Definition delete (d : db) (from to : N) : db :=
  let within r := (from <=? r_time r) && (r_time r <? to) in
  let gone := filter within (recs d) in
  let hi := max_round gone + 1 in
  let lo := N.min (min_round gone) hi in
  let pt k :=
    if (lo <=? rnd k) && (rnd k <? hi) then
      match pts d k with
      | Some v =>
          if 0 <? subs gone k then
            if subs gone k =? ref_count v then None else merge [v; Sub (subs gone k)]
          else if ref_count v =? 0 then None else Some v
      | None => None
      end
    else pts d k in
  {| recs := filter (fun r => negb (within r)) (recs d); pts := pt; failed := failed d |}.

(** store.rs 96-109 get_point *)
Definition get_point (d : db) (k : pkey) : option N :=
  match pts d k with Some (Data _ b) => Some b | _ => None end.

Inductive op := OStore (items : list item) (main : pkey -> bool) | ODelete (from to : N).
Definition step (d : db) (o : op) : db :=
  match o with OStore items main => store d items main | ODelete a b => delete d a b end.
Definition run (d : db) (l : list op) : db := fold_left step l d.
End Journal.
