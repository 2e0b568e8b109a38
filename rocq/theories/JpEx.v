(** C91: concrete cases. *)
From Coq Require Import List NArith ZArith Bool.
From Verif Require Import JpModel JpThms.
Import ListNotations.
Local Open Scope N_scope.

Definition content (k : pkey) : N := 1000 * fst k + snd k.
Definition p1 : pkey := (5, 1).
Definition p2 : pkey := (6, 2).
Definition p3 : pkey := (9, 3).
Definition it (t : N) (l : list pkey) : item := {| i_time := t; i_keys := l |}.
Definition has12 (k : pkey) : bool := mem k [p1; p2].
Definition none (k : pkey) : bool := false.

(** Two records of one batch use a point, one of them names it twice; a third comes when the mempool has it
    no more, and finds it in the journal. *)
Definition h1 : list op := [OStore [it 10 [p1; p2; p1]; it 20 [p1; p3]] has12; OStore [it 30 [p1]] none].
Example shared_point : let d := run content empty h1 in
  pts d p1 = Some (Data 3 5001) /\ pts d p2 = Some (Data 1 6002) /\ pts d p3 = None /\
  map r_refs (recs d) = [[(p1, true); (p2, true)]; [(p1, true); (p3, false)]; [(p1, true)]].
Proof. vm_compute. auto. Qed.
(** Deletions take the records away, and the point with the last of them. *)
Example deletions :
  let d2 := run content empty (h1 ++ [ODelete 0 11]) in
  let d3 := run content empty (h1 ++ [ODelete 0 11; ODelete 20 30]) in
  let d4 := run content empty (h1 ++ [ODelete 0 11; ODelete 20 30; ODelete 30 31]) in
  pts d2 p1 = Some (Data 2 5001) /\ pts d2 p2 = None /\ pts d3 p1 = Some (Data 1 5001) /\ map r_time (recs d3) = [30] /\
  recs d4 = [] /\ pts d4 p1 = None.
Proof. vm_compute. auto 10. Qed.
(** A deletion which meets no record leaves all as it was. *)
Example empty_range : let d := run content empty h1 in
  map r_time (recs (delete d 11 20)) = [10; 20; 30] /\ pts (delete d 11 20) p1 = Some (Data 3 5001).
Proof. vm_compute. auto. Qed.
(** Finding: a record goes on saying that a point is not stored when a later record has brought it, and does
    not keep it then. *)
Definition h2 : list op := [OStore [it 10 [p3]] none; OStore [it 20 [p3]] (fun k => mem k [p3])].
Example flag_stays_false :
  let d := run content empty h2 in
  get_point d p3 = Some 9003 /\ map r_refs (recs d) = [[(p3, false)]; [(p3, true)]] /\
  get_point (delete d 20 21) p3 = None /\ map r_time (recs (delete d 20 21)) = [10].
Proof. vm_compute. auto. Qed.

(** Merges: of the operands of a key any part may be merged first. *)
Definition ops1 : list val := [Data 2 7; Sub 1; Sub 3; Data 4 7].
Example operands_agree : of_bytes 7 ([Data 2 7] ++ [Sub 1; Sub 3] ++ [Data 4 7]).
Proof. repeat constructor. Qed.
Example merged_parts : merge ops1 = Some (Data 2 7) /\ merge [Sub 1; Sub 3] = Some (Sub 4) /\ merge [Data 2 7; Sub 4; Data 4 7] = Some (Data 2 7) /\
  merge [Data 2 7; Sub 1; Sub 3] = Some (Sub 2) /\ merge [Sub 2; Data 4 7] = Some (Data 2 7).
Proof. vm_compute. auto. Qed.
(** Other bytes for the same key are an error. *)
Example other_bytes : merge [Data 1 7; Data 1 8] = None.
Proof. reflexivity. Qed.
