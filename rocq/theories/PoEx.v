(** C89: cases of the public overlay, among them the findings. *)
From Verif Require Import PoModel PoThms.
From Coq Require Import List NArith ZArith Bool Lia.
Import ListNotations.
Local Open Scope N_scope.

(** a signature is right if it is the sum of peer and time *)
Definition ver (e : entry) : bool := e_sig e =? e_id e + e_at e.
Definition en (p t : N) : entry := {| e_id := p; e_at := t; e_sig := p + t |}.
Definition bad (p t : N) : entry := {| e_id := p; e_at := t; e_sig := 0 |}.
(** the node is peer 9, room for two, a ttl of ten seconds, a queue of one *)
Definition st1 (l : list op) : st := run ver 9 2 10 1 init l.
Definition whole (es : list entry) (now : N) (k : nat) : list op :=
  OReserve es now :: repeat (OCheck 0) k ++ [OInsert 0; OSettle 0].

(** A list with a wrong signature, the node itself, an expired one, one from the future, two of the same peer
    and one too many. *)
Definition offered := [bad 1 100; en 9 100; en 2 80; en 3 102; en 4 100; en 4 101; en 5 100; en 6 100].
Example mixed_list : let '(s, b) := add ver 9 2 10 1 init offered 100 in
  items s = [en 4 101; en 5 100] /\ b = true /\ count s = 2%Z.
Proof. vm_compute. auto. Qed.
Example mixed_list_at_rest : rest_state init /\ (length (items init) < 2)%nat.
Proof. vm_compute. auto. Qed.

(** Finding: a full overlay does not even refresh what it has, so an entry renewed in time still expires. *)
Definition full := Eval vm_compute in st1 (whole [en 1 100; en 2 100] 100 2).
Example full_is_full : length (items full) = 2%nat.
Proof. reflexivity. Qed.
Example renewal_lost :
  add ver 9 2 10 1 full [en 1 105] 105 = (full, false) /\
  items (fst (step ver 9 2 10 1 full (OSweep 111))) = [].
Proof. vm_compute. auto. Qed.
(** and one entry of a new peer ends a list before the renewals behind it *)
Definition one := Eval vm_compute in st1 (whole [en 1 100] 100 1).
Example renewal_behind_a_new_peer :
  items (fst (add ver 9 2 10 1 one [en 2 105; en 1 105] 105)) = [en 1 100; en 2 105].
Proof. vm_compute. reflexivity. Qed.

(** Finding: a list of worthless entries in flight takes the room away from a good one. *)
Example room_taken_by_worthless_list :
  let s := st1 [OReserve [bad 1 100; bad 2 100] 100] in
  snd (step ver 9 2 10 1 s (OReserve [en 3 100] 100)) = OBool false /\ items s = [] /\
  items (run ver 9 2 10 1 s [OReserve [en 3 100] 100; OCheck 0; OCheck 0; OInsert 0; OSettle 0]) = [].
Proof. vm_compute. auto. Qed.

(** Finding: a peer banned after its entry was checked is still inserted; a sweep removes it. *)
Definition banned_late := Eval vm_compute in st1 [OReserve [en 1 100] 100; OCheck 0; OBan 1; OInsert 0; OSettle 0].
Example banned_peer_inserted : In 1 (bans banned_late) /\ items banned_late = [en 1 100] /\
  items (fst (step ver 9 2 10 1 banned_late (OSweep 100))) = [].
Proof. vm_compute. auto. Qed.
(** banned before the check, it is not: the hypotheses of [banned_stays_out] *)
Example banned_early : let s := st1 [OReserve [en 1 100] 100; OBan 1] in
  In 1 (bans s) /\ absent 1 s /\ items (run ver 9 2 10 1 s [OCheck 0; OInsert 0]) = [].
Proof. cbn. unfold absent. cbn. intuition. subst t. cbn in *. assumption. Qed.

(** an addition dropped between reservation and insertion gives its room back *)
Example dropped : let s := st1 [OReserve [en 1 100; en 2 100] 100; OCheck 0; ODrop 0] in
  count s = 0%Z /\ items s = [].
Proof. vm_compute. auto. Qed.
(** while a subtraction is pending the count is above the number of entries *)
Example pending : let s := st1 [OReserve [bad 1 100; en 2 100] 100; OCheck 0; OCheck 0; OInsert 0] in
  count s = 2%Z /\ length (items s) = 1%nat /\ owed s = [1%nat].
Proof. vm_compute. auto. Qed.

(** unknown peers: one fits *)
Example unknown : let s := st1 [OUnknown 5; OUnknown 5; OUnknown 6] in queue s = [5] /\
  snd (step ver 9 2 10 1 s OPop) = OPeers [5] /\ queue (fst (step ver 9 2 10 1 s OPop)) = [].
Proof. vm_compute. auto. Qed.

(** Finding: two additions at the same time can make one id both a public and a private overlay. *)
Example both_kinds : let r := fold_left rstep [RBegin true 7; RBegin false 7; RFinish 0; RFinish 0] rempty in
  In 7 (pub r) /\ In 7 (priv r).
Proof. vm_compute. auto. Qed.

(** what is sent *)
Example sent : is_sample 3 [en 1 100; en 2 100; en 3 100] [en 3 100; en 1 100; en 2 100] /\
  response 2 [1] [en 3 100; en 1 100; en 2 100] = [en 3 100; en 2 100] /\
  request 3 (en 9 100) 3 [en 3 100; en 1 100; en 2 100] = [en 9 100; en 1 100; en 2 100].
Proof.
  split; [|vm_compute; auto]. unfold is_sample. repeat split.
  - repeat constructor; cbn; intuition discriminate.
  - intros x. cbn. tauto.
Qed.
