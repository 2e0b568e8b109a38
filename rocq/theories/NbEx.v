(** C92: concrete cases. *)
From Coq Require Import List NArith Bool Arith Lia Permutation.
From Verif Require Import NbModel NbThms NbChoice NbList.
Import ListNotations.
Local Open Scope N_scope.

Definition mk (p : N) : nb := {| peer := p; expires := 1000; ref := p |}.
Definition fresh : all_stats := fun _ => new_stats 100.
Definition start : list nb := [mk 1; mk 2].
Example start_is_good : good 3 start.
Proof. split; [repeat constructor; cbn; intuition discriminate|cbn; lia]. Qed.

(** A slow start, four failures, a bonus for a short roundtrip, a longer one without. *)
Definition ok (s : stats) (t : N) : stats := track s t (Some true).
Example scores :
  selection_score (new_stats 100) = Some 64 /\
  selection_score (fold_left (fun s t => track s t (Some false)) [9; 9; 9; 9] (new_stats 100)) = Some 16 /\
  selection_score (fold_left (fun s t => track s t (Some false)) [9; 9; 9; 9; 9] (new_stats 100)) = None /\
  higher (fold_left (fun s t => track s t (Some false)) [9; 9; 9; 9; 9] (new_stats 100)) = true /\
  selection_score (fold_left ok [80; 80; 80; 80; 80; 80; 80; 80] (new_stats 100)) = Some 136 /\
  selection_score (fold_left ok [800; 800; 800; 800; 800; 800; 800; 800] (new_stats 100)) = Some 128.
Proof. vm_compute. auto 10. Qed.
(** Finding: a request which took no time is left out of the average once it is the oldest of the four. *)
Example zero_left_out : get_avg (fold_left add_trip [0; 100; 100; 100] 7) = Some 100 /\ get_avg (fold_left add_trip [100; 0; 100; 100] 7) = Some 75.
Proof. vm_compute. auto. Qed.

(** A choice among three with weights 64, 64 and 56; a fine of 16 for the second. *)
Definition ss3 : all_stats := put fresh 3 (track (new_stats 100) 100 (Some false)).
Definition l3 : list nb := [mk 1; mk 2; mk 3].
Example weighted : choose_range (build ss3 l3) None = 184 /\
  map (fun r => option_map peer (choose (build ss3 l3) None r)) [0; 63; 64; 127; 128; 183] = [Some 1; Some 1; Some 2; Some 2; Some 3; Some 3] /\
  let f p := if p =? 2 then 16 else 0 in choose_range (build ss3 l3) (Some f) = 168 /\
  map (fun r => option_map peer (choose (build ss3 l3) (Some f) r)) [63; 64; 111; 112; 167] = [Some 1; Some 2; Some 2; Some 3; Some 3].
Proof. vm_compute. auto. Qed.
Example cands3 : cands ss3 l3 = [(mk 1, 64)] ++ (mk 2, 64) :: [(mk 3, 56)].
Proof. reflexivity. Qed.
Example two_of_three : map peer (choose_multiple ss3 (build ss3 l3) 2 true [mk 3; mk 1; mk 2]) = [1; 2] /\
  Permutation [mk 3; mk 1; mk 2] (map fst (build ss3 l3)).
Proof.
  split; [reflexivity|]. change (map fst (build ss3 l3)) with [mk 1; mk 2; mk 3].
  apply (Permutation_trans (perm_swap (mk 1) (mk 3) [mk 2])). constructor. constructor.
Qed.
(** Finding: once [get_sorted_neighbours] has sorted the index by the cumulative weights, the greatest first,
    the choice is always the first one, or none. *)
Example sorted_index : let i := rev (build ss3 l3) in map peer (map fst i) = [3; 2; 1] /\
  map (fun r => option_map peer (nth_error (map fst i) (point (distribution i None) r))) [0; 64; 128; 183] = [Some 3; Some 3; Some 3; Some 3].
Proof. vm_compute. auto. Qed.

(** An update which takes two new ones in, and the next, which has no room: the worst one goes. *)
Definition h1 : list op := [OBeginUpdate 0 [mk 2; mk 3; mk 4] 10; OEnd 0].
Definition h2 : list op := h1 ++ [OTrack 2 50 (Some false); OTrack 3 50 (Some true); OBeginUpdate 0 [mk 2; mk 5] 20; OEnd 0].
Example updates : map peer (entries (run 3 (init start fresh) h1)) = [1; 2; 3] /\ map peer (entries (run 3 (init start fresh) h2)) = [1; 3; 5].
Proof. vm_compute. auto. Qed.
Example h2_is_fair : fair h2 /\ calm 3 (init start fresh) h2.
Proof. split; [repeat constructor; cbn; intuition discriminate|vm_compute; auto 10]. Qed.
(** Finding: a full list loses one at every update though nobody new is there to come, and the update after
    takes the same peer back as if nothing were known of it. *)
Example worst_for_nothing :
  let up t := [OBeginUpdate 0 l3 t; OEnd 0] in
  map peer (entries (run 3 (init l3 ss3) (up 10))) = [1; 2] /\
  map peer (entries (run 3 (init l3 ss3) (up 10 ++ up 20))) = [1; 2; 3].
Proof. vm_compute. auto. Qed.
(** A malicious one is taken away by the next score task, but an update brings it back; as a new
    [Neighbour], here number 12, it has the score of a new one. *)
Definition back : nb := {| peer := 2; expires := 1000; ref := 12 |}.
Definition h3 : list op := [OPunish 2 Malicious; OBeginApply 0 10; OEnd 0].
Example forgotten : map peer (entries (run 3 (init start fresh) h3)) = [1] /\
  let s := run 3 (init start fresh) (h3 ++ [OBeginUpdate 0 [back] 20; OEnd 0]) in
  map peer (entries s) = [1; 2] /\ choose (idx s) None 100 = Some back.
Proof. vm_compute. auto. Qed.
(** A score task overtaken by an update does nothing. *)
Definition h4 : list op := [OBeginApply 1 10; OBeginUpdate 0 [mk 3] 10; OEnd 0].
Example overtaken : map peer (entries (run 3 (init start fresh) (h4 ++ [OEnd 1]))) = [1; 2; 3].
Proof. vm_compute. auto. Qed.

(** Somebody waits for three, and is woken. *)
Definition h5 : list op := [OWait 9 3; OCheck 9] ++ h1.
Example waiting : let s := run 3 (init start fresh) h5 in
  waiters s 9 = Some (3%nat, 0, true) /\ length (entries s) = 3%nat /\ gen s = 1 /\ waiters (run 3 s [OCheck 9; OCheck 9]) 9 = None.
Proof. vm_compute. auto. Qed.
Example h5_is_calm : calm 3 (init start fresh) h5.
Proof. vm_compute. auto 10. Qed.
(** Finding: an update overtaken by a score task brings back what the task took away, and wakes nobody: one
    who waits for two sleeps though there are two. *)
Definition h6 : list op := [OBeginUpdate 0 [] 10; OPunish 2 Malicious; OBeginApply 1 10; OEnd 1; OWait 9 2; OCheck 9; OEnd 0].
Example sleeps_on : let s := run 3 (init start fresh) h6 in
  map peer (entries s) = [1; 2] /\ waiters s 9 = Some (2%nat, 1, true) /\ gen s = 1 /\
  waiters (run 3 s [OCheck 9; OCheck 9]) 9 = Some (2%nat, 1, true).
Proof. vm_compute. auto. Qed.

(** Fines: doubled, halved, and forgotten for room. *)
Definition fs : fines := fold_left (fun l x => got_response 2 l (fst x) (snd x)) [(1, false); (1, false); (1, false); (2, false); (1, true)] [].
Example some_fines : fs = [(1, 2); (2, 1)] /\ got_response 2 fs 3 false = [(3, 1); (1, 2)] /\ got_response 2 fs 2 true = [(1, 2)].
Proof. vm_compute. auto. Qed.
