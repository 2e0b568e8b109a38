(** C88: cases of the searches. *)
From Verif Require Import Bytes DhtModel DhtDist DhtProps DhtTable DqModel DqInv DqFind DqWalk.
From Coq Require Import List NArith ZArith Bool Lia Arith.
Import ListNotations.
Local Open Scope N_scope.

Definition at_ (n t : N) : node := mkNode (small n) t.
Definition off (n t : N) : offer := Offer (at_ n t) true true (fun _ => false).
Definition forged (n t : N) : offer := Offer (at_ n t) false true (fun _ => false).
Definition banned (n t : N) : offer := Offer (at_ n t) true false (fun _ => false).
Definition me : id := small 0.
Definition goal_ : id := small 255.
(** 1 knows 2, a forged 3, a banned 4 and the node itself; 2 knows 5; 5 has the value, 6 an old one *)
Definition town (i : id) : answer (V := N) :=
  if id_eqb i (small 1) then Nodes [off 2 7; forged 3 7; banned 4 7; off 0 7]
  else if id_eqb i (small 2) then Nodes [off 5 7; off 1 8] else if id_eqb i (small 5) then Found 42
  else if id_eqb i (small 6) then Found 41 else Failed.
Definition good_value (v : N) : bool := v =? 42.
Definition asks (l : list N) : list (id * answer) := map (fun p => (p, town p)) (map small l).
Definition found_state := Eval vm_compute in goes me goal_ 20 good_value [at_ 1 1; at_ 6 1; at_ 0 1] (asks [6; 2; 1; 2; 5; 1]).
Example found_case :
  found_state = goes me goal_ 20 good_value [at_ 1 1; at_ 6 1; at_ 0 1] (asks [6; 2; 1; 2; 5; 1]) /\
  s_out found_state = Some 42 /\ a_all (s_asked found_state) = map small [1; 6; 2; 5].
Proof. split; [vm_compute; reflexivity|split; vm_compute; reflexivity]. Qed.
(** the same town without the value of 5: the search ends with nothing, everybody was asked *)
Definition worse_value (v : N) : bool := v =? 43.
Definition lost_state := Eval vm_compute in goes me goal_ 20 worse_value [at_ 1 1; at_ 6 1; at_ 0 1] (asks [6; 1; 2; 5]).
Example lost_case :
  lost_state = goes me goal_ 20 worse_value [at_ 1 1; at_ 6 1; at_ 0 1] (asks [6; 1; 2; 5]) /\
  s_out lost_state = None /\ a_open (s_asked lost_state) = [] /\ a_all (s_asked lost_state) = map small [1; 6; 2; 5] /\
  Forall (fun n => id_ok (n_id n)) [at_ 1 1; at_ 6 1; at_ 0 1] /\ Forall ids_ok (asks [6; 1; 2; 5]) /\ fresh_answers (asks [6; 1; 2; 5]) /\
  reach me goal_ town [at_ 1 1; at_ 6 1; at_ 0 1] (small 5).
Proof.
  split; [vm_compute; reflexivity|]. split; [vm_compute; reflexivity|]. split; [vm_compute; reflexivity|]. split; [vm_compute; reflexivity|].
  split; [repeat constructor|]. split; [repeat constructor|]. split.
  - intros p os o n H I. apply in_map_iff in H as (q & E & _). injection E as _ E. revert E. unfold town.
    repeat match goal with |- context [id_eqb q ?x] => destruct (id_eqb q x) end; try discriminate; intros E; injection E as <-; cbn in I;
      repeat (destruct I as [<-|I]; [reflexivity|]); destruct I.
  - assert (R1 : reach me goal_ town [at_ 1 1; at_ 6 1; at_ 0 1] (small 1)).
    { apply (reach_first me goal_ town [at_ 1 1; at_ 6 1; at_ 0 1] (at_ 1 1)); [now left|discriminate|discriminate]. }
    assert (R2 : reach me goal_ town [at_ 1 1; at_ 6 1; at_ 0 1] (small 2)).
    { apply (reach_next me goal_ town _ (small 1) [off 2 7; forged 3 7; banned 4 7; off 0 7] (off 2 7)); [exact R1|reflexivity|now left|].
      repeat split; discriminate. }
    apply (reach_next me goal_ town _ (small 2) [off 5 7; off 1 8] (off 5 7)); [exact R2|reflexivity|now left|]. repeat split; discriminate.
Qed.

(** The depth of a search of peers depends on the order of the answers: 1 and 2 are asked first;
    1 knows 3, 3 knows 4, 2 knows 4, 4 knows 5, 5 knows 6.  With at most two answers on the way, 5 is
    asked if 2 answers before 4 does, but not if 4, met through 3, answers first: what is learnt
    later about the way to 4 is not passed on. *)
Definition village (n : N) : id * reply :=
  (small n, if n =? 1 then Peers [off 3 7] else if n =? 3 then Peers [off 4 7] else if n =? 2 then Peers [off 4 7; off 3 9]
            else if n =? 4 then Peers [off 5 7] else if n =? 5 then Peers [off 6 7] else NoReply).
Definition walk_of (l : list N) := walks me goal_ 20 n_data 2 [at_ 1 1; at_ 2 1] (map village l).
Example order_of_answers :
  (w_result (walk_of [1; 3; 4; 2]) (small 6) = None /\ a_open (w_asked (walk_of [1; 3; 4; 2])) = [] /\
   w_depth (walk_of [1; 3; 4; 2]) (small 4) = Some 1 /\ w_depth (walk_of [1; 3; 4; 2]) (small 5) = Some 3) /\
  (w_result (walk_of [1; 2; 3; 4; 5]) (small 6) = Some (at_ 6 7) /\ a_open (w_asked (walk_of [1; 2; 3; 4; 5])) = [] /\
   w_depth (walk_of [1; 2; 3; 4; 5]) (small 5) = Some 2) /\
  w_result (walk_of [1; 3; 4; 2]) (small 3) = Some (at_ 3 9).
Proof. vm_compute. repeat split. Qed.
Example order_hyps : Forall (fun n => id_ok (n_id n)) [at_ 1 1; at_ 2 1] /\ Forall ids_good (map village [1; 2; 3; 4; 5]).
Proof. split; repeat constructor. Qed.
