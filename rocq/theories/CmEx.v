(** Runs of the connection manager: that the theorems speak of something, and what surprises. *)
From Coq Require Import List Bool Arith NArith.
From Verif Require Import CmModel CmInv CmThms CmMore CmPeer.
Import ListNotations.
Local Open Scope N_scope.

Definition cfg : config := Cfg 5 100 10 25 4 (Some 2%nat).
Definition got (o : option state) : option (list (nat * answer)) := option_map s_answers o.

(** A request joins the dial of the same address; both get the one connection. *)
Example two_requests_one_connection :
  got (run cfg (start 0) [EConnect 1 7; EConnect 1 7; EDone 0 (ROk (Conn 1 7 Outbound))]) = Some [(0%nat, AOk (Conn 1 7 Outbound)); (1%nat, AOk (Conn 1 7 Outbound))].
Proof. vm_compute. reflexivity. Qed.
(** A closed connection: the request waits, and gets the connection that comes in in the meantime. *)
Example waits_for_the_other_side :
  got (run cfg (start 0) [EConnect 1 7; EDone 0 (RErr true 3); ETick 50; EIncoming 2 7 None; EDone 1 (ROk (Conn 1 7 Inbound))]) = Some [(0%nat, AOk (Conn 1 7 Inbound))].
Proof. vm_compute. reflexivity. Qed.
(** Or it is refused when the delay is over. *)
Example refused_after_the_delay :
  got (run cfg (start 0) [EConnect 1 7; EDone 0 (RErr true 3); ETick 99; EExpire 0]) = Some [] /\ got (run cfg (start 0) [EConnect 1 7; EDone 0 (RErr true 3); ETick 100; EExpire 0]) = Some [(0%nat, AErr 3)].
Proof. split; vm_compute; reflexivity. Qed.
Definition w1 : state := Eval vm_compute in match run cfg (start 0) [EConnect 1 7] with Some s => s | None => start 0 end.
Definition w2 : state := Eval vm_compute in match step cfg w1 (EDone 0 (RErr true 3)) with Some s => s | None => start 0 end.
Definition w3 : state := Eval vm_compute in match run cfg w2 [ETick 100; EExpire 0] with Some s => s | None => start 0 end.
Definition w4 : state := Eval vm_compute in match run cfg (start 0) [EConnect 1 7; EIncoming 2 8 None; EDone 0 (ROk (Conn 1 7 Outbound))] with Some s => s | None => start 0 end.
(** [closed_connection_waits] at work. *)
Example closed_connection_waits_used : forall err, In (0%nat, AErr err) (match run cfg (start 0) [EConnect 1 7; EDone 0 (RErr true 3); ETick 100; EExpire 0] with Some s => s_answers s | None => [] end) -> err = 3.
Proof.
  intros err H.
  refine (proj1 (proj2 (proj2 (closed_connection_waits cfg 0 [EConnect 1 7] [ETick 100; EExpire 0] w1 w2 w3 0 3 1 (Pend 0 Outbound [0%nat] 0) (Task 0 1 0 7 Outbound false) 0%nat _ _ _ _ _ _ _ _ _)) err _)); try (vm_compute; reflexivity); [left; reflexivity|left; reflexivity|].
  vm_compute in H. vm_compute. exact H.
Qed.
(** The dials of a wanted peer: backoff 10, then 20, at most 25; cleared by a success. *)
Definition failed (t : nat) := [EDone t (RErr false 1)].
Definition known7 := [(7, 1, High)].
Example backoff_grows :
  option_map (fun s => map (fun x => (b_next (snd x), b_attempts (snd x))) (s_backoff s)) (run cfg (start 0) ([ECheck known7] ++ failed 0 ++ [ECheck known7])) = Some [(10, 1)] /\
  option_map (fun s => length (s_dials s)) (run cfg (start 0) ([ECheck known7] ++ failed 0 ++ [ECheck known7; ETick 10; ECheck known7])) = Some 0%nat /\
  option_map (fun s => length (s_dials s)) (run cfg (start 0) ([ECheck known7] ++ failed 0 ++ [ECheck known7; ETick 11; ECheck known7])) = Some 1%nat /\
  option_map (fun s => map (fun x => (b_next (snd x), b_attempts (snd x))) (s_backoff s)) (run cfg (start 0) ([ECheck known7] ++ failed 0 ++ [ECheck known7; ETick 11; ECheck known7] ++ failed 1 ++ [ECheck known7; ETick 21; ECheck known7] ++ failed 2 ++ [ECheck known7])) = Some [(57, 3)] /\
  option_map (fun s => s_backoff s) (run cfg (start 0) ([ECheck known7] ++ failed 0 ++ [ECheck known7; ETick 11; ECheck known7; EDone 1 (ROk (Conn 1 7 Outbound)); ECheck known7])) = Some [].
Proof. repeat split; vm_compute; reflexivity. Qed.
(** The limit: two connections are there, so an unknown third is refused and a known one is not. *)
Example limit_is_for_unknown :
  let l := [EIncoming 1 7 None; EDone 0 (ROk (Conn 1 7 Inbound)); EIncoming 2 8 None; EDone 1 (ROk (Conn 2 8 Inbound))] in
  option_map (fun s => length (s_tasks s)) (run cfg (start 0) (l ++ [EIncoming 3 9 None])) = Some 0%nat /\ option_map (fun s => length (s_tasks s)) (run cfg (start 0) (l ++ [EIncoming 3 9 (Some Allowed)])) = Some 1%nat.
Proof. split; vm_compute; reflexivity. Qed.

(** ** What surprises *)
(** The entries are by address alone: a request for peer 8 at the address where a dial of peer 7 is pending is answered with peer 7. *)
Example another_peer_is_given :
  got (run cfg (start 0) [EConnect 1 7; EConnect 1 8; EDone 0 (ROk (Conn 1 7 Outbound))]) = Some [(0%nat, AOk (Conn 1 7 Outbound)); (1%nat, AOk (Conn 1 7 Outbound))].
Proof. vm_compute. reflexivity. Qed.
(** so is a dial of the manager, when an incoming connection came from that address first: the peer is taken for dialed and its backoff is cleared *)
Example dial_of_another_peer :
  let l := [EIncoming 1 9 None; ECheck [(7, 1, High)]; EDone 0 (ROk (Conn 1 9 Inbound))] in
  got (run (Cfg 8 100 10 25 4 None) (start 0) l) = Some [] /\
  got (run (Cfg 10 100 10 25 4 None) (start 0) [EConnect 1 9; ECheck [(7, 1, High)]; EDone 0 (ROk (Conn 1 9 Outbound))]) = Some [(0%nat, AOk (Conn 1 9 Outbound)); (1%nat, AOk (Conn 1 9 Outbound))].
Proof. split; vm_compute; reflexivity. Qed.
(** The number of an entry starts at 0 again with each new entry: the result of an aborted task, if it was there before the abort and is taken late,
    is taken for that of the next entry of the address, and the connection of that entry's own task is dropped: it is nobody's. *)
Example stale_result :
  let l := [EConnect 1 7; EIncoming 1 7 None; EDone 1 (ROk (Conn 1 7 Inbound)); ELost 1; EConnect 1 7; EDone 0 (RErr false 4); EDone 2 (ROk (Conn 2 7 Outbound))] in
  option_map (fun s => (s_answers s, s_active s)) (run cfg (start 0) l) = Some ([(0%nat, AOk (Conn 1 7 Inbound)); (1%nat, AErr 4)], []).
Proof. vm_compute. reflexivity. Qed.
(** The peer is the peer of one address, and the requests of the manager meet the hypotheses of [connects_to_the_right_peer]. *)
Definition owner (a : addr) : peer := a + 6.
Example right_peer_used : forall c, In (0%nat, AOk c) (match run cfg (start 0) [EConnect 1 7; EIncoming 2 8 None; EDone 0 (ROk (Conn 1 7 Outbound))] with Some s => s_answers s | None => [] end) -> c_peer c = 7.
Proof.
  intros c H.
  refine (connects_to_the_right_peer owner cfg 0 [] 1 7 [EIncoming 2 8 None; EDone 0 (ROk (Conn 1 7 Outbound))] (start 0) w4 0%nat c _ _ _ _ _); try (vm_compute; reflexivity).
  - split; [reflexivity|]. split; [reflexivity|]. split; [|exact I]. intros x IN E. vm_compute in IN. destruct IN as [<-|[<-|[]]]; [reflexivity|discriminate].
  - vm_compute in H. vm_compute. exact H.
Qed.
