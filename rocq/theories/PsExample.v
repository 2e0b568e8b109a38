(** A node's life on a concrete chain: the hypotheses of the theorems are met, and what happens
    outside of them. *)
From Coq Require Import List Bool NArith Lia ZArith ZifyN ZifyNat ZifyBool.
From Verif Require Import PsModel PsSpec PsEpochs PsThms PsPeers PsBans.
Import ListNotations.
Local Open Scope N_scope.

(** genesis at round 10 by 99; validators 1..4 from round 11, then 2..5 from round 100; validator 7
    is in the whole set only *)
Definition E1 := Epoch 11 [1; 2; 3; 4; 7] [(1, 0); (2, 1); (3, 2); (4, 3)].
Definition E2 := Epoch 100 [2; 3; 4; 5] [(2, 1); (3, 0); (4, 2); (5, 3)].
Definition T (n : nat) : epoch :=
  match n with
  | 0%nat => Epoch 9 [] [(99, 0)]
  | 1%nat => E1
  | 2%nat => E2
  | _ => Epoch (100 * N.of_nat n) [5; 6] [(5, 0); (6, 1)]
  end.
Lemma T_timeline : timeline T.
Proof.
  intros [|[|[|i]]]; cbn [T e_start e_sub E1 E2]; (split; [|discriminate]); try (vm_compute; reflexivity). lia.
Qed.
Definition nobody (p : peer) := false.
Definition E0 := Epoch 0 [] [].
Definition ip0 := Init E0 E1 [].
Definition s0 := Eval vm_compute in init nobody 10 99 ip0 (ps0 1).
Definition x0 := Eval vm_compute in match s0 with Some x => x | None => ps0 1 end.
Lemma s0_eq : init nobody 10 99 ip0 (ps0 1) = Some x0.
Proof. vm_compute. reflexivity. Qed.

Definition history : list op :=
  [OAdvance 11; ONet 2; OTask 2; ONet 3; OTask 3; OBan [3]; OPeers nobody (Init E1 E2 []); ONet 5; OTask 5;
   OUnban (fun p => p =? 3) [3]; OForgotten].
Definition x1 := Eval vm_compute in match run x0 history with Some x => x | None => x0 end.
Lemma x1_eq : run x0 history = Some x1.
Proof. vm_compute. reflexivity. Qed.

Lemma usable1 : usable 99 E1.
Proof. split; [reflexivity|]. intros p H. vm_compute in H |- *. destruct p as [|[[[]|[]|]|[[]|[]|]|]]; vm_compute in *; congruence. Qed.
Lemma usable2 : usable 99 E2.
Proof. split; [reflexivity|]. intros p H. vm_compute in H |- *. destruct p as [|[[[]|[]|]|[[]|[]|]|]]; vm_compute in *; congruence. Qed.
Lemma usable0 : usable 99 E0.
Proof. split; [reflexivity|]. intros p H. discriminate. Qed.

Lemma history_orderly : orderly T 99 1 1 history 2.
Proof.
  unfold history.
  do 6 (apply o_other; [discriminate|discriminate|]).
  eapply o_peers; [apply told_new; reflexivity|exact usable1|exact usable2|reflexivity|left; reflexivity|].
  do 2 (apply o_other; [discriminate|discriminate|]).
  apply o_unban; [intros [H|[]]; discriminate|].
  apply o_other; [discriminate|discriminate|]. constructor.
Qed.
Theorem example_works : works T 10 99 1 2 x1.
Proof.
  exists nobody, ip0, x0, history, 1%nat.
  split; [exact s0_eq|]. split; [reflexivity|]. split; [exact usable0|]. split; [exact usable1|]. split; [reflexivity|].
  split; [exact history_orderly|exact x1_eq].
Qed.
(** what it looks like: 2 and 3 are resolved in both epochs, 3 after its ban was lifted; 5 only in
    the next; the node itself never *)
Lemma example_answers :
  peers_for (p_less x1) 50 = [1; 2; 3; 4] /\ peers_for (p_less x1) 100 = [2; 3; 4; 5] /\
  peers_for (p_less x1) 9 = [99] /\ peers_for (p_less x1) 8 = [] /\
  state_at x1 2 50 = Some true /\ state_at x1 3 100 = Some true /\ state_at x1 5 100 = Some true /\
  state_at x1 4 100 = Some false /\ state_at x1 1 50 = Some false /\ state_at x1 5 50 = None /\
  receives x1 2 = true /\ receives x1 3 = true /\ receives x1 5 = true /\ receives x1 4 = false.
Proof. vm_compute. repeat split. Qed.
Lemma example_belongs : belongs T 2 1 50 /\ belongs T 2 2 100.
Proof. unfold belongs. repeat split; cbn; lia. Qed.

(** ** Outside of the theorems *)

(** A resolve task that is replaced before it was polled loses a peer that the network has just
    resolved: nobody waits for it and it stays unknown. *)
Definition lost : list op := [OAdvance 11; ONet 2; OTask 2; ONet 4; OBan [2]].
Definition xl := Eval vm_compute in match run x0 lost with Some x => x | None => x0 end.
Lemma xl_eq : run x0 lost = Some xl. Proof. vm_compute. reflexivity. Qed.
Theorem replaced_task_loses_a_peer :
  address_known xl 4 /\ is_banned (p_less xl) 4 = false /\ state_at xl 4 50 = Some false /\
  mem 4 (k_wait (p_lock xl)) = false.
Proof. vm_compute. auto. Qed.

(** A validator of the previous epoch that is banned after the switch still gets broadcasts. *)
Definition late : list op := [OAdvance 11; OPeers nobody (Init E1 (Epoch 100 [1; 3; 4; 5] [(3, 0); (4, 1); (5, 2)]) []); ONet 2; OTask 2; OAdvance 100; OBan [2]].
Definition xb := Eval vm_compute in match run x0 late with Some x => x | None => x0 end.
Lemma xb_eq : run x0 late = Some xb. Proof. vm_compute. reflexivity. Qed.
Theorem banned_receiver : is_banned (p_less xb) 2 = true /\ receives xb 2 = true.
Proof. vm_compute. auto. Qed.

(** A banned member of the whole set that is not a working validator stays "resolved" for the
    users that ask without a round. *)
Definition whole : list op := [OAdvance 11; ONet 7; OTask 7; OPeers nobody (Init E1 (Epoch 100 [3; 4; 7] [(3, 0); (4, 1)]) []); OBan [7]].
Definition xw := Eval vm_compute in match run x0 whole with Some x => x | None => x0 end.
Lemma xw_eq : run x0 whole = Some xw. Proof. vm_compute. reflexivity. Qed.
Theorem banned_but_resolved : is_banned (p_less xw) 7 = true /\ peer_state (k_data (p_lock xw)) 7 = true.
Proof. vm_compute. auto. Qed.

(** Lifting a ban from the node itself can make it its own broadcast receiver. *)
Definition self : list op := [OAdvance 11; ONet 1; OUnban nobody [1]].
Definition xs := Eval vm_compute in match run x0 self with Some x => x | None => x0 end.
Lemma xs_eq : run x0 self = Some xs. Proof. vm_compute. reflexivity. Qed.
Theorem unbanned_self_is_resolved : state_at xs 1 50 = Some true /\ receives xs 1 = true.
Proof. vm_compute. auto. Qed.

(** When the collator replaces an epoch that was not reached, the switch round stays. A node that
    already rotated to the epoch ignores the replacement, another one takes it: they disagree on
    the validators of the rounds from the switch. *)
Definition E2' := Epoch 100 [2; 3; 6] [(2, 0); (3, 1); (6, 2)].
Definition replaced (next : list peer) : list op :=
  [OAdvance 11; OPeers nobody (Init E1 E2 next); OPeers nobody (Init E1 E2' [])].
Definition xr1 := Eval vm_compute in match run x0 (replaced []) with Some x => x | None => x0 end.
Definition xr2 := Eval vm_compute in match run x0 (replaced [2; 6]) with Some x => x | None => x0 end.
Lemma xr1_eq : run x0 (replaced []) = Some xr1. Proof. vm_compute. reflexivity. Qed.
Lemma xr2_eq : run x0 (replaced [2; 6]) = Some xr2. Proof. vm_compute. reflexivity. Qed.
Theorem replaced_epoch_splits_nodes :
  (* the collator's choice for the same switch round *)
  kb_skip (kb_new false false 20 50 200 (Cinfo 11 100 10)) = true /\
  fst (kb_round (kb_new false false 20 50 200 (Cinfo 11 100 10)) (Cinfo 11 100 10) 0) = 100 /\
  peers_for (p_less xr1) 100 = [2; 3; 6] /\ peers_for (p_less xr2) 100 = [2; 3; 4; 5].
Proof. vm_compute. auto. Qed.

(** A scheduled epoch is lost if an update skips it: rounds of the lost epoch are attributed to
    the epoch before. *)
Definition skips : list op :=
  [OAdvance 11; OPeers nobody (Init E1 E2 []); OPeers nobody (Init (Epoch 10 (e_vset E2) (e_sub E2)) (T 3) [])].
Definition xk := Eval vm_compute in match run x0 skips with Some x => x | None => x0 end.
Lemma xk_eq : run x0 skips = Some xk. Proof. vm_compute. reflexivity. Qed.
Theorem skipped_epoch_is_lost : peers_for (p_less xk) 150 = [1; 2; 3; 4] /\ members E2 = [2; 3; 4; 5].
Proof. vm_compute. auto. Qed.

(** C76: the hypotheses of the theorems about switch rounds are met. *)
Lemma switch_example :
  let ci := Cinfo 11 100 10 in
  kb_skip (kb_new false false 300 50 200 ci) = false /\
  fst (kb_round (kb_new false false 300 50 200 ci) ci 0) = 351.
Proof. vm_compute. auto. Qed.
