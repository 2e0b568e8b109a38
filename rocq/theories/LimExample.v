(** Concrete runs of the limiter. *)
From Coq Require Import List Bool NArith Lia.
From Verif Require Import LimModel LimThms LimSpec.
Import ListNotations.
Local Open Scope N_scope.

Fixpoint exec (n : lim) (l : list event) : option lim :=
  match l with
  | [] => Some n
  | e :: r => if enabled n e then match step n e with Some n' => exec n' r | None => None end else None
  end.
Lemma exec_runs p l0 n l n' : runs p l0 n -> exec n l = Some n' -> runs p (l0 ++ l) n'.
Proof.
  revert l0 n. induction l as [|e l IH]; intros l0 n R E; cbn [exec] in E.
  - injection E as <-. rewrite app_nil_r. exact R.
  - destruct (enabled n e) eqn:EN; [|discriminate]. destruct (step n e) as [m|] eqn:ST; [|discriminate].
    change (e :: l) with ([e] ++ l). rewrite app_assoc. exact (IH _ m (l_snoc p l0 n e m R EN ST) E).
Qed.

(** two permits: four calls, the fourth of the highest round; the guard of the first call is dropped *)
Definition ev1 : list event := [EEnter 5; EEnter 6; EEnter 7; EEnter 9; EPoll 2 2; EPoll 3 3].
Definition n1 : lim := Eval vm_compute in match exec (lim_new 2) ev1 with Some n => n | None => lim_new 0 end.
Lemma n1_runs : runs 2 ev1 n1.
Proof. apply (exec_runs 2 [] (lim_new 2) ev1 n1 (l_nil 2)). vm_compute. reflexivity. Qed.
(** the hypotheses of the theorems hold here: all tasks are polled, two wait, both guards are taken *)
Example n1_polled : all_polled n1 /\ len (n_hold n1) = 2 /\ map s_queue (n_sems n1) = [[2]; [3]].
Proof. split; [|vm_compute; auto]. intros x [<-|[<-|[]]]; vm_compute; auto. Qed.
Definition n2 : lim := Eval vm_compute in match exec n1 [EExit 0] with Some n => n | None => lim_new 0 end.
Example n2_served : step n1 (EExit 0) = Some n2 /\ map s_granted (n_sems n2) = [[]; [3]].
Proof. vm_compute. auto. Qed.
(** a granted call is cancelled before it runs: its permit goes to the other round *)
Definition n3 : lim := Eval vm_compute in match exec n2 [ECancel 3 3; ECleanup 3 3] with Some n => n | None => lim_new 0 end.
Example n3_passed_on : exec n2 [ECancel 3 3; ECleanup 3 3] = Some n3 /\ map s_granted (n_sems n3) = [[2]; []] /\ n_map n3 = [].
Proof. vm_compute. auto. Qed.
Definition n4 : lim := Eval vm_compute in match exec n3 [EWake 2 2; EExit 2; EExit 1] with Some n => n | None => lim_new 0 end.
Example n4_quiet : exec n3 [EWake 2 2; EExit 2; EExit 1] = Some n4 /\ n_permits n4 = 2 /\ n_hold n4 = [].
Proof. vm_compute. auto. Qed.

(** ** A cancelled call hands its permit to its own round (limiter.rs 77-86)

    One permit. A call of round 5 gets the permit of a dropped guard and its entry is removed;
    before it runs, a second call of round 5 and a call of round 9 enter and wait. When the first
    call is cancelled its permit goes to round 5, although round 9 waits. *)
Definition ev_aba : list event := [EEnter 3; EEnter 5; EPoll 1 1; EExit 0; EEnter 5; EEnter 9; EPoll 2 2; EPoll 3 3; ECancel 1 1].
Definition n5 : lim := Eval vm_compute in match exec (lim_new 1) ev_aba with Some n => n | None => lim_new 0 end.
Definition n6 : lim := Eval vm_compute in match step n5 (ECleanup 1 1) with Some n => n | None => lim_new 0 end.
Lemma n5_runs : runs 1 ev_aba n5.
Proof. apply (exec_runs 1 [] (lim_new 1) ev_aba n5 (l_nil 1)). vm_compute. reflexivity. Qed.
Theorem a_cancelled_call_bypasses_priority : exists n n' x y,
  runs 1 ev_aba n /\ enabled n (ECleanup 1 1) = true /\ step n (ECleanup 1 1) = Some n' /\
  In x (n_sems n') /\ s_round x = 5 /\ s_granted x = [2] /\
  In y (n_sems n') /\ s_round y = 9 /\ s_queue y = [3] /\ unserved y.
Proof.
  exists n5, n6, (Sem 2 5 0 [] [] [2] []), (Sem 3 9 0 [] [3] [] []).
  split; [exact n5_runs|]. vm_compute. repeat split; auto.
Qed.
