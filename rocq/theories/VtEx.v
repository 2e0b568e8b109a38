(** C93: concrete cases. *)
From Coq Require Import List NArith Bool Arith Permutation.
From Verif Require Import VtModel VtThms.
Import ListNotations.
Local Open Scope N_scope.

Definition none (x : N) : bool := false.
(** Node 1; two targets kept.  Four validators and the node; three are resolved when pinging starts. *)
Definition h1 : list op := [OSend [1; 2; 3; 4; 5]; ORecv; OTake; OFilter; OResolved 3; OResolved 5; OResolved 2].
Definition s1 : st := Eval vm_compute in run 1 2 init h1.
Example resolving : md s1 = Resolve [2; 3; 4; 5] [4] /\ resolved s1 = [3; 5; 2].
Proof. vm_compute. auto. Qed.
(** The second ping fails, a third is sent for it. *)
Definition h2 : list op := h1 ++ [OTick 0 none [5; 3; 2]; OPing 0 5 true; OPing 0 3 false; OPing 0 2 true; OStore 0].
Example found_two : targets (run 1 2 init h2) = [5; 2].
Proof. vm_compute. reflexivity. Qed.
(** A new set: what is no longer in it leaves; the tracker of the old set finds its result unwanted. *)
Definition h3 : list op := h2 ++ [OTick 0 none [3; 5; 2]; OPing 0 5 true; OSend [1; 2; 6]; ORecv; OTake; OPing 0 3 true; OStore 0; OFilter].
Example next_set : let s := run 1 2 init h3 in targets s = [2] /\ resolved s = [2] /\ md s = Resolve [2; 6] [6] /\ trackers s 0 = None /\
  last_set (sends h3) = Some [1; 2; 6].
Proof. vm_compute. auto 10. Qed.
Example h3_is_fair : fair 1 2 init h3.
Proof.
  assert (G : forall s h, (forall o, In o h -> match o with OSend p => NoDup p | OTick _ _ _ => False | _ => True end) -> fair 1 2 s h).
  { intros s h; revert s. induction h as [|o h IH]; intros s H; [exact Logic.I|]. split; [|apply IH; intros o' I'; apply H; now right].
    specialize (H o (or_introl eq_refl)). destruct o; cbn; auto. destruct H. }
  assert (A : forall h s h', fair 1 2 s h -> fair 1 2 (run 1 2 s h) h' -> fair 1 2 s (h ++ h')).
  { induction h as [|o h IH]; intros s h' F1 F2; [exact F2|]. destruct F1 as [F0 F1]. split; [exact F0|]. now apply IH. }
  unfold h3, h2. rewrite <- app_assoc. apply A.
  - apply G. intros o H. cbn in H. repeat (destruct H as [<-|H]; [cbn; repeat constructor; cbn; intuition discriminate|]). destruct H.
  - change (run 1 2 init h1) with s1. apply A.
    + split; [|apply G; intros o H; cbn in H; repeat (destruct H as [<-|H]; [exact Logic.I|]); destruct H].
      change (Permutation [5; 3; 2] [3; 5; 2]). apply perm_swap.
    + split.
      * change (Permutation [3; 5; 2] (filter (fun x => negb (none x)) [3; 5; 2])). reflexivity.
      * apply G. intros o H. cbn in H. repeat (destruct H as [<-|H]; [cbn; repeat constructor; cbn; intuition discriminate|]). destruct H.
Qed.
(** The hypotheses of the theorems about a round. *)
Example round_starts : trackers s1 0 = Some {| t_epoch := 1; t_phase := Waiting |} /\ 0 < next_id s1.
Proof. vm_compute. auto. Qed.

(** Finding: if there are no spare validators, the first ping that fails ends the round, and those which would
    have answered are not waited for: here the node is left without any target though two of three are alive. *)
Definition h4 : list op := h1 ++ [OTick 0 none [5; 3; 2]; OPing 0 5 false; OPing 0 3 true; OPing 0 2 true; OStore 0].
Example first_failure_ends_the_round : targets (run 1 5 init h4) = [].
Proof. vm_compute. reflexivity. Qed.
(** It then also loses the targets of the round before. *)
Definition h5 : list op := h1 ++ [OTick 0 none [5; 3; 2]; OPing 0 3 true; OPing 0 2 true; OPing 0 5 true; OStore 0].
Example targets_lost : targets (run 1 5 init h5) = [3; 2; 5] /\
  targets (run 1 5 init (h5 ++ [OTick 0 none [5; 3; 2]; OPing 0 5 false; OPing 0 3 true; OPing 0 2 true; OStore 0])) = [].
Proof. vm_compute. auto. Qed.
