(** Broadcasts of concrete points: the theorems apply, and what they do not promise. *)
From Coq Require Import List Bool NArith Lia.
From Verif Require Import PsModel PeerCountModel BrModel BrInv BrThms BrMore BrEnd BrAsk BrCalm.
Import ListNotations.
Local Open Scope N_scope.

Fixpoint exec (v : env) (cur : round) (y : sys) (l : list event) : option sys :=
  match l with
  | [] => Some y
  | e :: r => if enabled y e then match step v cur y e with Some z => exec v cur z r | None => None end else None
  end.
Lemma exec_runs_from v cur y0 l : forall m y z, runs v cur y0 m y -> exec v cur y l = Some z -> runs v cur y0 (m ++ l) z.
Proof.
  induction l as [|e l IH]; intros m y z R E; cbn [exec] in E.
  - injection E as <-. rewrite app_nil_r. exact R.
  - destruct (enabled y e) eqn:EN; [|discriminate]. destruct (step v cur y e) as [x|] eqn:ST; [|discriminate].
    replace (m ++ e :: l) with ((m ++ [e]) ++ l) by (rewrite <- app_assoc; reflexivity). apply (IH _ x z); [|exact E]. econstructor; eauto.
Qed.
Lemma exec_runs v cur y l z : exec v cur y l = Some z -> runs v cur y l z.
Proof. intros E. exact (exec_runs_from v cur y l [] y z (r_nil _ _ _) E). Qed.

(** Four validators, F = 1; a signature of [p] is [p * 100]. *)
Definition env4 : env := Env 1 [1; 2; 3; 4] 1 3 (fun p g => g =? p * 100).

Lemma env4_nodup : NoDup (v_signers env4).
Proof. repeat constructor; cbn; intuition discriminate. Qed.

(** A good round: 2 signs, 3 signs at the second try, 4 sends a wrong signature. *)
Definition good : list event :=
  [ EPoint [4; 3; 2; 1]; ETick; EStatus; EBcast 2 BOk; ESig 2 true (SSignature 200); EBcast 3 BNetwork;
    EBcast 4 BOk; EThreshold; ESig 4 true (SSignature 7); ETick; EStatus; ESig 3 false SNoPoint; EBcast 3 BOk; ESig 3 true STryLater;
    ETick; EStatus; ESig 3 false (SSignature 300); ETick; EStatus; ESignal; EClosed; EContinue; ERetry ].
Definition good_end : sys := Eval vm_compute in match exec env4 10 round_start good with Some y => y | None => round_start end.
Lemma good_runs : runs env4 10 round_start good good_end.
Proof. apply exec_runs. vm_compute. reflexivity. Qed.

Lemma good_calm : calm good.
Proof. split; [|split; reflexivity]. intros p H. repeat (destruct H as [H|H]; [discriminate|]). destruct H. Qed.

Theorem good_round :
  y_end good_end = Some Ready /\ y_signal good_end = Some true /\ gathered good_end = [(3, 300); (2, 200)] /\
  b_rej (y_bc good_end) = [4] /\ ticks good = 4.
Proof. repeat split; vm_compute; reflexivity. Qed.

(** the hypotheses of the theorems about this round hold *)
Theorem good_applies :
  told 4 good /\ out 1 4 good (4 =? 1) = false /\ ~ In (EUpdate 1 true) good /\
  (forall p, In p (b_rej (y_bc good_end)) -> In p (v_signers env4)).
Proof.
  split; [left; exists [4; 3; 2; 1]; split; [left; reflexivity|left; reflexivity]|]. split; [reflexivity|]. split.
  - intros H. repeat (destruct H as [H|H]; [discriminate|]). destruct H.
  - intros p H. vm_compute in H. destruct H as [<-|[]]. vm_compute. auto.
Qed.

(** the state before the status at the second attempt: 3 is queued *)
Definition mid : list event := firstn 10 good.
Definition mid_end : sys := Eval vm_compute in match exec env4 10 round_start mid with Some y => y | None => round_start end.
Lemma mid_runs : runs env4 10 round_start mid mid_end.
Proof. apply exec_runs. vm_compute. reflexivity. Qed.
Theorem mid_applies : enabled mid_end EStatus = true /\ y_attempt mid_end = 2 /\ b_speers (y_bc mid_end) = [3].
Proof. repeat split; vm_compute; reflexivity. Qed.

(** ** What the code does and one might not expect *)

(** Peers that are no validators of the next round receive the point too, and their malformed
    answers count as rejections: two of them end the round of a point that no validator rejected. *)
Definition strangers : list event :=
  [ EPoint [2; 3; 4; 8; 9]; ETick; EStatus; EBcast 8 BTlError; EBcast 9 BTlError; EBcast 2 BOk; EBcast 3 BOk;
    ESig 2 true (SSignature 200); ESig 3 true (SSignature 300); ETick; EStatus; ESignal ].
Definition strangers_end : sys := Eval vm_compute in match exec env4 10 round_start strangers with Some y => y | None => round_start end.
Lemma strangers_runs : runs env4 10 round_start strangers strangers_end.
Proof. apply exec_runs. vm_compute. reflexivity. Qed.
Theorem strangers_fail_the_round :
  y_end strangers_end = Some Failed /\ gathered strangers_end = [(3, 300); (2, 200)] /\
  b_rej (y_bc strangers_end) = [9; 8] /\ y_includes strangers_end = false.
Proof. repeat split; vm_compute; reflexivity. Qed.

(** A peer that signed and then came online again is asked again, and may be counted both among
    the signatures and among the rejections. *)
Definition twice : list event :=
  [ EPoint [2; 3; 4]; EBcast 2 BOk; ESig 2 true (SSignature 200); EUpdate 2 true; EBcast 2 BTlError ].
Definition twice_end : sys := Eval vm_compute in match exec env4 10 round_start twice with Some y => y | None => round_start end.
Lemma twice_runs : runs env4 10 round_start twice twice_end.
Proof. apply exec_runs. vm_compute. reflexivity. Qed.
Theorem signed_and_rejected : In 2 (map fst (gathered twice_end)) /\ In 2 (b_rej (y_bc twice_end)).
Proof. vm_compute. auto. Qed.

(** An update about the author makes the node ask itself. *)
Definition myself : list event := [ EPoint [2; 3; 4]; EUpdate 1 true; EBcast 1 BOk; ESig 1 true (SSignature 100) ].
Definition myself_end : sys := Eval vm_compute in match exec env4 10 round_start myself with Some y => y | None => round_start end.
Lemma myself_runs : runs env4 10 round_start myself myself_end.
Proof. apply exec_runs. vm_compute. reflexivity. Qed.
Theorem author_asked : gathered myself_end = [(1, 100)].
Proof. reflexivity. Qed.

(** A validator that left while queued is not asked when it is back in time for the attempt only
    because the update itself starts a broadcast. *)
Definition away : list event :=
  [ EPoint [2; 3; 4]; ETick; EStatus; EBcast 2 BNetwork; EUpdate 2 false; ETick; EStatus ].
Definition away_end : sys := Eval vm_compute in match exec env4 10 round_start away with Some y => y | None => round_start end.
Lemma away_runs : runs env4 10 round_start away away_end.
Proof. apply exec_runs. vm_compute. reflexivity. Qed.
Theorem absent_is_dropped : ~ known (y_bc away_end) 2.
Proof. unfold known. vm_compute. intuition discriminate. Qed.
Definition back_end : sys := Eval vm_compute in match exec env4 10 away_end [EUpdate 2 true] with Some y => y | None => round_start end.
Lemma back_runs : runs env4 10 round_start (away ++ [EUpdate 2 true]) back_end.
Proof. apply (exec_runs_from _ _ _ _ _ away_end); [exact away_runs|]. vm_compute. reflexivity. Qed.
Theorem back_is_asked : In 2 (b_bfut (y_bc back_end)).
Proof. vm_compute. auto. Qed.
