(** Concrete downloads. *)
From Coq Require Import List Bool NArith Lia.
From Verif Require Import OMap VomModel PeerCountModel DlModel DlQueue DlInv DlSteps DlSpec DlThms DlMore.
Import ListNotations.
Local Open Scope N_scope.

Definition ex : conf := Conf [(1, true); (2, true); (3, false); (4, true)] 9 true 1 2 77 (fun p => 10 - p).
Fixpoint go (c : conf) (y : task) (l : list event) : option task :=
  match l with [] => Some y | e :: r => if enabled y e then match step c y e with Some y' => go c y' r | None => None end else None end.
Lemma go_runs c l : forall l0 y y', runs c l0 y -> go c y l = Some y' -> runs c (l0 ++ l) y'.
Proof.
  induction l as [|e l IH]; intros l0 y y' R H; cbn [go] in H; [injection H as <-; rewrite app_nil_r; exact R|].
  destruct (enabled y e) eqn:EN; [|discriminate]. destruct (step c y e) as [y1|] eqn:ST; [|discriminate].
  replace (l0 ++ e :: l) with ((l0 ++ [e]) ++ l) by (rewrite <- app_assoc; reflexivity). exact (IH _ _ _ (d_snoc c l0 y e y1 R EN ST) H).
Qed.
Definition out_of (l : list event) : option (option outcome * list (peer * N) * list peer * list peer) :=
  match go ex (task_new ex) l with Some y => Some (d_out y, d_asked y, d_down y, d_nf y) | None => None end.

Example ex_ok : conf_ok ex /\ NoDup (map fst (c_vset ex)).
Proof. split; [vm_compute; reflexivity|]. cbn. repeat constructor; cbn; intuition discriminate. Qed.

(** the author 9 has the least random number (0) and is asked first; a depender goes before the others *)
Example first_tick : out_of [ETick] = Some (None, [(9, 0)], [9], []).
Proof. vm_compute. reflexivity. Qed.
Example depender_first : out_of [EDepender 2; ETick] = Some (None, [(2, 0)], [2], []).
Proof. vm_compute. reflexivity. Qed.

(** author has nothing (does not count), 4 has nothing, 2 sends another point: not found *)
Definition l1 := [ETick; EResponse 9 RNone; ETick; EResponse 4 RNone; EResponse 2 (RDefined (PPoint 5)); EParsed true].
Example not_found_run : out_of l1 = Some (Some ONotFound, [(1, 2); (2, 1); (4, 1); (9, 0)], [1], [2; 4]).
Proof. vm_compute. reflexivity. Qed.

(** the author asks to try later and goes to the end; the point comes from 4 while 2 has nothing *)
Definition l2 := [ETick; EResponse 9 RTryLater; EUpdate 3 true; ETick; EResponse 4 (RDefined (PPoint 77)); EResponse 2 RNone; EParsed true].
Example found_run : out_of l2 = Some (Some (OVerified 77), [(2, 1); (4, 1); (9, 0)], [], [2]).
Proof. vm_compute. reflexivity. Qed.

Lemma runs_of l x : out_of l = Some x -> exists y, runs ex l y /\ (d_out y, d_asked y, d_down y, d_nf y) = x.
Proof.
  unfold out_of. destruct (go ex (task_new ex) l) as [y|] eqn:G; [|discriminate]. intros H. injection H as <-. exists y. split; [|reflexivity].
  exact (go_runs ex l [] _ y (d_nil ex) G).
Qed.
(** the hypotheses of the theorems are met *)
Lemma not_found_reached : exists y, runs ex l1 y /\ d_out y = Some ONotFound.
Proof. destruct (runs_of l1 _ not_found_run) as (y & R & E). exists y. split; [exact R|]. congruence. Qed.
Lemma found_reached : exists y, runs ex l2 y /\ d_out y = Some (OVerified 77).
Proof. destruct (runs_of l2 _ found_run) as (y & R & E). exists y. split; [exact R|]. congruence. Qed.

(** ** Observations *)

(** A lagged stream of updates loses them: peer 3 became resolved, but this is never known, and it is
    not asked even if it is the only one left that has the point. *)
Definition l3 := [ELagged; ETick; EResponse 9 RNone; ETick; ETick].
Example lagged_run : out_of l3 = Some (None, [(2, 1); (4, 1); (9, 0)], [2; 4], []).
Proof. vm_compute. reflexivity. Qed.
Lemma lagged_peer_not_asked : exists y, runs ex l3 y /\ d_out y = None /\ forall a, ~ In (3, a) (d_asked y).
Proof.
  destruct (runs_of l3 _ lagged_run) as (y & R & E). exists y. split; [exact R|]. split; [congruence|]. intros a H.
  assert (X : d_asked y = [(2, 1); (4, 1); (9, 0)]) by congruence. rewrite X in H. cbn in H. intuition discriminate.
Qed.
