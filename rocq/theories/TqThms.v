(** C95: theorems about the periodic tasks of overlays. *)
From Coq Require Import List NArith Bool Lia ZifyN ZifyBool.
From Verif Require Import TqModel.
Import ListNotations.
Local Open Scope N_scope.

Lemma put_case {A} (f : N -> A) k v x : put f k v x = if x =? k then v else f x.
Proof. reflexivity. Qed.
Lemma mem_spec p l : mem p l = true <-> In p l.
Proof. unfold mem. rewrite existsb_exists. split; [intros (x & I & E); replace p with x by lia; assumption|intros I; exists p; split; [assumption|apply N.eqb_refl]]. Qed.

(** A history in which no task of an overlay is started before the one cancelled with the overlay's removal is seen as
    cancelled, or its end was seen.  (The program does not see to that: see [two_at_once] in TqEx.) *)
Definition clean (s : st) (o : op) : Prop :=
  match o with
  | OSpawn id => handle s id = None -> forall t x, tasks s t = Some (id, x) -> x = Cancelled
  | _ => True
  end.
Inductive reach : st -> Prop :=
| R0 : reach init
| RS s o : reach s -> clean s o -> reach (step s o).

Definition inv (s : st) : Prop :=
  (forall id t b, handle s id = Some (t, b) -> tasks s t = Some (id, Running) \/ tasks s t = Some (id, Done)) /\
  (forall t id, tasks s t = Some (id, Running) -> exists b, handle s id = Some (t, b)) /\
  (forall t id x t' b, tasks s t = Some (id, x) -> x <> Cancelled -> handle s id = Some (t', b) -> t = t') /\
  (forall t v, tasks s t = Some v -> t < next s).
Lemma inv_rebuild s l : inv s -> inv (rebuild s l).
Proof.
  intros (H & R & D & L). unfold inv, rebuild. cbn [handle tasks next]. repeat apply conj.
  - intros id t b. destruct (removed s l id) eqn:E; [discriminate|]. intros X. destruct (H _ _ _ X) as [Y|Y]; rewrite Y; [rewrite E; now left|now right].
  - intros t id. destruct (tasks s t) as [[i [| | |]]|] eqn:T; try discriminate. destruct (R _ _ T) as [b B].
    destruct (removed s l i) eqn:E.
    + rewrite B, N.eqb_refl. discriminate.
    + intros [= <-]. rewrite E. eauto.
  - intros t id x t' b X NE. destruct (removed s l id) eqn:E; [discriminate|]. intros Y. destruct (tasks s t) as [[i z]|] eqn:T; [|discriminate].
    assert (i = id). { destruct z; try congruence. destruct (if removed s l i then handle s i else None) as [[k c]|]; [destruct (t =? k)|]; congruence. }
    subst i. rewrite E in X. destruct z; injection X as <-; eapply D; eauto.
  - intros t v X. destruct (tasks s t) as [w|] eqn:T; [|discriminate]. eapply L; eauto.
Qed.
Lemma inv_step s o : inv s -> clean s o -> inv (step s o).
Proof.
  intros I C. pose proof I as (H & R & D & L). destruct o as [l|id|t|t|id|t]; cbn [step clean] in *.
  - now apply inv_rebuild.
  - unfold spawn. destruct (handle s id) as [[t b]|] eqn:E.
    + unfold inv. cbn [handle tasks next]. repeat apply conj.
      * intros i k c. rewrite put_case. destruct (N.eqb_spec i id) as [->|]; [intros [= <- <-]; eauto|eauto].
      * intros k i X. rewrite put_case. destruct (R _ _ X) as [c Y]. destruct (N.eqb_spec i id) as [->|]; [|eauto]. rewrite E in Y. injection Y as -> _. eauto.
      * intros k i x k' c X NE. rewrite put_case. destruct (N.eqb_spec i id) as [->|]; [intros [= <- <-]; eauto|eauto].
      * exact L.
    + specialize (C eq_refl). unfold inv. cbn [handle tasks next]. repeat apply conj.
      * intros i k c. rewrite !put_case. destruct (N.eqb_spec i id) as [->|].
        -- intros [= <- <-]. rewrite N.eqb_refl. now left.
        -- intros X. destruct (N.eqb_spec k (next s)) as [->|]; [|eauto]. destruct (H _ _ _ X) as [Y|Y]; apply L in Y; lia.
      * intros k i. rewrite !put_case. destruct (N.eqb_spec k (next s)) as [->|].
        -- intros [= <-]. rewrite N.eqb_refl. eauto.
        -- intros X. destruct (N.eqb_spec i id) as [->|]; [|eauto]. destruct (R _ _ X). congruence.
      * intros k i x k' c. rewrite !put_case. destruct (N.eqb_spec k (next s)) as [->|].
        -- intros [= <- <-] _. rewrite N.eqb_refl. now intros [= <- <-].
        -- intros X NE. destruct (N.eqb_spec i id) as [->|]; [|eauto]. apply C in X. congruence.
      * intros k v. rewrite put_case. destruct (N.eqb_spec k (next s)); [lia|]. intros X. apply L in X. lia.
  - assert (G : forall id x, tasks s t = Some (id, x) -> x = Running \/ x = Aborting -> inv (set_task s t (Some (id, Done)))).
    { intros id x T X. unfold inv. cbn [set_task handle tasks next]. repeat apply conj.
      - intros i k c Y. rewrite put_case. destruct (N.eqb_spec k t) as [->|]; [|eauto]. right. destruct (H _ _ _ Y) as [Z|Z]; congruence.
      - intros k i. rewrite put_case. destruct (N.eqb_spec k t) as [->|]; [discriminate|eauto].
      - intros k i z k' c. rewrite put_case. destruct (N.eqb_spec k t) as [->|]; [|eauto]. intros [= <- <-] _ Y. eapply D; eauto. destruct X; congruence.
      - intros k v. rewrite put_case. destruct (N.eqb_spec k t) as [->|]; [intros _|]; eauto. }
    destruct (tasks s t) as [[id [| | |]]|] eqn:E; try exact I; eapply G; eauto.
  - destruct (tasks s t) as [[id [| | |]]|] eqn:E; try exact I. unfold inv. cbn [set_task handle tasks next]. repeat apply conj.
    + intros i k c Y. rewrite put_case. destruct (N.eqb_spec k t) as [->|]; [|eauto]. destruct (H _ _ _ Y) as [Z|Z]; congruence.
    + intros k i. rewrite put_case. destruct (N.eqb_spec k t) as [->|]; [discriminate|eauto].
    + intros k i z k' c. rewrite put_case. destruct (N.eqb_spec k t) as [->|]; [congruence|eauto].
    + intros k v. rewrite put_case. destruct (N.eqb_spec k t) as [->|]; [intros _|]; eauto.
  - exact I.
  - destruct (tasks s t) as [[id [| | |]]|] eqn:E; try exact I; unfold inv; cbn [set_task handle tasks next]; repeat apply conj.
    + intros i k c. rewrite !put_case. destruct (N.eqb_spec i id) as [->|NE]; [discriminate|]. intros Y. destruct (N.eqb_spec k t) as [->|]; [|eauto].
      destruct (H _ _ _ Y) as [Z|Z]; congruence.
    + intros k i. rewrite !put_case. destruct (N.eqb_spec k t) as [->|NE]; [discriminate|]. intros X. destruct (R _ _ X) as [c Y].
      destruct (N.eqb_spec i id) as [->|]; [|eauto]. exfalso. apply NE. symmetry. eapply (D t id Done); eauto. discriminate.
    + intros k i z k' c. rewrite !put_case. destruct (N.eqb_spec k t) as [->|NE]; [discriminate|]. destruct (i =? id); [discriminate|eauto].
    + intros k v. rewrite put_case. destruct (N.eqb_spec k t) as [->|]; [discriminate|eauto].
    + intros i k c Y. rewrite put_case. destruct (N.eqb_spec k t) as [->|]; [|eauto]. destruct (H _ _ _ Y) as [Z|Z]; congruence.
    + intros k i. rewrite put_case. destruct (N.eqb_spec k t) as [->|]; [discriminate|eauto].
    + intros k i z k' c. rewrite put_case. destruct (N.eqb_spec k t) as [->|]; [congruence|eauto].
    + intros k v. rewrite put_case. destruct (N.eqb_spec k t) as [->|]; [discriminate|eauto].
Qed.
Lemma inv_reach s : reach s -> inv s.
Proof. induction 1; [|now apply inv_step]. unfold inv, init. cbn. repeat apply conj; intros; discriminate. Qed.

(** ** Theorems *)
(** At any moment at most one task of an overlay runs that was not told to end. *)
Theorem one_task_at_a_time : forall s id t t', reach s -> tasks s t = Some (id, Running) -> tasks s t' = Some (id, Running) -> t = t'.
Proof.
  intros s id t t' Re A B. destruct (inv_reach s Re) as (_ & R & D & _). destruct (R _ _ B) as [b X]. eapply D; eauto. discriminate.
Qed.
(** After a rebuild the list is the new one, no task of a removed overlay runs on, and all others do as before. *)
Theorem rebuild_is_exact : forall s l, reach s -> let s' := step s (ORebuild l) in
  (forall id, In id (ids s') <-> In id l) /\
  (forall id t, In id (ids s) -> ~ In id l -> tasks s' t <> Some (id, Running)) /\
  (forall t, tasks s' t = tasks s t \/ exists id, tasks s t = Some (id, Running) /\ tasks s' t = Some (id, Aborting) /\ In id (ids s) /\ ~ In id l) /\
  (forall id, ~ (In id (ids s) /\ ~ In id l) -> handle s' id = handle s id).
Proof.
  intros s l Re s'. destruct (inv_reach s Re) as (H & R & D & L). subst s'. cbn [step rebuild ids tasks handle].
  assert (E : forall id, removed s l id = true <-> In id (ids s) /\ ~ In id l).
  { intros id. unfold removed. rewrite andb_true_iff, negb_true_iff, mem_spec, <- (mem_spec id l). destruct (mem id l); intuition congruence. }
  repeat apply conj.
  - intros id. rewrite in_app_iff, !filter_In, nodup_In, negb_true_iff, mem_spec.
    destruct (mem id (ids s)) eqn:M; [apply mem_spec in M; intuition congruence|].
    assert (~ In id (ids s)) by (rewrite <- mem_spec; congruence). intuition.
  - intros id t A B X. destruct (tasks s t) as [[i [| | |]]|] eqn:T; try discriminate. destruct (R _ _ T) as [b Y].
    destruct (removed s l i) eqn:Z.
    + rewrite Y, N.eqb_refl in X. discriminate.
    + injection X as ->. assert (removed s l id = true) by now apply E. congruence.
  - intros t. destruct (tasks s t) as [[i [| | |]]|] eqn:T; auto. destruct (removed s l i) eqn:Z; [|now left]. destruct (R _ _ T) as [b Y].
    rewrite Y, N.eqb_refl. right. exists i. apply E in Z. intuition.
  - intros id NO. destruct (removed s l id) eqn:Z; [|reflexivity]. apply E in Z. contradiction.
Qed.
(** Spawned, the overlay has a task: a new one, or the one under way, which is noted to run again. *)
Theorem spawn_is_noted : forall s id, reach s -> clean s (OSpawn id) -> let s' := step s (OSpawn id) in
  exists t, handle s' id = Some (t, match handle s id with None => false | _ => true end) /\
    match handle s id with
    | None => t = next s /\ tasks s' t = Some (id, Running)
    | Some (k, _) => t = k /\ tasks s' = tasks s /\ (tasks s t = Some (id, Running) \/ tasks s t = Some (id, Done))
    end.
Proof.
  intros s id Re C s'. destruct (inv_reach s Re) as (H & _). subst s'. cbn [step]. unfold spawn. destruct (handle s id) as [[t b]|] eqn:E; cbn [handle tasks].
  - exists t. rewrite put_case, N.eqb_refl. repeat apply conj; auto. eauto.
  - exists (next s). rewrite !put_case, !N.eqb_refl. auto.
Qed.
(** What is noted stays noted until the end of the task is seen or the overlay is removed; *)
Theorem note_is_kept : forall s o id t, reach s -> clean s o -> handle s id = Some (t, true) ->
  o <> OJoin t -> (forall l, o = ORebuild l -> In id (ids s) -> In id l) -> handle (step s o) id = Some (t, true).
Proof.
  intros s o id t Re C X NJ NR. destruct (inv_reach s Re) as (H & R & D & L). destruct o as [l|i|k|k|i|k]; cbn [step] in *; try exact X.
  - cbn [rebuild handle]. unfold removed. specialize (NR l eq_refl). destruct (mem id (ids s)) eqn:M; [|exact X]. apply mem_spec in M. apply NR in M. apply mem_spec in M. now rewrite M.
  - unfold spawn. destruct (handle s i) as [[k b]|] eqn:E; cbn [handle]; rewrite put_case; destruct (N.eqb_spec id i) as [->|]; congruence.
  - destruct (tasks s k) as [[i [| | |]]|]; exact X.
  - destruct (tasks s k) as [[i [| | |]]|]; exact X.
  - destruct (tasks s k) as [[i [| | |]]|] eqn:T; try exact X. cbn [handle]. rewrite put_case. destruct (N.eqb_spec id i) as [->|]; [|exact X].
    exfalso. apply NJ. f_equal. eapply (D k i Done); eauto. discriminate.
Qed.
(** and when its end is seen, the overlay is run again exactly if that was noted, then by a new task. *)
Theorem run_again_if_noted : forall s id t b, reach s -> handle s id = Some (t, b) -> tasks s t = Some (id, Done) ->
  out s (OJoin t) = (if b then Some id else None) /\ let s' := step s (OJoin t) in
  handle s' id = None /\ tasks (step s' (OSpawn id)) (next s) = Some (id, Running).
Proof.
  intros s id t b Re X T. cbn [out step]. rewrite T, X. split; [destruct b; reflexivity|]. cbn [handle]. rewrite put_case, N.eqb_refl. split; [reflexivity|].
  unfold spawn. cbn [handle tasks next]. rewrite put_case, N.eqb_refl. cbn [tasks]. now rewrite put_case, N.eqb_refl.
Qed.
(** A removed overlay is not run again by a task of it which still ended by itself. *)
Theorem removed_not_run_again : forall s id t x, tasks s t = Some (id, x) -> handle s id = None -> out s (OJoin t) = None.
Proof. intros s id t x T E. cbn [out]. rewrite T, E. destruct x; reflexivity. Qed.
(** If only overlays which [next] gave are spawned, it gives only those of the list. *)
Inductive served : st -> Prop :=
| S0 : served init
| SS s o : served s -> clean s o -> (forall id, o = OSpawn id -> In id (ids s)) -> served (step s o).
Lemma served_reach s : served s -> reach s.
Proof. induction 1; [apply R0|now apply RS]. Qed.
Lemma served_handle s : served s -> forall id, handle s id <> None -> In id (ids s).
Proof.
  induction 1 as [|s o Se IH C SP]; [intros id X; now destruct X|]. intros id X. destruct o as [l|i|k|k|i|k]; cbn [step] in *; auto.
  - destruct (rebuild_is_exact s l (served_reach s Se)) as (A & _). cbn [step] in A. apply A. cbn [rebuild handle] in X. unfold removed in X.
    assert (Y : handle s id <> None) by (destruct (mem id (ids s) && negb (mem id l)); congruence). apply IH in Y. apply mem_spec in Y. rewrite Y in X.
    destruct (mem id l) eqn:M; [now apply mem_spec|]. now destruct X.
  - specialize (SP i eq_refl). unfold spawn in *. destruct (handle s i) as [[k b]|] eqn:E; cbn [handle ids] in *; rewrite put_case in X; destruct (N.eqb_spec id i) as [->|]; auto.
  - destruct (tasks s k) as [[i [| | |]]|]; auto.
  - destruct (tasks s k) as [[i [| | |]]|]; auto.
  - destruct (tasks s k) as [[i [| | |]]|]; auto. cbn [handle ids] in *. rewrite put_case in X. destruct (id =? i); [now destruct X|auto].
Qed.
Theorem next_gives_listed : forall s o id, served s -> out s o = Some id -> In id (ids s).
Proof.
  intros s o id Se X. destruct o as [l|i|k|k|i|k]; cbn [out] in X; try discriminate.
  - destruct (mem i (ids s)) eqn:M; [|discriminate]. injection X as ->. now apply mem_spec.
  - destruct (tasks s k) as [[i [| | |]]|]; try discriminate. destruct (handle s i) as [[t [|]]|] eqn:E; try discriminate. injection X as ->. apply served_handle; [exact Se|congruence].
Qed.
