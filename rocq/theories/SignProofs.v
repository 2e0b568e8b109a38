(** * SignProofs: the invariant of a location *)

From Coq Require Import List NArith Bool Lia Sorted.
From Coq Require Import ZArith ZifyN ZifyNat ZifyBool.
From Verif Require Import SignModel SignSpec.
Import ListNotations.
Open Scope N_scope.

Lemma t_get_same : forall m d t, t_get d (t_set d t m) = Some t.
Proof.
  induction m as [|[k q] m IH]; intros d t; cbn.
  - now rewrite N.eqb_refl.
  - destruct (N.eqb_spec k d) as [->|N]; cbn; [now rewrite N.eqb_refl|].
    destruct (N.eqb_spec k d); [contradiction|auto].
Qed.

Lemma t_get_other : forall m d e t, e <> d -> t_get e (t_set d t m) = t_get e m.
Proof.
  induction m as [|[k q] m IH]; intros d e t NE; cbn.
  - destruct (N.eqb_spec d e); congruence.
  - destruct (N.eqb_spec k d) as [->|N]; cbn; [destruct (N.eqb_spec d e); congruence|].
    destruct (N.eqb_spec k e); auto.
Qed.

Definition keys (m : sdb) := map fst m.
Definition dsorted (m : sdb) : Prop := StronglySorted N.lt (keys m).

Lemma db_get_in : forall m d r, db_get d m = Some r -> In (d, r) m.
Proof.
  induction m as [|[k q] m IH]; intros d r E; [discriminate|]. cbn in E.
  destruct (N.eqb_spec k d) as [->|N]; [injection E as ->; now left|right; auto].
Qed.

Lemma db_in_get : forall m d r, dsorted m -> In (d, r) m -> db_get d m = Some r.
Proof.
  induction m as [|[k q] m IH]; intros d r S HI; [destruct HI|]. inversion S as [|? ? S' F]; subst. cbn.
  destruct HI as [[= -> ->]|HI]; [now rewrite N.eqb_refl|].
  destruct (N.eqb_spec k d) as [->|NE]; [|now apply IH].
  rewrite Forall_forall in F. assert (X : d < d) by (apply F; apply (in_map fst _ _ HI)). lia.
Qed.

Lemma db_merge_keys : forall m d r k, In k (keys (db_merge d r m)) -> k = d \/ In k (keys m).
Proof.
  induction m as [|[k q] m IH]; intros d r x H; cbn in *.
  - destruct H as [<-|[]]; now left.
  - destruct (N.eqb_spec k d) as [->|NE]; [cbn in H; tauto|]. destruct (d <? k); cbn in H.
    + destruct H as [<-|[<-|H]]; auto.
    + destruct H as [<-|H]; [auto|]. destruct (IH _ _ _ H); auto.
Qed.

Lemma db_merge_sorted : forall m d r, dsorted m -> dsorted (db_merge d r m).
Proof.
  induction m as [|[k q] m IH]; intros d r S; unfold dsorted in *; cbn.
  - constructor; constructor.
  - inversion S as [|? ? S' F]; subst. destruct (N.eqb_spec k d) as [->|NE]; [now constructor|].
    destruct (N.ltb_spec d k).
    + constructor; [exact S|]. cbn. constructor; [assumption|]. rewrite Forall_forall in *.
      intros x Hx. exact (N.lt_trans _ _ _ H (F x Hx)).
    + constructor; [now apply IH|]. rewrite Forall_forall in *. intros x Hx.
      apply db_merge_keys in Hx. destruct Hx as [->|Hx]; [now apply N.le_neq|auto].
Qed.

Lemma db_get_merge_other : forall m d e r, e <> d -> db_get e (db_merge d r m) = db_get e m.
Proof.
  induction m as [|[k q] m IH]; intros d e r NE; cbn.
  - destruct (N.eqb_spec d e); congruence.
  - destruct (N.eqb_spec k d) as [->|N]; cbn.
    + destruct (N.eqb_spec d e); congruence.
    + destruct (N.ltb_spec d k); cbn.
      * destruct (N.eqb_spec d e); congruence.
      * destruct (N.eqb_spec k e); auto.
Qed.

Lemma db_get_merge_same : forall m d r, dsorted m ->
  db_get d (db_merge d r m) = Some (match db_get d m with Some q => rmerge q r | None => r end).
Proof.
  induction m as [|[k q] m IH]; intros d r S; cbn.
  - now rewrite N.eqb_refl.
  - inversion S as [|? ? S' F]; subst. destruct (N.eqb_spec k d) as [->|N]; cbn.
    + now rewrite N.eqb_refl.
    + destruct (N.ltb_spec d k); cbn.
      * rewrite N.eqb_refl. f_equal. destruct (db_get d m) as [r'|] eqn:E; [|reflexivity].
        apply db_get_in in E. apply (in_map fst) in E. rewrite Forall_forall in F. specialize (F _ E). cbn in F. lia.
      * destruct (N.eqb_spec k d); [contradiction|]. now apply IH.
Qed.

(** ** What is true of a task *)

(** [d] took the place of the first resolved point. *)
Definition took (l : loc) (d : N) : bool :=
  match l_res l with Some (FValid e _) | Some (FNot e) => e =? d | _ => false end.
(** [d] is the first valid point. *)
Definition isval (l : loc) (d : N) : bool :=
  match l_val l with Some e => e =? d | None => false end.
Definition took_valid (l : loc) : bool := match l_res l with Some (FValid _ _) => true | _ => false end.

Definition task_ok (l : loc) (d : N) (t : option task) : Prop :=
  match t with
  | None | Some TWork => took l d = false /\ isval l d = false
  | Some (THalf v fr fv) =>
      verdict_ok v = true /\ l_res l <> None /\ took l d = fr /\ isval l d = fv /\
      (fr = true -> took_valid l = v_valid v /\ fv = v_valid v) /\ (fr = false -> fv = false)
  | Some (TAcq v fr fv) | Some (TStored v fr fv) =>
      verdict_ok v = true /\ l_res l <> None /\ took l d = fr /\ isval l d = fv /\
      (fr = true -> took_valid l = v_valid v) /\ (v_valid v = false -> fv = false) /\
      (v_valid v = true -> l_val l <> None)
  | Some TDone => l_res l <> None /\ (took l d && took_valid l = true ->
                    match l_res l with Some (FValid _ GNone) => False | _ => True end)
  end.

Definition sig_of (l : loc) : option bool :=
  match l_res l with
  | Some (FNot _) | Some FClosed | Some (FValid _ GErr) | Some (FValid _ (GSignable SErr)) => Some false
  | Some (FValid _ (GSignable SOk)) => Some true
  | _ => None
  end.

Definition call_ok (rnd skew : N) (tm : N -> N) (l : loc) (c : call) : Prop :=
  match c with
  | CSign _ _ _ | CRej0 | CRet None => True
  | CRet (Some b) => sig_of l = Some b
  | CInit ok a n =>
      (exists d s, l_res l = Some (FValid d (GSignable s)) /\
        (ok = true -> tm d - n < skew)) /\
      (ok = true -> rnd <= a <= rnd + 1)
  | CRej1 => exists d g, l_res l = Some (FValid d g)
  | CRej2 => exists d s, l_res l = Some (FValid d (GSignable s))
  end.

Record inv (rnd skew : N) (tm : N -> N) (l : loc) : Prop := {
  i_none : l_res l = None -> l_val l = None;
  i_vres : forall d g, l_res l = Some (FValid d g) -> l_val l = Some d;
  i_task : forall d, task_ok l d (t_get d (l_tasks l));
  i_sgn : forall d s, l_res l = Some (FValid d (GSignable s)) -> t_get d (l_tasks l) = Some TDone;
  i_now : forall d, In (l_run l, d) (l_log l) <-> l_res l = Some (FValid d (GSignable SOk));
  i_runs : forall n d, In (n, d) (l_log l) -> (n <= l_run l)%nat;
  i_nodup : NoDup (map fst (l_log l));
  i_thr : forall d, In d (l_thr l) <-> l_val l = Some d /\ t_get d (l_tasks l) = Some TDone;
  i_thr1 : NoDup (l_thr l);
  i_call : forall c, In c (l_calls l) -> call_ok rnd skew tm l c;
  i_sort : dsorted (l_db l);
  i_kind : forall d r, db_get d (l_db l) = Some r -> r_first r = true -> r_kind r = KValid }.

(** The stored mark belongs to the first valid point. *)
Definition first_stored (l : loc) : Prop :=
  forall d r, db_get d (l_db l) = Some r -> r_first r = true -> l_val l = Some d.

Definition gnone (l : loc) : Prop := match l_res l with Some (FValid _ GNone) => True | _ => False end.

Lemma task_ok_mono : forall l l' e t,
  took l' e = took l e -> isval l' e = isval l e ->
  (l_res l <> None -> took_valid l' = took_valid l /\ l_res l' <> None /\ (gnone l' -> gnone l)) ->
  (l_val l <> None -> l_val l' <> None) ->
  task_ok l e t -> task_ok l' e t.
Proof.
  intros l l' e t T V R W. destruct t as [[|v fr fv|v fr fv|v fr fv|]|]; cbn [task_ok]; try rewrite T; try rewrite V.
  - tauto.
  - intros (A & B & C & D & E & F). destruct (R B) as (R1 & R2 & _). rewrite R1. tauto.
  - intros (A & B & C & D & E & F & G). destruct (R B) as (R1 & R2 & _). rewrite R1. tauto.
  - intros (A & B & C & D & E & F & G). destruct (R B) as (R1 & R2 & _). rewrite R1. tauto.
  - intros (B & C). destruct (R B) as (R1 & R2 & R3). rewrite R1. split; [exact R2|]. intros X. specialize (C X).
    unfold gnone in R3. destruct (l_res l') as [[x []| |]|]; auto.
    specialize (R3 I). destruct (l_res l) as [[y []| |]|]; auto.
  - tauto.
Qed.

(** Only tasks, or only calls, or only the database. *)
Lemma inv_task : forall rnd skew tm l d t', inv rnd skew tm l ->
  t_get d (l_tasks l) <> Some TDone -> t' <> TDone -> task_ok l d (Some t') ->
  inv rnd skew tm (set_task d t' l).
Proof.
  intros rnd skew tm l d t' [] ND ND' OK.
  assert (DD : forall e, t_get e (t_set d t' (l_tasks l)) = Some TDone <-> t_get e (l_tasks l) = Some TDone).
  { intros e. destruct (N.eq_dec e d) as [->|NE].
    - rewrite t_get_same. split; [intros [= E]; contradiction|intros E; contradiction].
    - now rewrite t_get_other by exact NE. }
  split; auto.
  - intros e. cbn [set_task set_tasks l_tasks]. change (task_ok l e (t_get e (t_set d t' (l_tasks l)))).
    destruct (N.eq_dec e d) as [->|NE]; [now rewrite t_get_same|]. rewrite t_get_other by exact NE. auto.
  - intros e s E. cbn [set_task set_tasks l_tasks l_res] in *. apply DD. eauto.
  - intros e. cbn [set_task set_tasks l_tasks l_thr l_val]. rewrite DD. auto.
Qed.

Lemma inv_calls : forall rnd skew tm l cs, inv rnd skew tm l ->
  (forall c, In c cs -> call_ok rnd skew tm l c) -> inv rnd skew tm (set_calls cs l).
Proof. intros rnd skew tm l cs [] OK. split; auto. Qed.

Lemma inv_db : forall rnd skew tm l m, inv rnd skew tm l -> dsorted m ->
  (forall d r, db_get d m = Some r -> r_first r = true -> r_kind r = KValid) -> inv rnd skew tm (set_db m l).
Proof. intros rnd skew tm l m [] OK. split; auto. Qed.

Lemma upd_in {A} : forall (l : list A) n x y, In y (upd n x l) -> y = x \/ In y l.
Proof.
  induction l as [|z t IH]; intros n x y H; [destruct n; destruct H|]. destruct n as [|n]; cbn in H.
  - destruct H as [<-|H]; [now left|right; now right].
  - destruct H as [<-|H]; [right; now left|]. destruct (IH _ _ _ H); [now left|right; now right].
Qed.

Lemma rmerge_first : forall a b, (r_first a = true -> r_kind a = KValid) -> (r_first b = true -> r_kind b = KValid) ->
  r_first (rmerge a b) = true -> r_kind (rmerge a b) = KValid.
Proof.
  intros a b A B E. unfold rmerge in *. cbn [r_first r_kind] in *. apply orb_true_iff in E. destruct E as [E|E].
  - rewrite (A E). now destruct (r_kind b).
  - rewrite (B E). now destruct (r_kind a).
Qed.

Lemma inv_merge : forall rnd skew tm l d r, inv rnd skew tm l -> (r_first r = true -> r_kind r = KValid) ->
  inv rnd skew tm (set_db (db_merge d r (l_db l)) l).
Proof.
  intros rnd skew tm l d r IV OK. pose proof (i_sort _ _ _ _ IV) as S. pose proof (i_kind _ _ _ _ IV) as K.
  apply inv_db; [exact IV|now apply db_merge_sorted|].
  intros e q E F. destruct (N.eq_dec e d) as [->|NE].
  - rewrite db_get_merge_same in E by exact S. injection E as <-.
    destruct (db_get d (l_db l)) as [q|] eqn:G; [|auto]. apply rmerge_first; eauto.
  - rewrite db_get_merge_other in E by exact NE. eauto.
Qed.

(** The calls survive a change that keeps what has been decided. *)
Lemma call_ok_mono : forall rnd skew tm l l' c,
  (forall b, sig_of l = Some b -> sig_of l' = Some b) ->
  (forall d g, l_res l = Some (FValid d g) -> exists g', l_res l' = Some (FValid d g') /\
     (forall s, g = GSignable s -> exists s', g' = GSignable s')) ->
  call_ok rnd skew tm l c -> call_ok rnd skew tm l' c.
Proof.
  intros rnd skew tm l l' c S G. destruct c as [a k n|ok a n| | | |[b|]]; cbn [call_ok]; auto.
  - intros ((d & s & E & T) & R). split; [|exact R]. destruct (G d _ E) as (g' & E' & X).
    destruct (X s eq_refl) as (s' & ->). exists d, s'. auto.
  - intros (d & g & E). destruct (G d g E) as (g' & E' & _). eauto.
  - intros (d & s & E). destruct (G d _ E) as (g' & E' & X). destruct (X s eq_refl) as (s' & ->). eauto.
Qed.

(** Taking an empty location. *)
Lemma inv_take : forall rnd skew tm l d f t', inv rnd skew tm l -> l_res l = None ->
  t_get d (l_tasks l) = None \/ t_get d (l_tasks l) = Some TWork ->
  (f = FValid d GNone \/ f = FNot d) ->
  t' <> TDone -> task_ok (set_val (match f with FValid _ _ => Some d | _ => None end) (set_res (Some f) l)) d (Some t') ->
  inv rnd skew tm (set_task d t' (set_val (match f with FValid _ _ => Some d | _ => None end) (set_res (Some f) l))).
Proof.
  intros rnd skew tm l d f t' IV R T F ND OK. pose proof IV as [].
  pose proof (i_none0 R) as V.
  assert (NT : forall e, t_get e (l_tasks l) = None \/ t_get e (l_tasks l) = Some TWork).
  { intros e. specialize (i_task0 e). destruct (t_get e (l_tasks l)) as [[]|]; cbn in i_task0; auto; tauto. }
  assert (NS : forall e s, f <> FValid e (GSignable s)) by (intros e s; destruct F as [-> | ->]; discriminate).
  split; cbn [set_task set_tasks set_val set_res l_res l_val l_tasks l_log l_run l_thr l_calls l_db]; auto.
  - discriminate.
  - intros e g [= ->]. destruct F as [F|F]; [injection F as -> ->; reflexivity|discriminate].
  - intros e. destruct (N.eq_dec e d) as [->|NE]; [rewrite t_get_same; exact OK|].
    rewrite t_get_other by exact NE.
    apply (task_ok_mono l); [| |rewrite R; intros X; contradiction|rewrite V; intros X; contradiction|auto].
    + unfold took. cbn. rewrite R. destruct F as [-> | ->]; apply N.eqb_neq; congruence.
    + unfold isval. cbn. rewrite V. destruct F as [-> | ->]; [apply N.eqb_neq; congruence|reflexivity].
  - intros e s [= X]. destruct (NS e s X).
  - intros e. rewrite i_now0, R. split; [discriminate|]. intros [= X]. destruct (NS e SOk X).
  - intros e. rewrite i_thr0. destruct (NT e) as [E|E]; rewrite V.
    + split; [intros [X _]; discriminate|]. intros [_ X]. exfalso. destruct (N.eq_dec e d) as [->|NE].
      * rewrite t_get_same in X. injection X as ->. now apply ND.
      * rewrite t_get_other, E in X by exact NE. discriminate.
    + split; [intros [X _]; discriminate|]. intros [_ X]. exfalso. destruct (N.eq_dec e d) as [->|NE].
      * rewrite t_get_same in X. injection X as ->. now apply ND.
      * rewrite t_get_other, E in X by exact NE. discriminate.
  - intros c Hc. apply (call_ok_mono _ _ _ l); [| |auto].
    + unfold sig_of. rewrite R. discriminate.
    + rewrite R. discriminate.
Qed.

(** Taking the place of the first valid point in a location that is taken. *)
Lemma inv_valset : forall rnd skew tm l d v, inv rnd skew tm l -> l_val l = None ->
  t_get d (l_tasks l) = Some (THalf v false false) -> v_valid v = true ->
  inv rnd skew tm (set_task d (TAcq v false true) (set_val (Some d) l)).
Proof.
  intros rnd skew tm l d v IV V T VV. pose proof IV as [].
  pose proof (i_task0 d) as TD. rewrite T in TD. cbn in TD. destruct TD as (A & B & C & D & E & F).
  assert (NV : forall e g, l_res l <> Some (FValid e g)) by (intros e g X; apply i_vres0 in X; congruence).
  split; cbn [set_task set_tasks set_val set_res l_res l_val l_tasks l_log l_run l_thr l_calls l_db]; auto.
  - intros X. contradiction.
  - intros e g X. destruct (NV e g X).
  - intros e. destruct (N.eq_dec e d) as [->|NE].
    + rewrite t_get_same. cbn. split; [exact A|]. split; [exact B|]. split; [exact C|].
      split; [unfold isval; cbn; apply N.eqb_refl|]. split; [discriminate|]. split; [congruence|discriminate].
    + rewrite t_get_other by exact NE.
      apply (task_ok_mono l); [reflexivity| |intros X; split; [reflexivity|split; [exact X|auto]]|cbn; discriminate|auto].
      unfold isval. cbn. rewrite V. apply N.eqb_neq. congruence.
  - intros e s X. destruct (NV e _ X).
  - intros e. rewrite i_thr0, V. split; [intros [X _]; discriminate|]. intros [[= ->] X].
    rewrite t_get_same in X. discriminate.
Qed.

(** Setting the signable cell, or the signature cell, of the first resolved point. *)
Lemma inv_cell : forall rnd skew tm l d g g', inv rnd skew tm l ->
  l_res l = Some (FValid d g) ->
  (g = GNone /\ g' = GErr) \/ (g = GSignable SNone /\ g' = GSignable SErr) ->
  inv rnd skew tm (set_res (Some (FValid d g')) l).
Proof.
  intros rnd skew tm l d g g' IV R C. pose proof IV as [].
  split; cbn [set_task set_tasks set_val set_res l_res l_val l_tasks l_log l_run l_thr l_calls l_db]; auto.
  - discriminate.
  - intros e g0 [= <- <-]. eauto.
  - intros e. apply (task_ok_mono l); auto.
    + unfold took. cbn. now rewrite R.
    + intros X. unfold took_valid, gnone. cbn. rewrite R. split; [reflexivity|]. split; [discriminate|].
      destruct C as [[-> ->]|[-> ->]]; auto.
  - intros e s [= <- X]. destruct C as [[-> ->]|[-> ->]]; [discriminate|]. eauto.
  - intros e. rewrite i_now0, R. destruct C as [[-> ->]|[-> ->]]; split; discriminate.
  - intros c Hc. apply (call_ok_mono _ _ _ l); [| |auto].
    + unfold sig_of. cbn. rewrite R. destruct C as [[-> ->]|[-> ->]]; discriminate.
    + intros e g0 X. rewrite R in X. injection X as <- <-. exists g'. split; [reflexivity|].
      intros s Es. destruct C as [[-> ->]|[-> ->]]; [discriminate|eauto].
Qed.

(** Making the signature. *)
Lemma inv_sign : forall rnd skew tm l d, inv rnd skew tm l ->
  l_res l = Some (FValid d (GSignable SNone)) ->
  inv rnd skew tm (set_log ((l_run l, d) :: l_log l) (set_res (Some (FValid d (GSignable SOk))) l)).
Proof.
  intros rnd skew tm l d IV R. pose proof IV as [].
  split; cbn [set_task set_tasks set_val set_res set_log l_res l_val l_tasks l_log l_run l_thr l_calls l_db]; auto.
  - discriminate.
  - intros e g0 [= <- <-]. eauto.
  - intros e. apply (task_ok_mono l); auto.
    + unfold took. cbn. now rewrite R.
    + intros X. unfold took_valid, gnone. cbn. rewrite R. split; [reflexivity|]. split; [discriminate|auto].
  - intros e s [= <- X]. eauto.
  - intros e. split.
    + intros [[= <-]|X]; [reflexivity|]. apply i_now0 in X. congruence.
    + intros [= <-]. now left.
  - intros n e [[= <- <-]|X]; [lia|eauto].
  - cbn [map fst]. constructor; [|exact i_nodup0]. intros X. apply in_map_iff in X. destruct X as ([n e] & Hn & X).
    cbn in Hn. subst n. apply i_now0 in X. congruence.
  - intros c Hc. apply (call_ok_mono _ _ _ l); [| |auto].
    + unfold sig_of. cbn. rewrite R. discriminate.
    + intros e g0 X. rewrite R in X. injection X as <- <-. eexists. split; [reflexivity|]. eauto.
Qed.

Lemma inv_sig_init : forall rnd skew tm l ok l1 r, inv rnd skew tm l -> sig_init ok l = (l1, r) ->
  (exists d s, l_res l = Some (FValid d (GSignable s))) ->
  inv rnd skew tm l1 /\ sig_of l1 = Some r /\ l_calls l1 = l_calls l.
Proof.
  intros rnd skew tm l ok l1 r IV E (d & s & R). unfold sig_init in E. rewrite R in E. destruct s.
  - destruct ok; injection E as <- <-.
    + split; [now apply inv_sign|]. split; reflexivity.
    + split; [apply (inv_cell _ _ _ _ d (GSignable SNone)); auto|]. split; reflexivity.
  - injection E as <- <-. split; [exact IV|]. split; [unfold sig_of; now rewrite R|reflexivity].
  - injection E as <- <-. split; [exact IV|]. split; [unfold sig_of; now rewrite R|reflexivity].
Qed.

Lemma inv_set_call : forall rnd skew tm l n c, inv rnd skew tm l -> call_ok rnd skew tm l c ->
  inv rnd skew tm (set_call n c l).
Proof.
  intros rnd skew tm l n c IV OK. apply inv_calls; [exact IV|]. intros x Hx. apply upd_in in Hx.
  destruct Hx as [->|Hx]; [exact OK|]. now apply (i_call _ _ _ _ IV).
Qed.

Lemma inv_closed : forall rnd skew tm l, inv rnd skew tm l -> l_res l = None ->
  inv rnd skew tm (set_res (Some FClosed) l).
Proof.
  intros rnd skew tm l IV R. pose proof IV as [].
  split; cbn [set_task set_tasks set_val set_res l_res l_val l_tasks l_log l_run l_thr l_calls l_db]; auto; try discriminate.
  - intros e. apply (task_ok_mono l); auto.
    + unfold took. cbn. now rewrite R.
    + intros X. contradiction.
  - intros e. rewrite i_now0, R. split; discriminate.
  - intros c Hc. apply (call_ok_mono _ _ _ l); [| |auto].
    + unfold sig_of. rewrite R. discriminate.
    + rewrite R. discriminate.
Qed.

Lemma inv_move : forall rnd skew tm l n l', inv rnd skew tm l -> call_move rnd skew tm n l = Some l' ->
  inv rnd skew tm l'.
Proof.
  intros rnd skew tm l n l' IV E. unfold call_move in E.
  destruct (nth_error (l_calls l) n) as [c|] eqn:C; [|discriminate].
  pose proof (i_call _ _ _ _ IV c (nth_error_In _ _ C)) as OK.
  destruct c as [a k now|ok a now| | | |r].
  - injection E as <-. apply inv_set_call; [exact IV|]. unfold sign_look.
    destruct (l_res l) as [[d g|d| ]|] eqn:R.
    + destruct g as [| |[]]; cbn [call_ok]; try exact I; try (unfold sig_of; now rewrite R).
      destruct k.
      * destruct (N.ltb_spec a rnd); [exact I|]. destruct (N.leb_spec skew (tm d - now)) as [|L]; [exact I|].
        cbn [call_ok]. split; [exists d, SNone; auto|]. intros X. lia.
      * destruct (N.leb_spec a rnd); [exact I|]. cbn [call_ok]. split; [exists d, SNone; split; [exact R|discriminate]|discriminate].
    + cbn. unfold sig_of. now rewrite R.
    + cbn. unfold sig_of. now rewrite R.
    + exact I.
  - destruct (sig_init ok l) as [l1 r] eqn:S. injection E as <-. cbn in OK. destruct OK as [(d & s & R & _) _].
    destruct (inv_sig_init _ _ _ _ _ _ _ IV S) as (I1 & I2 & _); [eauto|]. now apply inv_set_call.
  - destruct (l_res l) as [[d g|d| ]|] eqn:R; injection E as <-.
    + apply inv_set_call; [exact IV|]. cbn. eauto.
    + apply inv_set_call; [exact IV|]. cbn. unfold sig_of. now rewrite R.
    + apply inv_set_call; [exact IV|]. cbn. unfold sig_of. now rewrite R.
    + apply inv_set_call; [now apply inv_closed|]. reflexivity.
  - destruct (l_res l) as [[d g|d| ]|] eqn:R; try discriminate. destruct g; injection E as <-.
    + apply inv_set_call; [|reflexivity]. apply (inv_cell _ _ _ _ d GNone); auto.
    + apply inv_set_call; [exact IV|]. cbn. unfold sig_of. now rewrite R.
    + apply inv_set_call; [exact IV|]. cbn. eauto.
  - destruct (sig_init false l) as [l1 r] eqn:S. injection E as <-.
    destruct (inv_sig_init _ _ _ _ _ _ _ IV S OK) as (I1 & I2 & _). now apply inv_set_call.
  - discriminate.
Qed.

(** Resolving a point: never fails, and counts it when it is the first valid one. *)
Lemma inv_resolve : forall rnd skew tm l d v fr fv, inv rnd skew tm l ->
  t_get d (l_tasks l) = Some (TStored v fr fv) ->
  exists l1, resolve d (v_valid v) fr fv l = Some l1 /\ inv rnd skew tm (set_task d TDone l1) /\
    l_val l1 = l_val l /\ l_db l1 = l_db l /\ l_log l1 = l_log l /\ l_tasks l1 = l_tasks l /\
    l_run l1 = l_run l.
Proof.
  intros rnd skew tm l d v fr fv IV T. pose proof IV as [].
  pose proof (i_task0 d) as TD. rewrite T in TD. cbn in TD. destruct TD as (A & B & C & D & E & F & G).
  set (r' := match l_res l with Some (FValid e GNone) => if fr then Some (FValid e (GSignable SNone)) else l_res l | x => x end).
  set (l1 := mkL r' (l_val l) (l_tasks l) (l_calls l) (if v_valid v && fv then d :: l_thr l else l_thr l)
                 (l_db l) (l_run l) (l_log l)).
  assert (TK1 : forall e, took l1 e = took l e).
  { intros e. unfold took, l1, r'. cbn. destruct (l_res l) as [[x [| |s]|x| ]|]; try reflexivity. now destruct fr. }
  assert (TV1 : took_valid l1 = took_valid l).
  { unfold took_valid, l1, r'. cbn. destruct (l_res l) as [[x [| |s]|x| ]|]; try reflexivity. now destruct fr. }
  exists l1. split; [|split; [|repeat split]].
  - unfold resolve. unfold l1, r'. unfold took in C. unfold took_valid in E. unfold isval in D.
    assert (FV : v_valid v && fv = true -> l_val l = Some d).
    { intros X. apply andb_true_iff in X. destruct X as [_ X]. rewrite X in D.
      destruct (l_val l) as [e|]; [|discriminate]. apply N.eqb_eq in D. now subst. }
    assert (FN : v_valid v && fv = false -> forall e, l_val l = Some e -> e =? d = false).
    { intros X e Ee. rewrite Ee in D. rewrite D. destruct fv; [|reflexivity]. destruct (v_valid v); [discriminate|auto]. }
    destruct fr.
    + destruct (l_res l) as [[e g|e| ]|] eqn:R; try discriminate.
      * specialize (E eq_refl). rewrite <- E in *. cbn [andb] in *. rewrite C. cbn [andb].
        apply N.eqb_eq in C. subst e. rewrite (i_vres0 d g eq_refl), N.eqb_refl in D. subst fv.
        destruct g; cbn [set_res l_val set_thr]; rewrite (i_vres0 d _ eq_refl), N.eqb_refl;
          unfold set_thr, set_res; cbn; rewrite ?R, ?(i_vres0 d _ eq_refl); reflexivity.
      * specialize (E eq_refl). rewrite <- E in *. cbn [andb negb] in *. rewrite C. cbn [andb].
        rewrite (F eq_refl) in *. destruct (l_val l) as [x|] eqn:V; [rewrite D|]; destruct l; cbn in *; now subst.
    + destruct (l_res l) as [[e g|e| ]|] eqn:R; rewrite ?C; try contradiction.
      all: destruct (v_valid v && fv) eqn:X;
        [rewrite (FV eq_refl), N.eqb_refl; unfold set_thr; rewrite R, (FV eq_refl); try destruct g; reflexivity
        |destruct (l_val l) as [x|] eqn:V; [rewrite (FN eq_refl x eq_refl)|]; destruct l; cbn in *; subst; try destruct g; reflexivity].
  - assert (DD : forall e, t_get e (t_set d TDone (l_tasks l)) = Some TDone <-> e = d \/ t_get e (l_tasks l) = Some TDone).
    { intros e. destruct (N.eq_dec e d) as [->|NE]; [rewrite t_get_same; tauto|].
      rewrite t_get_other by exact NE. tauto. }
    assert (RS : forall e s, r' = Some (FValid e (GSignable s)) ->
              (e = d /\ fr = true /\ s = SNone) \/ l_res l = Some (FValid e (GSignable s))).
    { intros e s X. unfold r' in X. unfold took in C. destruct (l_res l) as [[x [| |s0]|x| ]|]; try discriminate; [|now right].
      destruct fr; [|discriminate]. injection X as <- <-. apply N.eqb_eq in C. now left. }
    split; cbn [set_task set_tasks l_res l_val l_tasks l_log l_run l_thr l_calls l_db l1]; auto.
    + intros X. apply i_none0. unfold r' in X. destruct (l_res l) as [[x [| |s0]|x| ]|]; try discriminate; auto.
      destruct fr; discriminate.
    + intros e g X. unfold r' in X. destruct (l_res l) as [[x [| |s0]|x| ]|]; try discriminate.
      * destruct fr; injection X as <- <-; eauto.
      * injection X as <- <-; eauto.
      * injection X as <- <-; eauto.
    + intros e. destruct (N.eq_dec e d) as [->|NE].
      * rewrite t_get_same. cbn [task_ok]. change (l_res l1 <> None /\ (took l1 d && took_valid l1 = true ->
             match l_res l1 with Some (FValid _ GNone) => False | _ => True end)).
        rewrite TK1, TV1. unfold l1, r'. cbn. split.
        -- destruct (l_res l) as [[x [| |s0]|x| ]|]; try discriminate; auto. destruct fr; discriminate.
        -- intros X. apply andb_true_iff in X. destruct X as [X _]. rewrite C in X. rewrite X.
           destruct (l_res l) as [[x [| |s0]|x| ]|]; exact I.
      * rewrite t_get_other by exact NE. change (task_ok l1 e (t_get e (l_tasks l))).
        apply (task_ok_mono l); auto.
        intros _. split; [exact TV1|]. unfold gnone, l1, r'. cbn. split.
        -- destruct (l_res l) as [[x [| |s0]|x| ]|]; try discriminate; auto. destruct fr; discriminate.
        -- destruct (l_res l) as [[x [| |s0]|x| ]|]; auto.
    + intros e s X. apply DD. destruct (RS e s X) as [(-> & _)|Y]; [now left|right]. eauto.
    + intros e. rewrite i_now0. split; intros X.
      * unfold r'. now rewrite X.
      * destruct (RS e SOk X) as [(_ & _ & Y)|Y]; [discriminate|exact Y].
    + intros e. rewrite DD. destruct (v_valid v && fv) eqn:X.
      * apply andb_true_iff in X. destruct X as [X1 X2]. unfold isval in D. rewrite X2 in D.
        destruct (l_val l) as [y|]; [|discriminate]. apply N.eqb_eq in D. subst y. cbn [In]. rewrite i_thr0.
        split; [intros [<-|[Y1 Y2]]; auto|]. intros [[= <-] [_|Y]]; auto.
      * rewrite i_thr0. split; [tauto|]. intros [Y [->|Z]]; [|tauto]. exfalso. unfold isval in D. rewrite Y, N.eqb_refl in D.
        subst fv. destruct (v_valid v); [discriminate|]. specialize (F eq_refl). discriminate.
    + destruct (v_valid v && fv); [|exact i_thr2]. constructor; [|exact i_thr2].
      rewrite i_thr0, T. intros [_ Y]. discriminate.
    + intros c Hc. apply (call_ok_mono _ _ _ l); [| |auto].
      * unfold sig_of. cbn. unfold r'. destruct (l_res l) as [[x [| |s0]|x| ]|]; auto. discriminate.
      * intros e g X. cbn. unfold r'. rewrite X. destruct g; [|eauto|eauto].
        destruct fr; eexists; (split; [reflexivity|discriminate]).
Qed.
