(** C88: within the depth, the nearest peers are asked. *)
From Verif Require Import Bytes DhtModel DhtDist DhtProps DhtTable DqModel DqInv DqFind DqWalk.
From Coq Require Import List NArith ZArith Bool Lia Arith ZifyN ZifyNat ZifyBool.
Import ListNotations.
Local Open Scope N_scope.
Local Opaque xor_distance de be.

Section Near.
Context (self target : id) (max_k : nat) (TO : id_ok target) (created : node -> N) (max_depth : N).
Local Notation walk_begin := (walk_begin self target max_k).
Local Notation walk_take := (walk_take self max_k created).
Local Notation walk_next := (walk_next self target max_k created max_depth).
Local Notation walks := (walks self target max_k created max_depth).
Local Notation heard := (heard self target max_k created max_depth).

Definition no_expiry (es : list (id * reply)) : Prop := forall p os o n, In (p, Peers os) es -> In o os -> of_expired o n = false.
(** a first candidate, or a usable offer of an answer taken *)
Definition seen (l : list node) (h : list (id * reply)) (i : id) : Prop :=
  (exists n, In n l /\ n_id n = i /\ i <> self /\ i <> target) \/
  exists p os o, In (p, Peers os) h /\ In o os /\ of_id o = i /\ usable self target o.
Definition within (w : walk) (i : id) : bool := match w_depth w i with Some x => x <=? max_depth | None => false end.

Lemma take_near d w o : tab target max_k (w_table w) -> id_ok (of_id o) -> (forall n, of_expired o n = false) ->
  (forall i n, w_result w i = Some n -> n_id n = i) ->
  tab target max_k (w_table (walk_take d w o)) /\ (forall i n, w_result (walk_take d w o) i = Some n -> n_id n = i) /\
  incl (map n_id (known (w_table w))) (map n_id (known (w_table (walk_take d w o)))) /\
  (usable self target o -> near target max_k (w_table (walk_take d w o)) (of_id o)).
Proof.
  intros T OK EX R. unfold DqModel.walk_take. destruct (of_valid o) eqn:VA; cbn [negb].
  2:{ split; [auto|]. split; [auto|]. split; [apply incl_refl|]. intros (U & _). congruence. }
  destruct (id_eqb_spec (of_id o) self) as [Q|Q].
  { split; [auto|]. split; [auto|]. split; [apply incl_refl|]. intros (_ & _ & U & _). congruence. }
  cbn [w_table w_result].
  set (best := match w_result w (of_id o) with None => of_node o | Some n => if created n <? created (of_node o) then of_node o else n end).
  assert (BI : n_id best = of_id o).
  { unfold best. destruct (w_result w (of_id o)) as [n|] eqn:E; [|reflexivity]. destruct (created n <? created (of_node o)); [reflexivity|]. exact (R _ _ E). }
  assert (X : add (w_table w) best max_k (of_expired o) (of_kept o) = add (w_table w) best max_k (fun _ => false) (of_kept o)).
  { unfold add. destruct (_ =? 0); [reflexivity|]. unfold bucket_insert. destruct (bks (w_table w) _) as [|f r]; [reflexivity|]. now rewrite (EX f). }
  rewrite X. assert (BO : id_ok (n_id best)) by now rewrite BI.
  destruct (near_add target max_k TO (w_table w) best (of_kept o) T BO) as [A B].
  split; [now apply tab_add|]. split.
  - intros i n H. unfold put in H. destruct (id_eqb_spec (of_id o) i) as [<-|NE]; [injection H as <-; exact BI|auto].
  - split; [exact A|]. intros (_ & U2 & _ & U4). rewrite <- BI. apply B; [auto|congruence].
Qed.
Lemma takes_near d os w : tab target max_k (w_table w) -> Forall (fun o => id_ok (of_id o)) os ->
  (forall o, In o os -> forall n, of_expired o n = false) -> (forall i n, w_result w i = Some n -> n_id n = i) ->
  let w' := fold_left (walk_take d) os w in
  tab target max_k (w_table w') /\ (forall i n, w_result w' i = Some n -> n_id n = i) /\
  incl (map n_id (known (w_table w))) (map n_id (known (w_table w'))) /\
  (forall o, In o os -> usable self target o -> near target max_k (w_table w') (of_id o)).
Proof.
  revert w. induction os as [|o os IH]; intros w T F EX R; cbn [fold_left].
  { split; [auto|]. split; [auto|]. split; [apply incl_refl|intros o []]. }
  inversion F as [|? ? F1 F2]; subst. destruct (take_near d w o T F1 (EX o (or_introl eq_refl)) R) as (A & B & C & D).
  destruct (IH _ A F2 (fun x X => EX x (or_intror X)) B) as (A' & B' & C' & D').
  split; [exact A'|]. split; [exact B'|]. split; [intros x X; auto|]. intros x [<-|X] U; [|auto].
  eapply near_mono; [exact C'|auto].
Qed.
Lemma walk_near l es : Forall (fun n => id_ok (n_id n)) l -> Forall ids_good es -> no_expiry es ->
  let w := walks l es in
  tab target max_k (w_table w) /\ (forall i n, w_result w i = Some n -> n_id n = i) /\ good (w_asked w) /\
  (forall i, seen l (heard (walk_begin l) es) i -> near target max_k (w_table w) i) /\
  (forall i, In i (map n_id (closest (w_table w) target max_k)) -> within w i = true -> In i (a_all (w_asked w))).
Proof.
  intros F. induction es as [|e es IH] using rev_ind; intros FE NX.
  { destruct (first_ok self target max_k TO l F) as [T K]. cbn [DqModel.walks fold_left]. unfold DqModel.walk_begin.
    assert (G0 : good (Asked [] [])) by (split; [constructor|split; [constructor|intros x []]]).
    destruct (ask_spec target max_k (fun _ => true) (first_candidates self target max_k l) (Asked [] []) G0) as (A & B & _).
    cbn [w_table w_result w_asked]. split; [exact T|]. split; [discriminate|]. split; [exact A|]. split.
    - cbn. intros i [(n & I & <- & X & Y)|(p & os & o & [] & _)]. now apply (first_near self target max_k TO l F).
    - intros i H _. apply B. auto. }
  apply Forall_app in FE as [FE1 FE2]. inversion FE2 as [|? ? FE3 _]; subst. clear FE2.
  assert (NX1 : no_expiry es) by (intros p os o n H; apply (NX p os o n), in_or_app; auto). specialize (IH FE1 NX1).
  cbv zeta. unfold DqModel.walks. rewrite fold_left_app, heard_snoc. change (fold_left walk_next es (walk_begin l)) with (walks l es).
  cbn [fold_left]. cbv zeta in IH. set (h := heard (walk_begin l) es) in *. set (w := walks l es) in *. clearbody h w.
  destruct e as [p r]. cbn [fst DqModel.walk_next]. destruct (mem p (a_open (w_asked w))) eqn:M; cbn [negb].
  2:{ now rewrite app_nil_r. }
  destruct IH as (T & R & G & NR & CL). assert (G' := good_drop _ p G).
  assert (OLD : forall i, seen l (h ++ [(p, r)]) i -> seen l h i \/ exists os o, r = Peers os /\ In o os /\ of_id o = i /\ usable self target o).
  { intros i [X|(q & os & o & A & B)]; [left; left; auto|]. apply in_app_or in A as [A|[A|[]]].
    - left. right. exists q, os, o. auto.
    - injection A as -> ->. right. exists os, o. auto. }
  destruct r as [os|].
  - rewrite take_asked. unfold ids_good in FE3. cbn [snd] in FE3.
    assert (EX : forall o, In o os -> forall n, of_expired o n = false).
    { intros o H n. apply (NX p os o n); [apply in_or_app; right; now left|auto]. }
    match goal with |- context [fold_left (walk_take ?d) os ?w0] =>
      destruct (takes_near d os w0 T FE3 EX R) as (A & B & C & D); set (w1 := fold_left (walk_take d) os w0) in * end.
    cbn [w_table] in C. clearbody w1. cbn [w_table w_asked w_result w_depth].
    match goal with |- context [ask_closest target max_k ?ok ?t ?a] =>
      destruct (ask_spec target max_k ok t a G') as (Q1 & Q2 & _) end.
    split; [exact A|]. split; [exact B|]. split; [exact Q1|]. split.
    + intros i H. destruct (OLD i H) as [O|(os' & o & E & O1 & <- & O2)].
      * eapply near_mono; [exact C|auto].
      * injection E as <-. auto.
    + unfold within. cbn [w_depth]. intros i H1 H2. apply Q2. auto.
  - cbn [w_table w_asked w_result w_depth]. split; [exact T|]. split; [exact R|]. split; [exact G'|]. split.
    + intros i H. destruct (OLD i H) as [O|(os & o & E & _)]; [auto|discriminate].
    + exact CL.
Qed.
(** When a search of peers ends, every usable peer it met whose depth (as far as it knows it) is
    within the limit was asked, or it knows [max_k] candidates at least as near to the target. *)
Theorem walk_nearest l es : Forall (fun n => id_ok (n_id n)) l -> Forall ids_good es -> no_expiry es ->
  let w := walks l es in
  a_open (w_asked w) = [] ->
  forall i, seen l (heard (walk_begin l) es) i -> within w i = true ->
  In i (a_all (w_asked w)) \/ crowd target max_k (map n_id (known (w_table w))) i.
Proof.
  intros F FE NX w _ i S W. destruct (walk_near l es F FE NX) as (T & _ & _ & NR & CL). fold w in T, NR, CL.
  assert (NI := NR i S).
  destruct (tab_facts target max_k TO (w_table w) T) as (_ & _ & KN & _).
  destruct (in_dec (list_eq_dec N.eq_dec) i (map n_id (closest (w_table w) target max_k))) as [Y|Y]; [left; auto|].
  right. destruct (near_asked target max_k TO (w_table w) (map n_id (closest (w_table w) target max_k)) i T (incl_refl _) NI) as [H|(m & A & B & C & D)]; [contradiction|].
  exists m. split; [auto|]. split; [auto|]. split; [|auto]. intros x X. specialize (C x X).
  apply in_map_iff in C as (n & <- & C). apply in_map. auto.
Qed.
End Near.
