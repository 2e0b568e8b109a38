(** C88: theorems about the search of peers. *)
From Verif Require Import Bytes DhtModel DhtDist DhtProps DhtTable DqModel DqInv DqFind.
From Coq Require Import List NArith ZArith Bool Lia Arith ZifyN ZifyNat ZifyBool.
Import ListNotations.
Local Open Scope N_scope.
Local Opaque xor_distance de be.

Section Walk.
Context (self target : id) (max_k : nat) (TO : id_ok target) (created : node -> N) (max_depth : N).
Local Notation first_candidates := (first_candidates self target max_k).
Local Notation walk_begin := (walk_begin self target max_k).
Local Notation walk_take := (walk_take self max_k created).
Local Notation walk_next := (walk_next self target max_k created max_depth).
Local Notation walks := (walks self target max_k created max_depth).
Local Notation tab := (tab target max_k).

Definition ids_good (e : id * reply) : Prop := match snd e with Peers l => Forall (fun o => id_ok (of_id o)) l | _ => True end.
(** the answers taken: of the peers asked which have not answered *)
Fixpoint heard (w : walk) (es : list (id * reply)) : list (id * reply) :=
  match es with
  | [] => []
  | e :: r => if mem (fst e) (a_open (w_asked w)) then e :: heard (walk_next w e) r else heard w r
  end.
(** who was offered with a checked signature, in the order of the answers *)
Definition sound (o : offer) : bool := of_valid o && negb (id_eqb (of_id o) self).
Definition told (h : list (id * reply)) : list node :=
  flat_map (fun e => match snd e with Peers l => map of_node (filter sound l) | NoReply => [] end) h.
Definition told_of (i : id) (h : list (id * reply)) : list node := filter (fun n => id_eqb (n_id n) i) (told h).
(** how a peer was met: [d] answers away from a first candidate *)
Inductive chain (l : list node) (h : list (id * reply)) : N -> id -> Prop :=
| chain_first n : In n l -> n_id n <> self -> chain l h 0 (n_id n)
| chain_next d p os o : chain l h d p -> In (p, Peers os) h -> In o os -> sound o = true -> chain l h (d + 1) (of_id o).
Lemma chain_mono l h h' d i : incl h h' -> chain l h d i -> chain l h' d i.
Proof. intros I C. induction C; [now constructor|]. econstructor; eauto. Qed.

Lemma sound_iff o : sound o = true <-> of_valid o = true /\ of_id o <> self.
Proof. unfold sound. rewrite andb_true_iff, negb_true_iff. destruct (id_eqb_spec (of_id o) self); split; intros [A B]; split; congruence. Qed.

(** the newest, the first of equally new *)
Definition newest (w : option node) (l : list node) : Prop :=
  match w with
  | None => l = []
  | Some w => exists a b, l = a ++ w :: b /\ Forall (fun x => created x < created w) a /\ Forall (fun x => created x <= created w) b
  end.
Lemma newest_snoc w l n : newest w l ->
  newest (Some (match w with None => n | Some m => if created m <? created n then n else m end)) (l ++ [n]).
Proof.
  destruct w as [m|]; cbn [newest]; intros H.
  - destruct H as (a & b & -> & A & B). destruct (N.ltb_spec (created m) (created n)).
    + exists (a ++ m :: b), []. split; [reflexivity|]. split; [|constructor].
      apply Forall_app. split; [eapply Forall_impl; [|exact A]; cbn; intros; lia|]. constructor; [lia|].
      eapply Forall_impl; [|exact B]. cbn. intros. lia.
    + exists a, (b ++ [n]). split; [now rewrite <- app_assoc|]. split; [auto|]. apply Forall_app. split; auto.
  - subst l. exists [], []. split; [reflexivity|]. split; constructor.
Qed.

(** one answer, offer by offer *)
Definition wok (l : list node) (h : list (id * reply)) (seen : list node) (w : walk) : Prop :=
  tab (w_table w) /\ (forall n, In n (known (w_table w)) -> n_id n <> self) /\
  (forall i d, w_depth w i = Some d -> chain l h d i) /\
  (forall i, newest (w_result w i) (filter (fun n => id_eqb (n_id n) i) seen)) /\
  (forall i n, w_result w i = Some n -> n_id n = i /\ i <> self).
Lemma put_eq {A} i (a : A) f : put i a f i = Some a.
Proof. unfold put. destruct (id_eqb_spec i i); congruence. Qed.
Lemma put_ne {A} i j (a : A) f : j <> i -> put i a f j = f j.
Proof. unfold put. destruct (id_eqb_spec i j); congruence. Qed.
Lemma take_ok l h seen w d p os o : id_ok (of_id o) -> wok l h seen w -> chain l h d p -> In (p, Peers os) h -> In o os ->
  wok l h (seen ++ (if sound o then [of_node o] else [])) (walk_take d w o).
Proof.
  intros OK (T & K & D & R & S) C IH IO. unfold DqModel.walk_take. destruct (sound o) eqn:SO.
  2:{ rewrite app_nil_r. unfold sound in SO. destruct (of_valid o); cbn [negb andb] in *; [|split; auto].
      destruct (id_eqb (of_id o) self); [split; auto|discriminate]. }
  assert (SO' := SO). apply sound_iff in SO' as [V NE]. rewrite V. cbn [negb].
  destruct (id_eqb_spec (of_id o) self) as [E|_]; [congruence|].
  set (best := match w_result w (of_id o) with None => of_node o | Some n => if created n <? created (of_node o) then of_node o else n end).
  assert (BI : n_id best = of_id o).
  { unfold best. destruct (w_result w (of_id o)) as [n|] eqn:E; [|reflexivity]. destruct (created n <? created (of_node o)); [reflexivity|].
    apply (S _ _ E). }
  split; [|split; [|split; [|split]]]; cbn [w_table w_depth w_result].
  - apply tab_add; [now rewrite BI|exact T].
  - intros n H. apply (known_add target max_k TO) in H; [|exact T|now rewrite BI].
    destruct H as [(-> & _)|H]; [now rewrite BI|auto].
  - intros i x H. destruct (id_eqb_spec i (of_id o)) as [->|Q]; [|rewrite put_ne in H by auto; auto].
    rewrite put_eq in H. injection H as <-.
    assert (CN : chain l h (d + 1) (of_id o)) by (econstructor; eauto).
    destruct (w_depth w (of_id o)) as [y|] eqn:Y; [|exact CN]. destruct (N.min_spec y (d + 1)) as [[_ ->]|[_ ->]]; [auto|exact CN].
  - intros i. rewrite filter_app. cbn [filter]. change (n_id (of_node o)) with (of_id o).
    destruct (id_eqb_spec i (of_id o)) as [->|Q].
    + rewrite put_eq. destruct (id_eqb_spec (of_id o) (of_id o)); [|congruence]. apply newest_snoc. apply R.
    + rewrite put_ne by auto. destruct (id_eqb_spec (of_id o) i); [congruence|]. rewrite app_nil_r. apply R.
  - intros i n H. destruct (id_eqb_spec i (of_id o)) as [->|Q]; [|rewrite put_ne in H by auto; auto].
    rewrite put_eq in H. injection H as <-. auto.
Qed.
Lemma takes_ok l h p os d seen w : chain l h d p -> In (p, Peers os) h -> wok l h seen w ->
  forall os', incl os' os -> Forall (fun o => id_ok (of_id o)) os' ->
  wok l h (seen ++ map of_node (filter sound os')) (fold_left (walk_take d) os' w).
Proof.
  intros C IH W os'. revert seen w W. induction os' as [|o os' IHo]; intros seen w W I F; cbn [fold_left filter map].
  { now rewrite app_nil_r. }
  inversion F as [|? ? F1 F2]; subst.
  assert (W' := take_ok l h seen w d p os o F1 W C IH (I o (or_introl eq_refl))).
  specialize (IHo _ _ W' (fun x X => I x (or_intror X)) F2). destruct (sound o); cbn [map].
  - rewrite <- app_assoc in IHo. exact IHo.
  - rewrite app_nil_r in IHo. exact IHo.
Qed.
Lemma take_asked d os w : w_asked (fold_left (walk_take d) os w) = w_asked w.
Proof.
  revert w. induction os as [|o os IH]; intros w; cbn [fold_left]; [reflexivity|]. rewrite IH. unfold DqModel.walk_take.
  destruct (negb (of_valid o)); [reflexivity|]. now destruct (id_eqb (of_id o) self).
Qed.
Lemma take_depth d os w i : w_depth w i <> None -> w_depth (fold_left (walk_take d) os w) i <> None.
Proof.
  revert w. induction os as [|o os IH]; intros w H; cbn [fold_left]; [exact H|]. apply IH. unfold DqModel.walk_take.
  destruct (negb (of_valid o)); [exact H|]. destruct (id_eqb (of_id o) self); [exact H|]. cbn [w_depth]. unfold put.
  destruct (id_eqb (of_id o) i); [discriminate|exact H].
Qed.

Definition winv (l : list node) (h : list (id * reply)) (w : walk) : Prop :=
  wok l h (told h) w /\ good (w_asked w) /\
  (forall i, In i (a_all (w_asked w)) -> w_depth w i <> None /\ i <> self /\ i <> target /\ exists d, d <= max_depth /\ chain l h d i).
Lemma heard_snoc es w e : heard w (es ++ [e]) = heard w es ++
   if mem (fst e) (a_open (w_asked (fold_left walk_next es w))) then [e] else [].
Proof.
  revert w. induction es as [|x es IH]; intros w; cbn [app heard fold_left]; [now destruct (mem (fst e) _)|].
  destruct (mem (fst x) (a_open (w_asked w))) eqn:M; [cbn; now rewrite IH|]. rewrite IH.
  replace (walk_next w x) with w; [reflexivity|]. destruct x as [p r]. cbn in *. now rewrite M.
Qed.
Lemma wbegin_inv l : Forall (fun n => id_ok (n_id n)) l -> winv l [] (walk_begin l).
Proof.
  intros F. destruct (first_ok self target max_k TO l F) as [T K]. unfold DqModel.walk_begin.
  set (t := first_candidates l) in *.
  assert (G0 : good (Asked [] [])) by (split; [constructor|split; [constructor|intros x []]]).
  destruct (ask_spec target max_k (fun _ => true) t (Asked [] []) G0) as (A & B & _).
  assert (CH : forall i, In i (a_all (ask_closest target max_k (fun _ => true) t (Asked [] []))) -> i <> self /\ i <> target /\ chain l [] 0 i).
  { intros i H. apply B in H. destruct H as [[]|[_ H]]. apply in_map_iff in H as (n & <- & H).
    destruct (tab_facts target max_k TO t T) as (_ & _ & D & _). destruct (K n (D n H)) as (X & Y & Z). split; [auto|]. split; [auto|].
    now constructor. }
  split; [|split; [exact A|]].
  - split; [exact T|]. split; [intros n H; apply K, H|]. cbn [w_depth w_result]. split; [|split].
    + intros i d H. destruct (mem i _) eqn:M; [|discriminate]. injection H as <-. apply mem_spec in M. apply CH, M.
    + intros i. reflexivity.
    + discriminate.
  - cbn [w_asked w_depth]. intros i H. destruct (CH i H) as (X & Y & Z). split; [|split; [auto|split; [auto|]]].
    + apply mem_spec in H. rewrite H. discriminate.
    + exists 0. split; [lia|auto].
Qed.
Lemma walks_inv l es : Forall (fun n => id_ok (n_id n)) l -> Forall ids_good es -> winv l (heard (walk_begin l) es) (walks l es).
Proof.
  intros F FE. induction es as [|e es IH] using rev_ind; [now apply wbegin_inv|].
  apply Forall_app in FE as [FE1 FE2]. specialize (IH FE1). inversion FE2 as [|? ? FE3 _]; subst. clear FE2.
  unfold DqModel.walks. rewrite fold_left_app, heard_snoc. change (fold_left walk_next es (walk_begin l)) with (walks l es).
  cbn [fold_left]. set (h := heard (walk_begin l) es) in *. set (w := walks l es) in *. clearbody h w.
  destruct e as [p r]. cbn [fst DqModel.walk_next]. destruct (mem p (a_open (w_asked w))) eqn:M; cbn [negb].
  2:{ now rewrite app_nil_r. }
  destruct IH as ((T & K & D & R & S) & G & AL). apply mem_spec in M. assert (G' := good_drop _ p G).
  assert (IN : incl h (h ++ [(p, r)])) by (intros x X; apply in_or_app; auto).
  assert (TL : told (h ++ [(p, r)]) = told h ++ match r with Peers os => map of_node (filter sound os) | NoReply => [] end).
  { unfold told. rewrite flat_map_app. cbn [flat_map snd]. now rewrite app_nil_r. }
  assert (W0 : wok l (h ++ [(p, r)]) (told h) (Walk (w_table w) (Asked (a_all (w_asked w)) (drop p (a_open (w_asked w)))) (w_depth w) (w_result w))).
  { split; [exact T|]. split; [exact K|]. split; [|split; [exact R|exact S]]. intros i d H. eapply chain_mono; [exact IN|]. auto. }
  assert (AL' : forall i, In i (a_all (w_asked w)) -> w_depth w i <> None /\ i <> self /\ i <> target /\ exists d, d <= max_depth /\ chain l (h ++ [(p, r)]) d i).
  { intros i H. destruct (AL i H) as (X & Y & Z & d & U & V). split; [auto|]. split; [auto|]. split; [auto|]. exists d. split; [auto|].
    eapply chain_mono; [exact IN|auto]. }
  destruct r as [os|].
  - rewrite take_asked. unfold ids_good in FE3. cbn [snd] in FE3.
    destruct (AL' p (proj2 (proj2 G) p M)) as (PD & _). cbn [w_depth].
    destruct (w_depth w p) as [d|] eqn:DP; [|congruence]. clear PD.
    assert (CP : chain l (h ++ [(p, Peers os)]) d p) by (eapply chain_mono; [exact IN|auto]).
    assert (IE : In (p, Peers os) (h ++ [(p, Peers os)])) by (apply in_or_app; right; now left).
    assert (W1 := takes_ok l _ p os d _ _ CP IE W0 os (incl_refl os) FE3).
    rewrite <- TL in W1. set (w0 := Walk _ _ _ _) in *.
    assert (TA := take_asked d os w0). assert (TD := fun i => take_depth d os w0 i).
    set (w1 := fold_left (walk_take d) os w0) in *. clearbody w1. cbn [w_asked w0] in *.
    destruct (ask_spec target max_k (fun i => match w_depth w1 i with Some x => x <=? max_depth | None => false end) (w_table w1) _ G') as (Q1 & Q2 & _).
    destruct W1 as (T1 & K1 & D1 & R1 & S1).
    split; [|split; [exact Q1|]].
    + split; [exact T1|]. split; [exact K1|]. split; [exact D1|]. split; [exact R1|exact S1].
    + cbn [w_asked w_depth]. intros i H. apply Q2 in H. cbn [a_all] in H. destruct H as [H|[H1 H2]].
      * destruct (AL' i H) as (X & Y). split; [apply TD, X|exact Y].
      * destruct (w_depth w1 i) as [x|] eqn:X; [|discriminate]. split; [discriminate|].
        apply in_map_iff in H2 as (n & <- & H2). destruct (tab_facts target max_k TO _ T1) as (_ & NT & KN & _).
        split; [now apply K1, KN|]. split; [intros E; apply NT; rewrite <- E; now apply in_map, KN|].
        exists x. split; [lia|auto].
  - unfold winv. rewrite TL, app_nil_r. split; [exact W0|]. split; [exact G'|exact AL'].
Qed.

(** *** The search of peers *)
(** Nobody is asked twice, not the node itself, not the target, and only peers which are at most
    [max_depth] answers away from a first candidate. *)
Theorem walk_asks l es : Forall (fun n => id_ok (n_id n)) l -> Forall ids_good es ->
  NoDup (a_all (w_asked (walks l es))) /\
  forall i, In i (a_all (w_asked (walks l es))) -> i <> self /\ i <> target /\
    exists d, d <= max_depth /\ chain l (heard (walk_begin l) es) d i.
Proof.
  intros F FE. destruct (walks_inv l es F FE) as (_ & (G & _) & A). split; [exact G|]. intros i H. apply A, H.
Qed.
(** The result has exactly the peers that the answers told of with a checked signature, without the
    node itself, each with the newest info told, the first of equally new ones. *)
Theorem walk_result l es i : Forall (fun n => id_ok (n_id n)) l -> Forall ids_good es ->
  newest (w_result (walks l es) i) (told_of i (heard (walk_begin l) es)).
Proof. intros F FE. destruct (walks_inv l es F FE) as ((_ & _ & _ & R & _) & _). apply R. Qed.
Theorem walk_result_others l es i n : Forall (fun n => id_ok (n_id n)) l -> Forall ids_good es ->
  w_result (walks l es) i = Some n -> n_id n = i /\ i <> self.
Proof. intros F FE. destruct (walks_inv l es F FE) as ((_ & _ & _ & _ & S) & _). apply S. Qed.

(** The search ends: one answer for every request, one request at most for every peer. *)
Lemma walk_counts w e : good (w_asked w) -> mem (fst e) (a_open (w_asked w)) = true ->
  good (w_asked (walk_next w e)) /\
  (length (a_open (w_asked (walk_next w e))) + length (a_all (w_asked w)) + 1 = length (a_all (w_asked (walk_next w e))) + length (a_open (w_asked w)))%nat.
Proof.
  intros G M. destruct e as [p r]. cbn [fst] in M. cbn [DqModel.walk_next]. rewrite M. cbn [negb].
  assert (I := M). apply mem_spec in I. assert (D := drop_length p _ (proj1 (proj2 G)) I). assert (G' := good_drop _ p G).
  destruct r as [os|].
  - rewrite take_asked. cbn [w_asked]. match goal with |- context [ask_closest target max_k ?ok ?t ?a] =>
      destruct (ask_spec target max_k ok t a G') as (Q & _ & _ & L) end. cbn [a_open a_all] in L. split; [exact Q|lia].
  - cbn [w_asked a_open a_all]. split; [exact G'|lia].
Qed.
Theorem walk_ends l es (world : list id) : Forall (fun n => id_ok (n_id n)) l -> Forall ids_good es ->
  (forall d i, chain l (heard (walk_begin l) es) d i -> In i world) ->
  (length (heard (walk_begin l) es) <= length world)%nat /\
  (length (heard (walk_begin l) es) + length (a_open (w_asked (walks l es))) = length (a_all (w_asked (walks l es))))%nat.
Proof.
  intros F FE W. destruct (walk_asks l es F FE) as [ND A].
  assert (L : (length (a_all (w_asked (walks l es))) <= length world)%nat).
  { apply NoDup_incl_length; [exact ND|]. intros i H. destruct (A i H) as (_ & _ & d & _ & C). eauto. }
  destruct (wbegin_inv l F) as (_ & GB & _).
  assert (C : forall es w, good (w_asked w) ->
    (length (heard w es) + length (a_all (w_asked w)) + length (a_open (w_asked (fold_left walk_next es w))) =
     length (a_all (w_asked (fold_left walk_next es w))) + length (a_open (w_asked w)))%nat).
  { clear. induction es as [|e es IH]; intros w G; cbn [heard fold_left]; [cbn; lia|].
    destruct (mem (fst e) (a_open (w_asked w))) eqn:M.
    - destruct (walk_counts w e G M) as [G1 C1]. specialize (IH _ G1). cbn [length]. lia.
    - replace (walk_next w e) with w; [now apply IH|]. destruct e as [p r]. cbn in *. now rewrite M. }
  specialize (C es _ GB). change (fold_left walk_next es (walk_begin l)) with (walks l es) in C.
  assert (E0 : length (a_all (w_asked (walk_begin l))) = length (a_open (w_asked (walk_begin l)))).
  { unfold DqModel.walk_begin. cbn [w_asked].
    assert (G0 : good (Asked [] [])) by (split; [constructor|split; [constructor|intros x []]]).
    destruct (ask_spec target max_k (fun _ => true) (first_candidates l) (Asked [] []) G0) as (_ & _ & _ & Q). cbn in Q. lia. }
  split; lia.
Qed.
End Walk.
