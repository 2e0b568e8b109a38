(** Two nodes that connect to each other agree on the connection they keep; and runs of the table. *)
From Coq Require Import List Bool Arith NArith Lia.
From Coq Require Import ZifyN ZifyNat ZifyBool.
From Verif Require Import CmModel CmInv ApModel ApThms.
Import ListNotations.

(** the table does what the manager's [add] does *)
Lemma table_is_add g t c : b_adding t = None -> b_new t = None -> let s := set_active (b_map t) (start 0) in
  b_map (runs (g_local g) t [AStart c; AInsert; ANew]) = s_active (snd (add g c s)).
Proof.
  intros A B s. unfold add. change (get_active (c_peer c) s) with (find (at_peer (c_peer c)) (b_map t)). cbn [runs fold_left next]. rewrite A, B. destruct (find _ (b_map t)) as [old|]; [|reflexivity]. destruct (tie_breaking _ _ _ _); reflexivity.
Qed.

(** ** Both ends keep the link dialed by the node with the greater id *)
Fixpoint added (x : side) (l : list move) : list link :=
  match l with
  | [] => []
  | Add y m :: r => (match x, y with Small, Small | Great, Great => [m] | _, _ => [] end) ++ added x r
  | See _ _ :: r => added x r
  end.
Lemma is_link_eq l m : is_link l m = true -> l = m.
Proof. unfold is_link. rewrite andb_true_iff, N.eqb_eq, Bool.eqb_true_iff. destruct l, m. cbn. intros (-> & ->). reflexivity. Qed.
Definition agreed (g : link) (done : side -> list link) (s : pair) : Prop :=
  (forall x, In g (done x) -> slot x s = Some g) /\ ~ In g (p_closed s) /\ (forall x m, slot x s = Some m -> In m (done x)) /\
  (forall x m, In m (done x) -> m <> g -> In m (p_closed s) \/ slot x s = Some m).
Definition side_eq (x y : side) : bool := match x, y with Small, Small | Great, Great => true | _, _ => false end.
Lemma slot_set x y o cl s : slot y (set_slot x o cl s) = if side_eq x y then o else slot y s.
Proof. destruct x, y; reflexivity. Qed.
Lemma closed_set x o cl s : p_closed (set_slot x o cl s) = p_closed s ++ cl.
Proof. destruct x; reflexivity. Qed.
Lemma side_eq_true x y : side_eq x y = true -> x = y.
Proof. destruct x, y; cbn [side_eq]; congruence. Qed.
Lemma side_eq_refl x : side_eq x x = true.
Proof. destruct x; reflexivity. Qed.
(** who wins *)
Lemma great_wins a b x old l : (a < b)%N -> l_small l = false -> let '(me, other) := of a b x in tie_breaking me other (c_origin (seen a b x old)) (c_origin (seen a b x l)) = true.
Proof. intros L SM. destruct x; cbn [of seen c_origin]; rewrite SM; destruct (l_small old); unfold tie_breaking; try reflexivity; apply N.ltb_lt; exact L. Qed.
Lemma small_loses a b x old l : (a < b)%N -> l_small old = false -> l_small l = true -> let '(me, other) := of a b x in tie_breaking me other (c_origin (seen a b x old)) (c_origin (seen a b x l)) = false.
Proof. intros L S1 S2. destruct x; cbn [of seen c_origin]; rewrite S1, S2; unfold tie_breaking; apply N.ltb_ge; lia. Qed.
Lemma move_agreed a b g done s m : (a < b)%N -> l_small g = false -> agreed g done s ->
  (forall x l, m = Add x l -> (l_small l = false -> l = g) /\ ~ In l (done x)) ->
  agreed g (fun y => done y ++ added y [m]) (move_ a b s m).
Proof.
  intros LT SG (I1 & I2 & I3 & I4) OK. destruct m as [x l|x l]; cbn [move_].
  - destruct (OK x l eq_refl) as (O1 & O2). assert (AD : forall y m, In m (done y ++ added y [Add x l]) <-> In m (done y) \/ (side_eq x y = true /\ m = l)).
    { intros y m. rewrite in_app_iff. cbn [added]. rewrite app_nil_r. destruct x, y; cbn [side_eq]; cbn [In]; split; intros H; try tauto; destruct H as [H|H]; auto; try (destruct H as [H|[]]; auto; fail); try (destruct H; discriminate); destruct H as (_ & ->); auto. }
    assert (NEW : forall z cl, (forall m, In m cl -> m <> g /\ (In m (done x) \/ m = l)) -> (forall m, slot x s = Some m -> z = Some m \/ In m cl) -> (z = Some l \/ In l cl) -> (z = Some l \/ z = slot x s) -> ((l = g \/ slot x s = Some g) -> z = Some g) -> agreed g (fun y => done y ++ added y [Add x l]) (set_slot x z cl s)).
    { intros z cl C1 C2 C3 C4 C5. split; [|split; [|split]].
      - intros y IN. rewrite slot_set. apply AD in IN. destruct (side_eq x y) eqn:E; [apply side_eq_true in E; subst y; apply C5; destruct IN as [IN|(_ & IN)]; auto|]. destruct IN as [IN|(E' & _)]; [auto|congruence].
      - rewrite closed_set. intros IN. apply in_app_or in IN. destruct IN as [IN|IN]; [auto|]. destruct (C1 _ IN) as (NG & _). apply NG. reflexivity.
      - intros y m. rewrite slot_set. destruct (side_eq x y) eqn:E; [apply side_eq_true in E; subst y|]; intros S; apply AD; [|left; auto]. destruct C4 as [C4|C4]; [right; split; [apply side_eq_refl|congruence]|left; apply I3; congruence].
      - intros y m IN NG. rewrite slot_set, closed_set. apply AD in IN. destruct (side_eq x y) eqn:E.
        + apply side_eq_true in E. subst y. destruct IN as [IN|(_ & ->)].
          * destruct (I4 x m IN NG) as [H|H]; [left; apply in_or_app; auto|]. destruct (C2 m H) as [H'|H']; [auto|left; apply in_or_app; auto].
          * destruct C3 as [C3|C3]; [auto|left; apply in_or_app; auto].
        + destruct IN as [IN|(E' & _)]; [|congruence]. destruct (I4 y m IN NG) as [H|H]; [left; apply in_or_app; auto|auto]. }
    destruct (slot x s) as [old|] eqn:SL.
    + destruct (of a b x) as [me other] eqn:OF. destruct (tie_breaking _ _ _ _) eqn:T.
      * assert (OG : old <> g). { intros ->. assert (LS : l_small l = true) by (destruct (l_small l) eqn:E; [reflexivity|]; elim O2; rewrite (O1 eq_refl); apply I3; exact SL). pose proof (small_loses a b x g l LT SG LS) as W. rewrite OF in W. congruence. }
        apply NEW; auto.
        -- intros m [<-|[]]. split; [exact OG|left; apply I3; exact SL].
        -- intros m E. inversion E; subst. right. left. reflexivity.
        -- intros [->|E]; [reflexivity|]. inversion E. congruence.
      * assert (LS : l_small l = true). { destruct (l_small l) eqn:E; [reflexivity|]. pose proof (great_wins a b x old l LT E) as W. rewrite OF in W. congruence. }
        assert (LG : l <> g) by congruence. apply NEW; auto.
        -- intros m [<-|[]]. split; [exact LG|auto].
        -- right. left. reflexivity.
        -- intros [E|E]; [congruence|exact E].
    + apply NEW; auto.
      * intros m [].
      * discriminate.
      * intros [->|E]; [reflexivity|discriminate].
  - assert (AD : forall y, done y ++ added y [See x l] = done y) by (intros y; cbn [added]; apply app_nil_r).
    assert (SAME : agreed g (fun y => done y ++ added y [See x l]) s). { split; [|split; [exact I2|split]]; intros y; rewrite AD; auto. }
    destruct (slot x s) as [m|] eqn:SL; [|exact SAME]. destruct (is_link l m && existsb (is_link l) (p_closed s)) eqn:C; [|exact SAME]. apply andb_true_iff in C. destruct C as (C1 & C2). apply is_link_eq in C1. subst m. apply existsb_exists in C2. destruct C2 as (m & C2 & C3). apply is_link_eq in C3. subst m.
    split; [|split; [|split]].
    + intros y. rewrite AD, slot_set. intros IN. destruct (side_eq x y) eqn:E; [|auto]. apply side_eq_true in E. subst y. rewrite (I1 x IN) in SL. inversion SL; subst. contradiction.
    + rewrite closed_set, app_nil_r. exact I2.
    + intros y m. rewrite AD, slot_set. destruct (side_eq x y); [discriminate|auto].
    + intros y m. rewrite AD, slot_set, closed_set, app_nil_r. intros IN NG. destruct (I4 y m IN NG) as [H|H]; [auto|]. destruct (side_eq x y) eqn:E; [|auto]. apply side_eq_true in E. subst y. left. congruence.
Qed.
Lemma added_app x l1 l2 : added x (l1 ++ l2) = added x l1 ++ added x l2.
Proof. induction l1 as [|[y m|y m] l1 IH]; cbn [app added]; [reflexivity|rewrite IH; apply app_assoc|exact IH]. Qed.
Lemma nodup_app_left {A} (l1 l2 : list A) : NoDup (l1 ++ l2) -> NoDup l1.
Proof. induction l1 as [|x l1 IH]; cbn [app]; intros ND; [constructor|]. inversion ND as [|? ? N1 N2]; subst. constructor; [|auto]. intros IN. apply N1. apply in_or_app. auto. Qed.
Lemma moves_agreed a b g l : (a < b)%N -> l_small g = false -> (forall x, NoDup (added x l)) -> (forall x m, In m (added x l) -> l_small m = false -> m = g) -> agreed g (fun x => added x l) (moves a b l).
Proof.
  intros LT SG. induction l as [|m l IH] using rev_ind; intros ND ONE; [split; [intros x []|split; [intros []|split; [intros [|] m; discriminate|intros x m []]]]|]. unfold moves. rewrite fold_left_app. cbn [fold_left]. fold (moves a b l).
  assert (H : agreed g (fun y => added y l ++ added y [m]) (move_ a b (moves a b l) m)).
  { apply move_agreed; auto.
    - apply IH; [intros x; specialize (ND x); rewrite added_app in ND; exact (nodup_app_left _ _ ND)|intros x k IN; apply (ONE x); rewrite added_app; apply in_or_app; auto].
    - intros x k ->. assert (AK : added x [Add x k] = [k]) by (destruct x; reflexivity). split; [apply (ONE x); rewrite added_app, AK; apply in_or_app; right; left; reflexivity|]. specialize (ND x). rewrite added_app, AK in ND. apply NoDup_remove in ND. rewrite app_nil_r in ND. tauto. }
  destruct H as (H1 & H2 & H3 & H4). split; [intros x; rewrite added_app; apply H1|]. split; [exact H2|]. split; [intros x k; rewrite added_app; apply H3|intros x k; rewrite added_app; apply H4].
Qed.
(** However many links the node with the smaller id dials, when the other one dials one, and in whatever order the ends finish their handshakes and notice what was
    closed: once both have it they both keep it, it is not closed, and every other link that an end had is closed. *)
Theorem both_keep_the_same a b g l : (a < b)%N -> l_small g = false -> (forall x, NoDup (added x l)) -> (forall x m, In m (added x l) -> l_small m = false -> m = g) ->
  In g (added Small l) -> In g (added Great l) -> let s := moves a b l in
  p_small s = Some g /\ p_great s = Some g /\ ~ In g (p_closed s) /\ (forall x m, In m (added x l) -> m <> g -> In m (p_closed s)).
Proof.
  intros LT SG ND ONE G1 G2 s. destruct (moves_agreed a b g l LT SG ND ONE) as (H1 & H2 & H3 & H4). fold s in H1, H2, H3, H4. split; [exact (H1 Small G1)|]. split; [exact (H1 Great G2)|]. split; [exact H2|].
  intros x m IN NG. destruct (H4 x m IN NG) as [H|H]; [exact H|]. exfalso. apply NG. assert (slot x s = Some g) by (destruct x; auto). congruence.
Qed.
(** And an end never leaves it once it has it. *)
Theorem kept_for_good a b g l x : (a < b)%N -> l_small g = false -> (forall x, NoDup (added x l)) -> (forall x m, In m (added x l) -> l_small m = false -> m = g) -> In g (added x l) -> slot x (moves a b l) = Some g.
Proof. intros LT SG ND ONE IN. exact (proj1 (moves_agreed a b g l LT SG ND ONE) x IN). Qed.

(** ** Runs *)
Local Open Scope N_scope.
Definition g1 : link := Link 9 false.
Example cross_dial : moves 1 2 [Add Small (Link 1 true); Add Great g1; Add Great (Link 1 true); Add Small g1; See Great (Link 1 true)] = Pair (Some g1) (Some g1) [Link 1 true; Link 1 true].
Proof. vm_compute. reflexivity. Qed.
Example both_keep_the_same_used : p_small (moves 1 2 [Add Small (Link 1 true); Add Great g1; Add Great (Link 1 true); Add Small g1]) = Some g1.
Proof.
  refine (proj1 (both_keep_the_same 1 2 g1 _ _ _ _ _ _ _)).
  - reflexivity.
  - reflexivity.
  - intros [|]; cbn; repeat constructor; cbn; intuition discriminate.
  - intros [|] m; cbn; intros [<-|[<-|[]]]; (discriminate || reflexivity).
  - cbn. auto.
  - cbn. auto.
Qed.
(** Two links dialed by the same node, finished in different orders: each end closes what the other keeps, and none is left. *)
Example redial_closes_both : let s := moves 1 2 [Add Small (Link 1 true); Add Small (Link 2 true); Add Great (Link 2 true); Add Great (Link 1 true); See Small (Link 2 true); See Great (Link 1 true)] in p_small s = None /\ p_great s = None.
Proof. vm_compute. auto. Qed.
(** The events of the table: the handler of the old connection has taken it out, the manager adds another one and says so, and only then the loss of the old one is told. *)
Definition c1 := Conn 1 7 Outbound. Definition c2 := Conn 2 7 Outbound.
Definition crossed : list op := [AStart c1; AInsert; ANew; RTake 7 (Some 1%N); AStart c2; AInsert; ANew; RDec 0%nat; RSend 0%nat].
Example lost_after_new : let t := runs 5 fresh crossed in b_map t = [c2] /\ b_log t = [New 7; New 7; Lost 7]%N /\ shown 7 (b_log t) = false /\ b_adding t = None /\ b_new t = None /\ b_removing t = [].
Proof. vm_compute. auto 10. Qed.
(** or the loss is told before the gain *)
Example new_after_lost : let t := runs 5 fresh [AStart c1; AInsert; RTake 7 None; RDec 0%nat; RSend 0%nat; ANew] in b_map t = [] /\ b_log t = [Lost 7; New 7]%N /\ shown 7 (b_log t) = true /\ b_removing t = [].
Proof. vm_compute. auto 10. Qed.
(** a run whose operations are apart *)
Example apart_used : let t := runs 5 fresh [AStart c1; AInsert; ANew; AStart c2; ANew; RTake 7 (Some 2%N); RDec 0%nat; RSend 0%nat; AStart c1; AInsert; ANew] in
  apart 5 fresh [AStart c1; AInsert; ANew; AStart c2; ANew; RTake 7 (Some 2%N); RDec 0%nat; RSend 0%nat; AStart c1; AInsert; ANew] /\ shown 7 (b_log t) = true /\ b_closed t = [1; 2]%N /\ b_len t = 1%nat.
Proof. vm_compute. repeat split; try discriminate. Qed.
