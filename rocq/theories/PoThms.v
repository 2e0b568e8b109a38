(** C89: theorems about the entries of a public overlay. *)
From Verif Require Import PoModel.
From Coq Require Import List NArith ZArith Bool Lia ZifyN ZifyNat ZifyBool.
Import ListNotations.
Local Open Scope N_scope.
Local Arguments Nat.ltb : simpl never.
Local Arguments Nat.leb : simpl never.

Lemma mem_spec x l : mem x l = true <-> In x l.
Proof.
  unfold mem. rewrite existsb_exists. split.
  - intros (y & Y & E). apply N.eqb_eq in E. now subst.
  - intros H. exists x. split; [assumption|apply N.eqb_refl].
Qed.
Lemma mem_false x l : mem x l = false <-> ~ In x l.
Proof. rewrite <- mem_spec. destruct (mem x l); split; congruence. Qed.

(** *** The specification *)
Definition ids (l : list entry) : list N := map e_id l.
Definition of_peer (p : N) (l : list entry) : list entry := filter (fun e => e_id e =? p) l.
(** the newest of a list, the first of equally new ones *)
Definition newest (w : option entry) (l : list entry) : Prop :=
  match w with
  | None => l = []
  | Some w => exists a b, l = a ++ w :: b /\ Forall (fun x => e_at x < e_at w) a /\ Forall (fun x => e_at x <= e_at w) b
  end.
Definition entry_of (p : N) (l : list entry) : option entry := find (fun e => e_id e =? p) l.
Local Arguments entry_of : simpl never.
Definition sum_nat (l : list nat) : nat := fold_right Nat.add 0%nat l.
Definition reserved (s : st) : nat := sum_nat (map t_room (tasks s)).
(** an entry which may be stored at this moment *)
Definition good (verify : entry -> bool) (local ttl now : N) (bn : list N) (e : entry) : Prop :=
  e_at e <= sat now 1 /\ now <= sat (e_at e) ttl /\ ~ In (e_id e) bn /\ e_id e <> local /\ verify e = true.

Lemma pick_spec {A} i (l : list A) a x b : pick i l = Some (a, x, b) -> l = a ++ x :: b.
Proof.
  unfold pick. destruct (skipn i l) as [|y r] eqn:E; [discriminate|]. intros [= <- <- <-].
  rewrite <- E. symmetry. apply firstn_skipn.
Qed.
Lemma sum_app a b : sum_nat (a ++ b) = (sum_nat a + sum_nat b)%nat.
Proof. unfold sum_nat. induction a; cbn; [reflexivity|]. rewrite IHa. lia. Qed.
Lemma valid_spec verify local ttl now bn e :
  valid verify local ttl now bn e = true <-> good verify local ttl now bn e.
Proof.
  unfold valid, good, is_expired. rewrite !andb_true_iff, !negb_true_iff, orb_false_iff, mem_false,
    N.eqb_neq, !N.ltb_ge. tauto.
Qed.

(** *** Insertion *)
Lemma entry_dec (a b : entry) : {a = b} + {a <> b}.
Proof. decide equality; apply N.eq_dec. Defined.
Lemma nodup_snoc {A} (x : A) l : NoDup l -> ~ In x l -> NoDup (l ++ [x]).
Proof.
  intros D N. rewrite <- (rev_involutive (l ++ [x])). apply NoDup_rev. rewrite rev_app_distr. cbn.
  constructor; [now rewrite <- in_rev|]. now apply NoDup_rev.
Qed.
Lemma nodup_filter {A} (f : A -> bool) l : NoDup l -> NoDup (filter f l).
Proof. induction 1; cbn; [constructor|]. destruct (f x); [|assumption]. constructor; [|assumption]. rewrite filter_In. tauto. Qed.
Lemma nodup_ids_filter f l : NoDup (ids l) -> NoDup (ids (filter f l)).
Proof.
  unfold ids. induction l as [|x r IH]; cbn; [constructor|]. intros D; inversion D; subst.
  destruct (f x); cbn; [|auto]. constructor; [|auto]. intros H. apply in_map_iff in H as (y & E & Y).
  apply filter_In in Y. apply H1. rewrite <- E. apply in_map. tauto.
Qed.
Lemma filter_len {A} (f : A -> bool) l : (length (filter f l) <= length l)%nat.
Proof. induction l; cbn; [lia|]. destruct (f a); cbn; lia. Qed.
Lemma insert_len e l l' n c : insert e l = (l', n, c) -> length l' = (length l + n)%nat /\ (n <= 1)%nat.
Proof.
  revert l' n c. induction l as [|x r IH]; cbn; intros l' n c.
  - intros [= <- <- <-]. cbn. lia.
  - destruct (e_id x =? e_id e); [destruct (e_at e <=? e_at x)|].
    + intros [= <- <- <-]. cbn. lia.
    + intros [= <- <- <-]. cbn. lia.
    + destruct (insert e r) as [[r' n'] c'] eqn:E. intros [= <- <- <-].
      destruct (IH r' n' c' eq_refl). cbn. lia.
Qed.
Lemma insert_ids e l l' n c : insert e l = (l', n, c) ->
  (In (e_id e) (ids l) /\ ids l' = ids l /\ n = 0%nat) \/ (~ In (e_id e) (ids l) /\ ids l' = ids l ++ [e_id e] /\ n = 1%nat).
Proof.
  revert l' n c. induction l as [|x r IH]; cbn; intros l' n c.
  - intros [= <- <- <-]. right. cbn. auto.
  - destruct (N.eqb_spec (e_id x) (e_id e)) as [E|NE]; [destruct (e_at e <=? e_at x)|].
    + intros [= <- <- <-]. left. cbn. auto.
    + intros [= <- <- <-]. left. cbn. rewrite E. auto.
    + destruct (insert e r) as [[r' n'] c'] eqn:E. intros [= <- <- <-].
      destruct (IH r' n' c' eq_refl) as [(A & B & C)|(A & B & C)]; [left|right]; cbn; (split; [|split; [unfold ids in B; rewrite B; reflexivity|assumption]]).
      * auto.
      * intros [H|H]; tauto.
Qed.
Lemma insert_in e l l' n c x : insert e l = (l', n, c) -> In x l' -> In x l \/ x = e.
Proof.
  revert l' n c. induction l as [|y r IH]; cbn; intros l' n c.
  - intros [= <- <- <-]. cbn. intuition.
  - destruct (e_id y =? e_id e); [destruct (e_at e <=? e_at y)|].
    + intros [= <- <- <-]. cbn. intuition.
    + intros [= <- <- <-]. cbn. intuition.
    + destruct (insert e r) as [[r' n'] c'] eqn:E. intros [= <- <- <-]. cbn.
      intros [->|H]; [auto|]. destruct (IH r' n' c' eq_refl H); auto.
Qed.
Lemma insert_changed e l l' n c : insert e l = (l', n, c) -> (c = true <-> l' <> l) /\ (n <> 0%nat -> c = true).
Proof.
  revert l' n c. induction l as [|y r IH]; cbn; intros l' n c.
  - intros [= <- <- <-]. split; [|lia]. split; congruence.
  - destruct (e_id y =? e_id e); [destruct (N.leb_spec (e_at e) (e_at y))|].
    + intros [= <- <- <-]. split; [|lia]. split; congruence.
    + intros [= <- <- <-]. split; [|lia]. split; [|auto]. intros _ H1. injection H1 as ->. lia.
    + destruct (insert e r) as [[r' n'] c'] eqn:E. intros [= <- <- <-].
      destruct (IH r' n' c' eq_refl) as [A B]. split; [|assumption]. rewrite A. split; congruence.
Qed.
Lemma entry_of_none p l : ~ In p (ids l) -> entry_of p l = None.
Proof.
  unfold entry_of. induction l as [|y r IH]; cbn; [reflexivity|]. intros H.
  destruct (N.eqb_spec (e_id y) p); [tauto|]. apply IH. tauto.
Qed.
(** what an insertion does to the entry of each peer *)
Lemma insert_of e l l' n c p : insert e l = (l', n, c) ->
  entry_of p l' =
    if e_id e =? p then match entry_of p l with
                        | Some x => if e_at e <=? e_at x then Some x else Some e
                        | None => Some e
                        end
    else entry_of p l.
Proof.
  revert l' n c. unfold entry_of. induction l as [|y r IH]; cbn; intros l' n c.
  - intros [= <- <- <-]. cbn. reflexivity.
  - destruct (N.eqb_spec (e_id y) (e_id e)) as [E|NE]; [destruct (N.leb_spec (e_at e) (e_at y))|].
    + intros [= <- <- <-]. cbn. rewrite E. destruct (e_id e =? p); [|reflexivity].
      destruct (N.leb_spec (e_at e) (e_at y)); [reflexivity|lia].
    + intros [= <- <- <-]. cbn. rewrite E. destruct (e_id e =? p); [|reflexivity].
      destruct (N.leb_spec (e_at e) (e_at y)); [lia|reflexivity].
    + destruct (insert e r) as [[r' n'] c'] eqn:E. intros [= <- <- <-]. cbn.
      rewrite (IH r' n' c' eq_refl).
      destruct (N.eqb_spec (e_id y) p), (N.eqb_spec (e_id e) p); congruence.
Qed.

Lemma newest_snoc w l e : newest w l ->
  newest (match w with Some x => if e_at e <=? e_at x then Some x else Some e | None => Some e end) (l ++ [e]).
Proof.
  destruct w as [x|]; cbn.
  - intros (a & b & -> & A & B). destruct (N.leb_spec (e_at e) (e_at x)); cbn.
    + exists a, (b ++ [e]). rewrite <- app_assoc. cbn. repeat split; auto.
      apply Forall_app; split; auto.
    + exists (a ++ x :: b), []. repeat split; auto.
      apply Forall_app; split; [|constructor; auto].
      * eapply Forall_impl; [|exact A]. cbn. lia.
      * eapply Forall_impl; [|exact B]. cbn. lia.
  - intros ->. exists [], []. repeat split; constructor.
Qed.

(** the number of ids of [l] not in [old], each counted once *)
Definition fresh (old l : list N) : list N :=
  fold_left (fun acc p => if mem p (old ++ acc) then acc else acc ++ [p]) l [].

Lemma fresh_snoc old l p : fresh old (l ++ [p]) = if mem p (old ++ fresh old l) then fresh old l else fresh old l ++ [p].
Proof. unfold fresh. now rewrite fold_left_app. Qed.
Lemma fresh_in old l p : In p (fresh old l) <-> In p l /\ ~ In p old.
Proof.
  induction l as [|x r IH] using rev_ind.
  - cbn. tauto.
  - rewrite fresh_snoc, in_app_iff.
    destruct (mem x (old ++ fresh old r)) eqn:M.
    + apply mem_spec in M. rewrite in_app_iff in M. rewrite IH in *. cbn. split; [tauto|].
      intros [[H|[->|[]]] H2]; [tauto|]. split; [|assumption]. rewrite IH in M. tauto.
    + apply mem_false in M. rewrite in_app_iff in M. rewrite in_app_iff, IH. cbn. split; [|tauto].
      intros [H|[->|[]]]; tauto.
Qed.
Lemma fresh_nodup old l : NoDup (fresh old l).
Proof.
  induction l as [|x r IH] using rev_ind; [constructor|]. rewrite fresh_snoc.
  destruct (mem x (old ++ fresh old r)) eqn:M; [assumption|]. apply mem_false in M.
  rewrite in_app_iff in M. apply nodup_snoc; [assumption|tauto].
Qed.

(** the second pass in full: a prefix of the entries is taken one by one; it is all of them unless the room
    was used up *)
Lemma insert_all_gen room : forall ok pre base l0 added changed l' a' c',
  (added < room)%nat ->
  added = length (fresh (ids base) (ids pre)) ->
  ids l0 = ids base ++ fresh (ids base) (ids pre) ->
  (forall p, newest (entry_of p l0) (of_peer p (base ++ pre))) ->
  insert_all room added changed ok l0 = (l', a', c') ->
  exists done rest, ok = done ++ rest /\
    (rest <> [] -> a' = room) /\ (a' <= room)%nat /\
    a' = length (fresh (ids base) (ids (pre ++ done))) /\
    ids l' = ids base ++ fresh (ids base) (ids (pre ++ done)) /\
    (forall p, newest (entry_of p l') (of_peer p (base ++ pre ++ done))).
Proof.
  induction ok as [|e r IH]; intros pre base l0 added changed l' a' c' LT HA HI HN; cbn.
  - intros [= <- <- <-]. exists [], []. rewrite !app_nil_r. repeat apply conj; auto; try congruence; try lia.
  - destruct (insert e l0) as [[l1 n] c1] eqn:E.
    assert (Hids : ids (pre ++ [e]) = ids pre ++ [e_id e]) by (unfold ids; now rewrite map_app).
    assert (A : (added + n)%nat = length (fresh (ids base) (ids (pre ++ [e]))) /\
                ids l1 = ids base ++ fresh (ids base) (ids (pre ++ [e]))).
    { rewrite Hids, fresh_snoc. destruct (insert_ids _ _ _ _ _ E) as [(I & D & ->)|(I & D & ->)].
      - rewrite HI in I. apply mem_spec in I. rewrite I. split; [lia|congruence].
      - rewrite HI in I. apply mem_false in I. rewrite I, D, HI, app_length, <- app_assoc. cbn. split; [lia|reflexivity]. }
    destruct A as [A1 A2].
    assert (N1 : forall p, newest (entry_of p l1) (of_peer p (base ++ pre ++ [e]))).
    { intros p. rewrite (insert_of _ _ _ _ _ p E), app_assoc. unfold of_peer. rewrite filter_app. cbn [filter].
      destruct (e_id e =? p); [apply newest_snoc; apply HN|rewrite app_nil_r; apply HN]. }
    destruct (insert_len _ _ _ _ _ E) as [_ Ln].
    destruct (Nat.leb_spec room (added + n)).
    + intros [= <- <- <-]. exists [e], r. repeat apply conj; auto; lia.
    + intros H1. destruct (IH (pre ++ [e]) base l1 (added + n)%nat _ l' a' c' H A1 A2 N1 H1) as (d & rest & -> & R1 & R2 & R3 & R4 & R5).
      exists (e :: d), rest. rewrite <- !app_assoc in *. cbn in *. repeat apply conj; auto.
Qed.
Lemma nodup_entry_newest l p : NoDup (ids l) -> newest (entry_of p l) (of_peer p l).
Proof.
  unfold entry_of, of_peer. induction l as [|x r IH]; cbn; [reflexivity|]. intros D. inversion D; subst.
  destruct (N.eqb_spec (e_id x) p) as [<-|NE]; [|auto].
  exists [], []. cbn. repeat split; [|constructor|constructor]. f_equal.
  clear - H1. induction r as [|y r IH]; cbn in *; [reflexivity|].
  destruct (N.eqb_spec (e_id y) (e_id x)); [tauto|]. apply IH. tauto.
Qed.
Lemma insert_all_spec room ok l l' a' c' : (0 < room)%nat -> NoDup (ids l) ->
  insert_all room 0 false ok l = (l', a', c') ->
  exists done rest, ok = done ++ rest /\ (rest <> [] -> a' = room) /\ (a' <= room)%nat /\
    a' = length (fresh (ids l) (ids done)) /\
    ids l' = ids l ++ fresh (ids l) (ids done) /\
    (forall p, newest (entry_of p l') (of_peer p (l ++ done))).
Proof.
  intros R D H. destruct (insert_all_gen room ok [] l l 0 false l' a' c') as (d & rest & X); auto.
  - cbn. now rewrite app_nil_r.
  - intros p. rewrite app_nil_r. now apply nodup_entry_newest.
  - exists d, rest. exact X.
Qed.
Lemma insert_all_in room : forall ok l added c l' a' c' x,
  insert_all room added c ok l = (l', a', c') -> In x l' -> In x l \/ In x ok.
Proof.
  induction ok as [|e r IH]; intros l added c l' a' c' x; cbn.
  - intros [= <- <- <-]. auto.
  - destruct (insert e l) as [[l1 n] c1] eqn:E. destruct (room <=? added + n)%nat.
    + intros [= <- <- <-] I. destruct (insert_in _ _ _ _ _ _ E I) as [H|H]; auto.
    + intros H I. destruct (IH _ _ _ _ _ _ _ H I) as [H1|H1]; [|auto].
      destruct (insert_in _ _ _ _ _ _ E H1) as [H2|H2]; auto.
Qed.
Lemma newest_app w l m : newest w l ->
  exists w', newest w' (l ++ m) /\ (forall x, w = Some x -> exists y, w' = Some y /\ e_at x <= e_at y /\ (e_at x = e_at y -> x = y)).
Proof.
  revert w l. induction m as [|e m IH]; intros w l H.
  - rewrite app_nil_r. exists w. split; [assumption|]. intros x ->. exists x. repeat split; auto. lia.
  - destruct (IH _ _ (newest_snoc w l e H)) as (w' & W & X). rewrite <- app_assoc in W. exists w'. split; [exact W|].
    intros x ->. destruct (N.leb_spec (e_at e) (e_at x)).
    + destruct (X x eq_refl) as (y & Y). now exists y.
    + destruct (X e eq_refl) as (y & -> & L & _). exists y. repeat split; auto; lia.
Qed.
Lemma newest_fun w w' l : newest w l -> newest w' l -> w = w'.
Proof.
  destruct w as [x|], w' as [y|]; cbn.
  - intros (a & b & -> & A & B) (a' & b' & E & A' & B').
    revert a' E A A'. induction a as [|z a IH]; cbn; intros a' E A A'.
    + destruct a' as [|z a']; cbn in E; injection E as -> E; [reflexivity|].
      inversion A'; subst. apply Forall_app in B as [_ B]. inversion B; subst. lia.
    + destruct a' as [|z' a']; cbn in E; injection E as -> E.
      * inversion A; subst. apply Forall_app in B' as [_ B']. inversion B'; subst. lia.
      * inversion A; inversion A'; subst. eapply IH; eauto.
  - intros (a & b & -> & _) H. destruct a; discriminate.
  - intros -> (a & b & H & _). destruct a; discriminate.
  - reflexivity.
Qed.

Section Thms.
Context (verify : entry -> bool) (local : N) (cap : nat) (ttl : N) (qcap : nat).
Local Notation step := (step verify local cap ttl qcap).
Local Notation run := (run verify local cap ttl qcap).
Local Notation add := (add verify local cap ttl qcap).
Local Notation good := (good verify local ttl).

Definition inv (s : st) : Prop :=
  count s = Z.of_nat (length (items s) + reserved s + sum_nat (owed s)) /\
  (count s <= Z.of_nat cap)%Z /\
  NoDup (ids (items s)) /\
  Forall (fun t => (0 < t_room t)%nat) (tasks s) /\
  (forall t e, In t (tasks s) -> In e (t_ok t) -> verify e = true /\ e_id e <> local) /\
  (forall e, In e (items s) -> verify e = true /\ e_id e <> local) /\
  NoDup (queue s) /\ (length (queue s) <= qcap)%nat.

Lemma inv_init : inv init.
Proof. unfold inv, init, reserved; cbn. repeat split; try constructor; try contradiction; lia. Qed.


Lemma inv_step s o : inv s -> inv (fst (step s o)).
Proof.
  intros I0. pose proof I0 as (C & CC & D & R & TO & G & Q & QL). unfold reserved in C.
  destruct o as [es now|i|i|i|i|now|p|p|p|]; cbn.
  - destruct es as [|e0 r]; [exact I0|]. set (es := e0 :: r).
    destruct (Z.ltb_spec (count s) (Z.of_nat cap)); [|exact I0].
    unfold inv, reserved; cbn [items count tasks owed bans queue fst map sum_nat fold_right t_room].
    set (k := Nat.min _ _). assert (0 < k)%nat by (subst k es; cbn [length]; lia).
    assert (Z.of_nat k <= Z.of_nat cap - count s)%Z by (subst k; lia). clearbody k.
    change (fold_right Nat.add 0%nat (map t_room (tasks s))) with (sum_nat (map t_room (tasks s))).
    change (fold_right Nat.add 0%nat (owed s)) with (sum_nat (owed s)).
    repeat apply conj; auto; try lia.
    + intros t e [<-|]; [contradiction|]. now apply (TO t e).
  - destruct (pick i (tasks s)) as [[[a t] b]|] eqn:P; [|exact I0].
    apply pick_spec in P. destruct (t_todo t) as [|e r] eqn:ET; [exact I0|].
    unfold inv, reserved; cbn [items count tasks owed bans queue fst].
    rewrite P in *. rewrite map_app in *. cbn [map t_room] in *.
    repeat apply conj; auto.
    + apply Forall_app in R as [R1 R2]. inversion R2; subst. apply Forall_app; split; [assumption|]. now constructor.
    + intros t' x T X. apply in_app_or in T as [T|[<-|T]].
      * apply (TO t' x); [apply in_or_app; now left|assumption].
      * cbn in X. destruct (valid verify local ttl (t_now t) (bans s) e) eqn:V.
        -- apply in_app_or in X as [X|[<-|[]]].
           ++ apply (TO t x); [apply in_or_app; right; now left|assumption].
           ++ apply valid_spec in V. unfold PoThms.good in V. tauto.
        -- apply (TO t x); [apply in_or_app; right; now left|assumption].
      * apply (TO t' x); [apply in_or_app; right; now right|assumption].
  - destruct (pick i (tasks s)) as [[[a t] b]|] eqn:P; [|exact I0].
    apply pick_spec in P. unfold inv, reserved; cbn [items count tasks owed bans queue fst].
    rewrite P in *. rewrite map_app, sum_app in *. cbn [map sum_nat fold_right] in *. fold (sum_nat (map t_room b)) in *.
    repeat apply conj; auto; try lia.
    + apply Forall_app in R as [R1 R2]. inversion R2; subst. now apply Forall_app.
    + intros t' x T X. apply (TO t' x); [|assumption]. apply in_app_or in T as [T|T]; apply in_or_app; [now left|right; now right].
  - destruct (pick i (tasks s)) as [[[a t] b]|] eqn:P; [|exact I0].
    apply pick_spec in P. destruct (t_todo t) eqn:ET; [|exact I0].
    destruct (insert_all (t_room t) 0 false (t_ok t) (items s)) as [[l' n] c] eqn:I.
    unfold inv, reserved; cbn [items count tasks owed bans queue fst].
    rewrite P in *. rewrite map_app, sum_app in *. cbn [map sum_nat fold_right] in *. fold (sum_nat (map t_room b)) in *.
    fold (sum_nat (owed s)).
    apply Forall_app in R as [R1 R2]. inversion R2 as [|? ? RT R2']; subst.
    destruct (insert_all_spec _ _ _ _ _ _ RT D I) as (d & rest & EQ & _ & LE & EN & EI & _).
    assert (EL : length l' = (length (items s) + n)%nat).
    { rewrite <- (map_length e_id l'). fold (ids l'). rewrite EI, app_length, <- EN. unfold ids. now rewrite map_length. }
    repeat apply conj; auto; try lia.
    + rewrite EI. assert (F := fresh_nodup (ids (items s)) (ids d)).
      assert (X : forall p, In p (fresh (ids (items s)) (ids d)) -> ~ In p (ids (items s))) by (intros p; rewrite fresh_in; tauto).
      clear - D F X. revert F X. generalize (fresh (ids (items s)) (ids d)) as g. intros g F X. induction (ids (items s)) as [|y r IH]; cbn; [assumption|]. inversion D; subst.
      constructor.
      * rewrite in_app_iff. intros [H|H]; [tauto|]. apply (X y H). now left.
      * apply IH; [assumption|]. intros p H K. apply (X p H). now right.
    + now apply Forall_app.
    + intros t' x T X. apply (TO t' x); [|assumption]. apply in_app_or in T as [T|T]; apply in_or_app; [now left|right; now right].
    + intros x X. destruct (insert_all_in _ _ _ _ _ _ _ _ _ I X) as [H|H]; [auto|].
      apply (TO t x); [apply in_or_app; right; now left|assumption].
  - destruct (pick i (owed s)) as [[[a k] b]|] eqn:P; [|exact I0].
    apply pick_spec in P. unfold inv, reserved; cbn [items count tasks owed bans queue fst].
    rewrite P in *. rewrite sum_app in *. cbn [sum_nat fold_right] in *. fold (sum_nat b) in *.
    repeat apply conj; auto; lia.
  - unfold inv, reserved; cbn [items count tasks owed bans queue fst sum_nat fold_right]. fold (sum_nat (owed s)).
    set (f := fun e => _). pose proof (filter_len f (items s)).
    repeat apply conj; auto; try lia.
    + now apply nodup_ids_filter.
    + intros e E. apply filter_In in E. now apply G.
  - unfold inv, reserved; cbn. repeat apply conj; auto.
  - unfold inv, reserved; cbn. repeat apply conj; auto.
  - destruct (mem p (bans s)); [exact I0|].
    destruct (Nat.ltb_spec (length (queue s)) qcap); cbn [andb]; [|exact I0].
    destruct (negb (mem p (map e_id (items s)))); cbn [andb]; [|exact I0].
    destruct (mem p (queue s)) eqn:M; cbn; [exact I0|].
    apply mem_false in M. unfold inv, reserved; cbn. repeat apply conj; auto.
    + now apply nodup_snoc.
    + rewrite app_length. cbn. lia.
  - unfold inv, reserved; cbn. repeat apply conj; auto; [constructor|lia].
Qed.
Lemma inv_run s l : inv s -> inv (run s l).
Proof. revert s. induction l as [|o l IH]; cbn; intros s H; [assumption|]. apply IH. now apply inv_step. Qed.

(** ** The count *)
(** The counter is the number of entries, the room reserved and what is still to be subtracted; it never
    underflows, never passes the capacity, and so neither does the number of entries. *)
Theorem count_is_exact : forall h, let s := run init h in
  count s = Z.of_nat (length (items s) + reserved s + sum_nat (owed s)) /\ (0 <= count s <= Z.of_nat cap)%Z /\
  (length (items s) <= cap)%nat /\ (tasks s = [] -> owed s = [] -> count s = Z.of_nat (length (items s))).
Proof.
  intros h s. assert (I : inv s) by (apply inv_run, inv_init). destruct I as (C & CC & _).
  repeat split; auto; try lia. intros T O. rewrite C. unfold reserved. rewrite T, O. cbn. lia.
Qed.

(** One entry per peer, each with a valid signature, none of the node itself; the queue of unknown peers
    holds each once and never passes its capacity. *)
Theorem entries_are_sound : forall h, let s := run init h in
  NoDup (ids (items s)) /\ (forall e, In e (items s) -> verify e = true /\ e_id e <> local) /\
  NoDup (queue s) /\ (length (queue s) <= qcap)%nat.
Proof. intros h s. assert (I : inv s) by (apply inv_run, inv_init). unfold inv in I. tauto. Qed.

Lemma find_in p l x : entry_of p l = Some x -> In x l /\ e_id x = p.
Proof. unfold entry_of. intros H. apply find_some in H as [A B]. now apply N.eqb_eq in B. Qed.
Lemma entry_of_in p l : In p (ids l) -> exists x, entry_of p l = Some x.
Proof.
  intros H. destruct (entry_of p l) eqn:E; [eauto|]. exfalso. unfold ids in H. apply in_map_iff in H as (x & <- & X).
  unfold entry_of in E. pose proof (find_none _ _ E x X) as F. cbn in F. rewrite N.eqb_refl in F. discriminate.
Qed.
Lemma entry_of_nodup l x : NoDup (ids l) -> In x l -> entry_of (e_id x) l = Some x.
Proof.
  unfold entry_of. induction l as [|y r IH]; cbn; [contradiction|]. intros D. inversion D; subst.
  intros [->|X]; [now rewrite N.eqb_refl|].
  destruct (N.eqb_spec (e_id y) (e_id x)) as [E|NE]; [|auto].
  exfalso. apply H1. rewrite E. now apply in_map.
Qed.
Lemma entry_of_filter f p l x : NoDup (ids l) -> entry_of p l = Some x ->
  entry_of p (filter f l) = if f x then Some x else None.
Proof.
  intros D E. destruct (find_in _ _ _ E) as [X <-]. destruct (f x) eqn:F.
  - apply entry_of_nodup; [now apply nodup_ids_filter|]. now apply filter_In.
  - destruct (entry_of (e_id x) (filter f l)) eqn:G; [|reflexivity]. destruct (find_in _ _ _ G) as [Y EY].
    apply filter_In in Y as [Y FY]. pose proof (entry_of_nodup _ _ D Y) as H. rewrite EY in H. congruence.
Qed.

(** ** What a step may do to the entry of a peer *)
(** It only becomes newer (never another of the same age), and only a sweep removes it, if it has expired
    or the peer is banned. *)
Theorem entries_only_get_newer : forall h o p x, let s := run init h in
  entry_of p (items s) = Some x ->
  match entry_of p (items (fst (step s o))) with
  | Some y => x = y \/ e_at x < e_at y
  | None => exists now, o = OSweep now /\ (is_expired now ttl x = true \/ In p (bans s))
  end.
Proof.
  intros h o p x s E. assert (I : inv s) by (apply inv_run, inv_init). clearbody s. clear h.
  destruct o as [es now|i|i|i|i|now|q|q|q|]; cbn.
  - destruct es; cbn; [rewrite E; auto|]. destruct (_ <? _)%Z; cbn; rewrite E; auto.
  - destruct (pick i (tasks s)) as [[[a t] b]|]; [destruct (t_todo t)|]; cbn; rewrite E; auto.
  - destruct (pick i (tasks s)) as [[[a t] b]|]; cbn; rewrite E; auto.
  - destruct (pick i (tasks s)) as [[[a t] b]|] eqn:P; [destruct (t_todo t)|]; cbn; try (rewrite E; now auto).
    destruct (insert_all (t_room t) 0 false (t_ok t) (items s)) as [[l' n] c] eqn:A. cbn.
    apply pick_spec in P. destruct I as (_ & _ & D & R & _). rewrite P in R. apply Forall_app in R as [_ R].
    inversion R; subst. destruct (insert_all_spec _ _ _ _ _ _ H1 D A) as (d & rest & _ & _ & _ & _ & _ & NW).
    pose proof (nodup_entry_newest _ p D) as N0. specialize (NW p). unfold of_peer in NW. rewrite filter_app in NW.
    fold (of_peer p (items s)) (of_peer p d) in NW.
    destruct (newest_app _ _ (of_peer p d) N0) as (w & W & X). rewrite (newest_fun _ _ _ NW W).
    destruct (X x E) as (y & -> & L & Q). destruct (N.eq_dec (e_at x) (e_at y)); [left; auto|right; lia].
  - destruct (pick i (owed s)) as [[[a t] b]|]; cbn; rewrite E; auto.
  - destruct I as (_ & _ & D & _). rewrite (entry_of_filter _ _ _ _ D E).
    destruct (negb (is_expired now ttl x) && negb (mem (e_id x) (bans s))) eqn:K; [auto|].
    exists now. split; [reflexivity|]. destruct (is_expired now ttl x); [auto|]. right.
    cbn in K. apply negb_false_iff, mem_spec in K. now destruct (find_in _ _ _ E) as [_ <-].
  - rewrite E; auto.
  - rewrite E; auto.
  - destruct (mem q (bans s)); [cbn; rewrite E; auto|]. destruct (_ && _ && _); cbn; rewrite E; auto.
  - rewrite E; auto.
Qed.

(** A sweep leaves exactly what has not expired and is not banned. *)
Theorem sweep_is_exact : forall s now e,
  In e (items (fst (step s (OSweep now)))) <->
  In e (items s) /\ e_at e <= sat now 1 /\ now <= sat (e_at e) ttl /\ ~ In (e_id e) (bans s).
Proof.
  intros. cbn. rewrite filter_In, andb_true_iff, !negb_true_iff, mem_false. unfold is_expired.
  rewrite orb_false_iff, !N.ltb_ge. tauto.
Qed.

(** ** An undisturbed addition *)
Definition rest_state (s : st) : Prop := tasks s = [] /\ owed s = [].
Lemma checks es : forall ok room now s, tasks s = [{| t_todo := es; t_ok := ok; t_room := room; t_now := now |}] ->
  let s' := run s (repeat (OCheck 0) (length es)) in
  tasks s' = [{| t_todo := []; t_ok := ok ++ filter (valid verify local ttl now (bans s)) es; t_room := room; t_now := now |}] /\
  items s' = items s /\ count s' = count s /\ owed s' = owed s /\ bans s' = bans s /\ queue s' = queue s.
Proof.
  induction es as [|e r IH]; intros ok room now s T.
  - cbn. rewrite app_nil_r. repeat apply conj; auto.
  - cbn [length repeat]. change (run s (OCheck 0 :: repeat (OCheck 0) (length r))) with (run (fst (step s (OCheck 0))) (repeat (OCheck 0) (length r))).
    set (s1 := fst (step s (OCheck 0))).
    assert (S1 : s1 = {| items := items s; count := count s;
       tasks := [{| t_todo := r; t_ok := if valid verify local ttl now (bans s) e then ok ++ [e] else ok; t_room := room; t_now := now |}];
       owed := owed s; bans := bans s; queue := queue s |}).
    { subst s1. cbn. rewrite T. cbn. reflexivity. }
    clearbody s1. subst s1.
    match goal with |- context [PoModel.run _ _ _ _ _ ?x _] => set (s2 := x) end.
    destruct (IH _ room now s2 eq_refl) as (A & B & C & D & E & F). cbn zeta.
    rewrite A, B, C, D, E, F. unfold s2. cbn [bans items count owed queue filter].
    split; [|repeat apply conj; reflexivity]. destruct (valid verify local ttl now (bans s) e); [rewrite <- app_assoc|]; reflexivity.
Qed.

(** Nothing is added, and nothing refreshed, while the overlay is full. *)
Theorem full_overlay_takes_nothing : forall h es now, let s := run init h in
  length (items s) = cap -> add s es now = (s, false).
Proof.
  intros h es now s F. assert (I : inv s) by (apply inv_run, inv_init). destruct I as (C & CC & _).
  clearbody s. unfold PoModel.add. cbn. destruct es; [reflexivity|].
  destruct (Z.ltb_spec (count s) (Z.of_nat cap)); [lia|reflexivity].
Qed.

Lemma insert_all_changed room : forall ok l added c l' a' c',
  NoDup (ids l) -> insert_all room added c ok l = (l', a', c') -> (added <> 0%nat -> c = true) ->
  (a' <> 0%nat -> c' = true) /\ NoDup (ids l') /\
  (c = false -> (c' = true <-> l' <> l)) /\ (c = true -> c' = true).
Proof.
  assert (X : forall ok l added c l' a' c', insert_all room added c ok l = (l', a', c') ->
     (forall p x, entry_of p l = Some x -> exists y, entry_of p l' = Some y /\ (x = y \/ e_at x < e_at y))).
  { induction ok as [|e r IH]; intros l added c l' a' c'; cbn.
    - intros [= <- <- <-] p x ->. eauto.
    - destruct (insert e l) as [[l1 n] c1] eqn:E.
      assert (Y : forall p x, entry_of p l = Some x -> exists y, entry_of p l1 = Some y /\ (x = y \/ e_at x < e_at y)).
      { intros p x P. rewrite (insert_of _ _ _ _ _ p E), P. destruct (e_id e =? p); [|eauto].
        destruct (N.leb_spec (e_at e) (e_at x)); [eauto|]. exists e. auto. }
      destruct (room <=? added + n)%nat; [intros [= <- <- <-]; exact Y|].
      intros H p x P. destruct (Y p x P) as (y & P1 & Q1). destruct (IH _ _ _ _ _ _ H p y P1) as (z & P2 & Q2).
      exists z. split; [assumption|]. destruct Q1 as [->|], Q2 as [<-|]; auto. right. lia. }
  induction ok as [|e r IH]; intros l added c l' a' c'; cbn.
  - intros D [= <- <- <-] H. repeat split; auto; congruence.
  - intros D H Q. destruct (insert e l) as [[l1 n] c1] eqn:E. destruct (insert_changed _ _ _ _ _ E) as [C1 C2].
    assert (D1 : NoDup (ids l1)).
    { destruct (insert_ids _ _ _ _ _ E) as [(_ & -> & _)|(K & -> & _)]; [assumption|]. now apply nodup_snoc. }
    assert (Q1 : (added + n)%nat <> 0%nat -> c || c1 = true).
    { intros K. apply orb_true_iff. destruct added; [right; apply C2; lia|left; auto]. }
    destruct (room <=? added + n)%nat.
    + injection H as <- <- <-. repeat apply conj; auto.
      * intros ->. exact C1.
      * intros ->. reflexivity.
    + destruct (IH _ _ _ _ _ _ D1 H Q1) as (A & B & F1 & F2). repeat apply conj; auto; [intros K0; split|].
      * intros K. subst c. destruct c1.
        -- intros EQ. subst l'. (* l1 differs from l, yet later steps return to l: impossible *)
           assert (l1 <> l) by now apply C1.
           destruct (insert_ids _ _ _ _ _ E) as [(I1 & I2 & _)|(I1 & I2 & _)].
           ++ destruct (entry_of_in _ _ I1) as (x & EX). pose proof (insert_of _ _ _ _ _ (e_id e) E) as O1.
              rewrite N.eqb_refl, EX in O1. destruct (N.leb_spec (e_at e) (e_at x)).
              ** clear -E EX H1 H0 D. apply H0. clear H0. revert l1 n E EX D. induction l as [|y q IH]; cbn; [discriminate|].
                 intros l1 n. unfold entry_of. cbn. destruct (N.eqb_spec (e_id y) (e_id e)) as [EE|NE].
                 --- intros A [= ->] _. destruct (N.leb_spec (e_at e) (e_at x)); [congruence|lia].
                 --- destruct (insert e q) as [[q' n'] c'] eqn:Q. intros [= <- <- ->] EX D. inversion D; subst.
                     f_equal. now apply (IH q' n').
              ** destruct (X _ _ _ _ _ _ _ H (e_id e) e O1) as (y & Y1 & Y2). rewrite EX in Y1. injection Y1 as ->.
                 destruct Y2 as [->|]; lia.
           ++ assert (In (e_id e) (ids l1)) by (rewrite I2; apply in_or_app; right; now left).
              destruct (entry_of_in _ _ H1) as (x & EX). destruct (X _ _ _ _ _ _ _ H _ _ EX) as (y & Y & _).
              apply I1. destruct (find_in _ _ _ Y) as [Y1 <-]. now apply in_map.
        -- assert (l1 = l) by (destruct (list_eq_dec entry_dec l1 l) as [|NE]; [assumption|]; apply C1 in NE; discriminate).
           subst l1. apply F1; auto.
      * intros K. subst c. destruct c1; [apply F2; reflexivity|].
        assert (l1 = l) by (destruct (list_eq_dec entry_dec l1 l) as [|NE]; [assumption|]; apply C1 in NE; discriminate).
        subst l1. apply F1; auto.
      * intros ->. apply F2. reflexivity.
Qed.

(** With no other call under way and room left: a prefix of the good entries is taken, all of them unless
    the room ran out; each peer's entry becomes the newest of the old one and those taken; the new peers
    come after the old ones, and are as many as fit; the answer says whether anything changed; and the
    counter is exact again. *)
Theorem add_is_exact : forall h es now, let s := run init h in
  rest_state s -> (length (items s) < cap)%nat ->
  let '(s', b) := add s es now in
  exists taken rest,
    filter (valid verify local ttl now (bans s)) es = taken ++ rest /\
    (forall p, newest (entry_of p (items s')) (of_peer p (items s ++ taken))) /\
    ids (items s') = ids (items s) ++ fresh (ids (items s)) (ids taken) /\
    (rest <> [] -> length (items s') = Nat.min cap (length (items s) + length es)) /\
    (b = true <-> items s' <> items s) /\
    rest_state s' /\ count s' = Z.of_nat (length (items s')) /\ (length (items s') <= cap)%nat /\ bans s' = bans s.
Proof.
  intros h es now s [T O] LT. assert (I : inv s) by (apply inv_run, inv_init). clearbody s. clear h.
  assert (C : count s = Z.of_nat (length (items s))).
  { destruct I as (C & _). unfold reserved in C. rewrite T, O in C. cbn in C. lia. }
  pose proof I as (_ & _ & D & _).
  unfold PoModel.add. destruct es as [|e0 r].
  - cbn. exists [], []. cbn. rewrite !app_nil_r. unfold rest_state. repeat apply conj; auto; try congruence; try lia.
    intros p. now apply nodup_entry_newest.
  - set (es := e0 :: r). cbn [PoModel.step]. replace (match es with [] => _ | _ :: _ => _ end) with
      (if (count s <? Z.of_nat cap)%Z then
            let room := Nat.min (length es) (Z.to_nat (Z.of_nat cap - count s)) in
            ({| items := items s; count := (count s + Z.of_nat room)%Z;
                tasks := {| t_todo := es; t_ok := []; t_room := room; t_now := now |} :: tasks s;
                owed := owed s; bans := bans s; queue := queue s |}, ONone)
          else (s, OBool false)) by reflexivity.
    destruct (Z.ltb_spec (count s) (Z.of_nat cap)); [|lia]. cbv zeta.
    set (room := Nat.min (length es) (Z.to_nat (Z.of_nat cap - count s))).
    assert (RM : room = Nat.min (length es) (cap - length (items s))) by (subst room; lia).
    assert (RP : (0 < room)%nat) by (rewrite RM; subst es; cbn [length]; lia). clearbody room.
    rewrite T, O. match goal with |- context [PoModel.run _ _ _ _ _ ?x _] => set (s1 := x) end.
    destruct (checks es [] room now s1 eq_refl) as (A & B & C1 & O1 & E & F).
    set (s2 := run s1 (repeat (OCheck 0) (length es))) in *. clearbody s2. rewrite A, B, E.
    cbn [pick skipn firstn t_todo t_room t_ok app items bans s1].
    destruct (insert_all room 0 false _ (items s)) as [[l' n] c] eqn:IA.
    cbn [fst PoModel.step pick skipn firstn owed items count tasks bans queue app].
    destruct (insert_all_spec _ _ _ _ _ _ RP D IA) as (d & rest & EQ & FULL & LE & EN & EI & NW).
    assert (EL : length l' = (length (items s) + n)%nat).
    { rewrite <- (map_length e_id l'). fold (ids l'). rewrite EI, app_length, <- EN. unfold ids. now rewrite map_length. }
    destruct (insert_all_changed _ _ _ _ _ _ _ _ D IA ltac:(congruence)) as (CH1 & _ & CH2 & _).
    exists d, rest. unfold rest_state. cbn [items count tasks owed bans]. rewrite C1, O1. cbn [count owed s1].
    repeat apply conj; auto.
    + intros NR. rewrite EL, (FULL NR), RM. lia.
    + rewrite orb_true_iff. intros [K|K]; [now apply CH2|]. apply CH2; [reflexivity|]. apply CH1. lia.
    + intros K; apply orb_true_iff; left; now apply CH2.
    + rewrite C, EL. lia.
    + lia.
Qed.

(** ** Bans *)
Lemma bans_kept o s p : In p (bans s) -> o <> OUnban p -> In p (bans (fst (step s o))).
Proof.
  intros B N. destruct o as [es now|i|i|i|i|now|q|q|q|]; cbn; auto.
  - destruct es; [assumption|]. destruct (_ <? _)%Z; assumption.
  - destruct (pick i (tasks s)) as [[[a t] b]|]; [destruct (t_todo t)|]; assumption.
  - destruct (pick i (tasks s)) as [[[a t] b]|]; assumption.
  - destruct (pick i (tasks s)) as [[[a t] b]|]; [destruct (t_todo t)|]; try assumption.
    destruct (insert_all _ _ _ _ _) as [[l n] c]. assumption.
  - destruct (pick i (owed s)) as [[[a t] b]|]; assumption.
  - destruct (mem q (bans s)); [assumption|now right].
  - apply filter_In. split; [assumption|]. apply negb_true_iff, N.eqb_neq. congruence.
  - destruct (mem q (bans s)); [assumption|]. destruct (_ && _ && _); assumption.
Qed.
(** the peer has neither an entry nor one that was found valid and waits for insertion *)
Definition absent (p : N) (s : st) : Prop :=
  ~ In p (ids (items s)) /\ forall t, In t (tasks s) -> ~ In p (ids (t_ok t)).
Lemma absent_step o s p : In p (bans s) -> absent p s -> absent p (fst (step s o)).
Proof.
  intros B [A1 A2]. unfold absent. destruct o as [es now|i|i|i|i|now|q|q|q|]; cbn; auto.
  - destruct es; [auto|]. destruct (_ <? _)%Z; cbn; [|auto]. split; [assumption|]. intros t [<-|T]; [cbn; tauto|auto].
  - destruct (pick i (tasks s)) as [[[a t] b]|] eqn:P; [|auto]. apply pick_spec in P. destruct (t_todo t) as [|e r]; [auto|].
    cbn. rewrite P in A2. split; [assumption|]. intros t' T. apply in_app_or in T as [T|[<-|T]].
    + apply A2. apply in_or_app. now left.
    + cbn. assert (X : ~ In p (ids (t_ok t))) by (apply A2; apply in_or_app; right; now left).
      destruct (valid verify local ttl (t_now t) (bans s) e) eqn:V; [|assumption].
      unfold ids in *. rewrite map_app, in_app_iff. cbn. intros [H|[H|[]]]; [tauto|]. subst p.
      apply valid_spec in V. unfold PoThms.good in V. tauto.
    + apply A2. apply in_or_app. right. now right.
  - destruct (pick i (tasks s)) as [[[a t] b]|] eqn:P; [|auto]. apply pick_spec in P. cbn. rewrite P in A2.
    split; [assumption|]. intros t' T. apply A2. apply in_app_or in T as [T|T]; apply in_or_app; [now left|right; now right].
  - destruct (pick i (tasks s)) as [[[a t] b]|] eqn:P; [|auto]. apply pick_spec in P. destruct (t_todo t); [|auto].
    destruct (insert_all _ _ _ _ _) as [[l n] c] eqn:I. cbn. rewrite P in A2. split.
    + intros H. unfold ids in H. apply in_map_iff in H as (x & EX & X).
      destruct (insert_all_in _ _ _ _ _ _ _ _ _ I X) as [K|K].
      * apply A1. rewrite <- EX. now apply in_map.
      * apply (A2 t); [apply in_or_app; right; now left|]. rewrite <- EX. now apply in_map.
    + intros t' T. apply A2. apply in_app_or in T as [T|T]; apply in_or_app; [now left|right; now right].
  - destruct (pick i (owed s)) as [[[a t] b]|]; cbn; auto.
  - split; [|assumption]. intros H. apply A1. unfold ids in *. apply in_map_iff in H as (x & <- & X). apply filter_In in X.
    apply in_map. tauto.
  - destruct (mem q (bans s)); [auto|]. destruct (_ && _ && _); cbn; auto.
Qed.

(** A banned peer without an entry gets none until it is unbanned, unless one of its entries was found valid
    before the ban and is inserted after it. *)
Theorem banned_stays_out : forall h l p, let s := run init h in
  In p (bans s) -> absent p s -> ~ In (OUnban p) l -> let s' := run s l in In p (bans s') /\ absent p s'.
Proof.
  intros h l p s. clearbody s. revert s. induction l as [|o l IH]; intros s B A N; cbn; [auto|].
  apply IH.
  - apply bans_kept; [assumption|]. intros ->. apply N. now left.
  - now apply absent_step.
  - intros H. apply N. now right.
Qed.
(** Once a sweep has run after the ban with no checked entry of the peer left, the peer is out. *)
Theorem sweep_removes_banned : forall h now p, let s := run init h in
  In p (bans s) -> (forall t, In t (tasks s) -> ~ In p (ids (t_ok t))) ->
  absent p (fst (step s (OSweep now))).
Proof.
  intros h now p s B T. split; [|exact T]. intros H. unfold ids in H. apply in_map_iff in H as (x & EX & X).
  apply sweep_is_exact in X. subst p. tauto.
Qed.
(** A banned peer's requests are refused; every other one's are let through. *)
Theorem requests_of_banned_refused : forall s p,
  snd (step s (OUnknown p)) = OBool (negb (mem p (bans s))).
Proof. intros. cbn. destruct (mem p (bans s)); [reflexivity|]. now destruct (_ && _ && _). Qed.
(** The queue holds only peers that asked while they were neither banned nor known. *)
Theorem queue_grows_only_by : forall s o p, In p (queue (fst (step s o))) -> ~ In p (queue s) ->
  o = OUnknown p /\ ~ In p (bans s) /\ ~ In p (ids (items s)) /\ (length (queue s) < qcap)%nat.
Proof.
  intros s o p H N. destruct o as [es now|i|i|i|i|now|q|q|q|]; cbn in H; try contradiction.
  - destruct es; [contradiction|]. destruct (_ <? _)%Z; contradiction.
  - destruct (pick i (tasks s)) as [[[a t] b]|]; [destruct (t_todo t)|]; contradiction.
  - destruct (pick i (tasks s)) as [[[a t] b]|]; contradiction.
  - destruct (pick i (tasks s)) as [[[a t] b]|]; [destruct (t_todo t)|]; try contradiction.
    destruct (insert_all _ _ _ _ _) as [[l n] c]. contradiction.
  - destruct (pick i (owed s)) as [[[a t] b]|]; contradiction.
  - destruct (mem q (bans s)) eqn:B; [contradiction|]. apply mem_false in B.
    destruct (Nat.ltb_spec (length (queue s)) qcap); cbn [andb] in H; [|contradiction].
    destruct (mem q (map e_id (items s))) eqn:M; cbn [andb negb] in H; [contradiction|]. apply mem_false in M.
    destruct (mem q (queue s)); cbn [negb] in H; [contradiction|]. cbn in H. apply in_app_or in H as [H|[->|[]]]; [contradiction|].
    auto.
Qed.
End Thms.

(** ** What is sent *)
Lemma filter_lost (f : entry -> bool) l : length l = (length (filter f l) + length (filter (fun e => negb (f e)) l))%nat.
Proof. induction l; cbn; [reflexivity|]. destruct (f a); cbn; lia. Qed.
Lemma nodup_ids l : NoDup (ids l) -> NoDup l.
Proof. unfold ids. apply NoDup_map_inv. Qed.
Lemma smp_ids l smp : NoDup (ids l) -> NoDup smp -> incl smp l -> NoDup (ids smp).
Proof.
  intros D. induction smp as [|x r IH]; intros N I; [constructor|]. inversion N; subst. cbn. constructor.
  - intros H. unfold ids in H. apply in_map_iff in H as (y & E & Y).
    assert (A := entry_of_nodup l x D (I x (or_introl eq_refl))).
    assert (B := entry_of_nodup l y D (I y (or_intror Y))). rewrite E, A in B. injection B as ->. contradiction.
  - apply IH; [assumption|]. intros y Y. apply I. now right.
Qed.
Lemma filter_perm_len {A} (f : A -> bool) (l m : list A) :
  NoDup l -> NoDup m -> incl m l -> length m = length l -> length (filter f m) = length (filter f l).
Proof.
  intros N1 N2 I L. assert (J : incl l m) by (apply NoDup_length_incl; [assumption|lia|assumption]).
  apply Nat.le_antisymm; apply NoDup_incl_length; try now apply nodup_filter.
  - intros x. rewrite !filter_In. intros [H1 H2]. auto.
  - intros x. rewrite !filter_In. intros [H1 H2]. auto.
Qed.
Lemma firstn_incl {A} n (l : list A) : incl (firstn n l) l.
Proof. intros x H. rewrite <- (firstn_skipn n l). apply in_or_app. now left. Qed.
Lemma firstn_nodup {A} n (l : list A) : NoDup l -> NoDup (firstn n l).
Proof.
  revert n. induction l as [|x r IH]; intros [|n]; cbn; intros D; try constructor; inversion D; subst; auto.
  intros H. apply firstn_incl in H. contradiction.
Qed.

(** A response names as many entries as it can, up to [n]: entries of the overlay, of distinct peers, none
    of a peer named in the request. *)
Theorem response_is_exact : forall n requested l smp,
  NoDup (ids l) -> NoDup requested -> is_sample (n + length requested) l smp ->
  let r := response n requested smp in
  length r = Nat.min n (length (filter (fun e => negb (mem (e_id e) requested)) l)) /\
  NoDup (ids r) /\ incl r l /\ (forall e, In e r -> ~ In (e_id e) requested).
Proof.
  intros n rq l smp D DR (N & I & L) r.
  assert (DS := smp_ids _ _ D N I). subst r. unfold response. set (f := fun e => negb (mem (e_id e) rq)).
  assert (LOST : (length (filter (fun e => negb (f e)) smp) <= length rq)%nat).
  { replace (length (filter (fun e => negb (f e)) smp)) with (length (ids (filter (fun e => negb (f e)) smp))) by apply map_length.
    apply NoDup_incl_length; [now apply nodup_ids_filter|]. intros p H. unfold ids in H. apply in_map_iff in H as (x & <- & X).
    apply filter_In in X as [_ X]. unfold f in X. rewrite negb_involutive in X. now apply mem_spec. }
  pose proof (filter_lost f smp) as LS.
  repeat apply conj.
  - rewrite firstn_length. destruct (Nat.le_gt_cases (n + length rq) (length l)).
    + assert (length (filter f smp) <= length (filter f l))%nat.
      { apply NoDup_incl_length; [now apply nodup_filter|]. intros x. rewrite !filter_In. intros [H1 H2]. auto. }
      lia.
    + rewrite (filter_perm_len f l smp); auto; [now apply nodup_ids|lia].
  - unfold ids. rewrite <- firstn_map. apply firstn_nodup. now apply nodup_ids_filter.
  - intros x H. apply firstn_incl, filter_In in H. apply I. tauto.
  - intros e H. apply firstn_incl, filter_In in H. destruct H as [_ H]. unfold f in H. apply negb_true_iff, mem_false in H. exact H.
Qed.
(** A request names the own entry first, then as many others as it can, up to [n] in all (at least one):
    distinct peers of the overlay, not the peer asked. *)
Theorem request_is_exact : forall n own target l smp,
  NoDup (ids l) -> ~ In (e_id own) (ids l) -> is_sample (Nat.max n 1) l smp ->
  exists r, request n own target smp = own :: r /\
    length (own :: r) = Nat.min (Nat.max n 1) (1 + length (filter (fun e => negb (e_id e =? target)) l)) /\
    NoDup (ids (own :: r)) /\ incl r l /\ (forall e, In e r -> e_id e <> target).
Proof.
  intros n own target l smp D NO (N & I & L). assert (DS := smp_ids _ _ D N I).
  eexists. split; [reflexivity|]. set (f := fun e => negb (e_id e =? target)).
  assert (LOST : (length (filter (fun e => negb (f e)) smp) <= 1)%nat).
  { replace (length (filter (fun e => negb (f e)) smp)) with (length (ids (filter (fun e => negb (f e)) smp))) by apply map_length.
    change 1%nat with (length [target]). apply NoDup_incl_length; [now apply nodup_ids_filter|]. intros p H.
    unfold ids in H. apply in_map_iff in H as (x & <- & X).
    apply filter_In in X as [_ X]. unfold f in X. rewrite negb_involutive in X. apply N.eqb_eq in X. now left. }
  pose proof (filter_lost f smp) as LS.
  repeat apply conj.
  - cbn [length]. rewrite firstn_length. destruct (Nat.le_gt_cases (Nat.max n 1) (length l)).
    + assert (length (filter f smp) <= length (filter f l))%nat.
      { apply NoDup_incl_length; [now apply nodup_filter|]. intros x. rewrite !filter_In. intros [H1 H2]. auto. }
      lia.
    + rewrite (filter_perm_len f l smp); auto; [lia|now apply nodup_ids|lia].
  - cbn. constructor.
    + intros H. apply NO. unfold ids in *. apply in_map_iff in H as (x & <- & X). apply firstn_incl, filter_In in X.
      apply in_map. apply I. tauto.
    + rewrite <- firstn_map. apply firstn_nodup. now apply (nodup_ids_filter f).
  - intros x H. apply firstn_incl, filter_In in H. apply I. tauto.
  - intros e H. apply firstn_incl, filter_In in H. destruct H as [_ H]. unfold f in H. now apply negb_true_iff, N.eqb_neq in H.
Qed.

(** ** The registry *)
Definition rdisj (r : reg) : Prop := forall id, In id (pub r) -> In id (priv r) -> False.
(** additions one at a time *)
Inductive aop := AAdd (public : bool) (id : N) | ARemove (public : bool) (id : N).
Definition astep (r : reg) (o : aop) : reg :=
  match o with
  | AAdd pb id => if mem id (if pb then priv r else pub r) then r else rstep (rstep r (RBegin pb id)) (RFinish 0)
  | ARemove pb id => rstep r (RRemove pb id)
  end.
Theorem one_kind_if_one_at_a_time : forall l, let r := fold_left astep l rempty in
  (forall id, ~ (In id (pub r) /\ In id (priv r))) /\ NoDup (pub r) /\ NoDup (priv r).
Proof.
  intros l. cbv zeta. set (P := fun r => (forall id, ~ (In id (pub r) /\ In id (priv r))) /\ NoDup (pub r) /\ NoDup (priv r)).
  change (P (fold_left astep l rempty)). assert (P0 : P rempty) by (unfold P; cbn; repeat split; try constructor; tauto).
  revert P0. generalize rempty. induction l as [|o l IH]; cbn; intros r H; [assumption|]. apply IH. clear IH.
  destruct H as (A & B & C). destruct o as [pb id|pb id]; cbn [astep].
  - destruct (mem id (if pb then priv r else pub r)) eqn:M; [unfold P; auto|]. cbn [rstep]. rewrite M. cbn [adding pick skipn firstn pub priv].
    apply mem_false in M. destruct (mem id (if pb then pub r else priv r)) eqn:K; [unfold P; cbn; auto|]. apply mem_false in K.
    destruct pb; unfold P; cbn; repeat split; auto; try (constructor; auto).
    + intros x [[<-|H1] H2]; [auto|]. apply (A x); auto.
    + intros x [H1 [<-|H2]]; [auto|]. apply (A x); auto.
  - destruct pb; unfold P; cbn; repeat split; auto; try now apply nodup_filter.
    + intros x [H1 H2]. apply filter_In in H1. apply (A x). tauto.
    + intros x [H1 H2]. apply filter_In in H2. apply (A x). tauto.
Qed.
Theorem each_map_distinct : forall l, let r := fold_left rstep l rempty in NoDup (pub r) /\ NoDup (priv r).
Proof.
  intros l. cbv zeta. set (P := fun r => NoDup (pub r) /\ NoDup (priv r)).
  change (P (fold_left rstep l rempty)). assert (P0 : P rempty) by (unfold P; cbn; split; constructor).
  revert P0. generalize rempty. induction l as [|o l IH]; cbn; intros r H; [assumption|]. apply IH. clear IH.
  destruct H as (B & C). destruct o as [pb id|i|pb id]; cbn [rstep].
  - destruct (mem id _); unfold P; cbn; auto.
  - destruct (pick i (adding r)) as [[[a [pb id]] b]|]; [|unfold P; auto].
    destruct (mem id (if pb then pub r else priv r)) eqn:K; [unfold P; cbn; auto|]. apply mem_false in K.
    destruct pb; unfold P; cbn; split; auto; constructor; auto.
  - destruct pb; unfold P; cbn; split; auto; now apply nodup_filter.
Qed.
