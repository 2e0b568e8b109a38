(** Property C16: the value-ordered bounded map of the consensus, for any totally ordered keys and values. *)
From Verif Require Import VomModel VomProofs.
From Coq Require Import Sorting.Sorted ZArith ZifyNat ZifyBool.

Section Props.
  Context {K V : Type} (kcmp : K -> K -> comparison) (vcmp : V -> V -> comparison).
  Context (TK : total_order kcmp) (TV : total_order vcmp).

  (** (value, key) order on entries, spelled out *)
  Definition entry_less (a b : K * V) : Prop :=
    vcmp (snd a) (snd b) = Lt \/ (snd a = snd b /\ kcmp (fst a) (fst b) = Lt).
  (** histories: the maps reachable by any sequence of upserts (with any update predicates) and removals *)
  Inductive vop := VUp (k : K) (v : V) (update_if : V -> V -> bool) | VRem (k : K).
  Definition vstep (m : vom K V) (o : vop) : vom K V :=
    match o with VUp k v u => fst (upsert kcmp vcmp k v u m) | VRem k => fst (vm_remove kcmp k m) end.
  Definition reachable (m : vom K V) : Prop :=
    (exists n ops, m = fold_left vstep ops (vm_new n)) \/ (exists l ops, m = fold_left vstep ops (vm_from_iter kcmp vcmp l)).

  Lemma less_spec a b : vm_lt kcmp vcmp a b = true <-> entry_less a b.
  Proof.
    unfold vm_lt, vm_cmp, entry_less. destruct (vcmp (snd a) (snd b)) eqn:E.
    - apply (to_eq _ TV) in E. destruct (kcmp (fst a) (fst b)) eqn:E2; split; auto; try discriminate; intros [H|[_ H]]; discriminate.
    - split; auto.
    - split; [discriminate|]. intros [H|[H _]]; [discriminate|]. rewrite H in E. rewrite (proj2 (to_eq _ TV _ _) eq_refl) in E. discriminate.
  Qed.

  Lemma vstep_ok m o : vm_ok kcmp vcmp m -> vm_ok kcmp vcmp (vstep m o) /\ vm_max (vstep m o) = vm_max m.
  Proof.
    intros H. destruct o as [k v u|k]; cbn [vstep].
    - pose proof (upsert_spec kcmp vcmp TK TV k v u m H) as X. destruct (upsert kcmp vcmp k v u m) as [m' r]. cbn [fst]. tauto.
    - pose proof (remove_spec kcmp vcmp TK k m H) as X. destruct (vm_remove kcmp k m) as [m' r]. cbn [fst]. tauto.
  Qed.
  Lemma reach_ok m : reachable m -> vm_ok kcmp vcmp m.
  Proof.
    assert (F : forall ops m0, vm_ok kcmp vcmp m0 -> vm_ok kcmp vcmp (fold_left vstep ops m0)).
    { induction ops as [|o ops IH]; intros m0 H; cbn [fold_left]; auto. apply IH. now apply vstep_ok. }
    intros [(n & ops & ->)|(l & ops & ->)]; apply F.
    - split; cbn; [constructor|constructor|lia].
    - apply (from_iter_spec kcmp vcmp TK TV l).
  Qed.

  Theorem C16_invariant : forall m, reachable m ->
    NoDup (map fst (vm_inner m)) /\ length (vm_inner m) <= vm_max m /\ StronglySorted entry_less (vm_inner m).
  Proof.
    intros m H. destruct (reach_ok m H) as [A B C]. split; auto. split; auto.
    clear - A TV. induction A as [|x l A IH F]; constructor; auto. eapply Forall_impl; [|exact F]. intros y Hy. now apply less_spec.
  Qed.

  (** one upsert: which of the five answers, and what the map contains afterwards *)
  Theorem C16_upsert : forall m k v update_if, reachable m ->
    let '(m', r) := upsert kcmp vcmp k v update_if m in
    vm_max m' = vm_max m /\
    match r with
    | OkInserted => vm_get kcmp k m = None /\ length (vm_inner m) < vm_max m /\
        forall x, vm_get kcmp x m' = if k_eqb kcmp x k then Some v else vm_get kcmp x m
    | OkUpdated old => vm_get kcmp k m = Some old /\ update_if v old = true /\
        forall x, vm_get kcmp x m' = if k_eqb kcmp x k then Some v else vm_get kcmp x m
    | OkEvicted k0 v0 => vm_get kcmp k m = None /\ length (vm_inner m) = vm_max m /\
        vm_get kcmp k0 m = Some v0 /\ entry_less (k0, v0) (k, v) /\
        (forall x w, vm_get kcmp x m = Some w -> (x, w) = (k0, v0) \/ entry_less (k0, v0) (x, w)) /\
        forall x, vm_get kcmp x m' = if k_eqb kcmp x k then Some v else if k_eqb kcmp x k0 then None else vm_get kcmp x m
    | ErrRejected => (exists old, vm_get kcmp k m = Some old /\ update_if v old = false) /\ m' = m
    | ErrTooLow => vm_get kcmp k m = None /\ length (vm_inner m) = vm_max m /\
        (forall x w, vm_get kcmp x m = Some w -> entry_less (k, v) (x, w)) /\ m' = m
    end.
  Proof.
    intros m k v u H. pose proof (upsert_spec kcmp vcmp TK TV k v u m (reach_ok m H)) as X.
    destruct (upsert kcmp vcmp k v u m) as [m' r]. destruct X as (_ & A & X). split; auto.
    destruct r; cbn [up_spec] in X; auto.
    - destruct X as (X1 & X2 & X3 & X4 & X5 & X6). split; auto. split; auto. split; auto. split; [now apply less_spec|]. split; auto.
      intros x w Hx. destruct (X5 x w Hx); auto. right. now apply less_spec.
    - destruct X as (X1 & X2 & X3 & X4). split; auto. split; auto. split; auto. intros x w Hx. apply less_spec. auto.
  Qed.

  Theorem C16_remove : forall m k, reachable m -> let '(m', r) := vm_remove kcmp k m in
    r = vm_get kcmp k m /\ vm_max m' = vm_max m /\ forall x, vm_get kcmp x m' = if k_eqb kcmp x k then None else vm_get kcmp x m.
  Proof.
    intros m k H. pose proof (remove_spec kcmp vcmp TK k m (reach_ok m H)) as X. destruct (vm_remove kcmp k m) as [m' r]. tauto.
  Qed.

  Theorem C16_max : forall m, reachable m ->
    match vm_maxe m with
    | None => forall x, vm_get kcmp x m = None
    | Some (k, v) => vm_get kcmp k m = Some v /\
        forall x w, vm_get kcmp x m = Some w -> (x, w) = (k, v) \/ entry_less (x, w) (k, v)
    end.
  Proof.
    intros m H. pose proof (max_spec kcmp vcmp TK m (reach_ok m H)) as X. destruct (vm_maxe m) as [[k v]|]; auto.
    destruct X as [A B]. split; auto. intros x w Hx. destruct (B x w Hx); auto. right. now apply less_spec.
  Qed.

  (** collecting an iterator: the last value of every key, and no room for a new key below the least *)
  Theorem C16_from_iter : forall l, let m := vm_from_iter kcmp vcmp l in
    vm_max m = length (vm_inner m) /\
    forall x w, vm_get kcmp x m = Some w <-> exists l1 l2, l = l1 ++ (x, w) :: l2 /\ ~ In x (map fst l2).
  Proof.
    intros l. cbv zeta. destruct (from_iter_spec kcmp vcmp TK TV l) as (_ & A & B). cbv zeta in *. split; auto. intros x w. rewrite B. clear A B.
    assert (Hnone : forall l : list (K * V), last_value kcmp x l = None <-> ~ In x (map fst l)).
    { clear l. induction l as [|[k v] l IH]; cbn [last_value map fst In]; [tauto|].
      destruct (last_value kcmp x l) as [w'|].
      - split; [discriminate|]. intros H. exfalso. assert (~ In x (map fst l)) by tauto. apply IH in H0. discriminate.
      - destruct (keqb_spec kcmp TK x k) as [->|Hx]; split; try discriminate; auto; [tauto|]. intros _ [->|H]; [congruence|]. now apply (proj1 IH). }
    induction l as [|[k v] l IH]; cbn [last_value].
    - split; [discriminate|]. intros (l1 & l2 & E & _). destruct l1; discriminate.
    - destruct (last_value kcmp x l) as [w'|] eqn:E.
      + rewrite IH. split.
        * intros (l1 & l2 & -> & H). exists ((k, v) :: l1), l2. auto.
        * intros ([|y l1] & l2 & El & H).
          -- injection El as -> -> ->. apply Hnone in H. congruence.
          -- injection El as _ El. eauto.
      + destruct (keqb_spec kcmp TK x k) as [->|Hx]; split.
        * intros X; injection X as ->. exists [], l. split; auto. now apply Hnone.
        * intros ([|y l1] & l2 & El & H); [now injection El as ->|]. injection El as _ El. exfalso. apply Hnone in E. apply E. rewrite El, map_app, in_app_iff. right. now left.
        * discriminate.
        * intros ([|y l1] & l2 & El & H); [injection El as -> ->; congruence|]. injection El as _ El. exfalso. apply Hnone in E. apply E. rewrite El, map_app, in_app_iff. right. now left.
  Qed.
End Props.
Print Assumptions C16_invariant.
Print Assumptions C16_upsert.
Print Assumptions C16_remove.
Print Assumptions C16_max.
Print Assumptions C16_from_iter.

(** a full map of natural numbers: one eviction, one rejection, one update that moves an entry *)
Lemma nat_total : total_order Nat.compare.
Proof.
  split; intros.
  - apply Nat.compare_eq_iff.
  - apply Nat.compare_antisym.
  - apply Nat.compare_lt_iff in H, H0. apply Nat.compare_lt_iff. lia.
Qed.
Example C16_example :
  let m := fold_left (vstep Nat.compare Nat.compare) [VUp 1 5 (fun _ _ => true); VUp 2 3 (fun _ _ => true); VUp 3 9 (fun _ _ => true); VUp 1 10 (fun a b => Nat.ltb b a); VUp 4 4 (fun _ _ => true)] (vm_new 3) in
  reachable Nat.compare Nat.compare m /\ vm_inner m = [(4, 4); (3, 9); (1, 10)] /\
  snd (upsert Nat.compare Nat.compare 5 4 (fun _ _ => true) m) = OkEvicted 4 4 /\
  snd (upsert Nat.compare Nat.compare 5 3 (fun _ _ => true) m) = ErrTooLow.
Proof. cbv zeta. split; [left; eexists; eexists; reflexivity|]. vm_compute. auto. Qed.
