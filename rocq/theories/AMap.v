(** A finite map as an association list with at most one entry per key: the model of
    [HashMap]/[BTreeMap] where only lookups matter. Iteration order of a Rust [HashMap] is
    arbitrary; theorems about iterating code are stated for every list with the same lookups
    or are order independent. *)
From Coq Require Export List Bool.
Export ListNotations.

Section AMap.
  Context {K V : Type} (eqb : K -> K -> bool).
  Definition amap := list (K * V).

  Fixpoint aget (k : K) (m : amap) : option V :=
    match m with [] => None | (k', v) :: r => if eqb k k' then Some v else aget k r end.

  (** insert or overwrite *)
  Fixpoint aset (k : K) (v : V) (m : amap) : amap :=
    match m with
    | [] => [(k, v)]
    | (k', v') :: r => if eqb k k' then (k, v) :: r else (k', v') :: aset k v r
    end.

  Definition adel (k : K) (m : amap) : amap := filter (fun e => negb (eqb k (fst e))) m.
  Definition akeys (m : amap) : list K := map fst m.
  Definition amem (k : K) (m : amap) : bool := match aget k m with Some _ => true | None => false end.

  Context (eqb_spec : forall a b, reflect (a = b) (eqb a b)).

  Lemma eqb_refl' k : eqb k k = true.
  Proof. destruct (eqb_spec k k); congruence. Qed.

  Lemma aget_aset k v m k' : aget k' (aset k v m) = if eqb k' k then Some v else aget k' m.
  Proof.
    induction m as [|[k2 v2] m IH]; cbn [aset aget]; [reflexivity|].
    destruct (eqb_spec k k2) as [->|H]; cbn [aget].
    - destruct (eqb_spec k' k2); reflexivity.
    - rewrite IH. destruct (eqb_spec k' k2) as [->|H2]; [|reflexivity].
      destruct (eqb_spec k2 k); congruence.
  Qed.

  Lemma aget_adel k m k' : aget k' (adel k m) = if eqb k' k then None else aget k' m.
  Proof.
    unfold adel. induction m as [|[k2 v2] m IH]; cbn [filter aget fst].
    - destruct (eqb k' k); reflexivity.
    - destruct (eqb_spec k k2) as [->|H]; cbn [negb aget]; rewrite IH.
      + destruct (eqb_spec k' k2); reflexivity.
      + destruct (eqb_spec k' k2) as [->|H2]; [|reflexivity].
        destruct (eqb_spec k2 k); congruence.
  Qed.

  Lemma akeys_aset_in k v m k' : In k' (akeys (aset k v m)) <-> k' = k \/ In k' (akeys m).
  Proof.
    induction m as [|[k2 v2] m IH]; cbn [aset akeys map fst In].
    - intuition congruence.
    - unfold akeys in *. destruct (eqb_spec k k2) as [->|H]; cbn [map fst In]; intuition congruence.
  Qed.

  Lemma aset_nodup k v m : NoDup (akeys m) -> NoDup (akeys (aset k v m)).
  Proof.
    induction m as [|[k2 v2] m IH]; cbn [aset akeys map fst]; intros H.
    - repeat constructor; auto.
    - inversion H as [|? ? H1 H2]; subst. destruct (eqb_spec k k2) as [->|Hn]; cbn [map fst].
      + constructor; auto.
      + constructor; [|apply IH, H2].
        intros Hin. apply akeys_aset_in in Hin as [E|Hin]; [congruence|]. now apply H1.
  Qed.

  Lemma adel_nodup k m : NoDup (akeys m) -> NoDup (akeys (adel k m)).
  Proof.
    unfold akeys, adel. induction m as [|[k2 v2] m IH]; cbn [filter map fst]; auto.
    intros H. inversion H as [|? ? H1 H2]; subst. destruct (negb _); auto. cbn [map fst].
    constructor; auto. intros Hin. apply H1. apply in_map_iff in Hin as (e & E & Hin).
    apply filter_In in Hin as [Hin _]. apply in_map_iff; eauto.
  Qed.

  Lemma aget_in k v m : NoDup (akeys m) -> (In (k, v) m <-> aget k m = Some v).
  Proof.
    unfold akeys. induction m as [|[k2 v2] m IH]; cbn [map fst In aget]; intros H.
    - split; [tauto|discriminate].
    - inversion H as [|? ? H1 H2]; subst. specialize (IH H2). split.
      + intros [E|Hin].
        * injection E as -> ->. now rewrite eqb_refl'.
        * destruct (eqb_spec k k2) as [->|Hn]; [|now apply IH].
          exfalso. apply H1. apply in_map_iff. exists (k2, v). auto.
      + destruct (eqb_spec k k2) as [->|Hn]; intros E.
        * left; congruence.
        * right. now apply IH.
  Qed.

  Lemma aget_some_in k v m : aget k m = Some v -> In (k, v) m.
  Proof.
    induction m as [|[k2 v2] m IH]; cbn [aget In]; [discriminate|].
    destruct (eqb_spec k k2) as [->|Hn]; intros E; [left; congruence|auto].
  Qed.

  Lemma aget_none k m : aget k m = None <-> ~ In k (akeys m).
  Proof.
    unfold akeys. induction m as [|[k2 v2] m IH]; cbn [map fst In aget].
    - tauto.
    - destruct (eqb_spec k k2) as [->|Hn].
      + split; [discriminate|]. intros H; exfalso; apply H; auto.
      + rewrite IH. intuition congruence.
  Qed.

  Lemma aget_some_key k m : In k (akeys m) -> exists v, aget k m = Some v.
  Proof.
    intros H. destruct (aget k m) as [v|] eqn:E; eauto. apply aget_none in E. contradiction.
  Qed.

  (** two maps with the same lookups and no duplicates have the same entries *)
  Lemma aget_ext_in m1 m2 : NoDup (akeys m1) -> NoDup (akeys m2) ->
    (forall k, aget k m1 = aget k m2) -> forall e, In e m1 <-> In e m2.
  Proof.
    intros H1 H2 H [k v]. rewrite !aget_in by assumption. now rewrite H.
  Qed.
End AMap.
Arguments amap : clear implicits.
