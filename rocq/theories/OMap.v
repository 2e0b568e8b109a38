(** Ordered map/set as a strictly sorted association list: the model of [BTreeMap]/[BTreeSet]
    for a key type with a total order given by a comparison function. *)
From Coq Require Export List Bool.
Export ListNotations.

Record total_order {K : Type} (cmp : K -> K -> comparison) : Prop := {
  to_eq : forall a b, cmp a b = Eq <-> a = b;
  to_antisym : forall a b, cmp b a = CompOpp (cmp a b);
  to_trans : forall a b c, cmp a b = Lt -> cmp b c = Lt -> cmp a c = Lt }.

Section OMap.
  Context {K V : Type} (cmp : K -> K -> comparison).
  Definition omap := list (K * V).

  Fixpoint oget (k : K) (m : omap) : option V :=
    match m with
    | [] => None
    | (k', v) :: r => match cmp k k' with Eq => Some v | Lt => None | Gt => oget k r end
    end.

  Fixpoint oput (k : K) (v : V) (m : omap) : omap :=
    match m with
    | [] => [(k, v)]
    | (k', v') :: r =>
        match cmp k k' with
        | Lt => (k, v) :: (k', v') :: r
        | Eq => (k, v) :: r
        | Gt => (k', v') :: oput k v r
        end
    end.

  Definition odel (k : K) (m : omap) : omap :=
    filter (fun e => negb (match cmp (fst e) k with Eq => true | _ => false end)) m.

  Inductive osorted : omap -> Prop :=
  | os_nil : osorted []
  | os_cons k v m : osorted m -> Forall (fun e => cmp k (fst e) = Lt) m -> osorted ((k, v) :: m).

  Context (T : total_order cmp).

  Lemma ocmp_refl k : cmp k k = Eq. Proof. now apply (to_eq _ T). Qed.

  Lemma oget_none_lt k m : Forall (fun e => cmp k (fst e) = Lt) m -> oget k m = None.
  Proof.
    destruct m as [|[k' v] m]; [reflexivity|]. intros H. inversion H as [|? ? H1 ?]; subst.
    cbn [oget fst] in *. now rewrite H1.
  Qed.

  Lemma oput_sorted k v m : osorted m -> osorted (oput k v m).
  Proof.
    induction 1 as [|k' v' m Hs IH Hf]; [repeat constructor|].
    cbn [oput]. destruct (cmp k k') eqn:E.
    - apply (to_eq _ T) in E. subst. constructor; auto.
    - constructor; [constructor; auto|]. constructor; [exact E|].
      eapply Forall_impl; [|exact Hf]. intros e He. eapply (to_trans _ T); eauto.
    - constructor; auto.
      assert (E' : cmp k' k = Lt) by (rewrite (to_antisym _ T k k'), E; reflexivity).
      clear -Hf E'.
      induction m as [|[k2 v2] m IH]; cbn [oput]; [repeat constructor; auto|].
      inversion Hf as [|? ? H1 H2]; subst. specialize (IH H2).
      destruct (cmp k k2); repeat constructor; auto.
  Qed.

  Lemma ofilter_sorted f m : osorted m -> osorted (filter f m).
  Proof.
    induction 1 as [|k v m Hs IH Hf]; cbn [filter]; [constructor|].
    destruct (f (k, v)); auto. constructor; auto.
    apply Forall_forall. intros e He. apply filter_In in He as [He _].
    rewrite Forall_forall in Hf; auto.
  Qed.

  Lemma oget_filter f m k : osorted m ->
    oget k (filter f m) =
    match oget k m with Some v => if f (k, v) then Some v else None | None => None end.
  Proof.
    induction 1 as [|k' v' m Hs IH Hf]; [reflexivity|].
    cbn [filter]. destruct (f (k', v')) eqn:Ef.
    - cbn [oget]. destruct (cmp k k') eqn:E; auto.
      apply (to_eq _ T) in E. subst. now rewrite Ef.
    - cbn [oget]. rewrite IH. destruct (cmp k k') eqn:E; auto.
      + apply (to_eq _ T) in E; subst. rewrite Ef.
        rewrite oget_none_lt; auto.
      + rewrite oget_none_lt; auto.
        eapply Forall_impl; [|exact Hf]. intros e He. eapply (to_trans _ T); eauto.
  Qed.

  Lemma oget_put k v m k' : osorted m ->
    oget k' (oput k v m) = match cmp k' k with Eq => Some v | _ => oget k' m end.
  Proof.
    induction 1 as [|k2 v2 m Hs IH Hf]; cbn [oput oget].
    - destruct (cmp k' k); reflexivity.
    - destruct (cmp k k2) eqn:E; cbn [oget].
      + apply (to_eq _ T) in E. subst. destruct (cmp k' k2); reflexivity.
      + destruct (cmp k' k) eqn:E2; auto.
        assert (H : cmp k' k2 = Lt) by (eapply (to_trans _ T); eauto). now rewrite H.
      + rewrite IH. destruct (cmp k' k2) eqn:E2; auto.
        * apply (to_eq _ T) in E2; subst. rewrite (to_antisym _ T k k2), E. reflexivity.
        * destruct (cmp k' k) eqn:E3; auto. apply (to_eq _ T) in E3; subst. congruence.
  Qed.

  Lemma oget_del k m k' : osorted m ->
    oget k' (odel k m) = match cmp k' k with Eq => None | _ => oget k' m end.
  Proof.
    intros H. unfold odel. rewrite oget_filter by assumption. cbn [fst].
    destruct (oget k' m); destruct (cmp k' k); reflexivity.
  Qed.

  Lemma oin_get k v m : osorted m -> (In (k, v) m <-> oget k m = Some v).
  Proof.
    induction 1 as [|k' v' m Hs IH Hf]; cbn [In oget].
    - split; [tauto|discriminate].
    - rewrite Forall_forall in Hf. split.
      + intros [E|Hin].
        * injection E as -> ->. now rewrite ocmp_refl.
        * pose proof (Hf _ Hin) as H1. cbn [fst] in H1.
          rewrite (to_antisym _ T k' k), H1. cbn [CompOpp]. now apply IH.
      + destruct (cmp k k') eqn:E; intros H1; try discriminate.
        * apply (to_eq _ T) in E; subst. left. congruence.
        * right. now apply IH.
  Qed.

  Lemma osorted_nodup m : osorted m -> NoDup (map fst m).
  Proof.
    induction 1 as [|k v m Hs IH Hf]; cbn [map fst]; constructor; auto.
    intros Hin. apply in_map_iff in Hin as ([k' v'] & E & Hin). cbn in E. subst k'.
    rewrite Forall_forall in Hf. specialize (Hf _ Hin). cbn in Hf.
    rewrite ocmp_refl in Hf. discriminate.
  Qed.

  Lemma oext m1 m2 : osorted m1 -> osorted m2 ->
    (forall k, oget k m1 = oget k m2) -> m1 = m2.
  Proof.
    intros H1. revert m2. induction H1 as [|k v m Hs IH Hf]; intros m2 H2 Hext.
    - destruct H2 as [|k2 v2 m2]; auto. specialize (Hext k2). cbn [oget] in Hext.
      rewrite ocmp_refl in Hext. discriminate.
    - destruct H2 as [|k2 v2 m2 Hs2 Hf2].
      + specialize (Hext k). cbn [oget] in Hext. rewrite ocmp_refl in Hext. discriminate.
      + assert (Ek : cmp k k2 = Eq).
        { destruct (cmp k k2) eqn:E; auto.
          - pose proof (Hext k) as Hk. cbn [oget] in Hk. rewrite ocmp_refl, E in Hk. discriminate.
          - pose proof (Hext k2) as Hk. cbn [oget] in Hk.
            rewrite ocmp_refl, (to_antisym _ T k k2), E in Hk. discriminate. }
        apply (to_eq _ T) in Ek. subst k2.
        assert (Ev : v = v2).
        { specialize (Hext k). cbn [oget] in Hext. rewrite ocmp_refl in Hext. congruence. }
        subst v2. f_equal. apply IH; auto. intros k'. specialize (Hext k'). cbn [oget] in Hext.
        destruct (cmp k' k) eqn:E; auto.
        * apply (to_eq _ T) in E; subst. now rewrite !oget_none_lt.
        * rewrite !oget_none_lt; auto.
          -- eapply Forall_impl; [|exact Hf2]. intros e He. eapply (to_trans _ T); eauto.
          -- eapply Forall_impl; [|exact Hf]. intros e He. eapply (to_trans _ T); eauto.
  Qed.
End OMap.
Arguments omap : clear implicits.
