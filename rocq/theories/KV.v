(** An ordered key-value table with byte-string keys: one RocksDB column family under the
    default bytewise comparator. Entries are kept sorted by key, one entry per key.
    The operations are the ones the code issues in write batches and through raw iterators:
    [put_cf], [delete_cf], [delete_range_cf] (lower inclusive, upper exclusive), [get_cf],
    bounded forward iteration and [seek_for_prev]. RocksDB itself (persistence, compaction,
    snapshots as immutable values) is trusted to implement this table. *)
From Verif Require Export Bytes.
Local Open Scope N_scope.

Section KV.
  Context {V : Type}.
  Definition kv := list (bytes * V).

  Fixpoint kv_get (k : bytes) (m : kv) : option V :=
    match m with
    | [] => None
    | (k', v) :: r => match lex k k' with Eq => Some v | Lt => None | Gt => kv_get k r end
    end.

  Fixpoint kv_put (k : bytes) (v : V) (m : kv) : kv :=
    match m with
    | [] => [(k, v)]
    | (k', v') :: r =>
        match lex k k' with
        | Lt => (k, v) :: (k', v') :: r
        | Eq => (k, v) :: r
        | Gt => (k', v') :: kv_put k v r
        end
    end.

  (** single-key delete *)
  Definition kv_del (k : bytes) (m : kv) : kv :=
    filter (fun e => negb (match lex (fst e) k with Eq => true | _ => false end)) m.

  (** [lo <= k < hi] *)
  Definition in_range (lo hi k : bytes) : bool := lex_leb lo k && lex_ltb k hi.

  (** range delete: lower bound inclusive, upper bound exclusive *)
  Definition kv_del_range (lo hi : bytes) (m : kv) : kv :=
    filter (fun e => negb (in_range lo hi (fst e))) m.

  (** forward iteration with [iterate_lower_bound]/[iterate_upper_bound] *)
  Definition kv_scan (lo hi : bytes) (m : kv) : kv :=
    filter (fun e => in_range lo hi (fst e)) m.

  (** sorted, hence no duplicate keys *)
  Inductive kv_sorted : kv -> Prop :=
  | kvs_nil : kv_sorted []
  | kvs_cons k v m : kv_sorted m -> Forall (fun e => lex k (fst e) = Lt) m -> kv_sorted ((k, v) :: m).

  Lemma kv_get_none_lt k m : Forall (fun e => lex k (fst e) = Lt) m -> kv_get k m = None.
  Proof.
    destruct m as [|[k' v] m]; [reflexivity|]. intros H. inversion H as [|? ? H1 ?]; subst.
    cbn [kv_get fst] in *. now rewrite H1.
  Qed.

  Lemma kv_put_sorted k v m : kv_sorted m -> kv_sorted (kv_put k v m).
  Proof.
    induction 1 as [|k' v' m Hs IH Hf]; [repeat constructor|].
    cbn [kv_put]. destruct (lex k k') eqn:E.
    - apply lex_eq in E. subst. constructor; auto.
    - constructor; [constructor; auto|]. constructor; [exact E|].
      eapply Forall_impl; [|exact Hf]. intros e He. eapply lex_trans_lt; eauto.
    - constructor; auto.
      clear -Hf E. assert (E' : lex k' k = Lt) by (rewrite lex_antisym, E; reflexivity).
      induction m as [|[k2 v2] m IH]; cbn [kv_put]; [repeat constructor; auto|].
      inversion Hf as [|? ? H1 H2]; subst. specialize (IH H2).
      destruct (lex k k2); repeat constructor; auto.
  Qed.

  Lemma kv_filter_sorted f m : kv_sorted m -> kv_sorted (filter f m).
  Proof.
    induction 1 as [|k v m Hs IH Hf]; cbn [filter]; [constructor|].
    destruct (f (k, v)); auto. constructor; auto.
    apply Forall_forall. intros e He. apply filter_In in He as [He _].
    rewrite Forall_forall in Hf; auto.
  Qed.

  Lemma kv_get_filter f m k : kv_sorted m ->
    kv_get k (filter f m) =
    match kv_get k m with Some v => if f (k, v) then Some v else None | None => None end.
  Proof.
    induction 1 as [|k' v' m Hs IH Hf]; [reflexivity|].
    cbn [filter]. destruct (f (k', v')) eqn:Ef.
    - cbn [kv_get]. destruct (lex k k') eqn:E; auto.
      apply lex_eq in E. subst. now rewrite Ef.
    - cbn [kv_get]. rewrite IH. destruct (lex k k') eqn:E; auto.
      + apply lex_eq in E; subst. rewrite Ef.
        rewrite kv_get_none_lt; auto.
      + rewrite kv_get_none_lt; auto.
        eapply Forall_impl; [|exact Hf]. intros e He. eapply lex_trans_lt; eauto.
  Qed.

  Lemma kv_get_put k v m k' : kv_sorted m ->
    kv_get k' (kv_put k v m) = match lex k' k with Eq => Some v | _ => kv_get k' m end.
  Proof.
    induction 1 as [|k2 v2 m Hs IH Hf]; cbn [kv_put kv_get].
    - destruct (lex k' k); reflexivity.
    - destruct (lex k k2) eqn:E; cbn [kv_get].
      + apply lex_eq in E. subst. destruct (lex k' k2); reflexivity.
      + destruct (lex k' k) eqn:E2; auto.
        assert (H : lex k' k2 = Lt) by (eapply lex_trans_lt; eauto). now rewrite H.
      + rewrite IH. destruct (lex k' k2) eqn:E2; auto.
        * apply lex_eq in E2; subst. rewrite (lex_antisym k k2), E. reflexivity.
        * destruct (lex k' k) eqn:E3; auto. apply lex_eq in E3; subst. congruence.
  Qed.

  Lemma kv_get_del k m k' : kv_sorted m ->
    kv_get k' (kv_del k m) = match lex k' k with Eq => None | _ => kv_get k' m end.
  Proof.
    intros H. unfold kv_del. rewrite kv_get_filter by assumption. cbn [fst].
    destruct (kv_get k' m); destruct (lex k' k); reflexivity.
  Qed.

  Lemma kv_get_del_range lo hi m k : kv_sorted m ->
    kv_get k (kv_del_range lo hi m) = if in_range lo hi k then None else kv_get k m.
  Proof.
    intros H. unfold kv_del_range. rewrite kv_get_filter by assumption. cbn [fst].
    destruct (kv_get k m); destruct (in_range lo hi k); reflexivity.
  Qed.

  Lemma kv_in_get k v m : kv_sorted m -> (In (k, v) m <-> kv_get k m = Some v).
  Proof.
    induction 1 as [|k' v' m Hs IH Hf]; cbn [In kv_get].
    - split; [tauto|discriminate].
    - rewrite Forall_forall in Hf. split.
      + intros [E|Hin].
        * injection E as -> ->. now rewrite lex_refl.
        * pose proof (Hf _ Hin) as H1. cbn [fst] in H1.
          rewrite (lex_antisym k' k), H1. cbn [CompOpp]. now apply IH.
      + destruct (lex k k') eqn:E; intros H1; try discriminate.
        * apply lex_eq in E; subst. left. congruence.
        * right. now apply IH.
  Qed.

  Lemma kv_in_scan lo hi m k v : kv_sorted m ->
    (In (k, v) (kv_scan lo hi m) <-> kv_get k m = Some v /\ in_range lo hi k = true).
  Proof.
    intros H. unfold kv_scan. rewrite filter_In. cbn [fst]. now rewrite kv_in_get.
  Qed.

  Lemma kv_ext m1 m2 : kv_sorted m1 -> kv_sorted m2 ->
    (forall k, kv_get k m1 = kv_get k m2) -> m1 = m2.
  Proof.
    intros H1. revert m2. induction H1 as [|k v m Hs IH Hf]; intros m2 H2 Hext.
    - destruct H2 as [|k2 v2 m2]; auto. specialize (Hext k2). cbn [kv_get] in Hext.
      rewrite lex_refl in Hext. discriminate.
    - destruct H2 as [|k2 v2 m2 Hs2 Hf2].
      + specialize (Hext k). cbn [kv_get] in Hext. rewrite lex_refl in Hext. discriminate.
      + assert (Ek : lex k k2 = Eq).
        { destruct (lex k k2) eqn:E; auto.
          - pose proof (Hext k) as Hk. cbn [kv_get] in Hk. rewrite lex_refl, E in Hk. discriminate.
          - pose proof (Hext k2) as Hk. cbn [kv_get] in Hk.
            rewrite lex_refl, (lex_antisym k k2), E in Hk. discriminate. }
        apply lex_eq in Ek. subst k2.
        assert (Ev : v = v2).
        { specialize (Hext k). cbn [kv_get] in Hext. rewrite lex_refl in Hext. congruence. }
        subst v2. f_equal. apply IH; auto. intros k'. specialize (Hext k'). cbn [kv_get] in Hext.
        destruct (lex k' k) eqn:E; auto.
        * apply lex_eq in E; subst. now rewrite !kv_get_none_lt.
        * rewrite !kv_get_none_lt; auto.
          -- eapply Forall_impl; [|exact Hf2]. intros e He. eapply lex_trans_lt; eauto.
          -- eapply Forall_impl; [|exact Hf]. intros e He. eapply lex_trans_lt; eauto.
  Qed.

  (** last entry of a bounded iteration: [seek_for_prev] to the (excluded) upper bound *)
  Definition kv_last (lo hi : bytes) (m : kv) : option (bytes * V) :=
    match rev (kv_scan lo hi m) with e :: _ => Some e | [] => None end.

  Lemma kv_sorted_app_inv a b : kv_sorted (a ++ b) ->
    forall e1 e2, In e1 a -> In e2 b -> lex (fst e1) (fst e2) = Lt.
  Proof.
    induction a as [|[k v] a IH]; intros H e1 e2 H1 H2; [destruct H1|].
    cbn [app] in H. inversion H as [|? ? ? Hs Hf]; subst. destruct H1 as [<-|H1].
    - rewrite Forall_forall in Hf. apply Hf. apply in_or_app; auto.
    - eapply IH; eauto.
  Qed.

  Lemma kv_last_some lo hi m k v : kv_sorted m -> kv_last lo hi m = Some (k, v) ->
    kv_get k m = Some v /\ in_range lo hi k = true /\
    forall k' v', kv_get k' m = Some v' -> in_range lo hi k' = true -> lex k' k <> Gt.
  Proof.
    intros Hs. unfold kv_last.
    assert (Hss : kv_sorted (kv_scan lo hi m)) by (apply kv_filter_sorted; auto).
    destruct (rev (kv_scan lo hi m)) as [|e r] eqn:E; [discriminate|].
    intros Hk. injection Hk as ->.
    assert (Eq : kv_scan lo hi m = rev r ++ [(k, v)]).
    { rewrite <- (rev_involutive (kv_scan lo hi m)), E. reflexivity. }
    assert (Hin : In (k, v) (kv_scan lo hi m)) by (rewrite Eq; apply in_or_app; right; left; auto).
    apply kv_in_scan in Hin as [Hg Hr]; auto. split; auto. split; auto.
    intros k' v' Hg' Hr'. assert (Hin' : In (k', v') (kv_scan lo hi m)) by (apply kv_in_scan; auto).
    rewrite Eq in Hin', Hss. apply in_app_or in Hin' as [Hin'|[Hin'|[]]].
    - pose proof (kv_sorted_app_inv _ _ Hss _ (k, v) Hin' (or_introl eq_refl)) as H1.
      cbn [fst] in H1. rewrite H1. discriminate.
    - injection Hin' as -> ->. rewrite lex_refl. discriminate.
  Qed.

  Lemma kv_last_none lo hi m : kv_sorted m -> kv_last lo hi m = None ->
    forall k v, kv_get k m = Some v -> in_range lo hi k = false.
  Proof.
    intros Hs Hn k v Hg. destruct (in_range lo hi k) eqn:E; auto.
    assert (Hin : In (k, v) (kv_scan lo hi m)) by (apply kv_in_scan; auto).
    unfold kv_last in Hn. destruct (rev (kv_scan lo hi m)) eqn:Er; [|discriminate].
    apply in_rev in Hin. rewrite Er in Hin. destruct Hin.
  Qed.
End KV.
Arguments kv : clear implicits.
