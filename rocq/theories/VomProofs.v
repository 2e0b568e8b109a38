From Verif Require Import VomModel.
From Coq Require Import Sorting.Sorted Permutation ZArith ZifyNat ZifyBool.

Section Proofs.
  Context {K V : Type} (kcmp : K -> K -> comparison) (vcmp : V -> V -> comparison).
  Context (TK : total_order kcmp) (TV : total_order vcmp).
  Notation ecmp := (vm_cmp kcmp vcmp).
  Notation elt := (vm_lt kcmp vcmp).
  Notation keqb := (k_eqb kcmp).

  Lemma keqb_spec a b : reflect (a = b) (keqb a b).
  Proof.
    unfold k_eqb. destruct (kcmp a b) eqn:E; constructor.
    - now apply (to_eq _ TK).
    - intros ->. rewrite (proj2 (to_eq _ TK b b) eq_refl) in E. discriminate.
    - intros ->. rewrite (proj2 (to_eq _ TK b b) eq_refl) in E. discriminate.
  Qed.

  Lemma ecmp_total : total_order ecmp.
  Proof.
    unfold vm_cmp. split.
    - intros [k v] [k' v']; cbn [fst snd]. split.
      + destruct (vcmp v v') eqn:E; try discriminate. intros E2. apply (to_eq _ TV) in E. apply (to_eq _ TK) in E2. congruence.
      + intros E; injection E as -> ->. rewrite (proj2 (to_eq _ TV v' v') eq_refl). now apply (to_eq _ TK).
    - intros [k v] [k' v']; cbn [fst snd]. rewrite (to_antisym _ TV v v'). destruct (vcmp v v'); cbn [CompOpp]; auto. apply (to_antisym _ TK).
    - intros [k v] [k' v'] [k2 v2]; cbn [fst snd].
      destruct (vcmp v v') eqn:E1; try discriminate; destruct (vcmp v' v2) eqn:E2; try discriminate; intros H1 H2.
      + apply (to_eq _ TV) in E1, E2. subst. rewrite (proj2 (to_eq _ TV v2 v2) eq_refl). eapply (to_trans _ TK); eauto.
      + apply (to_eq _ TV) in E1. subst. now rewrite E2.
      + apply (to_eq _ TV) in E2. subst. now rewrite E1.
      + now rewrite (to_trans _ TV _ _ _ E1 E2).
  Qed.
  Lemma elt_irrefl a : elt a a = false.
  Proof. unfold vm_lt. now rewrite (proj2 (to_eq _ ecmp_total a a) eq_refl). Qed.
  Lemma elt_trans a b c : elt a b = true -> elt b c = true -> elt a c = true.
  Proof.
    unfold vm_lt. destruct (ecmp a b) eqn:E1; try discriminate. destruct (ecmp b c) eqn:E2; try discriminate.
    now rewrite (to_trans _ ecmp_total _ _ _ E1 E2).
  Qed.
  Lemma elt_total a b : a <> b -> elt a b = negb (elt b a).
  Proof.
    intros H. unfold vm_lt. rewrite (to_antisym _ ecmp_total a b). destruct (ecmp a b) eqn:E; auto.
    exfalso. apply H. now apply (to_eq _ ecmp_total).
  Qed.
  Lemma elt_asym a b : elt a b = true -> elt b a = false.
  Proof. intros H. destruct (elt b a) eqn:E; auto. pose proof (elt_trans _ _ _ H E) as X. now rewrite elt_irrefl in X. Qed.

  Definition srt (l : list (K * V)) : Prop := StronglySorted (fun a b => elt a b = true) l.

  Lemma srt_app l1 l2 : srt (l1 ++ l2) <-> srt l1 /\ srt l2 /\ forall a b, In a l1 -> In b l2 -> elt a b = true.
  Proof.
    unfold srt. induction l1 as [|x l1 IH]; cbn [app].
    - split; [intros H; split; [constructor|split; [exact H|intros a b []]]|tauto].
    - split.
      + intros H. inversion H as [|? ? H1 H2]; subst. apply IH in H1 as (A & B & C). rewrite Forall_app in H2. destruct H2 as [H2 H3].
        split; [now constructor|split; [exact B|]]. intros a b [<-|Ha] Hb; auto. rewrite Forall_forall in H3. auto.
      + intros (A & B & C). inversion A as [|? ? H1 H2]; subst. constructor.
        * apply IH. split; [exact H1|split; [exact B|]]. intros a b Ha Hb. apply C; [now right|auto].
        * rewrite Forall_app. split; auto. rewrite Forall_forall. intros b Hb. apply C; [now left|auto].
  Qed.

  (** on a sorted list the smaller entries are a prefix *)
  Lemma split_at x l : srt l -> l = filter (fun e => elt e x) l ++ filter (fun e => negb (elt e x)) l.
  Proof.
    induction 1 as [|y l Hs IH Hf]; cbn [filter]; auto.
    destruct (elt y x) eqn:E; cbn [negb app].
    - now f_equal.
    - replace (filter (fun e => elt e x) l) with (@nil (K * V)).
      + cbn [app]. f_equal. rewrite IH at 1. replace (filter (fun e => elt e x) l) with (@nil (K * V)); auto.
        symmetry. clear IH. induction l as [|z l IH]; cbn [filter]; auto. inversion Hf as [|? ? H1 H2]; subst. inversion Hs; subst.
        destruct (elt z x) eqn:E2; auto. now rewrite (elt_trans _ _ _ H1 E2) in E.
      + symmetry. clear IH. induction l as [|z l IH]; cbn [filter]; auto. inversion Hf as [|? ? H1 H2]; subst. inversion Hs; subst.
        destruct (elt z x) eqn:E2; auto. now rewrite (elt_trans _ _ _ H1 E2) in E.
  Qed.
  Lemma firstn_search x l : srt l -> firstn (search kcmp vcmp x l) l = filter (fun e => elt e x) l /\
    skipn (search kcmp vcmp x l) l = filter (fun e => negb (elt e x)) l.
  Proof.
    intros H. unfold search. pose proof (split_at x l H) as E. set (a := filter (fun e => elt e x) l) in *.
    set (b := filter (fun e => negb (elt e x)) l) in *. rewrite E.
    rewrite firstn_app, firstn_all, Nat.sub_diag, firstn_O, app_nil_r. split; auto.
    now rewrite skipn_app, skipn_all, Nat.sub_diag, skipn_O.
  Qed.
  Lemma insert_search x l : srt l -> (forall y, In y l -> y <> x) ->
    srt (insert_at (search kcmp vcmp x l) x l) /\ Permutation (insert_at (search kcmp vcmp x l) x l) (x :: l).
  Proof.
    intros H Hne. unfold insert_at. destruct (firstn_search x l H) as [-> ->].
    pose proof (split_at x l H) as E. split.
    - pose proof H as H'. rewrite E in H'. apply srt_app in H' as (A & B & C). apply srt_app. split; auto. split.
      + constructor; auto. rewrite Forall_forall. intros y Hy. apply filter_In in Hy as [Hy Hl].
        rewrite elt_total; auto. intros ->. now apply (Hne y).
      + intros a b Ha [<-|Hb]; auto. apply filter_In in Ha. tauto.
    - rewrite <- Permutation_middle. constructor. rewrite <- E. reflexivity.
  Qed.

  Lemma index_of_some k (l : list (K * V)) i v : index_of kcmp k l = Some (i, v) ->
    exists l1 l2, l = l1 ++ (k, v) :: l2 /\ length l1 = i /\ ~ In k (map fst l1).
  Proof.
    revert i. induction l as [|[k' v'] l IH]; intros i; cbn [index_of]; [discriminate|].
    destruct (keqb_spec k k') as [<-|Hn].
    - intros E; injection E as <- <-. exists [], l. repeat split; auto.
    - destruct (index_of kcmp k l) as [[j w]|]; [|discriminate]. intros E; injection E as <- ->.
      destruct (IH j eq_refl) as (l1 & l2 & -> & <- & Hni). exists ((k', v') :: l1), l2. repeat split; auto. cbn. intros [->|H]; auto.
  Qed.
  Lemma index_of_none k (l : list (K * V)) : index_of kcmp k l = None <-> ~ In k (map fst l).
  Proof.
    induction l as [|[k' v'] l IH]; cbn [index_of map fst In]; [tauto|].
    destruct (keqb_spec k k') as [<-|Hn]; [split; [discriminate|tauto]|].
    destruct (index_of kcmp k l) as [[j w]|] eqn:E.
    - split; [discriminate|]. intros H. exfalso. apply H. right. apply index_of_some in E as (l1 & l2 & -> & _). rewrite map_app, in_app_iff. right. now left.
    - split; [|reflexivity]. intros _ [->|H1]; [congruence|]. now apply (proj1 IH).
  Qed.
  Lemma remove_at_app {A} (l1 l2 : list A) x : remove_at (length l1) (l1 ++ x :: l2) = l1 ++ l2.
  Proof.
    unfold remove_at. rewrite firstn_app, firstn_all, Nat.sub_diag, firstn_O, app_nil_r. f_equal.
    rewrite skipn_app. rewrite skipn_all2 by lia. replace (S (length l1) - length l1) with 1 by lia. reflexivity.
  Qed.
  Lemma srt_remove l1 x l2 : srt (l1 ++ x :: l2) -> srt (l1 ++ l2).
  Proof.
    intros H. apply srt_app in H as (A & B & C). inversion B; subst. apply srt_app. split; [exact A|split; [assumption|]]. intros; apply C; [auto|now right].
  Qed.

  (** the invariant *)
  Record vm_ok (m : vom K V) : Prop := {
    vo_sorted : srt (vm_inner m);
    vo_keys : NoDup (map fst (vm_inner m));
    vo_len : length (vm_inner m) <= vm_max m }.

  Lemma vm_get_spec k (m : vom K V) v : NoDup (map fst (vm_inner m)) -> vm_get kcmp k m = Some v <-> In (k, v) (vm_inner m).
  Proof.
    intros Hn. unfold vm_get. destruct (index_of kcmp k (vm_inner m)) as [[i w]|] eqn:E.
    - apply index_of_some in E as (l1 & l2 & E & _ & Hni). split.
      + intros X; injection X as ->. rewrite E. apply in_elt.
      + rewrite E. intros H. apply in_app_or in H as [H|[H|H]].
        * exfalso. apply Hni. now apply (in_map fst) in H.
        * now injection H as ->.
        * exfalso. rewrite E, map_app in Hn. cbn [map fst] in Hn. apply NoDup_remove_2 in Hn. apply Hn. apply in_or_app. right. now apply (in_map fst) in H.
    - apply index_of_none in E. split; [discriminate|]. intros H. exfalso. apply E. now apply (in_map fst) in H.
  Qed.

  (** the search position after removing an entry *)
  Lemma search_remove x l1 y l2 : search kcmp vcmp x (l1 ++ y :: l2) = search kcmp vcmp x (l1 ++ l2) + (if elt y x then 1 else 0).
  Proof. unfold search. rewrite !filter_app. cbn [filter]. destruct (elt y x); rewrite !app_length; cbn [length]; lia. Qed.
  Lemma search_index x l1 y l2 : srt (l1 ++ y :: l2) -> (length l1 <? search kcmp vcmp x (l1 ++ y :: l2)) = elt y x.
  Proof.
    intros H. unfold search. rewrite filter_app. cbn [filter]. rewrite app_length.
    apply srt_app in H as (A & B & C).
    destruct (elt y x) eqn:E.
    - replace (filter (fun e => elt e x) l1) with l1. { cbn [length]. lia. }
      symmetry. clear A B. induction l1 as [|z l1 IH]; cbn [filter]; auto.
      rewrite (elt_trans z y x); auto; [|apply C; left; reflexivity]. f_equal. apply IH. intros; apply C; auto. now right.
    - replace (filter (fun e => elt e x) l2) with (@nil (K * V)).
      + cbn [length]. assert (length (filter (fun e => elt e x) l1) <= length l1).
        { clear. induction l1; cbn; auto. destruct (elt a x); cbn; lia. } lia.
      + symmetry. inversion B as [|? ? B1 B2]; subst. clear - B2 E TK TV. induction l2 as [|z l2 IH]; cbn [filter]; auto. inversion B2; subst.
        destruct (elt z x) eqn:E2; auto. now rewrite (elt_trans _ _ _ H1 E2) in E.
  Qed.

  Lemma get_perm (m1 m2 : vom K V) x : NoDup (map fst (vm_inner m1)) -> NoDup (map fst (vm_inner m2)) ->
    (forall v, In (x, v) (vm_inner m1) <-> In (x, v) (vm_inner m2)) -> vm_get kcmp x m1 = vm_get kcmp x m2.
  Proof.
    intros H1 H2 H. destruct (vm_get kcmp x m1) as [v|] eqn:E1.
    - apply vm_get_spec in E1; auto. apply H in E1. symmetry. now apply vm_get_spec.
    - destruct (vm_get kcmp x m2) as [v|] eqn:E2; auto. apply vm_get_spec in E2; auto. apply H in E2. apply vm_get_spec in E2; auto. congruence.
  Qed.

  (** specification of one upsert *)
  Definition up_spec (k : K) (v : V) (upd : V -> V -> bool) (m m' : vom K V) (r : upres K V) : Prop :=
    match r with
    | OkInserted => vm_get kcmp k m = None /\ length (vm_inner m) < vm_max m /\
        forall x, vm_get kcmp x m' = if keqb x k then Some v else vm_get kcmp x m
    | OkUpdated old => vm_get kcmp k m = Some old /\ upd v old = true /\
        forall x, vm_get kcmp x m' = if keqb x k then Some v else vm_get kcmp x m
    | OkEvicted k0 v0 => vm_get kcmp k m = None /\ length (vm_inner m) = vm_max m /\
        vm_get kcmp k0 m = Some v0 /\ elt (k0, v0) (k, v) = true /\
        (forall x w, vm_get kcmp x m = Some w -> (x, w) = (k0, v0) \/ elt (k0, v0) (x, w) = true) /\
        forall x, vm_get kcmp x m' = if keqb x k then Some v else if keqb x k0 then None else vm_get kcmp x m
    | ErrRejected => (exists old, vm_get kcmp k m = Some old /\ upd v old = false) /\ m' = m
    | ErrTooLow => vm_get kcmp k m = None /\ length (vm_inner m) = vm_max m /\
        (forall x w, vm_get kcmp x m = Some w -> elt (k, v) (x, w) = true) /\ m' = m
    end.

  Lemma upsert_spec k v upd (m : vom K V) : vm_ok m ->
    let '(m', r) := upsert kcmp vcmp k v upd m in
    vm_ok m' /\ vm_max m' = vm_max m /\ up_spec k v upd m m' r.
  Proof.
    intros Hok. pose proof Hok as [Hs Hk Hl]. unfold upsert. set (l := vm_inner m) in *.
    destruct (index_of kcmp k l) as [[i old]|] eqn:Ei.
    - assert (Hg : vm_get kcmp k m = Some old) by (unfold vm_get; fold l; now rewrite Ei).
      destruct (upd v old) eqn:Eu; cbn [negb]; [|split; auto; split; auto; cbn [up_spec]; eauto].
      apply index_of_some in Ei as (l1 & l2 & El & Hi & Hni).
      assert (Hpos : (if i <? search kcmp vcmp (k, v) l then search kcmp vcmp (k, v) l - 1 else search kcmp vcmp (k, v) l) = search kcmp vcmp (k, v) (l1 ++ l2)).
      { rewrite El, <- Hi, search_index by (rewrite <- El; auto). rewrite search_remove. destruct (elt (k, old) (k, v)); lia. }
      rewrite Hpos. unfold replace_move. rewrite El, <- Hi, remove_at_app.
      assert (Hk2 : NoDup (map fst (l1 ++ l2)) /\ ~ In k (map fst (l1 ++ l2))).
      { rewrite El, map_app in Hk. cbn [map fst] in Hk. rewrite map_app. split; [eapply NoDup_remove_1; eauto|eapply NoDup_remove_2; eauto]. }
      destruct Hk2 as [Hk2 Hk3].
      destruct (insert_search (k, v) (l1 ++ l2)) as [S1 P1].
      { rewrite El in Hs. eapply srt_remove; eauto. }
      { intros y Hy ->. apply Hk3. now apply (in_map fst) in Hy. }
      set (l' := insert_at _ _ _) in *.
      assert (Hk' : NoDup (map fst l')). { eapply Permutation_NoDup; [symmetry; apply Permutation_map; exact P1|]. cbn [map fst]. now constructor. }
      split; [|split; [reflexivity|]].
      + split; cbn [vm_inner vm_max]; auto. rewrite (Permutation_length P1). rewrite El in Hl. rewrite app_length in *. cbn [length] in *. rewrite app_length. lia.
      + cbn [up_spec]. split; auto. split; auto. intros x. destruct (keqb_spec x k) as [->|Hx].
        * apply vm_get_spec; auto. cbn [vm_inner]. eapply Permutation_in; [symmetry; exact P1|now left].
        * apply get_perm; auto. cbn [vm_inner]. fold l. intros w. rewrite El. split; intros H.
          -- apply (Permutation_in _ P1) in H as [H|H]; [congruence|]. apply in_app_or in H as [H|H]; apply in_or_app; [auto|right; now right].
          -- eapply Permutation_in; [symmetry; exact P1|]. right. apply in_app_or in H as [H|[H|H]]; [|congruence|]; apply in_or_app; auto.
    - assert (Hg : vm_get kcmp k m = None) by (unfold vm_get; fold l; now rewrite Ei).
      apply index_of_none in Ei.
      assert (Hne : forall y, In y l -> y <> (k, v)) by (intros y Hy ->; apply Ei; now apply (in_map fst) in Hy).
      destruct (vm_max m <=? length l) eqn:Ef; cbn [andb].
      + assert (Hlen : length l = vm_max m) by lia.
        destruct (search kcmp vcmp (k, v) l =? 0) eqn:Ep.
        * split; auto. split; auto. cbn [up_spec]. split; auto. split; auto. split; auto.
          intros x w Hx. apply vm_get_spec in Hx; auto. fold l in Hx. unfold search in Ep.
          rewrite elt_total; [|intros X; symmetry in X; revert X; apply Hne; auto]. destruct (elt (x, w) (k, v)) eqn:E; auto. exfalso.
          assert (H : In (x, w) (filter (fun e => elt e (k, v)) l)) by (apply filter_In; auto).
          destruct (filter _ l); [destruct H|cbn in Ep; lia].
        * destruct l as [|[k0 v0] l2] eqn:El; [cbn in Ep; lia|].
          assert (E0 : elt (k0, v0) (k, v) = true).
          { destruct (elt (k0, v0) (k, v)) eqn:E; auto. pose proof (search_index (k, v) [] (k0, v0) l2) as X. cbn [app length] in X. rewrite E in X. specialize (X Hs). lia. }
          unfold replace_move. change (remove_at 0 ((k0, v0) :: l2)) with l2.
          assert (Hp : search kcmp vcmp (k, v) ((k0, v0) :: l2) - 1 = search kcmp vcmp (k, v) l2).
          { pose proof (search_remove (k, v) [] (k0, v0) l2) as X. cbn [app] in X. rewrite X, E0. lia. }
          rewrite Hp. inversion Hs as [|? ? Hs2 Hf]; subst. cbn [map fst] in Hk. inversion Hk as [|? ? Hk0 Hk2]; subst.
          destruct (insert_search (k, v) l2 Hs2) as [S1 P1]. { intros y Hy. apply Hne. now right. }
          set (l' := insert_at _ _ _) in *.
          assert (Hk' : NoDup (map fst l')).
          { eapply Permutation_NoDup; [symmetry; apply Permutation_map; exact P1|]. cbn [map fst]. constructor; auto. intros X. apply Ei. now right. }
          assert (Hkm : NoDup (map fst (vm_inner m))). { unfold l in El. rewrite El. exact Hk. }
          assert (Hin : forall x w, vm_get kcmp x m = Some w <-> In (x, w) ((k0, v0) :: l2)).
          { intros x w. rewrite vm_get_spec by auto. unfold l in El. now rewrite El. }
          split; [|split; [reflexivity|]].
          -- split; cbn [vm_inner vm_max]; auto. rewrite (Permutation_length P1). cbn [length] in *. lia.
          -- cbn [up_spec]. split; auto. split; [unfold l in El; now rewrite El|]. split; [apply Hin; now left|]. split; auto. split.
             ++ intros x w Hx. apply Hin in Hx as [Hx|Hx]; auto. right. rewrite Forall_forall in Hf. auto.
             ++ intros x. destruct (keqb_spec x k) as [->|Hx].
                ** apply vm_get_spec; auto. cbn [vm_inner]. eapply Permutation_in; [symmetry; exact P1|now left].
                ** destruct (keqb_spec x k0) as [->|Hx0].
                   --- destruct (vm_get kcmp k0 _) as [w|] eqn:E; auto. apply vm_get_spec in E; auto. cbn [vm_inner] in E.
                       apply (Permutation_in _ P1) in E as [E|E]; [congruence|]. exfalso. apply Hk0. now apply (in_map fst) in E.
                   --- apply get_perm; auto. cbn [vm_inner]. intros w. unfold l in El. rewrite El. split; intros H.
                       +++ apply (Permutation_in _ P1) in H as [H|H]; [congruence|now right].
                       +++ destruct H as [H|H]; [congruence|]. eapply Permutation_in; [symmetry; exact P1|now right].
      + destruct (insert_search (k, v) l Hs Hne) as [S1 P1]. set (l' := insert_at _ _ _) in *.
        assert (Hk' : NoDup (map fst l')). { eapply Permutation_NoDup; [symmetry; apply Permutation_map; exact P1|]. cbn [map fst]. now constructor. }
        split; [|split; [reflexivity|]].
        * split; cbn [vm_inner vm_max]; auto. rewrite (Permutation_length P1). cbn [length]. lia.
        * cbn [up_spec]. split; auto. split; [fold l; lia|]. intros x. destruct (keqb_spec x k) as [->|Hx].
          -- apply vm_get_spec; auto. cbn [vm_inner]. eapply Permutation_in; [symmetry; exact P1|now left].
          -- apply get_perm; auto. cbn [vm_inner]. fold l. intros w. split; intros H.
             ++ apply (Permutation_in _ P1) in H as [H|H]; [congruence|auto].
             ++ eapply Permutation_in; [symmetry; exact P1|now right].
  Qed.

  Lemma remove_spec k (m : vom K V) : vm_ok m -> let '(m', r) := vm_remove kcmp k m in
    vm_ok m' /\ vm_max m' = vm_max m /\ r = vm_get kcmp k m /\ forall x, vm_get kcmp x m' = if keqb x k then None else vm_get kcmp x m.
  Proof.
    intros Hok. pose proof Hok as [Hs Hk Hl]. unfold vm_remove. destruct (index_of kcmp k (vm_inner m)) as [[i v]|] eqn:Ei.
    - assert (Hg : vm_get kcmp k m = Some v) by (unfold vm_get; now rewrite Ei).
      apply index_of_some in Ei as (l1 & l2 & El & Hi & Hni). rewrite El, <- Hi, remove_at_app.
      rewrite El in *. rewrite map_app in Hk. cbn [map fst] in Hk.
      pose proof (NoDup_remove_1 _ _ _ Hk) as Hk1. pose proof (NoDup_remove_2 _ _ _ Hk) as Hk2. rewrite <- map_app in Hk1, Hk2.
      split; [|split; [reflexivity|split; [auto|]]].
      + split; cbn [vm_inner vm_max]; auto. { eapply srt_remove; eauto. } rewrite app_length in *. cbn [length] in *. lia.
      + intros x. destruct (keqb_spec x k) as [->|Hx].
        * destruct (vm_get kcmp k (VOM (l1 ++ l2) (vm_max m))) as [w|] eqn:E; auto. apply vm_get_spec in E; auto. exfalso. apply Hk2. cbn [vm_inner] in E. apply (in_map fst) in E. exact E.
        * apply get_perm; auto. { rewrite El, map_app. exact Hk. } cbn [vm_inner]. rewrite El. intros w. rewrite !in_app_iff. cbn [In]. split; [tauto|].
          intros [H|[H|H]]; auto. congruence.
    - split; auto. split; auto. split. { unfold vm_get. now rewrite Ei. }
      intros x. destruct (keqb_spec x k) as [->|Hx]; auto. unfold vm_get. now rewrite Ei.
  Qed.

  Lemma max_spec (m : vom K V) : vm_ok m -> match vm_maxe m with
    | None => forall x, vm_get kcmp x m = None
    | Some (k, v) => vm_get kcmp k m = Some v /\ forall x w, vm_get kcmp x m = Some w -> (x, w) = (k, v) \/ elt (x, w) (k, v) = true
    end.
  Proof.
    intros [Hs Hk Hl]. unfold vm_maxe. destruct (rev (vm_inner m)) as [|[k v] r] eqn:E.
    - assert (vm_inner m = []) as El. { rewrite <- (rev_involutive (vm_inner m)), E. reflexivity. }
      intros x. unfold vm_get. now rewrite El.
    - assert (El : vm_inner m = rev r ++ [(k, v)]). { rewrite <- (rev_involutive (vm_inner m)), E. reflexivity. }
      split. { apply vm_get_spec; auto. rewrite El. apply in_or_app. right. now left. }
      intros x w Hx. apply vm_get_spec in Hx; auto. rewrite El in *. apply srt_app in Hs as (_ & _ & C).
      apply in_app_or in Hx as [Hx|[Hx|[]]]; auto. right. apply C; auto. now left.
  Qed.

  (** from_iter *)
  Lemma ins_perm x l : Permutation (ins kcmp vcmp x l) (x :: l).
  Proof. induction l as [|y l IH]; cbn [ins]; auto. destruct (elt x y); auto. rewrite IH. apply perm_swap. Qed.
  Lemma ins_sorted x l : srt l -> (forall y, In y l -> y <> x) -> srt (ins kcmp vcmp x l).
  Proof.
    induction 1 as [|y l Hs IH Hf]; intros Hne; cbn [ins]; [repeat constructor|]. destruct (elt x y) eqn:E.
    - constructor; [constructor; auto|]. constructor; auto. rewrite Forall_forall in *. intros z Hz. eapply elt_trans; eauto.
    - constructor; [apply IH; intros; apply Hne; now right|]. rewrite Forall_forall in *. intros z Hz.
      apply (Permutation_in _ (ins_perm x l)) in Hz as [<-|Hz]; auto. rewrite elt_total, E; auto. apply Hne. now left.
  Qed.
  Fixpoint last_value (x : K) (l : list (K * V)) : option V :=
    match l with
    | [] => None
    | (k, v) :: r => match last_value x r with Some w => Some w | None => if keqb x k then Some v else None end
    end.
  Lemma im_put_keys k v (l : list (K * V)) : NoDup (map fst l) -> NoDup (map fst (im_put kcmp k v l)) /\
    (forall x w, In (x, w) (im_put kcmp k v l) <-> (x = k /\ w = v) \/ (x <> k /\ In (x, w) l)).
  Proof.
    induction l as [|[k' v'] l IH]; cbn [im_put map fst].
    - intros _. split; [repeat constructor; auto|]. intros x w. cbn. split; [intros [E|[]]; injection E as -> ->; auto|intros [[-> ->]|[_ []]]; auto].
    - intros H. inversion H as [|? ? H1 H2]; subst. destruct (keqb_spec k k') as [<-|Hn]; cbn [map fst].
      + split; [constructor; auto|]. intros x w. cbn [In]. split.
        * intros [E|Hx]; [injection E as -> ->; auto|]. right. split; [intros ->; apply H1; now apply (in_map fst) in Hx|auto].
        * intros [[-> ->]|[Hx [E|Hi]]]; auto. injection E as -> ->. congruence.
      + destruct (IH H2) as [A B]. split.
        * constructor; auto. intros X. apply in_map_iff in X as ([x w] & E & X). cbn in E. subst x. apply B in X as [[X _]|[_ X]]; [congruence|]. apply H1. now apply (in_map fst) in X.
        * intros x w. cbn [In]. rewrite B. split.
          -- intros [E|[H0|[H0 H3]]]; auto. injection E as <- <-. right. auto.
          -- intros [[-> ->]|[H0 [H3|H3]]]; auto.
  Qed.
  Lemma im_fold (l : list (K * V)) : forall acc, NoDup (map fst acc) ->
    let r := fold_left (fun acc e => im_put kcmp (fst e) (snd e) acc) l acc in
    NoDup (map fst r) /\ forall x w, In (x, w) r <-> last_value x l = Some w \/ (last_value x l = None /\ In (x, w) acc).
  Proof.
    induction l as [|[k v] l IH]; intros acc Hn; cbn [fold_left last_value fst snd].
    - split; auto. intros x w. split; [auto|intros [H|[_ H]]; [discriminate|auto]].
    - destruct (im_put_keys k v acc Hn) as [A B]. destruct (IH _ A) as [C D]. split; auto. intros x w. rewrite D, B.
      destruct (last_value x l) as [w'|] eqn:E. { split; intros [H|[H _]]; auto; discriminate. }
      destruct (keqb_spec x k) as [->|Hx].
      + split.
        * intros [H|[_ [[_ ->]|[H _]]]]; auto; [discriminate|congruence].
        * intros [H|[H _]]; [|discriminate]. injection H as <-. auto.
      + split.
        * intros [H|[_ [[H _]|[_ H]]]]; [discriminate|congruence|auto].
        * intros [H|[_ H]]; [discriminate|]. auto.
  Qed.
  Lemma from_iter_spec l : let m := vm_from_iter kcmp vcmp l in
    vm_ok m /\ vm_max m = length (vm_inner m) /\ forall x, vm_get kcmp x m = last_value x l.
  Proof.
    cbv zeta. unfold vm_from_iter. destruct (im_fold l [] ltac:(constructor)) as [A B]. cbv zeta in A, B.
    set (inner := fold_left _ l []) in *.
    assert (P : Permutation (fold_right (ins kcmp vcmp) [] inner) inner).
    { clear. induction inner as [|x r IH]; cbn [fold_right]; auto. rewrite ins_perm. now constructor. }
    assert (S : srt (fold_right (ins kcmp vcmp) [] inner)).
    { clear B P. induction inner as [|x r IH]; cbn [fold_right]; [constructor|]. cbn [map] in A. inversion A; subst. apply ins_sorted; auto.
      intros y Hy ->. apply H1. apply in_map. clear - Hy.
      assert (P : Permutation (fold_right (ins kcmp vcmp) [] r) r). { clear. induction r as [|x r IH]; cbn [fold_right]; auto. rewrite ins_perm. now constructor. }
      eapply Permutation_in; eauto. }
    assert (Hk : NoDup (map fst (fold_right (ins kcmp vcmp) [] inner))). { eapply Permutation_NoDup; [symmetry; apply Permutation_map; exact P|exact A]. }
    split; [|split].
    - split; cbn [vm_inner vm_max]; auto. now rewrite (Permutation_length P).
    - cbn [vm_inner vm_max]. now rewrite (Permutation_length P).
    - intros x. destruct (last_value x l) as [w|] eqn:E.
      + apply vm_get_spec; auto. cbn [vm_inner]. eapply Permutation_in; [symmetry; exact P|]. apply B. auto.
      + destruct (vm_get kcmp x _) as [w|] eqn:E2; auto. apply vm_get_spec in E2; auto. cbn [vm_inner] in E2.
        apply (Permutation_in _ P) in E2. apply B in E2 as [H|[_ []]]. congruence.
  Qed.
End Proofs.
