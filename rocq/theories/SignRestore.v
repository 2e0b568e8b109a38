(** * SignRestore: the restart of a location *)

From Coq Require Import List NArith Bool Lia Sorted Permutation.
From Coq Require Import ZArith ZifyN ZifyNat ZifyBool.
From Verif Require Import SignModel SignSpec SignProofs.
Import ListNotations.
Open Scope N_scope.

Lemma t_set_set : forall m d x y, t_set d x (t_set d y m) = t_set d x m.
Proof.
  induction m as [|[k q] m IH]; intros d x y; cbn.
  - now rewrite N.eqb_refl.
  - destruct (N.eqb_spec k d) as [->|NE]; cbn; [now rewrite N.eqb_refl|].
    destruct (N.eqb_spec k d); [contradiction|]. now rewrite IH.
Qed.

Lemma set_task_twice : forall d x y l, set_task d x (set_task d y l) = set_task d x l.
Proof. intros d x y l. unfold set_task, set_tasks. cbn. now rewrite t_set_set. Qed.

Lemma resolve_task : forall d a b c e t l,
  resolve d a b c (set_task e t l) = option_map (set_task e t) (resolve d a b c l).
Proof.
  intros d a b c e t l. unfold resolve. cbn [set_task set_tasks l_res].
  destruct b.
  - destruct (l_res l) as [[x g|x| ]|]; [| | |reflexivity].
    + destruct ((x =? d) && a); [|reflexivity]. destruct g; cbn [set_res set_task set_tasks l_val];
        (destruct (a && c); [destruct (l_val l) as [y|]; [destruct (y =? d)|]; reflexivity
                            |destruct (l_val l) as [y|]; [destruct (y =? d)|]; reflexivity]).
    + destruct ((x =? d) && negb a); [|reflexivity]. cbn [set_res set_task set_tasks l_val];
        (destruct (a && c); [destruct (l_val l) as [y|]; [destruct (y =? d)|]; reflexivity
                            |destruct (l_val l) as [y|]; [destruct (y =? d)|]; reflexivity]).
    + cbn [set_res set_task set_tasks l_val];
        (destruct (a && c); [destruct (l_val l) as [y|]; [destruct (y =? d)|]; reflexivity
                            |destruct (l_val l) as [y|]; [destruct (y =? d)|]; reflexivity]).
  - destruct (l_res l) as [[x g|x| ]|]; try (destruct (x =? d); [reflexivity|]); cbn [set_res set_task set_tasks l_val];
        (destruct (a && c); [destruct (l_val l) as [y|]; [destruct (y =? d)|]; reflexivity
                            |destruct (l_val l) as [y|]; [destruct (y =? d)|]; reflexivity]).
Qed.

Definition vkind (valid : bool) : verdict := if valid then mkV true KValid false else mkV false KInvalid false.

Lemma restore1_inv : forall rnd skew tm l d valid stored, inv rnd skew tm l ->
  t_get d (l_tasks l) = None ->
  (stored = true -> valid = true /\ l_res l = None) ->
  (valid = true -> l_res l <> None -> l_val l <> None) ->
  exists l1, restore1 d valid stored l = Some l1 /\ inv rnd skew tm (set_task d TDone l1) /\
    l_db l1 = l_db l /\ l_log l1 = l_log l /\ l_run l1 = l_run l /\ l_tasks l1 = l_tasks l /\
    l_res l1 <> None /\
    l_val l1 = match l_res l with None => if valid then Some d else None | Some _ => l_val l end.
Proof.
  intros rnd skew tm l d valid stored IV T ST VA.
  assert (NT : took l d = false /\ isval l d = false).
  { pose proof (i_task _ _ _ _ IV d) as X. rewrite T in X. exact X. }
  assert (FIN : forall l2 fr fv, inv rnd skew tm (set_task d (TStored (vkind valid) fr fv) l2) ->
     exists l1, resolve d valid fr fv l2 = Some l1 /\ inv rnd skew tm (set_task d TDone l1) /\
       l_val l1 = l_val l2 /\ l_db l1 = l_db l2 /\ l_log l1 = l_log l2 /\ l_run l1 = l_run l2 /\
       l_tasks l1 = l_tasks l2).
  { intros l2 fr fv I2. destruct (inv_resolve rnd skew tm _ d (vkind valid) fr fv I2) as (l3 & E & I3 & V & D & L & TT & RR).
    { unfold set_task, set_tasks. cbn. apply t_get_same. }
    assert (VV : v_valid (vkind valid) = valid) by now destruct valid. rewrite VV in E.
    rewrite resolve_task in E. destruct (resolve d valid fr fv l2) as [l1|] eqn:R; [|discriminate]. cbn in E. injection E as <-.
    exists l1. split; [reflexivity|]. rewrite set_task_twice in I3. split; [exact I3|].
    unfold set_task, set_tasks in V, D, L, RR. cbn in V, D, L, RR. repeat (split; [assumption|]).
    clear - R. unfold resolve in R. destruct fr.
    - destruct (l_res l2) as [[x g|x| ]|]; try discriminate.
      + destruct ((x =? d) && valid); [|discriminate]. destruct g; cbn in R;
          destruct (valid && fv), (l_val l2) as [y|]; try destruct (y =? d); try discriminate; injection R as <-; reflexivity.
      + destruct ((x =? d) && negb valid); [|discriminate].
          destruct (valid && fv), (l_val l2) as [y|]; try destruct (y =? d); try discriminate; injection R as <-; reflexivity.
      + destruct (valid && fv), (l_val l2) as [y|]; try destruct (y =? d); try discriminate; injection R as <-; reflexivity.
    - destruct (l_res l2) as [[x g|x| ]|]; try (destruct (x =? d); [discriminate|]);
          destruct (valid && fv), (l_val l2) as [y|]; try destruct (y =? d); try discriminate; injection R as <-; reflexivity. }
  assert (RES : forall l1, inv rnd skew tm (set_task d TDone l1) -> l_res l1 <> None).
  { intros l1 I1. pose proof (i_task _ _ _ _ I1 d) as X. unfold set_task, set_tasks in X. cbn [l_tasks] in X.
    rewrite t_get_same in X. cbn in X. tauto. }
  unfold restore1. destruct (l_res l) as [f|] eqn:R.
  - destruct stored; [destruct ST as [_ X]; [reflexivity|discriminate]|].
    replace (if valid && false then _ else Some (l, false)) with (Some (l, false)) by now destruct valid.
    destruct (FIN l false false) as (l1 & E & I1 & V & D & L & RR & TT).
    { apply inv_task; [exact IV|rewrite T; discriminate|discriminate|]. cbn.
      split; [now destruct valid|]. split; [rewrite R; discriminate|]. split; [tauto|]. split; [tauto|].
      split; [discriminate|]. split; [reflexivity|]. intros X. apply VA; [now destruct valid|discriminate]. }
    exists l1. rewrite E. repeat (split; [auto|]). exact V.
  - pose proof (i_none _ _ _ _ IV R) as V.
    destruct valid.
    + replace (if stored then _ else _) with (Some (set_val (Some d) (set_res (Some (FValid d GNone)) l), true)).
      2:{ cbn [andb set_res l_val]. rewrite V. now destruct stored. }
      destruct (FIN (set_val (Some d) (set_res (Some (FValid d GNone)) l)) true true) as (l1 & E & I1 & V1 & D & L & RR & TT).
      { apply (inv_take rnd skew tm l d (FValid d GNone)); auto; [discriminate|]. cbn. unfold took, isval. cbn.
        rewrite N.eqb_refl. repeat split; discriminate. }
      exists l1. rewrite E. repeat (split; [auto|]). exact V1.
    + destruct stored; [destruct ST as [X _]; [reflexivity|discriminate]|]. cbn [andb].
      destruct (FIN (set_res (Some (FNot d)) l) true false) as (l1 & E & I1 & V1 & D & L & RR & TT).
      { assert (X : set_res (Some (FNot d)) l = set_val None (set_res (Some (FNot d)) l)).
        { unfold set_val, set_res. cbn. now rewrite V. }
        rewrite X. apply (inv_take rnd skew tm l d (FNot d)); auto; [discriminate|]. cbn. unfold took, isval. cbn.
        rewrite N.eqb_refl. repeat split; discriminate. }
      exists l1. rewrite E. repeat (split; [auto|]). rewrite V1. exact V.
Qed.

Definition prio_ord (p q : N * srec) : Prop := restore_prio (snd q) <= restore_prio (snd p).

Lemma prio_valid : forall r, r_kind r = KValid -> 98 <= restore_prio r.
Proof. intros r E. unfold restore_prio. rewrite E. destruct (r_first r), (r_proof r); lia. Qed.
Lemma prio_other : forall r, r_kind r <> KValid -> restore_prio r <= 35.
Proof. intros r E. unfold restore_prio. destruct (r_kind r); try contradiction; destruct (r_proof r); lia. Qed.
Lemma prio_first : forall r, r_kind r = KValid -> r_first r = true -> 226 <= restore_prio r.
Proof. intros r E F. unfold restore_prio. rewrite E, F. destruct (r_proof r); lia. Qed.
Lemma prio_not_first : forall r, r_first r = false -> restore_prio r <= 99.
Proof. intros r F. unfold restore_prio. rewrite F. destruct (r_kind r), (r_proof r); lia. Qed.

Lemma skind_eq : forall a b : skind, {a = b} + {a <> b}.
Proof. decide equality. Defined.

Lemma restore_all_step : forall d r t l, r_kind r <> KFound -> restore_all ((d, r) :: t) l =
  match restore1 d (match r_kind r with KValid => true | _ => false end) (r_first r) l with
  | Some l1 => restore_all t (set_task d TDone l1)
  | None => None
  end.
Proof. intros d r t l N. cbn [restore_all]. destruct (r_kind r); try reflexivity; contradiction. Qed.

Lemma restore_all_inv : forall rnd skew tm items l, inv rnd skew tm l ->
  NoDup (keys items) -> (forall d, In d (keys items) -> t_get d (l_tasks l) = None) ->
  StronglySorted prio_ord items ->
  (forall p, In p items -> r_first (snd p) = true -> r_kind (snd p) = KValid /\ l_res l = None /\ exists t, items = p :: t) ->
  (l_res l <> None -> l_val l = None -> forall p, In p items -> r_kind (snd p) <> KValid) ->
  exists l', restore_all items l = Some l' /\ inv rnd skew tm l' /\
    l_db l' = l_db l /\ l_log l' = l_log l /\ l_run l' = l_run l /\
    (forall d, l_val l = Some d -> l_val l' = Some d) /\
    (forall d r t, items = (d, r) :: t -> l_res l = None -> r_kind r = KValid -> l_val l' = Some d) /\
    ((forall p, In p items -> r_kind (snd p) <> KValid) -> l_val l' = l_val l).
Proof.
  induction items as [|[d r] t IH]; intros l IV ND NT SS F Q.
  - exists l. split; [reflexivity|]. split; [exact IV|]. do 3 (split; [reflexivity|]).
    split; [auto|]. split; [intros; discriminate|auto].
  - inversion ND as [|? ? NI ND']; subst. inversion SS as [|? ? SS' LE]; subst. rewrite Forall_forall in LE.
    assert (TD : t_get d (l_tasks l) = None) by (apply NT; now left).
    assert (F1 : forall p, In p t -> r_first (snd p) = false).
    { intros p Hp. destruct (r_first (snd p)) eqn:E; [|reflexivity]. destruct (F p (or_intror Hp) E) as (_ & _ & t' & X).
      assert (Y : p = (d, r)) by congruence. subst p. destruct NI. apply (in_map fst _ _ Hp). }
    assert (NT' : forall l1, l_tasks l1 = l_tasks l -> forall x e, In e (keys t) -> t_get e (l_tasks (set_task d x l1)) = None).
    { intros l1 El x e He. unfold set_task, set_tasks. cbn. rewrite t_get_other by (intros ->; contradiction).
      rewrite El. apply NT. now right. }
    assert (GEN : r_kind r <> KFound -> exists l1, restore1 d (match r_kind r with KValid => true | _ => false end) (r_first r) l = Some l1 /\
       inv rnd skew tm (set_task d TDone l1) /\
    l_db l1 = l_db l /\ l_log l1 = l_log l /\ l_run l1 = l_run l /\ l_tasks l1 = l_tasks l /\ l_res l1 <> None /\
    l_val l1 = match l_res l with None => if (match r_kind r with KValid => true | _ => false end) then Some d else None | Some _ => l_val l end).
    { intros NF. apply restore1_inv; auto.
      - intros X. destruct (F (d, r) (or_introl eq_refl) X) as (K & R & _). cbn in K. rewrite K. auto.
      - intros X R V. destruct (r_kind r) eqn:K; try discriminate. apply (Q R V (d, r) (or_introl eq_refl)). exact K. }
    destruct (skind_eq (r_kind r) KFound) as [K|NF].
    { (* found *)
      cbn [restore_all]; rewrite K.
      assert (I1 : inv rnd skew tm (set_task d TWork l)).
      { apply inv_task; [exact IV|rewrite TD; discriminate|discriminate|].
        pose proof (i_task _ _ _ _ IV d) as X. rewrite TD in X. exact X. }
      assert (NF : r_first r = false).
      { destruct (r_first r) eqn:X; [|reflexivity]. destruct (F (d, r) (or_introl eq_refl) X) as (Y & _). cbn in Y. congruence. }
      assert (NV : forall p, In p t -> r_kind (snd p) <> KValid).
      { intros p Hp X. pose proof (LE p Hp) as O. unfold prio_ord in O. cbn [snd] in O. pose proof (prio_valid _ X).
        pose proof (prio_other r) as PO. rewrite K in PO. assert (PX : KFound <> KValid) by discriminate. specialize (PO PX). lia. }
      destruct (IH (set_task d TWork l)) as (l' & E' & I' & D' & L' & R' & V1 & V2 & V3);
        [exact I1|exact ND'|exact (NT' l eq_refl TWork)|exact SS'
        |intros p Hp X; rewrite (F1 p Hp) in X; discriminate|auto|].
      exists l'. split; [exact E'|]. split; [exact I'|].
      unfold set_task, set_tasks in D', L', R', V1, V3; cbn [l_db l_log l_run l_val] in D', L', R', V1, V3.
      split; [exact D'|]. split; [exact L'|]. split; [exact R'|]. split; [exact V1|].
      split; [intros e q u [= <- <- <-] _ X; congruence|]. intros X. apply V3. exact NV. }
    destruct (skind_eq (r_kind r) KValid) as [K|K].
    { (* valid *)
      destruct (GEN NF) as (l1 & E & I1 & D & L & RR & TT & RN & V).
      rewrite (restore_all_step _ _ _ _ NF), E. rewrite K in V.
      assert (VS : l_val l1 <> None).
      { rewrite V. destruct (l_res l) eqn:RL; [|discriminate]. intros X. apply (Q ltac:(discriminate) X (d, r) (or_introl eq_refl)). exact K. }
      destruct (IH (set_task d TDone l1)) as (l' & E' & I' & D' & L' & R' & V1 & V2 & V3);
        [exact I1|exact ND'|exact (NT' l1 TT TDone)|exact SS'
        |intros p Hp X; rewrite (F1 p Hp) in X; discriminate
        |intros _ VN; contradiction|].
      exists l'. split; [exact E'|]. split; [exact I'|].
      unfold set_task, set_tasks in D', L', R', V1, V3; cbn [l_db l_log l_run l_val] in D', L', R', V1, V3.
      split; [congruence|]. split; [congruence|]. split; [congruence|].
      split; [intros e Ee; apply V1; rewrite V; destruct (l_res l) eqn:RL; [exact Ee|]; pose proof (i_none _ _ _ _ IV RL); congruence|].
      split; [intros e q u [= <- <- <-] RL _; apply V1; rewrite V, RL; reflexivity|].
      intros X. destruct (X (d, r) (or_introl eq_refl)). exact K. }
    { (* neither *)
      destruct (GEN NF) as (l1 & E & I1 & D & L & RR & TT & RN & V).
      rewrite (restore_all_step _ _ _ _ NF), E.
      replace (match r_kind r with KValid => true | _ => false end) with false in V by (destruct (r_kind r); try reflexivity; contradiction).
      assert (NVX : forall p, In p t -> r_kind (snd p) <> KValid).
      { intros p Hp X. pose proof (LE p Hp) as O. unfold prio_ord in O. cbn [snd] in O. pose proof (prio_valid _ X).
        pose proof (prio_other r K). lia. }
      destruct (IH (set_task d TDone l1)) as (l' & E' & I' & D' & L' & R' & V1 & V2 & V3);
        [exact I1|exact ND'|exact (NT' l1 TT TDone)|exact SS'
        |intros p Hp X; rewrite (F1 p Hp) in X; discriminate
        |intros _ _; exact NVX|].
      exists l'. split; [exact E'|]. split; [exact I'|].
      unfold set_task, set_tasks in D', L', R', V1, V3; cbn [l_db l_log l_run l_val] in D', L', R', V1, V3.
      split; [congruence|]. split; [congruence|]. split; [congruence|].
      assert (VX : l_val l1 = l_val l) by (rewrite V; destruct (l_res l) eqn:RL; [reflexivity|symmetry; exact (i_none _ _ _ _ IV RL)]).
      split; [intros e Ee; apply V1; congruence|].
      split; [intros e q u [= <- <- <-] _ X; congruence|].
      intros X. rewrite (V3 NVX). exact VX. }
Qed.

(** ** The order of the items *)

Lemma insert_perm : forall p l, Permutation (p :: l) (insert_item p l).
Proof.
  intros p l. induction l as [|q t IH]; cbn; [reflexivity|].
  destruct (restore_prio (snd q) <? restore_prio (snd p)); [reflexivity|].
  rewrite perm_swap. now apply perm_skip.
Qed.

Lemma insert_sorted : forall p l, StronglySorted prio_ord l -> StronglySorted prio_ord (insert_item p l).
Proof.
  intros p l. induction l as [|q t IH]; intros S; cbn; [repeat constructor|].
  inversion S as [|? ? S' F]; subst.
  destruct (N.ltb_spec (restore_prio (snd q)) (restore_prio (snd p))) as [L|L].
  - constructor; [exact S|]. constructor; [unfold prio_ord; lia|]. rewrite Forall_forall in *. intros x Hx.
    specialize (F x Hx). unfold prio_ord in *. lia.
  - constructor; [now apply IH|]. rewrite Forall_forall in *. intros x Hx.
    apply (Permutation_in _ (Permutation_sym (insert_perm p t))) in Hx. destruct Hx as [<-|Hx]; [exact L|auto].
Qed.

Lemma restore_order_spec : forall l, Permutation l (restore_order l) /\ StronglySorted prio_ord (restore_order l).
Proof.
  intros l. unfold restore_order.
  assert (G : forall l acc, StronglySorted prio_ord acc ->
     Permutation (l ++ acc) (fold_left (fun a p => insert_item p a) l acc) /\
     StronglySorted prio_ord (fold_left (fun a p => insert_item p a) l acc)).
  { clear l. induction l as [|p t IH]; intros acc S; cbn; [split; [reflexivity|exact S]|].
    destruct (IH (insert_item p acc) (insert_sorted _ _ S)) as (P & S'). split; [|exact S'].
    rewrite <- P. rewrite <- insert_perm. apply Permutation_middle. }
  destruct (G l [] (SSorted_nil _)) as (P & S). rewrite app_nil_r in P. auto.
Qed.

(** ** The items *)

Lemma filter_split {A} : forall (f : A -> bool) l, Permutation l (filter f l ++ filter (fun x => negb (f x)) l).
Proof.
  intros f l. induction l as [|x t IH]; cbn; [reflexivity|]. destruct (f x); cbn.
  - now apply perm_skip.
  - rewrite <- Permutation_middle. now apply perm_skip.
Qed.

Lemma keys_filter_nodup : forall f (m : sdb), NoDup (keys m) -> NoDup (keys (filter f m)).
Proof.
  intros f m. induction m as [|[k q] m IH]; intros N; cbn; [exact N|]. inversion N as [|? ? NI N']; subst.
  destruct (f (k, q)); [|auto]. cbn. constructor; [|auto]. intros X. apply NI.
  unfold keys in X. apply in_map_iff in X. destruct X as (y & <- & Hy). apply filter_In in Hy. apply in_map. tauto.
Qed.

Lemma reverify_key : forall bad p, fst (reverify bad p) = fst p.
Proof. intros bad [d r]. cbn. now destruct (bad d). Qed.

Lemma reverify_kind : forall bad d r d' r', reverify bad (d, r) = (d', r') -> r_kind r = KFound ->
  r_first r = false -> d' = d /\ r_kind r' <> KValid /\ r_first r' = false.
Proof.
  intros bad d r d' r' E K F. cbn in E. destruct (bad d); injection E as <- <-; cbn; [repeat split; discriminate|].
  rewrite K. repeat split; [discriminate|exact F].
Qed.

Lemma restore_items_nodup : forall bad m, NoDup (keys m) -> NoDup (keys (restore_items bad m)).
Proof.
  intros bad m N. unfold restore_items.
  set (l := filter (fun p => restorable (snd p)) m).
  assert (NL : NoDup (keys l)) by now apply keys_filter_nodup.
  unfold keys. rewrite map_app, map_map.
  rewrite (map_ext (fun x => fst (reverify bad x)) fst) by (apply reverify_key).
  rewrite <- map_app. apply (Permutation_NoDup (l := map fst l)); [|exact NL].
  apply Permutation_map. apply filter_split.
Qed.

(** A valid record is kept as it is; every valid item is such a record. *)
Lemma restore_items_valid : forall bad m d r,
  (forall e q, In (e, q) m -> r_first q = true -> r_kind q = KValid) ->
  (r_kind r = KValid \/ r_first r = true) -> (In (d, r) (restore_items bad m) <-> In (d, r) m /\ r_kind r = KValid).
Proof.
  intros bad m d r KM K. unfold restore_items. rewrite in_app_iff, in_map_iff, filter_In, filter_In. cbn [snd]. split.
  - intros [([e q] & E & H)|[[H _] _]].
    + rewrite !filter_In in H. cbn [snd] in H. destruct H as [[H R] FQ].
      assert (KQ : r_kind q = KFound) by (unfold is_found in FQ; destruct (r_kind q); try discriminate; reflexivity).
      assert (FF : r_first q = false) by (destruct (r_first q) eqn:X; [rewrite (KM _ _ H X) in KQ; discriminate|reflexivity]).
      destruct (reverify_kind _ _ _ _ _ E KQ FF) as (_ & A & B). destruct K as [K|K]; congruence.
    + split; [exact H|]. destruct K as [K|K]; [exact K|eauto].
  - intros [H K']. right. unfold restorable, is_found. rewrite K'. auto.
Qed.

(** ** The reset *)

Definition reset1 (r : srec) : srec := if keep r then r else mkR KFound false (r_proof r) false.

Lemma db_reset_get : forall m d, db_get d (db_reset m) = option_map reset1 (db_get d m).
Proof.
  induction m as [|[k q] m IH]; intros d; cbn; [reflexivity|]. destruct (k =? d); [reflexivity|]. apply IH.
Qed.

Lemma db_reset_keys : forall m, keys (db_reset m) = keys m.
Proof. intros m. unfold keys, db_reset. rewrite map_map. apply map_ext. now intros [d r]. Qed.

Lemma reset1_first : forall r, (r_first r = true -> r_kind r = KValid) -> r_first (reset1 r) = r_first r.
Proof.
  intros r K. unfold reset1, keep. destruct (r_first r) eqn:F.
  - rewrite (K eq_refl). exact F.
  - destruct (r_kind r); auto. destruct (r_final r); auto.
Qed.

Lemma reset1_valid : forall r, r_kind (reset1 r) = KValid -> r_kind r = KValid /\ r_first r = true /\ reset1 r = r.
Proof.
  intros r. unfold reset1, keep. destruct (r_kind r) eqn:K; try discriminate; try (rewrite K; discriminate).
  - destruct (r_final r); [rewrite K|]; discriminate.
  - destruct (r_first r); [auto|discriminate].
Qed.

Definition restart_db (fix_ : bool) (m : sdb) : sdb := if fix_ then db_reset m else m.

Lemma sorted_nodup : forall l, StronglySorted N.lt l -> NoDup l.
Proof.
  induction l as [|x t IH]; intros S; [constructor|]. inversion S as [|? ? S' F]; subst. constructor; [|auto].
  intros X. rewrite Forall_forall in F. specialize (F x X). exact (N.lt_irrefl _ F).
Qed.

Lemma restart_db_first : forall f m d, (forall e q, db_get e m = Some q -> r_first q = true -> r_kind q = KValid) ->
  (forall r, db_get d (restart_db f m) = Some r -> r_first r = true -> db_get d m = Some r) /\
  (forall r, db_get d m = Some r -> r_first r = true -> db_get d (restart_db f m) = Some r).
Proof.
  intros f m d K. destruct f; cbn [restart_db]; [|auto]. rewrite db_reset_get. split.
  - intros r E F. destruct (db_get d m) as [q|] eqn:G; [|discriminate]. cbn in E. injection E as <-.
    rewrite (reset1_first q (K d q G)) in F. unfold reset1, keep. rewrite (K d q G F), F. reflexivity.
  - intros r E F. rewrite E. cbn. unfold reset1, keep. now rewrite (K d r E F), F.
Qed.

Lemma inv_fresh : forall rnd skew tm l m, inv rnd skew tm l -> dsorted m ->
  (forall d r, db_get d m = Some r -> r_first r = true -> r_kind r = KValid) ->
  inv rnd skew tm (mkL None None [] [] [] m (S (l_run l)) (l_log l)).
Proof.
  intros rnd skew tm l m IV SM KM.
  split; cbn [l_res l_val l_tasks l_calls l_thr l_db l_run l_log]; auto; try discriminate.
  - intros d. cbn. auto.
  - intros d. split; [|discriminate]. intros X. apply (i_runs _ _ _ _ IV) in X. lia.
  - intros n d X. apply (i_runs _ _ _ _ IV) in X. lia.
  - apply (i_nodup _ _ _ _ IV).
  - intros d. split; [intros []|intros [X _]; discriminate].
  - constructor.
  - intros c [].
Qed.

(** A restart never fails, keeps the invariant and the first valid point that is stored. *)
Lemma restart_inv : forall rnd skew tm f bad l, inv rnd skew tm l -> first_stored l ->
  exists l', restart f bad l = Some l' /\ inv rnd skew tm l' /\ first_stored l' /\
    l_log l' = l_log l /\ l_run l' = S (l_run l) /\ l_db l' = restart_db f (l_db l) /\
    ((forall d r, db_get d (l_db l') = Some r -> r_kind r <> KValid) -> l_val l' = None).
Proof.
  intros rnd skew tm f bad l IV FS. unfold restart. change (if f then db_reset (l_db l) else l_db l) with (restart_db f (l_db l)).
  set (m := restart_db f (l_db l)).
  pose proof (i_sort _ _ _ _ IV) as SD. pose proof (i_kind _ _ _ _ IV) as KD.
  assert (SM : dsorted m).
  { unfold dsorted, m, restart_db. destruct f; [rewrite db_reset_keys|]; exact SD. }
  pose proof (fun d => restart_db_first f (l_db l) d KD) as RF. fold m in RF.
  assert (KM : forall d r, db_get d m = Some r -> r_first r = true -> r_kind r = KValid).
  { intros d r E F. apply (KD d r); [apply (proj1 (RF d)); auto|exact F]. }
  assert (UM : forall d r e q, db_get d m = Some r -> r_first r = true -> db_get e m = Some q -> r_first q = true -> d = e).
  { intros d r e q E F E' F'. apply (proj1 (RF d)) in E; [|exact F]. apply (proj1 (RF e)) in E'; [|exact F'].
    pose proof (FS d r E F). pose proof (FS e q E' F'). congruence. }
  set (items := restore_order (restore_items bad m)).
  destruct (restore_order_spec (restore_items bad m)) as (PM & SS). fold items in PM, SS.
  assert (KI : forall e q, In (e, q) m -> r_first q = true -> r_kind q = KValid).
  { intros e q H F. apply (KM e q); [now apply db_in_get|exact F]. }
  assert (IT : forall d r, r_kind r = KValid \/ r_first r = true -> (In (d, r) items <-> In (d, r) m /\ r_kind r = KValid)).
  { intros d r K. rewrite <- (restore_items_valid bad m d r KI K). split; intros X.
    - exact (Permutation_in _ (Permutation_sym PM) X).
    - exact (Permutation_in _ PM X). }
  assert (ND : NoDup (keys items)).
  { apply (Permutation_NoDup (Permutation_map fst PM)). apply restore_items_nodup. now apply sorted_nodup. }
  assert (HEAD : forall p, In p items -> r_first (snd p) = true -> r_kind (snd p) = KValid /\ exists t, items = p :: t).
  { intros [d r] H F. cbn [snd] in *. apply IT in H as HM; [|now right]. destruct HM as [HM K]. split; [exact K|].
    destruct items as [|[e q] t] eqn:EI; [destruct H|]. exists t. f_equal. destruct H as [H|H]; [exact H|].
    inversion SS as [|? ? _ LE]; subst. rewrite Forall_forall in LE. specialize (LE _ H). unfold prio_ord in LE. cbn [snd] in LE.
    pose proof (prio_first r K F). destruct (r_first q) eqn:FQ; [|pose proof (prio_not_first q FQ); lia].
    destruct (proj1 (IT e q (or_intror FQ)) (or_introl eq_refl)) as [HQ _].
    assert (X : e = d) by (apply (UM e q d r); try apply db_in_get; auto). subst e.
    exfalso. inversion ND as [|? ? NI _]; subst. apply NI. apply (in_map fst _ _ H). }
  destruct (restore_all_inv rnd skew tm items (mkL None None [] [] [] m (S (l_run l)) (l_log l)))
    as (l' & E & I' & D & L & R & V1 & V2 & V3).
  - apply (inv_fresh rnd skew tm l m); auto.
  - exact ND.
  - reflexivity.
  - exact SS.
  - intros p Hp F. destruct (HEAD p Hp F) as (K & X). auto.
  - intros X. cbn in X. contradiction.
  - cbn [l_db l_log l_run] in D, L, R. exists l'. split; [exact E|]. split; [exact I'|].
    split; [|split; [exact L|split; [exact R|split; [exact D|]]]].
    + intros d r G F. rewrite D in G. pose proof (KM d r G F) as K.
      assert (H : In (d, r) items) by (apply IT; [now left|split; [now apply db_get_in|exact K]]).
      destruct (HEAD (d, r) H F) as (_ & t & X). apply (V2 d r t X); auto.
    + intros X. rewrite V3; [reflexivity|]. intros [d r] Hp K. cbn [snd] in K.
      destruct (proj1 (IT d r (or_introl K)) Hp) as [HM _]. apply (X d r); [|exact K].
      rewrite D. now apply db_in_get.
Qed.
