(** Invariants and preservation lemmas for the transactional containers. *)
From Coq Require Import Bool Permutation.
From Verif Require Import AMap TxModel.

Local Arguments mapv : simpl never.
Local Arguments upd : simpl never.
Local Arguments akeys : simpl never.
Local Arguments memk : simpl never.
Section P.
  Context {K A : Type} (eqb : K -> K -> bool) (eqb_spec : forall a b, reflect (a = b) (eqb a b)).
  Notation shape := TxModel.shape.
  Notation obj := (@obj K A). Notation plain := (@plain K A). Notation op := (@op K A).
  Notation run := (run eqb). Notation rollback := (rollback eqb).

  (** plain maps have distinct keys *)
  Fixpoint pwf (s : shape) : plain s -> Prop :=
    match s return plain s -> Prop with
    | SVal => fun _ => True
    | SOpt s => fun o : option (plain s) => forall p, o = Some p -> pwf s p
    | SMap s => fun m : list (K * plain s) => NoDup (akeys m) /\ forall k p, In (k, p) m -> pwf s p
    | SPair s1 s2 => fun p => pwf s1 (fst p) /\ pwf s2 (snd p)
    | SSkip s => fun p => pwf s (fst p)
    end.

  Fixpoint op_ok {s} (o : op s) : Prop :=
    match o with
    | ONop => True
    | OSeq a b => op_ok a /\ op_ok b
    | OMod _ => True
    | @OSet _ _ s new => pwf (SOpt s) new
    | OInner o => op_ok o
    | @OInsert _ _ s k v => pwf s v
    | ORemove _ => True
    | OGetMut _ o => op_ok o
    | OEach f => forall k, op_ok (f k)
    | ORetain f _ => forall k, op_ok (f k)
    | OFst o => op_ok o
    | OSnd o => op_ok o
    | OTx o => op_ok o
    | OSkipped _ => True
    end.

  Definition mwf {T} (W : T -> Prop) (x : tmap (K:=K) T) : Prop :=
    NoDup (akeys (tm_inner x)) /\ (forall k v, In (k, v) (tm_inner x) -> W v)
    /\ (forall tx, tm_tx x = Some tx -> NoDup (akeys (mt_removed tx))
                    /\ forall k v, In (k, v) (mt_removed tx) -> W v).
  Definition midle {T} (I : T -> Prop) (x : tmap (K:=K) T) : Prop :=
    tm_tx x = None /\ forall k v, aget eqb k (tm_inner x) = Some v -> I v.
  Definition mactive {T P} (I : T -> Prop) (Act : P -> T -> Prop) (p : list (K * P))
      (x : tmap (K:=K) T) : Prop :=
    match tm_tx x with
    | None => False
    | Some tx =>
        (forall k, memk eqb k (mt_added tx) = true ->
           aget eqb k (mt_removed tx) = None /\ aget eqb k p = None /\
           exists v, aget eqb k (tm_inner x) = Some v /\ I v) /\
        (forall k v0, aget eqb k (mt_removed tx) = Some v0 ->
           (exists p0, aget eqb k p = Some p0 /\ Act p0 v0) /\
           forall v, aget eqb k (tm_inner x) = Some v -> I v) /\
        (forall k, memk eqb k (mt_added tx) = false -> aget eqb k (mt_removed tx) = None ->
           match aget eqb k (tm_inner x) with
           | None => aget eqb k p = None
           | Some v => exists p0, aget eqb k p = Some p0 /\ Act p0 v
           end)
    end.

  Fixpoint wf (s : shape) : obj s -> Prop :=
    match s return obj s -> Prop with
    | SVal => fun _ => True
    | SOpt s => fun x : topt (obj s) => (forall v, to_value x = Some v -> wf s v)
                         /\ (forall v, to_snapshot x = Some (Some v) -> wf s v)
    | SMap s => mwf (wf s)
    | SPair s1 s2 => fun x => wf s1 (fst x) /\ wf s2 (snd x)
    | SSkip s => fun x => wf s (fst x)
    end.

  Fixpoint idle (s : shape) : obj s -> Prop :=
    match s return obj s -> Prop with
    | SVal => fun x => tv_snapshot x = None
    | SOpt s => fun x : topt (obj s) => to_snapshot x = None /\ forall v, to_value x = Some v -> idle s v
    | SMap s => midle (idle s)
    | SPair s1 s2 => fun x => idle s1 (fst x) /\ idle s2 (snd x)
    | SSkip s => fun x => idle s (fst x)
    end.

  Fixpoint active (s : shape) : plain s -> obj s -> Prop :=
    match s return plain s -> obj s -> Prop with
    | SVal => fun p x => tv_snapshot x = Some p
    | SOpt s => fun (p : option (plain s)) (x : topt (obj s)) =>
        match to_snapshot x with
        | Some None => p = None /\ forall v, to_value x = Some v -> idle s v
        | Some (Some v0) =>
            (exists p0, p = Some p0 /\ active s p0 v0) /\ forall v, to_value x = Some v -> idle s v
        | None => exists v p0, to_value x = Some v /\ p = Some p0 /\ active s p0 v
        end
    | SMap s => mactive (idle s) (active s)
    | SPair s1 s2 => fun p x => active s1 (fst p) (fst x) /\ active s2 (snd p) (snd x)
    | SSkip s => fun p x => active s (fst p) (fst x)
    end.

  (** equality of contents as seen by lookups; skipped fields are not compared *)
  Fixpoint peq (s : shape) : plain s -> plain s -> Prop :=
    match s return plain s -> plain s -> Prop with
    | SVal => fun a b => a = b
    | SOpt s => fun a b : option (plain s) =>
        match a, b with Some a, Some b => peq s a b | None, None => True | _, _ => False end
    | SMap s => fun a b : list (K * plain s) => forall k,
        match aget eqb k a, aget eqb k b with
        | Some a, Some b => peq s a b | None, None => True | _, _ => False end
    | SPair s1 s2 => fun a b => peq s1 (fst a) (fst b) /\ peq s2 (snd a) (snd b)
    | SSkip s => fun a b => peq s (fst a) (fst b)
    end.

  Lemma peq_refl s p : peq s p p.
  Proof.
    induction s; cbn in p |- *; auto.
    - destruct p; auto.
    - intros k. destruct (aget eqb k p); auto.
  Qed.

  Lemma aget_mapv {X Y} (f : X -> Y) k (m : list (K * X)) :
    aget eqb k (mapv f m) = option_map f (aget eqb k m).
  Proof.
    unfold mapv. induction m as [|[k2 x] m IH]; cbn; [reflexivity|]. destruct (eqb k k2); auto.
  Qed.
  Lemma akeys_mapv {X Y} (f : X -> Y) (m : list (K * X)) : akeys (mapv f m) = akeys m.
  Proof. unfold akeys, mapv. rewrite map_map. reflexivity. Qed.
  Lemma in_mapv {X Y} (f : X -> Y) k y (m : list (K * X)) :
    In (k, y) (mapv f m) -> exists x, y = f x /\ In (k, x) m.
  Proof.
    unfold mapv. rewrite in_map_iff. intros [[k2 x] [E I]]. cbn in E. inversion E; subst. eauto.
  Qed.
  Lemma mapv_ext {X Y} (f g : X -> Y) (m : list (K * X)) :
    (forall k x, In (k, x) m -> f x = g x) -> mapv f m = mapv g m.
  Proof.
    intros H. unfold mapv. apply map_ext_in. intros [k x] I. cbn. rewrite (H k x I). reflexivity.
  Qed.
  Lemma mapv_mapv {X Y Z} (f : X -> Y) (g : Y -> Z) (m : list (K * X)) :
    mapv g (mapv f m) = mapv (fun x => g (f x)) m.
  Proof. unfold mapv. rewrite map_map. reflexivity. Qed.

  Lemma aget_mapk {X Y} (f : K -> X -> Y) k (m : list (K * X)) :
    aget eqb k (map (fun e => (fst e, f (fst e) (snd e))) m) = option_map (f k) (aget eqb k m).
  Proof.
    induction m as [|[k2 x] m IH]; cbn; [reflexivity|].
    destruct (eqb_spec k k2) as [->|N]; auto.
  Qed.
  Lemma akeys_mapk {X Y} (f : K -> X -> Y) (m : list (K * X)) :
    akeys (map (fun e => (fst e, f (fst e) (snd e))) m) = akeys m.
  Proof. unfold akeys. rewrite map_map. reflexivity. Qed.

  Lemma aget_upd {X} k (f : X -> X) (m : list (K * X)) k' :
    aget eqb k' (upd eqb k f m) =
    if eqb k' k then option_map f (aget eqb k' m) else aget eqb k' m.
  Proof.
    unfold upd. induction m as [|[k2 x] m IH]; cbn; [destruct (eqb k' k); reflexivity|].
    destruct (eqb_spec k k2) as [->|N]; cbn.
    - destruct (eqb_spec k' k2) as [E|N2]; [reflexivity|]. rewrite IH.
      destruct (eqb_spec k' k2); congruence.
    - destruct (eqb_spec k' k2) as [E|N2].
      + destruct (eqb_spec k' k); congruence.
      + exact IH.
  Qed.
  Lemma akeys_upd {X} k (f : X -> X) (m : list (K * X)) : akeys (upd eqb k f m) = akeys m.
  Proof.
    unfold akeys, upd. rewrite map_map. apply map_ext. intros [k2 x]. cbn. destruct (eqb k k2); reflexivity.
  Qed.
  Lemma aget_in' {X} k (v : X) m : aget eqb k m = Some v -> In (k, v) m.
  Proof.
    induction m as [|[k2 x] m IH]; cbn; [discriminate|].
    destruct (eqb_spec k k2) as [->|N]; intros E; [inversion E; auto|auto].
  Qed.
  Lemma in_aget' {X} k (v : X) m : NoDup (akeys m) -> In (k, v) m -> aget eqb k m = Some v.
  Proof.
    induction m as [|[k2 x] m IH]; cbn; [intros _ []|]. intros N [E|I].
    - inversion E; subst. destruct (eqb_spec k k); congruence.
    - inversion N; subst. destruct (eqb_spec k k2) as [->|N2]; [|auto].
      exfalso. apply H1. apply in_map_iff. exists (k2, v). auto.
  Qed.
  Lemma in_aset {X} k (v : X) m k' v' : In (k', v') (aset eqb k v m) -> v' = v \/ In (k', v') m.
  Proof.
    induction m as [|[k2 x] m IH]; cbn.
    - intros [E|[]]. inversion E; auto.
    - destruct (eqb_spec k k2) as [->|N]; cbn; intros [E|I]; auto.
      + inversion E; auto.
      + destruct (IH I); auto.
  Qed.
  Lemma in_adel {X} k m k' (v' : X) : In (k', v') (adel eqb k m) -> In (k', v') m.
  Proof. unfold adel. rewrite filter_In. tauto. Qed.
  Lemma memk_delk k l k' : memk eqb k' (delk eqb k l) = if eqb k' k then false else memk eqb k' l.
  Proof.
    unfold memk, delk. induction l as [|x l IH]; cbn; [destruct (eqb k' k); reflexivity|].
    destruct (eqb_spec k x) as [->|N]; cbn.
    - rewrite IH. destruct (eqb_spec k' x); reflexivity.
    - rewrite IH. destruct (eqb_spec k' x) as [->|N2]; cbn; [|reflexivity].
      destruct (eqb_spec x k); congruence.
  Qed.
  Lemma amem_aget {X} k (m : list (K * X)) :
    amem eqb k m = match aget eqb k m with Some _ => true | None => false end.
  Proof. reflexivity. Qed.

  Lemma fold_adel {X} (l : list K) (m : list (K * X)) k :
    aget eqb k (fold_left (fun m k => adel eqb k m) l m) = if memk eqb k l then None else aget eqb k m.
  Proof.
    revert m. induction l as [|x l IH]; intros m; [reflexivity|].
    change (memk eqb k (x :: l)) with (eqb k x || memk eqb k l).
    cbn [fold_left]. rewrite IH, (aget_adel eqb eqb_spec).
    destruct (memk eqb k l), (eqb k x); reflexivity.
  Qed.
  Lemma fold_aset {X} (r m : list (K * X)) k : NoDup (akeys r) ->
    aget eqb k (fold_left (fun m e => aset eqb (fst e) (snd e) m) r m) =
    match aget eqb k r with Some v => Some v | None => aget eqb k m end.
  Proof.
    revert m. induction r as [|[k2 v2] r IH]; intros m N; [reflexivity|].
    inversion N as [|? ? N1 N2]; subst. cbn [fold_left aget fst snd]. rewrite (IH _ N2).
    destruct (eqb_spec k k2) as [->|N3].
    - destruct (aget eqb k2 r) eqn:E.
      + exfalso. apply N1. apply in_map_iff. exists (k2, x). split; [reflexivity|]. apply aget_in', E.
      + rewrite (aget_aset eqb eqb_spec). destruct (eqb_spec k2 k2); congruence.
    - destruct (aget eqb k r); [reflexivity|]. rewrite (aget_aset eqb eqb_spec).
      destruct (eqb_spec k k2); congruence.
  Qed.

  (** ** reads *)
  Lemma read_begin s (x : obj s) : read s (begin s x) = read s x.
  Proof.
    induction s; cbn.
    - reflexivity.
    - destruct x as [[v|] sn]; cbn; [rewrite IHs|]; reflexivity.
    - rewrite mapv_mapv. apply mapv_ext. auto.
    - rewrite IHs1, IHs2; reflexivity.
    - rewrite IHs; reflexivity.
  Qed.
  Lemma read_commit s (x : obj s) : read s (commit s x) = read s x.
  Proof.
    induction s; cbn.
    - reflexivity.
    - destruct x as [[v|] sn]; cbn; [destruct (in_tx s v); [rewrite IHs|]|]; reflexivity.
    - rewrite mapv_mapv. apply mapv_ext. intros k v _. destruct (in_tx s v); auto.
    - rewrite IHs1, IHs2; reflexivity.
    - rewrite IHs; reflexivity.
  Qed.
  Lemma read_mk s (p : plain s) : read s (mk s p) = p.
  Proof.
    induction s; cbn.
    - reflexivity.
    - destruct p; cbn; [rewrite IHs|]; reflexivity.
    - rewrite mapv_mapv. transitivity (mapv (fun x : plain s => x) p).
      + apply mapv_ext. auto.
      + unfold mapv. rewrite <- map_id. apply map_ext. intros []. reflexivity.
    - rewrite IHs1, IHs2. destruct p; reflexivity.
    - rewrite IHs. destruct p; reflexivity.
  Qed.

  (** ** wf *)
  Lemma wf_mk s (p : plain s) : pwf s p -> wf s (mk s p).
  Proof.
    induction s; cbn.
    - auto.
    - intros H. split; [|discriminate]. destruct p; cbn; [|discriminate].
      intros v E. inversion E. auto.
    - intros [N H]. split; [cbn; rewrite akeys_mapv; exact N|]. split; [|discriminate].
      intros k v I. apply in_mapv in I. destruct I as [q [-> I]]. eauto.
    - intros []. auto.
    - auto.
  Qed.
  Lemma wf_begin s (x : obj s) : wf s x -> wf s (begin s x).
  Proof.
    induction s; cbn.
    - auto.
    - destruct x as [[v|] sn]; cbn; intros [H1 H2].
      + split; [|exact H2]. intros v' E. inversion E. auto.
      + split; [discriminate|]. discriminate.
    - intros [N [H1 H2]]. split; [cbn; rewrite akeys_mapv; exact N|]. split.
      + intros k v I. apply in_mapv in I. destruct I as [q [-> I]]. eauto.
      + intros tx E. inversion E. cbn. split; [constructor|]. intros k v [].
    - intros []. auto.
    - auto.
  Qed.
  Lemma wf_commit s (x : obj s) : wf s x -> wf s (commit s x).
  Proof.
    induction s; cbn.
    - auto.
    - destruct x as [[v|] sn]; cbn; intros [H1 H2].
      + split; [|discriminate]. intros v' E. inversion E. destruct (in_tx s v); auto.
      + split; discriminate.
    - intros [N [H1 H2]]. split; [cbn; rewrite akeys_mapv; exact N|]. split; [|discriminate].
      intros k v I. apply in_mapv in I. destruct I as [q [-> I]]. destruct (in_tx s q); eauto.
    - intros []. auto.
    - auto.
  Qed.
  Lemma fold_adel_wf {X} (l : list K) (m : list (K * X)) (P : X -> Prop) :
    NoDup (akeys m) -> (forall k v, In (k, v) m -> P v) ->
    let m' := fold_left (fun m k => adel eqb k m) l m in
    NoDup (akeys m') /\ forall k v, In (k, v) m' -> P v.
  Proof.
    revert m. induction l as [|x l IH]; intros m N H; cbn [fold_left]; [auto|].
    apply IH.
    - unfold adel, akeys. clear -N. unfold akeys in N.
      induction m as [|e m IH]; cbn; [constructor|]. inversion N; subst.
      destruct (negb (eqb x (fst e))); cbn; [constructor; auto|auto].
      intros I. apply H1. apply in_map_iff in I. destruct I as [y [E I]].
      apply filter_In in I. apply in_map_iff. exists y. tauto.
    - intros k v I. apply in_adel in I. eauto.
  Qed.
  Lemma fold_aset_wf {X} (r m : list (K * X)) (P : X -> Prop) :
    NoDup (akeys m) -> (forall k v, In (k, v) m -> P v) -> (forall k v, In (k, v) r -> P v) ->
    let m' := fold_left (fun m e => aset eqb (fst e) (snd e) m) r m in
    NoDup (akeys m') /\ forall k v, In (k, v) m' -> P v.
  Proof.
    revert m. induction r as [|[k2 v2] r IH]; intros m N H1 H2; cbn [fold_left fst snd]; [auto|].
    apply IH.
    - apply (aset_nodup eqb eqb_spec). exact N.
    - intros k v I. apply in_aset in I. destruct I as [->|I]; [apply (H2 k2); left; reflexivity|eauto].
    - intros k v I. apply (H2 k v). right. exact I.
  Qed.
  Lemma map_restore_wf {T} (W : T -> Prop) (x : tmap T) : mwf W x ->
    NoDup (akeys (map_restore eqb x)) /\ forall k v, In (k, v) (map_restore eqb x) -> W v.
  Proof.
    intros [N [H1 H2]]. unfold map_restore. destruct (tm_tx x) as [tx|] eqn:E; [|auto].
    destruct (fold_adel_wf (mt_added tx) (tm_inner x) W N H1) as [N1 H3].
    apply fold_aset_wf; auto. apply (H2 tx). reflexivity.
  Qed.
  Lemma map_restore_active {T P} (W I : T -> Prop) (Act : P -> T -> Prop) p (x : tmap T) :
    mwf W x -> mactive I Act p x -> forall k,
    match aget eqb k (map_restore eqb x) with
    | None => aget eqb k p = None
    | Some v => W v /\ exists p0, aget eqb k p = Some p0 /\ Act p0 v
    end.
  Proof.
    intros [N [W1 W2]] H k. unfold mactive in H. unfold map_restore.
    destruct (tm_tx x) as [tx|]; [|destruct H].
    destruct (W2 tx eq_refl) as [W3 W4]. destruct H as [H1 [H2 H3]].
    rewrite (fold_aset _ _ _ W3), fold_adel.
    destruct (aget eqb k (mt_removed tx)) as [v0|] eqn:ER.
    - split; [eapply W4, aget_in', ER|]. eapply H2. exact ER.
    - destruct (memk eqb k (mt_added tx)) eqn:EA.
      + apply (H1 k EA).
      + specialize (H3 k EA ER). destruct (aget eqb k (tm_inner x)) eqn:EI; [|exact H3].
        split; [eapply W1, aget_in', EI|exact H3].
  Qed.
  Lemma wf_rollback s (x : obj s) : wf s x -> wf s (rollback s x).
  Proof.
    induction s; cbn.
    - auto.
    - cbn in x. intros [H1 H2]. split; [|discriminate]. intros v.
      destruct (to_snapshot x) as [[v0|]|] eqn:E.
      + intros E2. inversion E2. destruct (in_tx s v0); auto.
      + discriminate.
      + destruct (to_value x) as [v0|]; [|discriminate].
        intros E2. inversion E2. destruct (in_tx s v0); auto.
    - cbn in x. intros H. unfold mwf; cbn. rewrite akeys_mapv.
      pose proof (map_restore_wf _ _ H) as G.
      destruct G as [G1 G2]. split; [exact G1|]. split; [|discriminate].
      intros k v I. apply in_mapv in I. destruct I as [q [-> I]]. destruct (in_tx s q); eauto.
    - intros []. auto.
    - auto.
  Qed.

  Lemma map_insert_wf {T} (W : T -> Prop) k v (x : tmap T) : W v -> mwf W x -> mwf W (fst (map_insert eqb k v x)).
  Proof.
    intros Hv [N [H1 H2]].
    assert (G1 : NoDup (akeys (aset eqb k v (tm_inner x)))) by (apply (aset_nodup eqb eqb_spec); exact N).
    assert (G2 : forall k' v', In (k', v') (aset eqb k v (tm_inner x)) -> W v').
    { intros k' v' I. apply in_aset in I. destruct I as [->|I]; eauto. }
    unfold map_insert. destruct (tm_tx x) as [tx|] eqn:E.
    - destruct (H2 tx eq_refl) as [H3 H4].
      destruct (aget eqb k (tm_inner x)) as [ov|] eqn:E2; cbn [fst]; unfold mwf; cbn [tm_inner tm_tx].
      + split; [exact G1|]. split; [exact G2|]. intros tx' E3. inversion E3.
        destruct (_ && _); cbn [mt_removed]; [|auto]. split; [apply (aset_nodup eqb eqb_spec); exact H3|].
        intros k' v' I. apply in_aset in I. destruct I as [->|I]; [eapply H1, aget_in', E2|eauto].
      + split; [exact G1|]. split; [exact G2|]. intros tx' E3. inversion E3.
        destruct (negb _); cbn [mt_removed]; eauto.
    - cbn [fst]; unfold mwf; cbn [tm_inner tm_tx]. split; [exact G1|]. split; [exact G2|discriminate].
  Qed.
  Lemma map_remove_wf {T} (W : T -> Prop) k (x : tmap T) : mwf W x -> mwf W (fst (map_remove eqb k x)).
  Proof.
    intros W0. pose proof W0 as [N [H1 H2]].
    destruct (fold_adel_wf [k] (tm_inner x) W N H1) as [G1 G2]. cbn [fold_left] in G1, G2.
    unfold map_remove. destruct (aget eqb k (tm_inner x)) as [v|] eqn:E2; [|exact W0].
    destruct (tm_tx x) as [tx|] eqn:E.
    - destruct (H2 tx eq_refl) as [H3 H4].
      destruct (memk eqb k (mt_added tx)); [|destruct (negb _)]; cbn [fst]; unfold mwf; cbn [tm_inner tm_tx];
        (split; [exact G1|]; split; [exact G2|]); intros tx' E3; inversion E3; cbn [mt_removed]; subst; auto.
      split; [apply (aset_nodup eqb eqb_spec); exact H3|].
      intros k' v' I. apply in_aset in I. destruct I as [->|I]; [eapply H1, aget_in', E2|eauto].
    - cbn [fst]; unfold mwf; cbn [tm_inner tm_tx]. split; [exact G1|]. split; [exact G2|discriminate].
  Qed.
  Lemma map_remove_all_wf {T} (W : T -> Prop) ks : forall (x : tmap T), mwf W x -> mwf W (map_remove_all eqb ks x).
  Proof.
    unfold map_remove_all. induction ks as [|k ks IH]; intros x W0; cbn [fold_left]; [exact W0|].
    apply IH, map_remove_wf, W0.
  Qed.

  Lemma wf_run s (o : op s) : op_ok o -> forall x, wf s x -> wf s (fst (run o x)).
  Proof.
    induction o; cbn [op_ok]; intros OK x W.
    - exact W.
    - destruct OK as [O1 O2]. apply IHo2; [exact O2|]. apply IHo1; assumption.
    - exact I.
    - cbn [TxModel.run fst]. destruct x as [val sn]. destruct W as [W1 W2]. cbn in W1, W2. split.
      + intros v. cbn. destruct new; cbn; [|discriminate]. intros E. inversion E. apply wf_mk, OK. reflexivity.
      + intros v. unfold opt_set. cbn [to_snapshot to_value]. destruct sn as [sn|]; [auto|].
        destruct (in_tx (SOpt s) _); [|discriminate]. intros E2. inversion E2. auto.
    - destruct x as [[v|] sn]; [|exact W]. destruct W as [W1 W2]. cbn in *. split; [|exact W2].
      intros v2 E2. inversion E2. subst. apply IHo; auto.
    - exact (map_insert_wf (wf s) k (mk s v) x (wf_mk s v OK) W).
    - exact (map_remove_wf (wf s) k x W).
    - cbn [TxModel.run fst]. destruct W as [N [W1 W2]]. split; cbn [tm_inner tm_tx]; [rewrite akeys_upd; exact N|]. split; [|exact W2].
      intros k' v' I. unfold upd in I. apply in_map_iff in I. destruct I as [[k2 v2] [E I]].
      cbn in E. destruct (eqb k k2); inversion E; subst; eauto.
    - cbn [TxModel.run fst]. destruct W as [N [W1 W2]].
      split; cbn [tm_inner tm_tx]; [rewrite (akeys_mapk (fun k v => fst (run (f k) v))); exact N|]. split; [|exact W2].
      intros k' v' I. apply in_map_iff in I. destruct I as [[k2 v2] [E I]]. cbn in E.
      inversion E; subst. eauto.
    - cbn [TxModel.run fst]. apply (map_remove_all_wf (wf s)). destruct W as [N [W1 W2]].
      split; cbn [tm_inner tm_tx]; [rewrite (akeys_mapk (fun k v => fst (run (f k) v))); exact N|]. split; [|exact W2].
      intros k' v' I. apply in_map_iff in I. destruct I as [[k2 v2] [E I]]. cbn in E.
      inversion E; subst. eauto.
    - destruct W as [W1 W2]. split; cbn; auto.
    - destruct W as [W1 W2]. split; cbn; auto.
    - cbn. apply IHo; assumption.
    - exact W.
  Qed.

  (** ** idle / active *)
  Lemma idle_mk s (p : plain s) : idle s (mk s p).
  Proof.
    induction s; cbn; auto.
    - split; [reflexivity|]. destruct p; cbn; [|discriminate]. intros v E. inversion E. auto.
    - cbn in p. split; [reflexivity|]. cbn [tm_inner]. intros k v E. rewrite aget_mapv in E. destruct (aget eqb k p); [|discriminate].
      inversion E. auto.
  Qed.
  Lemma idle_in_tx s (x : obj s) : idle s x -> in_tx s x = false.
  Proof.
    induction s; cbn.
    - intros ->. reflexivity.
    - cbn in x. intros [-> H]. destruct (to_value x); [|reflexivity]. rewrite IHs; auto.
    - cbn in x. intros [E H]. rewrite E. reflexivity.
    - intros [H1 H2]. rewrite IHs1, IHs2; auto.
    - auto.
  Qed.
  Lemma active_in_tx s (x : obj s) p : active s p x -> in_tx s x = true.
  Proof.
    induction s; cbn.
    - intros ->. reflexivity.
    - cbn in x. destruct (to_snapshot x) as [[v0|]|]; [intros _; apply orb_true_r|intros _; apply orb_true_r|].
      intros [v [p0 [-> [_ H]]]]. rewrite (IHs _ _ H). reflexivity.
    - cbn in x. unfold mactive. destruct (tm_tx x); [reflexivity|intros []].
    - intros [H1 H2]. rewrite (IHs1 _ _ H1). reflexivity.
    - apply IHs.
  Qed.
  Lemma idle_begin s (x : obj s) : idle s x -> active s (read s x) (begin s x).
  Proof.
    induction s; cbn.
    - reflexivity.
    - intros [E H]. destruct x as [[v|] sn]; cbn in *; subst; cbn.
      + exists (begin s v), (read s v). auto.
      + split; [reflexivity|discriminate].
    - cbn in x. intros [E H]. split; [discriminate|]. split; [discriminate|]. cbn [tm_inner]. intros k _ _.
      rewrite !aget_mapv. destruct (aget eqb k (tm_inner x)) as [o|] eqn:G; cbn; [|reflexivity].
      exists (read s o). split; [reflexivity|]. apply IHs, (H k), G.
    - intros []. auto.
    - auto.
  Qed.
  Lemma idle_begin_ok s (x : obj s) : wf s x -> idle s x -> begin_ok s x = true.
  Proof.
    induction s; cbn.
    - intros _ ->. reflexivity.
    - cbn in x. intros [W _] [_ H]. destruct (to_value x); auto.
    - cbn in x. intros [N [W _]] [-> H]. cbn. apply forallb_forall. intros [k v] I. cbn.
      apply IHs; [eapply W, I|]. apply (H k). apply in_aget'; assumption.
    - intros [] []. rewrite IHs1, IHs2; auto.
    - auto.
  Qed.

  Definition opt_commit s (v : obj s) := if in_tx s v then commit s v else v.
  Lemma idle_commit_any s (v : obj s) : idle s v -> opt_commit s v = v.
  Proof. intros H. unfold opt_commit. rewrite (idle_in_tx _ _ H). reflexivity. Qed.

  (** every value in an active map is itself active or idle *)
  Lemma active_map_values s (p : list (K * plain s)) (x : tmap (obj s)) k v : active (SMap s) p x ->
    aget eqb k (tm_inner x) = Some v -> idle s v \/ exists p0, active s p0 v.
  Proof.
    cbn in x, p. cbn. unfold mactive. destruct (tm_tx x) as [tx|]; [|intros []]. intros [H1 [H2 H3]] E.
    destruct (memk eqb k (mt_added tx)) eqn:EA.
    - destruct (H1 k EA) as [_ [_ [v' [E' I]]]]. left. congruence.
    - destruct (aget eqb k (mt_removed tx)) eqn:ER.
      + left. eapply H2; eauto.
      + specialize (H3 k EA ER). rewrite E in H3. destruct H3 as [p0 [_ H3]]. eauto.
  Qed.

  Lemma active_commit s (x : obj s) p : wf s x -> active s p x -> commit_ok s x = true /\ idle s (commit s x).
  Proof.
    induction s; cbn [commit_ok commit idle wf].
    - cbn [active]. intros _ ->. auto.
    - cbn in x, p. intros [W1 W2] H. cbn [active] in H.
      assert (G : forall v, to_value x = Some v -> idle s v \/ exists p0, active s p0 v).
      { destruct (to_snapshot x) as [[v0|]|].
        - destruct H as [_ H]. auto.
        - destruct H as [_ H]. auto.
        - destruct H as [v [p0 [E [_ H]]]]. intros v' E2. right. exists p0. congruence. }
      destruct (to_value x) as [v|]; cbn [to_value to_snapshot].
      2:{ split; [reflexivity|]. split; [reflexivity|discriminate]. }
      destruct (G v eq_refl) as [I|[p0 I]].
      + rewrite (idle_in_tx _ _ I). split; [reflexivity|]. split; [reflexivity|]. intros v' E. inversion E. subst. exact I.
      + rewrite (active_in_tx _ _ _ I). destruct (IHs v p0 (W1 v eq_refl) I) as [C1 C2]. split; [exact C1|].
        split; [reflexivity|]. intros v' E. inversion E. subst. exact C2.
    - cbn in x, p. intros [N [W1 W2]] H. split.
      + apply forallb_forall. intros [k v] I. cbn [snd].
        destruct (active_map_values s p x k v H (in_aget' _ _ _ N I)) as [D|[p0 D]].
        * rewrite (idle_in_tx _ _ D). reflexivity.
        * rewrite (active_in_tx _ _ _ D). apply (IHs v p0); [eapply W1, I|exact D].
      + split; [reflexivity|]. intros k v. cbn [tm_inner]. rewrite aget_mapv.
        destruct (aget eqb k (tm_inner x)) as [v0|] eqn:E; [|discriminate]. cbn. intros E2. inversion E2.
        destruct (active_map_values s p x k v0 H E) as [D|[p0 D]].
        * rewrite (idle_in_tx _ _ D). exact D.
        * rewrite (active_in_tx _ _ _ D). apply (IHs v0 p0); [eapply W1, aget_in', E|exact D].
    - intros [W1 W2] H. destruct p as [p1 p2]. destruct H as [H1 H2]. cbn [fst snd] in *.
      destruct (IHs1 _ _ W1 H1), (IHs2 _ _ W2 H2). split; [apply andb_true_iff; auto|auto].
    - intros W H. apply (IHs _ (fst p)); assumption.
  Qed.

  Lemma active_rollback s (x : obj s) p : wf s x -> active s p x ->
    idle s (rollback s x) /\ peq s (read s (rollback s x)) p.
  Proof.
    induction s; cbn [wf].
    - cbn. intros _ ->. auto.
    - cbn in x, p. intros [W1 W2] H. cbn [active] in H. cbn [TxModel.rollback].
      assert (G : forall v p0, wf s v -> active s p0 v ->
        let y := MkTopt (Some (if in_tx s v then rollback s v else v)) None in
        idle (SOpt s) y /\ peq (SOpt s) (read (SOpt s) y) (Some p0)).
      { intros v p0 Wv Av. rewrite (active_in_tx _ _ _ Av). destruct (IHs v p0 Wv Av) as [I1 I2].
        cbn. split; [|exact I2]. split; [reflexivity|]. intros v' E. inversion E. exact I1. }
      destruct (to_snapshot x) as [[v0|]|].
      + destruct H as [[p0 [-> H]] _]. apply (G v0 p0); auto.
      + destruct H as [-> H]. cbn. split; [|exact Logic.I]. split; [reflexivity|discriminate].
      + destruct H as [v [p0 [E [-> H]]]]. rewrite E. apply (G v p0); auto.
    - cbn in x, p. intros W H. pose proof (map_restore_active _ _ _ _ _ W H) as M.
      cbn [TxModel.rollback idle read peq tm_tx tm_inner].
      split.
      + split; [reflexivity|]. cbn [tm_inner]. intros k v. rewrite aget_mapv. specialize (M k).
        destruct (aget eqb k (map_restore eqb x)) as [v0|]; [|discriminate]. cbn. intros E. inversion E.
        destruct M as [Wv [p0 [_ Av]]]. rewrite (active_in_tx _ _ _ Av). apply (IHs v0 p0 Wv Av).
      + intros k. rewrite mapv_mapv, aget_mapv. specialize (M k).
        destruct (aget eqb k (map_restore eqb x)) as [v0|]; cbn [option_map].
        * destruct M as [Wv [p0 [-> Av]]]. rewrite (active_in_tx _ _ _ Av). apply (IHs v0 p0 Wv Av).
        * rewrite M. exact Logic.I.
    - intros [W1 W2] [H1 H2]. cbn. destruct (IHs1 _ _ W1 H1), (IHs2 _ _ W2 H2). auto.
    - intros W H. cbn. apply (IHs _ _ W H).
  Qed.

  (** operations keep idle objects idle and active ones active (with the same start content) *)
  Lemma map_insert_idle {T} (I : T -> Prop) k v (x : tmap T) : I v -> midle I x ->
    midle I (fst (map_insert eqb k v x)).
  Proof.
    intros Iv [E H]. unfold map_insert. rewrite E. cbn [fst]; unfold midle; cbn [tm_tx tm_inner]. split; [reflexivity|].
    intros k' v'. rewrite (aget_aset eqb eqb_spec). destruct (eqb k' k); [intros E2; inversion E2; subst; exact Iv|eauto].
  Qed.
  Lemma map_remove_idle {T} (I : T -> Prop) k (x : tmap T) : midle I x -> midle I (fst (map_remove eqb k x)).
  Proof.
    intros [E H]. unfold map_remove. destruct (aget eqb k (tm_inner x)); [|split; assumption].
    rewrite E. cbn [fst]; unfold midle; cbn [tm_tx tm_inner]. split; [reflexivity|].
    intros k' v'. rewrite (aget_adel eqb eqb_spec). destruct (eqb k' k); [discriminate|eauto].
  Qed.
  Lemma map_insert_active {T P} (I : T -> Prop) (Act : P -> T -> Prop) k v p (x : tmap T) : I v -> mactive I Act p x ->
    mactive I Act p (fst (map_insert eqb k v x)).
  Proof.
    intros Iv. unfold mactive at 1. destruct (tm_tx x) as [tx|] eqn:ET; [|intros []]. intros [H1 [H2 H3]].
    unfold map_insert. rewrite ET. destruct (aget eqb k (tm_inner x)) as [ov|] eqn:EI; cbn [fst]; unfold mactive; cbn [tm_tx tm_inner].
    - destruct (memk eqb k (mt_added tx)) eqn:EA; [|destruct (aget eqb k (mt_removed tx)) as [r|] eqn:ER];
        rewrite amem_aget, ?ER; cbn [negb andb mt_added mt_removed].
      + destruct (H1 k EA) as [ER [EP _]].
        split; [|split].
        * intros k' Ek. destruct (H1 k' Ek) as [Q1 [Q2 [v' [Q3 Q4]]]]. split; [exact Q1|]. split; [exact Q2|].
          rewrite (aget_aset eqb eqb_spec). destruct (eqb k' k); eauto.
        * intros k' v0 Ek. destruct (H2 k' v0 Ek) as [Q1 Q2]. split; [exact Q1|].
          intros v'. rewrite (aget_aset eqb eqb_spec). destruct (eqb k' k); [intros X; inversion X; subst; exact Iv|auto].
        * intros k' Ek Er. specialize (H3 k' Ek Er). rewrite (aget_aset eqb eqb_spec).
          destruct (eqb_spec k' k) as [->|]; [congruence|exact H3].
      + split; [|split].
        * intros k' Ek. destruct (H1 k' Ek) as [Q1 [Q2 [v' [Q3 Q4]]]]. split; [exact Q1|]. split; [exact Q2|].
          rewrite (aget_aset eqb eqb_spec). destruct (eqb k' k); eauto.
        * intros k' v0 Ek. destruct (H2 k' v0 Ek) as [Q1 Q2]. split; [exact Q1|].
          intros v'. rewrite (aget_aset eqb eqb_spec). destruct (eqb k' k); [intros X; inversion X; subst; exact Iv|auto].
        * intros k' Ek Er. specialize (H3 k' Ek Er). rewrite (aget_aset eqb eqb_spec).
          destruct (eqb_spec k' k) as [->|]; [congruence|exact H3].
      + pose proof (H3 k EA ER) as Hk. rewrite EI in Hk.
        split; [|split].
        * intros k' Ek. destruct (H1 k' Ek) as [Q1 [Q2 [v' [Q3 Q4]]]]. rewrite !(aget_aset eqb eqb_spec).
          destruct (eqb_spec k' k) as [->|]; [congruence|]. eauto.
        * intros k' v0. rewrite !(aget_aset eqb eqb_spec). destruct (eqb_spec k' k) as [->|].
          -- intros X. inversion X; subst. split; [exact Hk|]. intros v' Y. inversion Y; subst. exact Iv.
          -- intros X. apply H2, X.
        * intros k' Ek. rewrite !(aget_aset eqb eqb_spec). destruct (eqb_spec k' k); [discriminate|]. apply H3, Ek.
    - assert (EA : memk eqb k (mt_added tx) = false).
      { destruct (memk eqb k (mt_added tx)) eqn:EA; [|reflexivity].
        destruct (H1 k EA) as [_ [_ [v' [Q _]]]]. congruence. }
      destruct (aget eqb k (mt_removed tx)) as [r|] eqn:ER; rewrite amem_aget, ER; cbn [negb mt_added mt_removed].
      + split; [|split].
        * intros k' Ek. destruct (H1 k' Ek) as [Q1 [Q2 [v' [Q3 Q4]]]]. split; [exact Q1|]. split; [exact Q2|].
          rewrite (aget_aset eqb eqb_spec). destruct (eqb k' k); eauto.
        * intros k' v0 Ek. destruct (H2 k' v0 Ek) as [Q1 Q2]. split; [exact Q1|].
          intros v'. rewrite (aget_aset eqb eqb_spec). destruct (eqb k' k); [intros X; inversion X; subst; exact Iv|auto].
        * intros k' Ek Er. specialize (H3 k' Ek Er). rewrite (aget_aset eqb eqb_spec).
          destruct (eqb_spec k' k) as [->|]; [congruence|exact H3].
      + pose proof (H3 k EA ER) as Hk. rewrite EI in Hk.
        assert (MA : forall k', memk eqb k' (k :: delk eqb k (mt_added tx)) = eqb k' k || memk eqb k' (mt_added tx)).
        { intros k'. change (memk eqb k' (k :: delk eqb k (mt_added tx))) with (eqb k' k || memk eqb k' (delk eqb k (mt_added tx))).
          rewrite memk_delk. destruct (eqb k' k); reflexivity. }
        split; [|split].
        * intros k'. rewrite MA, (aget_aset eqb eqb_spec). destruct (eqb_spec k' k) as [->|]; cbn [orb].
          -- intros _. split; [exact ER|]. split; [exact Hk|]. eauto.
          -- apply H1.
        * intros k' v0 Ek. rewrite (aget_aset eqb eqb_spec). destruct (eqb_spec k' k) as [->|]; [congruence|]. apply H2, Ek.
        * intros k'. rewrite MA, (aget_aset eqb eqb_spec). destruct (eqb_spec k' k) as [->|]; cbn [orb]; [discriminate|]. apply H3.
  Qed.
  Lemma map_remove_active {T P} (I : T -> Prop) (Act : P -> T -> Prop) k p (x : tmap T) : mactive I Act p x ->
    mactive I Act p (fst (map_remove eqb k x)).
  Proof.
    intros H0. pose proof H0 as H. unfold mactive in H. destruct (tm_tx x) as [tx|] eqn:ET; [|destruct H].
    destruct H as [H1 [H2 H3]].
    unfold map_remove. destruct (aget eqb k (tm_inner x)) as [v|] eqn:EI; [|exact H0]. rewrite ET.
    destruct (memk eqb k (mt_added tx)) eqn:EA; cbn [fst]; unfold mactive; cbn [tm_tx tm_inner].
    - destruct (H1 k EA) as [ER [EP _]]. cbn [mt_added mt_removed]. split; [|split].
      + intros k'. rewrite memk_delk, (aget_adel eqb eqb_spec). destruct (eqb k' k); [discriminate|apply H1].
      + intros k' v0 Ek. rewrite (aget_adel eqb eqb_spec). destruct (eqb_spec k' k) as [->|]; [congruence|apply H2, Ek].
      + intros k'. rewrite memk_delk, (aget_adel eqb eqb_spec). destruct (eqb_spec k' k) as [->|]; [intros _ _; exact EP|apply H3].
    - rewrite amem_aget. destruct (aget eqb k (mt_removed tx)) as [r|] eqn:ER; cbn [negb fst]; unfold mactive; cbn [tm_tx tm_inner mt_added mt_removed].
      + split; [|split].
        * intros k' Ek. rewrite (aget_adel eqb eqb_spec). destruct (eqb_spec k' k) as [->|]; [congruence|apply H1, Ek].
        * intros k' v0 Ek. destruct (H2 k' v0 Ek) as [Q1 Q2]. split; [exact Q1|]. intros v'.
          rewrite (aget_adel eqb eqb_spec). destruct (eqb k' k); [discriminate|apply Q2].
        * intros k' Ek Er. rewrite (aget_adel eqb eqb_spec). destruct (eqb_spec k' k) as [->|]; [congruence|apply H3; assumption].
      + pose proof (H3 k EA ER) as Hk. rewrite EI in Hk. split; [|split].
        * intros k' Ek. rewrite (aget_adel eqb eqb_spec), (aget_aset eqb eqb_spec).
          destruct (eqb_spec k' k) as [->|]; [congruence|apply H1, Ek].
        * intros k' v0. rewrite (aget_adel eqb eqb_spec), (aget_aset eqb eqb_spec).
          destruct (eqb_spec k' k) as [->|]; [|apply H2].
          intros X. inversion X; subst. split; [exact Hk|discriminate].
        * intros k' Ek. rewrite (aget_adel eqb eqb_spec), (aget_aset eqb eqb_spec).
          destruct (eqb_spec k' k) as [->|]; [discriminate|apply H3, Ek].
  Qed.
  Lemma map_remove_all_idle {T} (I : T -> Prop) ks : forall (x : tmap T), midle I x -> midle I (map_remove_all eqb ks x).
  Proof.
    unfold map_remove_all. induction ks as [|k ks IH]; intros x W; cbn [fold_left]; [exact W|].
    apply IH, map_remove_idle, W.
  Qed.
  Lemma map_remove_all_active {T P} (I : T -> Prop) (Act : P -> T -> Prop) p ks : forall (x : tmap T), mactive I Act p x -> mactive I Act p (map_remove_all eqb ks x).
  Proof.
    unfold map_remove_all. induction ks as [|k ks IH]; intros x W; cbn [fold_left]; [exact W|].
    apply IH, map_remove_active, W.
  Qed.

  (** changing the values in place by per-key programs *)
  Lemma inner_map_idle {T} (I : T -> Prop) (g : K -> T -> T) m (x : tmap T) :
    (forall k, aget eqb k m = option_map (g k) (aget eqb k (tm_inner x))) ->
    (forall k v, I v -> I (g k v)) ->
    midle I x -> midle I (MkTmap m (tm_tx x)).
  Proof.
    intros E G [H1 H2]. unfold midle; cbn [tm_tx tm_inner]. split; [exact H1|]. intros k v. rewrite E.
    destruct (aget eqb k (tm_inner x)) eqn:EI; [|discriminate]. cbn. intros X. inversion X. eauto.
  Qed.
  Lemma inner_map_active {T P} (I : T -> Prop) (Act : P -> T -> Prop) (g : K -> T -> T) m p (x : tmap T) :
    (forall k, aget eqb k m = option_map (g k) (aget eqb k (tm_inner x))) ->
    (forall k v, I v -> I (g k v)) ->
    (forall k p v, Act p v -> Act p (g k v)) ->
    mactive I Act p x -> mactive I Act p (MkTmap m (tm_tx x)).
  Proof.
    intros E G1 G2. unfold mactive; cbn [tm_tx tm_inner]. destruct (tm_tx x) as [tx|]; [|intros []].
    intros [H1 [H2 H3]]. split; [|split].
    - intros k Ek. destruct (H1 k Ek) as [Q1 [Q2 [v [Q3 Q4]]]]. rewrite E, Q3. cbn. eauto 10.
    - intros k v0 Ek. destruct (H2 k v0 Ek) as [Q1 Q2]. split; [exact Q1|]. intros v. rewrite E.
      destruct (aget eqb k (tm_inner x)) eqn:EI; [|discriminate]. cbn. intros X. inversion X. auto.
    - intros k Ek Er. specialize (H3 k Ek Er). rewrite E. destruct (aget eqb k (tm_inner x)) eqn:EI; cbn; [|exact H3].
      destruct H3 as [p0 [Q1 Q2]]. eauto.
  Qed.

  Lemma opt_set_idle s n (x : obj (SOpt s)) : (forall v, n = Some v -> idle s v) -> idle (SOpt s) x ->
    idle (SOpt s) (opt_set s n x).
  Proof.
    intros Hn I. destruct x as [val sn]. pose proof I as [E H]. cbn in E, H. subst sn. unfold opt_set.
    rewrite (idle_in_tx (SOpt s) _ I). cbn. auto.
  Qed.
  Lemma opt_set_active s n p (x : obj (SOpt s)) : (forall v, n = Some v -> idle s v) -> active (SOpt s) p x ->
    active (SOpt s) p (opt_set s n x).
  Proof.
    intros Hn I. destruct x as [val sn]. pose proof (active_in_tx _ _ _ I) as T. pose proof I as H. cbn [active to_snapshot to_value] in H.
    unfold opt_set. rewrite T. cbn [to_snapshot to_value]. destruct sn as [[v0|]|]; cbn [active to_snapshot to_value].
    - destruct H as [H _]. auto.
    - destruct H as [H _]. auto.
    - destruct H as [v [p0 [-> [-> H]]]]. split; eauto.
  Qed.

  Lemma idle_active_run s (o : op s) :
    (forall x, idle s x -> idle s (fst (run o x))) /\
    (forall p x, active s p x -> active s p (fst (run o x))).
  Proof.
    induction o.
    - cbn. auto.
    - destruct IHo1 as [I1 A1], IHo2 as [I2 A2]. cbn [TxModel.run fst]. split; auto.
    - cbn. auto.
    - cbn [TxModel.run fst]. assert (Hn : forall v, option_map (mk s) new = Some v -> idle s v).
      { destruct new; [|discriminate]. cbn. intros v E. inversion E. apply idle_mk. }
      split; intros; [apply opt_set_idle|apply opt_set_active]; assumption.
    - destruct IHo as [I1 A1]. split.
      + intros [[v|] sn] I; [|exact I]. destruct I as [E H]. cbn in *. split; [exact E|].
        intros v2 E2. inversion E2. subst. auto.
      + intros p [[v|] sn] I; [|exact I]. cbn [TxModel.run to_value to_snapshot fst active] in *.
        destruct sn as [[v0|]|].
        * destruct I as [I J]. split; [exact I|]. intros v2 E2. inversion E2; subst. auto.
        * destruct I as [I J]. split; [exact I|]. intros v2 E2. inversion E2; subst. auto.
        * destruct I as [v1 [p0 [E1 [-> J]]]]. inversion E1; subst. exists (fst (run o v1)), p0. split; [reflexivity|]. split; [reflexivity|]. apply A1, J.
    - split.
      + intros x H. exact (map_insert_idle (idle s) k (mk s v) x (idle_mk s v) H).
      + intros p x H. exact (map_insert_active (idle s) (active s) k (mk s v) p x (idle_mk s v) H).
    - split.
      + intros x H. exact (map_remove_idle (idle s) k x H).
      + intros p x H. exact (map_remove_active (idle s) (active s) k p x H).
    - destruct IHo as [I1 A1].
      assert (E : forall m : list (K * obj s), forall k', aget eqb k' (upd eqb k (fun v => fst (run o v)) m) =
        option_map (fun v => if eqb k' k then fst (run o v) else v) (aget eqb k' m)).
      { intros m k'. rewrite aget_upd. destruct (eqb k' k); [reflexivity|]. destruct (aget eqb k' m); reflexivity. }
      split.
      + intros x H. apply (inner_map_idle (idle s) (fun k' v => if eqb k' k then fst (run o v) else v) _ x); [| |assumption].
        * intros k'. apply E.
        * intros k' v I. destruct (eqb k' k); auto.
      + intros p x H. apply (inner_map_active (idle s) (active s) (fun k' v => if eqb k' k then fst (run o v) else v) _ p x); [| | |assumption].
        * intros k'. apply E.
        * intros k' v I. destruct (eqb k' k); auto.
        * intros k' q v I. destruct (eqb k' k); auto.
    - split.
      + intros x Hx. apply (inner_map_idle (idle s) (fun k v => fst (run (f k) v)) _ x); [| |assumption].
        * intros k. apply (aget_mapk (fun k v => fst (run (f k) v))).
        * intros k. apply H.
      + intros p x Hx. apply (inner_map_active (idle s) (active s) (fun k v => fst (run (f k) v)) _ p x); [| | |assumption].
        * intros k. apply (aget_mapk (fun k v => fst (run (f k) v))).
        * intros k. exact (proj1 (H k)).
        * intros k. exact (proj2 (H k)).
    - split.
      + intros x Hx. apply (map_remove_all_idle (idle s)). apply (inner_map_idle (idle s) (fun k v => fst (run (f k) v)) _ x); [| |assumption].
        * intros k. apply (aget_mapk (fun k v => fst (run (f k) v))).
        * intros k. apply H.
      + intros q x Hx. apply (map_remove_all_active (idle s) (active s)). apply (inner_map_active (idle s) (active s) (fun k v => fst (run (f k) v)) _ q x); [| | |assumption].
        * intros k. apply (aget_mapk (fun k v => fst (run (f k) v))).
        * intros k. exact (proj1 (H k)).
        * intros k. exact (proj2 (H k)).
    - destruct IHo as [I1 A1]. split.
      + intros x [H1 H2]. split; cbn; auto.
      + intros p x [H1 H2]. split; cbn; auto.
    - destruct IHo as [I1 A1]. split.
      + intros x [H1 H2]. split; cbn; auto.
      + intros p x [H1 H2]. split; cbn; auto.
    - destruct IHo as [I1 A1]. split.
      + intros x H1. cbn. auto.
      + intros p x H1. cbn. auto.
    - cbn. auto.
  Qed.
End P.
