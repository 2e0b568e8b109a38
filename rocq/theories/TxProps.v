(** C20: transactional containers - rollback restores, commit keeps.

    Specification: [prun] runs the same program on the same nesting of plain containers
    (ordinary values, [option]s, maps, pairs); [TxProofs.peq] says that two plain contents answer
    every lookup alike (fields marked [#[tx(skip)]] excepted); [settled] are the objects a client
    can hold outside a transaction: freshly built, then changed by any programs and by any
    committed or rolled back transactions. *)
From Coq Require Import Bool NArith.
From Verif Require Import AMap TxModel TxProofs.
Local Arguments mapv : simpl never.
Local Arguments upd : simpl never.
Local Arguments akeys : simpl never.

Section Spec.
  Context {K A : Type} (eqb : K -> K -> bool).

  Fixpoint prun {s} (o : op (K:=K) (A:=A) s) : plain s -> plain s * list bool :=
    match o in op s return plain s -> plain s * list bool with
    | ONop => fun x => (x, [])
    | OSeq a b => fun x =>
        (fst (prun b (fst (prun a x))), snd (prun a x) ++ snd (prun b (fst (prun a x))))
    | OMod f => fun x => (f x, [])
    | @OSet _ _ s new => fun _ => (new, [])
    | @OInner _ _ s o => fun x : option (plain s) =>
        match x with Some v => (Some (fst (prun o v)), snd (prun o v)) | None => (None, []) end
    | @OInsert _ _ s k v => fun x : list (K * plain s) =>
        (aset eqb k v x, [match aget eqb k x with Some _ => true | None => false end])
    | @ORemove _ _ s k => fun x : list (K * plain s) =>
        (adel eqb k x, [match aget eqb k x with Some _ => true | None => false end])
    | @OGetMut _ _ s k o => fun x : list (K * plain s) =>
        (upd eqb k (fun v => fst (prun o v)) x,
         match aget eqb k x with Some v => snd (prun o v) | None => [] end)
    | @OEach _ _ s f => fun x : list (K * plain s) =>
        (map (fun e => (fst e, fst (prun (f (fst e)) (snd e)))) x, [])
    | @ORetain _ _ s f p => fun x : list (K * plain s) =>
        (filter (fun e => p (fst e) (snd e))
           (map (fun e => (fst e, fst (prun (f (fst e)) (snd e)))) x), [])
    | OFst o => fun x => ((fst (prun o (fst x)), snd x), snd (prun o (fst x)))
    | OSnd o => fun x => ((fst x, fst (prun o (snd x))), snd (prun o (snd x)))
    | OTx o => fun x => ((fst (prun o (fst x)), snd x), snd (prun o (fst x)))
    | OSkipped f => fun x => ((fst x, f (snd x)), [])
    end.

  (** objects outside a transaction *)
  Inductive settled (s : shape) : obj (K:=K) (A:=A) s -> Prop :=
  | settled_new p : pwf s p -> settled s (mk s p)
  | settled_run x o : settled s x -> op_ok o -> settled s (fst (run eqb o x))
  | settled_commit x o : settled s x -> op_ok o ->
      settled s (commit s (fst (run eqb o (begin s x))))
  | settled_rollback x o : settled s x -> op_ok o ->
      settled s (rollback eqb s (fst (run eqb o (begin s x)))).
End Spec.

Section Thms.
  Context {K A : Type} (eqb : K -> K -> bool) (eqb_spec : forall a b, reflect (a = b) (eqb a b)).
  Notation obj := (@obj K A). Notation plain := (@plain K A). Notation op := (@op K A).

  Lemma settled_inv s (x : obj s) : settled eqb s x -> wf s x /\ idle eqb s x.
  Proof.
    induction 1 as [p W|x o H [W I] OK|x o H [W I] OK|x o H [W I] OK].
    - split; [apply wf_mk, W|apply idle_mk; exact eqb_spec].
    - split; [apply wf_run; assumption|apply idle_active_run; assumption].
    - assert (Wr : wf s (fst (run eqb o (begin s x)))) by (apply wf_run, wf_begin; assumption).
      split; [apply wf_commit, Wr|].
      eapply active_commit; [exact eqb_spec|exact Wr|]. apply idle_active_run; [exact eqb_spec|].
      apply idle_begin; assumption.
    - assert (Wr : wf s (fst (run eqb o (begin s x)))) by (apply wf_run, wf_begin; assumption).
      split; [apply wf_rollback; [exact eqb_spec|exact Wr]|].
      eapply active_rollback; [exact eqb_spec|exact Wr|]. apply idle_active_run; [exact eqb_spec|].
      apply idle_begin; assumption.
  Qed.

  Lemma adel_mapv {X Y} (f : X -> Y) k (m : list (K * X)) : mapv f (adel eqb k m) = adel eqb k (mapv f m).
  Proof.
    unfold mapv, adel. induction m as [|[k2 x] m IH]; cbn; [reflexivity|].
    destruct (negb (eqb k k2)); cbn; rewrite IH; reflexivity.
  Qed.
  Lemma aset_mapv {X Y} (f : X -> Y) k v (m : list (K * X)) : mapv f (aset eqb k v m) = aset eqb k (f v) (mapv f m).
  Proof.
    unfold mapv. induction m as [|[k2 x] m IH]; cbn; [reflexivity|].
    destruct (eqb k k2); cbn; rewrite ?IH; reflexivity.
  Qed.
  Lemma insert_inner {T} k (v : T) (x : tmap T) :
    tm_inner (fst (map_insert eqb k v x)) = aset eqb k v (tm_inner x) /\
    snd (map_insert eqb k v x) = match aget eqb k (tm_inner x) with Some _ => true | None => false end.
  Proof.
    unfold map_insert. destruct (tm_tx x), (aget eqb k (tm_inner x)); auto.
  Qed.
  Lemma adel_absent {T} k (m : list (K * T)) : aget eqb k m = None -> adel eqb k m = m.
  Proof.
    unfold adel. induction m as [|[k2 x] m IH]; cbn; [reflexivity|].
    destruct (eqb k k2); [discriminate|]. cbn. intros E. rewrite IH; auto.
  Qed.
  Lemma remove_inner {T} k (x : tmap T) :
    tm_inner (fst (map_remove eqb k x)) = adel eqb k (tm_inner x) /\
    snd (map_remove eqb k x) = match aget eqb k (tm_inner x) with Some _ => true | None => false end.
  Proof.
    unfold map_remove. destruct (aget eqb k (tm_inner x)) eqn:E.
    - destruct (tm_tx x) as [tx|]; [|auto]. destruct (memk eqb k (mt_added tx)); [auto|].
      destruct (negb _); auto.
    - cbn. rewrite adel_absent; auto.
  Qed.
  Lemma remove_all_inner {T} ks : forall (x : tmap T),
    tm_inner (map_remove_all eqb ks x) = filter (fun e => negb (memk eqb (fst e) ks)) (tm_inner x).
  Proof.
    unfold map_remove_all. induction ks as [|k ks IH]; intros x; cbn [fold_left].
    - cbn. induction (tm_inner x); cbn; congruence.
    - rewrite IH, (proj1 (remove_inner k x)). unfold adel.
      induction (tm_inner x) as [|e m IHm]; [reflexivity|]. cbn [filter].
      change (memk eqb (fst e) (k :: ks)) with (eqb (fst e) k || memk eqb (fst e) ks).
      destruct (eqb_spec k (fst e)) as [->|N]; cbn [negb].
      + destruct (eqb_spec (fst e) (fst e)) as [_|C]; [|congruence]. cbn. exact IHm.
      + destruct (eqb_spec (fst e) k) as [C|_]; [congruence|]. cbn [orb filter].
        destruct (negb (memk eqb (fst e) ks)); [f_equal|]; exact IHm.
  Qed.
  Lemma memk_in k l : memk eqb k l = true <-> In k l.
  Proof.
    unfold memk. rewrite existsb_exists. split.
    - intros [y [I E]]. destruct (eqb_spec k y); congruence.
    - intros I. exists k. split; [exact I|]. destruct (eqb_spec k k); congruence.
  Qed.
  Lemma retain_filter {X} (p : K -> X -> bool) (m : list (K * X)) : NoDup (akeys m) ->
    filter (fun e => negb (memk eqb (fst e) (map fst (filter (fun e => negb (p (fst e) (snd e))) m)))) m
    = filter (fun e => p (fst e) (snd e)) m.
  Proof.
    intros N. apply filter_ext_in. intros [k x] I. cbn.
    destruct (p k x) eqn:E.
    - destruct (memk eqb k _) eqn:M; [|reflexivity]. apply memk_in in M.
      apply in_map_iff in M. destruct M as [[k2 x2] [E2 M]]. cbn in E2. subst k2.
      apply filter_In in M. destruct M as [M1 M2]. cbn in M2.
      apply (in_aget' eqb eqb_spec k x m N) in I. apply (in_aget' eqb eqb_spec k x2 m N) in M1.
      assert (x = x2) by congruence. subst. rewrite E in M2. discriminate.
    - destruct (memk eqb k _) eqn:M; [reflexivity|]. exfalso.
      rewrite <- Bool.not_true_iff_false in M. apply M, memk_in, in_map_iff. exists (k, x).
      split; [reflexivity|]. apply filter_In. split; [exact I|]. cbn. rewrite E. reflexivity.
  Qed.

  Lemma run_plain s (o : op s) : op_ok o -> forall x, wf s x ->
    read s (fst (run eqb o x)) = fst (prun eqb o (read s x)) /\
    snd (run eqb o x) = snd (prun eqb o (read s x)).
  Proof.
    induction o; cbn [op_ok]; intros OK x W.
    - auto.
    - destruct OK as [O1 O2]. cbn [run prun fst snd].
      destruct (IHo1 O1 x W) as [E1 E2]. pose proof (wf_run eqb eqb_spec s o1 O1 x W) as W1.
      destruct (IHo2 O2 _ W1) as [E3 E4]. rewrite E3, E4, E2, E1. auto.
    - auto.
    - cbn. split; [|reflexivity]. destruct new; cbn; [rewrite read_mk|]; reflexivity.
    - destruct x as [[v|] sn]; cbn; [|auto]. destruct W as [W1 _]. cbn in W1.
      destruct (IHo OK v (W1 v eq_refl)) as [E1 E2]. rewrite E1. auto.
    - cbn in x. cbn [run prun fst snd read]. destruct (insert_inner k (mk s v) x) as [E1 E2].
      rewrite E1, E2, aset_mapv, read_mk, aget_mapv. split; [reflexivity|].
      destruct (aget eqb k (tm_inner x)); reflexivity.
    - cbn in x. cbn [run prun fst snd read]. destruct (remove_inner k x) as [E1 E2].
      rewrite E1, E2, adel_mapv, aget_mapv. split; [reflexivity|].
      destruct (aget eqb k (tm_inner x)); reflexivity.
    - cbn in x. cbn [run prun fst snd read tm_inner]. destruct W as [_ [W1 _]]. split.
      + unfold mapv, upd. rewrite !map_map. apply map_ext_in. intros [k2 v] I. cbn.
        destruct (eqb k k2); [|reflexivity]. cbn. rewrite (proj1 (IHo OK v (W1 _ _ I))). reflexivity.
      + rewrite aget_mapv. destruct (aget eqb k (tm_inner x)) as [v|] eqn:E; [|reflexivity]. cbn.
        apply IHo; [exact OK|]. eapply W1, (aget_in' eqb eqb_spec), E.
    - cbn in x. cbn [run prun fst snd read tm_inner]. destruct W as [_ [W1 _]]. split; [|reflexivity].
      unfold mapv. rewrite !map_map. apply map_ext_in. intros [k2 v] I. cbn.
      rewrite (proj1 (H k2 (OK k2) v (W1 _ _ I))). reflexivity.
    - cbn in x. cbn [run prun fst snd read]. destruct W as [N [W1 _]]. split; [|reflexivity].
      rewrite remove_all_inner. cbn [tm_inner].
      set (m := map (fun e => (fst e, fst (run eqb (f (fst e)) (snd e)))) (tm_inner x)).
      assert (Nm : NoDup (akeys m)) by (unfold m; rewrite (akeys_mapk (fun k v => fst (run eqb (f k) v))); exact N).
      rewrite (retain_filter (fun k v => p k (read s v)) m Nm).
      assert (E : mapv (read s) m = map (fun e => (fst e, fst (prun eqb (f (fst e)) (snd e)))) (mapv (read s) (tm_inner x))).
      { unfold m, mapv. rewrite !map_map. apply map_ext_in. intros [k2 v] I. cbn.
        rewrite (proj1 (H k2 (OK k2) v (W1 _ _ I))). reflexivity. }
      rewrite <- E. clear. unfold mapv. induction m as [|[k2 v] m IH]; cbn; [reflexivity|].
      destruct (p k2 (read s v)); cbn; rewrite IH; reflexivity.
    - destruct W as [W1 W2]. cbn. destruct (IHo OK _ W1) as [E1 E2]. rewrite E1. auto.
    - destruct W as [W1 W2]. cbn. destruct (IHo OK _ W2) as [E1 E2]. rewrite E1. auto.
    - cbn. destruct (IHo OK _ W) as [E1 E2]. rewrite E1. auto.
    - auto.
  Qed.

  (** After begin, any program and rollback, every lookup answers as before begin. *)
  Theorem C20_rollback_restores s (x : obj s) (o : op s) :
    settled eqb s x -> op_ok o ->
    peq eqb s (read s (rollback eqb s (fst (run eqb o (begin s x))))) (read s x).
  Proof.
    intros H OK. destruct (settled_inv s x H) as [W I].
    assert (Wr : wf s (fst (run eqb o (begin s x)))) by (apply wf_run, wf_begin; assumption).
    eapply active_rollback; [exact eqb_spec|exact Wr|]. apply idle_active_run; [exact eqb_spec|].
    apply idle_begin; assumption.
  Qed.

  (** After begin and any program, and still after commit, the content and all returned booleans
      are those of the program on plain containers. *)
  Theorem C20_commit_keeps s (x : obj s) (o : op s) :
    settled eqb s x -> op_ok o ->
    read s (fst (run eqb o (begin s x))) = fst (prun eqb o (read s x)) /\
    read s (commit s (fst (run eqb o (begin s x)))) = fst (prun eqb o (read s x)) /\
    snd (run eqb o (begin s x)) = snd (prun eqb o (read s x)).
  Proof.
    intros H OK. destruct (settled_inv s x H) as [W I].
    destruct (run_plain s o OK (begin s x) (wf_begin s x W)) as [E1 E2].
    rewrite read_begin in E1, E2. rewrite read_commit. auto.
  Qed.

  (** Outside transactions the containers are plain containers. *)
  Theorem C20_no_tx_plain s (x : obj s) (o : op s) :
    settled eqb s x -> op_ok o ->
    read s (fst (run eqb o x)) = fst (prun eqb o (read s x)) /\
    snd (run eqb o x) = snd (prun eqb o (read s x)).
  Proof.
    intros H OK. destruct (settled_inv s x H) as [W I]. apply run_plain; assumption.
  Qed.

  (** [in_tx] tells exactly whether a transaction is open, and no debug assertion of
      begin/commit fires. *)
  Theorem C20_in_tx_and_asserts s (x : obj s) (o : op s) :
    settled eqb s x -> op_ok o ->
    in_tx s x = false /\ begin_ok s x = true /\
    in_tx s (fst (run eqb o (begin s x))) = true /\
    commit_ok s (fst (run eqb o (begin s x))) = true /\
    in_tx s (commit s (fst (run eqb o (begin s x)))) = false /\
    in_tx s (rollback eqb s (fst (run eqb o (begin s x)))) = false.
  Proof.
    intros H OK. destruct (settled_inv s x H) as [W I].
    assert (Wr : wf s (fst (run eqb o (begin s x)))) by (apply wf_run, wf_begin; assumption).
    assert (Ar : active eqb s (read s x) (fst (run eqb o (begin s x)))).
    { apply idle_active_run; [exact eqb_spec|]. apply idle_begin; assumption. }
    split; [eapply idle_in_tx; eassumption|]. split; [eapply idle_begin_ok; eassumption|].
    split; [eapply active_in_tx; eassumption|].
    destruct (active_commit eqb eqb_spec _ _ _ Wr Ar) as [C1 C2]. split; [exact C1|].
    split; [eapply idle_in_tx; eassumption|].
    eapply idle_in_tx. apply (active_rollback eqb eqb_spec _ _ _ Wr Ar).
  Qed.
End Thms.

(** A concrete case: a map of optional counters; remove-insert-remove-insert of one key, a new
    key, an in-place change and an option set to None, then rollback resp. commit. *)
Definition ex_shape : shape := SMap (SOpt SVal).
Definition ex_obj : obj (K:=N) (A:=N) ex_shape := mk ex_shape [(1, Some 10); (2, Some 20); (3, None)]%N.
Definition ex_op : op (K:=N) (A:=N) ex_shape :=
  OSeq (ORemove 1%N) (OSeq (OInsert (s:=SOpt SVal) 1%N (Some 11%N)) (OSeq (ORemove 1%N)
  (OSeq (OInsert (s:=SOpt SVal) 1%N (Some 12%N)) (OSeq (OInsert (s:=SOpt SVal) 7%N None)
  (OSeq (OGetMut 2%N (OSeq (OInner (OMod (N.add 5))) (OSet (s:=SVal) None)))
        (ORetain (fun _ => ONop) (fun k _ => negb (N.eqb k 3)))))))).
Example ex_settled : settled N.eqb ex_shape ex_obj /\ op_ok ex_op.
Proof.
  split; [|cbn; repeat split; auto; discriminate].
  apply settled_new. cbn. split.
  - repeat constructor; cbn; intuition discriminate.
  - intros k p _ q _. exact I.
Qed.
Example ex_commit : read ex_shape (commit ex_shape (fst (run N.eqb ex_op (begin ex_shape ex_obj)))) =
  [(2, None); (1, Some 12); (7, None)]%N.
Proof. reflexivity. Qed.
Example ex_rollback : read ex_shape (rollback N.eqb ex_shape (fst (run N.eqb ex_op (begin ex_shape ex_obj)))) =
  [(2, Some 20); (1, Some 10); (3, None)]%N.
Proof. reflexivity. Qed.
