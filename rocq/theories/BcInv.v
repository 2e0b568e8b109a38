(** The structural invariant holds in every history; what each call does to the blocks held. *)
From Verif Require Export BcBasics.
From Coq Require Import ZArith ZifyN ZifyNat ZifyBool Lia.

Lemma block_at_set_shard k s g s' n : is_mc s = false ->
  block_at (set_shard k s g) s' n = if N.eqb s' s then bget n (g_blocks g) else block_at k s' n.
Proof.
  intros Hm. unfold block_at, set_shard. cbn [k_masters k_shards]. rewrite sget_aset.
  destruct (N.eqb_spec s' s) as [Es|Es]; [subst; now rewrite Hm|reflexivity].
Qed.
Lemma height_set_shard k s g s' : is_mc s = false ->
  known_height (set_shard k s g) s' = if N.eqb s' s then g_synced g else known_height k s'.
Proof.
  intros Hm. unfold known_height, set_shard. cbn [k_masters k_shards]. rewrite sget_aset.
  destruct (N.eqb_spec s' s) as [Es|Es]; [subst; now rewrite Hm|reflexivity].
Qed.
Lemma is_mc_eq s : is_mc s = true <-> s = 0.
Proof. unfold is_mc. apply N.eqb_eq. Qed.
Lemma block_at_set_masters k g s' n :
  block_at (set_masters k g) s' n = if is_mc s' then bget n (g_blocks g) else block_at k s' n.
Proof. unfold block_at, set_masters. cbn [k_masters k_shards]. destruct (is_mc s'); reflexivity. Qed.
Lemma height_set_masters k g s' :
  known_height (set_masters k g) s' = if is_mc s' then g_synced g else known_height k s'.
Proof. unfold known_height, set_masters. cbn [k_masters k_shards]. destruct (is_mc s'); reflexivity. Qed.

Lemma block_at_shard_group k s n : is_mc s = false ->
  block_at k s n = bget n (g_blocks (shard_group k s)).
Proof.
  intros Hm. unfold block_at, shard_group. rewrite Hm.
  destruct (aget N.eqb s (k_shards k)); reflexivity.
Qed.
Lemma height_shard_group k s : is_mc s = false ->
  known_height k s = g_synced (shard_group k s).
Proof.
  intros Hm. unfold known_height, shard_group. rewrite Hm.
  destruct (aget N.eqb s (k_shards k)); reflexivity.
Qed.
Lemma ginv_shard_group k s : kinv k -> ginv s (shard_group k s).
Proof.
  intros (_ & _ & _ & H). unfold shard_group. destruct (aget N.eqb s (k_shards k)) as [g|] eqn:E.
  - apply (H _ _ E).
  - apply ginv_empty_s.
Qed.

Lemma kinv_set_shard k s g : kinv k -> is_mc s = false -> ginv s g -> kinv (set_shard k s g).
Proof.
  intros (H1 & H2 & H3 & H4) Hm Hg. split; [exact H1|]. split; [exact H2|].
  split; [now apply snodup_aset|]. intros s' g' E. cbn [set_shard k_shards] in E.
  rewrite sget_aset in E. destruct (N.eqb_spec s' s) as [Es|Es].
  - injection E as <-. subst. auto.
  - apply (H4 _ _ E).
Qed.
Lemma kinv_set_masters k g : kinv k -> ginv 0 g -> linv (g_data g) -> kinv (set_masters k g).
Proof.
  intros (H1 & H2 & H3 & H4) Hg Hl. split; [exact Hg|]. split; [exact Hl|]. split; [exact H3|].
  exact H4.
Qed.

(** the data of the master group *)
Lemma linv_filter f l r r' : linv (mkmdata l r) -> linv (mkmdata (filter f l) r').
Proof.
  intros [Hs Hi]. split; cbn in *.
  - now apply ofilter_sorted.
  - intros n b Hin. apply filter_In in Hin as [Hin _]. auto.
Qed.
Lemma linv_move_start n m : linv m -> linv (move_range_start n m).
Proof.
  intros H. unfold move_range_start. destruct (m_range m) as [[a b]|]; [|exact H].
  destruct (a <=? n); [|exact H]. exact H.
Qed.
Lemma linv_before n m : linv m -> linv (remove_last_before n m).
Proof. destruct m as [l r]. apply linv_filter. Qed.
Lemma linv_from n m : linv m -> linv (remove_last_from n m).
Proof. destruct m as [l r]. apply linv_filter. Qed.
Lemma linv_befores l m : linv m -> linv (remove_last_befores l m).
Proof. revert m. induction l as [|n l IH]; intros m H; [exact H|]. apply IH, linv_before, H. Qed.
Lemma linv_froms l m : linv m -> linv (remove_last_froms l m).
Proof. revert m. induction l as [|n l IH]; intros m H; [exact H|]. apply IH, linv_from, H. Qed.
Lemma linv_received id m : linv m -> linv (m_on_received id m).
Proof. intros H. exact H. Qed.
Lemma linv_collated c m : is_mc (b_shard (c_id c)) = true -> linv m -> linv (m_on_collated c m).
Proof.
  intros Hmc H. apply (linv_move_start (b_seqno (c_id c))) in H. destruct H as [Hs Hi].
  unfold m_on_collated. cbn. split; cbn.
  - apply (oput_sorted _ Nto), Hs.
  - intros n b Hin. apply (oin_get _ Nto) in Hin; [|apply (oput_sorted _ Nto), Hs].
    rewrite (oget_put _ Nto) in Hin by exact Hs. rewrite cmp_eqb in Hin.
    destruct (N.eqb_spec n (b_seqno (c_id c))) as [En|En].
    + injection Hin as <-. subst n. unfold key_of. apply is_mc_eq in Hmc. now rewrite Hmc.
    + apply Hi. apply (oin_get _ Nto); assumption.
Qed.

(** one shard map after the removal of some blocks *)
Definition shrunk (shs shs' : list (N * group sdata)) : Prop :=
  (NoDup (akeys shs) -> NoDup (akeys shs')) /\
  forall s, match aget N.eqb s shs, aget N.eqb s shs' with
            | Some g, Some g' =>
                (srt (g_blocks g) -> srt (g_blocks g')) /\ hle (g_synced g) (g_synced g') /\
                g_gc g' = g_gc g /\ g_data g' = g_data g /\
                (srt (g_blocks g) -> forall n e, bget n (g_blocks g') = Some e -> bget n (g_blocks g) = Some e)
            | None, None => True
            | _, _ => False
            end.
Lemma shrunk_refl shs : shrunk shs shs.
Proof.
  split; [auto|]. intros s. destruct (aget N.eqb s shs); [|exact I].
  split; [auto|]. split; [apply hle_refl|]. auto.
Qed.
Lemma shrunk_trans a b c : shrunk a b -> shrunk b c -> shrunk a c.
Proof.
  intros [N1 H1] [N2 H2]. split; [auto|]. intros s. specialize (H1 s). specialize (H2 s).
  destruct (aget N.eqb s a) as [ga|], (aget N.eqb s b) as [gb|], (aget N.eqb s c) as [gc|];
    try contradiction; try exact I.
  destruct H1 as (A1 & A2 & A3 & A4 & A5), H2 as (B1 & B2 & B3 & B4 & B5).
  split; [auto|]. split; [eapply hle_trans; eassumption|]. split; [congruence|].
  split; [congruence|]. intros Hs n e E. apply A5; [exact Hs|]. apply B5; auto.
Qed.

Lemma shrunk_step shs s g g' : aget N.eqb s shs = Some g ->
  (srt (g_blocks g) -> srt (g_blocks g')) -> hle (g_synced g) (g_synced g') ->
  g_gc g' = g_gc g -> g_data g' = g_data g ->
  (srt (g_blocks g) -> forall n e, bget n (g_blocks g') = Some e -> bget n (g_blocks g) = Some e) ->
  shrunk shs (aset N.eqb s g' shs).
Proof.
  intros E H1 H2 H3 H4 H5. split; [apply snodup_aset|]. intros s'. rewrite sget_aset.
  destruct (N.eqb_spec s' s) as [Es|Es].
  - subst s'. rewrite E. auto.
  - destruct (aget N.eqb s' shs); [|exact I]. split; [auto|]. split; [apply hle_refl|]. auto.
Qed.

Lemma bdel_sub n m n' e : srt m -> bget n' (bdel n m) = Some e -> bget n' m = Some e.
Proof. intros Hs. rewrite bget_bdel by exact Hs. destruct (N.eqb n' n); [discriminate|auto]. Qed.

Lemma extract_loop_shrunk fuel : forall mc q shs acc,
  shrunk shs (fst (extract_loop fuel mc q shs acc)).
Proof.
  induction fuel as [|fuel IH]; intros mc q shs acc; [apply shrunk_refl|].
  cbn [extract_loop]. destruct q as [|id q]; [apply shrunk_refl|].
  destruct (aget N.eqb (b_shard id) shs) as [g|] eqn:Eg; [|apply IH].
  destruct (bget (b_seqno id) (g_blocks g)) as [e|] eqn:Ee; [|apply IH].
  cbn zeta. destruct (e_ref e =? mc).
  - eapply shrunk_trans; [|apply IH].
    set (g1 := with_blocks g (bdel (b_seqno id) (g_blocks g))).
    destruct (refresh_spec _ (b_seqno (e_id e)) g1) as (Rb & Rd & Rg & Rh & _).
    apply (shrunk_step _ _ g); auto.
    + rewrite Rb. apply bdel_sorted.
    + intros Hs n e'. rewrite Rb. now apply bdel_sub.
  - eapply shrunk_trans; [|apply IH]. apply (shrunk_step _ _ g); auto.
    + apply bdel_sorted.
    + apply hle_refl.
    + intros Hs n e'. now apply bdel_sub.
Qed.

Lemma extract_subgraph_shrunk k m :
  let k' := fst (extract_subgraph k m) in
  k_zs k' = k_zs k /\ k_masters k' = k_masters k /\ shrunk (k_shards k) (k_shards k').
Proof.
  unfold extract_subgraph. set (q := map t_id _).
  pose proof (extract_loop_shrunk (extract_fuel q (k_shards k)) (b_seqno (e_id m)) q (k_shards k) []) as H.
  destruct (extract_loop _ _ _ _ _) as [shs acc]. cbn in *. auto.
Qed.

Lemma kinv_shrunk k k' : kinv k -> k_masters k' = k_masters k -> shrunk (k_shards k) (k_shards k') ->
  kinv k'.
Proof.
  intros (H1 & H2 & H3 & H4) Em [HN HS]. split; [rewrite Em; exact H1|]. split; [rewrite Em; exact H2|].
  split; [auto|]. intros s g' E. specialize (HS s). rewrite E in HS.
  destruct (aget N.eqb s (k_shards k)) as [g|] eqn:Eg; [|contradiction].
  destruct (H4 _ _ Eg) as [Hm Hg]. destruct HS as (A1 & A2 & A3 & A4 & A5).
  split; [exact Hm|]. apply (ginv_sub _ _ s g); auto; apply A1 || apply A5; apply Hg.
Qed.

(** what a removal leaves: blocks as before, heights not below *)
Definition loses (k k' : cache) : Prop :=
  (forall s, hle (known_height k s) (known_height k' s)) /\
  (forall s n e, block_at k' s n = Some e -> block_at k s n = Some e).
Lemma loses_refl k : loses k k.
Proof. split; [intros s; apply hle_refl|auto]. Qed.
Lemma loses_trans a b c : loses a b -> loses b c -> loses a c.
Proof.
  intros [A1 A2] [B1 B2]. split; [|auto]. intros s. eapply hle_trans; [apply A1|apply B1].
Qed.
Lemma loses_shrunk k k' : kinv k -> k_masters k' = k_masters k -> shrunk (k_shards k) (k_shards k') ->
  loses k k'.
Proof.
  intros (_ & _ & _ & H4) Em [_ HS]. split.
  - intros s. unfold known_height. rewrite Em. destruct (is_mc s); [apply hle_refl|].
    specialize (HS s). destruct (aget N.eqb s (k_shards k)), (aget N.eqb s (k_shards k'));
      try contradiction; [apply HS|apply hle_refl].
  - intros s n e. unfold block_at. rewrite Em. destruct (is_mc s); [auto|].
    specialize (HS s). destruct (aget N.eqb s (k_shards k)) as [g|] eqn:Eg, (aget N.eqb s (k_shards k')) as [g'|];
      try contradiction; [|discriminate].
    destruct HS as (_ & _ & _ & _ & A5). apply A5. apply (H4 _ _ Eg).
Qed.
Lemma loses_masters k g : loses k (set_masters k g) <->
  hle (g_synced (k_masters k)) (g_synced g) /\
  (forall n e, bget n (g_blocks g) = Some e -> bget n (g_blocks (k_masters k)) = Some e).
Proof.
  split.
  - intros [H1 H2]. split; [apply (H1 0)|]. intros n e. apply (H2 0).
  - intros [H1 H2]. split.
    + intros s. rewrite height_set_masters. destruct (is_mc s) eqn:Es; [|apply hle_refl].
      unfold known_height. rewrite Es. exact H1.
    + intros s n e. rewrite block_at_set_masters. destruct (is_mc s) eqn:Es; [|auto].
      unfold block_at. rewrite Es. apply H2.
Qed.
Lemma loses_shard k s g g' : is_mc s = false -> aget N.eqb s (k_shards k) = Some g ->
  hle (g_synced g) (g_synced g') ->
  (forall n e, bget n (g_blocks g') = Some e -> bget n (g_blocks g) = Some e) ->
  loses k (set_shard k s g').
Proof.
  intros Hm Eg H1 H2. split.
  - intros s'. rewrite height_set_shard by exact Hm. destruct (N.eqb_spec s' s) as [Es|Es]; [|apply hle_refl].
    subst s'. unfold known_height. rewrite Hm, Eg. exact H1.
  - intros s' n e. rewrite block_at_set_shard by exact Hm. destruct (N.eqb_spec s' s) as [Es|Es]; [|auto].
    subst s'. unfold block_at. rewrite Hm, Eg. apply H2.
Qed.

(** the master group after a master block has been taken out *)
Definition popped_masters (g : group mdata) (n : N) : group mdata :=
  mkgroup (bdel n (g_blocks g)) (g_synced g)
    (move_range_start n (remove_last_before n (g_data g))) (g_gc g).

Lemma first_applied_spec from m : srt m ->
  match first_applied from m with
  | Some (n, e) => from <= n /\ bget n m = Some e /\ applied e = true /\
      forall n' e', from <= n' -> bget n' m = Some e' -> applied e' = true -> n <= n'
  | None => forall n e, from <= n -> bget n m = Some e -> applied e = false
  end.
Proof.
  induction 1 as [|n e m Hs IH Hf]; [cbn; discriminate|].
  unfold first_applied. cbn [find fst snd]. fold (first_applied from m).
  assert (Hbg : forall n', bget n' ((n, e) :: m) = match N.compare n' n with Eq => Some e | Lt => None | Gt => bget n' m end)
    by reflexivity.
  destruct ((from <=? n) && applied e) eqn:E.
  - apply andb_true_iff in E as [E1 E2]. apply N.leb_le in E1.
    split; [exact E1|]. rewrite Hbg, N.compare_refl. split; [reflexivity|]. split; [exact E2|].
    intros n' e' _ E' _. rewrite Hbg in E'. destruct (N.compare_spec n' n) as [C|C|C]; [lia|discriminate|lia].
  - assert (Hne : from <= n -> applied e = true -> False).
    { intros L A. apply N.leb_le in L. rewrite L, A in E. discriminate. }
    destruct (first_applied from m) as [[n2 e2]|].
    + destruct IH as (I1 & I2 & I3 & I4). split; [exact I1|].
      assert (Hlt : n < n2).
      { apply (oin_get _ Nto) in I2; [|exact Hs]. rewrite Forall_forall in Hf.
        specialize (Hf _ I2). cbn in Hf. now apply N.compare_lt_iff in Hf. }
      rewrite Hbg. assert (C : N.compare n2 n = Gt) by (apply N.compare_gt_iff; exact Hlt).
      rewrite C. split; [exact I2|]. split; [exact I3|].
      intros n' e' L E' A. rewrite Hbg in E'.
      destruct (N.compare_spec n' n) as [C'|C'|C']; [|discriminate|].
      * injection E' as <-. subst n'. exfalso. auto.
      * eapply I4; eassumption.
    + intros n' e' L E'. rewrite Hbg in E'. destruct (N.compare_spec n' n) as [C'|C'|C']; [|discriminate|].
      * injection E' as <-. subst n'. destruct (applied e); [exfalso; auto|reflexivity].
      * eapply IH; eassumption.
Qed.

Lemma exec_pop k from : kinv k ->
  let k' := fst (do_pop k from) in
  match snd (do_pop k from) with
  | RGraph e shs last =>
      let n := b_seqno (e_id e) in
      from <= n /\ block_at k 0 n = Some e /\ applied e = true /\
      (forall n' e', from <= n' -> block_at k 0 n' = Some e' -> applied e' = true -> n <= n') /\
      (last = true <-> forall n' e', n < n' -> block_at k 0 n' = Some e' -> applied e' = false) /\
      k_masters k' = popped_masters (k_masters k) n /\
      (k', shs) = extract_subgraph (set_masters k (popped_masters (k_masters k) n)) e
  | RErr => k' = k /\ forall n e, from <= n -> block_at k 0 n = Some e -> applied e = false
  | _ => False
  end.
Proof.
  intros Hk. destruct Hk as ([Hs Hi] & Hk). unfold do_pop.
  pose proof (first_applied_spec from _ Hs) as F.
  destruct (first_applied from (g_blocks (k_masters k))) as [[n e]|]; [|cbn; auto].
  destruct F as (F1 & F2 & F3 & F4). destruct (Hi _ _ F2) as (Hkey & _).
  assert (En : b_seqno (e_id e) = n) by (unfold key_of in Hkey; congruence).
  rewrite En. fold (popped_masters (k_masters k) n). cbn zeta.
  destruct (extract_subgraph_shrunk (set_masters k (popped_masters (k_masters k) n)) e) as (_ & Em & _).
  destruct (extract_subgraph _ e) as [k' shs] eqn:Ex. cbn [fst snd] in *. rewrite En.
  refine (conj F1 (conj F2 (conj F3 (conj F4 (conj _ (conj Em _)))))); [|symmetry; exact Ex].
  rewrite negb_true_iff. split.
  - intros Hex n' e' L E'. destruct (applied e') eqn:Ea; [|reflexivity]. exfalso.
    assert (Ht : existsb (fun p => (n <? fst p) && applied (snd p)) (g_blocks (k_masters k)) = true).
    { apply existsb_exists. exists (n', e'). split; [now apply bget_in|]. cbn.
      rewrite Ea. apply andb_true_iff. split; [now apply N.ltb_lt|reflexivity]. }
    congruence.
  - intros Hall. destruct (existsb _ _) eqn:Ex2; [|reflexivity]. exfalso.
    apply existsb_exists in Ex2 as ([n' e'] & Hin & Hc). cbn in Hc.
    apply andb_true_iff in Hc as [Hc1 Hc2]. apply N.ltb_lt in Hc1.
    apply bget_in in Hin; [|exact Hs]. specialize (Hall _ _ Hc1 Hin). congruence.
Qed.

Definition extracted_masters (g : group mdata) (n : N) (e : entry) : group mdata :=
  let g := with_blocks g (bdel n (g_blocks g)) in
  let g := if applied e then with_data g (move_range_start n (g_data g)) else g in
  let g := fst (refresh_synced n g) in
  with_data g (remove_last_before n (g_data g)).

Lemma exec_extract k id : kinv k ->
  let k' := fst (do_extract k id) in
  match snd (do_extract k id) with
  | RGraph e shs _ =>
      let n := b_seqno id in
      b_seqno (e_id e) = n /\ block_at k 0 n = Some e /\
      k_masters k' = extracted_masters (k_masters k) n e /\
      (k', shs) = extract_subgraph (set_masters k (extracted_masters (k_masters k) n e)) e
  | RGone => k' = k /\ block_at k 0 (b_seqno id) = None
  | _ => False
  end.
Proof.
  intros Hk. destruct Hk as ([Hs Hi] & Hk). unfold do_extract.
  destruct (bget (b_seqno id) (g_blocks (k_masters k))) as [e|] eqn:Ee; [|cbn; auto].
  destruct (Hi _ _ Ee) as (Hkey & _). unfold key_of in Hkey. cbn zeta.
  fold (extracted_masters (k_masters k) (b_seqno id) e).
  destruct (extract_subgraph_shrunk (set_masters k (extracted_masters (k_masters k) (b_seqno id) e)) e) as (_ & Em & _).
  destruct (extract_subgraph _ e) as [k' shs] eqn:Ex. cbn [fst snd] in *.
  refine (conj _ (conj Ee (conj Em _))); [congruence|symmetry; exact Ex].
Qed.

Lemma popped_ok k n : kinv k ->
  let g := popped_masters (k_masters k) n in
  ginv 0 g /\ linv (g_data g) /\ loses k (set_masters k g).
Proof.
  intros (Hg & Hl & _). cbn zeta. split; [|split].
  - apply (ginv_sub _ _ 0 (k_masters k)); auto; cbn.
    + apply bdel_sorted, Hg.
    + apply hle_refl.
    + intros m e. apply bdel_sub, Hg.
  - cbn. apply linv_move_start, linv_before, Hl.
  - apply loses_masters. cbn. split; [apply hle_refl|]. intros m e. apply bdel_sub, Hg.
Qed.
Lemma extracted_fields g n e :
  g_blocks (extracted_masters g n e) = bdel n (g_blocks g) /\
  g_gc (extracted_masters g n e) = g_gc g /\
  hle (g_synced g) (g_synced (extracted_masters g n e)) /\
  (exists y, g_synced (extracted_masters g n e) = Some y /\ n <= y) /\
  g_data (extracted_masters g n e) =
    remove_last_before n (if applied e then move_range_start n (g_data g) else g_data g).
Proof.
  unfold extracted_masters. cbn zeta.
  destruct (applied e).
  - match goal with |- context [refresh_synced n ?G] => destruct (refresh_spec _ n G) as (Rb & Rd & Rg & Rh & Ry & _) end.
    cbn [with_data g_blocks g_gc g_data g_synced with_blocks] in *. rewrite Rb, Rd, Rg. auto.
  - match goal with |- context [refresh_synced n ?G] => destruct (refresh_spec _ n G) as (Rb & Rd & Rg & Rh & Ry & _) end.
    cbn [with_data g_blocks g_gc g_data g_synced with_blocks] in *. rewrite Rb, Rd, Rg. auto.
Qed.
Lemma extracted_ok k n e : kinv k ->
  let g := extracted_masters (k_masters k) n e in
  ginv 0 g /\ linv (g_data g) /\ loses k (set_masters k g).
Proof.
  intros (Hg & Hl & _). cbn zeta.
  destruct (extracted_fields (k_masters k) n e) as (Eb & _ & Eh & _ & Ed). split; [|split].
  - apply (ginv_sub _ _ 0 (k_masters k)); auto; rewrite Eb.
    + apply bdel_sorted, Hg.
    + intros m e'. apply bdel_sub, Hg.
  - rewrite Ed. apply linv_before. destruct (applied e); [apply linv_move_start|]; apply Hl.
  - apply loses_masters. split; [exact Eh|]. rewrite Eb. intros m e'. apply bdel_sub, Hg.
Qed.

Lemma set_gc_ok keys : forall k, kinv k ->
  let k' := do_set_gc k keys in
  kinv k' /\ (forall s n, block_at k' s n = block_at k s n) /\
  (forall s, known_height k' s = known_height k s) /\
  g_data (k_masters k') = g_data (k_masters k).
Proof.
  induction keys as [|[s n] keys IH]; intros k Hk; [cbn; auto|].
  cbn [do_set_gc]. destruct (is_mc s) eqn:Es.
  - set (g := mkgroup _ _ _ (Some n)).
    assert (Hk' : kinv (set_masters k g)).
    { apply kinv_set_masters; [exact Hk| |apply Hk]. apply (ginv_same _ _ 0 (k_masters k)); [apply Hk|reflexivity|reflexivity]. }
    destruct (IH _ Hk') as (I1 & I2 & I3 & I4). split; [exact I1|].
    split; [intros s' n'; rewrite I2, block_at_set_masters|].
    { unfold block_at. destruct (is_mc s'); reflexivity. }
    split; [intros s'; rewrite I3, height_set_masters|exact I4].
    unfold known_height. destruct (is_mc s'); reflexivity.
  - destruct (aget N.eqb s (k_shards k)) as [g|] eqn:Eg; [|apply IH; exact Hk].
    set (g2 := mkgroup _ _ _ (Some n)).
    destruct Hk as (H1 & H2 & H3 & H4). destruct (H4 _ _ Eg) as [_ Hg].
    assert (Hk : kinv k) by (split; auto).
    assert (Hk' : kinv (set_shard k s g2)).
    { apply kinv_set_shard; [exact Hk|exact Es|]. apply (ginv_same _ _ s g); [exact Hg|reflexivity|reflexivity]. }
    destruct (IH _ Hk') as (I1 & I2 & I3 & I4). split; [exact I1|].
    split; [intros s' n'; rewrite I2, block_at_set_shard by exact Es|].
    { destruct (N.eqb_spec s' s) as [E|E]; [|reflexivity]. subst. unfold block_at. rewrite Es, Eg. reflexivity. }
    split; [intros s'; rewrite I3, height_set_shard by exact Es|exact I4].
    destruct (N.eqb_spec s' s) as [E|E]; [|reflexivity]. subst. unfold known_height. rewrite Es, Eg. reflexivity.
Qed.

Lemma gc_shard_ok s g : ginv s g ->
  ginv s (gc_shard g) /\ g_synced (gc_shard g) = g_synced g /\
  (forall n e, bget n (g_blocks (gc_shard g)) = Some e -> bget n (g_blocks g) = Some e).
Proof.
  intros Hg. unfold gc_shard. destruct (g_gc g) as [n0|]; [|auto].
  split; [|split; [reflexivity|]].
  - eapply ginv_filter; [exact Hg|reflexivity|reflexivity].
  - intros n e. cbn. rewrite bget_filter by apply Hg.
    destruct (bget n (g_blocks g)); [|discriminate]. destruct (_ <=? _); [auto|discriminate].
Qed.

Lemma gc_ok k : kinv k -> kinv (do_gc k) /\ loses k (do_gc k).
Proof.
  intros (H1 & H2 & H3 & H4). unfold do_gc. split.
  - split; [|split; [|split]]; cbn [k_masters k_shards].
    + destruct (g_gc (k_masters k)); [|exact H1].
      eapply (ginv_filter _ 0 (k_masters k)); [exact H1|reflexivity|reflexivity].
    + destruct (g_gc (k_masters k)); [|exact H2]. cbn. apply linv_befores, H2.
    + rewrite akeys_map. exact H3.
    + intros s g E. rewrite sget_map in E. destruct (aget N.eqb s (k_shards k)) as [g0|] eqn:E0; [|discriminate].
      injection E as <-. destruct (H4 _ _ E0) as [Hm Hg]. split; [exact Hm|]. now apply gc_shard_ok.
  - split.
    + intros s. unfold known_height. cbn [k_masters k_shards]. destruct (is_mc s).
      * destruct (g_gc (k_masters k)); apply hle_refl.
      * rewrite sget_map. destruct (aget N.eqb s (k_shards k)) as [g0|] eqn:E0; [|apply hle_refl].
        destruct (H4 _ _ E0) as [Hm Hg]. destruct (gc_shard_ok s g0 Hg) as (_ & Eh & _).
        rewrite Eh. apply hle_refl.
    + intros s n e. unfold block_at. cbn [k_masters k_shards]. destruct (is_mc s).
      * destruct (g_gc (k_masters k)); [|auto]. cbn. rewrite bget_filter by apply H1.
        destruct (bget n (g_blocks (k_masters k))); [|discriminate]. destruct (_ <=? _); [auto|discriminate].
      * rewrite sget_map. destruct (aget N.eqb s (k_shards k)) as [g0|] eqn:E0; [|discriminate].
        destruct (H4 _ _ E0) as [Hm Hg]. destruct (gc_shard_ok s g0 Hg) as (_ & _ & Hb). apply Hb.
Qed.

Lemma remove_next_ok keys : forall k, kinv k ->
  kinv (do_remove_next k keys) /\ loses k (do_remove_next k keys).
Proof.
  induction keys as [|[s n] keys IH]; intros k Hk; [split; [exact Hk|apply loses_refl]|].
  cbn [do_remove_next]. destruct (is_mc s) eqn:Es.
  - match goal with |- context [set_masters k ?G] => set (g := G) end.
    assert (Hk' : kinv (set_masters k g)).
    { apply kinv_set_masters; [exact Hk| |apply linv_froms, Hk].
      eapply (ginv_filter _ 0 (k_masters k)); [apply Hk|reflexivity|reflexivity]. }
    destruct (IH _ Hk') as [I1 I2]. split; [exact I1|]. eapply loses_trans; [|exact I2].
    apply loses_masters. split; [apply hle_refl|]. intros m e. cbn. rewrite bget_filter by apply Hk.
    destruct (bget m (g_blocks (k_masters k))); [|discriminate]. destruct (keep_next _ _); [auto|discriminate].
  - destruct (aget N.eqb s (k_shards k)) as [g|] eqn:Eg; [|apply IH; exact Hk].
    match goal with |- context [set_shard k s ?G] => set (g2 := G) end.
    destruct Hk as (H1 & H2 & H3 & H4). destruct (H4 _ _ Eg) as [_ Hg].
    assert (Hk : kinv k) by (split; auto).
    assert (Hk' : kinv (set_shard k s g2)).
    { apply kinv_set_shard; [exact Hk|exact Es|]. eapply (ginv_filter _ s g); [exact Hg|reflexivity|reflexivity]. }
    destruct (IH _ Hk') as [I1 I2]. split; [exact I1|]. eapply loses_trans; [|exact I2].
    apply (loses_shard _ _ g); auto; [apply hle_refl|]. intros m e. cbn. rewrite bget_filter by apply Hg.
    destruct (bget m (g_blocks g)); [|discriminate]. destruct (keep_next _ _); [auto|discriminate].
Qed.

Lemma top_infos_get mc : forall shs s,
  aget N.eqb s (fst (top_infos mc shs)) =
  match aget N.eqb s shs with
  | Some g => Some (match top_candidate mc (g_blocks g) with
                    | Some _ => with_data g (s_reset (g_data g)) | None => g end)
  | None => None
  end.
Proof.
  induction shs as [|[s' g] shs IH]; intros s; [reflexivity|]. cbn [top_infos aget].
  specialize (IH s). destruct (top_infos mc shs) as [r l]. cbn [fst] in IH.
  destruct (top_candidate mc (g_blocks g)) as [[id i]|] eqn:Et; cbn [fst aget];
    destruct (N.eqb s s'); try exact IH; now rewrite Et.
Qed.
Lemma top_infos_keys mc shs : akeys (fst (top_infos mc shs)) = akeys shs.
Proof.
  induction shs as [|[s' g] shs IH]; [reflexivity|]. cbn [top_infos].
  destruct (top_infos mc shs) as [r l]. cbn [fst] in IH.
  destruct (top_candidate mc (g_blocks g)) as [[id i]|]; cbn; unfold akeys in IH; now rewrite IH.
Qed.

(** shard maps with the same blocks and heights *)
Lemma same_shards k shs : kinv k -> akeys shs = akeys (k_shards k) ->
  (forall s, match aget N.eqb s (k_shards k), aget N.eqb s shs with
             | Some g, Some g' => g_blocks g' = g_blocks g /\ g_synced g' = g_synced g
             | None, None => True | _, _ => False end) ->
  let k' := mkcache (k_zs k) (k_masters k) shs in
  kinv k' /\ (forall s n, block_at k' s n = block_at k s n) /\
  (forall s, known_height k' s = known_height k s).
Proof.
  intros (H1 & H2 & H3 & H4) Ek Hs. cbn zeta. split; [|split].
  - split; [exact H1|]. split; [exact H2|]. cbn [k_shards]. split; [rewrite Ek; exact H3|].
    intros s g E. specialize (Hs s). rewrite E in Hs.
    destruct (aget N.eqb s (k_shards k)) as [g0|] eqn:E0; [|contradiction].
    destruct (H4 _ _ E0) as [Hm Hg]. split; [exact Hm|]. destruct Hs. now apply (ginv_same _ _ s g0).
  - intros s n. unfold block_at. cbn. destruct (is_mc s); [reflexivity|]. specialize (Hs s).
    destruct (aget N.eqb s (k_shards k)), (aget N.eqb s shs); try contradiction; [|reflexivity].
    destruct Hs as [-> _]. reflexivity.
  - intros s. unfold known_height. cbn. destruct (is_mc s); [reflexivity|]. specialize (Hs s).
    destruct (aget N.eqb s (k_shards k)), (aget N.eqb s shs); try contradiction; [|reflexivity].
    destruct Hs as [_ ->]. reflexivity.
Qed.
Lemma tops_ok k mc : kinv k ->
  let k' := fst (do_tops k mc) in
  kinv k' /\ (forall s n, block_at k' s n = block_at k s n) /\
  (forall s, known_height k' s = known_height k s) /\ k_masters k' = k_masters k.
Proof.
  intros Hk. unfold do_tops. pose proof (top_infos_get mc (k_shards k)) as G.
  pose proof (top_infos_keys mc (k_shards k)) as K.
  destruct (top_infos mc (k_shards k)) as [shs l]. cbn [fst] in *.
  destruct (same_shards k shs Hk K) as (A & B & C).
  - intros s. rewrite G. destruct (aget N.eqb s (k_shards k)) as [g|]; [|exact I].
    destruct (top_candidate mc (g_blocks g)); auto.
  - auto.
Qed.
Lemma reset_ok k : kinv k ->
  let k' := do_reset k in
  kinv k' /\ (forall s n, block_at k' s n = block_at k s n) /\
  (forall s, known_height k' s = known_height k s) /\ k_masters k' = k_masters k.
Proof.
  intros Hk. unfold do_reset.
  match goal with |- context [mkcache _ _ ?S] => destruct (same_shards k S Hk) as (A & B & C) end.
  - apply (akeys_map _ _ (fun g => with_data g (s_reset (g_data g)))).
  - intros s. rewrite (sget_map _ _ (fun g => with_data g (s_reset (g_data g)))).
    destruct (aget N.eqb s (k_shards k)) as [g|]; [|exact I]. auto.
  - auto.
Qed.

Lemma validated_ok k id v : kinv k ->
  let k' := fst (do_validated k id v) in
  kinv k' /\ (forall s, known_height k' s = known_height k s) /\
  g_data (k_masters k') = g_data (k_masters k) /\ g_gc (k_masters k') = g_gc (k_masters k) /\
  k_shards k' = k_shards k /\
  (forall s n, (s, n) <> (0, b_seqno id) -> block_at k' s n = block_at k s n) /\
  match snd (do_validated k id v) with
  | RStatus (Some st) =>
      exists e c sg st0, block_at k 0 (b_seqno id) = Some e /\ e_data e = DCollated c sg st0 false /\
        st0 <> st /\ st = (match v with Some _ => StValidated | None => StSkipped end) /\
        block_at k' 0 (b_seqno id) =
          Some (mkentry (e_id e) (DCollated c (match v with Some x => x | None => 0 end) st false)
                  (e_prevs e) (e_tops e) (e_anchor e) (e_ref e))
  | RStatus None => k' = k
  | _ => False
  end.
Proof.
  intros Hk. unfold do_validated.
  set (ns := match v with Some x => (StValidated, x) | None => (StSkipped, 0) end).
  assert (Ens : ns = (match v with Some _ => StValidated | None => StSkipped end,
                      match v with Some x => x | None => 0 end)) by (destruct v; reflexivity).
  rewrite Ens. clear Ens ns. destruct Hk as (H1 & H2 & H3 & H4). assert (Hk : kinv k) by (split; auto).
  destruct (bget (b_seqno id) (g_blocks (k_masters k))) as [e|] eqn:Ee; [|cbn; auto 10].
  destruct H1 as [Hs Hi]. destruct (Hi _ _ Ee) as (K1 & K2 & K3). unfold stat_ok in K3.
  destruct (e_data e) as [c sg st rcv|] eqn:Ed; [|cbn; auto 10]. destruct K3 as [Ercv Ec].
  set (nst := match v with Some _ => StValidated | None => StSkipped end).
  set (nsg := match v with Some x => x | None => 0 end).
  destruct (status_eqb_spec st StSynced) as [E1|E1]; [cbn; auto 10|]. subst rcv.
  destruct (status_eqb_spec st nst) as [E2|E2]; [cbn; auto 10|]. cbn zeta. cbn [fst snd].
  match goal with |- context [set_masters k ?G] => set (g := G) end.
  assert (Hst : status_eqb nst StSynced = false) by (subst nst; destruct v; reflexivity).
  assert (Hg : ginv 0 g).
  { apply (ginv_put _ 0 (k_masters k) g (b_seqno id)
      (mkentry (e_id e) (DCollated c nsg nst false) (e_prevs e) (e_tops e) (e_anchor e) (e_ref e)));
      [split; assumption|reflexivity|apply hle_refl|..].
    - exact K1.
    - discriminate.
    - unfold stat_ok. cbn. auto. }
  split; [now apply kinv_set_masters|].
  split. { intros s. rewrite height_set_masters. unfold known_height. destruct (is_mc s); reflexivity. }
  split; [reflexivity|]. split; [reflexivity|]. split; [reflexivity|]. split.
  { intros s n Hne. rewrite block_at_set_masters. unfold block_at. destruct (is_mc s) eqn:Es; [|reflexivity].
    apply is_mc_eq in Es. subst s. cbn. rewrite bget_bput by exact Hs.
    destruct (N.eqb_spec n (b_seqno id)) as [En|En]; [congruence|reflexivity]. }
  exists e, c, sg, st. split; [exact Ee|]. split; [exact Ed|]. split; [exact E2|]. split; [reflexivity|].
  rewrite block_at_set_masters. cbn. rewrite bget_bput by exact Hs. now rewrite N.eqb_refl.
Qed.
