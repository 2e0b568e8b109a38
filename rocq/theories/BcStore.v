(** What the two storing calls do, and the invariant over histories. *)
From Verif Require Export BcInv.
From Coq Require Import ZArith ZifyN ZifyNat ZifyBool Lia.

(** the result of [store_collated] *)
Lemma collated_ok k c tops a : kinv k ->
  let s := b_shard (c_id c) in let n := b_seqno (c_id c) in
  let k' := fst (do_collated k c tops a) in
  kinv k' /\ (forall s', known_height k' s' = known_height k s') /\
  (forall s' n', (s', n') <> (s, n) -> block_at k' s' n' = block_at k s' n') /\
  g_gc (k_masters k') = g_gc (k_masters k) /\
  match snd (do_collated k c tops a) with
  | RErr => (exists e, block_at k s n = Some e /\ is_received e = false) /\
            (forall s' n', block_at k' s' n' = block_at k s' n') /\
            g_data (k_masters k') = g_data (k_masters k)
  | RStored x =>
      (forall e, block_at k s n = Some e -> is_received e = true) /\
      (x_mismatch x = true <-> exists e, block_at k s n = Some e /\ e_id e <> c_id c) /\
      (x_both x = true <-> exists e, block_at k s n = Some e /\ e_id e = c_id c) /\
      (x_mismatch x = true -> block_at k' s n = block_at k s n) /\
      (x_mismatch x = false -> exists e', block_at k' s n = Some e' /\ e_id e' = c_id c /\
         (x_both x = true -> applied e' = true) /\
         (x_both x = false -> e' = from_collated c tops a)) /\
      x_last x = own_last k' /\ x_range x = waiting k' /\
      g_data (k_masters k') =
        (if is_mc s && negb (x_mismatch x) then m_on_collated c (g_data (k_masters k))
         else g_data (k_masters k))
  | _ => False
  end.
Proof.
  intros Hk. cbn zeta. unfold do_collated.
  set (s := b_shard (c_id c)) in *. set (n := b_seqno (c_id c)) in *.
  destruct (is_mc s) eqn:Es.
  - assert (E0 : s = 0) by now apply is_mc_eq.
    destruct Hk as (H1 & H2 & H3 & H4). assert (Hk : kinv k) by (split; auto).
    destruct (store_collated_group m_on_collated (k_masters k) c tops a) as [[g b]|] eqn:E.
    + destruct (store_collated_spec _ _ 0 _ _ _ _ _ _ H1 (eq_sym E0) E)
        as (G1 & G2 & G3 & G4 & G5 & G6 & G7 & G8 & G9 & G10).
      fold n in G5, G6, G7, G8, G9, G10. cbn [fst snd].
      assert (HL : linv (g_data g)).
      { rewrite G4. destruct (snd b); [exact H2|]. apply linv_collated; [exact Es|exact H2]. }
      split; [now apply kinv_set_masters|].
      split. { intros s'. rewrite height_set_masters. unfold known_height.
               destruct (is_mc s'); [now rewrite G2|reflexivity]. }
      split. { intros s' n' Hne. rewrite block_at_set_masters. unfold block_at.
               destruct (is_mc s') eqn:Es'; [|reflexivity]. apply is_mc_eq in Es'. apply G9.
               intros ->. apply Hne. congruence. }
      split; [exact G3|]. unfold res_of. cbn [x_mismatch x_both x_last x_range].
      assert (Hat : block_at k s n = bget n (g_blocks (k_masters k))) by (unfold block_at; now rewrite Es).
      rewrite block_at_set_masters, Hat, Es. cbn [andb].
      split; [exact G10|]. split; [exact G6|]. split; [exact G7|].
      split. { intros Hb. now rewrite (G5 Hb). }
      split; [exact G8|]. split; [reflexivity|]. split; [reflexivity|].
      cbn. rewrite G4. destruct (snd b); reflexivity.
    + cbn [fst snd]. apply store_collated_err in E as (e & Ee & Er).
      split; [exact Hk|]. split; [reflexivity|]. split; [reflexivity|]. split; [reflexivity|].
      split; [|auto]. exists e. split; [|exact Er]. unfold block_at. rewrite Es. exact Ee.
  - pose proof (ginv_shard_group k s Hk) as Hg.
    destruct (store_collated_group s_on_collated (shard_group k s) c tops a) as [[g b]|] eqn:E.
    + destruct (store_collated_spec _ _ s _ _ _ _ _ _ Hg eq_refl E)
        as (G1 & G2 & G3 & G4 & G5 & G6 & G7 & G8 & G9 & G10).
      fold n in G5, G6, G7, G8, G9, G10. cbn [fst snd].
      split; [now apply kinv_set_shard|].
      split. { intros s'. rewrite height_set_shard by exact Es.
               destruct (N.eqb_spec s' s) as [Q|Q]; [subst s'; now rewrite height_shard_group|reflexivity]. }
      split. { intros s' n' Hne. rewrite block_at_set_shard by exact Es.
               destruct (N.eqb_spec s' s) as [Q|Q]; [|reflexivity]. subst s'.
               rewrite block_at_shard_group by exact Es. apply G9. congruence. }
      split; [reflexivity|]. unfold res_of. cbn [x_mismatch x_both x_last x_range].
      rewrite block_at_set_shard by exact Es. rewrite N.eqb_refl.
      rewrite block_at_shard_group by exact Es. cbn [andb].
      split; [exact G10|]. split; [exact G6|]. split; [exact G7|].
      split. { intros Hb. now rewrite (G5 Hb). }
      split; [exact G8|]. split; [reflexivity|]. split; reflexivity.
    + cbn [fst snd]. apply store_collated_err in E as (e & Ee & Er).
      split; [now apply kinv_set_shard|].
      assert (Hb : forall s' n', block_at (set_shard k s (shard_group k s)) s' n' = block_at k s' n').
      { intros s' n'. rewrite block_at_set_shard by exact Es.
        destruct (N.eqb_spec s' s) as [Q|Q]; [|reflexivity]. subst s'.
        now rewrite block_at_shard_group by exact Es. }
      split. { intros s'. rewrite height_set_shard by exact Es.
               destruct (N.eqb_spec s' s) as [Q|Q]; [subst s'; now rewrite height_shard_group|reflexivity]. }
      split; [intros; apply Hb|]. split; [reflexivity|]. split; [|split; [exact Hb|reflexivity]].
      exists e. split; [|exact Er]. rewrite block_at_shard_group by exact Es. exact Ee.
Qed.

(** what [store_received] does to the data of the master group *)
Definition received_mdata (k : cache) (r : recv) (mismatch : bool) : mdata :=
  let m := g_data (k_masters k) in
  let m := if is_mc (b_shard (r_id r)) then m_on_received (r_id r) m else m in
  if mismatch then
    remove_last_from (if is_mc (b_shard (r_id r)) then b_seqno (r_id r) else r_ref r) m
  else m.

Lemma received_ok k r : kinv k -> k_zs k <= r_ref r ->
  let s := b_shard (r_id r) in let n := b_seqno (r_id r) in
  let k' := fst (do_received k r) in
  kinv k' /\ (forall s', hle (known_height k s') (known_height k' s')) /\
  (forall s' n', (s', n') <> (s, n) -> block_at k' s' n' = block_at k s' n') /\
  g_gc (k_masters k') = g_gc (k_masters k) /\
  match snd (do_received k r) with
  | RSkipped => not_newer k s n /\ (forall s' n', block_at k' s' n' = block_at k s' n') /\
      (forall s', known_height k' s' = known_height k s') /\
      g_data (k_masters k') = g_data (k_masters k)
  | RStored x =>
      ~ not_newer k s n /\
      (x_mismatch x = true <-> exists e, block_at k s n = Some e /\ e_id e <> r_id r) /\
      (x_both x = true <-> exists e, block_at k s n = Some e /\ e_id e = r_id r) /\
      (exists e', block_at k' s n = Some e' /\ e_id e' = r_id r /\ applied e' = true) /\
      (forall e, block_at k s n = Some e -> applied e = false) /\
      known_height k' s = Some n /\
      x_last x = own_last k' /\ x_range x = waiting k' /\
      g_data (k_masters k') = received_mdata k r (x_mismatch x)
  | _ => False
  end.
Proof.
  intros Hk Hz. cbn zeta. unfold do_received, received_mdata.
  assert (Ez : (r_ref r <? k_zs k) = false) by (apply N.ltb_ge; exact Hz). rewrite Ez.
  set (r1 := if r_ref r =? k_zs k then mkrecv (r_id r) [] (r_tops r) (r_anchor r) (r_ref r) else r).
  assert (Eid : r_id r1 = r_id r) by (subst r1; destruct (r_ref r =? k_zs k); reflexivity).
  assert (Eref : r_ref r1 = r_ref r) by (subst r1; destruct (r_ref r =? k_zs k); reflexivity).
  clearbody r1. rewrite Eref, <- Eid. clear Eid Eref Ez Hz.
  set (s := b_shard (r_id r1)). set (n := b_seqno (r_id r1)).
  destruct (is_mc s) eqn:Es.
  - assert (E0 : s = 0) by now apply is_mc_eq.
    destruct Hk as (H1 & H2 & H3 & H4). assert (Hk : kinv k) by (split; auto).
    destruct (refresh_synced n (k_masters k)) as [g old] eqn:Er.
    pose proof (refresh_spec _ n (k_masters k)) as R. rewrite Er in R. cbn [fst snd] in R.
    destruct R as (Rb & Rd & Rg & Rh & Ry & Rt & Rsame & Rs).
    assert (Hnn : not_newer k s n <-> old = true).
    { unfold not_newer, known_height. rewrite Es. symmetry. exact Rt. }
    destruct old.
    + cbn [fst snd]. split; [exact Hk|]. split; [intros; apply hle_refl|].
      split; [reflexivity|]. split; [reflexivity|]. split; [now apply Hnn|]. auto.
    + destruct (store_received_spec _ m_on_received 0 (k_masters k) g r1 H1 (eq_sym E0))
        as (g' & b & E & G1 & G2 & G3 & G4 & G5 & G6 & G7 & G8 & G9).
      { fold n. now rewrite Er. } { fold n. now rewrite Er. }
      fold n in G2, G5, G6, G7, G8, G9. rewrite E. cbn [fst snd].
      set (g2 := if snd b then with_data g' (remove_last_from n (g_data g')) else g').
      assert (B2 : g_blocks g2 = g_blocks g') by (subst g2; destruct (snd b); reflexivity).
      assert (S2 : g_synced g2 = g_synced g') by (subst g2; destruct (snd b); reflexivity).
      assert (C2 : g_gc g2 = g_gc g') by (subst g2; destruct (snd b); reflexivity).
      assert (D2 : g_data g2 = if snd b then remove_last_from n (g_data g') else g_data g')
        by (subst g2; destruct (snd b); reflexivity).
      clearbody g2.
      assert (Hat : block_at k s n = bget n (g_blocks (k_masters k))) by (unfold block_at; now rewrite Es).
      split. { apply kinv_set_masters; [exact Hk| |].
               - now apply (ginv_same _ _ 0 g').
               - rewrite D2, G4. destruct (snd b); [apply linv_from|]; apply linv_received, H2. }
      split. { intros s'. rewrite height_set_masters. unfold known_height.
               destruct (is_mc s'); [|apply hle_refl]. rewrite S2, G2. intros y Ey.
               exists n. split; [reflexivity|]. destruct (N.le_gt_cases n y) as [L|L]; [|lia].
               exfalso. destruct Rt as [_ Rt]. discriminate Rt. exists y. auto. }
      split. { intros s' n' Hne. rewrite block_at_set_masters, B2. unfold block_at.
               destruct (is_mc s') eqn:Es'; [|reflexivity]. apply is_mc_eq in Es'. apply G8.
               intros ->. apply Hne. congruence. }
      split; [cbn; congruence|]. unfold res_of. cbn [x_mismatch x_both x_last x_range].
      rewrite block_at_set_masters, height_set_masters, Hat, Es, B2, S2.
      split. { rewrite Hnn. discriminate. }
      split; [exact G5|]. split; [exact G6|]. split; [exact G7|]. split; [exact G9|].
      split; [exact G2|]. split; [reflexivity|]. split; [reflexivity|]. cbn. now rewrite D2, G4.
  - pose proof (ginv_shard_group k s Hk) as Hg.
    destruct (refresh_synced n (shard_group k s)) as [g old] eqn:Er.
    pose proof (refresh_spec _ n (shard_group k s)) as R. rewrite Er in R. cbn [fst snd] in R.
    destruct R as (Rb & Rd & Rg & Rh & Ry & Rt & Rsame & Rs).
    assert (Hnn : not_newer k s n <-> old = true).
    { unfold not_newer. rewrite height_shard_group by exact Es. symmetry. exact Rt. }
    destruct old.
    + cbn [fst snd]. rewrite (Rsame eq_refl).
      assert (Hb : forall s' n', block_at (set_shard k s (shard_group k s)) s' n' = block_at k s' n').
      { intros s' n'. rewrite block_at_set_shard by exact Es.
        destruct (N.eqb_spec s' s) as [Q|Q]; [|reflexivity]. subst s'.
        now rewrite block_at_shard_group by exact Es. }
      assert (Hh : forall s', known_height (set_shard k s (shard_group k s)) s' = known_height k s').
      { intros s'. rewrite height_set_shard by exact Es.
        destruct (N.eqb_spec s' s) as [Q|Q]; [subst s'; now rewrite height_shard_group|reflexivity]. }
      split; [now apply kinv_set_shard|]. split; [intros s'; rewrite Hh; apply hle_refl|].
      split; [auto|]. split; [reflexivity|]. split; [now apply Hnn|]. auto.
    + destruct (store_received_spec _ s_on_received s (shard_group k s) g r1 Hg eq_refl)
        as (g' & b & E & G1 & G2 & G3 & G4 & G5 & G6 & G7 & G8 & G9).
      { fold n. now rewrite Er. } { fold n. now rewrite Er. }
      fold n in G2, G5, G6, G7, G8, G9. rewrite E. cbn [fst snd].
      set (k1 := set_shard k s g').
      assert (Hk1 : kinv k1) by now apply kinv_set_shard.
      set (k2 := if snd b then set_masters k1 (with_data (k_masters k1) (remove_last_from (r_ref r) (g_data (k_masters k1)))) else k1).
      assert (B2 : forall s' n', block_at k2 s' n' = block_at k1 s' n').
      { intros. subst k2. destruct (snd b); [|reflexivity]. rewrite block_at_set_masters.
        unfold block_at. destruct (is_mc s'); reflexivity. }
      assert (S2 : forall s', known_height k2 s' = known_height k1 s').
      { intros. subst k2. destruct (snd b); [|reflexivity]. rewrite height_set_masters.
        unfold known_height. destruct (is_mc s'); reflexivity. }
      assert (C2 : g_gc (k_masters k2) = g_gc (k_masters k)) by (subst k2; destruct (snd b); reflexivity).
      assert (D2 : g_data (k_masters k2) = if snd b then remove_last_from (r_ref r) (g_data (k_masters k)) else g_data (k_masters k))
        by (subst k2; destruct (snd b); reflexivity).
      assert (K2 : kinv k2).
      { subst k2. destruct (snd b); [|exact Hk1]. apply kinv_set_masters; [exact Hk1| |].
        - apply (ginv_same _ _ 0 (k_masters k1)); [apply Hk1|reflexivity|reflexivity].
        - cbn. apply linv_from, Hk. }
      clearbody k2. split; [exact K2|].
      split. { intros s'. rewrite S2. unfold k1. rewrite height_set_shard by exact Es.
               destruct (N.eqb_spec s' s) as [Q|Q]; [|apply hle_refl]. subst s'. rewrite G2.
               rewrite height_shard_group by exact Es. intros y Ey.
               exists n. split; [reflexivity|]. destruct (N.le_gt_cases n y) as [L|L]; [|lia].
               exfalso. destruct Rt as [_ Rt]. discriminate Rt. exists y. auto. }
      split. { intros s' n' Hne. rewrite B2. unfold k1. rewrite block_at_set_shard by exact Es.
               destruct (N.eqb_spec s' s) as [Q|Q]; [|reflexivity]. subst s'.
               rewrite block_at_shard_group by exact Es. apply G8. congruence. }
      split; [exact C2|]. unfold res_of. cbn [x_mismatch x_both x_last x_range].
      rewrite B2, S2. unfold k1. rewrite block_at_set_shard, height_set_shard by exact Es.
      rewrite N.eqb_refl. rewrite block_at_shard_group by exact Es.
      split. { rewrite Hnn. discriminate. }
      split; [exact G5|]. split; [exact G6|]. split; [exact G7|]. split; [exact G9|].
      split; [exact G2|]. split; [reflexivity|]. split; [reflexivity|]. exact D2.
Qed.

Lemma received_old k r : r_ref r < k_zs k -> do_received k r = (k, RErr).
Proof. intros H. unfold do_received. apply N.ltb_lt in H. now rewrite H. Qed.

Lemma pop_ok k from : kinv k -> kinv (fst (do_pop k from)) /\ loses k (fst (do_pop k from)).
Proof.
  intros Hk. pose proof (exec_pop k from Hk) as H. cbn zeta in H.
  destruct (snd (do_pop k from)) as [| | | | | |e shs b| |]; try contradiction.
  - destruct H as [-> _]. split; [exact Hk|apply loses_refl].
  - destruct H as (_ & _ & _ & _ & _ & _ & E). set (n := b_seqno (e_id e)) in *.
    destruct (popped_ok k n Hk) as (P1 & P2 & P3). set (g := popped_masters (k_masters k) n) in *.
    destruct (extract_subgraph_shrunk (set_masters k g) e) as (_ & Em & Es).
    rewrite <- E in Em, Es. cbn [fst] in Em, Es.
    assert (Hk1 : kinv (set_masters k g)) by now apply kinv_set_masters.
    split; [now apply (kinv_shrunk (set_masters k g))|].
    eapply loses_trans; [exact P3|]. now apply loses_shrunk.
Qed.
Lemma extract_ok k id : kinv k -> kinv (fst (do_extract k id)) /\ loses k (fst (do_extract k id)).
Proof.
  intros Hk. pose proof (exec_extract k id Hk) as H. cbn zeta in H.
  destruct (snd (do_extract k id)) as [| | | | | |e shs b| |]; try contradiction.
  - destruct H as [-> _]. split; [exact Hk|apply loses_refl].
  - destruct H as (_ & _ & _ & E). set (n := b_seqno id) in *.
    destruct (extracted_ok k n e Hk) as (P1 & P2 & P3). set (g := extracted_masters (k_masters k) n e) in *.
    destruct (extract_subgraph_shrunk (set_masters k g) e) as (_ & Em & Es).
    rewrite <- E in Em, Es. cbn [fst] in Em, Es.
    assert (Hk1 : kinv (set_masters k g)) by now apply kinv_set_masters.
    split; [now apply (kinv_shrunk (set_masters k g))|].
    eapply loses_trans; [exact P3|]. now apply loses_shrunk.
Qed.

Lemma extract_zs k e : k_zs (fst (extract_subgraph k e)) = k_zs k.
Proof. apply extract_subgraph_shrunk. Qed.

Lemma set_gc_zs l : forall k, k_zs (do_set_gc k l) = k_zs k.
Proof.
  induction l as [|[s n] l IH]; intros k; [reflexivity|]. cbn [do_set_gc]. rewrite IH.
  destruct (is_mc s); [reflexivity|]. destruct (aget N.eqb s (k_shards k)); reflexivity.
Qed.
Lemma remove_next_zs l : forall k, k_zs (do_remove_next k l) = k_zs k.
Proof.
  induction l as [|[s n] l IH]; intros k; [reflexivity|]. cbn [do_remove_next]. rewrite IH.
  destruct (is_mc s); [reflexivity|]. destruct (aget N.eqb s (k_shards k)); reflexivity.
Qed.

Lemma exec_zs k o : k_zs (fst (exec k o)) = k_zs k.
Proof.
  destruct o; cbn [exec fst]; try reflexivity.
  - unfold do_collated. destruct (is_mc _).
    + destruct (store_collated_group _ _ _ _ _) as [[g b]|]; reflexivity.
    + destruct (store_collated_group _ _ _ _ _) as [[g b]|]; reflexivity.
  - unfold do_received. destruct (r_ref r <? k_zs k); [reflexivity|].
    destruct (is_mc _); destruct (refresh_synced _ _) as [g old]; destruct old; try reflexivity;
      destruct (store_received_group _ _ _) as [[g' b]|]; try reflexivity; cbn [fst];
      destruct (snd b); reflexivity.
  - unfold do_validated. destruct complete; destruct (bget _ _) as [e|]; try reflexivity;
      destruct (e_data e); try reflexivity; destruct (status_eqb _ _); try reflexivity;
      destruct (status_eqb _ _); reflexivity.
  - unfold do_pop. destruct (first_applied _ _) as [[n e]|]; [|reflexivity].
    match goal with |- context [extract_subgraph ?K e] => pose proof (extract_zs K e) as Z;
      destruct (extract_subgraph K e) end. exact Z.
  - unfold do_extract. destruct (bget _ _) as [e|]; [|reflexivity].
    match goal with |- context [extract_subgraph ?K e] => pose proof (extract_zs K e) as Z;
      destruct (extract_subgraph K e) end. exact Z.
  - apply set_gc_zs.
  - apply remove_next_zs.
  - unfold do_tops. destruct (top_infos _ _). reflexivity.
Qed.

(** every call keeps the invariant and never lowers a known height *)
Lemma exec_ok k o : kinv k -> kinv (fst (exec k o)) /\
  (forall s, hle (known_height k s) (known_height (fst (exec k o)) s)).
Proof.
  intros Hk. destruct o; cbn [exec fst].
  - destruct (collated_ok k c tops anchor Hk) as (A & B & _). split; [exact A|].
    intros s. rewrite B. apply hle_refl.
  - destruct (N.lt_ge_cases (r_ref r) (k_zs k)) as [L|L].
    + rewrite received_old by exact L. split; [exact Hk|]. intros s. apply hle_refl.
    + destruct (received_ok k r Hk L) as (A & B & _). auto.
  - destruct (validated_ok k id complete Hk) as (A & B & _). split; [exact A|].
    intros s. rewrite B. apply hle_refl.
  - split; [exact Hk|]. intros s. apply hle_refl.
  - destruct (pop_ok k from Hk) as [A [B _]]. auto.
  - destruct (extract_ok k id Hk) as [A [B _]]. auto.
  - destruct (set_gc_ok keys k Hk) as (A & _ & B & _). split; [exact A|].
    intros s. rewrite B. apply hle_refl.
  - destruct (gc_ok k Hk) as [A [B _]]. auto.
  - destruct (remove_next_ok keys k Hk) as [A [B _]]. auto.
  - destruct (tops_ok k mc Hk) as (A & _ & B & _). split; [exact A|].
    intros s. rewrite B. apply hle_refl.
  - destruct (reset_ok k Hk) as (A & _ & B & _). split; [exact A|].
    intros s. rewrite B. apply hle_refl.
Qed.

Lemma kinv_new zs : kinv (new_cache zs).
Proof.
  split; [split; [constructor|cbn; discriminate]|]. split; [split; [constructor|cbn; tauto]|].
  split; [constructor|]. cbn. discriminate.
Qed.

Lemma hist_inv zs h k : hist zs h k -> kinv k /\ k_zs k = zs.
Proof.
  induction 1 as [|h k o H [IH1 IH2] Hw]; [split; [apply kinv_new|reflexivity]|].
  split; [now apply exec_ok|]. rewrite exec_zs. exact IH2.
Qed.
