(** More about the collation manager's blocks cache: peeking tells what popping will take (C70), the last own master block
    survives the taking of older ones (C69), an own shard block always offers its data to the next master block (C72). *)
From Verif Require Import BcModel BcSpec BcBasics BcInv BcStore BcTake BcThms BcOwn.
From Coq Require Import Lia.
Local Open Scope N_scope.

Lemma peek_tops_spec k mc tops : forall acc l miss, peek_tops k mc tops acc = (l, miss) ->
  exists l', l = acc ++ l' /\
  (forall b, In b l' -> exists t g e, In t tops /\ t_updated t = true /\ k_zs k < t_ref t /\ t_id t = b /\
     aget N.eqb (b_shard b) (k_shards k) = Some g /\ bget (b_seqno b) (g_blocks g) = Some e /\ e_ref e = mc) /\
  match miss with
  | None => forall t, In t tops -> t_updated t = true -> k_zs k < t_ref t -> In (t_id t) l'
  | Some key => exists t, In t tops /\ t_updated t = true /\ k_zs k < t_ref t /\ key_of (t_id t) = key /\
      forall g e, aget N.eqb (b_shard (t_id t)) (k_shards k) = Some g -> bget (b_seqno (t_id t)) (g_blocks g) = Some e -> e_ref e <> mc
  end.
Proof.
  induction tops as [|t tops IH]; intros acc l miss E; cbn [peek_tops] in E.
  - inversion E; subst. exists []. rewrite app_nil_r. split; [reflexivity|]. split; [intros b []|]. intros t [].
  - destruct (negb (t_updated t) || (t_ref t <=? k_zs k)) eqn:B.
    + destruct (IH _ _ _ E) as (l' & E1 & E2 & E3). exists l'. split; [exact E1|]. split.
      * intros b I. destruct (E2 b I) as (t' & g & e & I' & R). exists t', g, e. split; [right; exact I'|exact R].
      * destruct miss as [key|].
        -- destruct E3 as (t' & I' & R). exists t'. split; [right; exact I'|exact R].
        -- intros t' [<-|I'] U R; [|auto]. rewrite U in B. cbn [negb orb] in B. apply N.leb_le in B. lia.
    + apply orb_false_iff in B as [B1 B2]. apply negb_false_iff in B1. apply N.leb_gt in B2. cbn zeta in E.
      destruct (match aget N.eqb (b_shard (t_id t)) (k_shards k) with
                | Some g => match bget (b_seqno (t_id t)) (g_blocks g) with Some e => e_ref e =? mc | None => false end
                | None => false end) eqn:F.
      * destruct (IH _ _ _ E) as (l' & E1 & E2 & E3). exists (t_id t :: l'). split; [rewrite E1, <- app_assoc; reflexivity|]. split.
        -- intros b [<-|I].
           ++ destruct (aget N.eqb (b_shard (t_id t)) (k_shards k)) as [g|] eqn:Eg; [|discriminate].
              destruct (bget (b_seqno (t_id t)) (g_blocks g)) as [e|] eqn:Ee; [|discriminate]. apply N.eqb_eq in F.
              exists t, g, e. split; [left; reflexivity|]. auto 10.
           ++ destruct (E2 b I) as (t' & g & e & I' & R). exists t', g, e. split; [right; exact I'|exact R].
        -- destruct miss as [key|].
           ++ destruct E3 as (t' & I' & R). exists t'. split; [right; exact I'|exact R].
           ++ intros t' [<-|I'] U R; [left; reflexivity|right; auto].
      * inversion E; subst. exists []. rewrite app_nil_r. split; [reflexivity|]. split; [intros b []|].
        exists t. split; [left; reflexivity|]. split; [exact B1|]. split; [exact B2|]. split; [reflexivity|].
        intros g e Eg Ee Q. rewrite Eg, Ee, Q, N.eqb_refl in F. discriminate.
Qed.

(** Peeking finds a master block exactly when popping does, and the same one. The shard blocks it lists are newly included
    top blocks at whose height the pop takes a block; nothing is missing exactly when the pop takes one for each top. *)
Theorem peek_tells_pop zs h k from : hist zs h k ->
  (snd (exec k (OPeek from)) = RPeek None /\ snd (exec k (OPop from)) = RErr) \/
  exists m shs last l miss, snd (exec k (OPop from)) = RGraph m shs last /\ snd (exec k (OPeek from)) = RPeek (Some (e_id m, l, miss)) /\
  ((forall t, In t (e_tops m) -> b_shard (t_id t) <> 0) ->
   (forall b, In b l -> exists t e, In t (e_tops m) /\ t_updated t = true /\ k_zs k < t_ref t /\ t_id t = b /\
      In e shs /\ key_of (e_id e) = key_of b) /\
   (miss = None <-> forall t, In t (e_tops m) -> t_updated t = true -> k_zs k < t_ref t ->
      exists e, In e shs /\ key_of (e_id e) = key_of (t_id t)) /\
   (miss = None -> forall t, In t (e_tops m) -> t_updated t = true -> k_zs k < t_ref t -> In (t_id t) l) /\
   (forall key, miss = Some key -> (exists t, In t (e_tops m) /\ t_updated t = true /\ k_zs k < t_ref t /\ key_of (t_id t) = key) /\
      forall e, In e shs -> key_of (e_id e) <> key)).
Proof.
  intros H. pose proof (hist_inv _ _ _ H) as [Hk _]. pose proof Hk as ([Hs Hi] & _).
  pose proof (exec_pop k from Hk) as P. cbn [exec]. cbn zeta in P. cbn [snd].
  assert (HF : match first_applied from (g_blocks (k_masters k)) with
    | None => snd (do_pop k from) = RErr
    | Some (_, e) => exists shs last, snd (do_pop k from) = RGraph e shs last end).
  { unfold do_pop. destruct (first_applied _ _) as [[n e]|]; [|reflexivity]. cbn zeta.
    destruct (extract_subgraph _ e) as [k' shs]. exists shs. eexists. reflexivity. }
  unfold do_peek. destruct (first_applied from (g_blocks (k_masters k))) as [[n m]|]; [|left; auto].
  right. destruct HF as (shs & last & EP). destruct (peek_tops k (b_seqno (e_id m)) (e_tops m) []) as [l miss] eqn:ET.
  exists m, shs, last, l, miss. split; [exact EP|]. split; [reflexivity|]. intros Hmc.
  destruct (peek_tops_spec _ _ _ _ _ _ ET) as (l' & El & E2 & E3). cbn [app] in El. subst l'.
  assert (EX : snd (exec k (OPop from)) = RGraph m shs last) by exact EP.
  destruct (taken_exactly zs h k _ m shs last H EX) as (_ & HB & _).
  assert (AT : forall b, b_shard b <> 0 -> block_at k (b_shard b) (b_seqno b) =
     match aget N.eqb (b_shard b) (k_shards k) with Some g => bget (b_seqno b) (g_blocks g) | None => None end).
  { intros b Q. unfold block_at, is_mc. now rewrite (proj2 (N.eqb_neq _ _) Q). }
  assert (IN : forall t g e, In t (e_tops m) -> t_updated t = true -> k_zs k < t_ref t ->
    aget N.eqb (b_shard (t_id t)) (k_shards k) = Some g -> bget (b_seqno (t_id t)) (g_blocks g) = Some e -> e_ref e = b_seqno (e_id m) ->
    In e shs /\ key_of (e_id e) = key_of (t_id t)).
  { intros t g e I U R Eg Ee Er. specialize (Hmc t I). pose proof (AT _ Hmc) as A. rewrite Eg, Ee in A. split.
    - apply HB. exists (t_id t). split; [now apply visits_top|]. split; [now apply N.eqb_neq|]. auto.
    - destruct (block_at_its_height zs h k _ _ _ H A) as [Q1 Q2]. unfold key_of. congruence. }
  assert (OUT : forall t, In t (e_tops m) -> 
    (forall g e, aget N.eqb (b_shard (t_id t)) (k_shards k) = Some g -> bget (b_seqno (t_id t)) (g_blocks g) = Some e -> e_ref e <> b_seqno (e_id m)) ->
    forall e, In e shs -> key_of (e_id e) <> key_of (t_id t)).
  { intros t I N e Ie Q. apply HB in Ie as (id & _ & Hm & El & Er). destruct (block_at_its_height zs h k _ _ _ H El) as [Q1 Q2].
    assert (KQ : b_shard id = b_shard (t_id t) /\ b_seqno id = b_seqno (t_id t)) by (unfold key_of in Q; split; congruence).
    destruct KQ as [K1 K2]. rewrite K1, K2, (AT (t_id t) (Hmc t I)) in El.
    destruct (aget N.eqb (b_shard (t_id t)) (k_shards k)) as [g|] eqn:Eg; [|discriminate]. exact (N g e eq_refl El Er). }
  split.
  { intros b I. destruct (E2 b I) as (t & g & e & It & U & R & Q & Eg & Ee & Er). subst b.
    destruct (IN t g e It U R Eg Ee Er) as [A B]. exists t, e. auto 10. }
  split.
  { split.
    - intros ->. intros t I U R. destruct (E2 _ (E3 t I U R)) as (t' & g & e & It & U' & R' & Q & Eg & Ee & Er).
      rewrite <- Q in Eg, Ee. destruct (IN t' g e It U' R' Eg Ee Er) as [A B]. exists e. rewrite <- Q. auto.
    - intros A. destruct miss as [key|]; [|reflexivity]. exfalso. destruct E3 as (t & I & U & R & Q & N).
      destruct (A t I U R) as (e & Ie & Qe). exact (OUT t I N e Ie Qe). }
  split; [intros ->; exact E3|]. intros key ->. destruct E3 as (t & I & U & R & Q & N).
  split; [exists t; auto|]. intros e Ie. rewrite <- Q. exact (OUT t I N e Ie).
Qed.

Lemma last_of_filter_ge n l b : srt l -> (forall x c, In (x, c) l -> b_seqno c = x) -> last_of l = Some b ->
  last_of (filter (fun p => n <=? fst p) l) = if n <=? b_seqno b then Some b else None.
Proof.
  intros Hs. induction Hs as [|x c l Hs IH Hf]; [discriminate|]. intros Hkey E.
  assert (L : forall l' : list (N * bid), l' <> [] -> last_of ((x, c) :: l') = last_of l') by (intros [|[y d] l'] Q; [congruence|reflexivity]).
  destruct l as [|[y d] l].
  - cbn in E. inversion E; subst c. cbn [filter fst]. rewrite (Hkey x b (or_introl eq_refl)). now destruct (n <=? x).
  - assert (E' : last_of ((y, d) :: l) = Some b) by exact E.
    specialize (IH (fun x' c' I => Hkey x' c' (or_intror I)) E').
    destruct (last_of_max _ _ Hs E') as (nb & Hin & Hmax).
    assert (nb = b_seqno b) by (symmetry; apply (Hkey nb b); right; exact Hin).
    assert (LT : x < nb).
    { rewrite Forall_forall in Hf. pose proof (Hf _ Hin) as Q. cbn [fst] in Q. change (x < nb) in Q. exact Q. }
    set (m := (y, d) :: l) in *. cbn [filter fst]. destruct (N.leb_spec n x) as [Q|Q]; [|exact IH].
    assert (W : n <=? b_seqno b = true) by (apply N.leb_le; lia). rewrite W in IH |- *.
    rewrite L; [exact IH|]. intros Z. rewrite Z in IH. discriminate.
Qed.

(** Taking out a master block forgets our own ones below it, and no other. *)
Theorem own_last_survives zs h k o m shs l b : hist zs h k -> snd (exec k o) = RGraph m shs l -> own_last k = Some b ->
  own_last (fst (exec k o)) = if b_seqno (e_id m) <=? b_seqno b then Some b else None.
Proof.
  intros H E OL. pose proof (hist_inv _ _ _ H) as [Hk _]. pose proof Hk as (_ & [Hs Hkey] & _).
  assert (KEY : forall x c, In (x, c) (m_last (g_data (k_masters k))) -> b_seqno c = x).
  { intros x c I. specialize (Hkey x c I). unfold key_of in Hkey. congruence. }
  pose proof (last_of_filter_ge (b_seqno (e_id m)) _ b Hs KEY OL) as F.
  unfold own_last, last_collated. destruct (graph_calls k o m shs l Hk E) as [[from ->]|[id ->]]; cbn [exec] in *.
  - pose proof (exec_pop k from Hk) as P. cbn zeta in P. rewrite E in P. destruct P as (_ & _ & _ & _ & _ & M & _). rewrite M.
    unfold popped_masters. cbn [g_data]. rewrite <- F. unfold move_range_start, remove_last_before.
    destruct (m_range _) as [[? ?]|]; reflexivity || (cbn [m_last m_range]; repeat destruct (_ <=? _); reflexivity).
  - pose proof (exec_extract k id Hk) as P. cbn zeta in P. rewrite E in P. destruct P as (En & _ & M & _). rewrite M, <- En.
    unfold extracted_masters. cbn [g_data with_data]. rewrite <- F.
    assert (MR : forall n d, m_last (move_range_start n d) = m_last d).
    { intros n d. unfold move_range_start. destruct (m_range d) as [[? ?]|]; [repeat destruct (_ <=? _)|]; try reflexivity; repeat destruct (_ <? _); reflexivity. }
    assert (FR : forall n (g : group mdata), g_data (fst (refresh_synced n g)) = g_data g).
    { intros n g. unfold refresh_synced. destruct (g_synced g) as [y|]; [destruct (n <=? y)|]; reflexivity. }
    try rewrite !FR. unfold remove_last_before. cbn [m_last]. destruct (applied m); cbn [g_data with_data with_blocks]; rewrite ?MR; reflexivity.
Qed.

(** An own shard block that was stored is a candidate for a top block of the next master block, with its own data, whether it
    came from the network as well or not. *)
Theorem own_shard_block_offers zs h k c tops a x : hist zs h k -> b_shard (c_id c) <> 0 ->
  snd (exec k (OCollated c tops a)) = RStored x -> x_mismatch x = false ->
  exists e, block_at (fst (exec k (OCollated c tops a))) (b_shard (c_id c)) (b_seqno (c_id c)) = Some e /\
    e_id e = c_id c /\ entry_info e = Some (c_info c).
Proof.
  intros H NZ E MM. pose proof (hist_inv _ _ _ H) as [Hk _]. cbn [exec] in *.
  assert (Es : is_mc (b_shard (c_id c)) = false) by (now apply N.eqb_neq).
  pose proof (ginv_shard_group k (b_shard (c_id c)) Hk) as [Hs _].
  unfold do_collated in *. rewrite Es in *.
  destruct (store_collated_group s_on_collated (shard_group k (b_shard (c_id c))) c tops a) as [[g b]|] eqn:Eg; [|discriminate].
  cbn [fst snd] in *. inversion E; subst x. cbn [res_of x_mismatch] in MM.
  rewrite block_at_set_shard by exact Es. rewrite N.eqb_refl.
  unfold store_collated_group in Eg. cbn zeta in Eg. rewrite Es in Eg.
  destruct (bget (b_seqno (c_id c)) (g_blocks (shard_group k (b_shard (c_id c))))) as [e|] eqn:Ee.
  - destruct (e_data e) as [|cl i] eqn:Ed; [discriminate|]. destruct (bid_eqb (e_id e) (c_id c)) eqn:Q.
    + inversion Eg; subst g b. cbn [g_blocks]. rewrite bget_bput, N.eqb_refl by exact Hs. eexists. split; [reflexivity|].
      cbn [e_id]. split; [|reflexivity]. destruct (bid_eqb_spec (e_id e) (c_id c)); congruence.
    + inversion Eg; subst g b. discriminate.
  - inversion Eg; subst g b. cbn [g_blocks]. rewrite bget_bput, N.eqb_refl by exact Hs. eexists. split; [reflexivity|]. split; reflexivity.
Qed.
