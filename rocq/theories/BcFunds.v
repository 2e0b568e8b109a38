(** C72: the fees of shard blocks collected for the next master block. *)
From Verif Require Export BcCommit.
From Coq Require Import ZArith ZifyN ZifyNat ZifyBool Lia.

Definition t_shard (t : bid * N * (N * N) * (N * N)) : N := b_shard (fst (fst (fst t))).
Definition t_block (t : bid * N * (N * N) * (N * N)) : bid := fst (fst (fst t)).
Definition t_info (t : bid * N * (N * N) * (N * N)) : N := snd (fst (fst t)).
Definition t_flow (t : bid * N * (N * N) * (N * N)) : N * N := snd (fst t).
Definition t_funds (t : bid * N * (N * N) * (N * N)) : N * N := snd t.

Definition plus2 (a b : N * N) : N * N := (fst a + fst b, snd a + snd b).

(** The own candidates of shard [s] that were accepted since they were last reported or reset:
    the sum of their (fees, created), and the value flow of the last one. *)
Fixpoint unreported (s : N) (h : list (op * outcome)) : (N * N) * (N * N) :=
  match h with
  | [] => ((0, 0), (0, 0))
  | (o, r) :: h =>
      let p := unreported s h in
      match o, r with
      | OCollated c _ _, RStored x =>
          if (b_shard (c_id c) =? s) && negb (x_mismatch x)
          then (plus2 (fst p) (c_flow c), c_flow c) else p
      | OTops _, RTops l => if existsb (fun t => t_shard t =? s) l then ((0, 0), (0, 0)) else p
      | OReset, _ => ((0, 0), (0, 0))
      | _, _ => p
      end
  end.

Definition sd (k : cache) (s : N) : (N * N) * (N * N) :=
  let d := g_data (shard_group k s) in ((s_fees d, s_created d), s_flow d).

Lemma sd_set_shard k s g s' : sd (set_shard k s g) s' =
  if N.eqb s' s then ((s_fees (g_data g), s_created (g_data g)), s_flow (g_data g)) else sd k s'.
Proof.
  unfold sd, shard_group, set_shard. cbn [k_shards]. rewrite sget_aset. destruct (N.eqb s' s); reflexivity.
Qed.
Lemma sd_same k k' : (forall s, match aget N.eqb s (k_shards k), aget N.eqb s (k_shards k') with
                           | Some g, Some g' => g_data g' = g_data g
                           | None, None => True | _, _ => False end) -> forall s, sd k' s = sd k s.
Proof.
  intros H s. specialize (H s). unfold sd, shard_group.
  destruct (aget N.eqb s (k_shards k)), (aget N.eqb s (k_shards k')); try contradiction; [now rewrite H|reflexivity].
Qed.
Lemma sd_shrunk k k' : shrunk (k_shards k) (k_shards k') -> forall s, sd k' s = sd k s.
Proof.
  intros [_ H]. apply sd_same. intros s. specialize (H s).
  destruct (aget N.eqb s (k_shards k)), (aget N.eqb s (k_shards k')); try contradiction; [apply H|exact I].
Qed.
Lemma sd_set_gc l : forall k s, sd (do_set_gc k l) s = sd k s.
Proof.
  induction l as [|[s0 n] l IH]; intros k s; [reflexivity|]. cbn [do_set_gc]. rewrite IH.
  destruct (is_mc s0); [reflexivity|]. destruct (aget N.eqb s0 (k_shards k)) as [g|] eqn:E; [|reflexivity].
  rewrite sd_set_shard. destruct (N.eqb_spec s s0) as [Q|Q]; [|reflexivity]. subst s0.
  unfold sd, shard_group. now rewrite E.
Qed.
Lemma sd_remove_next l : forall k s, sd (do_remove_next k l) s = sd k s.
Proof.
  induction l as [|[s0 n] l IH]; intros k s; [reflexivity|]. cbn [do_remove_next]. rewrite IH.
  destruct (is_mc s0); [reflexivity|]. destruct (aget N.eqb s0 (k_shards k)) as [g|] eqn:E; [|reflexivity].
  rewrite sd_set_shard. destruct (N.eqb_spec s s0) as [Q|Q]; [|reflexivity]. subst s0.
  unfold sd, shard_group. now rewrite E.
Qed.
Lemma aget_map_snd V W (f : V -> W) s (l : list (N * V)) :
  aget N.eqb s (map (fun p => (fst p, f (snd p))) l) =
  match aget N.eqb s l with Some v => Some (f v) | None => None end.
Proof. induction l as [|[a v] l IH]; [reflexivity|]. cbn [map aget fst snd]. destruct (N.eqb s a); auto. Qed.

(** [top_infos], shard by shard *)
Definition tops_of (mc : N) (p : N * group sdata) : list (bid * N * (N * N) * (N * N)) :=
  match top_candidate mc (g_blocks (snd p)) with
  | Some (id, i) => [(id, i, s_flow (g_data (snd p)), (s_fees (g_data (snd p)), s_created (g_data (snd p))))]
  | None => [] end.
Lemma top_infos_list mc shs : snd (top_infos mc shs) = flat_map (tops_of mc) shs.
Proof.
  induction shs as [|[s g] shs IH]; [reflexivity|]. cbn [top_infos flat_map].
  destruct (top_infos mc shs) as [r l]. cbn [snd] in IH. unfold tops_of at 1. cbn [snd].
  destruct (top_candidate mc (g_blocks g)) as [[id i]|]; cbn; now rewrite IH.
Qed.

Lemma find_rev_last (m : list (N * entry)) (f : N * entry -> bool) (n : N) (e : entry) : srt m -> find f (rev m) = Some (n, e) ->
  In (n, e) m /\ f (n, e) = true /\ forall n' e', In (n', e') m -> f (n', e') = true -> n' <= n.
Proof.
  induction 1 as [|n1 e1 m Hs IH Hf]; [discriminate|]. cbn [rev]. intros E.
  assert (Happ : forall l, find f (l ++ [(n1, e1)]) = match find f l with Some y => Some y | None => find f [(n1, e1)] end).
  { induction l as [|y l IHl]; [reflexivity|]. cbn [app find]. destruct (f y); [reflexivity|exact IHl]. }
  rewrite Happ in E. destruct (find f (rev m)) as [y|] eqn:Ef.
  - assert (y = (n, e)) by congruence. subst y. destruct (IH eq_refl) as (A & B & C).
    split; [now right|]. split; [exact B|]. intros n' e' [Q|Hin] Ht; [|now apply (C n' e')].
    assert (n' = n1) by congruence. subst n'. rewrite Forall_forall in Hf. specialize (Hf _ A). cbn in Hf.
    change (n1 < n) in Hf. lia.
  - cbn [find] in E. destruct (f (n1, e1)) eqn:E1; [|discriminate].
    assert (n1 = n /\ e1 = e) as [-> ->] by (split; congruence).
    split; [now left|]. split; [exact E1|]. intros n' e' [Q|Hin] Ht.
    + assert (n' = n) by congruence. lia.
    + exfalso. apply in_rev in Hin. pose proof (find_none _ _ Ef _ Hin) as Q. congruence.
Qed.

Lemma top_candidate_some mc m id i : srt m -> top_candidate mc m = Some (id, i) ->
  exists n e, bget n m = Some e /\ e_id e = id /\ e_ref e = mc /\ entry_info e = Some i /\
    forall n' e', bget n' m = Some e' -> e_ref e' = mc -> entry_info e' <> None -> n' <= n.
Proof.
  intros Hs E. unfold top_candidate in E.
  match type of E with context [find ?F _] => set (f := F) in E end.
  destruct (find f (rev m)) as [[n e]|] eqn:Ef; [|discriminate].
  apply find_rev_last in Ef as (A & B & C); [|exact Hs].
  destruct (entry_info e) as [j|] eqn:Ej; [|discriminate].
  assert (e_id e = id /\ j = i) as [<- <-] by (split; congruence).
  exists n, e. split; [now apply bget_in|]. split; [reflexivity|].
  unfold f in B. cbn [snd] in B. apply andb_true_iff in B as [B _]. apply N.eqb_eq in B.
  split; [exact B|]. split; [exact Ej|]. intros n' e' E' R I'. apply (C n' e'); [now apply bget_in|].
  unfold f. cbn [snd]. rewrite R, N.eqb_refl. destruct (entry_info e'); [reflexivity|congruence].
Qed.
Lemma top_candidate_none mc m n e : srt m -> top_candidate mc m = None ->
  bget n m = Some e -> e_ref e = mc -> entry_info e = None.
Proof.
  intros Hs E Ee R. unfold top_candidate in E.
  match type of E with context [find ?F _] => set (f := F) in E end.
  destruct (find f (rev m)) as [[n1 e1]|] eqn:Ef.
  - apply find_some in Ef as [_ Ef]. unfold f in Ef. cbn [snd] in Ef.
    destruct (entry_info e1); [discriminate|]. rewrite andb_false_r in Ef. discriminate.
  - apply bget_in in Ee; [|exact Hs]. apply in_rev in Ee. pose proof (find_none _ _ Ef _ Ee) as Q.
    unfold f in Q. cbn [snd] in Q. rewrite R, N.eqb_refl in Q. destruct (entry_info e); [discriminate|reflexivity].
Qed.

(** Who is in the answer: for every shard that holds a block for this master block with the
    additional info, its highest such block; with the funds and the flow of that shard. *)
Lemma tops_answer k mc l : kinv k -> snd (do_tops k mc) = RTops l ->
  NoDup (map t_shard l) /\
  (forall t, In t l -> is_mc (t_shard t) = false /\
     sd k (t_shard t) = (t_funds t, t_flow t) /\
     exists e, block_at k (t_shard t) (b_seqno (t_block t)) = Some e /\ e_id e = t_block t /\
       e_ref e = mc /\ entry_info e = Some (t_info t) /\
       forall n' e', block_at k (t_shard t) n' = Some e' -> e_ref e' = mc -> entry_info e' <> None ->
         n' <= b_seqno (t_block t)) /\
  (forall s n e, is_mc s = false -> block_at k s n = Some e -> e_ref e = mc -> entry_info e <> None ->
     exists t, In t l /\ t_shard t = s).
Proof.
  intros (_ & _ & Hnd & H4) E.
  assert (El : l = flat_map (tops_of mc) (k_shards k)).
  { unfold do_tops in E. rewrite <- top_infos_list. destruct (top_infos mc (k_shards k)) as [r l0].
    cbn [snd] in *. congruence. }
  clear E. subst l.
  assert (Hone : forall s g t, aget N.eqb s (k_shards k) = Some g -> In t (tops_of mc (s, g)) ->
    t_shard t = s /\ exists n e, bget n (g_blocks g) = Some e /\ e_id e = t_block t /\ b_seqno (t_block t) = n /\
      e_ref e = mc /\ entry_info e = Some (t_info t) /\
      (forall n' e', bget n' (g_blocks g) = Some e' -> e_ref e' = mc -> entry_info e' <> None -> n' <= n) /\
      t_funds t = (s_fees (g_data g), s_created (g_data g)) /\ t_flow t = s_flow (g_data g)).
  { intros s g t Eg Hin. destruct (H4 _ _ Eg) as [Hm [Hs Hi]]. unfold tops_of in Hin. cbn [snd] in Hin.
    destruct (top_candidate mc (g_blocks g)) as [[id i]|] eqn:Et; [|contradiction].
    destruct Hin as [<-|[]]. destruct (top_candidate_some mc _ id i Hs Et) as (n & e & A1 & A2 & A3 & A4 & A5).
    destruct (Hi _ _ A1) as (Hk & _). unfold key_of in Hk. rewrite A2 in Hk. injection Hk as Hk1 Hk2.
    split; [exact Hk1|]. exists n, e. unfold t_block, t_info, t_funds, t_flow. cbn. auto 10. }
  assert (Haget : forall s g, In (s, g) (k_shards k) -> aget N.eqb s (k_shards k) = Some g).
  { revert Hnd. clear. generalize (k_shards k). intros l Hnd s g Hin.
    induction l as [|[s1 g1] l IH]; [contradiction|]. cbn [aget]. cbn [akeys map fst] in Hnd.
    inversion Hnd as [|? ? N1 N2]; subst. destruct Hin as [Q|Hin].
    - injection Q as -> ->. now rewrite N.eqb_refl.
    - destruct (N.eqb_spec s s1) as [Q|Q]; [|now apply IH]. exfalso. subst s1. apply N1.
      apply in_map_iff. exists (s, g). auto. }
  assert (Hback : forall s g, aget N.eqb s (k_shards k) = Some g -> In (s, g) (k_shards k)).
  { clear. generalize (k_shards k). intros l s g. induction l as [|[s1 g1] l IH]; [discriminate|]. cbn [aget].
    destruct (N.eqb_spec s s1) as [Q|Q]; intros E; [injection E as ->; subst; now left|right; auto]. }
  split; [|split].
  - assert (Hshard : forall p t, In p (k_shards k) -> In t (tops_of mc p) -> t_shard t = fst p).
    { intros [s g] t Hp Ht. now apply (Hone s g t (Haget _ _ Hp)). }
    clear Hone Haget Hback H4. revert Hnd Hshard. generalize (k_shards k). intros l Hnd Hsh.
    induction l as [|p l IH]; [constructor|]. unfold akeys in Hnd. cbn [map] in Hnd. cbn [flat_map].
    inversion Hnd as [|? ? N1 N2]; subst. rewrite map_app.
    assert (IH' : NoDup (map t_shard (flat_map (tops_of mc) l))).
    { apply IH; [exact N2|]. intros q t Hq. apply Hsh. now right. }
    assert (Hp : forall t, In t (tops_of mc p) -> t_shard t = fst p) by (intros t; apply Hsh; now left).
    unfold tops_of at 1. unfold tops_of in Hp.
    destruct (top_candidate mc (g_blocks (snd p))) as [[id i]|]; cbn [map app]; [|exact IH'].
    constructor; [|exact IH']. rewrite (Hp _ (or_introl eq_refl)). intros Hin.
    apply in_map_iff in Hin as (t & Q & Ht). apply in_flat_map in Ht as (q & Hq & Ht).
    apply N1. rewrite <- Q. rewrite (Hsh q t (or_intror Hq) Ht). now apply in_map.
  - intros t Ht. apply in_flat_map in Ht as ([s g] & Hp & Ht). pose proof (Haget _ _ Hp) as Eg.
    destruct (Hone s g t Eg Ht) as (Q & n & e & A1 & A2 & A3 & A4 & A5 & A6 & A7 & A8).
    destruct (H4 _ _ Eg) as [Hm _]. rewrite Q. split; [exact Hm|]. split.
    + unfold sd, shard_group. rewrite Eg, A7, A8. reflexivity.
    + exists e. unfold block_at. rewrite Hm, Eg, A3. auto.
  - intros s n e Hm E R I'. unfold block_at in E. rewrite Hm in E.
    destruct (aget N.eqb s (k_shards k)) as [g|] eqn:Eg; [|discriminate].
    destruct (H4 _ _ Eg) as [_ [Hs _]].
    destruct (top_candidate mc (g_blocks g)) as [[id i]|] eqn:Et.
    + assert (Hin : In (id, i, s_flow (g_data g), (s_fees (g_data g), s_created (g_data g))) (tops_of mc (s, g)))
        by (unfold tops_of; cbn [snd]; rewrite Et; now left).
      eexists. split; [apply in_flat_map; exists (s, g); split; [now apply Hback|exact Hin]|].
      now apply (Hone s g _ Eg Hin).
    + exfalso. apply I'. exact (top_candidate_none mc _ n e Hs Et E R).
Qed.

Lemma sd_step k o h : kinv k -> (forall s, is_mc s = false -> sd k s = unreported s h) ->
  forall s, is_mc s = false -> sd (fst (exec k o)) s = unreported s ((o, snd (exec k o)) :: h).
Proof.
  intros Hk IH s Hs. specialize (IH s Hs). destruct o; cbn [exec fst snd unreported].
  - unfold do_collated. destruct (is_mc (b_shard (c_id c))) eqn:Em.
    + assert (Q : (b_shard (c_id c) =? s) = false).
      { destruct (N.eqb_spec (b_shard (c_id c)) s) as [Q|Q]; [congruence|reflexivity]. }
      destruct (store_collated_group _ _ _ _ _) as [[g b]|]; cbn [fst snd]; [|exact IH].
      rewrite Q. cbn [andb]. exact IH.
    + destruct (store_collated_group _ _ _ _ _) as [[g b]|] eqn:Es; cbn [fst snd]; rewrite sd_set_shard, N.eqb_sym;
        (destruct (N.eqb_spec (b_shard (c_id c)) s) as [Q|Q]; [|exact IH]).
      * cbn [andb]. unfold res_of. cbn [x_mismatch]. rewrite <- IH. unfold sd. rewrite Q in Es.
        unfold store_collated_group in Es. cbn zeta in Es.
        destruct (bget _ _) as [e|].
        -- destruct (e_data e) as [|col info]; [discriminate|].
           destruct (bid_eqb _ _); injection Es as <- <-; cbn; reflexivity.
        -- injection Es as <- <-. reflexivity.
      * rewrite <- IH, Q. reflexivity.
  - unfold do_received. destruct (r_ref r <? k_zs k); [exact IH|]. cbn zeta.
    set (r1 := if r_ref r =? k_zs k then _ else _). destruct (is_mc (b_shard (r_id r1))).
    + destruct (refresh_synced _ _) as [g old]. destruct old; [exact IH|].
      destruct (store_received_group _ _ _) as [[g' b]|]; exact IH.
    + destruct (refresh_spec _ (b_seqno (r_id r1)) (shard_group k (b_shard (r_id r1)))) as (_ & Rd & _).
      destruct (refresh_synced _ _) as [g old]. cbn [fst] in Rd.
      assert (Hg : forall g', g_data g' = g_data (shard_group k (b_shard (r_id r1))) ->
        sd (set_shard k (b_shard (r_id r1)) g') s = unreported s h).
      { intros g' Q. rewrite sd_set_shard. destruct (N.eqb_spec s (b_shard (r_id r1))) as [Q2|Q2]; [|exact IH].
        rewrite <- IH. unfold sd. now rewrite Q, Q2. }
      destruct old; [apply Hg; exact Rd|].
      destruct (store_received_group _ _ _) as [[g' b]|] eqn:Es; [|apply Hg; exact Rd].
      assert (Q : g_data g' = g_data (shard_group k (b_shard (r_id r1)))).
      { rewrite <- Rd. unfold store_received_group in Es. cbn zeta in Es. destruct (bget _ _) as [e|].
        - destruct (e_data e) as [c sg st rcv|]; [|discriminate].
          destruct (bid_eqb _ _); injection Es as <- _; reflexivity.
        - injection Es as <- _. reflexivity. }
      specialize (Hg g' Q). destruct b as [b1 b2]. cbn [snd]. destruct b2; exact Hg.
  - destruct (validated_ok k id complete Hk) as (_ & _ & _ & _ & Q & _).
    unfold sd, shard_group. rewrite Q. exact IH.
  - exact IH.
  - pose proof (exec_pop k from Hk) as P. cbn zeta in P.
    destruct (snd (do_pop k from)) as [| | | | | |m shs b| |]; try contradiction.
    + destruct P as [-> _]. exact IH.
    + destruct P as (_ & _ & _ & _ & _ & _ & P). apply (f_equal fst) in P. cbn [fst] in P. rewrite P.
      rewrite <- IH. apply (sd_shrunk (set_masters k (popped_masters (k_masters k) (b_seqno (e_id m))))).
      apply extract_subgraph_shrunk.
  - pose proof (exec_extract k id Hk) as P. cbn zeta in P.
    destruct (snd (do_extract k id)) as [| | | | | |m shs b| |]; try contradiction.
    + destruct P as [-> _]. exact IH.
    + destruct P as (_ & _ & _ & P). apply (f_equal fst) in P. cbn [fst] in P. rewrite P.
      rewrite <- IH. apply (sd_shrunk (set_masters k (extracted_masters (k_masters k) (b_seqno id) m))).
      apply extract_subgraph_shrunk.
  - rewrite sd_set_gc. exact IH.
  - rewrite <- IH. apply sd_same. intros s0. unfold do_gc. cbn [k_shards].
    rewrite aget_map_snd. destruct (aget N.eqb s0 (k_shards k)) as [g|]; [|exact I].
    unfold gc_shard. destruct (g_gc g); reflexivity.
  - rewrite sd_remove_next. exact IH.
  - destruct (snd (do_tops k mc)) as [| | | | | | |l|] eqn:El;
      try (unfold do_tops in El; destruct (top_infos mc (k_shards k)); discriminate).
    destruct (tops_answer k mc l Hk El) as (_ & A2 & A3).
    assert (Hd : sd (fst (do_tops k mc)) s =
      match aget N.eqb s (k_shards k) with
      | Some g => match top_candidate mc (g_blocks g) with Some _ => ((0, 0), (0, 0)) | None => sd k s end
      | None => sd k s end).
    { unfold do_tops. pose proof (top_infos_get mc (k_shards k) s) as G.
      destruct (top_infos mc (k_shards k)) as [shs l0]. cbn [fst] in *. unfold sd, shard_group. cbn [k_shards].
      rewrite G. destruct (aget N.eqb s (k_shards k)) as [g|]; [|reflexivity].
      destruct (top_candidate mc (g_blocks g)); reflexivity. }
    rewrite Hd. clear Hd. destruct (existsb (fun t => t_shard t =? s) l) eqn:Ex.
    + apply existsb_exists in Ex as (t & Ht & Q). apply N.eqb_eq in Q.
      destruct (A2 t Ht) as (_ & _ & e & B1 & _ & B3 & B4 & _). rewrite Q in B1. unfold block_at in B1.
      rewrite Hs in B1. destruct (aget N.eqb s (k_shards k)) as [g|] eqn:Eg; [|discriminate].
      destruct (top_candidate mc (g_blocks g)) as [p|] eqn:Et; [reflexivity|]. exfalso.
      destruct Hk as (_ & _ & _ & H4). destruct (H4 _ _ Eg) as [_ [Hsr _]].
      rewrite (top_candidate_none mc _ _ _ Hsr Et B1 B3) in B4. discriminate.
    + destruct (aget N.eqb s (k_shards k)) as [g|] eqn:Eg; [|exact IH].
      destruct (top_candidate mc (g_blocks g)) as [[id i]|] eqn:Et; [|exact IH]. exfalso.
      destruct Hk as (_ & _ & _ & H4). destruct (H4 _ _ Eg) as [_ [Hsr _]].
      destruct (top_candidate_some mc _ id i Hsr Et) as (n & e & B1 & _ & B3 & B4 & _).
      destruct (A3 s n e Hs) as (t & Ht & Q); [unfold block_at; now rewrite Hs, Eg|exact B3|congruence|].
      assert (Ht2 : existsb (fun t => t_shard t =? s) l = true)
        by (apply existsb_exists; exists t; split; [exact Ht|now apply N.eqb_eq]).
      congruence.
  - unfold do_reset, sd, shard_group. cbn [k_shards].
    rewrite (aget_map_snd _ _ (fun g => with_data g (s_reset (g_data g)))).
    destruct (aget N.eqb s (k_shards k)); reflexivity.
Qed.
Lemma sd_inv zs h k : hist zs h k -> forall s, is_mc s = false -> sd k s = unreported s h.
Proof.
  induction 1 as [|h k o H IH Hw]; [reflexivity|]. apply sd_step; [|exact IH]. apply (hist_inv _ _ _ H).
Qed.

(** The top shard blocks for the next master block: one per shard, the highest held block that
    refers to it (with its own data), and no shard with such a block is left out; with it come
    the fees of all candidates of the shard since the last report, each counted once. *)
Theorem top_blocks_answer zs h k mc l : hist zs h k -> snd (exec k (OTops mc)) = RTops l ->
  NoDup (map t_shard l) /\
  (forall t, In t l ->
     (t_funds t, t_flow t) = unreported (t_shard t) h /\
     exists e, block_at k (t_shard t) (b_seqno (t_block t)) = Some e /\ e_id e = t_block t /\
       e_ref e = mc /\ entry_info e = Some (t_info t) /\
       forall n' e', block_at k (t_shard t) n' = Some e' -> e_ref e' = mc -> entry_info e' <> None ->
         n' <= b_seqno (t_block t)) /\
  (forall s n e, s <> 0 -> block_at k s n = Some e -> e_ref e = mc -> entry_info e <> None ->
     exists t, In t l /\ t_shard t = s).
Proof.
  intros H E. pose proof (hist_inv _ _ _ H) as [Hk _]. cbn [exec] in E.
  destruct (tops_answer k mc l Hk E) as (A1 & A2 & A3). split; [exact A1|]. split.
  - intros t Ht. destruct (A2 t Ht) as (B1 & B2 & B3). split; [|exact B3].
    rewrite <- B2. apply (sd_inv _ _ _ H), B1.
  - intros s n e Hs. apply A3. unfold is_mc. now apply N.eqb_neq.
Qed.

(** conservation over a history: what was reported, and what was earned *)
Fixpoint reported (s : N) (h : list (op * outcome)) : N * N :=
  match h with
  | [] => (0, 0)
  | (OTops _, RTops l) :: h =>
      fold_right plus2 (reported s h) (map t_funds (filter (fun t => t_shard t =? s) l))
  | _ :: h => reported s h
  end.
Fixpoint earned (s : N) (h : list (op * outcome)) : N * N :=
  match h with
  | [] => (0, 0)
  | (OCollated c _ _, RStored x) :: h =>
      if (b_shard (c_id c) =? s) && negb (x_mismatch x)
      then plus2 (earned s h) (c_flow c) else earned s h
  | _ :: h => earned s h
  end.

Lemma only_one s (l : list (bid * N * (N * N) * (N * N))) : NoDup (map t_shard l) ->
  match filter (fun t => t_shard t =? s) l with
  | [] => existsb (fun t => t_shard t =? s) l = false
  | t :: r => r = [] /\ In t l /\ t_shard t = s /\ existsb (fun t => t_shard t =? s) l = true
  end.
Proof.
  induction l as [|t l IH]; [reflexivity|]. cbn [map filter existsb]. intros Hnd.
  inversion Hnd as [|? ? N1 N2]; subst. specialize (IH N2). destruct (N.eqb_spec (t_shard t) s) as [Q|Q].
  - cbn [orb]. split; [|split; [now left|auto]].
    destruct (filter (fun t0 => t_shard t0 =? s) l) as [|t2 r]; [reflexivity|]. exfalso.
    destruct IH as (_ & Hin & Q2 & _). apply N1. rewrite Q, <- Q2. now apply in_map.
  - cbn [orb]. destruct (filter (fun t0 => t_shard t0 =? s) l) as [|t2 r]; [exact IH|].
    destruct IH as (A & B & C & D). split; [exact A|]. split; [now right|]. auto.
Qed.

(** As long as nothing is reset, the fees reported so far and those not yet reported add up to
    the fees of all accepted candidates. *)
Theorem fees_are_conserved zs h k s : hist zs h k -> s <> 0 -> (forall r, ~ In (OReset, r) h) ->
  plus2 (reported s h) (fst (unreported s h)) = earned s h.
Proof.
  intros H Hs. induction H as [|h k o H IH Hw]; intros Hn; [reflexivity|].
  assert (Hn' : forall r, ~ In (OReset, r) h) by (intros r Hin; apply (Hn r); now right).
  specialize (IH Hn'). pose proof (hist_inv _ _ _ H) as [Hk _].
  destruct o; cbn [reported unreported earned]; try exact IH.
  - destruct (snd (exec k (OCollated c tops anchor))); try exact IH.
    destruct ((b_shard (c_id c) =? s) && negb (x_mismatch r)); [|exact IH].
    cbn [fst]. rewrite <- IH. unfold plus2. cbn [fst snd]. f_equal; lia.
  - destruct (snd (exec k (OTops mc))) as [| | | | | | |l|] eqn:El; try exact IH.
    destruct (top_blocks_answer zs h k mc l H El) as (A1 & A2 & _).
    pose proof (only_one s l A1) as O. destruct (filter (fun t => t_shard t =? s) l) as [|t r].
    + rewrite O. exact IH.
    + destruct O as (-> & Hin & Q & ->). destruct (A2 t Hin) as [B _]. rewrite Q in B.
      cbn [map fold_right fst]. rewrite <- IH, <- B. unfold plus2. cbn [fst snd]. f_equal; lia.
  - exfalso. apply (Hn (snd (exec k OReset))). now left.
Qed.
