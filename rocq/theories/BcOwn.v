(** C69, continued: the master block that the cache reports as our own last one never disagrees
    with the block held at its height. *)
From Verif Require Export BcThms.
From Coq Require Import ZArith ZifyN ZifyNat ZifyBool Lia.

(** histories whose garbage collection boundaries are masters known to be on chain *)
Inductive sane_hist (zs : N) : list (op * outcome) -> cache -> Prop :=
| sane_new : sane_hist zs [] (new_cache zs)
| sane_step h k o : sane_hist zs h k -> wf_op o -> sane_gc k o ->
    sane_hist zs ((o, snd (exec k o)) :: h) (fst (exec k o)).
Lemma sane_is_hist zs h k : sane_hist zs h k -> hist zs h k.
Proof. induction 1; constructor; assumption. Qed.

Definition own_inv (k : cache) : Prop :=
  (forall n b e, In (n, b) (own_ids k) -> block_at k 0 n = Some e -> e_id e = b) /\
  (forall n b, In (n, b) (own_ids k) -> block_at k 0 n = None -> not_newer k 0 n) /\
  (forall n, g_gc (k_masters k) = Some n -> not_newer k 0 n).

Lemma mono_newer k k' s n : hle (known_height k s) (known_height k' s) ->
  not_newer k s n -> not_newer k' s n.
Proof.
  intros H (y & Ey & Ly). destruct (H _ Ey) as (y' & Ey' & Ly'). exists y'. split; [exact Ey'|lia].
Qed.

(** the master blocks and ids stay as they are *)
Lemma own_same k k' : own_inv k ->
  (forall n, block_at k' 0 n = block_at k 0 n) -> known_height k' 0 = known_height k 0 ->
  own_ids k' = own_ids k -> g_gc (k_masters k') = g_gc (k_masters k) -> own_inv k'.
Proof.
  intros (A & B & C) Eb Eh Ei Eg. split; [|split].
  - intros n b e. rewrite Ei, Eb. apply A.
  - intros n b. rewrite Ei, Eb. unfold not_newer. rewrite Eh. apply B.
  - intros n. rewrite Eg. unfold not_newer. rewrite Eh. apply C.
Qed.

(** ids and blocks get lost, and a lost block whose id is kept is below the known height *)
Lemma own_less k k' : own_inv k -> loses k k' ->
  (forall n b, In (n, b) (own_ids k') -> In (n, b) (own_ids k)) ->
  g_gc (k_masters k') = g_gc (k_masters k) ->
  (forall n b e, In (n, b) (own_ids k') -> block_at k 0 n = Some e -> block_at k' 0 n = None ->
     not_newer k' 0 n) -> own_inv k'.
Proof.
  intros (A & B & C) [L1 L2] Hi Eg Hlost. split; [|split].
  - intros n b e Hin E. eapply A; [apply Hi, Hin|apply L2, E].
  - intros n b Hin E. destruct (block_at k 0 n) as [e|] eqn:E0; [eapply Hlost; eassumption|].
    eapply mono_newer; [apply L1|]. eapply B; [apply Hi, Hin|exact E0].
  - intros n E. rewrite Eg in E. eapply mono_newer; [apply L1|]. auto.
Qed.

Lemma ids_move_start n m : m_last (move_range_start n m) = m_last m.
Proof.
  unfold move_range_start. destruct (m_range m) as [[a b]|]; [|reflexivity]. destruct (a <=? n); reflexivity.
Qed.
Lemma ids_befores l m n b : In (n, b) (m_last (remove_last_befores l m)) -> In (n, b) (m_last m).
Proof.
  revert m. induction l as [|x l IH]; intros m H; [exact H|]. cbn in H. apply IH in H.
  cbn in H. apply filter_In in H. apply H.
Qed.
Lemma ids_froms l m n b : In (n, b) (m_last (remove_last_froms l m)) ->
  In (n, b) (m_last m) /\ forall x, In x l -> n < x.
Proof.
  revert m. induction l as [|x l IH]; intros m H; [split; [exact H|intros y []]|]. cbn in H.
  apply IH in H as [H1 H2]. cbn in H1. apply filter_In in H1 as [H1 H3]. cbn in H3. apply N.ltb_lt in H3.
  split; [exact H1|]. intros y [<-|Hy]; auto.
Qed.

Lemma set_gc_gc keys : forall k n, g_gc (k_masters (do_set_gc k keys)) = Some n ->
  g_gc (k_masters k) = Some n \/ In (0, n) keys.
Proof.
  induction keys as [|[s m] keys IH]; intros k n E; [left; exact E|]. cbn [do_set_gc] in E.
  apply IH in E as [E|E]; [|right; now right]. destruct (is_mc s) eqn:Es.
  - cbn in E. injection E as <-. apply is_mc_eq in Es. subst s. right. now left.
  - destruct (aget N.eqb s (k_shards k)); left; exact E.
Qed.

Lemma own_remove_next keys : forall k, kinv k -> own_inv k -> own_inv (do_remove_next k keys).
Proof.
  induction keys as [|[s n] keys IH]; intros k Hk Ho; [exact Ho|]. cbn [do_remove_next].
  destruct (remove_next_ok [(s, n)] k Hk) as [Hk1 HL]. cbn [do_remove_next] in Hk1, HL.
  apply IH; [exact Hk1|]. destruct (is_mc s) eqn:Es.
  - eapply own_less; [exact Ho|exact HL| |reflexivity|].
    + intros m b H. unfold own_ids in H. cbn in H. now apply ids_froms in H.
    + intros m b e H E E'. exfalso. unfold own_ids in H. cbn in H. apply ids_froms in H as [_ H].
      unfold block_at in E, E'. cbn in E, E'. rewrite bget_filter in E' by apply Hk. rewrite E in E'.
      destruct (keep_next n (m, e)) eqn:Ek; [discriminate|].
      assert (m < m); [|lia]. apply H. apply in_map_iff. exists (m, e). split; [reflexivity|].
      apply filter_In. split; [apply bget_in; [apply Hk|exact E]|]. now rewrite Ek.
  - destruct (aget N.eqb s (k_shards k)); [|exact Ho].
    apply (own_same k); [exact Ho|reflexivity|reflexivity|reflexivity|reflexivity].
Qed.

Lemma own_step k o : kinv k -> own_inv k -> wf_op o -> sane_gc k o -> own_inv (fst (exec k o)).
Proof.
  intros Hk Ho Hw Hs. destruct o; cbn [exec fst].
  - destruct (collated_ok k c tops anchor Hk) as (Hk' & Hh & Hb & Hg & Hr). cbn zeta in Hr.
    assert (Hsame : g_data (k_masters (fst (do_collated k c tops anchor))) = g_data (k_masters k) ->
      (forall n, block_at (fst (do_collated k c tops anchor)) 0 n = block_at k 0 n) ->
      own_inv (fst (do_collated k c tops anchor))).
    { intros Ed En. apply (own_same k); [exact Ho|exact En|apply Hh|unfold own_ids; now rewrite Ed|exact Hg]. }
    destruct (snd (do_collated k c tops anchor)) as [| |x| | | | | |]; try contradiction.
    { destruct Hr as (_ & A2 & A3). apply Hsame; [exact A3|]. intros n. apply A2. }
    destruct Hr as (A1 & A2 & A3 & A4 & A5 & _ & _ & A8).
    destruct (is_mc (b_shard (c_id c))) eqn:Es; cbn [andb] in A8.
    2:{ apply Hsame; [exact A8|]. intros n. apply Hb. intros Q. injection Q as Q _.
        rewrite <- Q in Es. discriminate. }
    destruct (x_mismatch x) eqn:Ex; cbn [negb] in A8.
    { apply Hsame; [exact A8|]. intros n. apply is_mc_eq in Es. rewrite Es in *.
      destruct (N.eq_dec n (b_seqno (c_id c))) as [En|En]; [subst n; auto|]. apply Hb. congruence. }
    destruct (A5 eq_refl) as (e' & B1 & B2 & _). apply is_mc_eq in Es. rewrite Es in *.
    destruct Ho as (OA & OB & OC).
    assert (Hids : forall n b, In (n, b) (own_ids (fst (do_collated k c tops anchor))) ->
      (n = b_seqno (c_id c) /\ b = c_id c) \/ (n <> b_seqno (c_id c) /\ In (n, b) (own_ids k))).
    { intros n b H. unfold own_ids in H. rewrite A8 in H. cbn in H. rewrite ids_move_start in H.
      destruct Hk as (_ & [Hl _] & _).
      apply (oin_get _ Nto) in H; [|now apply (oput_sorted _ Nto)].
      rewrite (oget_put _ Nto) in H by exact Hl. rewrite cmp_eqb in H.
      destruct (N.eqb_spec n (b_seqno (c_id c))) as [En|En].
      - left. split; congruence.
      - right. split; [exact En|]. apply (oin_get _ Nto); [exact Hl|exact H]. }
    split; [|split].
    + intros n b e H E. apply Hids in H as [[-> ->]|[Hne H]]; [congruence|].
      eapply OA; [exact H|]. rewrite <- Hb; [exact E|congruence].
    + intros n b H E. apply Hids in H as [[-> ->]|[Hne H]]; [congruence|].
      unfold not_newer. rewrite Hh. eapply OB; [exact H|]. rewrite <- Hb; [exact E|congruence].
    + intros n E. unfold not_newer. rewrite Hh. apply OC. congruence.
  - destruct (N.lt_ge_cases (r_ref r) (k_zs k)) as [L|L].
    { rewrite received_old by exact L. exact Ho. }
    destruct (received_ok k r Hk L) as (Hk' & Hh & Hb & Hg & Hr). cbn zeta in Hr.
    destruct (snd (do_received k r)) as [| |x| | | | | |]; try contradiction.
    2:{ destruct Hr as (_ & A2 & A3 & A4). apply (own_same k); [exact Ho|intros n; apply A2|apply A3|unfold own_ids; now rewrite A4|exact Hg]. }
    destruct Hr as (A1 & A2 & A3 & (e' & B1 & B2 & B3) & A5 & A6 & _ & _ & A9).
    assert (Hids : forall n b, In (n, b) (own_ids (fst (do_received k r))) -> In (n, b) (own_ids k)).
    { intros n b H. unfold own_ids in *. rewrite A9 in H. unfold received_mdata in H.
      destruct (x_mismatch x); [cbn in H; apply filter_In in H as [H _]|];
        destruct (is_mc (b_shard (r_id r))); exact H. }
    destruct Ho as (OA & OB & OC). destruct (is_mc (b_shard (r_id r))) eqn:Es.
    + pose proof Es as Es'. apply is_mc_eq in Es'. rewrite Es' in *. split; [|split].
      * intros n b e H E. destruct (N.eq_dec n (b_seqno (r_id r))) as [En|En].
        -- subst n. assert (e = e') by congruence. subst e.
           destruct (bid_eqb_spec (r_id r) b) as [Q|Q]; [congruence|]. exfalso.
           pose proof (Hids _ _ H) as H0.
           destruct (block_at k 0 (b_seqno (r_id r))) as [e0|] eqn:E0.
           ++ assert (Hm : x_mismatch x = true).
              { apply A2. exists e0. split; [reflexivity|]. rewrite (OA _ _ _ H0 E0). congruence. }
              unfold own_ids in H. rewrite A9, Hm in H. unfold received_mdata in H. rewrite Es' in H. cbn in H.
              apply filter_In in H as [_ H]. cbn in H. apply N.ltb_lt in H. lia.
           ++ apply A1. eapply OB; eassumption.
        -- eapply OA; [apply Hids, H|]. rewrite <- Hb; [exact E|congruence].
      * intros n b H E. destruct (N.eq_dec n (b_seqno (r_id r))) as [En|En]; [congruence|].
        eapply mono_newer; [apply Hh|]. eapply OB; [apply Hids, H|]. rewrite <- Hb; [exact E|congruence].
      * intros n E. eapply mono_newer; [apply Hh|]. apply OC. congruence.
    + assert (Hb0 : forall n, block_at (fst (do_received k r)) 0 n = block_at k 0 n).
      { intros n. apply Hb. intros Q. injection Q as Q _. rewrite <- Q in Es. discriminate. }
      split; [|split].
      * intros n b e H E. rewrite Hb0 in E. eapply OA; [apply Hids, H|exact E].
      * intros n b H E. rewrite Hb0 in E. eapply mono_newer; [apply Hh|]. eapply OB; [apply Hids, H|exact E].
      * intros n E. eapply mono_newer; [apply Hh|]. apply OC. congruence.
  - destruct (validated_ok k id complete Hk) as (Hk' & Hh & Hd & Hg & _ & Hb & Hr).
    destruct (snd (do_validated k id complete)) as [| | | |st| | | |]; try contradiction.
    destruct st as [st|]; [|rewrite Hr; exact Ho].
    destruct Hr as (e & c & sg & st0 & A1 & A2 & _ & _ & A5). destruct Ho as (OA & OB & OC).
    assert (Ei : own_ids (fst (do_validated k id complete)) = own_ids k) by (unfold own_ids; now rewrite Hd).
    split; [|split].
    + intros n b e' H E. rewrite Ei in H. destruct (N.eq_dec n (b_seqno id)) as [En|En].
      * subst n. rewrite A5 in E. injection E as <-. cbn. eapply OA; eassumption.
      * eapply OA; [exact H|]. rewrite <- Hb; [exact E|congruence].
    + intros n b H E. rewrite Ei in H. destruct (N.eq_dec n (b_seqno id)) as [En|En]; [congruence|].
      unfold not_newer. rewrite Hh. eapply OB; [exact H|]. rewrite <- Hb; [exact E|congruence].
    + intros n E. unfold not_newer. rewrite Hh. apply OC. congruence.
  - exact Ho.
  - destruct (pop_ok k from Hk) as [Hk' HL]. pose proof (exec_pop k from Hk) as H. cbn zeta in H.
    destruct (snd (do_pop k from)) as [| | | | | |e shs b| |]; try contradiction.
    { destruct H as [-> _]. exact Ho. }
    destruct H as (_ & E & Ha & _ & _ & Em & _). set (n := b_seqno (e_id e)) in *.
    eapply own_less; [exact Ho|exact HL| |rewrite Em; reflexivity|].
    + intros m b0. unfold own_ids. rewrite Em. cbn. rewrite ids_move_start. cbn. intros H.
      apply filter_In in H. apply H.
    + intros m b0 e0 _ E0 E1. unfold block_at in E0, E1. cbn in E0, E1. rewrite Em in E1. cbn in E1.
      rewrite bget_bdel in E1 by apply Hk. destruct (N.eqb_spec m n) as [Q|Q]; [|congruence]. subst m.
      eapply mono_newer; [apply HL|]. destruct Hk as ([_ Hi] & _). unfold block_at in E. cbn in E.
      destruct (Hi _ _ E) as (_ & Q & _). apply Q, Ha.
  - destruct (extract_ok k id Hk) as [Hk' HL]. pose proof (exec_extract k id Hk) as H. cbn zeta in H.
    destruct (snd (do_extract k id)) as [| | | | | |e shs b| |]; try contradiction.
    { destruct H as [-> _]. exact Ho. }
    destruct H as (_ & E & Em & _). set (n := b_seqno id) in *.
    destruct (extracted_fields (k_masters k) n e) as (X1 & X2 & X3 & X4 & X5).
    eapply own_less; [exact Ho|exact HL| |rewrite Em; exact X2|].
    + intros m b0. unfold own_ids. rewrite Em, X5. cbn. intros H.
      apply filter_In in H as [H _]. destruct (applied e); [rewrite ids_move_start in H|]; exact H.
    + intros m b0 e0 _ E0 E1. unfold block_at in E0, E1. cbn in E0, E1. rewrite Em, X1 in E1.
      rewrite bget_bdel in E1 by apply Hk. destruct (N.eqb_spec m n) as [Q|Q]; [|congruence]. subst m.
      unfold not_newer, known_height. cbn. rewrite Em. exact X4.
  - destruct (set_gc_ok keys k Hk) as (Hk' & Hb & Hh & Hd). destruct Ho as (OA & OB & OC).
    assert (Ei : own_ids (do_set_gc k keys) = own_ids k) by (unfold own_ids; now rewrite Hd).
    split; [|split].
    + intros n b e. rewrite Ei, Hb. apply OA.
    + intros n b. rewrite Ei, Hb. unfold not_newer. rewrite Hh. apply OB.
    + intros n E. unfold not_newer. rewrite Hh. apply set_gc_gc in E as [E|E]; [now apply OC|].
      cbn in Hs. apply (Hs n E).
  - destruct (gc_ok k Hk) as [Hk' HL]. pose proof Ho as (OA & OB & OC).
    assert (Em : k_masters (do_gc k) = match g_gc (k_masters k) with
      | Some n => mkgroup (filter (fun p => n <=? fst p) (g_blocks (k_masters k))) (g_synced (k_masters k))
          (remove_last_befores (map fst (filter (fun p => negb (n <=? fst p)) (g_blocks (k_masters k)))) (g_data (k_masters k)))
          (g_gc (k_masters k))
      | None => k_masters k end) by reflexivity.
    eapply own_less; [exact Ho|exact HL| | |].
    + intros m b. unfold own_ids. rewrite Em. destruct (g_gc (k_masters k)); [|auto].
      cbn [g_data]. apply ids_befores.
    + rewrite Em. destruct (g_gc (k_masters k)) eqn:Eg; [reflexivity|exact Eg].
    + intros m b e _ E E'. unfold block_at in E, E'. cbn [is_mc N.eqb] in E, E'. rewrite Em in E'.
      destruct (g_gc (k_masters k)) as [n0|] eqn:Eg; [|congruence]. cbn [g_blocks] in E'.
      rewrite bget_filter in E' by apply Hk. rewrite E in E'. cbn [fst] in E'.
      destruct (N.leb_spec n0 m) as [Lm|Lm]; [discriminate|].
      eapply mono_newer; [apply HL|]. destruct (OC n0 eq_refl) as (y & Ey & Ly).
      exists y. split; [exact Ey|lia].
  - now apply own_remove_next.
  - destruct (tops_ok k mc Hk) as (_ & A & B & C).
    apply (own_same k); [exact Ho|intros; apply A|apply B|unfold own_ids; now rewrite C|now rewrite C].
  - destruct (reset_ok k Hk) as (_ & A & B & C).
    apply (own_same k); [exact Ho|intros; apply A|apply B|unfold own_ids; now rewrite C|now rewrite C].
Qed.

Lemma sane_own zs h k : sane_hist zs h k -> own_inv k.
Proof.
  induction 1 as [|h k o H IH Hw Hs]; [split; [cbn; tauto|split; [cbn; tauto|cbn; discriminate]]|].
  apply own_step; auto. apply sane_is_hist in H. now apply hist_inv in H.
Qed.

(** The master block that the cache reports as our last one is the block it holds at that height,
    whatever has been received meanwhile; if the height is not held any more it is known to be on
    chain. *)
Theorem own_last_agrees zs h k b : sane_hist zs h k -> own_last k = Some b ->
  match block_at k 0 (b_seqno b) with
  | Some e => e_id e = b
  | None => not_newer k 0 (b_seqno b)
  end.
Proof.
  intros H E. pose proof (sane_own _ _ _ H) as (OA & OB & _). apply sane_is_hist in H.
  apply hist_inv in H as [(_ & [_ Hkey] & _) _]. apply last_of_in in E as [n Hin].
  pose proof (Hkey _ _ Hin) as Q. unfold key_of in Q. assert (En : b_seqno b = n) by congruence.
  rewrite En. destruct (block_at k 0 n) as [e|] eqn:Ee; [eapply OA|eapply OB]; eassumption.
Qed.

(** It is the highest one of the master blocks of our own, each of which [store_collated] took. *)
Lemma own_ids_stored zs h k n b : hist zs h k -> In (n, b) (own_ids k) ->
  exists c tops a x, In (OCollated c tops a, RStored x) h /\ c_id c = b /\ x_mismatch x = false.
Proof.
  induction 1 as [|h k o H IH Hw]; [cbn; tauto|]. intros Hin.
  pose proof (hist_inv _ _ _ H) as [Hk _].
  assert (Hcase : In (n, b) (own_ids k) \/ exists c tops a x, o = OCollated c tops a /\
    snd (exec k o) = RStored x /\ c_id c = b /\ x_mismatch x = false).
  { destruct o; cbn [exec fst snd] in *.
    - destruct (collated_ok k c tops anchor Hk) as (_ & _ & _ & _ & Hr). cbn zeta in Hr. unfold own_ids in *.
      destruct (snd (do_collated k c tops anchor)) as [| |x| | | | | |]; try contradiction.
      + destruct Hr as (_ & _ & Ed). rewrite Ed in Hin. now left.
      + destruct Hr as (_ & _ & _ & _ & _ & _ & _ & Ed). rewrite Ed in Hin.
        destruct (is_mc (b_shard (c_id c)) && negb (x_mismatch x)) eqn:Ex; [|now left].
        apply andb_true_iff in Ex as [_ Ex]. apply negb_true_iff in Ex.
        cbn in Hin. rewrite ids_move_start in Hin. destruct Hk as (_ & [Hl _] & _).
        apply (oin_get _ Nto) in Hin; [|now apply (oput_sorted _ Nto)].
        rewrite (oget_put _ Nto) in Hin by exact Hl. rewrite cmp_eqb in Hin.
        destruct (N.eqb_spec n (b_seqno (c_id c))) as [En|En].
        * right. injection Hin as <-. exists c, tops, anchor, x. auto.
        * left. apply (oin_get _ Nto); [exact Hl|exact Hin].
    - left. destruct (N.lt_ge_cases (r_ref r) (k_zs k)) as [L|L].
      { rewrite received_old in Hin by exact L. exact Hin. }
      destruct (received_ok k r Hk L) as (_ & _ & _ & _ & Hr). cbn zeta in Hr. unfold own_ids in *.
      destruct (snd (do_received k r)) as [| |x| | | | | |]; try contradiction.
      + destruct Hr as (_ & _ & _ & _ & _ & _ & _ & _ & Ed). rewrite Ed in Hin.
        unfold received_mdata in Hin.
        destruct (x_mismatch x); [cbn in Hin; apply filter_In in Hin as [Hin _]|];
          destruct (is_mc (b_shard (r_id r))); exact Hin.
      + destruct Hr as (_ & _ & _ & Ed). rewrite Ed in Hin. exact Hin.
    - left. destruct (validated_ok k id complete Hk) as (_ & _ & Hd & _).
      unfold own_ids in *. rewrite Hd in Hin. exact Hin.
    - now left.
    - left. pose proof (exec_pop k from Hk) as P. cbn zeta in P.
      destruct (snd (do_pop k from)) as [| | | | | |e shs l| |]; try contradiction.
      { destruct P as [P _]. rewrite P in Hin. exact Hin. }
      destruct P as (_ & _ & _ & _ & _ & Em & _). unfold own_ids in *. rewrite Em in Hin. cbn in Hin.
      rewrite ids_move_start in Hin. cbn in Hin. apply filter_In in Hin. apply Hin.
    - left. pose proof (exec_extract k id Hk) as P. cbn zeta in P.
      destruct (snd (do_extract k id)) as [| | | | | |e shs l| |]; try contradiction.
      { destruct P as [P _]. rewrite P in Hin. exact Hin. }
      destruct P as (_ & _ & Em & _). unfold own_ids in *. rewrite Em in Hin.
      destruct (extracted_fields (k_masters k) (b_seqno id) e) as (_ & _ & _ & _ & X5).
      rewrite X5 in Hin. cbn in Hin. apply filter_In in Hin as [Hin _].
      destruct (applied e); [rewrite ids_move_start in Hin|]; exact Hin.
    - left. destruct (set_gc_ok keys k Hk) as (_ & _ & _ & Hd). unfold own_ids in *. rewrite Hd in Hin. exact Hin.
    - left. unfold own_ids, do_gc in *. cbn [k_masters] in Hin. destruct (g_gc (k_masters k)); [|exact Hin].
      cbn [g_data] in Hin. apply ids_befores in Hin. exact Hin.
    - left. clear -Hin. revert k Hin. induction keys as [|[s m] keys IHk]; intros k Hin; [exact Hin|].
      cbn [do_remove_next] in Hin. apply IHk in Hin. destruct (is_mc s).
      + unfold own_ids in Hin. cbn in Hin. apply ids_froms in Hin. apply Hin.
      + destruct (aget N.eqb s (k_shards k)); exact Hin.
    - left. destruct (tops_ok k mc Hk) as (_ & _ & _ & E). unfold own_ids in *. rewrite E in Hin. exact Hin.
    - left. exact Hin. }
  destruct Hcase as [Hc|(c & tops & a & x & -> & -> & Ec & Ex)].
  - destruct (IH Hc) as (c & tops & a & x & A1 & A2 & A3). exists c, tops, a, x. split; [now right|auto].
  - exists c, tops, a, x. split; [now left|auto].
Qed.

Theorem own_last_is_stored zs h k b : hist zs h k -> own_last k = Some b ->
  (exists c tops a x, In (OCollated c tops a, RStored x) h /\ c_id c = b /\ x_mismatch x = false) /\
  (forall n b', In (n, b') (own_ids k) -> n <= b_seqno b).
Proof.
  intros H E. pose proof (hist_inv _ _ _ H) as [(_ & [Hs Hkey] & _) _].
  destruct (last_of_max _ _ Hs E) as (n & Hin & Hmax). split.
  - eapply own_ids_stored; eassumption.
  - pose proof (Hkey _ _ Hin) as Q. unfold key_of in Q. assert (En : b_seqno b = n) by congruence.
    rewrite En. exact Hmax.
Qed.

(** After a received master block or our own committed one has been taken out, the boundaries
    the manager sets next lie at a master block known to be on chain. *)
Theorem taken_out_is_on_chain zs h k o m shs l : hist zs h k ->
  (exists from, o = OPop from) \/ (exists id, o = OExtract id) ->
  snd (exec k o) = RGraph m shs l ->
  (forall t, In t (e_tops m) -> b_shard (t_id t) <> 0) ->
  sane_gc (fst (exec k o)) (OSetGc (top_keys m)).
Proof.
  intros H Ho Er Ht. pose proof (hist_inv _ _ _ H) as [Hk _]. cbn [sane_gc].
  assert (Hm : b_shard (e_id m) = 0 /\ not_newer (fst (exec k o)) 0 (b_seqno (e_id m))).
  { destruct Ho as [[from ->]|[id ->]]; cbn [exec] in *.
    - pose proof (exec_pop k from Hk) as P. cbn zeta in P. rewrite Er in P.
      destruct P as (_ & E & Ha & _). split; [now apply (block_at_its_height _ _ _ 0 _ _ H E)|].
      destruct (pop_ok k from Hk) as [_ [L _]]. eapply mono_newer; [apply L|].
      eapply applied_below_known; eassumption.
    - pose proof (exec_extract k id Hk) as P. cbn zeta in P. rewrite Er in P.
      destruct P as (En & E & Em & _). split; [now apply (block_at_its_height _ _ _ 0 _ _ H E)|].
      rewrite En. unfold not_newer, known_height. cbn. rewrite Em.
      destruct (extracted_fields (k_masters k) (b_seqno id) m) as (_ & _ & _ & X4 & _). exact X4. }
  destruct Hm as [Hm1 Hm2]. intros n Hin. unfold top_keys in Hin. destruct Hin as [Q|Hin].
  - unfold key_of in Q. injection Q as _ <-. exact Hm2.
  - apply in_map_iff in Hin as (t & Q & Hin). unfold key_of in Q. injection Q as Q _.
    exfalso. now apply (Ht t Hin).
Qed.
