(** C72: what is handed over to be applied, and the fees collected for the next master block. *)
From Verif Require Export BcRange.
From Coq Require Import ZArith ZifyN ZifyNat ZifyBool Lia.

Lemma store_received_data T (on : bid -> T -> T) g r g' b n e' c sg st rcv :
  srt (g_blocks g) -> store_received_group on g r = Some (g', b) ->
  bget n (g_blocks g') = Some e' -> e_data e' = DCollated c sg st rcv ->
  exists e st0 rcv0, bget n (g_blocks g) = Some e /\ e_data e = DCollated c sg st0 rcv0 /\
    (st = st0 \/ st = StSynced).
Proof.
  intros Hs E Eb Ed. unfold store_received_group in E. cbn zeta in E.
  destruct (bget (b_seqno (r_id r)) (g_blocks g)) as [e|] eqn:E0.
  - destruct (e_data e) as [c0 sg0 st0 rcv0|] eqn:Ed0; [|discriminate].
    destruct (bid_eqb (e_id e) (r_id r)); injection E as <- _; cbn [g_blocks] in Eb;
      rewrite bget_bput in Eb by exact Hs; destruct (N.eqb_spec n (b_seqno (r_id r))) as [En|En].
    + injection Eb as <-. cbn in Ed. injection Ed as <- <- <- <-. subst n. exists e, st0, rcv0. auto.
    + exists e', st, rcv. auto.
    + injection Eb as <-. discriminate.
    + exists e', st, rcv. auto.
  - injection E as <- _. cbn [g_blocks] in Eb. rewrite bget_bput in Eb by exact Hs.
    destruct (N.eqb_spec n (b_seqno (r_id r))) as [En|En].
    + injection Eb as <-. discriminate.
    + exists e', st, rcv. auto.
Qed.

Lemma store_collated_data T (on : cand -> T -> T) g c0 tops a g' b n e' c sg st rcv :
  srt (g_blocks g) -> store_collated_group on g c0 tops a = Some (g', b) ->
  bget n (g_blocks g') = Some e' -> e_data e' = DCollated c sg st rcv ->
  bget n (g_blocks g) = Some e' \/ (e' = from_collated c0 tops a /\ snd b = false).
Proof.
  intros Hs E Eb Ed. unfold store_collated_group in E. cbn zeta in E.
  destruct (bget (b_seqno (c_id c0)) (g_blocks g)) as [e|] eqn:E0.
  - destruct (e_data e) as [|col info] eqn:Ed0; [discriminate|].
    destruct (bid_eqb (e_id e) (c_id c0)); injection E as <- _; cbn [g_blocks] in Eb; [|now left].
    rewrite bget_bput in Eb by exact Hs. destruct (N.eqb_spec n (b_seqno (c_id c0))) as [En|En]; [|now left].
    injection Eb as <-. discriminate.
  - injection E as <- <-. cbn [g_blocks] in Eb. rewrite bget_bput in Eb by exact Hs.
    destruct (N.eqb_spec n (b_seqno (c_id c0))) as [En|En]; [|now left].
    injection Eb as <-. right. auto.
Qed.

(** where an own candidate in the cache comes from, and how its status can have changed *)
Lemma data_step k o s n e' c sg st rcv : kinv k ->
  block_at (fst (exec k o)) s n = Some e' -> e_data e' = DCollated c sg st rcv ->
  (exists e st0 rcv0, block_at k s n = Some e /\ e_data e = DCollated c sg st0 rcv0 /\
     (st = st0 \/ st = StSynced)) \/
  (exists tops a x, o = OCollated c tops a /\ snd (exec k o) = RStored x /\ x_mismatch x = false /\
     st = StCollated /\ sg = 0) \/
  (exists id v e, o = OValidated id v /\ snd (exec k o) = RStatus (Some st) /\ s = 0 /\ b_seqno id = n /\
     match v with Some x => st = StValidated /\ sg = x | None => st = StSkipped end /\
     block_at k 0 n = Some e /\ (exists sg0 st0, e_data e = DCollated c sg0 st0 false)).
Proof.
  intros Hk E Ed.
  assert (Hsame : block_at k s n = Some e' ->
    exists e st0 rcv0, block_at k s n = Some e /\ e_data e = DCollated c sg st0 rcv0 /\ (st = st0 \/ st = StSynced)).
  { intros Q. exists e', st, rcv. auto. }
  assert (Hsrt : forall s, srt (g_blocks (shard_group k s))).
  { intros s0. unfold shard_group. destruct (aget N.eqb s0 (k_shards k)) as [g|] eqn:Eg; [|constructor].
    destruct Hk as (_ & _ & _ & H4). apply (H4 _ _ Eg). }
  assert (Hget : forall s, is_mc s = false -> forall n, bget n (g_blocks (shard_group k s)) = block_at k s n).
  { intros s0 Hm n0. unfold shard_group, block_at. rewrite Hm.
    destruct (aget N.eqb s0 (k_shards k)); reflexivity. }
  destruct o; cbn [exec fst snd] in *.
  - unfold do_collated in E |- *. destruct (is_mc (b_shard (c_id c0))) eqn:Em.
    + destruct (store_collated_group m_on_collated (k_masters k) c0 tops anchor) as [[g b]|] eqn:Es;
        [|left; auto]. cbn [fst snd] in *. rewrite block_at_set_masters in E.
      destruct (is_mc s) eqn:Ems; [|left; apply Hsame; unfold block_at in *; rewrite Ems in *; exact E].
      destruct (store_collated_data _ _ _ _ _ _ _ _ _ _ _ _ _ _ (proj1 (proj1 Hk)) Es E Ed) as [Q|[Q1 Q2]].
      * left. apply Hsame. unfold block_at. now rewrite Ems.
      * right. left. subst e'. cbn in Ed. injection Ed as <- <- <- _. eexists tops, anchor, _.
        split; [reflexivity|]. split; [reflexivity|]. cbn. auto.
    + destruct (store_collated_group s_on_collated (shard_group k (b_shard (c_id c0))) c0 tops anchor)
        as [[g b]|] eqn:Es; cbn [fst snd] in *; rewrite block_at_set_shard in E by exact Em.
      * destruct (N.eqb_spec s (b_shard (c_id c0))) as [Q|Q]; [|left; auto].
        destruct (store_collated_data _ _ _ _ _ _ _ _ _ _ _ _ _ _ (Hsrt _) Es E Ed) as [Q2|[Q1 Q2]].
        -- left. apply Hsame. rewrite Hget in Q2 by exact Em. now rewrite Q.
        -- right. left. subst e'. cbn in Ed. injection Ed as <- <- <- _. eexists tops, anchor, _.
           split; [reflexivity|]. split; [reflexivity|]. cbn. auto.
      * left. destruct (N.eqb_spec s (b_shard (c_id c0))) as [Q|Q]; [|auto].
        apply Hsame. rewrite Hget in E by exact Em. now rewrite Q.
  - left. unfold do_received in E. destruct (r_ref r <? k_zs k); [auto|]. cbn zeta in E.
    set (r1 := if r_ref r =? k_zs k then _ else _) in E. destruct (is_mc (b_shard (r_id r1))) eqn:Em.
    + destruct (refresh_spec _ (b_seqno (r_id r1)) (k_masters k)) as (Rb & _).
      destruct (refresh_synced (b_seqno (r_id r1)) (k_masters k)) as [g old]. cbn [fst] in Rb.
      destruct old; [auto|].
      assert (Hs1 : srt (g_blocks g)) by (rewrite Rb; apply Hk).
      destruct (store_received_group m_on_received g r1) as [[g' b]|] eqn:Es; cbn [fst] in E;
        rewrite block_at_set_masters in E;
        (destruct (is_mc s) eqn:Ems; [|apply Hsame; unfold block_at in *; rewrite Ems in *; exact E]).
      * assert (E2 : bget n (g_blocks g') = Some e') by (destruct (snd b); exact E).
        destruct (store_received_data _ _ _ _ _ _ _ _ _ _ _ _ Hs1 Es E2 Ed) as (e & st0 & rcv0 & A & B & C).
        exists e, st0, rcv0. rewrite Rb in A. unfold block_at. rewrite Ems. auto.
      * apply Hsame. rewrite Rb in E. unfold block_at. now rewrite Ems.
    + destruct (refresh_spec _ (b_seqno (r_id r1)) (shard_group k (b_shard (r_id r1)))) as (Rb & _).
      destruct (refresh_synced (b_seqno (r_id r1)) (shard_group k (b_shard (r_id r1)))) as [g old]. cbn [fst] in Rb.
      assert (Hs1 : srt (g_blocks g)) by (rewrite Rb; apply Hsrt).
      assert (Hold : forall n0, bget n0 (g_blocks g) = block_at k (b_shard (r_id r1)) n0)
        by (intros n0; rewrite Rb; now apply Hget).
      destruct old.
      { cbn [fst] in E. rewrite block_at_set_shard in E by exact Em.
        destruct (N.eqb_spec s (b_shard (r_id r1))) as [Q|Q]; [|auto]. apply Hsame. rewrite Hold in E. now rewrite Q. }
      destruct (store_received_group s_on_received g r1) as [[g' b]|] eqn:Es; cbn [fst] in E.
      * assert (E2 : block_at (set_shard k (b_shard (r_id r1)) g') s n = Some e').
        { destruct (snd b); [|exact E]. rewrite block_at_set_masters in E.
          unfold block_at in *. destruct (is_mc s); exact E. }
        rewrite block_at_set_shard in E2 by exact Em.
        destruct (N.eqb_spec s (b_shard (r_id r1))) as [Q|Q]; [|auto].
        destruct (store_received_data _ _ _ _ _ _ _ _ _ _ _ _ Hs1 Es E2 Ed) as (e & st0 & rcv0 & A & B & C).
        exists e, st0, rcv0. rewrite Hold in A. rewrite Q. auto.
      * rewrite block_at_set_shard in E by exact Em.
        destruct (N.eqb_spec s (b_shard (r_id r1))) as [Q|Q]; [|auto]. apply Hsame. rewrite Hold in E. now rewrite Q.
  - destruct (validated_ok k id complete Hk) as (_ & _ & _ & _ & _ & Ho & Hr).
    destruct (key_dec (s, n) (0, b_seqno id)) as [D|D]; [|left; rewrite (Ho _ _ D) in E; auto].
    injection D as -> ->. destruct (snd (do_validated k id complete)) as [| | | |st1| | | |]; try contradiction.
    destruct st1 as [st1|]; [|left; rewrite Hr in E; auto].
    destruct Hr as (e & c1 & sg1 & st0 & A1 & A2 & _ & A4 & A5). rewrite A5 in E. injection E as <-.
    cbn in Ed. injection Ed as <- <- <- _. right. right. exists id, complete, e.
    split; [reflexivity|]. split; [reflexivity|]. split; [reflexivity|]. split; [reflexivity|].
    split; [destruct complete; auto|]. split; [exact A1|]. exists sg1, st0. exact A2.
  - left. auto.
  - left. apply Hsame. now apply pop_ok in E.
  - left. apply Hsame. now apply extract_ok in E.
  - left. destruct (set_gc_ok keys k Hk) as (_ & Hb & _). cbn zeta in Hb. rewrite Hb in E. auto.
  - left. apply Hsame. now apply gc_ok in E.
  - left. apply Hsame. now apply remove_next_ok in E.
  - left. destruct (tops_ok k mc Hk) as (_ & Hb & _). cbn zeta in Hb. rewrite Hb in E. auto.
  - left. destruct (reset_ok k Hk) as (_ & Hb & _). cbn zeta in Hb. rewrite Hb in E. auto.
Qed.

(** The own candidate [c] was stored, and [sg] are the signatures of the last validation result
    taken over for it. *)
Definition own_origin (h : list (op * outcome)) (s n : N) (c : cand) (sg : N) (st : status) : Prop :=
  (exists tops a x, In (OCollated c tops a, RStored x) h /\ x_mismatch x = false) /\
  (st = StCollated -> sg = 0) /\
  (st = StValidated -> s = 0 /\ exists id, b_seqno id = n /\
     In (OValidated id (Some sg), RStatus (Some StValidated)) h) /\
  (st = StSkipped -> s = 0).

Lemma origin_inv zs h k s n e c sg st rcv : hist zs h k -> block_at k s n = Some e ->
  e_data e = DCollated c sg st rcv -> own_origin h s n c sg st.
Proof.
  intros H. revert s n e c sg st rcv. induction H as [|h k o H IH Hw]; intros s n e c sg st rcv E Ed.
  { unfold block_at in E. cbn in E. destruct (is_mc s); discriminate. }
  pose proof (hist_inv _ _ _ H) as [Hk _].
  destruct (data_step k o s n e c sg st rcv Hk E Ed)
    as [(e0 & st0 & rcv0 & A & B & C)|[(tops & a & x & -> & A & B & C & D)|(id & v & e0 & -> & A & B & C & D & F & sg0 & st0 & G)]].
  - destruct (IH _ _ _ _ _ _ _ A B) as ((tops & a & x & I1 & I2) & I3 & I4 & I5).
    split; [exists tops, a, x; split; [now right|exact I2]|].
    destruct C as [->| ->]; [|split; [discriminate|]; split; discriminate].
    split; [exact I3|]. split; [|exact I5]. intros Q. destruct (I4 Q) as (I6 & id & I7 & I8).
    split; [exact I6|]. exists id. split; [exact I7|now right].
  - rewrite A. split; [exists tops, a, x; split; [now left|exact B]|]. subst st.
    split; [auto|]. split; discriminate.
  - destruct (IH _ _ _ _ _ _ _ F G) as ((tops & a & x & I1 & I2) & _). rewrite A.
    split; [exists tops, a, x; split; [now right|exact I2]|]. destruct v as [y|].
    + destruct D as [-> ->]. split; [discriminate|]. split; [|discriminate]. intros _. split; [exact B|].
      exists id. split; [exact C|now left].
    + subst st. split; [discriminate|]. split; [discriminate|]. auto.
Qed.

(** What a commit hands over. Nothing is handed over unless the master block is an own candidate
    that a validation reported as complete and that is not known to be on chain; then it is
    handed over with the signatures of that report, and with every own shard block of the
    subgraph that is not known to be on chain, without signatures. *)
Theorem commit_hands_over zs h k id k' notify sent now anchor : hist zs h k ->
  commit_valid k id notify = (k', (sent, now, anchor)) -> sent <> [] ->
  now = false /\ anchor = None /\ exists m c sg rest,
    block_at k 0 (b_seqno id) = Some m /\ applied m = false /\ c_id c = e_id m /\
    sent = (c, sg) :: rest /\
    (exists tops a x, In (OCollated c tops a, RStored x) h /\ x_mismatch x = false) /\
    (exists id', b_seqno id' = b_seqno id /\ In (OValidated id' (Some sg), RStatus (Some StValidated)) h) /\
    (forall c' sg', In (c', sg') rest <-> exists e st, belongs k m e /\ e_data e = DCollated c' sg' st false) /\
    (forall c' sg', In (c', sg') rest -> sg' = 0).
Proof.
  intros H E Hne. pose proof (hist_inv _ _ _ H) as [Hk _]. unfold commit_valid in E.
  pose proof (extract_by_height zs h k id H) as X. cbn [exec] in X.
  destruct (do_extract k id) as [k1 o] eqn:Ex. cbn [fst snd] in X.
  destruct o as [| | | | | |m shs l| |]; try contradiction.
  { injection E as _ <- _ _. contradiction. }
  assert (Ek : snd (exec k (OExtract id)) = RGraph m shs l) by (cbn [exec]; now rewrite Ex).
  destruct (taken_exactly zs h k _ m shs l H Ek) as (_ & HB & _).
  assert (Es : commit_actions m shs = (sent, now, anchor)) by congruence. clear E.
  unfold commit_actions in Es. destruct (e_data m) as [c sg st rcv|col info] eqn:Ed; [|congruence].
  assert (Hst : stat_ok m).
  { destruct Hk as ([_ Hi] & _). unfold block_at in X. cbn in X. now apply (Hi _ _ X). }
  unfold stat_ok in Hst. rewrite Ed in Hst. destruct Hst as [Hrc Hc].
  destruct (origin_inv zs h k 0 _ m c sg st rcv H X Ed) as (O1 & _ & O3 & _).
  destruct st; cbn in Hrc; subst rcv; try (exfalso; congruence).
  assert (Hm : send_to_sync m = [(c, sg)]) by (unfold send_to_sync; now rewrite Ed).
  rewrite Hm in Es. injection Es as <- <- <-. split; [reflexivity|]. split; [reflexivity|].
  exists m, c, sg, (flat_map send_to_sync shs). split; [exact X|].
  split; [unfold applied; now rewrite Ed|]. split; [exact Hc|]. split; [reflexivity|].
  split; [exact O1|]. destruct (O3 eq_refl) as (_ & id' & O4 & O5).
  split; [exists id'; auto|].
  assert (HR : forall c' sg', In (c', sg') (flat_map send_to_sync shs) <->
    exists e st, belongs k m e /\ e_data e = DCollated c' sg' st false /\ (st = StCollated \/ st = StValidated)).
  { intros c' sg'. rewrite in_flat_map. split.
    - intros (e & Hin & Hs). apply HB in Hin. unfold send_to_sync in Hs.
      destruct (e_data e) as [c2 sg2 st2 rcv2|] eqn:Ed2; [|contradiction].
      destruct rcv2; [contradiction|]. exists e, st2.
      destruct st2; try contradiction; destruct Hs as [Hs|[]]; injection Hs as <- <-; auto.
    - intros (e & st2 & A & B & C). exists e. split; [now apply HB|]. unfold send_to_sync. rewrite B.
      destruct C as [->| ->]; now left. }
  assert (Hsh : forall e c' sg' st2 rcv2, belongs k m e -> e_data e = DCollated c' sg' st2 rcv2 ->
    rcv2 = false -> st2 = StCollated /\ sg' = 0).
  { intros e c' sg' st2 rcv2 (i & V & Hmc & El & _) Ee Er.
    assert (Hst2 : stat_ok e).
    { destruct Hk as (_ & _ & _ & H4). unfold block_at in El. rewrite Hmc in El.
      destruct (aget N.eqb (b_shard i) (k_shards k)) as [g|] eqn:Eg; [|discriminate].
      destruct (H4 _ _ Eg) as [_ [_ Hg]]. now apply (Hg _ _ El). }
    unfold stat_ok in Hst2. rewrite Ee in Hst2. destruct Hst2 as [Hr2 _].
    destruct (origin_inv zs h k _ _ e c' sg' st2 rcv2 H El Ee) as (_ & P1 & P2 & P3).
    assert (Hn0 : b_shard i <> 0) by (intros Q; rewrite Q in Hmc; discriminate).
    destruct st2.
    - auto.
    - destruct (P2 eq_refl) as [Q _]. contradiction.
    - specialize (P3 eq_refl). contradiction.
    - cbn in Hr2. congruence. }
  split.
  - intros c' sg'. rewrite HR. split.
    + intros (e & st2 & A & B & _). exists e, st2. auto.
    + intros (e & st2 & A & B). destruct (Hsh e c' sg' st2 false A B eq_refl) as [-> _]. exists e, StCollated. auto.
  - intros c' sg' Hin. apply HR in Hin as (e & st2 & A & B & _). now apply (Hsh e c' sg' st2 false A B).
Qed.

(** If validation results are only delivered for the candidate held at their height, the
    signatures handed over with a master block were reported for that very block. *)
Inductive matched (zs : N) : list (op * outcome) -> cache -> Prop :=
| matched_new : matched zs [] (new_cache zs)
| matched_step h k o : matched zs h k -> wf_op o ->
    (forall id v e, o = OValidated id v -> block_at k 0 (b_seqno id) = Some e -> e_id e = id) ->
    matched zs ((o, snd (exec k o)) :: h) (fst (exec k o)).
Lemma matched_hist zs h k : matched zs h k -> hist zs h k.
Proof. induction 1; now constructor. Qed.

Lemma matched_origin zs h k n e c sg rcv : matched zs h k -> block_at k 0 n = Some e ->
  e_data e = DCollated c sg StValidated rcv ->
  In (OValidated (e_id e) (Some sg), RStatus (Some StValidated)) h.
Proof.
  intros H. revert n e c sg rcv. induction H as [|h k o H IH Hw Hm]; intros n e c sg rcv E Ed; [discriminate|].
  pose proof (hist_inv _ _ _ (matched_hist _ _ _ H)) as [Hk _].
  assert (Hid : forall k e c sg st rcv, kinv k -> block_at k 0 n = Some e -> e_data e = DCollated c sg st rcv -> c_id c = e_id e).
  { intros k0 e0 c0 sg0 st0 rcv0 ([_ Hi] & _) E0 Ed0. unfold block_at in E0. cbn in E0.
    destruct (Hi _ _ E0) as (_ & _ & Hs). unfold stat_ok in Hs. rewrite Ed0 in Hs. apply Hs. }
  pose proof (Hid _ _ _ _ _ _ (proj1 (exec_ok k o Hk)) E Ed) as He.
  destruct (data_step k o 0 n e c sg StValidated rcv Hk E Ed)
    as [(e0 & st0 & rcv0 & A & B & C)|[(tops & a & x & _ & _ & _ & C & _)|(id & v & e0 & -> & A & B & C & D & F & sg0 & st0 & G)]].
  - destruct C as [C|C]; [|discriminate]. subst st0. right.
    assert (Q : e_id e0 = e_id e) by (rewrite <- He; symmetry; now apply (Hid k e0 c sg StValidated rcv0)).
    rewrite <- Q. exact (IH _ _ _ _ _ A B).
  - discriminate.
  - left. rewrite A. subst n. specialize (Hm id v e0 eq_refl F).
    assert (Q : c_id c = e_id e0) by now apply (Hid k e0 c sg0 st0 false).
    destruct v as [y|]; [|discriminate D]. destruct D as [_ ->]. rewrite <- He, Q, Hm. reflexivity.
Qed.
Theorem commit_of_validated zs h k id k' notify sent now anchor : matched zs h k ->
  commit_valid k id notify = (k', (sent, now, anchor)) -> sent <> [] ->
  exists c sg rest, sent = (c, sg) :: rest /\
    In (OValidated (c_id c) (Some sg), RStatus (Some StValidated)) h.
Proof.
  intros H E Hne. pose proof (matched_hist _ _ _ H) as Hh. pose proof (hist_inv _ _ _ Hh) as [Hk _].
  destruct (commit_hands_over zs h k id k' notify sent now anchor Hh E Hne)
    as (_ & _ & m & c & sg & rest & A & B & C & D & _).
  exists c, sg, rest. split; [exact D|]. rewrite C.
  unfold commit_valid in E. pose proof (extract_by_height zs h k id Hh) as X. cbn [exec] in X.
  destruct (do_extract k id) as [k1 o]. cbn [fst snd] in X.
  destruct o as [| | | | | |m2 shs l| |]; try contradiction.
  { injection E as _ <- _ _. contradiction. }
  assert (m2 = m) by congruence. subst m2.
  assert (Es : commit_actions m shs = (sent, now, anchor)) by congruence.
  unfold commit_actions in Es. destruct (e_data m) as [c1 sg1 st rcv|] eqn:Ed; [|congruence].
  destruct st, rcv; try congruence.
  unfold send_to_sync in Es at 1. rewrite Ed in Es. rewrite D in Es. cbn in Es.
  assert (sg1 = sg) by congruence. subst sg1. exact (matched_origin zs h k _ m c1 sg false H A Ed).
Qed.

(** The queue diff is committed and the anchor reported right away exactly for a master block that
    is known to be on chain. *)
Theorem commit_of_applied zs h k id m notify : hist zs h k -> block_at k 0 (b_seqno id) = Some m ->
  let '(sent, now, anchor) := snd (commit_valid k id notify) in
  (now = true <-> applied m = true) /\ (applied m = true -> sent = [] /\ anchor = e_anchor m) /\
  (applied m = false -> anchor = None).
Proof.
  intros H Em. pose proof (hist_inv _ _ _ H) as [Hk _]. unfold commit_valid.
  pose proof (extract_by_height zs h k id H) as X. cbn [exec] in X.
  destruct (do_extract k id) as [k1 o]. cbn [fst snd] in X.
  destruct o as [| | | | | |m2 shs l| |]; try contradiction.
  { destruct X as [_ X]. congruence. }
  assert (m2 = m) by congruence. subst m2. cbn [snd].
  assert (Hst : stat_ok m).
  { destruct Hk as ([_ Hi] & _). unfold block_at in Em. cbn in Em. now apply (Hi _ _ Em). }
  unfold stat_ok in Hst. unfold commit_actions, applied. destruct (e_data m) as [c sg st rcv|].
  - destruct Hst as [-> _]. destruct st; cbn; (split; [split; congruence|split; [auto|]]); intros; congruence.
  - split; [tauto|]. split; [auto|]. discriminate.
Qed.

(** A validation result never touches a block that is known to be on chain. *)
Theorem validation_spares_applied zs h k id v e s n : hist zs h k -> block_at k s n = Some e ->
  applied e = true -> block_at (fst (exec k (OValidated id v))) s n = Some e.
Proof.
  intros H E Ha. apply hist_inv in H as [Hk _].
  destruct (validated_ok k id v Hk) as (_ & _ & _ & _ & _ & Ho & Hr). cbn [exec].
  destruct (key_dec (s, n) (0, b_seqno id)) as [D|D]; [|now rewrite (Ho _ _ D)].
  injection D as -> ->. destruct (snd (do_validated k id v)) as [| | | |st| | | |]; try contradiction.
  destruct st as [st|]; [|now rewrite Hr].
  destruct Hr as (e2 & c & sg & st0 & A1 & A2 & _). assert (e2 = e) by congruence. subst e2.
  unfold applied in Ha. rewrite A2 in Ha. discriminate.
Qed.
