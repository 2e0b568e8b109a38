(** C70: taking a master block out of the cache takes exactly the shard blocks that belong to it,
    once each, in an order in which predecessors come first. *)
From Verif Require Export BcGraph.
From Coq Require Import ZArith ZifyN ZifyNat ZifyBool Lia.

Lemma visits_masters k g m id : visits (set_masters k g) m id <-> visits k m id.
Proof.
  split.
  - induction 1 as [t A B C|id e p Hv IH Hm El Er Hp]; [now apply visits_top|].
    apply (visits_prev k m id e p IH Hm); [|exact Er|exact Hp].
    unfold block_at in *. rewrite Hm in *. exact El.
  - induction 1 as [t A B C|id e p Hv IH Hm El Er Hp]; [now apply visits_top|].
    apply (visits_prev (set_masters k g) m id e p IH Hm); [|exact Er|exact Hp].
    unfold block_at in *. rewrite Hm in *. exact El.
Qed.
Lemma belongs_masters k g m e : belongs (set_masters k g) m e <-> belongs k m e.
Proof.
  split; intros (id & A & Hm & B & C); exists id; (split; [now apply (visits_masters k g)|]);
    (split; [exact Hm|]); (split; [|exact C]); unfold block_at in *; rewrite Hm in *; exact B.
Qed.

(** only the two taking calls return a subgraph *)
Lemma graph_calls k o m shs l : kinv k -> snd (exec k o) = RGraph m shs l ->
  (exists from, o = OPop from) \/ exists id, o = OExtract id.
Proof.
  intros Hk E. destruct o; cbn [exec snd] in E; try discriminate; eauto; exfalso.
  - unfold do_collated in E. destruct (is_mc _); destruct (store_collated_group _ _ _ _ _) as [[g b]|]; discriminate.
  - unfold do_received in E. destruct (r_ref r <? k_zs k); [discriminate|]. cbn zeta in E.
    destruct (is_mc _); destruct (refresh_synced _ _) as [g old]; destruct old; try discriminate;
      destruct (store_received_group _ _ _) as [[g' b]|]; discriminate.
  - pose proof (validated_ok k id complete Hk) as (_ & _ & _ & _ & _ & _ & V). rewrite E in V. exact V.
  - unfold do_peek in E. destruct (first_applied _ _) as [[n e]|]; [|discriminate].
    destruct (peek_tops _ _ _ _); discriminate.
  - unfold do_tops in E. destruct (top_infos _ _); discriminate.
Qed.

(** the common part: the master block is removed, the rest is [extract_subgraph] *)
Lemma graph_parts k o m shs l : kinv k -> snd (exec k o) = RGraph m shs l ->
  exists g, (fst (exec k o), shs) = extract_subgraph (set_masters k g) m /\
    g_blocks g = bdel (b_seqno (e_id m)) (g_blocks (k_masters k)) /\
    block_at k 0 (b_seqno (e_id m)) = Some m /\ kinv (set_masters k g) /\
    (exists y, g_synced g = Some y /\ b_seqno (e_id m) <= y).
Proof.
  intros Hk E. destruct (graph_calls k o m shs l Hk E) as [[from ->]|[id ->]]; cbn [exec] in *.
  - pose proof (exec_pop k from Hk) as P. cbn zeta in P. rewrite E in P.
    destruct P as (_ & B & C & _ & _ & _ & D). exists (popped_masters (k_masters k) (b_seqno (e_id m))).
    split; [exact D|]. split; [reflexivity|]. split; [exact B|].
    destruct (popped_ok k (b_seqno (e_id m)) Hk) as (P1 & P2 & P3). split.
    + destruct Hk as (H1 & H2 & H3 & H4). split; [exact P1|]. split; [exact P2|]. split; [exact H3|exact H4].
    + cbn. destruct Hk as ([_ Hi] & _). unfold block_at in B. cbn in B.
      destruct (Hi _ _ B) as (_ & Ha & _). exact (Ha C).
  - pose proof (exec_extract k id Hk) as P. cbn zeta in P. rewrite E in P.
    destruct P as (A & B & _ & D). rewrite <- A in B, D.
    exists (extracted_masters (k_masters k) (b_seqno (e_id m)) m).
    destruct (extracted_fields (k_masters k) (b_seqno (e_id m)) m) as (F1 & _ & _ & F4 & _).
    split; [exact D|]. split; [exact F1|]. split; [exact B|]. split; [|exact F4].
    destruct (extracted_ok k (b_seqno (e_id m)) m Hk) as (P1 & P2 & P3).
    destruct Hk as (H1 & H2 & H3 & H4). split; [exact P1|]. split; [exact P2|]. split; [exact H3|exact H4].
Qed.

(** A call that takes a master block out returns the block held at its height and exactly the
    shard blocks that belong to it, each once. *)
Theorem taken_exactly zs h k o m shs l : hist zs h k -> snd (exec k o) = RGraph m shs l ->
  block_at k 0 (b_seqno (e_id m)) = Some m /\
  (forall e, In e shs <-> belongs k m e) /\
  NoDup (map (fun e => key_of (e_id e)) shs).
Proof.
  intros H E. apply hist_inv in H as [Hk _].
  destruct (graph_parts k o m shs l Hk E) as (g & X & _ & B & Hg & _).
  destruct (extract_subgraph_spec (set_masters k g) m Hg) as (S1 & S2 & _). rewrite <- X in S1, S2.
  cbn [fst snd] in *. split; [exact B|]. split; [|exact S2].
  intros e. rewrite S1. apply belongs_masters.
Qed.

(** The blocks taken are not in the cache any more. What else leaves the cache are blocks at a
    height that a taken block names as its predecessor, or that the master block names as its
    top block; all other blocks stay as they are. *)
Theorem taken_leaves zs h k o m shs l : hist zs h k -> snd (exec k o) = RGraph m shs l ->
  let k' := fst (exec k o) in
  block_at k' 0 (b_seqno (e_id m)) = None /\
  (forall e, In e shs -> block_at k' (b_shard (e_id e)) (b_seqno (e_id e)) = None) /\
  (forall n, n <> b_seqno (e_id m) -> block_at k' 0 n = block_at k 0 n) /\
  (forall s n, s <> 0 -> block_at k' s n = block_at k s n \/
     (block_at k' s n = None /\ exists id, visits k m id /\ b_shard id = s /\ b_seqno id = n)).
Proof.
  intros H E. pose proof (hist_inv _ _ _ H) as [Hk _]. cbn zeta.
  destruct (graph_parts k o m shs l Hk E) as (g & X & Eb & B & Hg & _).
  destruct (extract_subgraph_spec (set_masters k g) m Hg) as (S1 & _ & S3 & S4 & _ & S6).
  destruct (extract_subgraph_shrunk (set_masters k g) m) as (_ & Em & _).
  rewrite <- X in S1, S3, S4, Em. cbn [fst snd] in *.
  assert (Hs0 : srt (g_blocks (k_masters k))) by apply Hk.
  assert (HM : forall n, block_at (fst (exec k o)) 0 n =
    if N.eqb n (b_seqno (e_id m)) then None else block_at k 0 n).
  { intros n. unfold block_at. cbn [is_mc N.eqb]. rewrite Em. cbn [set_masters k_masters].
    rewrite Eb, bget_bdel by exact Hs0. reflexivity. }
  assert (Hz : forall s, s <> 0 -> is_mc s = false) by (intros s Hs; unfold is_mc; now apply N.eqb_neq).
  split; [rewrite HM; now rewrite N.eqb_refl|]. split; [|split].
  - intros e Hin. apply S1 in Hin as (id & V & Hm & El & _).
    assert (Hk2 : key_of (e_id e) = (b_shard id, b_seqno id)).
    { unfold block_at in El. rewrite Hm in El. cbn [set_masters k_shards] in El.
      destruct Hk as (_ & _ & _ & H4).
      destruct (aget N.eqb (b_shard id) (k_shards k)) as [gg|] eqn:Eg; [|discriminate].
      destruct (H4 _ _ Eg) as [_ [_ Hg2]]. now apply Hg2. }
    unfold key_of in Hk2. injection Hk2 as -> ->. apply S3; [exact Hm|]. exists id. auto.
  - intros n Hn. rewrite HM. apply N.eqb_neq in Hn. now rewrite Hn.
  - intros s n Hs. apply Hz in Hs.
    destruct (block_at (fst (exec k o)) s n) as [e|] eqn:Ek.
    + left. rewrite <- Ek. rewrite S4; [unfold block_at; now rewrite Hs|exact Hs|].
      intros Hex. rewrite (S3 s n Hs Hex) in Ek. discriminate.
    + destruct (block_at k s n) as [e|] eqn:E0; [|now left]. right. split; [reflexivity|].
      assert (Hk2 : key_of (e_id e) = (s, n)).
      { unfold block_at in E0. rewrite Hs in E0. destruct Hk as (_ & _ & _ & H4).
        destruct (aget N.eqb s (k_shards k)) as [gg|] eqn:Eg; [|discriminate].
        destruct (H4 _ _ Eg) as [_ [_ Hg2]]. now apply Hg2. }
            destruct (S6 s n) as [Hv|Hv].
      * destruct Hv as (id & V & Q). exists id. unfold key_of in Q. injection Q as <- <-.
        split; [now apply (visits_masters k g)|auto].
      * exfalso. rewrite (S4 s n Hs Hv) in Ek. unfold block_at in Ek, E0. rewrite Hs in *.
        cbn [set_masters k_shards] in Ek. congruence.
Qed.

(** Everything taken is known to be on chain from then on: receiving it again is skipped. *)
Theorem taken_known zs h k o m shs l e : hist zs h k -> snd (exec k o) = RGraph m shs l ->
  e = m \/ In e shs -> not_newer (fst (exec k o)) (b_shard (e_id e)) (b_seqno (e_id e)).
Proof.
  intros H E He. pose proof (hist_inv _ _ _ H) as [Hk _].
  destruct (graph_parts k o m shs l Hk E) as (g & X & Eb & B & Hg & Hy).
  destruct (extract_subgraph_shrunk (set_masters k g) m) as (_ & Em & _).
  destruct He as [-> |Hin].
  - assert (Q : b_shard (e_id m) = 0).
    { apply (block_at_its_height zs h k 0 (b_seqno (e_id m)) m H B). }
    rewrite Q. unfold not_newer, known_height. cbn [is_mc N.eqb].
    rewrite <- X in Em. cbn [fst] in Em. rewrite Em. exact Hy.
  - unfold not_newer, known_height.
    assert (Hs : is_mc (b_shard (e_id e)) = false).
    { apply (proj1 (proj2 (taken_exactly zs h k o m shs l H E))) in Hin as (id & _ & Hm & El & _).
      destruct (block_at_its_height zs h k _ _ _ H El) as [-> _]. exact Hm. }
    rewrite Hs. unfold extract_subgraph in X.
    set (q := map t_id _) in X. set (fuel := extract_fuel _ _) in X.
    destruct (extract_loop fuel (b_seqno (e_id m)) q (k_shards (set_masters k g)) []) as [sh acc] eqn:EL.
    injection X as Xk Xs. rewrite Xk. cbn [k_shards].
    destruct (loop_heights fuel (b_seqno (e_id m)) q (k_shards (set_masters k g)) [] e) as (gg & y & A1 & A2 & A3).
    + intros s gg Eg. apply Hk. exact Eg.
    + intros [].
    + rewrite EL. cbn [snd]. rewrite Xs in Hin. now apply in_rev.
    + rewrite EL in A1. cbn [fst] in A1. rewrite A1. exists y. auto.
Qed.

(** Inside the subgraph no block is a predecessor of two blocks (no shard split between them),
    and the top blocks are nobody's predecessors. *)
Definition one_successor (k : cache) (m : entry) : Prop :=
  (forall e1 e2 p1 p2, belongs k m e1 -> belongs k m e2 ->
     In p1 (e_prevs e1) -> In p2 (e_prevs e2) -> key_of p1 = key_of p2 -> e1 = e2) /\
  (forall e t p, belongs k m e -> In p (e_prevs e) -> In t (e_tops m) -> t_updated t = true ->
     key_of p <> key_of (t_id t)).

(** Then predecessors come before their successors in the list of the shard blocks. *)
Theorem taken_in_order zs h k o m shs l : hist zs h k -> snd (exec k o) = RGraph m shs l ->
  one_successor k m ->
  forall a1 e a2 e2 p, shs = a1 ++ e :: a2 -> In e2 shs -> In p (e_prevs e2) ->
    key_of p = key_of (e_id e) -> In e2 a2.
Proof.
  intros H E [O1 O2] a1 e a2 e2 p Es Hin Hp Hkey. pose proof (hist_inv _ _ _ H) as [Hk _].
  pose proof (proj1 (proj2 (taken_exactly zs h k o m shs l H E))) as HB.
  destruct (graph_parts k o m shs l Hk E) as (g & X & _ & _ & Hg & _).
  destruct (extract_subgraph_spec (set_masters k g) m Hg) as (_ & _ & _ & _ & S5 & _). rewrite <- X in S5.
  cbn [fst snd] in S5. destruct (S5 _ _ _ Es) as (id & Q & [(t & T1 & T2 & T3 & T4)|(e3 & A & B)]).
  - exfalso. apply (O2 e2 t p); auto; [now apply HB|]. rewrite Hkey, <- Q. now rewrite T4.
  - assert (e3 = e2); [|subst; exact A]. apply (O1 e3 e2 id p); auto.
    + apply HB. rewrite Es. apply in_app_iff. right. now right.
    + now apply HB.
    + congruence.
Qed.
