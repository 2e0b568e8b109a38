(** C69: the blocks cache holds one block per height, and a block received from the network wins. *)
From Verif Require Export BcStore.
From Coq Require Import ZArith ZifyN ZifyNat ZifyBool Lia.

(** The block held at a height of a chain is a block of that chain and height. *)
Theorem block_at_its_height zs h k s n e : hist zs h k -> block_at k s n = Some e ->
  b_shard (e_id e) = s /\ b_seqno (e_id e) = n.
Proof.
  intros H E. apply hist_inv in H as [Hk _]. destruct Hk as (H1 & _ & _ & H4).
  assert (Hkey : key_of (e_id e) = (s, n)).
  { unfold block_at in E. destruct (is_mc s) eqn:Es.
    - apply is_mc_eq in Es. subst s. now apply H1.
    - destruct (aget N.eqb s (k_shards k)) as [g|] eqn:Eg; [|discriminate].
      destruct (H4 _ _ Eg) as [_ Hg]. now apply Hg. }
  unfold key_of in Hkey. split; congruence.
Qed.

(** Storing a block received from the network never fails, unless it is older than the zerostate.
    It is skipped exactly when its height is not above the known one. Otherwise it is the block
    held at its height from now on, marked as on chain; a mismatch is reported exactly when
    another block was held there, and "received and collated" exactly when the same was. *)
Theorem received_outcome zs h k r : hist zs h k -> zs <= r_ref r ->
  let s := b_shard (r_id r) in let n := b_seqno (r_id r) in
  let k' := fst (exec k (OReceived r)) in
  (forall s' n', (s', n') <> (s, n) -> block_at k' s' n' = block_at k s' n') /\
  ((not_newer k s n /\ snd (exec k (OReceived r)) = RSkipped /\
    block_at k' s n = block_at k s n) \/
   (~ not_newer k s n /\ exists x, snd (exec k (OReceived r)) = RStored x /\
    (x_mismatch x = true <-> exists e, block_at k s n = Some e /\ e_id e <> r_id r) /\
    (x_both x = true <-> exists e, block_at k s n = Some e /\ e_id e = r_id r) /\
    (exists e', block_at k' s n = Some e' /\ e_id e' = r_id r /\ applied e' = true) /\
    known_height k' s = Some n)).
Proof.
  intros H Hz. apply hist_inv in H as [Hk Ez]. rewrite <- Ez in Hz. cbn zeta. cbn [exec].
  destruct (received_ok k r Hk Hz) as (_ & _ & Ho & _ & Hr). cbn zeta in Hr.
  split; [exact Ho|].
  destruct (snd (do_received k r)) as [| |x| | | | | |]; try contradiction.
  - right. destruct Hr as (A1 & A2 & A3 & A4 & _ & A6 & _). split; [exact A1|]. exists x. auto.
  - left. destruct Hr as (A1 & A2 & _). auto.
Qed.

(** Storing an own candidate fails exactly when another own candidate is held at its height. A
    received block held there is never replaced: if it is another one the mismatch is reported
    and nothing changes. Otherwise the candidate is the block held at its height. *)
Theorem collated_outcome zs h k c tops a : hist zs h k ->
  let s := b_shard (c_id c) in let n := b_seqno (c_id c) in
  let k' := fst (exec k (OCollated c tops a)) in
  (forall s' n', (s', n') <> (s, n) -> block_at k' s' n' = block_at k s' n') /\
  ((snd (exec k (OCollated c tops a)) = RErr /\
    (exists e, block_at k s n = Some e /\ is_received e = false) /\
    block_at k' s n = block_at k s n) \/
   (exists x, snd (exec k (OCollated c tops a)) = RStored x /\
    (forall e, block_at k s n = Some e -> is_received e = true) /\
    (x_mismatch x = true <-> exists e, block_at k s n = Some e /\ e_id e <> c_id c) /\
    (x_both x = true <-> exists e, block_at k s n = Some e /\ e_id e = c_id c) /\
    (x_mismatch x = true -> block_at k' s n = block_at k s n) /\
    (x_mismatch x = false -> exists e', block_at k' s n = Some e' /\ e_id e' = c_id c) /\
    (block_at k s n = None -> block_at k' s n = Some (from_collated c tops a)))).
Proof.
  intros H. apply hist_inv in H as [Hk _]. cbn zeta. cbn [exec].
  destruct (collated_ok k c tops a Hk) as (_ & _ & Ho & _ & Hr). cbn zeta in Hr.
  split; [exact Ho|].
  destruct (snd (do_collated k c tops a)) as [| |x| | | | | |]; try contradiction.
  - left. destruct Hr as (A1 & A2 & _). auto.
  - right. destruct Hr as (A1 & A2 & A3 & A4 & A5 & _). exists x. split; [reflexivity|].
    split; [exact A1|]. split; [exact A2|]. split; [exact A3|]. split; [exact A4|]. split.
    + intros Hx. destruct (A5 Hx) as (e' & B1 & B2 & _). exists e'. auto.
    + intros Hn. assert (Hm : x_mismatch x = false).
      { destruct (x_mismatch x); [|reflexivity]. destruct A2 as [A2 _].
        destruct (A2 eq_refl) as (e & Ee & _). congruence. }
      assert (Hb : x_both x = false).
      { destruct (x_both x); [|reflexivity]. destruct A3 as [A3 _].
        destruct (A3 eq_refl) as (e & Ee & _). congruence. }
      destruct (A5 Hm) as (e' & B1 & _ & _ & B4). rewrite (B4 Hb) in B1. exact B1.
Qed.

(** what any call can do to a held block *)
Lemma step_block k o s n e e' : kinv k ->
  block_at k s n = Some e -> block_at (fst (exec k o)) s n = Some e' ->
  (e_id e' = e_id e /\ (applied e = true -> applied e' = true)) \/
  (applied e = false /\ exists r x, o = OReceived r /\ snd (exec k o) = RStored x /\
     x_mismatch x = true /\ (b_shard (r_id r), b_seqno (r_id r)) = (s, n) /\ e_id e' = r_id r).
Proof.
  intros Hk E E'.
  assert (Hkeep : block_at (fst (exec k o)) s n = block_at k s n ->
    e_id e' = e_id e /\ (applied e = true -> applied e' = true)).
  { intros Q. assert (e' = e) by congruence. subst. auto. }
  assert (Hlose : loses k (fst (exec k o)) -> e_id e' = e_id e /\ (applied e = true -> applied e' = true)).
  { intros [_ L]. apply L in E'. assert (e' = e) by congruence. subst. auto. }
  destruct o; cbn [exec fst snd] in *.
  - left. destruct (collated_ok k c tops anchor Hk) as (_ & _ & Ho & _ & Hr). cbn zeta in Hr.
    destruct (N.eq_dec s (b_shard (c_id c))) as [Es|Es]; [|apply Hkeep, Ho; congruence].
    destruct (N.eq_dec n (b_seqno (c_id c))) as [En|En]; [|apply Hkeep, Ho; congruence].
    subst s n. destruct (snd (do_collated k c tops anchor)) as [| |x| | | | | |]; try contradiction.
    + apply Hkeep. apply Hr.
    + destruct Hr as (A1 & A2 & A3 & A4 & A5 & _). destruct (x_mismatch x) eqn:Ex; [apply Hkeep; auto|].
      destruct (A5 eq_refl) as (e2 & B1 & B2 & B3 & _). assert (e2 = e') by congruence. subst e2.
      assert (Q : e_id e = c_id c).
      { destruct (bid_eqb_spec (e_id e) (c_id c)) as [Q|Q]; [exact Q|]. exfalso.
        destruct A2 as [_ A2]. discriminate A2. exists e. auto. }
      split; [congruence|]. intros _. apply B3. apply A3. exists e. auto.
  - destruct (N.lt_ge_cases (r_ref r) (k_zs k)) as [L|L].
    { left. apply Hkeep. now rewrite received_old. }
    destruct (received_ok k r Hk L) as (_ & _ & Ho & _ & Hr). cbn zeta in Hr.
    destruct (N.eq_dec s (b_shard (r_id r))) as [Es|Es]; [|left; apply Hkeep, Ho; congruence].
    destruct (N.eq_dec n (b_seqno (r_id r))) as [En|En]; [|left; apply Hkeep, Ho; congruence].
    subst s n. destruct (snd (do_received k r)) as [| |x| | | | | |] eqn:Eo; try contradiction.
    + destruct Hr as (A1 & A2 & A3 & (e2 & B1 & B2 & B3) & A5 & _).
      assert (e2 = e') by congruence. subst e2. specialize (A5 _ E).
      destruct (bid_eqb_spec (e_id e) (r_id r)) as [Q|Q].
      * left. split; [congruence|auto].
      * right. split; [exact A5|]. exists r, x. split; [reflexivity|]. split; [reflexivity|].
        split; [apply A2; exists e; auto|]. auto.
    + left. apply Hkeep. apply Hr.
  - left. destruct (validated_ok k id complete Hk) as (_ & _ & _ & _ & _ & Ho & Hr).
    destruct (N.eq_dec s 0) as [Es|Es]; [|apply Hkeep, Ho; congruence].
    destruct (N.eq_dec n (b_seqno id)) as [En|En]; [|apply Hkeep, Ho; congruence]. subst s n.
    destruct (snd (do_validated k id complete)) as [| | | |st| | | |]; try contradiction.
    destruct st as [st|].
    + destruct Hr as (e2 & c & sg & st0 & A1 & A2 & _ & _ & A5).
      assert (e2 = e) by congruence. subst e2. rewrite A5 in E'. injection E' as <-. cbn.
      split; [reflexivity|]. intros Ha. unfold applied in Ha. rewrite A2 in Ha. discriminate.
    + apply Hkeep. now rewrite Hr.
  - left. apply Hkeep. reflexivity.
  - left. apply Hlose. now apply pop_ok.
  - left. apply Hlose. now apply extract_ok.
  - left. apply Hkeep. now apply set_gc_ok.
  - left. apply Hlose. now apply gc_ok.
  - left. apply Hlose. now apply remove_next_ok.
  - left. apply Hkeep. now apply tops_ok.
  - left. apply Hkeep. now apply reset_ok.
Qed.

(** the block at a height stays in the cache during a run of calls *)
Inductive held (s n : N) (k : cache) : cache -> Prop :=
| held_refl : block_at k s n <> None -> held s n k k
| held_step k1 o : held s n k k1 -> wf_op o -> block_at (fst (exec k1 o)) s n <> None ->
    held s n k (fst (exec k1 o)).

(** A block known to be on chain is never exchanged for another one while the height is held. *)
Theorem applied_block_stays zs h k s n e k' : hist zs h k -> block_at k s n = Some e ->
  applied e = true -> held s n k k' ->
  exists e', block_at k' s n = Some e' /\ e_id e' = e_id e /\ applied e' = true.
Proof.
  intros H E Ha Hh. apply hist_inv in H as [Hk _].
  assert (G : kinv k' /\ exists e', block_at k' s n = Some e' /\ e_id e' = e_id e /\ applied e' = true);
    [|apply G].
  induction Hh as [Hn|k1 o Hh (Hk1 & e1 & E1 & I1 & A1) Hw Hn]; [split; [exact Hk|exists e; auto]|].
  split; [now apply exec_ok|].
  destruct (block_at (fst (exec k1 o)) s n) as [e2|] eqn:E2; [|congruence].
  destruct (step_block _ _ _ _ _ _ Hk1 E1 E2) as [[J1 J2]|[J _]]; [|congruence].
  exists e2. split; [reflexivity|]. split; [congruence|auto].
Qed.

(** The block held at a height changes to another one only when the other one has just been
    received from the network, and then the caller is told about the mismatch. *)
Theorem exchanged_only_by_received zs h k o s n e e' : hist zs h k ->
  block_at k s n = Some e -> block_at (fst (exec k o)) s n = Some e' -> e_id e' <> e_id e ->
  applied e = false /\ exists r x, o = OReceived r /\ r_id r = e_id e' /\
    snd (exec k o) = RStored x /\ x_mismatch x = true.
Proof.
  intros H E E' Hne. apply hist_inv in H as [Hk _].
  destruct (step_block _ _ _ _ _ _ Hk E E') as [[J1 _]|(J & r & x & J1 & J2 & J3 & _ & J5)];
    [contradiction|].
  split; [exact J|]. exists r, x. auto.
Qed.

(** The heights of one chain accepted by [store_received] strictly increase. *)
Lemma accepted_bound zs h k s : hist zs h k ->
  decreasing (accepted s h) /\ forall n, In n (accepted s h) -> not_newer k s n.
Proof.
  induction 1 as [|h k o H [IH1 IH2] Hw]; [cbn; tauto|].
  pose proof (hist_inv _ _ _ H) as [Hk Ez].
  assert (Hmono : forall n, not_newer k s n -> not_newer (fst (exec k o)) s n).
  { intros n (y & Ey & Ly). destruct (exec_ok k o Hk) as [_ Hh]. destruct (Hh s _ Ey) as (y' & Ey' & Ly').
    exists y'. split; [exact Ey'|lia]. }
  assert (Hcase : accepted s ((o, snd (exec k o)) :: h) = accepted s h \/
    exists r x, o = OReceived r /\ snd (exec k o) = RStored x /\ b_shard (r_id r) = s /\
      accepted s ((o, snd (exec k o)) :: h) = b_seqno (r_id r) :: accepted s h).
  { destruct o; cbn [accepted]; try (left; reflexivity).
    destruct (snd (exec k (OReceived r))) as [| |x| | | | | |]; try (left; reflexivity).
    destruct (N.eqb_spec (b_shard (r_id r)) s) as [Es|Es]; [|left; reflexivity].
    right. exists r, x. auto. }
  destruct Hcase as [->|(r & x & -> & Ho & Es & ->)]; [auto|].
  cbn [exec] in *.
  destruct (N.lt_ge_cases (r_ref r) (k_zs k)) as [L|L].
  { rewrite received_old in Ho by exact L. discriminate. }
  destruct (received_ok k r Hk L) as (_ & _ & _ & _ & Hr). cbn zeta in Hr. rewrite Ho in Hr.
  rewrite Es in Hr. destruct Hr as (A1 & _ & _ & _ & _ & A6 & _).
  split.
  - cbn [decreasing]. split; [|exact IH1]. destruct (accepted s h) as [|b l] eqn:Ea; [exact I|].
    destruct (N.lt_ge_cases b (b_seqno (r_id r))) as [Lb|Lb]; [exact Lb|]. exfalso. apply A1.
    destruct (IH2 b (or_introl eq_refl)) as (y & Ey & Ly). exists y. split; [exact Ey|lia].
  - intros n [<-|Hin]; [|auto]. exists (b_seqno (r_id r)). split; [exact A6|lia].
Qed.
Theorem received_heights_increase zs h k s : hist zs h k -> decreasing (accepted s h).
Proof. intros H. apply (accepted_bound zs h k s H). Qed.

(** a block known to be on chain lies at or below the known height *)
Theorem applied_below_known zs h k s n e : hist zs h k -> block_at k s n = Some e ->
  applied e = true -> not_newer k s n.
Proof.
  intros H E Ha. apply hist_inv in H as [(H1 & _ & _ & H4) _]. unfold block_at in E.
  unfold not_newer, known_height. destruct (is_mc s).
  - destruct H1 as [_ H1]. destruct (H1 _ _ E) as (_ & A & _). auto.
  - destruct (aget N.eqb s (k_shards k)) as [g|] eqn:Eg; [|discriminate].
    destruct (H4 _ _ Eg) as [_ [_ Hg]]. destruct (Hg _ _ E) as (_ & A & _). auto.
Qed.

(** our own last master block *)
Lemma last_of_in l b : last_of l = Some b -> exists n, In (n, b) l.
Proof.
  induction l as [|[n x] l IH]; [discriminate|]. cbn [last_of]. destruct l as [|p l].
  - intros E. injection E as <-. exists n. now left.
  - intros E. destruct (IH E) as [m Hm]. exists m. now right.
Qed.
Lemma last_of_max l b : srt l -> last_of l = Some b ->
  exists n, In (n, b) l /\ forall n' b', In (n', b') l -> n' <= n.
Proof.
  induction 1 as [|n x l Hs IH Hf]; [discriminate|]. cbn [last_of]. destruct l as [|p l].
  - intros E. injection E as <-. exists n. split; [now left|]. intros n' b' [Q|[]].
    injection Q as <- <-. lia.
  - intros E. destruct (IH E) as (m & Hm & Hmax). exists m. split; [now right|].
    intros n' b' [Q|Hin]; [|eauto]. injection Q as <- <-.
    rewrite Forall_forall in Hf. specialize (Hf _ Hm). cbn in Hf. change (n < m) in Hf. lia.
Qed.

(** When a received block differs from our candidate, the master block that the cache reports as
    our last one lies below the received block, or below the master block it belongs to. *)
Theorem mismatch_cuts_own_chain zs h k r x b : hist zs h k -> wf_op (OReceived r) ->
  snd (exec k (OReceived r)) = RStored x -> x_mismatch x = true -> x_last x = Some b ->
  own_last (fst (exec k (OReceived r))) = Some b /\ b_seqno b < r_ref r.
Proof.
  intros H Hw Ho Hm Hl. pose proof (hist_inv _ _ _ H) as [Hk Ez]. cbn [exec wf_op] in *.
  destruct (N.lt_ge_cases (r_ref r) (k_zs k)) as [L|L].
  { rewrite received_old in Ho by exact L. discriminate. }
  destruct (received_ok k r Hk L) as (Hk' & _ & _ & _ & Hr). cbn zeta in Hr. rewrite Ho in Hr.
  destruct Hr as (_ & _ & _ & _ & _ & _ & A7 & _ & A9). rewrite Hm in A9.
  rewrite A7 in Hl. split; [exact Hl|].
  unfold own_last, last_collated in Hl. apply last_of_in in Hl as [n Hin].
  destruct Hk' as (_ & [_ Hkey] & _). pose proof (Hkey _ _ Hin) as Q.
  rewrite A9 in Hin. unfold received_mdata in Hin. cbn zeta in Hin.
  unfold remove_last_from in Hin. cbn [m_last] in Hin. apply filter_In in Hin as [_ Hlt].
  apply N.ltb_lt in Hlt. cbn [fst] in Hlt. unfold key_of in Q.
  assert (En : b_seqno b = n) by congruence. rewrite En.
  destruct (is_mc (b_shard (r_id r))) eqn:Es; [rewrite (Hw eq_refl); exact Hlt|exact Hlt].
Qed.
