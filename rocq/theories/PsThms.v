(** Which validators belong to a round: what the users of the schedule see; and the round at
    which a new validator set takes over. *)
From Coq Require Import List Bool NArith Lia ZArith ZifyN ZifyNat ZifyBool Permutation.
From Verif Require Import PsModel PsSpec PsEpochs.
Import ListNotations.
Local Open Scope N_scope.

(** No call ever panics, in any order. *)
Theorem schedule_never_panics net g author ip local ops :
  exists x0 x, init net g author ip (ps0 local) = Some x0 /\ run x0 ops = Some x.
Proof.
  destruct (init_holds net g author ip local) as (x0 & gr & I & H & _).
  destruct (run_holds ops x0 gr H) as (x & gx & R & _). eauto.
Qed.

(** The answers for a round are the validators of its epoch, for the last three epochs that the
    node was told of, whatever else happened; for older epochs they may be gone, but they are
    never those of another epoch. *)
Theorem right_validators T g author local k x i r :
  timeline T -> 1 < g -> lives T g author local k x -> belongs T k i r ->
  ((k <= i + 2)%nat -> peers_for (p_less x) r = members (T i)) /\
  (peers_for (p_less x) r = members (T i) \/ peers_for (p_less x) r = []).
Proof.
  intros HT G L B. destruct (lives_ring T g author local k x HT G L) as (gr & H & O).
  destruct (ring_answers T k gr i r HT O B) as [A1 A2].
  destruct (holds_answers x gr r H) as (P & _). rewrite P. split.
  - intros K. rewrite (A1 K). reflexivity.
  - destruct A2 as [-> | ->]; [left; reflexivity|right; reflexivity].
Qed.

(** No validators before genesis. *)
Theorem nobody_before_genesis T g author local k x r :
  timeline T -> 1 < g -> lives T g author local k x -> r < e_start (T 0%nat) -> peers_for (p_less x) r = [].
Proof.
  intros HT G L B. destruct (lives_ring T g author local k x HT G L) as (gr & H & O).
  destruct (holds_answers x gr r H) as (P & _). rewrite P, (ring_before T k gr r HT O B). reflexivity.
Qed.

(** All views of a round agree: the ordered list, the set, and the peers whose state is kept. *)
Theorem views_agree T g author local k x r :
  timeline T -> 1 < g -> lives T g author local k x ->
  peers_ordered_for (p_less x) r = peers_for (p_less x) r /\
  (forall p, In p (map fst (peers_state_for (k_data (p_lock x)) r)) <-> In p (peers_for (p_less x) r)) /\
  NoDup (map fst (peers_state_for (k_data (p_lock x)) r)).
Proof.
  intros HT G L. destruct (lives_ring T g author local k x HT G L) as (gr & H & O).
  destruct (holds_answers x gr r H) as (P & Q & S & _). rewrite P, Q. split; [reflexivity|].
  unfold keys in S. rewrite S. split; [|apply NoDup_nodup].
  intros p. rewrite nodup_In. reflexivity.
Qed.

(** ** Agreement of nodes *)

Lemma since_timeline T b : timeline T -> (0 < b)%nat -> timeline (since T b).
Proof.
  intros HT Hb [|i]; cbn [since].
  - split; [apply starts_lt; [assumption|lia]|].
    replace (b + 0)%nat with (S (b - 1)) by lia. apply HT.
  - replace (b + S i)%nat with (S (b + i)) by lia. apply HT.
Qed.

(** Two nodes of one chain, started at different times and told different numbers of epochs,
    never answer a round with different validators. *)
Theorem nodes_agree T g author local1 local2 b1 b2 k1 k2 x1 x2 i r :
  timeline T -> 1 < g -> (0 < b1)%nat -> (0 < b2)%nat ->
  lives (since T b1) g author local1 k1 x1 -> lives (since T b2) g author local2 k2 x2 ->
  (b1 <= i)%nat -> (b2 <= i)%nat -> (i < b1 + k1)%nat -> (i < b2 + k2)%nat ->
  e_start (T i) <= r -> r < e_start (T (S i)) ->
  peers_for (p_less x1) r = peers_for (p_less x2) r \/
  peers_for (p_less x1) r = [] \/ peers_for (p_less x2) r = [].
Proof.
  intros HT G B1 B2 L1 L2 I1 I2 K1 K2 R1 R2.
  assert (W : forall b k local x, (0 < b)%nat -> lives (since T b) g author local k x -> (b <= i)%nat -> (i < b + k)%nat ->
              peers_for (p_less x) r = members (T i) \/ peers_for (p_less x) r = []).
  { intros b k local x Hb L Ib Kb.
    assert (BL : belongs (since T b) k (S (i - b)) r).
    { repeat split; cbn [since]; [lia| |].
      - replace (b + (i - b))%nat with i by lia. exact R1.
      - intros _. replace (b + S (i - b))%nat with (S i) by lia. exact R2. }
    pose proof (right_validators (since T b) g author local k x (S (i - b)) r (since_timeline T b HT Hb) G L BL) as [_ A].
    cbn [since] in A. replace (b + (i - b))%nat with i in A by lia. exact A. }
  destruct (W b1 k1 local1 x1 B1 L1 I1 K1) as [A1|A1]; [|auto].
  destruct (W b2 k2 local2 x2 B2 L2 I2 K2) as [A2|A2]; [|auto].
  left. congruence.
Qed.

(** ** The node's own keys *)

Definition elected (T : nat -> epoch) (k : nat) (p : peer) (r : round) : Prop :=
  exists i, belongs T k i r /\ (k <= i + 2)%nat /\ In p (members (T i)).

Lemma mem_In p l : mem p l = true <-> In p l.
Proof.
  unfold mem. rewrite existsb_exists. split.
  - intros (q & A & B). apply N.eqb_eq in B. subst q. exact A.
  - intros H. exists p. split; [exact H|apply N.eqb_refl].
Qed.

Lemma belongs_one T k i j r : timeline T -> belongs T k i r -> belongs T k j r -> i = j.
Proof.
  intros HT (A1 & A2 & A3) (B1 & B2 & B3).
  destruct (Nat.lt_trichotomy i j) as [L|[L|L]]; [|exact L|].
  - pose proof (A3 ltac:(lia)). pose proof (starts_le T (S i) j HT ltac:(lia)). lia.
  - pose proof (B3 ltac:(lia)). pose proof (starts_le T (S j) i HT ltac:(lia)). lia.
Qed.

(** A node uses its key for a round of the last three epochs exactly if it is a validator of the
    round; for the witness signature it has to be one of the next round too. *)
Theorem own_keys T g author local k x i j r :
  timeline T -> 1 < g -> lives T g author local k x -> l_local (p_less x) = local ->
  belongs T k i r -> (k <= i + 2)%nat -> belongs T k j (r + 1) -> (k <= j + 2)%nat ->
  let kg := keys_at (p_less x) r in
  (to_produce kg = true <-> In local (members (T i))) /\
  (to_include kg = true <-> In local (members (T j))) /\
  (to_witness kg = true <-> In local (members (T i)) /\ In local (members (T j))).
Proof.
  intros HT G L LL B1 K1 B2 K2. cbn zeta. unfold keys_at, local_keys. cbn [to_produce to_include to_witness].
  rewrite (proj1 (right_validators T g author local k x i r HT G L B1) K1).
  rewrite (proj1 (right_validators T g author local k x j (r + 1) HT G L B2) K2).
  rewrite LL. repeat split.
  - apply mem_In.
  - apply mem_In.
  - apply mem_In.
  - apply mem_In.
  - destruct (mem local (members (T j))) eqn:Q; [|discriminate]. apply mem_In. assumption.
  - destruct (mem local (members (T j))) eqn:Q; [|discriminate]. apply mem_In. exact Q.
  - intros [A B]. apply mem_In in A. apply mem_In in B. rewrite B. exact A.
Qed.

Lemma local_kept_set_next net x e : l_local (p_less (set_next_subset net x e)) = l_local (p_less x).
Proof. unfold set_next_subset. destruct (_ || _); reflexivity. Qed.
Lemma local_kept_apply x r y : apply_impl x r = Some y -> l_local (p_less y) = l_local (p_less x).
Proof.
  unfold apply_impl. destruct (not_due _ r); [intros [= <-]; reflexivity|].
  destruct (rotate_f _) as [d|]; [|discriminate].
  unfold rotate_s. cbn [forget_oldest_s l_set l_vec q0].
  destruct (rotate_starts _) as [s|]; [|discriminate]. intros [= <-]. reflexivity.
Qed.
Lemma local_kept_do x o y : do x o = Some y -> l_local (p_less y) = l_local (p_less x).
Proof.
  destruct o; cbn [do].
  - unfold set_peers. cbv zeta. destruct (apply_impl _ _) as [z|] eqn:A; [|discriminate]. cbn [bindp].
    apply local_kept_apply in A. rewrite local_kept_set_next in A.
    destruct (ip_next ip).
    + intros [= <-]. rewrite local_kept_set_next. exact A.
    + destruct (apply_impl (set_next_subset net z _) _) as [w|] eqn:B; [|discriminate]. cbn [bindp].
      apply local_kept_apply in B. rewrite local_kept_set_next in B. intros [= <-]. cbn [next_vset p_less]. congruence.
  - unfold apply_scheduled. destruct (not_due _ _); [intros [= <-]; reflexivity|apply local_kept_apply].
  - intros [= <-]. unfold set_banned. destruct l; reflexivity.
  - intros [= <-]. unfold remove_bans. destruct l; reflexivity.
  - intros [= <-]. reflexivity.
  - intros [= <-]. reflexivity.
  - destruct (can_fire _ _); intros [= <-]; reflexivity.
Qed.
Lemma local_kept_run l : forall x y, run x l = Some y -> l_local (p_less y) = l_local (p_less x).
Proof.
  induction l as [|o l IH]; intros x y; cbn [run]; [intros [= <-]; reflexivity|].
  destruct (do x o) as [z|] eqn:D; [|discriminate]. cbn [bindp]. intros R.
  rewrite (IH z y R). eapply local_kept_do. exact D.
Qed.
Lemma local_kept_init net g author ip x y : init net g author ip x = Some y -> l_local (p_less y) = l_local (p_less x).
Proof.
  unfold init. cbv zeta. destruct (apply_impl _ (g - 1)) as [x2|] eqn:A; [|discriminate]. cbn [bindp].
  apply local_kept_apply in A. rewrite local_kept_set_next in A.
  match goal with |- context [bindp ?o _] => destruct o as [x3|] eqn:B; [|discriminate] end. cbn [bindp].
  assert (C : l_local (p_less x3) = l_local (p_less x)).
  { destruct (g + 1 <? e_start (ip_curr ip)).
    - apply local_kept_apply in B. rewrite local_kept_set_next in B. congruence.
    - congruence. }
  destruct (ip_next ip); cbn [bindp].
  - intros [= <-]. cbn [p_less]. rewrite local_kept_set_next. exact C.
  - destruct (apply_impl _ (N.max (e_start (ip_curr ip)) (g + 1))) as [x4|] eqn:D; [|discriminate]. cbn [bindp].
    apply local_kept_apply in D. rewrite local_kept_set_next in D.
    intros [= <-]. cbn [next_vset p_less]. congruence.
Qed.

(** The same without the side condition on the local id. *)
Theorem lives_local T g author local k x : lives T g author local k x -> l_local (p_less x) = local.
Proof.
  intros (net & ip & x0 & ops & k0 & I & _ & _ & R).
  rewrite (local_kept_run _ _ _ R), (local_kept_init _ _ _ _ _ _ I). reflexivity.
Qed.

(** ** Statistics of an anchor *)

Fixpoint slot_of (p : peer) (l : list (peer * N)) : option N :=
  match l with [] => None | (q, i) :: r => if p =? q then Some i else slot_of p r end.

Fixpoint below (i : N) (l : list (peer * N)) : N :=
  match l with [] => 0 | (_, j) :: r => (if j <? i then 1 else 0) + below i r end.

Lemma below_perm i a b : Permutation a b -> below i a = below i b.
Proof.
  induction 1; cbn [below]; [reflexivity| | |congruence].
  - destruct x as [q j]. cbn [below]. lia.
  - destruct x as [q j], y as [q' j']. cbn [below]. lia.
Qed.

Lemma ins_idx_perm e l : Permutation (ins_idx e l) (e :: l).
Proof.
  induction l as [|x l IH]; cbn [ins_idx]; [reflexivity|].
  destruct (snd e <=? snd x); [reflexivity|]. rewrite IH. apply perm_swap.
Qed.
Lemma sort_idx_perm l : Permutation (sort_idx l) l.
Proof.
  induction l as [|x l IH]; [reflexivity|]. change (Permutation (ins_idx x (sort_idx l)) (x :: l)).
  rewrite ins_idx_perm. constructor. exact IH.
Qed.

Fixpoint sorted_idx (l : list (peer * N)) : Prop :=
  match l with [] => True | x :: r => (forall y, In y r -> snd x <= snd y) /\ sorted_idx r end.
Lemma ins_idx_sorted e l : sorted_idx l -> sorted_idx (ins_idx e l).
Proof.
  induction l as [|x l IH]; cbn [ins_idx sorted_idx]; [intros _; split; [intros y []|exact I]|]. intros [A B].
  destruct (N.leb_spec (snd e) (snd x)) as [L|L]; cbn [sorted_idx].
  - split; [|split; assumption]. intros y [<-|H]; [exact L|]. specialize (A y H). lia.
  - split; [|auto]. intros y H. apply (Permutation_in _ (ins_idx_perm e l)) in H. destruct H as [<-|H]; [lia|auto].
Qed.
Lemma sort_idx_sorted l : sorted_idx (sort_idx l).
Proof. induction l as [|x l IH]; [exact I|]. apply ins_idx_sorted. exact IH. Qed.

Lemma below_zero i l : (forall y, In y l -> i <= snd y) -> below i l = 0.
Proof.
  induction l as [|[q j] l IH]; intros H; cbn [below]; [reflexivity|].
  pose proof (H (q, j) (or_introl eq_refl)) as A. cbn [snd] in A.
  destruct (N.ltb_spec j i); [lia|]. rewrite IH; [lia|]. intros y Y. apply H. right. exact Y.
Qed.

Lemma enum_slots l : forall n, NoDup (map fst l) -> NoDup (map snd l) -> sorted_idx l ->
  forall p i, In (p, i) l -> slot_of p (enum_from n l) = Some (n + below i l).
Proof.
  induction l as [|[q j] l IH]; intros n N1 N2 S p i H; [destruct H|].
  cbn [map fst snd] in N1, N2. inversion N1 as [|? ? N1a N1b]; subst. inversion N2 as [|? ? N2a N2b]; subst.
  destruct S as [S1 S2]. cbn [enum_from slot_of below].
  destruct H as [H|H].
  - injection H as -> ->. rewrite N.eqb_refl. destruct (N.ltb_spec i i); [lia|].
    rewrite below_zero; [f_equal; lia|]. intros y Y. exact (S1 y Y).
  - assert (p <> q) by (intros ->; apply N1a; apply (in_map fst) in H; exact H).
    destruct (N.eqb_spec p q); [congruence|].
    rewrite (IH (n + 1) N1b N2b S2 p i H).
    pose proof (S1 (p, i) H) as A. cbn [snd] in A.
    assert (i <> j) by (intros ->; apply N2a; apply (in_map snd) in H; exact H).
    destruct (N.ltb_spec j i); [f_equal; lia|lia].
Qed.

(** The slot of a validator in an anchor's statistics is its rank, by position in the blockchain
    config, among the working validators of the anchor's epoch. *)
Theorem slots_are_ranks T g author local k x i r p idx :
  timeline T -> 1 < g -> lives T g author local k x -> belongs T k i r -> (k <= i + 2)%nat ->
  NoDup (map fst (e_sub (T i))) -> NoDup (map snd (e_sub (T i))) -> In (p, idx) (e_sub (T i)) ->
  exists m, stats_slot_map (p_less x) r = Some m /\ slot_of p m = Some (below idx (e_sub (T i))).
Proof.
  intros HT G L B K N1 N2 IN. destruct (lives_ring T g author local k x HT G L) as (gr & H & O).
  destruct (holds_answers x gr r H) as (_ & _ & _ & S). rewrite S.
  rewrite (proj1 (ring_answers T k gr i r HT O B) K). cbn [sub]. unfold slots_of.
  destruct (e_sub (T i)) as [|e0 l0] eqn:E; [destruct IN|].
  eexists. split; [reflexivity|].
  pose proof (sort_idx_perm (e0 :: l0)) as P.
  rewrite (enum_slots (sort_idx (e0 :: l0)) 0) with (i := idx).
  - f_equal. rewrite N.add_0_l. apply below_perm. exact P.
  - eapply Permutation_NoDup; [apply Permutation_map; symmetry; exact P|exact N1].
  - eapply Permutation_NoDup; [apply Permutation_map; symmetry; exact P|exact N2].
  - apply sort_idx_sorted.
  - eapply Permutation_in; [symmetry; exact P|exact IN].
Qed.

(** Statistics are reported from the first round of the anchor's epoch, and only if the anchor
    and the rounds that can follow it belong to one epoch. *)
Lemma holds_start x gr r : holds x gr -> epoch_start (l_starts (p_less x)) r =
  if match r_n gr with Some e => e_start e <=? r | None => false end then option_map e_start (r_n gr)
  else if st (r_c gr) <=? r then Some (st (r_c gr))
  else if st (r_p gr) <=? r then Some (st (r_p gr))
  else if st (r_o gr) <=? r then Some (st (r_o gr))
  else None.
Proof.
  intros [A B C D E F G]. destruct gr as [ro rp rc rn]. cbn [r_o r_p r_c r_n] in *.
  unfold epoch_start, arr_idx. rewrite B, A. cbn [s_next s_curr s_prev s_old].
  destruct rn as [e|]; cbn [option_map].
  - destruct (e_start e <=? r); [reflexivity|]. destruct (st rc <=? r); [reflexivity|].
    destruct (st rp <=? r); [reflexivity|]. destruct (st ro <=? r); reflexivity.
  - destruct (st rc <=? r); [reflexivity|].
    destruct (st rp <=? r); [reflexivity|]. destruct (st ro <=? r); reflexivity.
Qed.

Lemma start_of_epoch T k x gr i r : timeline T -> holds x gr -> on_ring T k gr -> belongs T k i r ->
  ((k <= i + 2)%nat -> epoch_start (l_starts (p_less x)) r = Some (e_start (T i))) /\
  (epoch_start (l_starts (p_less x)) r = Some (e_start (T i)) \/ epoch_start (l_starts (p_less x)) r = None).
Proof.
  intros HT H O B. rewrite (holds_start x gr r H).
  destruct (ring_answers T k gr i r HT O B) as [A1 A2].
  destruct O as (c & Rc & Rp & Ro & D). destruct B as (B1 & B2 & B3).
  assert (POS : st (r_c gr) = e_start (T c)) by (rewrite Rc; reflexivity).
  (* an empty slot is reached only by rounds before epoch 0 *)
  assert (LOW : e_start (T 0%nat) <= r).
  { pose proof (starts_le T 0%nat i HT ltac:(lia)). lia. }
  unfold ring_at in A1, A2. rewrite Rc, Rp, Ro in *. cbn [st] in *.
  destruct (match r_n gr with Some e => e_start e <=? r | None => false end) eqn:Q3.
  { destruct (r_n gr) as [e|]; [|discriminate]. cbn [option_map]. split.
    - intros K. specialize (A1 K). congruence.
    - destruct A2 as [A2|A2]; [left; congruence|discriminate]. }
  destruct (e_start (T c) <=? r) eqn:Q2.
  { split; [intros K; specialize (A1 K); congruence|]. destruct A2 as [A2|A2]; [left; congruence|discriminate]. }
  apply N.leb_gt in Q2.
  unfold pick in *. destruct (Nat.ltb_spec c 1) as [L1|L1]; cbn [st] in *.
  { exfalso. replace c with 0%nat in Q2 by lia. lia. }
  destruct (e_start (T (c - 1)%nat) <=? r) eqn:Q1.
  { split; [intros K; specialize (A1 K); congruence|]. destruct A2 as [A2|A2]; [left; congruence|discriminate]. }
  apply N.leb_gt in Q1.
  destruct (Nat.ltb_spec c 2) as [L2|L2]; cbn [st] in *.
  { exfalso. replace (c - 1)%nat with 0%nat in Q1 by lia. lia. }
  destruct (e_start (T (c - 2)%nat) <=? r) eqn:Q0.
  { split; [intros K; specialize (A1 K); congruence|]. destruct A2 as [A2|A2]; [left; congruence|discriminate]. }
  split; [intros K; specialize (A1 K); discriminate|right; reflexivity].
Qed.

Theorem statistics_of_one_epoch T g author local k x i j a lag :
  timeline T -> 1 < g -> lives T g author local k x ->
  belongs T k i a -> belongs T k j (a + lag) -> (k <= i + 2)%nat ->
  stats_since (p_less x) lag a = if (i =? j)%nat then Some (e_start (T i)) else None.
Proof.
  intros HT G L B1 B2 K. destruct (lives_ring T g author local k x HT G L) as (gr & H & O).
  assert (IJ : (i <= j)%nat).
  { destruct (le_lt_dec i j); [assumption|]. exfalso. destruct B1 as (X1 & X2 & X3), B2 as (Y1 & Y2 & Y3).
    pose proof (Y3 ltac:(lia)). pose proof (starts_le T (S j) i HT ltac:(lia)). lia. }
  unfold stats_since.
  rewrite (proj1 (start_of_epoch T k x gr i a HT H O B1) K).
  rewrite (proj1 (start_of_epoch T k x gr j (a + lag) HT H O B2) ltac:(lia)).
  destruct (Nat.eqb_spec i j) as [->|NE].
  - rewrite N.eqb_refl. reflexivity.
  - pose proof (starts_lt T i j HT ltac:(lia)). destruct (N.eqb_spec (e_start (T i)) (e_start (T j))); [lia|reflexivity].
Qed.

(** ** The round of the next validator set *)

(** The epoch in force at a round, as a consensus info tells: its first round. *)
Definition in_force (ci : cinfo) (r : round) : option round :=
  if ci_switch ci <=? r then Some (ci_switch ci) else if ci_prev ci <=? r then Some (ci_prev ci) else None.

(** What a key block does to the consensus info when the validators change. *)
Definition key_block (overridden config : bool) (processed lag total processed_to : N) (ci : cinfo) : cinfo :=
  let k := kb_new overridden config processed lag total ci in
  let '(s, ci1) := kb_round k ci processed_to in
  kb_apply k false s ci1.

(** The mempool stops [lag] rounds after the last processed anchor. No round that it can have
    reached gets new validators. *)
Theorem switch_is_beyond_reach processed lag total processed_to ci r :
  r <= processed + lag -> r < ci_switch (key_block false false processed lag total processed_to ci) /\
  (ci_switch ci <= r -> in_force (key_block false false processed lag total processed_to ci) r = in_force ci r) /\
  (in_force (key_block false false processed lag total processed_to ci) r = in_force ci r \/
   in_force (key_block false false processed lag total processed_to ci) r = None).
Proof.
  intros R. unfold key_block, kb_new, kb_round, kb_apply, in_force, after_pause_round.
  cbn [kb_overridden kb_config kb_skip kb_pause kb_total].
  destruct (N.ltb_spec (processed + lag + 1) (ci_switch ci)) as [S|S].
  - cbn [ci_switch ci_prev].
    replace (N.max (processed + lag + 1) (ci_switch ci)) with (ci_switch ci) by lia.
    split; [lia|]. split; [reflexivity|left; reflexivity].
  - destruct (N.ltb_spec (ci_genesis ci) (ci_switch ci)) as [G|G]; cbn [ci_switch ci_prev].
    + destruct (N.leb_spec (N.max (processed + lag + 1) (ci_switch ci + total + 1)) r); [lia|].
      split; [lia|]. destruct (N.leb_spec (ci_switch ci) r); split; auto; lia.
    + destruct (N.leb_spec (processed + lag + 1) r); [lia|].
      split; [lia|]. destruct (N.leb_spec (ci_switch ci) r); split; auto; lia.
Qed.

(** From its first round on, the new epoch and the one before it cover the whole history that the
    mempool keeps ([total] rounds), unless that history does not reach back over genesis. *)
Theorem history_spans_two_epochs processed lag total processed_to ci t r :
  let ci' := key_block false false processed lag total processed_to ci in
  ci_switch ci <= processed + lag + 1 -> ci_genesis ci < ci_switch ci ->
  ci_switch ci' <= t -> t <= r + total -> in_force ci' r <> None /\ ci_prev ci' = ci_switch ci.
Proof.
  cbn zeta. intros S G T R. unfold key_block, kb_new, kb_round, kb_apply, in_force, after_pause_round in *.
  cbn [kb_overridden kb_config kb_skip kb_pause kb_total] in *.
  destruct (N.ltb_spec (processed + lag + 1) (ci_switch ci)) as [Q|Q]; [lia|].
  destruct (N.ltb_spec (ci_genesis ci) (ci_switch ci)) as [_|]; [|lia]. cbn [ci_switch ci_prev] in *.
  split; [|reflexivity].
  destruct (N.leb_spec (N.max (processed + lag + 1) (ci_switch ci + total + 1)) r); [discriminate|].
  destruct (N.leb_spec (ci_switch ci) r); [discriminate|lia].
Qed.

(** Switch rounds never go back, and grow unless an epoch that nobody reached is replaced. *)
Theorem switch_rounds_grow processed lag total processed_to ci :
  let ci' := key_block false false processed lag total processed_to ci in
  ci_switch ci <= ci_switch ci' /\
  (ci_switch ci <= processed + lag -> ci_switch ci < ci_switch ci' /\ ci_prev ci' = ci_switch ci) /\
  (processed + lag + 1 < ci_switch ci -> ci_switch ci' = ci_switch ci /\ ci_prev ci' = ci_prev ci).
Proof.
  cbn zeta. unfold key_block, kb_new, kb_round, kb_apply, after_pause_round.
  cbn [kb_overridden kb_config kb_skip kb_pause kb_total].
  destruct (N.ltb_spec (processed + lag + 1) (ci_switch ci)) as [Q|Q].
  - cbn [ci_switch ci_prev]. repeat split; lia.
  - destruct (N.ltb_spec (ci_genesis ci) (ci_switch ci)); cbn [ci_switch ci_prev]; repeat split; lia.
Qed.

(** When the mempool is restarted with a new genesis by the same block, the new validators begin
    right after the round of the genesis info, and so no later than the first round after genesis. *)
Theorem new_genesis_switch overridden processed lag total processed_to ci :
  let ci' := key_block overridden (negb overridden) processed lag total processed_to ci in
  ci_switch ci' = ci_genesis ci' + 1 /\ (overridden = false -> ci_genesis ci' = processed_to).
Proof.
  cbn zeta. unfold key_block, kb_new, kb_round, kb_apply. cbn [kb_overridden kb_config kb_skip kb_pause kb_total].
  destruct overridden; cbn [negb ci_switch ci_genesis]; split; auto; discriminate.
Qed.
