(** C71: the range of master blocks reported as waiting, and what the synchronisation finds there. *)
From Verif Require Export BcTake.
From Coq Require Import ZArith ZifyN ZifyNat ZifyBool Lia.

(** one step of the waiting list, as the specification describes it *)
Inductive pend_step (p : list N) (w : option (N * N)) : list N -> option (N * N) -> Prop :=
| ps_same : pend_step p w p w
| ps_add n : pend_step p w (n :: p) (match w with Some (a, _) => Some (a, n) | None => Some (n, n) end)
| ps_cut n : pend_step p w (filter (fun x => n <? x) p)
    (match w with
     | Some (a, b) => if a <=? n then (if n + 1 <=? b then Some (n + 1, b) else None) else w
     | None => None end).

Lemma m_range_start n m : m_range (move_range_start n m) =
  match m_range m with
  | Some (a, b) => if a <=? n then (if n + 1 <=? b then Some (n + 1, b) else None) else m_range m
  | None => None end.
Proof.
  unfold move_range_start. destruct (m_range m) as [[a b]|] eqn:E; [|exact E].
  destruct (a <=? n); [reflexivity|exact E].
Qed.
Lemma befores_range l : forall m, m_range (remove_last_befores l m) = m_range m.
Proof. induction l as [|n l IH]; intros m; [reflexivity|]. cbn. now rewrite IH. Qed.
Lemma froms_range l : forall m, m_range (remove_last_froms l m) = m_range m.
Proof. induction l as [|n l IH]; intros m; [reflexivity|]. cbn. now rewrite IH. Qed.
Lemma gc_waiting k : waiting (do_gc k) = waiting k.
Proof. unfold waiting, do_gc. cbn. destruct (g_gc (k_masters k)); [|reflexivity]. cbn. apply befores_range. Qed.
Lemma remove_next_waiting l : forall k, waiting (do_remove_next k l) = waiting k.
Proof.
  induction l as [|[s n] l IH]; intros k; [reflexivity|]. cbn [do_remove_next]. rewrite IH.
  destruct (is_mc s).
  - unfold waiting. cbn. apply froms_range.
  - destruct (aget N.eqb s (k_shards k)); reflexivity.
Qed.

(** what a call does to the waiting list, with the height it adds *)
Lemma pending_case k o h : kinv k ->
  (pending ((o, snd (exec k o)) :: h) = pending h /\ waiting (fst (exec k o)) = waiting k /\
   accepted 0 ((o, snd (exec k o)) :: h) = accepted 0 h) \/
  (exists n, pending ((o, snd (exec k o)) :: h) = n :: pending h /\
     accepted 0 ((o, snd (exec k o)) :: h) = n :: accepted 0 h /\ ~ not_newer k 0 n /\
     waiting (fst (exec k o)) = match waiting k with Some (a, _) => Some (a, n) | None => Some (n, n) end) \/
  (exists n, pending ((o, snd (exec k o)) :: h) = filter (fun x => n <? x) (pending h) /\
     accepted 0 ((o, snd (exec k o)) :: h) = accepted 0 h /\
     waiting (fst (exec k o)) =
       match waiting k with
       | Some (a, b) => if a <=? n then (if n + 1 <=? b then Some (n + 1, b) else None) else waiting k
       | None => None end).
Proof.
  intros Hk. destruct o; cbn [pending accepted].
  - destruct (collated_ok k c tops anchor Hk) as (_ & _ & _ & _ & Hr). cbn zeta in Hr. cbn [exec].
    destruct (snd (do_collated k c tops anchor)) as [| |x| | | | | |]; try contradiction.
    + left. split; [reflexivity|]. split; [|reflexivity]. unfold waiting. destruct Hr as (_ & _ & ->). reflexivity.
    + destruct Hr as (_ & _ & _ & _ & _ & _ & _ & Ed). unfold waiting. rewrite Ed.
      destruct (is_mc (b_shard (c_id c)) && negb (x_mismatch x)); [|left; auto].
      right. right. exists (b_seqno (c_id c)). split; [reflexivity|]. split; [reflexivity|].
      unfold m_on_collated. cbn [m_range]. apply m_range_start.
  - destruct (N.lt_ge_cases (r_ref r) (k_zs k)) as [L|L].
    { cbn [exec]. rewrite received_old by exact L. cbn [fst snd]. left. auto. }
    destruct (received_ok k r Hk L) as (_ & _ & _ & _ & Hr). cbn zeta in Hr. cbn [exec].
    destruct (snd (do_received k r)) as [| |x| | | | | |]; try contradiction.
    + destruct Hr as (A1 & _ & _ & _ & _ & _ & _ & _ & Ed). unfold waiting. rewrite Ed.
      unfold received_mdata, is_mc in *. destruct (N.eqb_spec (b_shard (r_id r)) 0) as [Es|Es].
      * right. left. exists (b_seqno (r_id r)). rewrite Es in A1.
        split; [reflexivity|]. split; [reflexivity|]. split; [exact A1|].
        destruct (x_mismatch x); reflexivity.
      * left. split; [reflexivity|]. split; [|reflexivity]. destruct (x_mismatch x); reflexivity.
    + left. split; [reflexivity|]. split; [|reflexivity]. unfold waiting. destruct Hr as (_ & _ & _ & ->). reflexivity.
  - left. split; [reflexivity|]. split; [|reflexivity]. cbn [exec].
    destruct (validated_ok k id complete Hk) as (_ & _ & Ed & _). unfold waiting. now rewrite Ed.
  - left. auto.
  - pose proof (exec_pop k from Hk) as P. cbn zeta in P. cbn [exec].
    destruct (snd (do_pop k from)) as [| | | | | |m shs b| |]; try contradiction.
    + left. destruct P as [-> _]. auto.
    + destruct P as (_ & _ & _ & _ & _ & Em & _). right. right. exists (b_seqno (e_id m)).
      split; [reflexivity|]. split; [reflexivity|]. unfold waiting. rewrite Em. unfold popped_masters. cbn [g_data]. rewrite m_range_start. reflexivity.
  - pose proof (exec_extract k id Hk) as P. cbn zeta in P. cbn [exec].
    destruct (snd (do_extract k id)) as [| | | | | |m shs b| |]; try contradiction.
    + left. destruct P as [-> _]. auto.
    + destruct P as (En & _ & Em & _). unfold waiting. rewrite Em.
      destruct (extracted_fields (k_masters k) (b_seqno id) m) as (_ & _ & _ & _ & Ed). rewrite Ed.
      destruct (applied m); [|left; auto]. right. right. exists (b_seqno (e_id m)).
      split; [reflexivity|]. split; [reflexivity|]. rewrite En. unfold remove_last_before. cbn [m_range]. apply m_range_start.
  - left. split; [reflexivity|]. split; [|reflexivity]. cbn [exec fst]. unfold waiting.
    destruct (set_gc_ok keys k Hk) as (_ & _ & _ & Ed). cbn zeta in Ed. now rewrite Ed.
  - left. split; [reflexivity|]. split; [|reflexivity]. cbn [exec fst]. apply gc_waiting.
  - left. split; [reflexivity|]. split; [|reflexivity]. cbn [exec fst]. apply remove_next_waiting.
  - left. split; [reflexivity|]. split; [|reflexivity]. cbn [exec fst].
    destruct (tops_ok k mc Hk) as (_ & _ & _ & Em). unfold waiting. cbn zeta in Em. now rewrite Em.
  - left. auto.
Qed.

Definition range_ok (p acc : list N) (w : option (N * N)) : Prop :=
  (forall n, In n p -> In n acc) /\
  match w with
  | None => p = []
  | Some (a, b) => a <= b /\ In b p /\ (forall n, In n p -> a <= n <= b) /\
      (forall n, In n acc -> n <= b) /\
      (contiguous acc -> forall n, a <= n -> n <= b -> In n p)
  end.

Lemma range_inv zs h k : hist zs h k -> range_ok (pending h) (accepted 0 h) (waiting k).
Proof.
  induction 1 as [|h k o H IH Hw]; [split; [intros n []|reflexivity]|].
  pose proof (hist_inv _ _ _ H) as [Hk _]. destruct (accepted_bound zs h k 0 H) as [_ Hb].
  destruct (pending_case k o h Hk) as [(A & B & C)|[(n & A & B & C & D)|(n & A & B & D)]].
  - now rewrite A, B, C.
  - rewrite A, B, D. destruct IH as [I1 I2].
    assert (Hlt : forall x, In x (accepted 0 h) -> x < n).
    { intros x Hx. destruct (Hb x Hx) as (y & Ey & Ly).
      destruct (N.lt_ge_cases x n) as [L|L]; [exact L|]. exfalso. apply C. exists y. split; [exact Ey|lia]. }
    split. { intros x [<-|Hx]; [now left|right; auto]. }
    destruct (waiting k) as [[a b]|].
    + destruct I2 as (J1 & J2 & J3 & J4 & J5). assert (Hbn : b < n) by auto.
      split; [lia|]. split; [now left|]. split; [|split].
      * intros x [<-|Hx]; [lia|]. specialize (J3 x Hx). lia.
      * intros x [<-|Hx]; [lia|]. specialize (Hlt x Hx). lia.
      * intros Hc x L1 L2. destruct (N.eq_dec x n) as [->|Hne]; [now left|]. right.
        cbn [contiguous] in Hc. destruct Hc as [Hc1 Hc2].
        destruct (accepted 0 h) as [|c l] eqn:El; [destruct (I1 b J2)|]. subst n.
        apply J5; [exact Hc2|exact L1|]. pose proof (J4 c (or_introl eq_refl)) as Q.
        clear -Q L2 Hne. lia.
    + split; [lia|]. split; [now left|]. rewrite I2. split; [|split].
      * intros x [<-|[]]. lia.
      * intros x [<-|Hx]; [lia|]. specialize (Hlt x Hx). lia.
      * intros _ x L1 L2. left. lia.
  - rewrite A, B, D. destruct IH as [I1 I2]. split. { intros x Hx. apply filter_In in Hx as [Hx _]. auto. }
    destruct (waiting k) as [[a b]|]; [|now rewrite I2].
    destruct I2 as (J1 & J2 & J3 & J4 & J5). destruct (N.leb_spec a n) as [L|L].
    + destruct (N.leb_spec (n + 1) b) as [L2|L2].
      * split; [lia|]. split. { apply filter_In. split; [exact J2|]. apply N.ltb_lt. lia. }
        split; [|split; [exact J4|]].
        -- intros x Hx. apply filter_In in Hx as [Hx Hl]. apply N.ltb_lt in Hl. specialize (J3 x Hx). lia.
        -- intros Hc x M1 M2. apply filter_In. split; [apply J5; [exact Hc|lia|exact M2]|]. apply N.ltb_lt. lia.
      * destruct (filter (fun x => n <? x) (pending h)) as [|c l] eqn:Ef; [reflexivity|].
        exfalso. assert (Hin : In c (filter (fun x => n <? x) (pending h))) by (rewrite Ef; now left).
        apply filter_In in Hin as [Hin Hl]. apply N.ltb_lt in Hl. specialize (J3 c Hin). lia.
    + assert (Ef : forall x, In x (filter (fun x => n <? x) (pending h)) <-> In x (pending h)).
      { intros x. rewrite filter_In. split; [intros [Q _]; exact Q|]. intros Q. split; [exact Q|].
        apply N.ltb_lt. specialize (J3 x Q). lia. }
      split; [exact J1|]. split; [now apply Ef|]. split; [|split; [exact J4|]].
      * intros x Hx. apply J3. now apply Ef.
      * intros Hc x M1 M2. apply Ef. now apply J5.
Qed.

(** The range reported as waiting is empty exactly when no received master block waits;
    otherwise it ends with the newest waiting block and covers all of them. *)
Theorem range_covers_waiting zs h k : hist zs h k ->
  match waiting k with
  | None => pending h = []
  | Some (a, b) => a <= b /\ In b (pending h) /\ forall n, In n (pending h) -> a <= n <= b
  end.
Proof.
  intros H. destruct (range_inv _ _ _ H) as [_ R]. destruct (waiting k) as [[a b]|]; [|exact R].
  destruct R as (A & B & C & _). auto.
Qed.

(** If master blocks are received without gaps the range is exactly the set of waiting blocks. *)
Theorem range_is_waiting zs h k : hist zs h k -> contiguous (accepted 0 h) ->
  forall n, In n (pending h) <-> exists a b, waiting k = Some (a, b) /\ a <= n <= b.
Proof.
  intros H Hc n. destruct (range_inv _ _ _ H) as [_ R]. destruct (waiting k) as [[a b]|].
  - destruct R as (A & B & C & _ & D). split.
    + intros Hin. exists a, b. auto.
    + intros (a' & b' & E & L). injection E as <- <-. apply D; tauto.
  - rewrite R. split; [intros []|]. intros (a & b & E & _). discriminate.
Qed.

(** Every storing call reports the range and the own last block of the moment. *)
Theorem reported_range k o x : kinv k -> snd (exec k o) = RStored x ->
  x_range x = waiting (fst (exec k o)) /\ x_last x = own_last (fst (exec k o)).
Proof.
  intros Hk E. destruct o; cbn [exec snd] in E; try discriminate; cbn [exec].
  - destruct (collated_ok k c tops anchor Hk) as (_ & _ & _ & _ & Hr). cbn zeta in Hr. rewrite E in Hr.
    destruct Hr as (_ & _ & _ & _ & _ & A & B & _). auto.
  - destruct (N.lt_ge_cases (r_ref r) (k_zs k)) as [L|L].
    { rewrite received_old in E by exact L. discriminate. }
    destruct (received_ok k r Hk L) as (_ & _ & _ & _ & Hr). cbn zeta in Hr. rewrite E in Hr.
    destruct Hr as (_ & _ & _ & _ & _ & _ & A & B & _). auto.
  - destruct (validated_ok k id complete Hk) as (_ & _ & _ & _ & _ & _ & V). rewrite E in V. contradiction.
  - unfold do_peek in E. destruct (first_applied _ _) as [[n e]|]; [|discriminate].
    destruct (peek_tops _ _ _ _); discriminate.
  - pose proof (exec_pop k from Hk) as P. cbn zeta in P. rewrite E in P. contradiction.
  - pose proof (exec_extract k id Hk) as P. cbn zeta in P. rewrite E in P. contradiction.
  - unfold do_tops in E. destruct (top_infos _ _); discriminate.
Qed.

(** What a pop returns: the first on-chain master block from the given height on, or an error
    when there is none; the flag says that no on-chain block lies above. *)
Theorem pop_first zs h k from : hist zs h k ->
  match snd (exec k (OPop from)) with
  | RGraph m _ last =>
      let n := b_seqno (e_id m) in
      from <= n /\ block_at k 0 n = Some m /\ applied m = true /\
      (forall n' e', from <= n' -> block_at k 0 n' = Some e' -> applied e' = true -> n <= n') /\
      (last = true <-> forall n' e', n < n' -> block_at k 0 n' = Some e' -> applied e' = false)
  | RErr => fst (exec k (OPop from)) = k /\
      forall n e, from <= n -> block_at k 0 n = Some e -> applied e = false
  | _ => False
  end.
Proof.
  intros H. apply hist_inv in H as [Hk _]. pose proof (exec_pop k from Hk) as P. cbn zeta in P.
  cbn [exec]. destruct (snd (do_pop k from)) as [| | | | | |m shs b| |]; try contradiction; [exact P|].
  destruct P as (A & B & C & D & F & _). auto.
Qed.

(** An extraction answers "already extracted" exactly when no block is held at the height of the
    id, and otherwise takes the block held there, whatever its hash. *)
Theorem extract_by_height zs h k id : hist zs h k ->
  match snd (exec k (OExtract id)) with
  | RGraph m _ _ => block_at k 0 (b_seqno id) = Some m
  | RGone => fst (exec k (OExtract id)) = k /\ block_at k 0 (b_seqno id) = None
  | _ => False
  end.
Proof.
  intros H. apply hist_inv in H as [Hk _]. pose proof (exec_extract k id Hk) as P. cbn zeta in P.
  cbn [exec]. destruct (snd (do_extract k id)) as [| | | | | |m shs b| |]; try contradiction; [exact P|].
  destruct P as (_ & B & _). exact B.
Qed.

(** Calls that do not throw waiting blocks away: the collection boundary lies at or below the
    known height and the waiting blocks, and own candidates are removed above heights below
    which every waiting block lies that was collated as well. *)
Definition keeps_waiting (h : list (op * outcome)) (k : cache) (o : op) : Prop :=
  match o with
  | OSetGc keys => forall n, In (0, n) keys -> not_newer k 0 n /\ forall p, In p (pending h) -> n <= p
  | ORemoveNext keys => forall n p e, In (0, n) keys -> In p (pending h) -> n < p ->
      block_at k 0 p = Some e -> is_received e = true
  | _ => True
  end.
Inductive orderly (zs : N) : list (op * outcome) -> cache -> Prop :=
| orderly_new : orderly zs [] (new_cache zs)
| orderly_step h k o : orderly zs h k -> wf_op o -> keeps_waiting h k o ->
    orderly zs ((o, snd (exec k o)) :: h) (fst (exec k o)).
Lemma orderly_hist zs h k : orderly zs h k -> hist zs h k.
Proof. induction 1; now constructor. Qed.

(** the invariant of orderly histories: every waiting block is held as an on-chain block, on-chain
    blocks that do not wait lie below the range, the boundary lies below everything that waits *)
Record oinv (p : list N) (k : cache) : Prop := {
  o_held : forall n, In n p -> exists e, block_at k 0 n = Some e /\ applied e = true;
  o_else : forall n e a b, block_at k 0 n = Some e -> applied e = true -> ~ In n p ->
    waiting k = Some (a, b) -> n < a;
  o_gc : forall n, g_gc (k_masters k) = Some n -> not_newer k 0 n /\ forall x, In x p -> n <= x }.

Lemma set_gc_boundary keys : forall k n, g_gc (k_masters (do_set_gc k keys)) = Some n ->
  g_gc (k_masters k) = Some n \/ In (0, n) keys.
Proof.
  induction keys as [|[s x] keys IH]; intros k n E; [now left|]. cbn [do_set_gc] in E.
  apply IH in E as [E|E]; [|right; now right]. destruct (is_mc s) eqn:Es.
  - cbn in E. injection E as ->. apply is_mc_eq in Es. subst s. right. now left.
  - destruct (aget N.eqb s (k_shards k)); left; exact E.
Qed.
Lemma gc_block k n : kinv k -> block_at (do_gc k) 0 n =
  match g_gc (k_masters k) with
  | Some x => if x <=? n then block_at k 0 n else None
  | None => block_at k 0 n end.
Proof.
  intros Hk. unfold block_at, do_gc. cbn. destruct (g_gc (k_masters k)) as [x|]; [|reflexivity].
  cbn. rewrite bget_filter by apply Hk. cbn [fst].
  destruct (bget n (g_blocks (k_masters k))); destruct (x <=? n); reflexivity.
Qed.
Lemma remove_next_block keys : forall k n e, kinv k -> block_at k 0 n = Some e ->
  (forall x, In (0, x) keys -> x < n -> is_received e = true) ->
  block_at (do_remove_next k keys) 0 n = Some e.
Proof.
  induction keys as [|[s x] keys IH]; intros k n e Hk E Hr; [exact E|]. cbn [do_remove_next].
  assert (Hk' : kinv (do_remove_next k [(s, x)])) by now apply remove_next_ok.
  cbn [do_remove_next] in Hk'. apply IH; [exact Hk'| |intros y Hy; apply Hr; now right].
  destruct (is_mc s) eqn:Es.
  - unfold block_at in *. cbn in *. rewrite bget_filter by apply Hk. rewrite E. unfold keep_next. cbn [fst snd].
    destruct (N.leb_spec n x) as [L|L]; [reflexivity|]. cbn [orb]. apply is_mc_eq in Es. subst s.
    rewrite (Hr x); [reflexivity|now left|exact L].
  - destruct (aget N.eqb s (k_shards k)); [|exact E]. unfold block_at in *. exact E.
Qed.
Lemma remove_next_gc keys : forall k, g_gc (k_masters (do_remove_next k keys)) = g_gc (k_masters k).
Proof.
  induction keys as [|[s x] keys IH]; intros k; [reflexivity|]. cbn [do_remove_next]. rewrite IH.
  destruct (is_mc s); [reflexivity|]. destruct (aget N.eqb s (k_shards k)); reflexivity.
Qed.

(** on-chain master blocks of the state after a call *)
Lemma applied_back k o n e' : kinv k -> block_at (fst (exec k o)) 0 n = Some e' -> applied e' = true ->
  (exists e, block_at k 0 n = Some e /\ applied e = true) \/
  exists r x, o = OReceived r /\ snd (exec k o) = RStored x /\ b_shard (r_id r) = 0 /\ b_seqno (r_id r) = n.
Proof.
  intros Hk E Ha. destruct (block_at k 0 n) as [e|] eqn:E0.
  - destruct (applied e) eqn:Ea; [left; exists e; auto|].
    destruct o; cbn [exec fst snd] in *; try (exfalso; assert (e' = e) by congruence; congruence).
    + exfalso. destruct (collated_ok k c tops anchor Hk) as (_ & _ & Ho & _ & Hr). cbn zeta in Hr.
      assert (D : (0, n) = (b_shard (c_id c), b_seqno (c_id c)) \/ (0, n) <> (b_shard (c_id c), b_seqno (c_id c)))
        by (destruct (key_dec (0, n) (b_shard (c_id c), b_seqno (c_id c))); auto).
      destruct D as [D|D]; [|rewrite (Ho _ _ D) in E; congruence]. injection D as D1 D2.
      rewrite <- D1, <- D2 in Hr.
      destruct (snd (do_collated k c tops anchor)) as [| |x| | | | | |]; try contradiction.
      * destruct Hr as (_ & Hr & _). rewrite Hr in E. congruence.
      * destruct Hr as (Hr & _). specialize (Hr _ E0). unfold is_received in Hr. unfold applied in Ea.
        destruct (e_data e); congruence.
    + destruct (N.lt_ge_cases (r_ref r) (k_zs k)) as [L|L].
      { rewrite received_old in E by exact L. cbn [fst] in E. congruence. }
      destruct (received_ok k r Hk L) as (_ & _ & Ho & _ & Hr). cbn zeta in Hr.
      destruct (key_dec (0, n) (b_shard (r_id r), b_seqno (r_id r))) as [D|D];
        [|rewrite (Ho _ _ D) in E; congruence]. injection D as D1 D2.
      destruct (snd (do_received k r)) as [| |x| | | | | |]; try contradiction.
      * right. exists r, x. auto.
      * destruct Hr as (_ & Hr & _). rewrite Hr in E. congruence.
    + exfalso. destruct (validated_ok k id complete Hk) as (_ & _ & _ & _ & _ & Ho & Hr).
      destruct (key_dec (0, n) (0, b_seqno id)) as [D|D]; [|rewrite (Ho _ _ D) in E; congruence].
      injection D as D. subst n. destruct (snd (do_validated k id complete)) as [| | | |st| | | |]; try contradiction.
      destruct st as [st|]; [|rewrite Hr in E; congruence].
      destruct Hr as (e2 & c & sg & st0 & A1 & A2 & _ & _ & A5). rewrite A5 in E. injection E as <-.
      cbn in Ha. discriminate.
    + exfalso. apply pop_ok in E; [congruence|exact Hk].
    + exfalso. apply extract_ok in E; [congruence|exact Hk].
    + exfalso. destruct (set_gc_ok keys k Hk) as (_ & Hb & _). cbn zeta in Hb. rewrite Hb in E. congruence.
    + exfalso. apply gc_ok in E; [congruence|exact Hk].
    + exfalso. apply remove_next_ok in E; [congruence|exact Hk].
    + exfalso. destruct (tops_ok k mc Hk) as (_ & Hb & _). cbn zeta in Hb. rewrite Hb in E. congruence.
    + exfalso. destruct (reset_ok k Hk) as (_ & Hb & _). cbn zeta in Hb. rewrite Hb in E. congruence.
  - destruct o; cbn [exec fst snd] in *; try congruence.
    + exfalso. destruct (collated_ok k c tops anchor Hk) as (_ & _ & Ho & _ & Hr). cbn zeta in Hr.
      destruct (key_dec (0, n) (b_shard (c_id c), b_seqno (c_id c))) as [D|D];
        [|rewrite (Ho _ _ D) in E; congruence]. injection D as D1 D2. rewrite <- D1, <- D2 in Hr.
      destruct (snd (do_collated k c tops anchor)) as [| |x| | | | | |]; try contradiction.
      * destruct Hr as (_ & Hr & _). rewrite Hr in E. congruence.
      * destruct Hr as (_ & Hm & Hb & H4 & H5 & _). destruct (x_mismatch x); [rewrite H4 in E; congruence|].
        destruct (H5 eq_refl) as (e2 & B1 & _ & _ & B4). assert (e2 = e') by congruence. subst e2.
        destruct (x_both x). { destruct Hb as [Hb _]. destruct (Hb eq_refl) as (e3 & B5 & _). congruence. }
        rewrite (B4 eq_refl) in Ha. discriminate.
    + destruct (N.lt_ge_cases (r_ref r) (k_zs k)) as [L|L].
      { rewrite received_old in E by exact L. cbn [fst] in E. congruence. }
      destruct (received_ok k r Hk L) as (_ & _ & Ho & _ & Hr). cbn zeta in Hr.
      destruct (key_dec (0, n) (b_shard (r_id r), b_seqno (r_id r))) as [D|D];
        [|rewrite (Ho _ _ D) in E; congruence]. injection D as D1 D2.
      destruct (snd (do_received k r)) as [| |x| | | | | |]; try contradiction.
      * right. exists r, x. auto.
      * destruct Hr as (_ & Hr & _). rewrite Hr in E. congruence.
    + exfalso. destruct (validated_ok k id complete Hk) as (_ & _ & _ & _ & _ & Ho & Hr).
      destruct (key_dec (0, n) (0, b_seqno id)) as [D|D]; [|rewrite (Ho _ _ D) in E; congruence].
      injection D as D. subst n. destruct (snd (do_validated k id complete)) as [| | | |st| | | |]; try contradiction.
      destruct st as [st|]; [|rewrite Hr in E; congruence].
      destruct Hr as (e2 & c & sg & st0 & A1 & _). congruence.
    + exfalso. apply pop_ok in E; [congruence|exact Hk].
    + exfalso. apply extract_ok in E; [congruence|exact Hk].
    + exfalso. destruct (set_gc_ok keys k Hk) as (_ & Hb & _). cbn zeta in Hb. rewrite Hb in E. congruence.
    + exfalso. apply gc_ok in E; [congruence|exact Hk].
    + exfalso. apply remove_next_ok in E; [congruence|exact Hk].
    + exfalso. destruct (tops_ok k mc Hk) as (_ & Hb & _). cbn zeta in Hb. rewrite Hb in E. congruence.
    + exfalso. destruct (reset_ok k Hk) as (_ & Hb & _). cbn zeta in Hb. rewrite Hb in E. congruence.
Qed.

Lemma gc_field k o : kinv k ->
  g_gc (k_masters (fst (exec k o))) = g_gc (k_masters k) \/ exists keys, o = OSetGc keys.
Proof.
  intros Hk. destruct o; cbn [exec fst]; try (right; eexists; reflexivity); left.
  - now apply collated_ok.
  - destruct (N.lt_ge_cases (r_ref r) (k_zs k)) as [L|L]; [now rewrite received_old|]. now apply received_ok.
  - now apply validated_ok.
  - reflexivity.
  - pose proof (exec_pop k from Hk) as P. cbn zeta in P.
    destruct (snd (do_pop k from)) as [| | | | | |m shs b| |]; try contradiction.
    + destruct P as [-> _]. reflexivity.
    + destruct P as (_ & _ & _ & _ & _ & -> & _). reflexivity.
  - pose proof (exec_extract k id Hk) as P. cbn zeta in P.
    destruct (snd (do_extract k id)) as [| | | | | |m shs b| |]; try contradiction.
    + destruct P as [-> _]. reflexivity.
    + destruct P as (_ & _ & -> & _). apply extracted_fields.
  - unfold do_gc. cbn. destruct (g_gc (k_masters k)) eqn:E; [reflexivity|exact E].
  - apply remove_next_gc.
  - destruct (tops_ok k mc Hk) as (_ & _ & _ & Em). cbn zeta in Em. now rewrite Em.
  - reflexivity.
Qed.

(** a waiting block stays held during an orderly call, unless it stops waiting *)
Lemma waiting_kept zs h k o n e : hist zs h k -> oinv (pending h) k -> keeps_waiting h k o ->
  In n (pending h) -> In n (pending ((o, snd (exec k o)) :: h)) ->
  block_at k 0 n = Some e -> applied e = true -> block_at (fst (exec k o)) 0 n <> None.
Proof.
  intros H HO Hw Hp Hp' E Ha. pose proof (hist_inv _ _ _ H) as [Hk _].
  assert (HG : forall m shs l, snd (exec k o) = RGraph m shs l -> n <> b_seqno (e_id m) ->
    block_at (fst (exec k o)) 0 n <> None).
  { intros m shs l Eo Hn. destruct (taken_leaves zs h k o m shs l H Eo) as (_ & _ & T & _).
    rewrite T by exact Hn. congruence. }
  destruct o; cbn [exec fst snd pending] in *; try congruence.
  - destruct (collated_ok k c tops anchor Hk) as (_ & _ & Ho & _ & Hr). cbn zeta in Hr.
    destruct (key_dec (0, n) (b_shard (c_id c), b_seqno (c_id c))) as [D|D];
      [|rewrite (Ho _ _ D); congruence]. injection D as D1 D2. rewrite <- D1, <- D2 in Hr.
    destruct (snd (do_collated k c tops anchor)) as [| |x| | | | | |]; try contradiction.
    + destruct Hr as (_ & Hr & _). rewrite Hr. congruence.
    + destruct Hr as (_ & _ & _ & H4 & H5 & _). destruct (x_mismatch x); [rewrite H4; congruence|].
      destruct (H5 eq_refl) as (e2 & B1 & _). congruence.
  - destruct (N.lt_ge_cases (r_ref r) (k_zs k)) as [L|L]; [rewrite received_old by exact L; cbn [fst]; congruence|].
    destruct (received_ok k r Hk L) as (_ & _ & Ho & _ & Hr). cbn zeta in Hr.
    destruct (key_dec (0, n) (b_shard (r_id r), b_seqno (r_id r))) as [D|D];
      [|rewrite (Ho _ _ D); congruence]. injection D as D1 D2. rewrite <- D1, <- D2 in Hr.
    destruct (snd (do_received k r)) as [| |x| | | | | |]; try contradiction.
    + destruct Hr as (_ & _ & _ & (e2 & B1 & _) & _). congruence.
    + destruct Hr as (_ & Hr & _). rewrite Hr. congruence.
  - destruct (validated_ok k id complete Hk) as (_ & _ & _ & _ & _ & Ho & Hr).
    destruct (key_dec (0, n) (0, b_seqno id)) as [D|D]; [|rewrite (Ho _ _ D); congruence].
    injection D as D. subst n. destruct (snd (do_validated k id complete)) as [| | | |st| | | |]; try contradiction.
    destruct st as [st|]; [|rewrite Hr; congruence].
    destruct Hr as (e2 & c & sg & st0 & _ & _ & _ & _ & A5). congruence.
  - pose proof (exec_pop k from Hk) as P. cbn zeta in P.
    destruct (snd (do_pop k from)) as [| | | | | |m shs b| |] eqn:Eo; try contradiction.
    + destruct P as [-> _]. congruence.
    + apply (HG m shs b eq_refl). intros ->. apply filter_In in Hp' as [_ L]. apply N.ltb_lt in L. lia.
  - pose proof (exec_extract k id Hk) as P. cbn zeta in P.
    destruct (snd (do_extract k id)) as [| | | | | |m shs b| |] eqn:Eo; try contradiction.
    + destruct P as [-> _]. congruence.
    + apply (HG m shs b eq_refl). intros Q. destruct P as (P1 & P2 & _). rewrite <- P1, <- Q, E in P2.
      injection P2 as <-. rewrite Ha in Hp'. apply filter_In in Hp' as [_ L]. apply N.ltb_lt in L. lia.
  - destruct (set_gc_ok keys k Hk) as (_ & Hb & _). cbn zeta in Hb. rewrite Hb. congruence.
  - rewrite gc_block by exact Hk. destruct (g_gc (k_masters k)) as [x|] eqn:Eg; [|congruence].
    destruct HO as [_ _ Hg]. destruct (Hg x Eg) as [_ L]. specialize (L n Hp). apply N.leb_le in L.
    rewrite L. congruence.
  - rewrite (remove_next_block keys k n e Hk E); [congruence|]. intros x Hx L. exact (Hw x n e Hx Hp L E).
  - destruct (tops_ok k mc Hk) as (_ & Hb & _). cbn zeta in Hb. rewrite Hb. congruence.
  - destruct (reset_ok k Hk) as (_ & Hb & _). cbn zeta in Hb. rewrite Hb. congruence.
Qed.

Lemma orderly_inv zs h k : orderly zs h k -> oinv (pending h) k.
Proof.
  induction 1 as [|h k o Hord IH Hw Hkw].
  { constructor; [intros n []|intros n e a b E; discriminate|intros n E; discriminate]. }
  pose proof (orderly_hist _ _ _ Hord) as H. pose proof (hist_inv _ _ _ H) as [Hk _].
  pose proof (range_inv _ _ _ H) as [Hsub HR].
  pose proof (pending_case k o h Hk) as C. set (p' := pending ((o, snd (exec k o)) :: h)) in *.
  assert (Hnew : forall n, In n p' -> In n (pending h) \/ ~ not_newer k 0 n).
  { intros n Hn. destruct C as [(A & _)|[(x & A & _ & B & _)|(x & A & _)]]; rewrite A in Hn.
    - now left.
    - destruct Hn as [<-|Hn]; [now right|now left].
    - left. now apply filter_In in Hn. }
  assert (Hmono : forall n, not_newer k 0 n -> not_newer (fst (exec k o)) 0 n).
  { intros n (y & Ey & Ly). destruct (exec_ok k o Hk) as [_ Hh]. destruct (Hh 0 _ Ey) as (y' & Ey' & Ly').
    exists y'. split; [exact Ey'|lia]. }
  assert (Hgt : forall n x, not_newer k 0 x -> ~ not_newer k 0 n -> x < n).
  { intros n x (y & Ey & Ly) Hn. destruct (N.lt_ge_cases x n) as [L|L]; [exact L|]. exfalso.
    apply Hn. exists y. split; [exact Ey|lia]. }
  constructor.
  - intros n Hn. destruct (in_dec N.eq_dec n (pending h)) as [Hp|Hp].
    + destruct (o_held _ _ IH n Hp) as (e & Ee & Ea).
      pose proof (waiting_kept zs h k o n e H IH Hkw Hp Hn Ee Ea) as Hs.
      destruct (block_at (fst (exec k o)) 0 n) as [e'|] eqn:E'; [|congruence]. exists e'. split; [reflexivity|].
      destruct (step_block k o 0 n e e' Hk Ee E') as [[_ J]|[J _]]; [auto|congruence].
    + assert (Hr : exists r x, o = OReceived r /\ snd (exec k o) = RStored x /\ b_shard (r_id r) = 0 /\ b_seqno (r_id r) = n).
      { subst p'. destruct o; cbn [pending] in Hn; try contradiction.
        - destruct (snd (exec k (OCollated c tops anchor))); try contradiction.
          destruct (_ && _); [apply filter_In in Hn as [Hn _]|]; contradiction.
        - destruct (snd (exec k (OReceived r))) as [| |x| | | | | |] eqn:Eo; try contradiction.
          destruct (is_mc (b_shard (r_id r))) eqn:Es; [|contradiction].
          destruct Hn as [Hn|Hn]; [|contradiction]. exists r, x. apply is_mc_eq in Es. auto.
        - destruct (snd (exec k (OPop from))); try contradiction. apply filter_In in Hn as [Hn _]. contradiction.
        - destruct (snd (exec k (OExtract id))); try contradiction.
          destruct (applied m); [apply filter_In in Hn as [Hn _]|]; contradiction. }
      destruct Hr as (r & x & -> & Eo & E1 & E2). cbn [exec] in *.
      destruct (N.lt_ge_cases (r_ref r) (k_zs k)) as [L|L]; [rewrite received_old in Eo by exact L; discriminate|].
      destruct (received_ok k r Hk L) as (_ & _ & _ & _ & Hr). cbn zeta in Hr. rewrite Eo, E1, E2 in Hr.
      destruct Hr as (_ & _ & _ & (e & B1 & _ & B3) & _). exists e. auto.
  - intros n e' a b E' Ha Hn Ewt.
    destruct (applied_back k o n e' Hk E' Ha) as [(e & Ee & Ea)|(r & x & Q1 & Q2 & Q3 & Q4)].
    + pose proof (applied_below_known zs h k 0 n e H Ee Ea) as Hbk.
      destruct C as [(A & B & _)|[(x & A & _ & B & D)|(x & A & _ & D)]]; rewrite A in Hn.
      * rewrite B in Ewt. apply (o_else _ _ IH n e a b Ee Ea Hn Ewt).
      * rewrite D in Ewt. assert (Hn2 : ~ In n (pending h)) by (intros Q; apply Hn; now right).
        destruct (waiting k) as [[a0 b0]|] eqn:Ew.
        -- injection Ewt as <- _. apply (o_else _ _ IH n e a0 b0 Ee Ea Hn2 Ew).
        -- injection Ewt as <- _. now apply Hgt.
      * rewrite D in Ewt. destruct (waiting k) as [[a0 b0]|] eqn:Ew; [|discriminate].
        destruct (in_dec N.eq_dec n (pending h)) as [Hp|Hp].
        -- destruct HR as (_ & _ & R & _). specialize (R n Hp).
           assert (Lx : n <= x).
           { destruct (N.le_gt_cases n x) as [L|L]; [exact L|]. exfalso. apply Hn. apply filter_In.
             split; [exact Hp|]. now apply N.ltb_lt. }
           assert (La : (a0 <=? x) = true) by (apply N.leb_le; lia). rewrite La in Ewt.
           destruct (x + 1 <=? b0); [|discriminate]. injection Ewt as <- _. lia.
        -- pose proof (o_else _ _ IH n e a0 b0 Ee Ea Hp Ew) as L.
           destruct (N.leb_spec a0 x) as [L2|L2].
           ++ destruct (x + 1 <=? b0); [|discriminate]. injection Ewt as <- _. lia.
           ++ injection Ewt as <- _. exact L.
    + exfalso. apply Hn. subst o p'. cbn [pending]. rewrite Q2, Q3. cbn. left. exact Q4.
  - intros n Eg. destruct (gc_field k o Hk) as [Q|[keys ->]].
    + rewrite Q in Eg. destruct (o_gc _ _ IH n Eg) as [G1 G2]. split; [auto|].
      intros x Hx. destruct (Hnew x Hx) as [Hp|Hp]; [auto|]. apply N.lt_le_incl. now apply Hgt.
    + assert (G : not_newer k 0 n /\ forall x, In x (pending h) -> n <= x).
      { cbn [exec fst] in Eg. apply set_gc_boundary in Eg as [Eg|Eg]; [apply (o_gc _ _ IH n Eg)|].
        apply Hkw, Eg. }
      destruct G as [G1 G2]. split; [auto|].
      intros x Hx. destruct (Hnew x Hx) as [Hp|Hp]; [auto|]. apply N.lt_le_incl. now apply Hgt.
Qed.

(** In an orderly history every waiting block is in the cache, as a block known to be on chain. *)
Theorem waiting_blocks_are_held zs h k n : orderly zs h k -> In n (pending h) ->
  exists e, block_at k 0 n = Some e /\ applied e = true.
Proof. intros H. apply (o_held _ _ (orderly_inv _ _ _ H)). Qed.

(** And taking out from the start of the reported range never fails: it takes the lowest waiting
    block, and the flag says whether it is the only one. *)
Theorem range_start_pops zs h k a b : orderly zs h k -> waiting k = Some (a, b) ->
  exists m shs last, snd (exec k (OPop a)) = RGraph m shs last /\
    In (b_seqno (e_id m)) (pending h) /\
    (forall n, In n (pending h) -> b_seqno (e_id m) <= n) /\
    (last = true <-> b_seqno (e_id m) = b) /\
    (forall n, In n (pending ((OPop a, snd (exec k (OPop a))) :: h)) <->
       In n (pending h) /\ n <> b_seqno (e_id m)).
Proof.
  intros Hord Ew. pose proof (orderly_hist _ _ _ Hord) as H. pose proof (orderly_inv _ _ _ Hord) as HO.
  pose proof (range_covers_waiting _ _ _ H) as R. rewrite Ew in R. destruct R as (R1 & R2 & R3).
  destruct (o_held _ _ HO b R2) as (eb & Eb & Ab).
  pose proof (pop_first zs h k a H) as P.
  destruct (snd (exec k (OPop a))) as [| | | | | |m shs last| |] eqn:Eo; try contradiction.
  { exfalso. destruct P as [_ P]. specialize (P b eb R1 Eb). congruence. }
  cbn zeta in P. destruct P as (P1 & P2 & P3 & P4 & P5).
  assert (Hall : forall n e, a <= n -> block_at k 0 n = Some e -> applied e = true -> In n (pending h)).
  { intros n e L E Ha. destruct (in_dec N.eq_dec n (pending h)) as [Hp|Hp]; [exact Hp|]. exfalso.
    pose proof (o_else _ _ HO n e a b E Ha Hp Ew). lia. }
  assert (Hmin : forall n, In n (pending h) -> b_seqno (e_id m) <= n).
  { intros n Hn. destruct (o_held _ _ HO n Hn) as (e & Ee & Ea). apply (P4 n e); auto. now apply R3. }
  exists m, shs, last. split; [reflexivity|]. split; [eauto|]. split; [exact Hmin|]. split.
  - rewrite P5. split.
    + intros Hl. destruct (N.eq_dec (b_seqno (e_id m)) b) as [Q|Q]; [exact Q|]. exfalso.
      assert (L : b_seqno (e_id m) < b) by (specialize (Hmin b R2); lia).
      specialize (Hl b eb L Eb). congruence.
    + intros Q n' e' L E'. destruct (applied e') eqn:Ea; [|reflexivity]. exfalso.
      assert (Hp : In n' (pending h)) by (apply (Hall n' e'); auto; lia).
      specialize (R3 n' Hp). lia.
  - intros n. cbn [pending]. rewrite filter_In, N.ltb_lt. split.
    + intros [A B]. split; [exact A|lia].
    + intros [A B]. split; [exact A|]. specialize (Hmin n A). lia.
Qed.
