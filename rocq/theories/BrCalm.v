(** In a calm broadcast every peer is in one state. *)
From Coq Require Import List Bool NArith Lia ZArith ZifyN ZifyNat ZifyBool Permutation.
From Verif Require Import PsModel PsThms PsPeers PeerCountModel BrModel BrInv BrThms BrMore BrEnd BrAsk.
Import ListNotations.
Local Open Scope N_scope.

Definition is_retry (e : event) : bool := match e with ERetry => true | _ => false end.
Definition retries (l : list event) : N := N.of_nat (length (filter is_retry l)).
Lemma retries_snoc l e : retries (l ++ [e]) = retries l + (if is_retry e then 1 else 0).
Proof. unfold retries. rewrite filter_app, app_length. cbn [filter]. destruct (is_retry e); cbn [length]; lia. Qed.

(** Nobody comes online during the broadcast and the counters of attempts do not wrap. *)
Definition calm (l : list event) : Prop :=
  (forall p, ~ In (EUpdate p true) l) /\ ticks l < 256 /\ retries l < 255.

Definition signed (y : sys) (p : peer) : Prop := In p (map fst (b_sigs (y_bc y))) \/ In p (map fst (gathered y)).

Record xinv (y : sys) : Prop := {
  x_in : forall p, In p (b_inflight (y_bc y)) -> ~ In p (b_rej (y_bc y)) /\ ~ signed y p;
  x_sp : forall p, In p (b_speers (y_bc y)) -> ~ In p (b_rej (y_bc y)) /\ ~ signed y p;
  x_rj : forall p, In p (b_rej (y_bc y)) -> ~ signed y p }.

Lemma xinv_same y z : y_bc z = y_bc y -> y_evidence z = y_evidence y -> xinv y -> xinv z.
Proof. intros A B [X1 X2 X3]. constructor; unfold signed, gathered in *; rewrite A, B; assumption. Qed.
Lemma xinv_finish y : y_evidence y = None -> xinv y -> xinv (finish y).
Proof.
  intros EV [X1 X2 X3]. unfold signed, gathered in *. rewrite EV in *.
  constructor; unfold signed, gathered; cbn [finish y_bc y_evidence b_inflight b_speers b_rej b_sigs map In]; intros p H.
  - destruct (X1 p H). tauto.
  - destruct (X2 p H). tauto.
  - specialize (X3 p H). tauto.
Qed.

(** one peer moves *)
Lemma xinv_move v y s q : xinv y -> In q (b_inflight (y_bc y)) -> local v (y_bc y) s q ->
  ((In q (b_inflight s) -> ~ In q (b_rej s) /\ ~ In q (map fst (b_sigs s))) /\
   (In q (b_speers s) -> ~ In q (b_rej s) /\ ~ In q (map fst (b_sigs s))) /\
   (In q (b_rej s) -> ~ In q (map fst (b_sigs s)))) -> xinv (with_bc y s).
Proof.
  intros [X1 X2 X3] QI [L1 L2 L3] (M1 & M2 & M3). destruct (X1 q QI) as [_ NG].
  assert (SG : forall p, signed (with_bc y s) p -> (p <> q -> signed y p) /\ (p = q -> In q (map fst (b_sigs s)))).
  { intros p H. unfold signed, gathered in *. cbn [with_bc y_bc y_evidence] in H. split.
    - intros D. destruct (L1 p D) as (_ & _ & _ & Q4). destruct (y_evidence y); rewrite Q4 in H; exact H.
    - intros ->. destruct H as [H|H]; [exact H|]. destruct (y_evidence y); [exfalso; apply NG; auto|exact H]. }
  constructor; cbn [with_bc y_bc]; intros p H.
  - destruct (N.eq_dec p q) as [D|D].
    + subst p. destruct (M1 H) as [Q1 Q2]. split; [exact Q1|]. intros W. apply Q2. exact (proj2 (SG q W) eq_refl).
    + destruct (L1 p D) as (Q1 & Q2 & Q3 & Q4). rewrite Q1 in H. destruct (X1 p H) as [W1 W2]. rewrite Q3. split; [exact W1|]. intros W. apply W2. exact (proj1 (SG p W) D).
  - destruct (N.eq_dec p q) as [D|D].
    + subst p. destruct (M2 H) as [Q1 Q2]. split; [exact Q1|]. intros W. apply Q2. exact (proj2 (SG q W) eq_refl).
    + destruct (L1 p D) as (Q1 & Q2 & Q3 & Q4). rewrite Q2 in H. destruct (X2 p H) as [W1 W2]. rewrite Q3. split; [exact W1|]. intros W. apply W2. exact (proj1 (SG p W) D).
  - destruct (N.eq_dec p q) as [D|D].
    + subst p. intros W. apply (M3 H). exact (proj2 (SG q W) eq_refl).
    + destruct (L1 p D) as (Q1 & Q2 & Q3 & Q4). rewrite Q3 in H. intros W. apply (X3 p H). exact (proj1 (SG p W) D).
Qed.

Lemma xinv_attempt v a y s : NoDup (v_signers v) -> binv v (y_bc y) -> b_bpeers (y_bc y) = [] -> match_attempt v a (y_bc y) = Some s ->
  1 <= a -> xinv y -> xinv (with_bc y s).
Proof.
  intros NS B BE M A [X1 X2 X3]. destruct (attempt_cases v a _ s NS B BE M) as (I' & [(C & _)|[(C & ->)|(C & SE)]]); [lia| |].
  - constructor; assumption.
  - pose proof SE as [T1 T2 T3 T4 T5 T6 T7]. cbn [b_removed b_inflight b_rej b_sigs b_bpeers b_speers b_bfut b_sfut] in *.
    assert (SG : forall p, signed (with_bc y s) p <-> signed y p).
    { intros p. unfold signed, gathered. cbn [with_bc y_bc y_evidence]. rewrite T3. tauto. }
    assert (INF : forall p, In p (b_inflight s) -> In p (b_inflight (y_bc y)) \/ In p (b_speers (y_bc y))).
    { intros p H. apply (i_in _ _ I') in H as [H|H].
      - rewrite T6 in H. left. apply (i_in _ _ B). auto.
      - unfold waiting in H. apply in_map_iff in H as ((x & b) & EX & H). cbn [fst] in EX. subst x. apply T7 in H as [H|(_ & H & _)]; [|auto].
        left. apply (i_in _ _ B). right. exact (sfut_waiting _ _ _ H). }
    constructor; cbn [with_bc y_bc]; intros p H.
    + rewrite T2, SG. destruct (INF p H) as [Q|Q]; auto.
    + rewrite T4 in H. destruct H.
    + rewrite SG. apply X3. rewrite <- T2. exact H.
Qed.

Lemma runs_xinv v cur l y : NoDup (v_signers v) -> runs v cur round_start l y -> calm l ->
  xinv y /\ y_attempt y = ticks l /\ (y_unseen y = true -> 1 <= ticks l) /\
  (match y_phase y with PCont => 1 <= y_retry y /\ y_retry y <= 1 + retries l | _ => True end).
Proof.
  intros NS R. induction R as [|l y e z R IH EN ST].
  - intros _. split; [constructor; intros p []|]. split; [reflexivity|]. split; [discriminate|exact Logic.I].
  - intros (CU & CT & CR). rewrite ticks_snoc in CT. rewrite retries_snoc in CR.
    destruct IH as (X & AT & UN & RT). { repeat split; [intros p H; apply (CU p); apply in_snoc_l; exact H| |]; lia. }
    pose proof (runs_yinv v cur _ l y NS (start_yinv v) R) as [B E _ _]. pose proof (h_early _ _ _ (runs_hist v cur l y NS R)) as EA.
    rewrite ticks_snoc, retries_snoc.
    destruct e as [rs| | | | |con tka| | |q st|q r|q a r| |]; cbn [step enabled is_tick is_retry] in *.
    + destruct (send_all_ok v (bc_new v (nodup N.eq_dec rs)) (new_binv v _ (NoDup_nodup N.eq_dec rs))) as (s & ES & IS & [T1 T2 T3 T4 T5 T6 T7]).
      rewrite ES in ST. injection ST as <-. cbn [y_attempt y_unseen y_phase]. split; [|rewrite ?N.add_0_r; auto].
      assert (EE : y_evidence y = None) by (unfold early in EA; destruct (y_phase y); congruence).
      cbn [bc_new b_rej b_sigs b_speers] in *.
      constructor; unfold signed, gathered; cbn [y_bc y_evidence]; rewrite EE, T3, ?T2, ?T4; intros p H; cbn [map In]; tauto.
    + injection ST as <-. cbn [y_attempt y_unseen y_phase]. split; [eapply xinv_same; [..|exact X]; reflexivity|rewrite N.add_0_r; auto].
    + injection ST as <-. destruct (y_ok y); cbn [stop y_attempt y_unseen y_phase y_retry]; (split; [eapply xinv_same; [..|exact X]; reflexivity|rewrite !N.add_0_r; auto]).
    + rewrite !N.add_0_r. destruct (y_signal y) as [[|]|]; injection ST as <-; try destruct (y_includes y); cbn [stop y_attempt y_unseen y_phase y_retry]; (split; [eapply xinv_same; [..|exact X]; reflexivity|auto]).
    + injection ST as <-. rewrite !N.add_0_r in *.
      pose proof (runs_ginv v cur l y NS R) as G.
      assert (IO : y_includes y && y_ok y = false).
      { destruct (y_includes y) eqn:Y1; [|reflexivity]. destruct (y_ok y) eqn:Y2; [|reflexivity]. exfalso. unfold running in EN. destruct (y_end y) eqn:YE; [discriminate|].
        exact (g_done _ _ _ _ G Y1 Y2 YE). }
      rewrite IO. cbn [y_attempt y_unseen y_phase y_retry]. split; [eapply xinv_same; [..|exact X]; reflexivity|].
      split; [rewrite AT; apply N.mod_small; lia|]. split; [lia|exact RT].
    + injection ST as <-. rewrite !N.add_0_r. destruct (_ || _); cbn [stop y_attempt y_unseen y_phase y_retry]; (split; [eapply xinv_same; [..|exact X]; reflexivity|auto]).
    + apply andb_true_iff in EN as [EN UY]. rewrite !N.add_0_r.
      assert (PR : y_phase y = PRun) by (unfold is_run in EN; destruct (y_phase y); congruence).
      assert (AC : active y = true) by (unfold active; rewrite PR; reflexivity).
      assert (EE : y_evidence y = None) by (unfold early in EA; rewrite PR in EA; exact EA).
      unfold should_finish in ST. destruct (_ <=? _).
      * injection ST as <-. cbn [finish send seen y_attempt y_unseen y_phase]. split; [|split; [exact AT|split; [discriminate|exact Logic.I]]].
        apply xinv_finish; [exact EE|]. eapply xinv_same; [..|exact X]; reflexivity.
      * unfold on_bc in ST. destruct (match_attempt _ _ _) as [s|] eqn:M in ST; [|discriminate]. injection ST as <-.
        assert (M' : match_attempt v (y_attempt y) (y_bc y) = Some s) by (rewrite <- M; destruct ((v_min v <=? _) && _); reflexivity).
        pose proof (xinv_attempt v _ y s NS B (E AC) M' ltac:(rewrite AT; auto) X) as X'.
        destruct ((v_min v <=? _) && _); cbn [with_bc send seen y_attempt y_unseen y_phase]; rewrite PR;
          (split; [eapply xinv_same; [..|exact X']; reflexivity|split; [exact AT|split; [discriminate|exact Logic.I]]]).
    + injection ST as <-. rewrite !N.add_0_r. apply andb_true_iff in EN as [EN _]. apply andb_true_iff in EN as [EN _].
      assert (EE : y_evidence y = None) by (unfold is_run in EN; unfold early in EA; destruct (y_phase y); congruence).
      cbn [finish y_attempt y_unseen y_phase]. split; [apply xinv_finish; assumption|auto].
    + rewrite !N.add_0_r. destruct st; [exfalso; apply (CU q); apply snoc_in; auto|]. unfold on_bc in ST. cbn [match_peer_update] in ST. injection ST as <-.
      cbn [with_bc y_attempt y_unseen y_phase y_retry]. split; [|auto]. destruct X as [X1 X2 X3]. constructor; assumption.
    + rewrite !N.add_0_r. apply andb_true_iff in EN as [AC EN]. apply mem_In in EN.
      unfold on_bc in ST. destruct (match_broadcast_result _ _ _ _) as [s|] eqn:M; [|discriminate]. injection ST as <-.
      cbn [with_bc y_attempt y_unseen y_phase y_retry]. split; [|auto].
      destruct (bcast_local v (y_bc y) q r s B (E AC) EN M) as (L & _ & _ & SG & K).
      assert (QI : In q (b_inflight (y_bc y))) by (apply (i_in _ _ B); auto).
      destruct (x_in _ X q QI) as [NR NG]. destruct (K NR) as [K1 K2].
      assert (NS' : ~ In q (map fst (b_sigs s))) by (rewrite SG; intros W; apply NG; left; exact W).
      apply (xinv_move v y s q X QI L). split; [|split]; [intros W; split; [intros W2; destruct (K1 W2); contradiction|exact NS']|intros W; split; [intros W2; destruct (K1 W2); contradiction|exact NS']|auto].
    + rewrite !N.add_0_r. apply andb_true_iff in EN as [AC EN]. apply sig_event in EN. apply sfut_waiting in EN.
      unfold on_bc in ST. destruct (match_signature_result _ _ _ _ _) as [s|] eqn:M; [|discriminate]. injection ST as <-.
      cbn [with_bc y_attempt y_unseen y_phase y_retry]. split; [|auto].
      destruct (sig_local v (y_bc y) q a r s B (E AC) EN M) as (L & _ & K & _).
      assert (QI : In q (b_inflight (y_bc y))) by (apply (i_in _ _ B); auto).
      destruct (x_in _ X q QI) as [NR NG]. destruct (K NR) as (K1 & K2 & K3). { intros W. apply NG. left. exact W. }
      apply (xinv_move v y s q X QI L). split; [exact K1|]. split; [|exact K3]. intros W. destruct (K2 W) as (_ & W1 & W2). auto.
    + rewrite !N.add_0_r. destruct (send_all_ok v (y_bc y) B) as (s & ES & IS & [T1 T2 T3 T4 T5 T6 T7]). rewrite ES in ST. injection ST as <-.
      assert (PE : y_phase y = PEnd) by (destruct (y_phase y); congruence).
      cbn [y_attempt y_unseen y_phase y_retry]. split; [|split; [exact AT|split; [exact UN|lia]]].
      assert (BE : b_bpeers (y_bc y) = []).
      { exact (no_bpeers v cur l y NS R). }
      rewrite BE in T7. cbn [b_removed b_inflight b_rej b_sigs b_bpeers b_speers b_bfut b_sfut In] in *.
      assert (IN2 : forall x, In x (b_inflight s) -> In x (b_inflight (y_bc y))).
      { intros x. rewrite (i_in _ _ IS), (i_in _ _ B), T7. unfold waiting. rewrite T6. tauto. }
      destruct X as [X1 X2 X3]. constructor; unfold signed, gathered in *; cbn [y_bc y_evidence]; rewrite T3, ?T2, ?T4; auto.
    + rewrite !N.add_0_r in *.
      assert (PC : y_phase y = PCont) by (destruct (y_phase y); congruence).
      assert (AC : active y = true) by (unfold active; rewrite PC; reflexivity).
      rewrite PC in RT. assert (MS : (y_retry y + 1) mod 256 = y_retry y + 1) by (apply N.mod_small; lia).
      destruct (match_attempt _ _ _) as [s|] eqn:M; [|discriminate]. injection ST as <-. rewrite MS in M.
      cbn [y_attempt y_unseen y_phase y_retry]. rewrite PC, MS. split; [|split; [exact AT|split; [exact UN|lia]]].
      pose proof (xinv_attempt v _ y s NS B (E AC) M ltac:(lia) X) as X'. eapply xinv_same; [..|exact X']; reflexivity.
Qed.

(** In a calm broadcast a peer is in one state: a query of ours is on its way to it, or it waits
    for the next attempt, or it rejected the point, or it signed it. *)
Theorem one_state_per_peer v cur l y p : NoDup (v_signers v) -> runs v cur round_start l y -> calm l ->
  (In p (b_bfut (y_bc y)) \/ In p (waiting (y_bc y)) -> ~ In p (b_speers (y_bc y)) /\ ~ In p (b_rej (y_bc y)) /\ ~ In p (map fst (gathered y))) /\
  (In p (b_speers (y_bc y)) -> ~ In p (b_rej (y_bc y)) /\ ~ In p (map fst (gathered y))) /\
  (In p (b_rej (y_bc y)) -> ~ In p (map fst (gathered y))).
Proof.
  intros NS R C. destruct (runs_xinv v cur l y NS R C) as ([X1 X2 X3] & _).
  pose proof (runs_yinv v cur _ l y NS (start_yinv v) R) as [B _ _ _]. unfold signed in *.
  split; [|split].
  - intros H. apply (i_in _ _ B) in H. destruct (X1 p H) as [Q1 Q2]. split; [|tauto]. intros W. exact (i_sp _ _ B p W H).
  - intros H. destruct (X2 p H). tauto.
  - intros H. specialize (X3 p H). tauto.
Qed.

(** In a calm broadcast whose rejections all come from validators of the next round, the author
    among them, signatures and rejections together are at most the others; with 3F+1 validators
    2F signatures rule out a failure. *)
Theorem signatures_rule_out_failure v cur l y : NoDup (v_signers v) -> runs v cur round_start l y -> calm l ->
  In (v_author v) (v_signers v) -> (forall p, In p (b_rej (y_bc y)) -> In p (v_signers v)) ->
  (length (gathered y) + length (b_rej (y_bc y)) + 1 <= length (v_signers v))%nat /\
  (length (v_signers v) = N.to_nat (3 * v_f v + 1) -> 2 * v_f v <= N.of_nat (length (gathered y)) -> nrej y < v_f v + 1).
Proof.
  intros NS R C AS RS. destruct (runs_xinv v cur l y NS R C) as ([X1 X2 X3] & _).
  pose proof (runs_yinv v cur _ l y NS (start_yinv v) R) as [B _ EV EN].
  destruct (author_unknown v cur l y NS R) as [AK AG]; [apply C|].
  assert (GN : NoDup (map fst (gathered y))) by (unfold gathered; destruct (y_evidence y); [exact EN|exact (i_gn _ _ B)]).
  assert (GS : forall p, In p (map fst (gathered y)) -> In p (v_signers v)).
  { intros p H. apply in_map_iff in H as ((x & g) & EX & H). cbn [fst] in EX. subst x. unfold gathered in H.
    destruct (y_evidence y); [exact (proj1 (EV p g H))|exact (proj1 (i_gv _ _ B p g H))]. }
  assert (ND : NoDup (v_author v :: map fst (gathered y) ++ b_rej (y_bc y))).
  { constructor.
    - rewrite in_app_iff. intros [H|H]; [contradiction|]. apply AK. right; right; left. exact H.
    - assert (APP : forall (a b : list peer), NoDup a -> NoDup b -> (forall x, In x a -> ~ In x b) -> NoDup (a ++ b)).
      { intros a b HA HB D. induction HA as [|x a X HA IH]; [exact HB|]. cbn [app]. constructor.
        - rewrite in_app_iff. intros [Q|Q]; [contradiction|]. exact (D x (or_introl eq_refl) Q).
        - apply IH. intros z Z. apply D. right. exact Z. }
      apply APP; [exact GN|exact (i_rn _ _ B)|]. intros x H1 H2. apply (X3 x H2). right. exact H1. }
  assert (LE : (length (v_author v :: map fst (gathered y) ++ b_rej (y_bc y)) <= length (v_signers v))%nat).
  { apply NoDup_incl_length; [exact ND|]. intros x [<-|H]; [exact AS|]. apply in_app_iff in H as [H|H]; auto. }
  cbn [length] in LE. rewrite app_length, map_length in LE. unfold nrej. split; lia.
Qed.
