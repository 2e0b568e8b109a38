(** Who is asked, and when. *)
From Coq Require Import List Bool NArith Lia ZArith ZifyN ZifyNat ZifyBool Permutation.
From Verif Require Import PsModel PsThms PsPeers PeerCountModel BrModel BrInv BrThms BrMore BrEnd.
Import ListNotations.
Local Open Scope N_scope.

(** ** No queries to those who are out *)

Lemma bcast_futures v s q r s' p : binv v s -> match_broadcast_result v s q r = Some s' -> In p (b_removed s) ->
  (In p (b_bfut s') -> In p (b_bfut s)) /\ (forall a, In (p, a) (b_sfut s') -> In (p, a) (b_sfut s)).
Proof.
  intros I E R. pose proof (i_bf _ _ I) as BF. unfold match_broadcast_result in E. destruct (mem q (b_inflight s)); [|discriminate].
  assert (RM : In p (rm1 q (b_bfut s)) -> In p (b_bfut s)) by (intros H; apply rm1_in in H; tauto).
  destruct r; [injection E as <-; cbn; auto|injection E as <-; cbn; auto|].
  unfold request_signature in E. cbn [b_removed b_inflight b_rej b_sigs b_bpeers b_speers b_bfut b_sfut] in E.
  destruct (negb (mem q (b_removed s)) && mem q (v_signers v)) eqn:C; [|injection E as <-; cbn [b_bfut b_sfut]; auto].
  destruct (mem q (del q _)); [discriminate|]. injection E as <-. cbn [b_bfut b_sfut]. split; [exact RM|]. intros a H. apply snoc_in in H as [H|H]; [exact H|].
  injection H as -> ->. apply andb_true_iff in C as [C _]. apply negb_true_iff, mem_no in C. contradiction.
Qed.
Lemma sig_futures v s q a r s' p : binv v s -> match_signature_result v s q a r = Some s' -> In p (b_removed s) ->
  (In p (b_bfut s') -> In p (b_bfut s)) /\ (forall b, In (p, b) (b_sfut s') -> In (p, b) (b_sfut s)).
Proof.
  intros I E R. pose proof (i_sf _ _ I) as SF. unfold match_signature_result in E. destruct (mem q (b_inflight s)); [|discriminate].
  assert (RM : forall b, In (p, b) (rm1s q (b_sfut s)) -> In (p, b) (b_sfut s)) by (intros b H; apply rm1s_in in H; [tauto|exact SF]).
  destruct r.
  - injection E as <-; cbn; auto.
  - injection E as <-; cbn; auto.
  - destruct (mem q (v_signers v)); [|injection E as <-; cbn; auto]. destruct (v_verify v q sig); injection E as <-; cbn; auto.
  - destruct a; [injection E as <-; cbn; auto|]. unfold broadcast in E. cbn [b_removed b_inflight b_rej b_sigs b_bpeers b_speers b_bfut b_sfut] in E.
    destruct (mem q (b_removed s)) eqn:C; [injection E as <-; cbn; auto|]. destruct (mem q (del q _)); [discriminate|]. injection E as <-. cbn [b_bfut b_sfut].
    split; [|exact RM]. intros H. apply snoc_in in H as [H|H]; [exact H|]. subst q. apply mem_no in C. contradiction.
  - injection E as <-; cbn; auto.
  - destruct (mem q (v_signers v)); injection E as <-; cbn; auto.
Qed.
Lemma update_futures s q st s' p : match_peer_update s q st = Some s' -> In p (b_removed s') ->
  (In p (b_bfut s') -> In p (b_bfut s)) /\ (forall b, In (p, b) (b_sfut s') -> In (p, b) (b_sfut s)).
Proof.
  unfold match_peer_update. destruct st; [|intros [= <-] _; cbn; auto].
  destruct (mem q (b_inflight s)) eqn:M; [intros [= <-] _; cbn; auto|]. unfold broadcast. cbn [b_removed b_inflight b_rej b_sigs b_bpeers b_speers b_bfut b_sfut].
  destruct (mem q (del q (b_removed s))) eqn:C; [intros [= <-] _; cbn; auto|]. rewrite M. intros [= <-] R. cbn [b_bfut b_sfut b_removed] in *.
  split; [|auto]. intros H. apply snoc_in in H as [H|H]; [exact H|]. subst q. apply in_del in R. tauto.
Qed.
Lemma attempt_futures v a s s' p : NoDup (v_signers v) -> binv v s -> b_bpeers s = [] -> match_attempt v a s = Some s' -> In p (b_removed s) ->
  (In p (b_bfut s') -> In p (b_bfut s)) /\ (forall b, In (p, b) (b_sfut s') -> In (p, b) (b_sfut s)).
Proof.
  intros NS I BE E R. destruct (attempt_cases v a s s' NS I BE E) as (I' & [(A & [T1 T2 T3 T4 T5 T6 T7])|[(A & S)|(A & [T1 T2 T3 T4 T5 T6 T7])]]);
    cbn [b_removed b_inflight b_rej b_sigs b_bpeers b_speers b_bfut b_sfut] in *.
  - rewrite T6. split; [|intros b []]. intros H. apply T7 in H as [[]|[_ H]]. contradiction.
  - subst s'. auto.
  - rewrite T6. split; [auto|]. intros b H. apply T7 in H as [H|(_ & _ & H & _)]; [exact H|contradiction].
Qed.

Lemma step_futures v cur y e z p : NoDup (v_signers v) -> yinv v y -> enabled y e = true -> step v cur y e = Some z ->
  In p (b_removed (y_bc z)) ->
  (In p (b_bfut (y_bc z)) -> In p (b_bfut (y_bc y))) /\ (forall a, In (p, a) (b_sfut (y_bc z)) -> In (p, a) (b_sfut (y_bc y))).
Proof.
  intros NS I EN ST R. pose proof (step_removed v cur y e z NS I EN ST) as RM. pose proof I as [B E EV EVN].
  destruct e as [rs| | | | |con tka| | |q st|q r|q a r| |]; cbn [step enabled] in *.
  - destruct (send_all_ok v (bc_new v (nodup N.eq_dec rs)) (new_binv v _ (NoDup_nodup N.eq_dec rs))) as (s & ES & IS & [T1 T2 T3 T4 T5 T6 T7]).
    rewrite ES in ST. injection ST as <-. cbn [y_bc bc_new b_removed b_bfut b_sfut] in *. rewrite T6. split; [|intros a []].
    intros H. apply T7 in H as [[]|[_ H]]. rewrite RM in R. contradiction.
  - injection ST as <-. auto.
  - injection ST as <-. destruct (y_ok y); auto.
  - destruct (y_signal y) as [[|]|]; injection ST as <-; try destruct (y_includes y); auto.
  - injection ST as <-. destruct (_ && _); auto.
  - injection ST as <-. destruct (_ || _); auto.
  - apply andb_true_iff in EN as [EN _].
    assert (AC : active y = true) by (unfold is_run in EN; unfold active; destruct (y_phase y); congruence).
    unfold should_finish in ST. destruct (_ <=? _); [injection ST as <-; cbn; auto|]. unfold on_bc in ST.
    destruct (match_attempt _ _ _) as [s|] eqn:M in ST; [|discriminate]. injection ST as <-. cbn [with_bc y_bc] in *.
    assert (M' : match_attempt v (y_attempt y) (y_bc y) = Some s) by (rewrite <- M; destruct ((v_min v <=? _) && _); reflexivity).
    rewrite RM in R. exact (attempt_futures v _ _ _ p NS B (E AC) M' R).
  - injection ST as <-. cbn. auto.
  - unfold on_bc in ST. destruct (match_peer_update _ _ _) as [s|] eqn:M; [|discriminate]. injection ST as <-. exact (update_futures _ _ _ _ p M R).
  - unfold on_bc in ST. destruct (match_broadcast_result _ _ _ _) as [s|] eqn:M; [|discriminate]. injection ST as <-. rewrite RM in R. exact (bcast_futures v _ _ _ _ p B M R).
  - unfold on_bc in ST. destruct (match_signature_result _ _ _ _ _) as [s|] eqn:M; [|discriminate]. injection ST as <-. rewrite RM in R. exact (sig_futures v _ _ _ _ _ p B M R).
  - destruct (send_all_ok v (y_bc y) B) as (s & ES & IS & [T1 T2 T3 T4 T5 T6 T7]). rewrite ES in ST. injection ST as <-.
    cbn [y_bc b_removed b_bfut b_sfut] in *. rewrite T6. split; [|auto]. intros H. apply T7 in H as [H|[_ H]]; [exact H|]. rewrite RM in R. contradiction.
  - assert (AC : active y = true) by (unfold active; destruct (y_phase y); congruence).
    destruct (match_attempt _ _ _) as [s|] eqn:M; [|discriminate]. injection ST as <-. cbn [y_bc] in *. rewrite RM in R. exact (attempt_futures v _ _ _ p NS B (E AC) M R).
Qed.

(** Once a peer is out, and until it is back, no query to it begins. *)
Theorem no_query_to_the_absent v cur l y e z p : NoDup (v_signers v) -> runs v cur round_start l y ->
  enabled y e = true -> step v cur y e = Some z -> out (v_author v) p (l ++ [e]) (p =? v_author v) = true ->
  (In p (b_bfut (y_bc z)) -> In p (b_bfut (y_bc y))) /\
  (forall a, In (p, a) (b_sfut (y_bc z)) -> In (p, a) (b_sfut (y_bc y))).
Proof.
  intros NS R EN ST O. pose proof (runs_yinv v cur _ l y NS (start_yinv v) R) as I.
  assert (R' : runs v cur round_start (l ++ [e]) z) by (econstructor; eauto).
  pose proof (runs_hist v cur _ z NS R') as [HF HR HE HP]. destruct (fresh_phase z) eqn:F.
  - destruct (step_fresh v cur y e z EN ST) as [F1 _]. destruct (F1 F) as (FY & X1 & X2).
    destruct e as [rs| | | | |con tka| | |q st|q r|q a r| |]; cbn [step enabled] in *.
    + destruct (X1 rs eq_refl).
    + injection ST as <-. auto.
    + injection ST as <-. destruct (y_ok y); auto.
    + destruct (y_signal y) as [[|]|]; injection ST as <-; try destruct (y_includes y); auto.
    + injection ST as <-. destruct (_ && _); auto.
    + injection ST as <-. destruct (_ || _); auto.
    + apply andb_true_iff in EN as [EN _]. unfold is_run in EN. unfold fresh_phase in FY. destruct (y_phase y); discriminate.
    + injection ST as <-. cbn. auto.
    + destruct (X2 q st eq_refl).
    + apply andb_true_iff in EN as [EN _]. unfold active in EN. unfold fresh_phase in FY. destruct (y_phase y); discriminate.
    + apply andb_true_iff in EN as [EN _]. unfold active in EN. unfold fresh_phase in FY. destruct (y_phase y); discriminate.
    + unfold fresh_phase in FY. destruct (y_phase y); discriminate.
    + unfold fresh_phase in FY. destruct (y_phase y); discriminate.
  - apply (step_futures v cur y e z p NS I EN ST). apply (HR eq_refl). exact O.
Qed.

(** ** Where a peer can come from *)

Lemma update_kept v s q st s' p : binv v s -> b_bpeers s = [] -> match_peer_update s q st = Some s' ->
  (In p (b_speers s') \/ In p (b_rej s') \/ In p (map fst (b_sigs s'))) -> known s p.
Proof.
  intros I BE. unfold match_peer_update, known. destruct st; [|intros [= <-]; cbn [b_speers b_rej b_sigs]; tauto].
  destruct (mem q (b_inflight s)) eqn:M.
  - intros [= <-]. cbn [b_speers b_rej b_sigs]. rewrite in_del. tauto.
  - unfold broadcast. cbn [b_removed b_inflight b_rej b_sigs b_bpeers b_speers b_bfut b_sfut]. rewrite M.
    destruct (mem q (del q (b_removed s))); intros [= <-]; cbn [b_speers b_rej b_sigs]; rewrite !in_del; tauto.
Qed.
Lemma attempt_kept v a s s' p : NoDup (v_signers v) -> binv v s -> b_bpeers s = [] -> match_attempt v a s = Some s' ->
  (In p (b_speers s') \/ In p (b_rej s') \/ In p (map fst (b_sigs s'))) -> known s p.
Proof.
  intros NS I BE E. unfold known. destruct (attempt_cases v a s s' NS I BE E) as (I' & [(A & [T1 T2 T3 T4 T5 T6 T7])|[(A & S)|(A & [T1 T2 T3 T4 T5 T6 T7])]]);
    cbn [b_removed b_inflight b_rej b_sigs b_bpeers b_speers b_bfut b_sfut] in *.
  - rewrite T4, T2, T3. cbn [In]. tauto.
  - subst s'. tauto.
  - rewrite T4, T2, T3. cbn [In]. tauto.
Qed.

Lemma step_kept v cur y e z p : NoDup (v_signers v) -> yinv v y -> enabled y e = true -> step v cur y e = Some z ->
  (In p (b_speers (y_bc z)) \/ In p (b_rej (y_bc z)) \/ In p (map fst (b_sigs (y_bc z)))) -> known (y_bc y) p.
Proof.
  intros NS I EN ST. pose proof I as [B E EV EVN].
  destruct e as [rs| | | | |con tka| | |q st|q r|q a r| |]; cbn [step enabled] in *.
  - destruct (send_all_ok v (bc_new v (nodup N.eq_dec rs)) (new_binv v _ (NoDup_nodup N.eq_dec rs))) as (s & ES & IS & [T1 T2 T3 T4 T5 T6 T7]).
    rewrite ES in ST. injection ST as <-. cbn [y_bc bc_new b_speers b_rej b_sigs] in *. rewrite T4, T2, T3. cbn [map In]. tauto.
  - injection ST as <-. unfold known; tauto.
  - injection ST as <-. unfold known; destruct (y_ok y); cbn [stop y_bc]; tauto.
  - unfold known; destruct (y_signal y) as [[|]|]; injection ST as <-; try destruct (y_includes y); cbn [stop y_bc]; tauto.
  - injection ST as <-. unfold known; destruct (_ && _); cbn [stop y_bc]; tauto.
  - injection ST as <-. unfold known; destruct (_ || _); cbn [stop y_bc]; tauto.
  - apply andb_true_iff in EN as [EN _].
    assert (AC : active y = true) by (unfold is_run in EN; unfold active; destruct (y_phase y); congruence).
    unfold should_finish in ST. destruct (_ <=? _); [injection ST as <-; unfold known; cbn; tauto|]. unfold on_bc in ST.
    destruct (match_attempt _ _ _) as [s|] eqn:M in ST; [|discriminate]. injection ST as <-. cbn [with_bc y_bc] in *.
    assert (M' : match_attempt v (y_attempt y) (y_bc y) = Some s) by (rewrite <- M; destruct ((v_min v <=? _) && _); reflexivity).
    exact (attempt_kept v _ _ _ p NS B (E AC) M').
  - injection ST as <-. unfold known; cbn. tauto.
  - unfold on_bc in ST. destruct (match_peer_update _ _ _) as [s|] eqn:M; [|discriminate]. injection ST as <-. exact (update_kept v _ _ _ _ p B (E EN) M).
  - apply andb_true_iff in EN as [AC EN]. apply mem_In in EN.
    unfold on_bc in ST. destruct (match_broadcast_result _ _ _ _) as [s|] eqn:M; [|discriminate]. injection ST as <-.
    destruct (bcast_local v (y_bc y) q r s B (E AC) EN M) as ([L1 L2 L3] & _). cbn [with_bc y_bc].
    destruct (N.eq_dec p q) as [D|D]; [intros _; subst q; left; apply (i_in _ _ B); auto|]. destruct (L1 p D) as (Q1 & Q2 & Q3 & Q4).
    rewrite Q2, Q3, Q4. unfold known. tauto.
  - apply andb_true_iff in EN as [AC EN]. apply sig_event in EN. apply sfut_waiting in EN.
    unfold on_bc in ST. destruct (match_signature_result _ _ _ _ _) as [s|] eqn:M; [|discriminate]. injection ST as <-.
    destruct (sig_local v (y_bc y) q a r s B (E AC) EN M) as ([L1 L2 L3] & _). cbn [with_bc y_bc].
    destruct (N.eq_dec p q) as [D|D]; [intros _; subst q; left; apply (i_in _ _ B); auto|]. destruct (L1 p D) as (Q1 & Q2 & Q3 & Q4).
    rewrite Q2, Q3, Q4. unfold known. tauto.
  - destruct (send_all_ok v (y_bc y) B) as (s & ES & IS & [T1 T2 T3 T4 T5 T6 T7]). rewrite ES in ST. injection ST as <-.
    cbn [y_bc b_speers b_rej b_sigs] in *. rewrite T4, T2, T3. unfold known. tauto.
  - assert (AC : active y = true) by (unfold active; destruct (y_phase y); congruence).
    destruct (match_attempt _ _ _) as [s|] eqn:M; [|discriminate]. injection ST as <-. exact (attempt_kept v _ _ _ p NS B (E AC) M).
Qed.

Lemma step_evidence v cur y e z : enabled y e = true -> step v cur y e = Some z ->
  y_evidence z = y_evidence y \/ y_evidence z = Some (b_sigs (y_bc y)).
Proof.
  intros EN ST. destruct e as [rs| | | | |con tka| | |p st|p r|p a r| |]; cbn [step enabled] in *.
  - destruct (send_all _); [|discriminate]. injection ST as <-. auto.
  - injection ST as <-. auto.
  - injection ST as <-. destruct (y_ok y); auto.
  - destruct (y_signal y) as [[|]|]; injection ST as <-; try destruct (y_includes y); auto.
  - injection ST as <-. destruct (_ && _); auto.
  - injection ST as <-. destruct (_ || _); auto.
  - unfold should_finish in ST. destruct (_ <=? _); [injection ST as <-; auto|]. unfold on_bc in ST.
    destruct (match_attempt _ _ _); [|discriminate]. injection ST as <-. destruct ((v_min v <=? _) && _); auto.
  - injection ST as <-. auto.
  - unfold on_bc in ST. destruct (match_peer_update _ _ _); [|discriminate]. injection ST as <-. auto.
  - unfold on_bc in ST. destruct (match_broadcast_result _ _ _ _); [|discriminate]. injection ST as <-. auto.
  - unfold on_bc in ST. destruct (match_signature_result _ _ _ _ _); [|discriminate]. injection ST as <-. auto.
  - destruct (send_all _); [|discriminate]. injection ST as <-. auto.
  - destruct (match_attempt _ _ _); [|discriminate]. injection ST as <-. auto.
Qed.

Lemma author_unknown v cur l y : NoDup (v_signers v) -> runs v cur round_start l y ->
  ~ In (EUpdate (v_author v) true) l -> ~ known (y_bc y) (v_author v) /\ ~ In (v_author v) (map fst (gathered y)).
Proof.
  intros NS R. set (a := v_author v).
  induction R as [|l y e z R IH EN ST].
  - intros _. unfold known, gathered. cbn. tauto.
  - intros NU. rewrite snoc_in in NU. assert (NU1 : ~ In (EUpdate a true) l) by tauto. destruct (IH NU1) as [K G]. clear IH.
    pose proof (runs_yinv v cur _ l y NS (start_yinv v) R) as I.
    assert (R' : runs v cur round_start (l ++ [e]) z) by (econstructor; eauto).
    pose proof (runs_yinv v cur _ _ z NS (start_yinv v) R') as I'.
    assert (NI : ~ In a (b_inflight (y_bc z))).
    { intros Q. apply (i_in _ _ (yi_b _ _ I')) in Q.
      assert (O : out (v_author v) a (l ++ [e]) (a =? v_author v) = true).
      { assert (X : forall l now, ~ In (EUpdate a true) l -> now = true -> out (v_author v) a l now = true).
        { induction l0 as [|x l0 IHl]; intros now H H0; [exact H0|]. assert (H1 : ~ In (EUpdate a true) l0) by (intros W; apply H; right; exact W).
          destruct x; cbn [out]; try (apply IHl; assumption). apply IHl; [exact H1|]. destruct (N.eqb_spec p a) as [D|D]; [|exact H0].
          subst p. destruct resolved; [|reflexivity]. exfalso. apply H. left. reflexivity. }
        apply X; [rewrite snoc_in; exact NU|apply N.eqb_refl]. }
      destruct (no_query_to_the_absent v cur l y e z a NS R EN ST O) as [Q1 Q2].
      apply K. left. apply (i_in _ _ (yi_b _ _ I)). destruct Q as [Q|Q]; [left; exact (Q1 Q)|right].
      unfold waiting in Q. apply in_map_iff in Q as ((x & b) & EX & Q). cbn [fst] in EX. subst x. exact (sfut_waiting _ _ _ (Q2 b Q)). }
    assert (NK : ~ known (y_bc z) a).
    { intros [Q|Q]; [contradiction|]. apply K. exact (step_kept v cur y e z a NS I EN ST Q). }
    split; [exact NK|]. unfold gathered in *. destruct (step_evidence v cur y e z EN ST) as [Q|Q]; rewrite Q.
    + destruct (y_evidence y); [exact G|]. intros W. apply NK. right; right; right. exact W.
    + intros W. apply K. right; right; right. exact W.
Qed.

(** The author never asks itself, and its own signature is never among the gathered ones, unless
    the schedule reports the author as a peer that came online. *)
Theorem author_never_signs v cur l y : NoDup (v_signers v) -> runs v cur round_start l y ->
  ~ In (EUpdate (v_author v) true) l ->
  ~ In (v_author v) (b_bfut (y_bc y)) /\ ~ In (v_author v) (waiting (y_bc y)) /\ ~ In (v_author v) (map fst (gathered y)).
Proof.
  intros NS R NU. destruct (author_unknown v cur l y NS R NU) as [H1 H2].
  pose proof (yi_b _ _ (runs_yinv v cur _ l y NS (start_yinv v) R)) as B.
  split; [|split; [|exact H2]]; intros Q; apply H1; left; apply (i_in _ _ B); auto.
Qed.

(** ** Retries *)

(** At every attempt but the first the queued validators are asked again, and none stays queued. *)
Theorem attempt_asks_again v cur l y z : NoDup (v_signers v) -> runs v cur round_start l y ->
  enabled y EStatus = true -> step v cur y EStatus = Some z -> y_phase z = PRun -> 1 < y_attempt y ->
  b_speers (y_bc z) = [] /\
  forall p, In p (b_speers (y_bc y)) -> In p (v_signers v) -> out (v_author v) p l (p =? v_author v) = false ->
    In (p, false) (b_sfut (y_bc z)).
Proof.
  intros NS R EN ST PH AT. pose proof (runs_yinv v cur _ l y NS (start_yinv v) R) as [B E _ _].
  pose proof (runs_hist v cur _ y NS R) as [HF HR HE HP]. cbn [step enabled] in *. apply andb_true_iff in EN as [EN _].
  assert (AC : active y = true) by (unfold is_run in EN; unfold active; destruct (y_phase y); congruence).
  assert (FY : fresh_phase y = false) by (unfold is_run in EN; unfold fresh_phase; destruct (y_phase y); congruence).
  unfold should_finish in ST. destruct (_ <=? _); [injection ST as <-; discriminate|]. unfold on_bc in ST.
  destruct (match_attempt _ _ _) as [s|] eqn:M in ST; [|discriminate]. injection ST as <-. cbn [with_bc y_bc] in *.
  assert (M' : match_attempt v (y_attempt y) (y_bc y) = Some s) by (rewrite <- M; destruct ((v_min v <=? _) && _); reflexivity).
  destruct (attempt_cases v _ _ s NS B (E AC) M') as (I' & [(A & _)|[(A & _)|(A & [T1 T2 T3 T4 T5 T6 T7])]]); [lia|lia|].
  split; [exact T4|]. intros p H1 H2 H3. apply T7. right. repeat split; auto. cbn [b_removed]. rewrite (HR FY). congruence.
Qed.
Theorem retry_asks_again v cur l y z : NoDup (v_signers v) -> runs v cur round_start l y ->
  enabled y ERetry = true -> step v cur y ERetry = Some z -> 1 < y_retry z ->
  b_speers (y_bc z) = [] /\
  forall p, In p (b_speers (y_bc y)) -> In p (v_signers v) -> out (v_author v) p l (p =? v_author v) = false ->
    In (p, false) (b_sfut (y_bc z)).
Proof.
  intros NS R EN ST AT. pose proof (runs_yinv v cur _ l y NS (start_yinv v) R) as [B E _ _].
  pose proof (runs_hist v cur _ y NS R) as [HF HR HE HP]. cbn [step enabled] in *.
  assert (AC : active y = true) by (unfold active; destruct (y_phase y); congruence).
  assert (FY : fresh_phase y = false) by (unfold fresh_phase; destruct (y_phase y); congruence).
  destruct (match_attempt _ _ _) as [s|] eqn:M; [|discriminate]. injection ST as <-. cbn [y_bc y_retry] in *.
  destruct (attempt_cases v _ _ s NS B (E AC) M) as (I' & [(A & _)|[(A & _)|(A & [T1 T2 T3 T4 T5 T6 T7])]]); [lia|lia|].
  split; [exact T4|]. intros p H1 H2 H3. apply T7. right. repeat split; auto. cbn [b_removed]. rewrite (HR FY). congruence.
Qed.

(** When the counter of attempts wraps, the point is broadcast anew to every validator of the next
    round that is not out; rejections and queues are forgotten, signatures are kept. *)
Theorem wrapped_attempt_starts_over v cur l y z : NoDup (v_signers v) -> runs v cur round_start l y ->
  enabled y EStatus = true -> step v cur y EStatus = Some z -> y_phase z = PRun -> y_attempt y = 0 ->
  b_rej (y_bc z) = [] /\ b_speers (y_bc z) = [] /\ b_sfut (y_bc z) = [] /\ b_sigs (y_bc z) = b_sigs (y_bc y) /\
  forall p, In p (b_bfut (y_bc z)) <-> In p (v_signers v) /\ out (v_author v) p l (p =? v_author v) = false.
Proof.
  intros NS R EN ST PH AT. pose proof (runs_yinv v cur _ l y NS (start_yinv v) R) as [B E _ _].
  pose proof (runs_hist v cur _ y NS R) as [HF HR HE HP]. cbn [step enabled] in *. apply andb_true_iff in EN as [EN _].
  assert (AC : active y = true) by (unfold is_run in EN; unfold active; destruct (y_phase y); congruence).
  assert (FY : fresh_phase y = false) by (unfold is_run in EN; unfold fresh_phase; destruct (y_phase y); congruence).
  unfold should_finish in ST. destruct (_ <=? _); [injection ST as <-; discriminate|]. unfold on_bc in ST.
  destruct (match_attempt _ _ _) as [s|] eqn:M in ST; [|discriminate]. injection ST as <-. cbn [with_bc y_bc] in *.
  assert (M' : match_attempt v (y_attempt y) (y_bc y) = Some s) by (rewrite <- M; destruct ((v_min v <=? _) && _); reflexivity).
  destruct (attempt_cases v _ _ s NS B (E AC) M') as (I' & [(A & [T1 T2 T3 T4 T5 T6 T7])|[(A & _)|(A & _)]]); [|lia|lia].
  cbn [b_removed b_inflight b_rej b_sigs b_bpeers b_speers b_bfut b_sfut] in *. repeat split; auto.
  - apply T7 in H as [[]|[H _]]. exact H.
  - apply T7 in H as [[]|[_ H]]. destruct (out _ _ _ _) eqn:O; [|reflexivity]. apply (HR FY) in O. contradiction.
  - intros [H1 H2]. apply T7. right. split; [exact H1|]. rewrite (HR FY). congruence.
Qed.

(** The own point goes at once to every receiver but the author. *)
Theorem point_goes_to_all v cur y rs z : step v cur y (EPoint rs) = Some z ->
  forall p, In p (b_bfut (y_bc z)) <-> In p rs /\ p <> v_author v.
Proof.
  intros ST p. cbn [step] in ST.
  destruct (send_all_ok v (bc_new v (nodup N.eq_dec rs)) (new_binv v _ (NoDup_nodup N.eq_dec rs))) as (s & ES & IS & [T1 T2 T3 T4 T5 T6 T7]).
  rewrite ES in ST. injection ST as <-. cbn [y_bc bc_new b_bfut b_bpeers b_removed] in *. rewrite T7, nodup_In. cbn [In]. split.
  - intros [[]|[H1 H2]]. split; [exact H1|]. intros ->. apply H2. auto.
  - intros [H1 H2]. right. split; [exact H1|]. intros [Q|[]]. congruence.
Qed.

(** ** Answers *)

(** A peer is counted as rejecting the point only for a malformed answer, an explicit rejection or
    a wrong signature; a signature is kept only when the peer sent it. *)
Theorem rejections_are_deserved v cur l y e z p : NoDup (v_signers v) -> runs v cur round_start l y ->
  enabled y e = true -> step v cur y e = Some z -> In p (b_rej (y_bc z)) -> ~ In p (b_rej (y_bc y)) ->
  e = EBcast p BTlError \/
  exists a r, e = ESig p a r /\ (r = STlError \/ r = SRejected \/ exists g, r = SSignature g /\ v_verify v p g = false).
Proof.
  intros NS R EN ST. pose proof (runs_yinv v cur _ l y NS (start_yinv v) R) as [B E _ _].
  assert (AT : forall a s, active y = true -> match_attempt v a (y_bc y) = Some s -> In p (b_rej s) -> In p (b_rej (y_bc y))).
  { intros a s AC M. destruct (attempt_cases v a _ s NS B (E AC) M) as (_ & [(_ & [T1 T2 T3 T4 T5 T6 T7])|[(_ & ->)|(_ & [T1 T2 T3 T4 T5 T6 T7])]]); [|auto|];
      cbn [b_rej] in T2; rewrite T2; [intros []|auto]. }
  intros H NH. destruct e as [rs| | | | |con tka| | |q st|q r|q a r| |]; cbn [step enabled] in *.
  - exfalso. destruct (send_all_ok v (bc_new v (nodup N.eq_dec rs)) (new_binv v _ (NoDup_nodup N.eq_dec rs))) as (s & ES & IS & [T1 T2 T3 T4 T5 T6 T7]).
    rewrite ES in ST. injection ST as <-. cbn [y_bc] in H. rewrite T2 in H. destruct H.
  - injection ST as <-. contradiction.
  - injection ST as <-. destruct (y_ok y); contradiction.
  - destruct (y_signal y) as [[|]|]; injection ST as <-; try destruct (y_includes y); contradiction.
  - injection ST as <-. destruct (_ && _); contradiction.
  - injection ST as <-. destruct (_ || _); contradiction.
  - exfalso. apply andb_true_iff in EN as [EN _].
    assert (AC : active y = true) by (unfold is_run in EN; unfold active; destruct (y_phase y); congruence).
    unfold should_finish in ST. destruct (_ <=? _); [injection ST as <-; contradiction|]. unfold on_bc in ST.
    destruct (match_attempt _ _ _) as [s|] eqn:M in ST; [|discriminate]. injection ST as <-. cbn [with_bc y_bc] in *.
    assert (M' : match_attempt v (y_attempt y) (y_bc y) = Some s) by (rewrite <- M; destruct ((v_min v <=? _) && _); reflexivity).
    exact (NH (AT _ _ AC M' H)).
  - injection ST as <-. contradiction.
  - exfalso. unfold on_bc in ST. destruct (match_peer_update _ _ _) as [s|] eqn:M; [|discriminate]. injection ST as <-. cbn [with_bc y_bc] in H.
    unfold match_peer_update, broadcast in M. destruct st; [|injection M as <-; contradiction]. cbn [b_removed b_inflight] in M.
    destruct (mem q (b_inflight (y_bc y))); [injection M as <-; cbn [b_rej] in H; apply in_del in H; tauto|].
    destruct (mem q (del q _)); injection M as <-; cbn [b_rej] in H; apply in_del in H; tauto.
  - apply andb_true_iff in EN as [AC EN]. unfold on_bc in ST. destruct (match_broadcast_result _ _ _ _) as [s|] eqn:M; [|discriminate]. injection ST as <-. cbn [with_bc y_bc] in H.
    unfold match_broadcast_result in M. destruct (mem q (b_inflight _)); [|discriminate]. destruct r.
    + injection M as <-. cbn [reject b_rej] in H. apply in_add in H as [H|H]; [contradiction|]. subst q. auto.
    + injection M as <-. contradiction.
    + exfalso. unfold request_signature in M. cbn [b_removed b_inflight] in M. destruct (_ && _); [|injection M as <-; contradiction]. destruct (mem q (del q _)); [discriminate|]. injection M as <-. contradiction.
  - apply andb_true_iff in EN as [AC EN]. unfold on_bc in ST. destruct (match_signature_result _ _ _ _ _) as [s|] eqn:M; [|discriminate]. injection ST as <-. cbn [with_bc y_bc] in H.
    unfold match_signature_result in M. destruct (mem q (b_inflight _)); [|discriminate].
    assert (RJ : forall s1, b_rej s1 = b_rej (y_bc y) -> Some (reject s1 q) = Some s -> q = p).
    { intros s1 Q W. injection W as <-. cbn [reject b_rej] in H. rewrite Q in H. apply in_add in H as [H|H]; [contradiction|symmetry; exact H]. }
    right. destruct r.
    + exists a, STlError. pose proof (fun Q => RJ _ Q M) as PQ; specialize (PQ eq_refl); subst q. auto.
    + injection M as <-. contradiction.
    + destruct (mem q (v_signers v)); [|injection M as <-; contradiction]. destruct (v_verify v q sig) eqn:V; [injection M as <-; contradiction|].
      pose proof (fun Q => RJ _ Q M) as PQ; specialize (PQ eq_refl); subst q. exists a, (SSignature sig). split; [reflexivity|]. right; right. exists sig. auto.
    + exfalso. destruct a; [injection M as <-; contradiction|]. unfold broadcast in M. cbn [b_removed b_inflight] in M.
      destruct (mem q (b_removed _)); [injection M as <-; contradiction|]. destruct (mem q (del q _)); [discriminate|]. injection M as <-. contradiction.
    + injection M as <-. contradiction.
    + destruct (mem q (v_signers v)); [|injection M as <-; contradiction]. pose proof (fun Q => RJ _ Q M) as PQ; specialize (PQ eq_refl); subst q. exists a, SRejected. auto.
  - exfalso. destruct (send_all_ok v (y_bc y) B) as (s & ES & IS & [T1 T2 T3 T4 T5 T6 T7]). rewrite ES in ST. injection ST as <-. cbn [y_bc b_rej] in *. rewrite T2 in H. contradiction.
  - exfalso. assert (AC : active y = true) by (unfold active; destruct (y_phase y); congruence).
    destruct (match_attempt _ _ _) as [s|] eqn:M; [|discriminate]. injection ST as <-. exact (NH (AT _ _ AC M H)).
Qed.

(** What becomes of an answer of a validator [p] of the next round: a received broadcast is
    followed by a request to sign, a verified signature is kept, a lost point is sent again (once
    per attempt), whatever fails in the network or is answered with "later" waits for the next
    attempt, the rest is a rejection. *)
Theorem answers_are_handled v cur l y e z p : NoDup (v_signers v) -> runs v cur round_start l y ->
  enabled y e = true -> step v cur y e = Some z -> In p (v_signers v) ->
  out (v_author v) p l (p =? v_author v) = false ->
  match e with
  | EBcast q r => q = p -> match r with
                           | BOk => In (p, true) (b_sfut (y_bc z))
                           | BNetwork => In p (b_speers (y_bc z))
                           | BTlError => In p (b_rej (y_bc z))
                           end
  | ESig q a r => q = p -> match r with
                           | SSignature g => if v_verify v p g then In (p, g) (b_sigs (y_bc z)) else In p (b_rej (y_bc z))
                           | SNoPoint => if a then In p (b_speers (y_bc z)) else In p (b_bfut (y_bc z))
                           | SNetwork | STryLater => In p (b_speers (y_bc z))
                           | STlError | SRejected => In p (b_rej (y_bc z))
                           end
  | _ => True
  end.
Proof.
  intros NS R EN ST PS O. pose proof (runs_hist v cur _ y NS R) as [HF HR HE HP].
  apply mem_In in PS.
  destruct e as [rs| | | | |con tka| | |q st|q r|q a r| |]; auto; intros ->; cbn [step enabled] in *; apply andb_true_iff in EN as [AC _].
  - assert (FY : fresh_phase y = false) by (unfold fresh_phase; unfold active in AC; destruct (y_phase y); congruence).
    assert (NR : mem p (b_removed (y_bc y)) = false) by (apply mem_no; rewrite (HR FY); congruence).
    unfold on_bc in ST. destruct (match_broadcast_result _ _ _ _) as [s|] eqn:M; [|discriminate]. injection ST as <-. cbn [with_bc y_bc].
    unfold match_broadcast_result in M. destruct (mem p (b_inflight _)); [|discriminate]. destruct r.
    + injection M as <-. cbn [reject b_rej]. apply in_add. auto.
    + injection M as <-. cbn [enqueue b_speers]. apply in_add. auto.
    + unfold request_signature in M. cbn [b_removed b_inflight b_sfut] in M. rewrite NR, PS in M. cbn [negb andb] in M.
      destruct (mem p (del p _)); [discriminate|]. injection M as <-. cbn [b_sfut]. apply snoc_in. auto.
  - assert (FY : fresh_phase y = false) by (unfold fresh_phase; unfold active in AC; destruct (y_phase y); congruence).
    assert (NR : mem p (b_removed (y_bc y)) = false) by (apply mem_no; rewrite (HR FY); congruence).
    unfold on_bc in ST. destruct (match_signature_result _ _ _ _ _) as [s|] eqn:M; [|discriminate]. injection ST as <-. cbn [with_bc y_bc].
    unfold match_signature_result in M. destruct (mem p (b_inflight _)); [|discriminate]. rewrite PS in M. destruct r.
    + injection M as <-. cbn [reject b_rej]. apply in_add. auto.
    + injection M as <-. cbn [enqueue b_speers]. apply in_add. auto.
    + destruct (v_verify v p sig); injection M as <-; [cbn [sign b_sigs]; left; reflexivity|]. cbn [reject b_rej]. apply in_add. auto.
    + destruct a; [injection M as <-; cbn [enqueue b_speers]; apply in_add; auto|]. unfold broadcast in M. cbn [b_removed b_inflight b_bfut] in M. rewrite NR in M.
      destruct (mem p (del p _)); [discriminate|]. injection M as <-. cbn [b_bfut]. apply snoc_in. auto.
    + injection M as <-. cbn [enqueue b_speers]. apply in_add. auto.
    + injection M as <-. cbn [reject b_rej]. apply in_add. auto.
Qed.
