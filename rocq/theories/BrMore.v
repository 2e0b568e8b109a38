(** Broadcasting the own point: nobody is forgotten, what the signals mean, how a round ends. *)
From Coq Require Import List Bool NArith Lia ZArith ZifyN ZifyNat ZifyBool Permutation.
From Verif Require Import PsModel PsThms PsPeers PeerCountModel BrModel BrInv BrThms.
Import ListNotations.
Local Open Scope N_scope.

(** ** What every step does to the parts of the broadcaster *)

Lemma attempt_cases v a s s' : NoDup (v_signers v) -> binv v s -> b_bpeers s = [] -> match_attempt v a s = Some s' ->
  binv v s' /\
  ((a = 0 /\ sent (Bc (b_removed s) [] [] (b_sigs s) [] [] [] []) s' (v_signers v)) \/
   (a = 1 /\ s' = s) \/
   (1 < a /\ asked v false (Bc (b_removed s) (b_inflight s) (b_rej s) (b_sigs s) [] [] (b_bfut s) (b_sfut s)) s' (b_speers s))).
Proof.
  intros NS I BE E. destruct (N.eq_dec a 0) as [->|A0].
  - destruct (attempt0_ok v s NS I BE) as (s1 & E1 & I1 & S1). rewrite E in E1. injection E1 as <-. rewrite BE in S1. auto.
  - destruct (N.eq_dec a 1) as [->|A1].
    + assert (X : match_attempt v 1 s = Some s) by reflexivity. rewrite X in E. injection E as <-. auto.
    + destruct (attempt_ok v a s ltac:(lia) I BE) as (s1 & E1 & I1 & S1). rewrite E in E1. injection E1 as <-. rewrite BE in S1.
      split; [exact I1|]. right; right. split; [lia|exact S1].
Qed.

Lemma attempt_known v a s s' p : NoDup (v_signers v) -> binv v s -> b_bpeers s = [] -> match_attempt v a s = Some s' ->
  In p (v_signers v) -> ~ In p (b_removed s) -> known s p -> known s' p.
Proof.
  intros NS I BE E PS PR K. destruct (attempt_cases v a s s' NS I BE E) as (I' & [(A & S)|[(A & S)|(A & S)]]).
  - left. apply (i_in _ _ I'). left. apply (t_bfut _ _ _ S). cbn [b_removed]. auto.
  - subst s'. exact K.
  - destruct S as [T1 T2 T3 T4 T5 T6 T7]. cbn [b_removed b_rej b_sigs b_speers b_bfut b_sfut] in *.
    destruct K as [K|[K|[K|K]]].
    + left. apply (i_in _ _ I'). apply (i_in _ _ I) in K as [K|K]; [left; rewrite T6; exact K|]. right. unfold waiting in *.
      apply in_map_iff in K as ((q & b) & EQ & K). apply in_map_iff. exists (q, b). split; [exact EQ|]. apply T7. auto.
    + left. apply (i_in _ _ I'). right. unfold waiting. apply in_map_iff. exists (p, false). split; [reflexivity|]. apply T7. auto.
    + right; right; left. rewrite T2. exact K.
    + right; right; right. rewrite T3. exact K.
Qed.

(** the signatures of a state only grow, except when they are handed over as evidence *)
Lemma attempt_sigs v a s s' : NoDup (v_signers v) -> binv v s -> b_bpeers s = [] -> match_attempt v a s = Some s' -> b_sigs s' = b_sigs s /\ b_removed s' = b_removed s /\ b_bpeers s' = [].
Proof.
  intros NS I BE E. destruct (match_attempt_ok v a s NS I BE) as (s1 & E1 & _ & B & R & S). rewrite E in E1. injection E1 as <-. auto.
Qed.

Lemma update_known v s s' p st q : binv v s -> b_bpeers s = [] -> match_peer_update s p st = Some s' ->
  (q = p -> st = true -> known s' q) /\ (known s q -> (q = p -> st = true) -> known s' q).
Proof.
  intros I BE E. assert (H : (q = p -> st = true -> known s' q) /\ (known s q -> q <> p -> known s' q)).
  2:{ destruct H as [H1 H2]. split; [exact H1|]. intros K Q. destruct (N.eq_dec q p) as [D|D]; [auto|]. apply H2; auto. }
  pose proof I as [BF SF BS IN SN SP BN BP RN GN GV SG]. unfold match_peer_update in E. destruct st.
  - fold (revived s p) in E. fold (unqueued (revived s p) p) in E.
    assert (IR : binv v (revived s p)).
    { constructor; unfold waiting in *; cbn [revived b_removed b_inflight b_rej b_sigs b_bpeers b_speers b_bfut b_sfut]; auto. apply nd_del. exact RN. }
    destruct (mem p (b_inflight s)) eqn:M.
    + injection E as <-. apply mem_In in M. unfold known. cbn [revived b_inflight b_speers b_rej b_sigs]. split.
      * intros -> _. auto.
      * intros [K|[K|[K|K]]] D; auto. right; right; left. apply in_del. auto.
    + apply mem_no in M.
      assert (IU : binv v (unqueued (revived s p) p)).
      { destruct IR as [BF' SF' BS' IN' SN' SP' BN' BP' RN' GN' GV' SG'].
        constructor; unfold waiting in *; cbn [unqueued revived b_removed b_inflight b_rej b_sigs b_bpeers b_speers b_bfut b_sfut] in *; auto.
        - apply nd_del. exact SN.
        - intros x H. apply in_del in H as [H _]. exact (SP x H).
        - apply nd_del. exact BN.
        - intros x H. apply in_del in H as [H _]. rewrite BE in H. destruct H. }
      destruct (broadcast_ok v (unqueued (revived s p) p) p IU) as (s1 & E1 & I1 & S1 & _).
      { exact M. }
      { cbn [unqueued revived b_speers]. intros H. apply in_del in H. tauto. }
      { cbn [unqueued revived b_bpeers]. intros H. apply in_del in H. tauto. }
      rewrite E in E1. injection E1 as <-. destruct S1 as [T1 T2 T3 T4 T5 T6 T7].
      cbn [unqueued revived b_removed b_inflight b_rej b_sigs b_bpeers b_speers b_bfut b_sfut] in *.
      assert (AI : forall x, In x (b_inflight s') <-> In x (b_inflight s) \/ x = p).
      { intros x. rewrite (i_in _ _ I1), T7, (IN x). unfold waiting. rewrite T6. cbn [In]. rewrite in_del.
        destruct (N.eq_dec x p) as [D|D]; [subst x; split; intros _; [auto|]; left; right; tauto|].
        split; [intros [[H|[[H|[]] _]]|H]; auto; congruence|intros [[H|H]|H]; auto; contradiction]. }
      unfold known. rewrite AI, T2, T3, T4, !in_del. split; [intros -> _; auto|]. intros K D. tauto.
  - injection E as <-. unfold known. cbn [b_inflight b_speers b_rej b_sigs]. split; [discriminate|tauto].
Qed.

(** ** Nobody is forgotten *)

(** in some way the broadcaster deals, or has dealt, with [p] *)
Definition placed (y : sys) (p : peer) : Prop :=
  known (y_bc y) p \/ In p (b_bpeers (y_bc y)) \/ In p (map fst (gathered y)).

Lemma placed_same y z p : y_bc z = y_bc y -> y_evidence z = y_evidence y -> placed y p -> placed z p.
Proof. intros A B. unfold placed, gathered. rewrite A, B. auto. Qed.
Lemma placed_bc y s p : (known (y_bc y) p -> known s p) -> b_bpeers s = b_bpeers (y_bc y) ->
  (In p (map fst (b_sigs (y_bc y))) -> In p (map fst (b_sigs s))) -> placed y p -> placed (with_bc y s) p.
Proof.
  intros H1 H2 H3 [H|[H|H]]; unfold placed, gathered in *; cbn [with_bc y_bc y_evidence] in *; [auto|rewrite H2; auto|].
  destruct (y_evidence y); auto.
Qed.
Lemma placed_finish y p : y_evidence y = None -> placed y p -> placed (finish y) p.
Proof.
  intros EV. unfold placed, gathered, known. rewrite EV. cbn [finish y_bc y_evidence b_inflight b_speers b_rej b_sigs b_bpeers]. tauto.
Qed.

(** evidence exists only after [run] *)
Definition early (y : sys) : Prop := match y_phase y with PMake | PRun | PNone => y_evidence y = None | _ => True end.

Lemma step_early v cur y e z : early y -> enabled y e = true -> step v cur y e = Some z -> early z.
Proof.
  unfold early. intros H EN ST. destruct e as [rs| | | | |con tka| | |p st|p r|p a r| |]; cbn [step enabled] in *.
  - destruct (send_all _); [|discriminate]. injection ST as <-. cbn [y_phase y_evidence]. destruct (y_phase y); congruence.
  - injection ST as <-. cbn [y_phase y_evidence]. destruct (y_phase y); congruence.
  - injection ST as <-. destruct (y_ok y); exact H.
  - destruct (y_signal y) as [[|]|]; injection ST as <-; try destruct (y_includes y); exact H.
  - injection ST as <-. destruct (_ && _); exact H.
  - injection ST as <-. destruct (_ || _); exact H.
  - unfold should_finish in ST. destruct (_ <=? _); [injection ST as <-; exact I|]. unfold on_bc in ST.
    destruct (match_attempt _ _ _); [|discriminate]. injection ST as <-. destruct ((v_min v <=? _) && _); exact H.
  - injection ST as <-. exact I.
  - unfold on_bc in ST. destruct (match_peer_update _ _ _); [|discriminate]. injection ST as <-. exact H.
  - unfold on_bc in ST. destruct (match_broadcast_result _ _ _ _); [|discriminate]. injection ST as <-. exact H.
  - unfold on_bc in ST. destruct (match_signature_result _ _ _ _ _); [|discriminate]. injection ST as <-. exact H.
  - destruct (send_all _); [|discriminate]. injection ST as <-. exact I.
  - destruct (match_attempt _ _ _); [|discriminate]. injection ST as <-. cbn [y_phase y_evidence]. destruct (y_phase y); [discriminate..|exact I].
Qed.

Lemma sig_event y p a : existsb (fun q => (fst q =? p) && Bool.eqb (snd q) a) (b_sfut (y_bc y)) = true -> In (p, a) (b_sfut (y_bc y)).
Proof.
  intros EN. apply existsb_exists in EN as ((q & b) & EN & Q). cbn [fst snd] in Q.
  apply andb_true_iff in Q as [Q1 Q2]. apply N.eqb_eq in Q1. apply eqb_prop in Q2. subst q b. exact EN.
Qed.
Lemma sfut_waiting s p a : In (p, a) (b_sfut s) -> In p (waiting s).
Proof. intros H. unfold waiting. apply (in_map fst) in H. exact H. Qed.

(** [b_removed] changes only with updates of peers *)
Lemma bcast_removed v s p r s' : match_broadcast_result v s p r = Some s' -> b_removed s' = b_removed s.
Proof.
  unfold match_broadcast_result, request_signature. destruct (mem p (b_inflight s)); [|discriminate]. destruct r.
  - intros [= <-]. reflexivity.
  - intros [= <-]. reflexivity.
  - destruct (_ && _); [|intros [= <-]; reflexivity]. destruct (mem p _); [discriminate|]. intros [= <-]. reflexivity.
Qed.
Lemma sig_removed v s p a r s' : match_signature_result v s p a r = Some s' -> b_removed s' = b_removed s.
Proof.
  unfold match_signature_result, broadcast. destruct (mem p (b_inflight s)); [|discriminate]. destruct r.
  - intros [= <-]. reflexivity.
  - intros [= <-]. reflexivity.
  - destruct (mem p (v_signers v)); [|intros [= <-]; reflexivity]. destruct (v_verify v p sig); intros [= <-]; reflexivity.
  - destruct a; [intros [= <-]; reflexivity|]. destruct (mem p _); [intros [= <-]; reflexivity|]. destruct (mem p _); [discriminate|]. intros [= <-]. reflexivity.
  - intros [= <-]. reflexivity.
  - destruct (mem p (v_signers v)); intros [= <-]; reflexivity.
Qed.

Lemma bcast_bpeers v s p r s' : match_broadcast_result v s p r = Some s' -> b_bpeers s' = b_bpeers s.
Proof.
  unfold match_broadcast_result, request_signature. destruct (mem p (b_inflight s)); [|discriminate]. destruct r.
  - intros [= <-]. reflexivity.
  - intros [= <-]. reflexivity.
  - destruct (_ && _); [|intros [= <-]; reflexivity]. destruct (mem p _); [discriminate|]. intros [= <-]. reflexivity.
Qed.
Lemma sig_bpeers v s p a r s' : match_signature_result v s p a r = Some s' -> b_bpeers s' = b_bpeers s.
Proof.
  unfold match_signature_result, broadcast. destruct (mem p (b_inflight s)); [|discriminate]. destruct r.
  - intros [= <-]. reflexivity.
  - intros [= <-]. reflexivity.
  - destruct (mem p (v_signers v)); [|intros [= <-]; reflexivity]. destruct (v_verify v p sig); intros [= <-]; reflexivity.
  - destruct a; [intros [= <-]; reflexivity|]. destruct (mem p _); [intros [= <-]; reflexivity|]. destruct (mem p _); [discriminate|]. intros [= <-]. reflexivity.
  - intros [= <-]. reflexivity.
  - destruct (mem p (v_signers v)); intros [= <-]; reflexivity.
Qed.

(** who is removed after an event *)
Lemma step_removed v cur y e z : NoDup (v_signers v) -> yinv v y -> enabled y e = true -> step v cur y e = Some z ->
  b_removed (y_bc z) = match e with
                       | EPoint _ => [v_author v]
                       | EUpdate p true => del p (b_removed (y_bc y))
                       | EUpdate p false => add p (b_removed (y_bc y))
                       | _ => b_removed (y_bc y)
                       end.
Proof.
  intros NS [B E EV EVN] EN ST. destruct e as [rs| | | | |con tka| | |p st|p r|p a r| |]; cbn [step enabled] in *.
  - destruct (send_all_ok v (bc_new v (nodup N.eq_dec rs)) (new_binv v _ (NoDup_nodup N.eq_dec rs))) as (s & ES & IS & [T1 T2 T3 T4 T5 T6 T7]).
    rewrite ES in ST. injection ST as <-. cbn [y_bc]. rewrite T1. reflexivity.
  - injection ST as <-. reflexivity.
  - injection ST as <-. destruct (y_ok y); reflexivity.
  - destruct (y_signal y) as [[|]|]; injection ST as <-; try destruct (y_includes y); reflexivity.
  - injection ST as <-. destruct (_ && _); reflexivity.
  - injection ST as <-. destruct (_ || _); reflexivity.
  - apply andb_true_iff in EN as [EN _].
    assert (AC : active y = true) by (unfold is_run in EN; unfold active; destruct (y_phase y); congruence).
    unfold should_finish in ST. destruct (_ <=? _); [injection ST as <-; reflexivity|]. unfold on_bc in ST.
    destruct (match_attempt _ _ _) as [s|] eqn:M in ST; [|discriminate]. injection ST as <-. cbn [with_bc y_bc].
    assert (M' : match_attempt v (y_attempt y) (y_bc y) = Some s) by (rewrite <- M; destruct ((v_min v <=? _) && _); reflexivity).
    apply (attempt_sigs v _ _ _ NS B (E AC) M').
  - injection ST as <-. reflexivity.
  - unfold on_bc in ST. destruct (match_peer_update _ _ _) as [s|] eqn:M; [|discriminate]. injection ST as <-.
    destruct (update_ok v (y_bc y) p st B (E EN)) as (s1 & E1 & _ & _ & _ & R). rewrite M in E1. injection E1 as <-.
    cbn [with_bc y_bc]. rewrite R. destruct st; reflexivity.
  - unfold on_bc in ST. destruct (match_broadcast_result _ _ _ _) as [s|] eqn:M; [|discriminate]. injection ST as <-. exact (bcast_removed _ _ _ _ _ M).
  - unfold on_bc in ST. destruct (match_signature_result _ _ _ _ _) as [s|] eqn:M; [|discriminate]. injection ST as <-. exact (sig_removed _ _ _ _ _ _ M).
  - destruct (send_all_ok v (y_bc y) B) as (s & ES & IS & [T1 T2 T3 T4 T5 T6 T7]). rewrite ES in ST. injection ST as <-. exact T1.
  - assert (AC : active y = true) by (unfold active; destruct (y_phase y); congruence).
    destruct (match_attempt _ _ _) as [s|] eqn:M; [|discriminate]. injection ST as <-. apply (attempt_sigs v _ _ _ NS B (E AC) M).
Qed.

Lemma step_placed v cur y e z p : NoDup (v_signers v) -> yinv v y -> early y -> enabled y e = true -> step v cur y e = Some z ->
  In p (v_signers v) -> ~ In p (b_removed (y_bc z)) ->
  (~ In p (b_removed (y_bc y)) /\ placed y p) \/ e = EUpdate p true \/ (exists rs, e = EPoint rs /\ In p rs) ->
  (forall rs, e = EPoint rs -> In p rs) -> placed z p.
Proof.
  intros NS I EA EN ST PS PR H0 HP. pose proof (step_removed v cur y e z NS I EN ST) as RM. pose proof I as [B E EV EVN].
  destruct e as [rs| | | | |con tka| | |q st|q r|q a r| |]; cbn [step enabled] in *.
  - destruct (send_all_ok v (bc_new v (nodup N.eq_dec rs)) (new_binv v _ (NoDup_nodup N.eq_dec rs))) as (s & ES & IS & [T1 T2 T3 T4 T5 T6 T7]).
    rewrite ES in ST. injection ST as <-. left. left. cbn [y_bc] in *. apply (i_in _ _ IS). left. apply T7. right.
    cbn [bc_new b_bpeers b_removed]. split; [apply nodup_In; apply HP; reflexivity|]. rewrite RM in PR. exact PR.
  - destruct H0 as [[_ H]|[H|(rs & H & _)]]; [|discriminate|discriminate]. injection ST as <-. eapply placed_same; [..|exact H]; reflexivity.
  - destruct H0 as [[_ H]|[H|(rs & H & _)]]; [|discriminate|discriminate]. injection ST as <-. destruct (y_ok y); (eapply placed_same; [..|exact H]; reflexivity).
  - destruct H0 as [[_ H]|[H|(rs & H & _)]]; [|discriminate|discriminate].
    destruct (y_signal y) as [[|]|]; injection ST as <-; try destruct (y_includes y); (eapply placed_same; [..|exact H]; reflexivity).
  - destruct H0 as [[_ H]|[H|(rs & H & _)]]; [|discriminate|discriminate]. injection ST as <-. destruct (_ && _); (eapply placed_same; [..|exact H]; reflexivity).
  - destruct H0 as [[_ H]|[H|(rs & H & _)]]; [|discriminate|discriminate]. injection ST as <-. destruct (_ || _); (eapply placed_same; [..|exact H]; reflexivity).
  - destruct H0 as [[R0 H]|[H|(rs & H & _)]]; [|discriminate|discriminate]. apply andb_true_iff in EN as [EN _].
    assert (AC : active y = true) by (unfold is_run in EN; unfold active; destruct (y_phase y); congruence).
    assert (EE : y_evidence y = None) by (unfold is_run in EN; unfold early in EA; destruct (y_phase y); congruence).
    unfold should_finish in ST. destruct (_ <=? _).
    + injection ST as <-. apply placed_finish; [exact EE|]. eapply placed_same; [..|exact H]; reflexivity.
    + unfold on_bc in ST. destruct (match_attempt _ _ _) as [s|] eqn:M in ST; [|discriminate]. injection ST as <-.
      assert (M' : match_attempt v (y_attempt y) (y_bc y) = Some s) by (rewrite <- M; destruct ((v_min v <=? _) && _); reflexivity).
      pose proof (attempt_sigs v _ _ _ NS B (E AC) M') as (A1 & A2 & A3).
      apply placed_bc.
      * intros K. apply (attempt_known v _ (y_bc y) s p NS B (E AC) M' PS R0). destruct ((v_min v <=? _) && _); exact K.
      * rewrite A3. symmetry. destruct ((v_min v <=? _) && _); exact (E AC).
      * rewrite A1. destruct ((v_min v <=? _) && _); auto.
      * destruct ((v_min v <=? _) && _); (eapply placed_same; [..|exact H]; reflexivity).
  - destruct H0 as [[R0 H]|[H|(rs & H & _)]]; [|discriminate|discriminate]. injection ST as <-. apply placed_finish; [|exact H].
    apply andb_true_iff in EN as [EN _]. apply andb_true_iff in EN as [EN _].
    unfold is_run in EN; unfold early in EA; destruct (y_phase y); congruence.
  - unfold on_bc in ST. destruct (match_peer_update _ _ _) as [s|] eqn:M; [|discriminate]. injection ST as <-.
    destruct (update_known v (y_bc y) s q st p B (E EN) M) as [K1 K2].
    destruct (update_ok v (y_bc y) q st B (E EN)) as (s1 & E1 & _ & BE & SG & _). rewrite M in E1. injection E1 as <-.
    destruct H0 as [[R0 H]|[H|(rs & H & _)]]; [| |discriminate].
    + destruct st.
      * apply placed_bc; [intros K; apply K2; auto|rewrite BE; symmetry; exact (E EN)|rewrite SG; auto|exact H].
      * destruct (N.eq_dec p q) as [D|D]; [exfalso; apply PR; rewrite RM; apply in_add; auto|].
        apply placed_bc; [intros K; apply K2; [exact K|contradiction]|rewrite BE; symmetry; exact (E EN)|rewrite SG; auto|exact H].
    + injection H as -> ->. left. apply K1; reflexivity.
  - destruct H0 as [[R0 H]|[H|(rs & H & _)]]; [|discriminate|discriminate]. apply andb_true_iff in EN as [AC EN]. apply mem_In in EN.
    unfold on_bc in ST. destruct (match_broadcast_result _ _ _ _) as [s|] eqn:M; [|discriminate]. injection ST as <-.
    destruct (bcast_local v (y_bc y) q r s B (E AC) EN M) as ([L1 L2 L3] & K & _ & SG & _).
    apply placed_bc; [|exact (bcast_bpeers _ _ _ _ _ M)|rewrite SG; auto|exact H].
    intros KN. destruct (N.eq_dec p q) as [D|D]; [subst q; apply K; assumption|]. destruct (L1 p D) as (Q1 & Q2 & Q3 & Q4).
    unfold known in *. rewrite Q1, Q2, Q3, Q4. exact KN.
  - destruct H0 as [[R0 H]|[H|(rs & H & _)]]; [|discriminate|discriminate]. apply andb_true_iff in EN as [AC EN]. apply sig_event in EN.
    unfold on_bc in ST. destruct (match_signature_result _ _ _ _ _) as [s|] eqn:M; [|discriminate]. injection ST as <-.
    destruct (sig_local v (y_bc y) q a r s B (E AC) (sfut_waiting _ _ _ EN) M) as ([L1 L2 L3] & K & _).
    apply placed_bc; [|exact (sig_bpeers _ _ _ _ _ _ M)|exact (L3 p)|exact H].
    intros KN. destruct (N.eq_dec p q) as [D|D]; [subst q; apply K; assumption|]. destruct (L1 p D) as (Q1 & Q2 & Q3 & Q4).
    unfold known in *. rewrite Q1, Q2, Q3, Q4. exact KN.
  - destruct H0 as [[R0 H]|[H|(rs & H & _)]]; [|discriminate|discriminate].
    destruct (send_all_ok v (y_bc y) B) as (s & ES & IS & SE). rewrite ES in ST. injection ST as <-.
    destruct SE as [T1 T2 T3 T4 T5 T6 T7]. cbn [b_removed b_inflight b_rej b_sigs b_bpeers b_speers b_bfut b_sfut] in *.
    assert (IN2 : forall x, In x (b_inflight s) <-> In x (b_inflight (y_bc y)) \/ (In x (b_bpeers (y_bc y)) /\ ~ In x (b_removed (y_bc y)))).
    { intros x. rewrite (i_in _ _ IS), (i_in _ _ B), T7. unfold waiting. rewrite T6. tauto. }
    unfold placed, gathered, known in *. cbn [y_bc y_evidence]. rewrite IN2, T2, T3, T4.
    destruct H as [H|[H|H]]; [tauto|tauto|]. right; right. destruct (y_evidence y); [exact H|exact H].
  - destruct H0 as [[R0 H]|[H|(rs & H & _)]]; [|discriminate|discriminate].
    assert (AC : active y = true) by (unfold active; destruct (y_phase y); congruence).
    destruct (match_attempt _ _ _) as [s|] eqn:M; [|discriminate]. injection ST as <-.
    pose proof (attempt_sigs v _ _ _ NS B (E AC) M) as (A1 & A2 & A3).
    assert (X : placed (with_bc y s) p).
    { apply placed_bc; [intros K; exact (attempt_known v _ (y_bc y) s p NS B (E AC) M PS R0 K)|rewrite A3; symmetry; exact (E AC)|rewrite A1; auto|exact H]. }
    eapply placed_same; [..|exact X]; reflexivity.
Qed.

(** [p] is out: the last update about it says so; before any update only the author is out. *)
Fixpoint out (author p : peer) (l : list event) (now : bool) : bool :=
  match l with
  | [] => now
  | EUpdate q st :: r => out author p r (if q =? p then negb st else now)
  | _ :: r => out author p r now
  end.
Lemma out_app author p l m now : out author p (l ++ m) now = out author p m (out author p l now).
Proof. revert now. induction l as [|e l IH]; intros now; [reflexivity|]. destruct e; cbn [app out]; apply IH. Qed.

(** the node was told of [p]: [p] is among the receivers of the point or came online later *)
Definition told (p : peer) (l : list event) : Prop :=
  (exists rs, In (EPoint rs) l /\ In p rs) \/ In (EUpdate p true) l.

Definition fresh_phase (y : sys) : bool := match y_phase y with PMake | PNone => true | _ => false end.

Lemma step_fresh v cur y e z : enabled y e = true -> step v cur y e = Some z ->
  (fresh_phase z = true -> fresh_phase y = true /\ (forall rs, e <> EPoint rs) /\ (forall p st, e <> EUpdate p st)) /\
  (fresh_phase z = false -> fresh_phase y = true -> exists rs, e = EPoint rs).
Proof.
  unfold fresh_phase. intros EN ST. destruct e as [rs| | | | |con tka| | |p st|p r|p a r| |]; cbn [step enabled] in *.
  - destruct (send_all _); [|discriminate]. injection ST as <-. cbn [y_phase]. split; [discriminate|]. eauto.
  - injection ST as <-. cbn [y_phase]. split; [|discriminate]. intros _. destruct (y_phase y); try discriminate. repeat split; intros; discriminate.
  - assert (X : y_phase z = y_phase y) by (injection ST as <-; destruct (y_ok y); reflexivity). rewrite X. split; [intros H; repeat split; auto; intros; discriminate|congruence].
  - assert (X : y_phase z = y_phase y) by (destruct (y_signal y) as [[|]|]; injection ST as <-; try destruct (y_includes y); reflexivity). rewrite X. split; [intros H; repeat split; auto; intros; discriminate|congruence].
  - assert (X : y_phase z = y_phase y) by (injection ST as <-; destruct (_ && _); reflexivity). rewrite X. split; [intros H; repeat split; auto; intros; discriminate|congruence].
  - assert (X : y_phase z = y_phase y) by (injection ST as <-; destruct (_ || _); reflexivity). rewrite X. split; [intros H; repeat split; auto; intros; discriminate|congruence].
  - apply andb_true_iff in EN as [EN _]. unfold is_run in EN. unfold should_finish in ST. destruct (_ <=? _).
    + injection ST as <-. cbn [finish y_phase]. split; [discriminate|]. destruct (y_phase y); discriminate.
    + unfold on_bc in ST. destruct (match_attempt _ _ _); [|discriminate].
      assert (X : y_phase z = y_phase y) by (injection ST as <-; destruct ((v_min v <=? _) && _); reflexivity). rewrite X. destruct (y_phase y); try discriminate. split; [discriminate|]. discriminate.
  - injection ST as <-. cbn [finish y_phase]. split; [discriminate|]. apply andb_true_iff in EN as [EN _]. apply andb_true_iff in EN as [EN _]. unfold is_run in EN. destruct (y_phase y); discriminate.
  - unfold on_bc in ST. destruct (match_peer_update _ _ _); [|discriminate]. injection ST as <-. cbn [with_bc y_phase]. unfold active in EN. destruct (y_phase y); try discriminate; split; discriminate.
  - unfold on_bc in ST. destruct (match_broadcast_result _ _ _ _); [|discriminate]. injection ST as <-. cbn [with_bc y_phase]. unfold active in EN. destruct (y_phase y); try discriminate; split; discriminate.
  - unfold on_bc in ST. destruct (match_signature_result _ _ _ _ _); [|discriminate]. injection ST as <-. cbn [with_bc y_phase]. unfold active in EN. destruct (y_phase y); try discriminate; split; discriminate.
  - destruct (send_all _); [|discriminate]. injection ST as <-. cbn [y_phase]. destruct (y_phase y); try discriminate; split; discriminate.
  - destruct (match_attempt _ _ _); [|discriminate]. injection ST as <-. cbn [y_phase]. destruct (y_phase y); try discriminate; split; discriminate.
Qed.

Lemma snoc_in {A} (x e : A) l : In x (l ++ [e]) <-> In x l \/ x = e.
Proof. rewrite in_app_iff. cbn [In]. split; intros [H|H]; auto; destruct H as [H|[]] || right; auto. Qed.

Lemma told_snoc p l e : told p (l ++ [e]) <-> told p l \/ (exists rs, e = EPoint rs /\ In p rs) \/ e = EUpdate p true.
Proof.
  unfold told. rewrite snoc_in. split.
  - intros [(rs & H & Q)|[H|H]]; [|auto|auto]. apply snoc_in in H as [H|H]; [left; left; eauto|]. right; left. eauto.
  - intros [[(rs & H & Q)|H]|[(rs & H & Q)|H]]; auto; left; exists rs; rewrite snoc_in; auto.
Qed.

Record hist (v : env) (l : list event) (y : sys) : Prop := {
  h_fresh : fresh_phase y = true -> (forall rs, ~ In (EPoint rs) l) /\ (forall p st, ~ In (EUpdate p st) l);
  h_rm : fresh_phase y = false -> forall p, In p (b_removed (y_bc y)) <-> out (v_author v) p l (p =? v_author v) = true;
  h_early : early y;
  h_placed : forall p, In p (v_signers v) -> ~ In p (b_removed (y_bc y)) -> told p l -> placed y p }.

Lemma no_updates_out author p l now : (forall q st, ~ In (EUpdate q st) l) -> out author p l now = now.
Proof.
  revert now. induction l as [|e l IH]; intros now H; [reflexivity|].
  assert (X : forall q st, ~ In (EUpdate q st) l) by (intros q st Q; exact (H q st (or_intror Q))).
  destruct e; cbn [out]; try (apply IH; exact X). exfalso. exact (H _ _ (or_introl eq_refl)).
Qed.

Lemma runs_hist v cur l y : NoDup (v_signers v) -> runs v cur round_start l y -> hist v l y.
Proof.
  intros NS R. induction R as [|l y e z R IH EN ST].
  - constructor.
    + intros _. split; intros; intros [].
    + discriminate.
    + reflexivity.
    + intros p _ _ [(rs & [] & _)|[]].
  - pose proof (runs_yinv v cur _ l y NS (start_yinv v) R) as I. destruct IH as [HF HR HE HP].
    destruct (step_fresh v cur y e z EN ST) as [F1 F2]. pose proof (step_removed v cur y e z NS I EN ST) as RM. constructor.
    + intros Z. destruct (F1 Z) as (Y & X1 & X2). destruct (HF Y) as [Q1 Q2]. split.
      * intros rs H. apply snoc_in in H as [H|H]; [exact (Q1 rs H)|]. exact (X1 rs (eq_sym H)).
      * intros p st H. apply snoc_in in H as [H|H]; [exact (Q2 p st H)|]. exact (X2 p st (eq_sym H)).
    + intros Z p. rewrite out_app. destruct (fresh_phase y) eqn:FY.
      * destruct (F2 Z eq_refl) as (rs & ->). rewrite RM. cbn [out In]. destruct (HF eq_refl) as [_ Q].
        rewrite (no_updates_out _ _ _ _ Q), N.eqb_eq. split; [intros [H|[]]; auto|auto].
      * specialize (HR eq_refl p). destruct e as [rs| | | | |con tka| | |q st|q r|q a r| |]; cbn [out]; rewrite RM; try exact HR.
        -- cbn [enabled] in EN. unfold fresh_phase in FY. destruct (y_phase y); discriminate.
        -- destruct st; cbn [negb].
           ++ rewrite in_del. destruct (N.eqb_spec q p) as [D|D]; [subst q; split; [tauto|discriminate]|]. rewrite HR. split; [tauto|]. intros H. split; [exact H|congruence].
           ++ rewrite in_add. destruct (N.eqb_spec q p) as [D|D]; [subst q; tauto|]. rewrite HR. split; [intros [H|H]; [exact H|congruence]|auto].
    + exact (step_early v cur y e z HE EN ST).
    + intros p PS PR T. apply told_snoc in T.
      assert (RMI : ~ In p (b_removed (y_bc y)) \/ e = EUpdate p true \/ (exists rs, e = EPoint rs)).
      { destruct e as [rs| | | | |con tka| | |q st|q r|q a r| |]; rewrite RM in PR; auto; [right; right; eauto|].
        destruct st; [|left; intros H; apply PR; apply in_add; auto].
        destruct (N.eq_dec p q) as [D|D]; [subst q; auto|]. left. intros H. apply PR. apply in_del. auto. }
      assert (PT : forall rs, e = EPoint rs -> In p rs).
      { intros rs ->. destruct T as [T|[(rs' & T & Q)|T]]; [|injection T as <-; exact Q|discriminate].
        exfalso. cbn [enabled] in EN. assert (FY : fresh_phase y = true) by (unfold fresh_phase; destruct (y_phase y); congruence).
        destruct (HF FY) as [Q1 Q2]. destruct T as [(r1 & T & _)|T]; [exact (Q1 _ T)|exact (Q2 _ _ T)]. }
      eapply (step_placed v cur y e z p NS I HE EN ST PS PR); [|exact PT].
      destruct T as [T|[T|T]]; [|auto|auto].
      destruct RMI as [Q|[Q|(rs & Q)]]; [left; split; [exact Q|]; exact (HP p PS Q T)|auto|]. right; right. exists rs. split; [exact Q|]. apply PT. exact Q.
Qed.

Lemma no_bpeers v cur l y : NoDup (v_signers v) -> runs v cur round_start l y -> b_bpeers (y_bc y) = [].
Proof.
  intros NS R. remember round_start as y0 eqn:EY. induction R as [|l z e z' R IH EN ST]; [rewrite EY; reflexivity|].
      pose proof (runs_yinv v cur _ l z NS (eq_ind_r (yinv v) (start_yinv v) EY) R) as I. destruct (step_yinv v cur z e NS I EN) as (z2 & E2 & [_ E _ _]). rewrite ST in E2. injection E2 as <-.
      destruct (active z') eqn:A; [apply E; reflexivity|]. clear E.
      destruct e as [rs| | | | |con tka| | |p st|p r|p a r| |]; cbn [step] in ST.
      - destruct (send_all _); [|discriminate]. injection ST as <-. discriminate.
      - injection ST as <-. exact IH.
      - injection ST as <-. destruct (y_ok z); exact IH.
      - destruct (y_signal z) as [[|]|]; injection ST as <-; try destruct (y_includes z); exact IH.
      - injection ST as <-. destruct (_ && _); exact IH.
      - injection ST as <-. destruct (_ || _); exact IH.
      - unfold should_finish in ST. destruct (_ <=? _); [injection ST as <-; exact IH|]. unfold on_bc in ST.
        destruct (match_attempt _ _ _); [|discriminate]. injection ST as <-. exfalso.
        cbn [enabled] in EN. apply andb_true_iff in EN as [EN _]. unfold is_run in EN. destruct ((v_min v <=? _) && _); cbn [with_bc active y_phase send seen] in A; unfold active in A; cbn [y_phase send seen with_bc] in A; destruct (y_phase z); discriminate.
      - injection ST as <-. exact IH.
      - unfold on_bc in ST. destruct (match_peer_update _ _ _); [|discriminate]. injection ST as <-. exfalso. cbn [enabled] in EN. unfold active in *. cbn [with_bc y_phase] in A. congruence.
      - unfold on_bc in ST. destruct (match_broadcast_result _ _ _ _); [|discriminate]. injection ST as <-. exfalso. cbn [enabled] in EN. apply andb_true_iff in EN as [EN _]. unfold active in *. cbn [with_bc y_phase] in A. congruence.
      - unfold on_bc in ST. destruct (match_signature_result _ _ _ _ _); [|discriminate]. injection ST as <-. exfalso. cbn [enabled] in EN. apply andb_true_iff in EN as [EN _]. unfold active in *. cbn [with_bc y_phase] in A. congruence.
      - destruct (send_all _); [|discriminate]. injection ST as <-. discriminate.
      - destruct (match_attempt _ _ _); [|discriminate]. injection ST as <-. exfalso. cbn [enabled] in EN. unfold active in A. cbn [y_phase] in A. destruct (y_phase z); discriminate. 
Qed.

(** A validator of the next round the node was told of, and that is not out, is never forgotten: it
    has a query of ours, or is queued for the next attempt, or has rejected the point, or its
    signature is kept. *)
Theorem nobody_forgotten v cur l y p : NoDup (v_signers v) -> runs v cur round_start l y ->
  In p (v_signers v) -> told p l -> out (v_author v) p l (p =? v_author v) = false ->
  In p (b_bfut (y_bc y)) \/ In p (waiting (y_bc y)) \/ In p (b_speers (y_bc y)) \/ In p (b_rej (y_bc y)) \/
  In p (map fst (b_sigs (y_bc y))) \/ In p (map fst (gathered y)).
Proof.
  intros NS R PS T O. pose proof (runs_hist v cur l y NS R) as [HF HR HE HP].
  assert (FY : fresh_phase y = false).
  { destruct (fresh_phase y) eqn:FY; [|reflexivity]. destruct (HF eq_refl) as [Q1 Q2]. destruct T as [(rs & T & _)|T]; [destruct (Q1 _ T)|destruct (Q2 _ _ T)]. }
  assert (PR : ~ In p (b_removed (y_bc y))) by (rewrite (HR FY); congruence).
  destruct (HP p PS PR T) as [[K|[K|[K|K]]]|[K|K]]; auto 7.
  - pose proof (runs_yinv v cur _ l y NS (start_yinv v) R) as [B E _ _]. apply (i_in _ _ B) in K as [K|K]; auto.
  - exfalso. pose proof (no_bpeers v cur l y NS R) as AC.
    rewrite AC in K. exact K.
Qed.
