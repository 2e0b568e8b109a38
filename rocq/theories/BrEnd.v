(** The signals of the broadcaster, the end of a round, retries. *)
From Coq Require Import List Bool NArith Lia ZArith ZifyN ZifyNat ZifyBool Permutation.
From Verif Require Import PsModel PsThms PsPeers PeerCountModel BrModel BrInv BrThms BrMore.
Import ListNotations.
Local Open Scope N_scope.

(** ** Signals *)

Definition nsigs (y : sys) : N := N.of_nat (length (b_sigs (y_bc y))).
Definition nrej (y : sys) : N := N.of_nat (length (b_rej (y_bc y))).

Lemma signal_step v cur y e z : enabled y e = true -> step v cur y e = Some z -> y_signal z <> y_signal y ->
  y_signal y = None /\
  ((e = ENoPoint /\ y_signal z = Some true) \/
   (e = EStatus /\ y_signal z = Some true /\ v_min v <= y_attempt y /\ 2 * v_f v <= nsigs y /\ nrej y < v_f v + 1) \/
   (e = EStatus /\ y_signal z = Some false /\ v_f v + 1 <= nrej y /\ y_phase z = PEnd)) \/
  (e = ENoPoint /\ y_phase y = PMake).
Proof.
  intros EN ST D. destruct e as [rs| | | | |con tka| | |p st|p r|p a r| |]; cbn [step enabled] in *.
  - destruct (send_all _); [|discriminate]. injection ST as <-. destruct (D eq_refl).
  - right. split; [reflexivity|]. destruct (y_phase y); congruence.
  - injection ST as <-. destruct (y_ok y); destruct (D eq_refl).
  - destruct (y_signal y) as [[|]|] eqn:SG; injection ST as <-; try destruct (y_includes y); exfalso; apply D; rewrite <- ?SG; reflexivity.
  - injection ST as <-. destruct (y_includes y && _); destruct (D eq_refl).
  - injection ST as <-. destruct (_ || _); destruct (D eq_refl).
  - left. unfold should_finish in ST. unfold nsigs, nrej, reliable_minority, majority_of_others in *. cbn [seen y_bc y_attempt] in ST.
    destruct (N.leb_spec (v_f v + 1) (N.of_nat (length (b_rej (y_bc y))))) as [L|L].
    + injection ST as <-. cbn [finish send seen y_signal y_phase] in *. destruct (y_signal y) eqn:SG; [destruct (D eq_refl)|].
      split; [reflexivity|]. right; right. auto.
    + unfold on_bc in ST. destruct (match_attempt _ _ _); [|discriminate]. injection ST as <-.
      destruct (N.leb_spec (v_min v) (y_attempt y)) as [L2|L2]; cbn [andb] in *; [|destruct (D eq_refl)].
      destruct (N.leb_spec (v_f v * 2) (N.of_nat (length (b_sigs (y_bc y))))) as [L3|L3]; [|destruct (D eq_refl)].
      cbn [with_bc send seen y_signal] in *. destruct (y_signal y) eqn:SG; [destruct (D eq_refl)|].
      split; [reflexivity|]. right; left. repeat split; auto. lia.
  - injection ST as <-. destruct (D eq_refl).
  - unfold on_bc in ST. destruct (match_peer_update _ _ _); [|discriminate]. injection ST as <-. destruct (D eq_refl).
  - unfold on_bc in ST. destruct (match_broadcast_result _ _ _ _); [|discriminate]. injection ST as <-. destruct (D eq_refl).
  - unfold on_bc in ST. destruct (match_signature_result _ _ _ _ _); [|discriminate]. injection ST as <-. destruct (D eq_refl).
  - destruct (send_all _); [|discriminate]. injection ST as <-. destruct (D eq_refl).
  - destruct (match_attempt _ _ _); [|discriminate]. injection ST as <-. destruct (D eq_refl).
Qed.

Lemma step_gathered v cur y e z : NoDup (v_signers v) -> yinv v y -> early y -> enabled y e = true -> step v cur y e = Some z ->
  (forall rs, e <> EPoint rs) -> (length (gathered y) <= length (gathered z))%nat.
Proof.
  intros NS I EA EN ST NP. pose proof I as [B E EV EVN].
  destruct e as [rs| | | | |con tka| | |q st|q r|q a r| |]; cbn [step enabled] in *.
  - destruct (NP rs eq_refl).
  - injection ST as <-. reflexivity.
  - injection ST as <-. destruct (y_ok y); reflexivity.
  - destruct (y_signal y) as [[|]|]; injection ST as <-; try destruct (y_includes y); reflexivity.
  - injection ST as <-. destruct (_ && _); reflexivity.
  - injection ST as <-. destruct (_ || _); reflexivity.
  - apply andb_true_iff in EN as [EN _].
    assert (AC : active y = true) by (unfold is_run in EN; unfold active; destruct (y_phase y); congruence).
    assert (EE : y_evidence y = None) by (unfold is_run in EN; unfold early in EA; destruct (y_phase y); congruence).
    unfold should_finish in ST. destruct (_ <=? _).
    + injection ST as <-. unfold gathered. rewrite EE. reflexivity.
    + unfold on_bc in ST. destruct (match_attempt _ _ _) as [s|] eqn:M in ST; [|discriminate]. injection ST as <-.
      assert (M' : match_attempt v (y_attempt y) (y_bc y) = Some s) by (rewrite <- M; destruct ((v_min v <=? _) && _); reflexivity).
      destruct (attempt_sigs v _ _ _ NS B (E AC) M') as (A1 & _ & _). unfold gathered. rewrite EE.
      destruct ((v_min v <=? _) && _); cbn [with_bc send seen y_evidence y_bc]; rewrite EE, A1; reflexivity.
  - injection ST as <-. apply andb_true_iff in EN as [EN _]. apply andb_true_iff in EN as [EN _].
    assert (EE : y_evidence y = None) by (unfold is_run in EN; unfold early in EA; destruct (y_phase y); congruence).
    unfold gathered. rewrite EE. reflexivity.
  - unfold on_bc in ST. destruct (match_peer_update _ _ _) as [s|] eqn:M; [|discriminate]. injection ST as <-.
    destruct (update_ok v (y_bc y) q st B (E EN)) as (s1 & E1 & _ & BE & SG & _). rewrite M in E1. injection E1 as <-.
    unfold gathered. cbn [with_bc y_evidence y_bc]. destruct (y_evidence y); [reflexivity|]. rewrite SG. reflexivity.
  - apply andb_true_iff in EN as [AC EN]. apply mem_In in EN.
    unfold on_bc in ST. destruct (match_broadcast_result _ _ _ _) as [s|] eqn:M; [|discriminate]. injection ST as <-.
    destruct (bcast_local v (y_bc y) q r s B (E AC) EN M) as (_ & K & _ & SG & _).
    unfold gathered. cbn [with_bc y_evidence y_bc]. destruct (y_evidence y); [reflexivity|]. rewrite SG. reflexivity.
  - apply andb_true_iff in EN as [AC EN]. apply sig_event in EN.
    unfold on_bc in ST. destruct (match_signature_result _ _ _ _ _) as [s|] eqn:M; [|discriminate]. injection ST as <-.
    destruct (sig_local v (y_bc y) q a r s B (E AC) (sfut_waiting _ _ _ EN) M) as ([L1 L2 L3] & K & _).
    unfold gathered. cbn [with_bc y_evidence y_bc]. destruct (y_evidence y); [reflexivity|exact L2].
  - destruct (send_all_ok v (y_bc y) B) as (s & ES & IS & [T1 T2 T3 T4 T5 T6 T7]). rewrite ES in ST. injection ST as <-.
    unfold gathered. cbn [y_evidence y_bc b_sigs] in *. destruct (y_evidence y); [reflexivity|]. rewrite T3. reflexivity.
  - assert (AC : active y = true) by (unfold active; destruct (y_phase y); congruence).
    destruct (match_attempt _ _ _) as [s|] eqn:M; [|discriminate]. injection ST as <-.
    destruct (attempt_sigs v _ _ _ NS B (E AC) M) as (A1 & _ & _).
    unfold gathered. cbn [y_evidence y_bc]. destruct (y_evidence y); [reflexivity|]. rewrite A1. reflexivity.
Qed.

Definition is_tick (e : event) : bool := match e with ETick => true | _ => false end.
(** how often the collector's interval ticked *)
Definition ticks (l : list event) : N := N.of_nat (length (filter is_tick l)).
Lemma ticks_snoc l e : ticks (l ++ [e]) = ticks l + (if is_tick e then 1 else 0).
Proof. unfold ticks. rewrite filter_app, app_length. cbn [filter]. destruct (is_tick e); cbn [length]; lia. Qed.

(** the parts of the state the collector deals with *)
Record ginv (v : env) (cur : round) (l : list event) (y : sys) : Prop := {
  g_make : y_phase y = PMake -> y_signal y = None;
  g_none : y_phase y = PNone -> In ENoPoint l;
  g_own : fresh_phase y = false -> y_signal y = Some true -> 2 * v_f v <= N.of_nat (length (gathered y)) /\ v_min v <= ticks l;
  g_fail : y_signal y = Some false -> y_phase y = PEnd \/ y_phase y = PCont;
  g_att : y_attempt y <= ticks l;
  g_ok : y_ok y = true -> y_signal y = Some true;
  g_inc : y_includes y = true -> In EThreshold l;
  g_done : y_includes y = true -> y_ok y = true -> y_end y <> None;
  g_end : match y_end y with
          | None => True
          | Some Ready => y_includes y = true /\ y_ok y = true
          | Some Failed => y_signal y = Some false
          | Some Outrun => exists con tka, In (ERounds con tka) l /\ (cur + 1 < con \/ cur <= tka)
          end }.

Lemma in_snoc_l {A} (x e : A) l : In x l -> In x (l ++ [e]).
Proof. intros H. apply in_app_iff. auto. Qed.
Lemma end_grow cur l e w : match w with
          | Some Outrun => exists con tka, In (ERounds con tka) l /\ (cur + 1 < con \/ cur <= tka)
          | _ => True end ->
  match w with
          | Some Outrun => exists con tka, In (ERounds con tka) (l ++ [e]) /\ (cur + 1 < con \/ cur <= tka)
          | _ => True end.
Proof. destruct w as [[| |]|]; auto. intros (c & t & H & Q). exists c, t. split; [apply in_snoc_l; exact H|exact Q]. Qed.

(** a step that touches neither the signal, the phase nor the collector's side *)
Lemma ginv_bc v cur l y e z : ginv v cur l y -> y_phase z = y_phase y -> y_signal z = y_signal y ->
  y_ok z = y_ok y -> y_includes z = y_includes y -> y_end z = y_end y -> y_attempt z = y_attempt y ->
  (length (gathered y) <= length (gathered z))%nat -> ginv v cur (l ++ [e]) z.
Proof.
  intros [G1 G2 G3 G4 G5 G6 G7 G8 G9] P S O I E A G. constructor; rewrite ?P, ?S, ?O, ?I, ?E, ?A; auto.
  - intros H. apply in_snoc_l. auto.
  - intros F H. unfold fresh_phase in *. rewrite P in F. destruct (G3 F H) as [Q1 Q2]. rewrite ticks_snoc. lia.
  - rewrite ticks_snoc. lia.
  - intros H. apply in_snoc_l. auto.
  - destruct (y_end y) as [[| |]|]; auto. destruct G9 as (c & t & H & Q). exists c, t. split; [apply in_snoc_l; exact H|exact Q].
Qed.

Lemma runs_ginv v cur l y : NoDup (v_signers v) -> runs v cur round_start l y -> ginv v cur l y.
Proof.
  intros NS R. induction R as [|l y e z R IH EN ST].
  - constructor; cbn; try discriminate; auto; try lia.
  - pose proof (runs_yinv v cur _ l y NS (start_yinv v) R) as I. pose proof (h_early _ _ _ (runs_hist v cur l y NS R)) as EA.
    assert (GA : (forall rs, e <> EPoint rs) -> (length (gathered y) <= length (gathered z))%nat) by (intros NP; eapply step_gathered; eauto).
    pose proof IH as [G1 G2 G3 G4 G5 G6 G7 G8 G9].
    destruct e as [rs| | | | |con tka| | |q st|q r|q a r| |]; cbn [enabled] in EN.
    + cbn [step] in ST. destruct (send_all _); [|discriminate]. injection ST as <-. assert (PM : y_phase y = PMake) by (destruct (y_phase y); congruence).
      specialize (G1 PM). constructor; cbn [y_phase y_signal y_attempt y_ok y_includes y_end fresh_phase]; rewrite ?G1; try discriminate; auto.
      * rewrite ticks_snoc. lia.
      * rewrite G1 in G6. auto.
      * intros H. apply in_snoc_l. auto.
      * rewrite G1 in G9. destruct (y_end y) as [[| |]|]; auto. destruct G9 as (c & t & H & Q). exists c, t. split; [apply in_snoc_l; exact H|exact Q].
    + cbn [step] in ST. injection ST as <-. assert (PM : y_phase y = PMake) by (destruct (y_phase y); congruence). specialize (G1 PM).
      constructor; cbn [y_phase y_signal y_attempt y_ok y_includes y_end fresh_phase]; try discriminate; auto.
      * intros _. apply snoc_in. auto.
      * rewrite ticks_snoc. lia.
      * intros H. apply in_snoc_l. auto.
      * rewrite G1 in G9. destruct (y_end y) as [[| |]|]; auto; try discriminate. destruct G9 as (c & t & H & Q). exists c, t. split; [apply in_snoc_l; exact H|exact Q].
    + specialize (GA ltac:(intros; discriminate)). cbn [step] in ST. apply andb_true_iff in EN as [EN1 EN2]. unfold running in EN1. destruct (y_end y) eqn:YE; [discriminate|].
      assert (Z : y_phase z = y_phase y /\ y_signal z = y_signal y /\ y_attempt z = y_attempt y /\ y_ok z = y_ok y /\ y_includes z = true /\ y_end z = if y_ok y then Some Ready else None).
      { injection ST as <-. destruct (y_ok y) eqn:OK; cbn [stop y_phase y_signal y_attempt y_ok y_includes y_end]; rewrite ?YE, ?OK; repeat split; reflexivity. }
      destruct Z as (Z1 & Z2 & Z3 & Z4 & Z5 & Z6).
      constructor; rewrite ?Z1, ?Z2, ?Z3, ?Z4, ?Z5, ?Z6; auto.
      * intros H. apply in_snoc_l. auto.
      * intros F H. unfold fresh_phase in *. rewrite Z1 in F. destruct (G3 F H). rewrite ticks_snoc. lia.
      * rewrite ticks_snoc. lia.
      * intros _. apply snoc_in. auto.
      * intros _ H. rewrite H. discriminate.
      * destruct (y_ok y); auto.
    + specialize (GA ltac:(intros; discriminate)). cbn [step] in ST. apply andb_true_iff in EN as [EN1 EN2]. apply andb_true_iff in EN1 as [EN1 EN3]. unfold running in EN1. destruct (y_end y) eqn:YE; [discriminate|].
      destruct (y_signal y) as [b|] eqn:SG; [|discriminate].
      assert (Z : y_phase z = y_phase y /\ y_signal z = Some b /\ y_attempt z = y_attempt y /\ y_ok z = b /\ y_includes z = y_includes y /\ y_end z = if b then (if y_includes y then Some Ready else None) else Some Failed).
      { apply negb_true_iff in EN3. destruct b; injection ST as <-; [destruct (y_includes y) eqn:IC|]; cbn [stop y_phase y_signal y_attempt y_ok y_includes y_end]; rewrite ?YE, ?EN3, ?IC; repeat split; auto. }
      destruct Z as (Z1 & Z2 & Z3 & Z4 & Z5 & Z6).
      constructor; rewrite ?Z1, ?Z2, ?Z3, ?Z4, ?Z5, ?Z6; auto.
      * intros H. apply in_snoc_l. auto.
      * intros F H. unfold fresh_phase in *. rewrite Z1 in F. destruct (G3 F H). rewrite ticks_snoc. lia.
      * rewrite ticks_snoc. lia.
      * intros ->. reflexivity.
      * intros H. apply in_snoc_l. auto.
      * intros H ->. rewrite H. discriminate.
      * destruct b; [destruct (y_includes y); auto|reflexivity].
    + specialize (GA ltac:(intros; discriminate)). cbn [step] in ST. unfold running in EN. destruct (y_end y) eqn:YE; [discriminate|].
      assert (IO : y_includes y && y_ok y = false).
      { destruct (y_includes y); [|reflexivity]. destruct (y_ok y); [|reflexivity]. exfalso. apply G8; reflexivity. }
      rewrite IO in ST. injection ST as <-. constructor; cbn [y_phase y_signal y_attempt y_ok y_includes y_end fresh_phase]; auto.
      * intros H. apply in_snoc_l. auto.
      * intros F H. destruct (G3 F H). rewrite ticks_snoc. cbn [is_tick]. unfold gathered in *. cbn [y_evidence y_bc] in *. lia.
      * rewrite ticks_snoc. cbn [is_tick]. pose proof (N.mod_le (y_attempt y + 1) 256 ltac:(lia)) as Q. lia.
      * intros H. apply in_snoc_l. auto.
    + specialize (GA ltac:(intros; discriminate)). cbn [step] in ST. unfold running in EN. destruct (y_end y) eqn:YE; [discriminate|].
      destruct ((cur + 1 <? con) || (cur <=? tka)) eqn:C.
      * injection ST as <-. constructor; cbn [stop y_phase y_signal y_attempt y_ok y_includes y_end fresh_phase]; auto.
        -- intros H. apply in_snoc_l. auto.
        -- intros F H. destruct (G3 F H). rewrite ticks_snoc. cbn [is_tick]. unfold gathered in *. cbn [y_evidence y_bc] in *. lia.
        -- rewrite ticks_snoc. lia.
        -- intros H. apply in_snoc_l. auto.
        -- discriminate.
        -- exists con, tka. split; [apply snoc_in; auto|]. lia.
      * injection ST as <-. apply (ginv_bc v cur l y _ y IH); auto.
    + specialize (GA ltac:(intros; discriminate)). pose proof (signal_step v cur y EStatus z EN ST) as SS. apply andb_true_iff in EN as [EN EN2].
      assert (PR : y_phase y = PRun) by (unfold is_run in EN; destruct (y_phase y); congruence).
      assert (EE : y_evidence y = None) by (unfold early in EA; rewrite PR in EA; exact EA).
      assert (Z : (y_phase z = PRun \/ y_phase z = PEnd) /\ y_attempt z = y_attempt y /\ y_ok z = y_ok y /\ y_includes z = y_includes y /\ y_end z = y_end y).
      { cbn [step] in ST. unfold should_finish in ST. destruct (_ <=? _); [injection ST as <-; cbn; auto 6|]. unfold on_bc in ST.
        destruct (match_attempt _ _ _); [|discriminate]. injection ST as <-. destruct ((v_min v <=? _) && _); cbn [with_bc send seen y_phase y_attempt y_ok y_includes y_end]; auto 6. }
      destruct Z as (Z1 & Z3 & Z4 & Z5 & Z6).
      assert (S : y_signal z = y_signal y \/ y_signal z <> y_signal y) by (destruct (y_signal z) as [[|]|], (y_signal y) as [[|]|]; (left; reflexivity) || (right; discriminate)).
      constructor; rewrite ?Z3, ?Z4, ?Z5, ?Z6; auto.
      * intros H. destruct Z1; congruence.
      * intros H. destruct Z1; congruence.
      * intros F H. destruct S as [S|S].
        -- assert (FY : fresh_phase y = false) by (unfold fresh_phase; rewrite PR; reflexivity). rewrite S in H. destruct (G3 FY H). rewrite ticks_snoc. lia.
        -- destruct (SS S) as [(_ & [(Q & _)|[(_ & _ & Q1 & Q2 & Q3)|(_ & Q & _)]])|(Q & _)]; try discriminate; [|congruence].
           unfold nsigs, gathered in *. rewrite EE in GA. rewrite ticks_snoc. cbn [is_tick]. lia.
      * intros H. destruct S as [S|S].
        -- rewrite S in H. destruct (G4 H); congruence.
        -- destruct (SS S) as [(_ & [(Q & _)|[(_ & Q & Q1 & Q2 & Q3)|(_ & Q & _ & Q2)]])|(Q & _)]; try discriminate; [congruence|auto].
      * rewrite ticks_snoc. lia.
      * intros H. destruct S as [S|S]; [rewrite S; auto|]. specialize (G6 H). destruct (SS S) as [(Q & _)|(Q & _)]; [congruence|discriminate].
      * intros H. apply in_snoc_l. auto.
      * destruct (y_end y) as [[| |]|]; auto; [|destruct G9 as (c & t & H & Q); exists c, t; split; [apply in_snoc_l; exact H|exact Q]].
        destruct S as [S|S]; [congruence|]. destruct (SS S) as [(Q & _)|(Q & _)]; [congruence|discriminate].
    + specialize (GA ltac:(intros; discriminate)). cbn [step] in ST. injection ST as <-. apply andb_true_iff in EN as [EN EN2]. apply andb_true_iff in EN as [EN EN3].
      assert (PR : y_phase y = PRun) by (unfold is_run in EN; destruct (y_phase y); congruence).
      constructor; cbn [finish y_phase y_signal y_attempt y_ok y_includes y_end fresh_phase]; auto; try discriminate.
      * intros _ H. assert (FY : fresh_phase y = false) by (unfold fresh_phase; rewrite PR; reflexivity). destruct (G3 FY H). rewrite ticks_snoc. split; [|lia].
        unfold finish in *. lia.
      * rewrite ticks_snoc. lia.
      * intros H. apply in_snoc_l. auto.
      * destruct (y_end y) as [[| |]|]; auto. destruct G9 as (c & t & H & Q). exists c, t. split; [apply in_snoc_l; exact H|exact Q].
    + specialize (GA ltac:(intros; discriminate)). cbn [step] in ST. unfold on_bc in ST. destruct (match_peer_update _ _ _); [|discriminate]. injection ST as <-. apply (ginv_bc v cur l y); auto.
    + specialize (GA ltac:(intros; discriminate)). cbn [step] in ST. unfold on_bc in ST. destruct (match_broadcast_result _ _ _ _); [|discriminate]. injection ST as <-. apply (ginv_bc v cur l y); auto.
    + specialize (GA ltac:(intros; discriminate)). cbn [step] in ST. unfold on_bc in ST. destruct (match_signature_result _ _ _ _ _); [|discriminate]. injection ST as <-. apply (ginv_bc v cur l y); auto.
    + specialize (GA ltac:(intros; discriminate)). cbn [step] in ST. destruct (send_all _) as [s|]; [|discriminate]. injection ST as <-.
      assert (PR : y_phase y = PEnd) by (destruct (y_phase y); congruence).
      constructor; cbn [y_phase y_signal y_attempt y_ok y_includes y_end fresh_phase]; auto; try discriminate.
      * intros _ H. assert (FY : fresh_phase y = false) by (unfold fresh_phase; rewrite PR; reflexivity). destruct (G3 FY H). rewrite ticks_snoc. split; lia.
      * rewrite ticks_snoc. lia.
      * intros H. apply in_snoc_l. auto.
      * destruct (y_end y) as [[| |]|]; auto. destruct G9 as (c & t & H & Q). exists c, t. split; [apply in_snoc_l; exact H|exact Q].
    + specialize (GA ltac:(intros; discriminate)). cbn [step] in ST. destruct (match_attempt _ _ _); [|discriminate]. injection ST as <-. apply (ginv_bc v cur l y); auto.
Qed.

(** A signal is given once and never withdrawn. It is an approval only when there is no own point,
    or at a status of the collector when the minimal number of attempts is made, 2F signatures are
    gathered and less than F+1 peers rejected; it is a failure only when F+1 peers rejected, and
    the broadcast of the round ends with it. *)
Theorem signals_are_justified v cur l y e z : NoDup (v_signers v) -> runs v cur round_start l y ->
  enabled y e = true -> step v cur y e = Some z -> y_signal z <> y_signal y ->
  y_signal y = None /\
  ((e = ENoPoint /\ y_signal z = Some true) \/
   (e = EStatus /\ y_signal z = Some true /\ v_min v <= y_attempt y /\ 2 * v_f v <= nsigs y /\ nrej y < v_f v + 1) \/
   (e = EStatus /\ y_signal z = Some false /\ v_f v + 1 <= nrej y /\ y_phase z = PEnd)).
Proof.
  intros NS R EN ST D. destruct (signal_step v cur y e z EN ST D) as [H|(-> & H)]; [exact H|].
  split; [exact (g_make _ _ _ _ (runs_ginv v cur l y NS R) H)|]. left. split; [reflexivity|]. injection ST as <-. reflexivity.
Qed.

(** The broadcaster decides at every status: with F+1 rejections it ends with a failure, with 2F
    signatures after enough attempts it approves, unless it has given a signal before. *)
Theorem signals_are_prompt v cur l y z : NoDup (v_signers v) -> runs v cur round_start l y ->
  enabled y EStatus = true -> step v cur y EStatus = Some z ->
  (v_f v + 1 <= nrej y -> y_phase z = PEnd /\ y_evidence z = Some (b_sigs (y_bc y)) /\ (y_signal y = None -> y_signal z = Some false)) /\
  (nrej y < v_f v + 1 -> y_phase z = PRun /\
     (v_min v <= y_attempt y -> 2 * v_f v <= nsigs y -> y_signal y = None -> y_signal z = Some true)).
Proof.
  intros NS R EN ST. cbn [step enabled] in *. apply andb_true_iff in EN as [EN _].
  assert (PR : y_phase y = PRun) by (unfold is_run in EN; destruct (y_phase y); congruence).
  unfold should_finish in ST. unfold nsigs, nrej, reliable_minority, majority_of_others in *. cbn [seen y_bc y_attempt] in ST.
  destruct (N.leb_spec (v_f v + 1) (N.of_nat (length (b_rej (y_bc y))))) as [L|L].
  - injection ST as <-. cbn [finish send seen y_phase y_evidence y_signal y_bc]. split; [|lia]. intros _. split; [reflexivity|]. split; [reflexivity|].
    intros ->. reflexivity.
  - split; [lia|]. intros _. unfold on_bc in ST. destruct (match_attempt _ _ _); [|discriminate]. injection ST as <-.
    split; [destruct ((v_min v <=? _) && _); exact PR|]. intros H1 H2 H3.
    destruct (N.leb_spec (v_min v) (y_attempt y)) as [L2|L2]; [|lia]. destruct (N.leb_spec (v_f v * 2) (N.of_nat (length (b_sigs (y_bc y))))) as [L3|L3]; [|lia].
    cbn [andb with_bc send seen y_signal]. rewrite H3. reflexivity.
Qed.

(** A round is over only for one of three reasons: enough points of the round are validated and
    either there is no own point or 2F others signed it, after the minimal number of attempts; or
    F+1 peers rejected the own point; or the consensus or the known anchors went further. *)
Theorem round_ends_for_a_reason v cur l y : NoDup (v_signers v) -> runs v cur round_start l y ->
  match y_end y with
  | None => True
  | Some Ready => In EThreshold l /\
      (In ENoPoint l \/ (2 * v_f v <= N.of_nat (length (gathered y)) /\ v_min v <= ticks l))
  | Some Failed => y_signal y = Some false
  | Some Outrun => exists con tka, In (ERounds con tka) l /\ (cur + 1 < con \/ cur <= tka)
  end.
Proof.
  intros NS R. pose proof (runs_ginv v cur l y NS R) as [G1 G2 G3 G4 G5 G6 G7 G8 G9]. destruct (y_end y) as [[| |]|]; auto.
  destruct G9 as [Q1 Q2]. split; [auto|]. specialize (G6 Q2). destruct (fresh_phase y) eqn:F; [|right; auto]. left. apply G2.
  unfold fresh_phase in F. destruct (y_phase y); try discriminate; [|reflexivity]. specialize (G1 eq_refl). congruence.
Qed.

(** A failed round: F+1 peers had rejected the point at a status of the collector. *)
Theorem failure_needs_rejections v cur l y : NoDup (v_signers v) -> runs v cur round_start l y -> y_signal y = Some false ->
  exists l1 z l2, l = l1 ++ EStatus :: l2 /\ runs v cur round_start l1 z /\ v_f v + 1 <= nrej z.
Proof.
  intros NS R. induction R as [|l y e z R IH EN ST]; [discriminate|]. intros H.
  assert (S : y_signal z = y_signal y \/ y_signal z <> y_signal y) by (destruct (y_signal z) as [[|]|], (y_signal y) as [[|]|]; (left; reflexivity) || (right; discriminate)).
  destruct S as [S|S].
  - rewrite S in H. destruct (IH H) as (l1 & x & l2 & -> & R1 & Q). exists l1, x, (l2 ++ [e]). split; [rewrite <- app_assoc; reflexivity|]. auto.
  - destruct (signals_are_justified v cur l y e z NS R EN ST S) as (_ & [(_ & Q)|[(_ & Q & _)|(-> & _ & Q & _)]]); [congruence|congruence|].
    exists l, y, []. auto.
Qed.

(** A round that has enough points and an approval is over at once; it is never over twice, and
    nothing but its own broadcast changes afterwards. *)
Theorem ready_round_is_over v cur l y : NoDup (v_signers v) -> runs v cur round_start l y ->
  y_includes y = true -> y_ok y = true -> y_end y <> None.
Proof. intros NS R. exact (g_done _ _ _ _ (runs_ginv v cur l y NS R)). Qed.

Theorem round_ends_once v cur y e z w : y_end y = Some w -> enabled y e = true -> step v cur y e = Some z ->
  y_end z = Some w /\ y_includes z = y_includes y /\ y_ok z = y_ok y /\ y_attempt z = y_attempt y.
Proof.
  intros YE EN ST. destruct e as [rs| | | | |con tka| | |p st|p r|p a r| |]; cbn [step enabled] in *; unfold running in EN; rewrite ?YE in EN; try discriminate.
  - destruct (send_all _); [|discriminate]. injection ST as <-. auto.
  - injection ST as <-. auto.
  - unfold should_finish in ST. destruct (_ <=? _); [injection ST as <-; auto|]. unfold on_bc in ST.
    destruct (match_attempt _ _ _); [|discriminate]. injection ST as <-. destruct ((v_min v <=? _) && _); auto.
  - injection ST as <-. auto.
  - unfold on_bc in ST. destruct (match_peer_update _ _ _); [|discriminate]. injection ST as <-. auto.
  - unfold on_bc in ST. destruct (match_broadcast_result _ _ _ _); [|discriminate]. injection ST as <-. auto.
  - unfold on_bc in ST. destruct (match_signature_result _ _ _ _ _); [|discriminate]. injection ST as <-. auto.
  - destruct (send_all _); [|discriminate]. injection ST as <-. auto.
  - destruct (match_attempt _ _ _); [|discriminate]. injection ST as <-. auto.
Qed.
