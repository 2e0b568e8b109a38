(** * Block strider: within one life of the process no block is handled twice (C46). *)
From Coq Require Import List NArith Lia Bool.
From Verif Require Import StriderModel StriderSpec StriderInv StriderStep StriderProps.
Import ListNotations.
Open Scope N_scope.

Definition in_flight (ph : phase) (b : blk) : Prop :=
  match ph with
  | PhProc _ ls => exists l st, In l ls /\ l_cur l = Some (b, st)
  | PhMast m st => st <> MTake /\ b = m
  | PhEnd | PhFail => True
  | _ => False
  end.

Definition no_lost_commit (t : list ev) : Prop := forall b, ~ In (EComS b false) (since t).

Definition once_ok (t : list ev) : Prop :=
  forall l2 b m l1, t = l2 ++ EHand0 b m :: l1 -> no_lost_commit l1 ->
    forall m', ~ In (EHand0 b m') (since l1).

Record inv2 (c : scfg) (s : sst) : Prop := {
  i2_once : once_ok (s_tr s);
  i2_set : no_lost_commit (s_tr s) -> forall b m, In (EHand0 b m) (since (s_tr s)) ->
           is_committed c (s_wal s) b = true \/ in_flight (s_ph s) b }.

Lemma once_cons e t : once_ok t ->
  (forall b m, e = EHand0 b m -> no_lost_commit t -> forall m', ~ In (EHand0 b m') (since t)) ->
  once_ok (e :: t).
Proof.
  intros H He l2 b m l1 E. destruct l2 as [|x l2]; cbn in E; injection E as -> ->.
  - intros Hn. apply He with m; auto.
  - eapply H; reflexivity.
Qed.

Lemma nlc_cons e t : (forall n, e <> ECrash n) -> no_lost_commit (e :: t) ->
  no_lost_commit t /\ (forall b, e <> EComS b false).
Proof.
  intros Hc H. split.
  - intros b Hb. apply (H b). destruct e; cbn; auto. exfalso. eapply Hc; reflexivity.
  - intros b ->. apply (H b). cbn. auto.
Qed.

Definition not_crash (e : ev) : Prop := match e with ECrash _ => False | _ => True end.
Lemma nlc_tl e t : no_lost_commit (e :: t) -> not_crash e -> no_lost_commit t.
Proof. intros H Hc b Hb. apply (H b). destruct e; cbn in *; auto. Qed.

Lemma in_since e t x : (forall n, e <> ECrash n) -> In x (since (e :: t)) -> e = x \/ In x (since t).
Proof. intros Hc. destruct e; cbn; auto. exfalso. eapply Hc; reflexivity. Qed.

(** A step that leaves the record of handled blocks, the storage flags and the
    blocks in flight as they are (or larger). *)
Lemma inv2_keep c s s' : inv2 c s ->
  (s_tr s' = s_tr s \/
   exists e, s_tr s' = e :: s_tr s /\ (forall n, e <> ECrash n) /\ (forall b m, e <> EHand0 b m)) ->
  (forall b, is_committed c (s_wal s) b = true -> is_committed c (s_wal s') b = true) ->
  (forall b, in_flight (s_ph s) b ->
     in_flight (s_ph s') b \/ is_committed c (s_wal s') b = true \/ In (EComS b false) (since (s_tr s'))) ->
  inv2 c s'.
Proof.
  intros [O S1] Ht Hc Hf. destruct Ht as [Ht|(e&Ht&He1&He2)].
  - constructor; rewrite Ht; auto. intros Hn b m Hb.
    destruct (S1 Hn b m Hb) as [K|K]; [left; auto|].
    destruct (Hf b K) as [K'|[K'|K']]; auto. exfalso. rewrite Ht in K'. exact (Hn b K').
  - constructor; rewrite Ht.
    + apply once_cons; auto. intros b m E. exfalso. eapply He2; eauto.
    + intros Hn b m Hb. destruct (nlc_cons _ _ He1 Hn) as [Hn' Hn''].
      destruct (in_since _ _ _ He1 Hb) as [->|Hb']; [exfalso; eapply He2; reflexivity|].
      destruct (S1 Hn' b m Hb') as [K|K]; [left; auto|].
      destruct (Hf b K) as [K'|[K'|K']]; auto. exfalso. rewrite Ht in K'. exact (Hn b K').
Qed.

Lemma set_nth_in {A} i (x : A) l y : nth_error l i = Some y -> In x (set_nth i x l).
Proof.
  revert i. induction l as [|z l IH]; intros [|i]; cbn; try discriminate; eauto.
Qed.

(** Replacing line [i] by a line with the same current block keeps what is in flight. *)
Lemma flight_same m ls i l l' b : nth_error ls i = Some l ->
  (forall st, l_cur l = Some (b, st) -> exists st', l_cur l' = Some (b, st')) ->
  in_flight (PhProc m ls) b -> in_flight (PhProc m (set_nth i l' ls)) b.
Proof.
  intros En Hc (x&st&Hx&Hl). cbn.
  destruct (In_nth_error _ _ Hx) as (j&Hj). destruct (PeanoNat.Nat.eq_dec i j) as [->|Hne].
  - assert (x = l) by congruence. subst x. destruct (Hc st Hl) as (st'&Hl').
    exists l', st'. split; [eapply set_nth_in; eauto|exact Hl'].
  - exists x, st. split; [|exact Hl].
    clear -Hj Hne. revert i j Hj Hne. induction ls as [|y ls IH]; intros [|i] [|j] Hj Hne; cbn in *; try discriminate; auto.
    + contradiction.
    + eapply nth_error_In in Hj. auto.
    + injection Hj as ->. auto.
    + right. eapply IH; eauto.
Qed.

Lemma com_mono_step c s l s' : wf_cfg c -> inv c s -> sstep c s l = Some s' -> (forall n, l <> LCrash n) ->
  forall b, is_committed c (s_wal s) b = true -> is_committed c (s_wal s') b = true.
Proof.
  intros W I0 E Hl b Hb.
  assert (Ax : forall x, (forall m, x <> WMaster m) -> is_committed c (x :: s_wal s) b = true).
  { intros x Hx. unfold is_committed in *. destruct x; cbn [last_mc existsb is_wshard] in *; auto.
    - destruct (is_mc b); auto. apply orb_true_iff in Hb. apply orb_true_iff.
      destruct Hb as [Hb|Hb]; [auto|]. right. apply orb_true_iff. auto.
    - exfalso. eapply Hx; reflexivity. }
  assert (Pe : forall m st nx, s_wal (prep_events c m st nx) = s_wal st).
  { intros m st [[x y]|]; reflexivity. }
  destruct l; cbn in E;
    repeat (match type of E with
            | context [match pop_prep ?x with _ => _ end] => destruct (pop_prep x)
            | context [match ?x with _ => _ end] => destruct x eqn:?
            end; try discriminate);
    try (injection E as <-; cbn; rewrite ?Pe; first [exact Hb|apply Ax; congruence]).
  - (* master commit *)
    injection E as <-. cbn. unfold is_committed in *. cbn [last_mc existsb is_wshard].
    destruct (is_mc b); auto. apply N.leb_le in Hb. apply N.leb_le.
    destruct I0 as [_ _ _ Ip]. unfold phase_inv in Ip. rewrite Heqp in Ip.
    destruct Ip as ((Nx&_)&_). destruct (next_seq _ _ _ Nx). lia.
  - exfalso. eapply Hl; reflexivity.
Qed.

Lemma f2_same (R : blk -> line -> Prop) ts ls x y b : Forall2 R ts ls -> NoDup (map b_shard ts) ->
  (forall t l, R t l -> In b (full l) -> b_shard b = b_shard t) ->
  In x ls -> In y ls -> In b (full x) -> In b (full y) -> x = y.
Proof.
  intros H Hn HR Hx Hy Bx By. revert Hn Hx Hy.
  induction H as [|t l ts ls Rl H IH]; intros Hn Hx Hy; [destruct Hx|].
  cbn in Hn. inversion Hn as [|? ? Hni Hn']; subst.
  assert (Hin : forall z, In z ls -> In b (full z) -> exists t', In t' ts /\ b_shard b = b_shard t').
  { intros z Hz Bz. clear -H Hz Bz HR. induction H as [|t l ts ls Rl H IH]; [destruct Hz|].
    destruct Hz as [->|Hz].
    - exists t. split; [left; reflexivity|eauto].
    - destruct (IH Hz) as (t'&Ht'&E). exists t'. split; [right; exact Ht'|exact E]. }
  destruct Hx as [->|Hx], Hy as [->|Hy]; auto.
  - exfalso. destruct (Hin _ Hy By) as (t'&Ht'&E). apply Hni. rewrite <- (HR _ _ Rl Bx), E.
    apply in_map, Ht'.
  - exfalso. destruct (Hin _ Hx Bx) as (t'&Ht'&E). apply Hni. rewrite <- (HR _ _ Rl By), E.
    apply in_map, Ht'.
Qed.

Lemma full_shard c w sn t l b : line_inv c w sn t l -> In b (full l) -> b_shard b = b_shard t.
Proof.
  intros [_ He _ _ _ _ _] Hb. rewrite Forall_forall in He. destruct (He b Hb) as [N _].
  eapply needs_shard; eauto.
Qed.

Lemma cur_in_full l b st : l_cur l = Some (b, st) -> In b (full l).
Proof. unfold full. intros ->. left. reflexivity. Qed.

Lemma next_in_full l b st : l_next l = Some (b, st) -> In b (full l).
Proof. unfold full. intros ->. apply in_or_app. right. left. reflexivity. Qed.

Section Once.
Variable c : scfg.
Hypothesis W : wf_cfg c.

(** The current line lists of [LTake]. *)
Lemma take_once s m ls i l b : inv c s -> inv2 c s -> s_ph s = PhProc m ls ->
  nth_error ls i = Some l -> l_cur l = None -> l_next l = Some (b, POk) ->
  no_lost_commit (s_tr s) -> forall m', ~ In (EHand0 b m') (since (s_tr s)).
Proof.
  intros [Iw Il It Ip] [O S1] Ph En Ec Ex Hn m' Hin.
  unfold phase_inv in Ip. rewrite Ph in Ip. destruct Ip as [Cu Hf].
  destruct (f2_upd _ (line_inv c (s_wal s) (since (s_tr s))) _ _ _ _ Hf En (tops_nodup c m W)) as (t&Ht&Hl&_).
  assert (Bf := next_in_full _ _ _ Ex).
  destruct (S1 Hn b m' Hin) as [K|K].
  - destruct Hl as [_ He _ _ _ _ _]. rewrite Forall_forall in He. destruct (He b Bf) as [_ F]. congruence.
  - rewrite Ph in K. destruct K as (x&st&Hx&Hc).
    assert (x = l).
    { eapply (f2_same _ _ _ x l b Hf (tops_nodup c m W)); eauto using cur_in_full.
      - intros t0 l0 R0. eapply full_shard; eauto.
      - eapply nth_error_In; eauto. }
    congruence.
Qed.

Lemma once_step s l s' : inv c s -> inv2 c s -> sstep c s l = Some s' -> inv2 c s'.
Proof.
  intros I0 I2 E.
  assert (Hcm := com_mono_step c s l s' W I0 E).
  destruct l; try (assert (Hcm' := Hcm ltac:(discriminate)); clear Hcm).
  - cbn in E. destruct (s_pf s) eqn:Pf; try discriminate. destruct (next_ok c p m); [|discriminate].
    injection E as <-. apply (inv2_keep c s _ I2); auto.
  - cbn in E. destruct (s_pf s) eqn:Pf; try discriminate. injection E as <-. apply (inv2_keep c s _ I2); auto.
  - cbn in E. destruct (s_pf s) eqn:Pf; try discriminate. injection E as <-. apply (inv2_keep c s _ I2); auto.
  - cbn in E. destruct (s_ph s) as [p| | | | | |] eqn:Ph; try discriminate.
    destruct (s_pf s) as [q|q m| |] eqn:Pq; try discriminate; [destruct ok| |]; injection E as <-.
    + apply (inv2_keep c s _ I2); auto; [|rewrite Ph; intros b []]. right. cbn.
      eexists. split; [reflexivity|]. split; intros; discriminate.
    + apply (inv2_keep c s _ I2); auto. rewrite Ph. intros b [].
    + apply (inv2_keep c s _ I2); auto. rewrite Ph. intros b [].
    + apply (inv2_keep c s _ I2); auto. rewrite Ph. intros b [].
  - cbn in E. destruct (s_ph s) as [|m ds| | | | |] eqn:Ph; try discriminate.
    destruct (nth_error ds i); [|discriminate]. destruct (d_done d); [discriminate|].
    destruct (dl_iter c (s_wal s) d ok) as [|[b|] d']; injection E as <-;
      apply (inv2_keep c s _ I2); auto; try (rewrite Ph; intros b0 []);
      right; cbn; eexists; (split; [reflexivity|]); split; intros; discriminate.
  - cbn in E. destruct (s_ph s) as [|m ds| | | | |] eqn:Ph; try discriminate.
    destruct (all_done_d ds); [|discriminate]. injection E as <-.
    apply (inv2_keep c s _ I2); auto. rewrite Ph. intros b [].
  - (* LBegin *)
    cbn in E. destruct (s_ph s) as [| |m ls| | | |] eqn:Ph; try discriminate.
    destruct (nth_error ls i) as [l|] eqn:En; [|discriminate].
    destruct (l_started l) eqn:Es; [discriminate|].
    assert (Cn : l_cur l = None).
    { destruct I0 as [_ _ _ Ip]. unfold phase_inv in Ip. rewrite Ph in Ip. destruct Ip as [_ Hf].
      destruct (f2_upd _ (fun _ _ => True) _ _ _ _ Hf En (tops_nodup c m W)) as (t&Ht&Hl&_).
      destruct Hl. apply li_start. exact Es. }
    destruct (l_rest l) as [|y rest]; cbn in E; injection E as <-.
    + apply (inv2_keep c s _ I2); auto. cbn. rewrite Ph. intros b Hb. left.
      eapply flight_same; eauto. rewrite Cn. discriminate.
    + apply (inv2_keep c s _ I2); auto.
      * right. cbn. eexists. split; [reflexivity|]. split; intros; discriminate.
      * cbn. rewrite Ph. intros b Hb. left. eapply flight_same; eauto. rewrite Cn. discriminate.
  - (* LPrep *)
    cbn in E. destruct (s_ph s) as [| |m ls| | | |] eqn:Ph; try discriminate.
    destruct (nth_error ls i) as [l|] eqn:En; [|discriminate].
    destruct (l_next l) as [[b [| |]]|] eqn:Ex; try discriminate.
    destruct ok; injection E as <-; (apply (inv2_keep c s _ I2); auto;
      [right; cbn; eexists; (split; [reflexivity|]); split; intros; discriminate|
       cbn; rewrite Ph; intros b0 Hb; left; eapply flight_same; eauto]).
  - (* LTake *)
    cbn in E. destruct (s_ph s) as [| |m ls| | | |] eqn:Ph; try discriminate.
    destruct (nth_error ls i) as [l|] eqn:En; [|discriminate].
    destruct (l_cur l) as [[x st]|] eqn:Ec; [discriminate|].
    destruct (l_next l) as [[b [| |]]|] eqn:Ex; try discriminate.
    + assert (To := take_once s m ls i l b I0 I2 Ph En Ec Ex).
      destruct I2 as [O S1]. rewrite Ph in S1.
      destruct (l_rest l) as [|y rest]; cbn in E; injection E as <-; constructor; cbn.
      * apply once_cons; [exact O|]. intros b0 m0 Eb. injection Eb as <- <-. exact To.
      * intros Hn b0 m0 [Eb|Hb].
        -- injection Eb as <- <-. right. eexists _, _. split; [eapply set_nth_in; eauto|reflexivity].
        -- assert (Hn' := nlc_tl _ _ Hn Logic.I).
           destruct (S1 Hn' b0 m0 Hb) as [K|K]; [left; exact K|right].
           apply (flight_same m ls i l); auto. rewrite Ec. discriminate.
      * apply once_cons; [apply once_cons; [exact O|intros ? ? X; discriminate X]|].
        intros b0 m0 Eb. injection Eb as <- <-. intros Hn m' [X|X]; [discriminate|].
        assert (Hn' := nlc_tl _ _ Hn Logic.I). exact (To Hn' m' X).
      * intros Hn b0 m0 [Eb|[Eb|Hb]]; [|discriminate|].
        -- injection Eb as <- <-. right. eexists _, _. split; [eapply set_nth_in; eauto|reflexivity].
        -- assert (Hn1 := nlc_tl _ _ Hn Logic.I).
           assert (Hn' := nlc_tl _ _ Hn1 Logic.I).
           destruct (S1 Hn' b0 m0 Hb) as [K|K]; [left; exact K|right].
           apply (flight_same m ls i l); auto. rewrite Ec. discriminate.
    + destruct (l_rest l) as [|y rest]; cbn in E; injection E as <-; apply (inv2_keep c s _ I2); auto.
      * intros b0 _. left. exact Logic.I.
      * right; cbn; eexists; (split; [reflexivity|]); split; intros; discriminate.
      * intros b0 _. left. exact Logic.I.
  - (* LHand *)
    cbn in E. destruct (s_ph s) as [| |m ls| | | |] eqn:Ph; try discriminate.
    destruct (nth_error ls i) as [l|] eqn:En; [|discriminate].
    destruct (l_cur l) as [[b [| | |]]|] eqn:Ec; try discriminate.
    destruct ok; injection E as <-; apply (inv2_keep c s _ I2); auto.
    + right; cbn; eexists; (split; [reflexivity|]); split; intros; discriminate.
    + cbn. rewrite Ph. intros b0 Hb. left. eapply flight_same; eauto. cbn.
      intros st Eb. rewrite Ec in Eb. injection Eb as <- <-. eauto.
    + intros b0 _. left. exact Logic.I.
  - (* LGc *)
    cbn in E. destruct (s_ph s) as [| |m ls| | | |] eqn:Ph; try discriminate.
    destruct (nth_error ls i) as [l|] eqn:En; [|discriminate].
    destruct (l_cur l) as [[b [| | |]]|] eqn:Ec; try discriminate.
    injection E as <-; apply (inv2_keep c s _ I2); auto.
    + right; cbn; eexists; (split; [reflexivity|]); split; intros; discriminate.
    + cbn. rewrite Ph. intros b0 Hb. left. eapply flight_same; eauto. cbn.
      intros st Eb. rewrite Ec in Eb. injection Eb as <- <-. eauto.
  - (* LJoin *)
    cbn in E. destruct (s_ph s) as [| |m ls| | | |] eqn:Ph; try discriminate.
    destruct (nth_error ls i) as [l|] eqn:En; [|discriminate].
    destruct (l_cur l) as [[b [| | |]]|] eqn:Ec; try discriminate.
    destruct ok; injection E as <-; apply (inv2_keep c s _ I2); auto.
    + cbn. rewrite Ph. intros b0 Hb. left. eapply flight_same; eauto. cbn.
      intros st Eb. rewrite Ec in Eb. injection Eb as <- <-. eauto.
    + intros b0 _. left. exact Logic.I.
  - (* LCommit *)
    cbn in E. destruct (s_ph s) as [| |m ls| | | |] eqn:Ph; try discriminate.
    destruct (nth_error ls i) as [l|] eqn:En; [|discriminate].
    destruct (l_cur l) as [[b [| | |]]|] eqn:Ec; try discriminate.
    assert (Hmc : is_mc b = false).
    { destruct I0 as [_ _ _ Ip]. unfold phase_inv in Ip. rewrite Ph in Ip. destruct Ip as [_ Hf].
      destruct (f2_upd _ (fun _ _ => True) _ _ _ _ Hf En (tops_nodup c m W)) as (t&Ht&Hl&_).
      assert (Bf := cur_in_full _ _ _ Ec). destruct Hl as [_ He _ _ _ _ _]. rewrite Forall_forall in He.
      destruct (He b Bf) as [N _]. exact (elem_mc c m t b W Ht N). }
    destruct h; injection E as <-; apply (inv2_keep c s _ I2); auto.
    + right; cbn; eexists; (split; [reflexivity|]); split; intros; discriminate.
    + cbn [s_ph upd_line set_ph]. rewrite Ph. intros b0 Hb.
      destruct (blk_eqb b0 b) eqn:Eb.
      * right. left. apply blk_eqb_spec in Eb. subst b0. cbn. unfold is_committed. rewrite Hmc. cbn.
        rewrite (proj2 (blk_eqb_spec b b) eq_refl). apply orb_true_r.
      * left. eapply flight_same; eauto. intros st Eb'. rewrite Ec in Eb'. injection Eb' as <- <-.
        rewrite (proj2 (blk_eqb_spec b b) eq_refl) in Eb. discriminate.
    + right; cbn; eexists; (split; [reflexivity|]); split; intros; discriminate.
    + cbn [s_ph upd_line set_ph]. rewrite Ph. intros b0 Hb.
      destruct (blk_eqb b0 b) eqn:Eb.
      * right. right. apply blk_eqb_spec in Eb. subst b0. cbn. auto.
      * left. eapply flight_same; eauto. intros st Eb'. rewrite Ec in Eb'. injection Eb' as <- <-.
        rewrite (proj2 (blk_eqb_spec b b) eq_refl) in Eb. discriminate.
  - (* LProcAll *)
    cbn in E. destruct (s_ph s) as [| |m ls| | | |] eqn:Ph; try discriminate.
    destruct (forallb line_done ls) eqn:Ad; [|discriminate]. injection E as <-.
    apply (inv2_keep c s _ I2); auto. rewrite Ph. intros b (l&st&Hl&Hc). exfalso.
    rewrite forallb_forall in Ad. specialize (Ad l Hl). unfold line_done in Ad. rewrite Hc in Ad.
    destruct (l_next l); rewrite andb_false_r in Ad; discriminate.
  - (* LPrepM *)
    cbn in E. destruct (s_mp s); try discriminate.
    destruct (s_ph s) as [|m ds|m ls|m st| | |] eqn:Ph; try discriminate; destruct ok; injection E as <-;
      (apply (inv2_keep c s _ I2); auto;
       [right; cbn; eexists; (split; [reflexivity|]); split; intros; discriminate]).
  - (* LTakeM *)
    cbn in E. destruct (s_ph s) as [| | |m [| | | |]| | |] eqn:Ph; try discriminate.
    destruct (s_mp s) eqn:Mp; try discriminate; injection E as <-.
    + assert (Nc : is_committed c (s_wal s) m = false).
      { destruct I0 as [_ _ _ Ip]. unfold phase_inv in Ip. rewrite Ph in Ip. destruct Ip as ((Nx&_)&_).
        exact (next_not_committed _ _ _ Nx). }
      destruct I2 as [O S1]. rewrite Ph in S1. constructor; cbn.
      * apply once_cons; [exact O|]. intros b m0 Eb. injection Eb as <- <-. intros Hn m' Hin.
        destruct (S1 Hn m m' Hin) as [K|[K _]]; congruence.
      * intros Hn b m0 [Eb|Hb].
        -- injection Eb as <- <-. right. split; [discriminate|reflexivity].
        -- assert (Hn' := nlc_tl _ _ Hn Logic.I).
           destruct (S1 Hn' b m0 Hb) as [K|[K _]]; [left; exact K|congruence].
    + apply (inv2_keep c s _ I2); auto. intros b _. left. exact Logic.I.
  - cbn in E. destruct (s_ph s) as [| | |m [| | | |]| | |] eqn:Ph; try discriminate.
    destruct ok; injection E as <-; apply (inv2_keep c s _ I2); auto.
    + right; cbn; eexists; (split; [reflexivity|]); split; intros; discriminate.
    + rewrite Ph. intros b [_ ->]. left. split; [discriminate|reflexivity].
    + intros b _. left. exact Logic.I.
  - cbn in E. destruct (s_ph s) as [| | |m [| | | |]| | |] eqn:Ph; try discriminate.
    injection E as <-; apply (inv2_keep c s _ I2); auto.
    + right; cbn; eexists; (split; [reflexivity|]); split; intros; discriminate.
    + rewrite Ph. intros b [_ ->]. left. split; [discriminate|reflexivity].
  - cbn in E. destruct (s_ph s) as [| | |m [| | | |]| | |] eqn:Ph; try discriminate.
    injection E as <-; apply (inv2_keep c s _ I2); auto.
    rewrite Ph. intros b [_ ->]. left. destruct ok; [split; [discriminate|reflexivity]|exact Logic.I].
  - (* LCommitM *)
    cbn in E. destruct (s_ph s) as [| | |m [| | | |]| | |] eqn:Ph; try discriminate.
    injection E as <-; apply (inv2_keep c s _ I2); auto.
    + right; cbn; eexists; (split; [reflexivity|]); split; intros; discriminate.
    + rewrite Ph. intros b [_ ->]. right. left. cbn. unfold is_committed. cbn [last_mc].
      destruct I0 as [_ _ _ Ip]. unfold phase_inv in Ip. rewrite Ph in Ip. destruct Ip as ((Nx&_)&_).
      destruct (next_seq _ _ _ Nx) as [_ M]. rewrite M. apply N.leb_refl.
  - cbn in E. destruct (s_ph s) as [| | | |m| |] eqn:Ph; try discriminate.
    destruct ok; injection E as <-; apply (inv2_keep c s _ I2); auto.
    + right; cbn; eexists; (split; [reflexivity|]); split; intros; discriminate.
    + rewrite Ph. intros b [].
    + right; cbn; eexists; (split; [reflexivity|]); split; intros; discriminate.
    + rewrite Ph. intros b [].
  - cbn in E. injection E as <-. destruct I2 as [O S1]. constructor; cbn.
    + apply once_cons; [exact O|intros ? ? X; discriminate X].
    + intros _ b m [].
Qed.

(** Between two starts of the process no block is handed to the subscriber
    twice, as long as every committed shard block has its handle. *)
Theorem strider_once s l2 b m l1 : reach c s -> s_tr s = l2 ++ EHand0 b m :: l1 ->
  (forall b', ~ In (EComS b' false) (since l1)) ->
  forall m', ~ In (EHand0 b m') (since l1).
Proof.
  intros R. assert (H : inv c s /\ inv2 c s).
  { induction R as [|s l s' R [I1 I2] E].
    - split; [apply inv0|]. constructor; cbn.
      + intros l3 ? ? ? E. destruct l3; discriminate.
      + intros _ ? ? [].
    - split; [eapply inv_step; eauto|eapply once_step; eauto]. }
  destruct H as [_ [O _]]. intros E Hn. exact (O _ _ _ _ E Hn).
Qed.
End Once.
