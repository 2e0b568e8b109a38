(** * Certificates: theorems. *)
From Coq Require Import List NArith Bool Lia ZArith ZifyN ZifyNat ZifyBool.
From Verif Require Import CertModel CertSpec CertBits CertInv CertStep.
Import ListNotations.
Open Scope N_scope.

Section Props.
Variable D : N.
Hypothesis D1 : 1 <= D. Hypothesis D2 : D <= 255.

(** Setting flags [m] of [p], with an event that is not a commit. *)
Lemma cinv_started cl log p m e : cinv D cl log -> (m = INIT_STARTED) ->
  (e = [] \/ e = [EPanic p]) ->
  cinv D (upd cl p (Cell (N.lor (c_word (cl p)) m) (c_deps (cl p)))) (e ++ log).
Proof.
  intros Ci -> He. destruct Ci as [W H T T2 DS DP DP2 B U C C1 C2].
  assert (Hin : forall ev, (forall q, ev <> EPanic q) -> In ev (e ++ log) <-> In ev log).
  { intros ev Hne. destruct He as [->| ->]; cbn; [tauto|]. split; [intros [X|X]; [symmetry in X; destruct (Hne _ X)|exact X]|auto]. }
  assert (Hc : forall x, commits x (e ++ log) = commits x log) by (intros x; destruct He as [->| ->]; reflexivity).
  assert (Hincl : incl log (e ++ log)) by (intros x Hx; apply in_or_app; auto).
  destruct (lor_word (c_word (cl p)) INIT_STARTED (W p) eq_refl eq_refl) as (L1&L2&L3&L4&L5&L6).
  change (fT INIT_STARTED) with false in L3. change (fS INIT_STARTED) with true in L4. change (fD INIT_STARTED) with false in L5. change (fC INIT_STARTED) with false in L6.
  rewrite orb_false_r in L3, L5, L6. rewrite orb_true_r in L4.
  split; intros x; try (intros i0 w0); rewrite ?Hc, ?Hin by (intros; discriminate);
    (destruct (N.eq_dec x p) as [->|Hn]; [rewrite ?upd_same; cbn [c_word c_deps]|rewrite ?upd_other by exact Hn]); rewrite ?L1, ?L3, ?L5, ?L6; auto.
  - rewrite DP. split; intros (i0&w0&X); exists i0, w0; apply Hin in X || apply Hin; try exact X; intros; discriminate.
  - rewrite DP. split; intros (i0&w0&X); exists i0, w0; apply Hin in X || apply Hin; try exact X; intros; discriminate.
  - intros X. eapply src0_mono; [exact Hincl|auto].
  - intros X. eapply src0_mono; [exact Hincl|auto].
  - rewrite C. split; intros (b&X); exists b; apply Hin in X || apply Hin; try exact X; intros; discriminate.
  - rewrite C. split; intros (b&X); exists b; apply Hin in X || apply Hin; try exact X; intros; discriminate.
Qed.

Lemma log_in {A} (e x : A) l : x <> e -> In x (e :: l) <-> In x l.
Proof. clear. intros Hne. cbn. split; [intros [E|H]; [congruence|exact H]|auto]. Qed.

Lemma cinv_certify cl log p c' r : cinv D cl log -> certify_deeper (cl p) (D + 1) true = (c', r) ->
  cinv D (upd cl p c') (ECertify p :: log) /\ r <> RBad.
Proof.
  intros Ci E. destruct Ci as [W H T T2 DS DP DP2 B U C C1 C2].
  assert (hh : D + 1 < 4096) by lia. assert (Hincl : incl log (ECertify p :: log)) by (intros x Hx; right; exact Hx).
  assert (LD : forall q i w, In (EDeps q i w) (ECertify p :: log) <-> In (EDeps q i w) log) by (intros; apply log_in; discriminate).
  assert (LC : forall q b, In (ECommit q b) (ECertify p :: log) <-> In (ECommit q b) log) by (intros; apply log_in; discriminate).
  assert (LB : forall q, In (EBad q) (ECertify p :: log) <-> In (EBad q) log) by (intros; apply log_in; discriminate).
  assert (LP : forall q, q <> p -> In (ECertify q) (ECertify p :: log) <-> In (ECertify q) log) by (intros; apply log_in; congruence).
  assert (LDe : forall q, (exists i w, In (EDeps q i w) (ECertify p :: log)) <-> (exists i w, In (EDeps q i w) log)).
  { intros q. split; intros (i&w&X); exists i, w; apply LD; exact X. }
  assert (LCe : forall q, (exists b, In (ECommit q b) (ECertify p :: log)) <-> (exists b, In (ECommit q b) log)).
  { intros q. split; intros (b&X); exists b; apply LC; exact X. }
  assert (Hcm : forall x, commits x (ECertify p :: log) = commits x log) by reflexivity.
  destruct (certify_spec _ _ _ _ _ (W p) hh E) as [(A1&->&->)|(A1&A2&A3&A4&A5&A6&A7&A8&A9)].
  - split; [|discriminate]. assert (Q : forall x, upd cl p (cl p) x = cl x) by (intros x; apply upd_id).
    assert (Ep : hgt (c_word (cl p)) = D + 1) by (specialize (H p); lia).
    assert (Tp : In (ECertify p) log) by (apply T, T2; exact Ep).
    split; intros x; try intros i0 w0; rewrite ?Q, ?Hcm, ?LD, ?LC, ?LB, ?LDe, ?LCe; auto.
    + rewrite T. destruct (N.eq_dec x p) as [->|Hn]; [split; auto; intros; left; reflexivity|]. symmetry. apply LP, Hn.
    + intros X. eapply src0_mono; [exact Hincl|auto].
  - split.
    + rewrite orb_true_r in A4.
      split; intros x; try intros i0 w0; rewrite ?Hcm, ?LD, ?LC, ?LB, ?LDe, ?LCe;
        (destruct (N.eq_dec x p) as [->|Hn]; [rewrite ?upd_same|rewrite ?upd_other by exact Hn; auto]); auto.
      * lia.
      * rewrite A4. split; auto. intros; left; reflexivity.
      * rewrite T. symmetry. apply LP, Hn.
      * rewrite A4, A2. tauto.
      * rewrite A6, A5. apply DS.
      * rewrite A6. apply DP.
      * rewrite A8. apply DP2.
      * intros _. rewrite A2. exists p, 0. split; [left; reflexivity|]. split; [constructor|lia].
      * intros X. eapply src0_mono; [exact Hincl|auto].
      * rewrite A7. apply C.
      * rewrite A7. apply C1.
      * intros _. lia.
    + rewrite A9. destruct (fS (c_word (cl p)) && fD (c_word (cl p)) && (1 <? D + 1)) eqn:G; [|discriminate].
      rewrite !andb_true_iff in G. destruct G as [[G1 G2] G3]. apply DP in G2. destruct G2 as (i&w&G2). rewrite (DP2 _ _ _ G2). discriminate.
Qed.

Lemma cinv_complete cl log p i w : cinv D cl log -> fS (c_word (cl p)) = true -> fD (c_word (cl p)) = false -> c_deps (cl p) = Some (i, w) ->
  cinv D (upd cl p (Cell (N.lor (c_word (cl p)) INIT_COMPLETED) (c_deps (cl p)))) (EDeps p i w :: log).
Proof.
  clear D1 D2. intros Ci Fs Fd Ed. destruct Ci as [W H T T2 DS DP DP2 B U C C1 C2].
  assert (Hincl : incl log (EDeps p i w :: log)) by (intros x Hx; right; exact Hx).
  assert (LT : forall q, In (ECertify q) (EDeps p i w :: log) <-> In (ECertify q) log) by (intros; apply log_in; discriminate).
  assert (LC : forall q b, In (ECommit q b) (EDeps p i w :: log) <-> In (ECommit q b) log) by (intros; apply log_in; discriminate).
  assert (LB : forall q, In (EBad q) (EDeps p i w :: log) <-> In (EBad q) log) by (intros; apply log_in; discriminate).
  assert (LCe : forall q, (exists b, In (ECommit q b) (EDeps p i w :: log)) <-> (exists b, In (ECommit q b) log)).
  { intros q. split; intros (b&X); exists b; apply LC; exact X. }
  assert (LP : forall q i' w', q <> p -> In (EDeps q i' w') (EDeps p i w :: log) <-> In (EDeps q i' w') log) by (intros; apply log_in; congruence).
  assert (Hno : forall i' w', ~ In (EDeps p i' w') log).
  { intros i' w' X. assert (fD (c_word (cl p)) = true) by (apply DP; eauto). congruence. }
  assert (Hcm : forall x, commits x (EDeps p i w :: log) = commits x log) by reflexivity.
  destruct (lor_word (c_word (cl p)) INIT_COMPLETED (W p) eq_refl eq_refl) as (L1&L2&L3&L4&L5&L6).
  change (fT INIT_COMPLETED) with false in L3. change (fS INIT_COMPLETED) with true in L4. change (fD INIT_COMPLETED) with true in L5. change (fC INIT_COMPLETED) with false in L6.
  rewrite orb_false_r in L3, L6. rewrite orb_true_r in L4, L5.
  split; intros x; rewrite ?Hcm, ?LT, ?LC, ?LB, ?LCe;
    (destruct (N.eq_dec x p) as [->|Hn]; [rewrite ?upd_same; cbn [c_word c_deps]|rewrite ?upd_other by exact Hn]); rewrite ?L1, ?L3, ?L4, ?L5, ?L6; auto.
  - split; auto. intros _. exists i, w. left. reflexivity.
  - rewrite DP. split; intros (i0&w0&X); exists i0, w0; [right; exact X|apply (LP _ _ _ Hn); exact X].
  - intros i0 w0 [X|X]; [injection X as <- <-; exact Ed|destruct (Hno _ _ X)].
  - intros i0 w0 X. apply DP2. apply (LP _ _ _ Hn), X.
  - intros X. eapply src0_mono; [exact Hincl|auto].
  - intros X. eapply src0_mono; [exact Hincl|auto].
Qed.

Lemma cinv_write cl log p i w : cinv D cl log -> fD (c_word (cl p)) = false ->
  cinv D (upd cl p (Cell (c_word (cl p)) (Some (i, w)))) log.
Proof.
  clear D1 D2. intros Ci Fd. destruct Ci as [W H T T2 DS DP DP2 B U C C1 C2].
  split; intros x; (destruct (N.eq_dec x p) as [->|Hn]; [rewrite ?upd_same; cbn [c_word c_deps]|rewrite ?upd_other by exact Hn]); auto.
  intros i0 w0 X. assert (fD (c_word (cl p)) = true) by (apply DP; eauto). congruence.
Qed.

Lemma cinv_commit cl log p : cinv D cl log ->
  let old := c_word (cl p) in
  cinv D (upd cl p (Cell (N.lor old COMMITTED) (c_deps (cl p))))
    (ECommit p (negb (N.land old NOT_FLAGS =? 0) && (N.land old COMMITTED =? 0)) :: log).
Proof.
  clear D1 D2. intros Ci old. destruct Ci as [W H T T2 DS DP DP2 B U C C1 C2].
  rewrite land_height, land_committed0. set (ok := negb (hgt old =? 0) && negb (fC old)).
  set (log' := ECommit p ok :: log).
  assert (Hincl : incl log log') by (intros x Hx; right; exact Hx).
  assert (LT : forall q, In (ECertify q) log' <-> In (ECertify q) log) by (intros; apply log_in; discriminate).
  assert (LD : forall q i w, In (EDeps q i w) log' <-> In (EDeps q i w) log) by (intros; apply log_in; discriminate).
  assert (LB : forall q, In (EBad q) log' <-> In (EBad q) log) by (intros; apply log_in; discriminate).
  assert (LDe : forall q, (exists i w, In (EDeps q i w) log') <-> (exists i w, In (EDeps q i w) log)).
  { intros q. split; intros (i&w&X); exists i, w; apply LD; exact X. }
  assert (LP : forall q b, q <> p -> In (ECommit q b) log' <-> In (ECommit q b) log) by (intros; apply log_in; congruence).
  destruct (lor_word (c_word (cl p)) COMMITTED (W p) eq_refl eq_refl) as (L1&L2&L3&L4&L5&L6). fold old in L1, L2, L3, L4, L5, L6.
  change (fT COMMITTED) with false in L3. change (fS COMMITTED) with false in L4. change (fD COMMITTED) with false in L5. change (fC COMMITTED) with true in L6.
  rewrite orb_false_r in L3, L4, L5. rewrite orb_true_r in L6.
  assert (Hp := H p). assert (Tp := T p). assert (T2p := T2 p). assert (DSp := DS p). assert (DPp := DP p). fold old in Hp, Tp, T2p, DSp, DPp.
  split; intros x; try intros i0 w0; rewrite ?LT, ?LD, ?LB, ?LDe;
    (destruct (N.eq_dec x p) as [->|Hn]; [rewrite ?upd_same; cbn [c_word c_deps]|rewrite ?upd_other by exact Hn]); rewrite ?L1, ?L3, ?L4, ?L5, ?L6; auto.
  - intros X. eapply src0_mono; [exact Hincl|auto]. exact (U p X).
  - intros X. eapply src0_mono; [exact Hincl|auto].
  - split; auto. intros _. exists ok. left. reflexivity.
  - rewrite C. split; intros (b&X); exists b; [right; exact X|apply (LP _ _ Hn); exact X].
  - split; [|discriminate]. unfold log', commits. cbn [filter]. rewrite N.eqb_refl. destruct ok eqn:Eo.
    + cbn [length]. fold (commits p log). assert (fC old = false) by (unfold ok in Eo; destruct (fC old); [rewrite andb_false_r in Eo; discriminate|reflexivity]).
      destruct (C1 p) as [_ Z]. rewrite (Z H0). lia.
    + apply (C1 p).
  - unfold log', commits. cbn [filter]. replace (p =? x) with false by (symmetry; apply N.eqb_neq; congruence).
    destruct ok; apply (C1 x).
  - intros [X|X]; [|exact (C2 p X)]. injection X as X. unfold ok in X. destruct (hgt old =? 0) eqn:Eh; [discriminate|]. apply N.eqb_neq in Eh. apply N.neq_0_lt_0. exact Eh.
  - intros X. apply C2. apply (LP _ _ Hn), X.
Qed.
End Props.
