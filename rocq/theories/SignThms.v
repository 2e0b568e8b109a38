(** * SignThms: the signatures a node gives to the points of one author at one round *)

From Coq Require Import List NArith Bool Lia Sorted.
From Coq Require Import ZArith ZifyN ZifyNat ZifyBool.
From Verif Require Import SignModel SignSpec SignProofs SignRestore.
Import ListNotations.
Open Scope N_scope.

Lemma first_merge : forall rnd skew tm l d r, inv rnd skew tm l -> first_stored l ->
  (r_first r = true -> l_val l = Some d) -> first_stored (set_db (db_merge d r (l_db l)) l).
Proof.
  intros rnd skew tm l d r IV FS H e q E F. cbn in *. destruct (N.eq_dec e d) as [->|NE].
  - rewrite db_get_merge_same in E by exact (i_sort _ _ _ _ IV). injection E as <-.
    destruct (db_get d (l_db l)) as [q|] eqn:G; [|auto]. unfold rmerge in F. cbn in F. apply orb_true_iff in F.
    destruct F as [F|F]; [exact (FS d q G F)|auto].
  - rewrite db_get_merge_other in E by exact NE. eauto.
Qed.

Lemma first_same : forall l l', l_db l' = l_db l -> l_val l' = l_val l -> first_stored l -> first_stored l'.
Proof. intros l l' D V F d r E. rewrite D in E. rewrite V. eauto. Qed.

(** No valid point yet: nothing is marked. *)
Lemma first_none : forall l l', l_db l' = l_db l -> l_val l = None -> first_stored l -> first_stored l'.
Proof. intros l l' D V F d r E G. rewrite D in E. rewrite (F d r E G) in V. discriminate. Qed.

Lemma sig_init_keep : forall ok l l1 r, sig_init ok l = (l1, r) ->
  l_db l1 = l_db l /\ l_val l1 = l_val l /\ l_tasks l1 = l_tasks l /\ l_run l1 = l_run l.
Proof.
  intros ok l l1 r E. unfold sig_init in E. destruct (l_res l) as [[d [| |[]]|d| ]|]; try (injection E as <- _; auto; fail).
  destruct ok; injection E as <- _; auto.
Qed.

Lemma move_keep : forall rnd skew tm n l l', call_move rnd skew tm n l = Some l' ->
  l_db l' = l_db l /\ l_val l' = l_val l /\ l_tasks l' = l_tasks l /\ l_run l' = l_run l.
Proof.
  intros rnd skew tm n l l' E. unfold call_move in E. destruct (nth_error (l_calls l) n) as [[a k w|ok a w| | | |r]|]; try discriminate.
  - injection E as <-. auto.
  - destruct (sig_init ok l) as [l1 r] eqn:S. injection E as <-. apply (sig_init_keep _ _ _ _ S).
  - destruct (l_res l) as [[]|]; injection E as <-; auto.
  - destruct (l_res l) as [[? []| |]|]; try discriminate; injection E as <-; auto.
  - destruct (sig_init false l) as [l1 r] eqn:S. injection E as <-. apply (sig_init_keep _ _ _ _ S).
Qed.

(** One step: it keeps the invariant, and it does not fail when it is enabled. *)
Lemma step_inv : forall rnd skew tm l s, inv rnd skew tm l -> first_stored l ->
  (enabled l s -> exec rnd skew tm l s <> None) /\
  (forall l', exec rnd skew tm l s = Some l' -> inv rnd skew tm l' /\ first_stored l').
Proof.
  intros rnd skew tm l s IV FS. destruct s as [d|d|d v|d|d|d|d|d|a k w| |n|f b]; cbn [exec enabled].
  - split; [intros ->; discriminate|]. intros l' E. destruct (t_get d (l_tasks l)) eqn:T; [discriminate|]. injection E as <-.
    split; [|apply (first_same l); auto].
    pose proof (i_task _ _ _ _ IV d) as X. rewrite T in X. apply inv_task; [exact IV|rewrite T; discriminate|discriminate|exact X].
  - split; [intros ->; discriminate|]. intros l' E. destruct (t_get d (l_tasks l)) as [[]|] eqn:T; try discriminate. injection E as <-.
    split; [apply inv_merge; [exact IV|discriminate]|apply (first_merge rnd skew tm); auto; discriminate].
  - (* acquire, first half *)
    assert (G : t_get d (l_tasks l) = Some TWork -> verdict_ok v = true -> exists l', acquire1 d v l = Some l' /\
       inv rnd skew tm l' /\ first_stored l').
    { intros T VO. pose proof (i_task _ _ _ _ IV d) as X. rewrite T in X. cbn in X. destruct X as [X1 X2].
      unfold acquire1. destruct (l_res l) as [f|] eqn:R.
      - eexists. split; [reflexivity|]. split; [|apply (first_same l); auto].
        apply inv_task; [exact IV|rewrite T; discriminate|discriminate|]. cbn. rewrite R.
        split; [exact VO|]. split; [discriminate|]. split; [exact X1|]. split; [exact X2|]. split; [discriminate|reflexivity].
      - pose proof (i_none _ _ _ _ IV R) as V. rewrite V. destruct (v_valid v) eqn:VV.
        + eexists. split; [reflexivity|]. split; [|apply (first_none l); auto].
          apply (inv_take rnd skew tm l d (FValid d GNone)); auto; [discriminate|]. cbn. unfold took, isval. cbn.
          rewrite N.eqb_refl. split; [exact VO|]. split; [discriminate|]. repeat (split; [reflexivity|]).
          split; [auto|discriminate].
        + eexists. split; [reflexivity|]. split; [|apply (first_none l); auto].
          assert (Y : set_res (Some (FNot d)) l = set_val None (set_res (Some (FNot d)) l)).
          { unfold set_val, set_res. cbn. now rewrite V. }
          rewrite Y. apply (inv_take rnd skew tm l d (FNot d)); auto; [discriminate|]. cbn. unfold took, isval. cbn.
          rewrite N.eqb_refl. split; [exact VO|]. split; [discriminate|]. repeat (split; [reflexivity|]).
          split; [auto|discriminate]. }
    split.
    + intros [T VO]. rewrite T, VO. destruct (G T VO) as (l' & -> & _). discriminate.
    + intros l' E. destruct (t_get d (l_tasks l)) as [[]|]; try discriminate. destruct (verdict_ok v); [|discriminate].
      destruct (G eq_refl eq_refl) as (l1 & E1 & Q). rewrite E1 in E. injection E as <-. exact Q.
  - (* second half *)
    split; [intros (v & fr & fv & ->); discriminate|]. intros l' E.
    destruct (t_get d (l_tasks l)) as [[|v fr fv| | |]|] eqn:T; try discriminate. injection E as <-.
    pose proof (i_task _ _ _ _ IV d) as X. rewrite T in X. cbn in X. destruct X as (A & B & C & D & E & F).
    assert (KEEP : (v_valid v = true -> l_val l <> None) -> inv rnd skew tm (set_task d (TAcq v fr fv) l) /\ first_stored (set_task d (TAcq v fr fv) l)).
    { intros G. split; [|apply (first_same l); auto].
      apply inv_task; [exact IV|rewrite T; discriminate|discriminate|]. cbn. repeat (split; [assumption|]).
      split; [intros Y; apply (E Y)|]. split; [|exact G]. intros Y. destruct fr; [destruct (E eq_refl); congruence|now apply F]. }
    unfold acquire2. destruct (negb fr && v_valid v) eqn:Q.
    + apply andb_true_iff in Q. destruct Q as [Q1 Q2]. destruct fr; [discriminate|]. destruct (l_val l) as [e|] eqn:V.
      * apply KEEP. intros _. discriminate.
      * rewrite (F eq_refl) in T. split; [apply inv_valset; auto|]. apply (first_none l); auto.
    + apply KEEP. intros VV. rewrite VV, andb_true_r in Q. destruct fr; [|discriminate]. destruct (E eq_refl) as [_ E2].
      unfold isval in D. rewrite E2, VV in D. destruct (l_val l); discriminate.
  - (* store *)
    split; [intros (v & fr & fv & ->); discriminate|]. intros l' E.
    destruct (t_get d (l_tasks l)) as [[| |v fr fv| |]|] eqn:T; try discriminate. injection E as <-.
    pose proof (i_task _ _ _ _ IV d) as X. rewrite T in X. cbn in X. destruct X as (A & B & C & D & E & F & G).
    assert (KV : v_valid v && fv = true -> v_kind v = KValid).
    { intros Y. apply andb_true_iff in Y. destruct Y as [Y _]. unfold verdict_ok in A. rewrite Y in A.
      destruct (v_kind v); try discriminate; reflexivity. }
    assert (I1 : inv rnd skew tm (set_db (db_merge d (mkR (v_kind v) (v_valid v && fv) false (v_final v)) (l_db l)) l)).
    { apply inv_merge; [exact IV|exact KV]. }
    split.
    + apply inv_task; [exact I1|cbn; rewrite T; discriminate|discriminate|].
      cbn. repeat (split; [assumption|]). exact G.
    + apply (first_same (set_db (db_merge d (mkR (v_kind v) (v_valid v && fv) false (v_final v)) (l_db l)) l)); auto.
      apply (first_merge rnd skew tm); auto. cbn. intros Y. apply andb_true_iff in Y. destruct Y as [_ ->].
      unfold isval in D. destruct (l_val l) as [e|]; [|discriminate]. apply N.eqb_eq in D. now subst.
  - (* resolve *)
    split.
    + intros (v & fr & fv & T). rewrite T. destruct (inv_resolve _ _ _ _ _ _ _ _ IV T) as (l1 & -> & _). discriminate.
    + intros l' E. destruct (t_get d (l_tasks l)) as [[| | |v fr fv|]|] eqn:T; try discriminate.
      destruct (inv_resolve _ _ _ _ _ _ _ _ IV T) as (l1 & E1 & I1 & V1 & D1 & _). rewrite E1 in E. injection E as <-.
      split; [exact I1|]. apply (first_same l); auto.
  - split; [discriminate|]. intros l' E. injection E as <-.
    split; [apply inv_merge; [exact IV|discriminate]|apply (first_merge rnd skew tm); auto; discriminate].
  - split; [discriminate|]. intros l' E. injection E as <-.
    split; [apply inv_merge; [exact IV|discriminate]|apply (first_merge rnd skew tm); auto; discriminate].
  - split; [discriminate|]. intros l' E. injection E as <-. split; [|apply (first_same l); auto].
    apply inv_calls; [exact IV|]. intros c Hc. apply in_app_or in Hc. destruct Hc as [Hc|[<-|[]]]; [|exact I].
    now apply (i_call _ _ _ _ IV).
  - split; [discriminate|]. intros l' E. injection E as <-. split; [|apply (first_same l); auto].
    apply inv_calls; [exact IV|]. intros c Hc. apply in_app_or in Hc. destruct Hc as [Hc|[<-|[]]]; [|exact I].
    now apply (i_call _ _ _ _ IV).
  - split.
    + intros (c & C & NR). unfold call_move. rewrite C. pose proof (i_call _ _ _ _ IV c (nth_error_In _ _ C)) as OK.
      destruct c as [a k w|ok a w| | | |r]; try discriminate.
      * destruct (sig_init ok l); discriminate.
      * destruct (l_res l) as [[]|]; discriminate.
      * destruct OK as (d & g & ->). destruct g; discriminate.
      * destruct (sig_init false l); discriminate.
      * destruct (NR r eq_refl).
    + intros l' E. split; [now apply (inv_move _ _ _ l n)|].
      destruct (move_keep _ _ _ _ _ _ E) as (D & V & _). now apply (first_same l).
  - destruct (restart_inv rnd skew tm f b l IV FS) as (l1 & E1 & I1 & F1 & _). rewrite E1.
    split; [discriminate|]. intros l' E. injection E as <-. auto.
Qed.

Lemma init_inv : forall rnd skew tm, inv rnd skew tm loc_init /\ first_stored loc_init.
Proof.
  intros rnd skew tm. split; [|intros d r E; discriminate].
  split; cbn; try discriminate; auto.
  - intros d. split; [intros []|discriminate].
  - intros n d [].
  - constructor.
  - intros d. split; [intros []|intros [X _]; discriminate].
  - constructor.
  - intros c [].
  - constructor.
Qed.

Lemma reach_inv : forall rnd skew tm l, reach rnd skew tm l -> inv rnd skew tm l /\ first_stored l.
Proof.
  intros rnd skew tm l R. induction R as [|l s l' R [IV FS] E]; [apply init_inv|].
  now apply (proj2 (step_inv rnd skew tm l s IV FS)).
Qed.

(** ** The theorems *)

(** Between two starts of the node at most one signature is made for one author and round. *)
Theorem sign_once_per_run : forall rnd skew tm l, reach rnd skew tm l ->
  NoDup (map fst (l_log l)) /\
  forall n d e, signed l n d -> signed l n e -> d = e.
Proof.
  intros rnd skew tm l R. destruct (reach_inv _ _ _ _ R) as [IV _]. pose proof (i_nodup _ _ _ _ IV) as ND.
  split; [exact ND|]. intros n d e. unfold signed. revert ND. induction (l_log l) as [|[k x] t IH]; intros ND A B; [destruct A|].
  cbn in ND. inversion ND as [|? ? NI ND']; subst.
  destruct A as [[= -> ->]|A], B as [B|B].
  - now injection B.
  - destruct NI. apply (in_map fst _ _ B).
  - injection B as -> ->. destruct NI. apply (in_map fst _ _ A).
  - auto.
Qed.

(** All the answers given since the start agree, and they agree with what has been signed: after
    a rejection nothing is signed. *)
Theorem sign_answers : forall rnd skew tm l, reach rnd skew tm l ->
  (forall a b, answered l a -> answered l b -> a = b) /\
  (answered l true -> exists d, signed l (l_run l) d /\ l_val l = Some d) /\
  (answered l false -> forall d, ~ signed l (l_run l) d).
Proof.
  intros rnd skew tm l R. destruct (reach_inv _ _ _ _ R) as [IV _].
  assert (C : forall b, answered l b -> sig_of l = Some b) by (intros b H; exact (i_call _ _ _ _ IV _ H)).
  split; [|split].
  - intros a b A B. pose proof (C a A). pose proof (C b B). congruence.
  - intros A. apply C in A. unfold sig_of in A. destruct (l_res l) as [[d [| |[]]|d| ]|] eqn:E; try discriminate.
    exists d. split; [now apply (i_now _ _ _ _ IV)|exact (i_vres _ _ _ _ IV _ _ E)].
  - intros A d H. apply (i_now _ _ _ _ IV) in H. apply C in A. unfold sig_of in A. rewrite H in A. discriminate.
Qed.

Lemma nth_upd {A} : forall (l : list A) n x k, nth_error (upd n x l) k =
  if Nat.eqb k n then match nth_error l n with Some _ => Some x | None => None end else nth_error l k.
Proof.
  induction l as [|y t IH]; intros n x k.
  - destruct n, k; cbn; try reflexivity. now destruct (Nat.eqb k n).
  - destruct n as [|n], k as [|k]; cbn; try reflexivity. apply IH.
Qed.

Lemma sig_init_calls : forall ok l, l_calls (fst (sig_init ok l)) = l_calls l.
Proof. intros ok l. unfold sig_init. destruct (l_res l) as [[d [| |[]]|d| ]|]; try reflexivity. now destruct ok. Qed.

(** An answer is not taken back: it stays until the next start. *)
Theorem sign_answer_stays : forall rnd skew tm l s l' b, exec rnd skew tm l s = Some l' ->
  (forall f x, s <> LRestart f x) -> answered l b -> answered l' b.
Proof.
  intros rnd skew tm l s l' b E NR A. unfold answered in *.
  assert (SAME : l_calls l' = l_calls l -> In (CRet (Some b)) (l_calls l')) by (intros ->; exact A).
  destruct s as [d|d|d v|d|d|d|d|d|a k w| |n|f x]; cbn [exec] in E.
  - destruct (t_get d (l_tasks l)); [discriminate|]. injection E as <-. auto.
  - destruct (t_get d (l_tasks l)) as [[]|]; try discriminate. injection E as <-. auto.
  - destruct (t_get d (l_tasks l)) as [[]|]; try discriminate. destruct (verdict_ok v); [|discriminate].
    apply SAME. unfold acquire1 in E. destruct (l_res l); [injection E as <-; reflexivity|].
    destruct (v_valid v); [|injection E as <-; reflexivity]. destruct (l_val l) as [e|]; [|injection E as <-; reflexivity].
    destruct (e =? d); [injection E as <-; reflexivity|discriminate].
  - destruct (t_get d (l_tasks l)) as [[|v fr fv| | |]|]; try discriminate. injection E as <-. apply SAME. unfold acquire2.
    destruct (negb fr && v_valid v); [|reflexivity]. now destruct (l_val l).
  - destruct (t_get d (l_tasks l)) as [[| |v fr fv| |]|]; try discriminate. injection E as <-. auto.
  - destruct (t_get d (l_tasks l)) as [[| | |v fr fv|]|]; try discriminate.
    destruct (resolve d (v_valid v) fr fv l) as [l1|] eqn:RS; [|discriminate]. injection E as <-. apply SAME. cbn.
    unfold resolve in RS. destruct fr.
    + destruct (l_res l) as [[x g|x| ]|]; try discriminate.
      * destruct ((x =? d) && v_valid v); [|discriminate]. destruct g; cbn in RS;
          destruct (v_valid v && fv), (l_val l) as [y|]; try destruct (y =? d); try discriminate; injection RS as <-; reflexivity.
      * destruct ((x =? d) && negb (v_valid v)); [|discriminate].
          destruct (v_valid v && fv), (l_val l) as [y|]; try destruct (y =? d); try discriminate; injection RS as <-; reflexivity.
      * destruct (v_valid v && fv), (l_val l) as [y|]; try destruct (y =? d); try discriminate; injection RS as <-; reflexivity.
    + destruct (l_res l) as [[x g|x| ]|]; try (destruct (x =? d); [discriminate|]);
          destruct (v_valid v && fv), (l_val l) as [y|]; try destruct (y =? d); try discriminate; injection RS as <-; reflexivity.
  - injection E as <-. auto.
  - injection E as <-. auto.
  - injection E as <-. apply in_or_app. now left.
  - injection E as <-. apply in_or_app. now left.
  - apply In_nth_error in A. destruct A as (k & A).
    assert (NE : nth_error (l_calls l) n <> Some (CRet (Some b)) -> k <> n) by (intros X ->; contradiction).
    assert (G : forall c, nth_error (l_calls l) n <> Some (CRet (Some b)) -> In (CRet (Some b)) (upd n c (l_calls l))).
    { intros c X. apply (nth_error_In _ k). rewrite nth_upd. destruct (Nat.eqb_spec k n) as [->|]; [contradiction|exact A]. }
    unfold call_move in E. destruct (nth_error (l_calls l) n) as [c|] eqn:C; [|discriminate].
    destruct c as [a1 k1 w1|ok a1 w1| | | |r].
    + injection E as <-. apply G. discriminate.
    + destruct (sig_init ok l) as [l1 r] eqn:SI. injection E as <-. cbn. replace l1 with (fst (sig_init ok l)) by now rewrite SI.
      rewrite sig_init_calls. apply G. discriminate.
    + destruct (l_res l) as [[]|]; injection E as <-; apply G; discriminate.
    + destruct (l_res l) as [[? []| |]|]; try discriminate; injection E as <-; apply G; discriminate.
    + destruct (sig_init false l) as [l1 r] eqn:SI. injection E as <-. cbn. replace l1 with (fst (sig_init false l)) by now rewrite SI.
      rewrite sig_init_calls. apply G. discriminate.
    + discriminate.
  - destruct (NR f x eq_refl).
Qed.

(** What is signed in this run is the first valid point, counted once for its round; no other
    point of the location is counted. *)
Theorem signed_is_first_valid : forall rnd skew tm l, reach rnd skew tm l ->
  (forall d, signed l (l_run l) d -> l_val l = Some d /\ In d (l_thr l)) /\
  NoDup (l_thr l) /\ forall d e, In d (l_thr l) -> In e (l_thr l) -> d = e.
Proof.
  intros rnd skew tm l R. destruct (reach_inv _ _ _ _ R) as [IV _]. pose proof (i_thr _ _ _ _ IV) as TH. split; [|split].
  - intros d H. apply (i_now _ _ _ _ IV) in H. pose proof (i_vres _ _ _ _ IV _ _ H) as V. split; [exact V|].
    apply TH. split; [exact V|]. exact (i_sgn _ _ _ _ IV _ _ H).
  - exact (i_thr1 _ _ _ _ IV).
  - intros d e A B. apply TH in A. apply TH in B. destruct A, B. congruence.
Qed.

(** No assertion of the location fails, whatever the order of the steps and the restarts. *)
Theorem location_never_panics : forall rnd skew tm l s, reach rnd skew tm l -> enabled l s ->
  exists l', exec rnd skew tm l s = Some l'.
Proof.
  intros rnd skew tm l s R E. destruct (reach_inv _ _ _ _ R) as [IV FS].
  pose proof (proj1 (step_inv rnd skew tm l s IV FS) E) as X.
  destruct (exec rnd skew tm l s) as [l'|]; [now exists l'|contradiction].
Qed.

(** At most one record is marked as the first valid point. *)
Theorem one_first_stored : forall rnd skew tm l d e, reach rnd skew tm l ->
  stored_first l d -> stored_first l e -> d = e.
Proof.
  intros rnd skew tm l d e R (r & A & _ & F) (q & B & _ & G). destruct (reach_inv _ _ _ _ R) as [_ FS].
  pose proof (FS d r A F). pose proof (FS e q B G). congruence.
Qed.

(** ** When a signature is made *)

Definition good_call rnd skew (tm : N -> N) (ss : list label) (d a w : N) : Prop :=
  In (LSign a true w) ss /\ rnd <= a <= rnd + 1 /\ tm d - w < skew.

Definition tinv rnd skew (tm : N -> N) ss l : Prop :=
  (forall a k w, In (CSign a k w) (l_calls l) -> In (LSign a k w) ss) /\
  (forall a w, In (CInit true a w) (l_calls l) -> In (LSign a true w) ss) /\
  (forall n d, signed l n d -> exists a w, good_call rnd skew tm ss d a w).

Lemma restore_all_calls : forall items l l', restore_all items l = Some l' -> l_calls l' = l_calls l.
Proof.
  assert (RC : forall d v fr fv l l1, resolve d v fr fv l = Some l1 -> l_calls l1 = l_calls l).
  { intros d v fr fv l l1 RS. unfold resolve in RS. destruct fr.
    + destruct (l_res l) as [[x g|x| ]|]; try discriminate.
      * destruct ((x =? d) && v); [|discriminate]. destruct g; cbn in RS;
          destruct (v && fv), (l_val l) as [y|]; try destruct (y =? d); try discriminate; injection RS as <-; reflexivity.
      * destruct ((x =? d) && negb v); [|discriminate].
          destruct (v && fv), (l_val l) as [y|]; try destruct (y =? d); try discriminate; injection RS as <-; reflexivity.
      * destruct (v && fv), (l_val l) as [y|]; try destruct (y =? d); try discriminate; injection RS as <-; reflexivity.
    + destruct (l_res l) as [[x g|x| ]|]; try (destruct (x =? d); [discriminate|]);
          destruct (v && fv), (l_val l) as [y|]; try destruct (y =? d); try discriminate; injection RS as <-; reflexivity. }
  assert (R1 : forall d v st l l1, restore1 d v st l = Some l1 -> l_calls l1 = l_calls l).
  { intros d v st l l1 E. unfold restore1 in E. destruct (l_res l) as [f|].
    - destruct st; [destruct v; discriminate|]. destruct v; cbn [andb] in E; now apply RC in E.
    - destruct st, v; cbn [andb] in E; try discriminate.
      + destruct (l_val _) as [e|]; [destruct (e =? d); [|discriminate]|]; apply RC in E; exact E.
      + destruct (l_val _) as [e|]; [destruct (e =? d); [|discriminate]|]; apply RC in E; exact E.
      + apply RC in E. exact E. }
  induction items as [|[d r] t IH]; intros l l' E; [now injection E as <-|].
  destruct (skind_eq (r_kind r) KFound) as [K|K].
  - cbn [restore_all] in E. rewrite K in E. apply IH in E. exact E.
  - rewrite restore_all_step in E by exact K.
    destruct (restore1 d _ (r_first r) l) as [l1|] eqn:E1; [|discriminate]. apply IH in E. apply R1 in E1. now rewrite E, <- E1.
Qed.

Lemma exec_log : forall rnd skew tm l s l', inv rnd skew tm l -> first_stored l -> exec rnd skew tm l s = Some l' ->
  l_log l' = l_log l \/ exists n a w d, s = LMove n /\ nth_error (l_calls l) n = Some (CInit true a w) /\
    l_res l = Some (FValid d (GSignable SNone)) /\ l_log l' = (l_run l, d) :: l_log l.
Proof.
  intros rnd skew tm l s l' IV FS E. destruct s as [d|d|d v|d|d|d|d|d|a k w| |n|f x]; cbn [exec] in E.
  - destruct (t_get d (l_tasks l)); [discriminate|]. injection E as <-. auto.
  - destruct (t_get d (l_tasks l)) as [[]|]; try discriminate. injection E as <-. auto.
  - destruct (t_get d (l_tasks l)) as [[]|]; try discriminate. destruct (verdict_ok v); [|discriminate].
    left. unfold acquire1 in E. destruct (l_res l); [injection E as <-; reflexivity|].
    destruct (v_valid v); [|injection E as <-; reflexivity]. destruct (l_val l) as [e|]; [|injection E as <-; reflexivity].
    destruct (e =? d); [injection E as <-; reflexivity|discriminate].
  - destruct (t_get d (l_tasks l)) as [[|v fr fv| | |]|]; try discriminate. injection E as <-. left. unfold acquire2.
    destruct (negb fr && v_valid v); [|reflexivity]. now destruct (l_val l).
  - destruct (t_get d (l_tasks l)) as [[| |v fr fv| |]|]; try discriminate. injection E as <-. auto.
  - destruct (t_get d (l_tasks l)) as [[| | |v fr fv|]|] eqn:T; try discriminate.
    destruct (inv_resolve _ _ _ _ _ _ _ _ IV T) as (l1 & E1 & _ & _ & _ & L & _). rewrite E1 in E. injection E as <-. now left.
  - injection E as <-. auto.
  - injection E as <-. auto.
  - injection E as <-. auto.
  - injection E as <-. auto.
  - unfold call_move in E. destruct (nth_error (l_calls l) n) as [c|] eqn:C; [|discriminate].
    assert (SI : forall ok l1 r, sig_init ok l = (l1, r) -> l_log l1 = l_log l \/ ok = true /\ exists d,
      l_res l = Some (FValid d (GSignable SNone)) /\ l_log l1 = (l_run l, d) :: l_log l).
    { intros ok l1 r X. unfold sig_init in X. destruct (l_res l) as [[d [| |[]]|d| ]|]; try (injection X as <- _; now left).
      destruct ok; injection X as <- _; [|now left]. right. split; [reflexivity|]. eauto. }
    destruct c as [a1 k1 w1|ok a1 w1| | | |r].
    + injection E as <-. now left.
    + destruct (sig_init ok l) as [l1 r] eqn:S. injection E as <-. destruct (SI _ _ _ S) as [X|(-> & d & X & Y)]; [now left|].
      right. exists n, a1, w1, d. auto.
    + left. destruct (l_res l) as [[]|]; injection E as <-; reflexivity.
    + left. destruct (l_res l) as [[? []| |]|]; try discriminate; injection E as <-; reflexivity.
    + destruct (sig_init false l) as [l1 r] eqn:S. injection E as <-. destruct (SI _ _ _ S) as [X|(X & _)]; [now left|discriminate].
    + discriminate.
  - destruct (restart_inv rnd skew tm f x l IV FS) as (l1 & E1 & _ & _ & L & _). rewrite E1 in E. injection E as <-. now left.
Qed.

Lemma exec_calls : forall rnd skew tm l s l', exec rnd skew tm l s = Some l' ->
  forall c, In c (l_calls l') -> In c (l_calls l) \/
    (exists a k w, s = LSign a k w /\ c = CSign a k w) \/
    (exists n a k w, nth_error (l_calls l) n = Some (CSign a k w) /\
        (c = sign_look rnd skew tm a k w l)) \/
    (match c with CSign _ _ _ | CInit _ _ _ => False | _ => True end).
Proof.
  intros rnd skew tm l s l' E c Hc.
  assert (SAME : l_calls l' = l_calls l -> In c (l_calls l)) by (intros <-; exact Hc).
  destruct s as [d|d|d v|d|d|d|d|d|a k w| |n|f x]; cbn [exec] in E.
  - destruct (t_get d (l_tasks l)); [discriminate|]. injection E as <-. auto.
  - destruct (t_get d (l_tasks l)) as [[]|]; try discriminate. injection E as <-. auto.
  - destruct (t_get d (l_tasks l)) as [[]|]; try discriminate. destruct (verdict_ok v); [|discriminate].
    left. apply SAME. unfold acquire1 in E. destruct (l_res l); [injection E as <-; reflexivity|].
    destruct (v_valid v); [|injection E as <-; reflexivity]. destruct (l_val l) as [e|]; [|injection E as <-; reflexivity].
    destruct (e =? d); [injection E as <-; reflexivity|discriminate].
  - destruct (t_get d (l_tasks l)) as [[|v fr fv| | |]|]; try discriminate. injection E as <-. left. apply SAME. unfold acquire2.
    destruct (negb fr && v_valid v); [|reflexivity]. now destruct (l_val l).
  - destruct (t_get d (l_tasks l)) as [[| |v fr fv| |]|]; try discriminate. injection E as <-. auto.
  - destruct (t_get d (l_tasks l)) as [[| | |v fr fv|]|] eqn:T; try discriminate.
    destruct (resolve d (v_valid v) fr fv l) as [l1|] eqn:RS; [|discriminate]. injection E as <-. left. apply SAME. cbn.
    unfold resolve in RS. destruct fr.
    + destruct (l_res l) as [[x g|x| ]|]; try discriminate.
      * destruct ((x =? d) && v_valid v); [|discriminate]. destruct g; cbn in RS;
          destruct (v_valid v && fv), (l_val l) as [y|]; try destruct (y =? d); try discriminate; injection RS as <-; reflexivity.
      * destruct ((x =? d) && negb (v_valid v)); [|discriminate].
          destruct (v_valid v && fv), (l_val l) as [y|]; try destruct (y =? d); try discriminate; injection RS as <-; reflexivity.
      * destruct (v_valid v && fv), (l_val l) as [y|]; try destruct (y =? d); try discriminate; injection RS as <-; reflexivity.
    + destruct (l_res l) as [[x g|x| ]|]; try (destruct (x =? d); [discriminate|]);
          destruct (v_valid v && fv), (l_val l) as [y|]; try destruct (y =? d); try discriminate; injection RS as <-; reflexivity.
  - injection E as <-. auto.
  - injection E as <-. auto.
  - injection E as <-. cbn in Hc. apply in_app_or in Hc. destruct Hc as [Hc|[<-|[]]]; [now left|]. right. left. eauto.
  - injection E as <-. cbn in Hc. apply in_app_or in Hc. destruct Hc as [Hc|[<-|[]]]; [now left|]. now right; right; right.
  - unfold call_move in E. destruct (nth_error (l_calls l) n) as [c0|] eqn:C; [|discriminate].
    destruct c0 as [a1 k1 w1|ok a1 w1| | | |r].
    + injection E as <-. cbn in Hc. apply upd_in in Hc. destruct Hc as [->|Hc]; [|now left]. right. right. left.
      exists n, a1, k1, w1. auto.
    + destruct (sig_init ok l) as [l1 r] eqn:S. injection E as <-. cbn in Hc. apply upd_in in Hc.
      replace l1 with (fst (sig_init ok l)) in Hc by now rewrite S. rewrite sig_init_calls in Hc.
      destruct Hc as [->|Hc]; [now right; right; right|now left].
    + destruct (l_res l) as [[]|]; injection E as <-; cbn in Hc; apply upd_in in Hc;
        (destruct Hc as [->|Hc]; [now right; right; right|now left]).
    + destruct (l_res l) as [[? []| |]|]; try discriminate; injection E as <-; cbn in Hc; apply upd_in in Hc;
        (destruct Hc as [->|Hc]; [now right; right; right|now left]).
    + destruct (sig_init false l) as [l1 r] eqn:S. injection E as <-. cbn in Hc. apply upd_in in Hc.
      replace l1 with (fst (sig_init false l)) in Hc by now rewrite S. rewrite sig_init_calls in Hc.
      destruct Hc as [->|Hc]; [now right; right; right|now left].
    + discriminate.
  - unfold restart in E. apply restore_all_calls in E. rewrite E in Hc. destruct Hc.
Qed.

Lemma run_tinv : forall rnd skew tm ss done_ l l', inv rnd skew tm l -> first_stored l -> tinv rnd skew tm done_ l ->
  run rnd skew tm l ss = Some l' -> tinv rnd skew tm (done_ ++ ss) l'.
Proof.
  intros rnd skew tm ss. induction ss as [|s t IH]; intros done_ l l' IV FS TI E.
  - cbn in E. injection E as <-. now rewrite app_nil_r.
  - cbn in E. destruct (exec rnd skew tm l s) as [l1|] eqn:X; [|discriminate].
    destruct (proj2 (step_inv rnd skew tm l s IV FS) l1 X) as [IV1 FS1].
    replace (done_ ++ s :: t) with ((done_ ++ [s]) ++ t) by now rewrite <- app_assoc.
    apply (IH _ l1); auto. destruct TI as (T1 & T2 & T3). split; [|split].
    + intros a k w H. destruct (exec_calls _ _ _ _ _ _ X _ H) as [Y|[(a' & k' & w' & -> & Y)|[(n & a' & k' & w' & C & Y)|[]]]].
      * apply in_or_app. left. eauto.
      * injection Y as <- <- <-. apply in_or_app. right. now left.
      * exfalso. unfold sign_look in Y. destruct (l_res l) as [[d [| |[]]|d| ]|]; try discriminate.
        destruct k'; [destruct (a' <? rnd); [discriminate|]; destruct (skew <=? tm d - w'); discriminate|destruct (a' <=? rnd); discriminate].
    + intros a w H. destruct (exec_calls _ _ _ _ _ _ X _ H) as [Y|[(a' & k' & w' & -> & Y)|[(n & a' & k' & w' & C & Y)|[]]]].
      * apply in_or_app. left. eauto.
      * discriminate.
      * apply in_or_app. left. unfold sign_look in Y. destruct (l_res l) as [[d [| |[]]|d| ]|]; try discriminate.
        destruct k'; [destruct (a' <? rnd); [discriminate|]; destruct (skew <=? tm d - w'); [discriminate|]
                     |destruct (a' <=? rnd); discriminate].
        injection Y as _ <- <-. apply T1. exact (nth_error_In _ _ C).
    + intros n d H. unfold signed in H.
      assert (OLD : forall n d, signed l n d -> exists a w, good_call rnd skew tm (done_ ++ [s]) d a w).
      { intros n0 d0 H0. destruct (T3 n0 d0 H0) as (a & w & G1 & G2). exists a, w. split; [apply in_or_app; now left|exact G2]. }
      destruct (exec_log _ _ _ _ _ _ IV FS X) as [L|(k & a & w & e & -> & C & RE & L)]; rewrite L in H; [now apply (OLD n)|].
      destruct H as [[= <- <-]|H]; [|now apply (OLD n)].
      pose proof (i_call _ _ _ _ IV _ (nth_error_In _ _ C)) as OK. cbn in OK. destruct OK as [(d' & s' & RE' & TM) RR].
      rewrite RE in RE'. injection RE' as <- _. exists a, w. split; [apply in_or_app; left; apply T2; exact (nth_error_In _ _ C)|].
      split; [now apply RR|now apply TM].
Qed.

(** A signature is made only on request, with a key, at the point's round or the next one, and
    for a point whose time is ahead of the clock by less than the allowed skew. *)
Theorem signature_conditions : forall rnd skew tm ss l n d, run rnd skew tm loc_init ss = Some l -> signed l n d ->
  exists at_ now, In (LSign at_ true now) ss /\ rnd <= at_ <= rnd + 1 /\ tm d - now < skew.
Proof.
  intros rnd skew tm ss l n d E H. destruct (init_inv rnd skew tm) as [IV FS].
  pose proof (run_tinv rnd skew tm ss [] loc_init l IV FS) as T. cbn in T.
  destruct T as (_ & _ & T); [|exact E|].
  - split; [intros a k w []|]. split; [intros a w []|]. intros m e [].
  - destruct (T n d H) as (a & w & G). exists a, w. exact G.
Qed.

(** ** Across restarts *)

Record cinv (l : loc) : Prop := {
  c_valid : forall d r, db_get d (l_db l) = Some r -> r_kind r = KValid -> l_val l <> None;
  c_first : forall d, l_val l = Some d -> stored_first l d \/
    exists v fr fv, v_valid v = true /\ (t_get d (l_tasks l) = Some (THalf v fr fv) \/ t_get d (l_tasks l) = Some (TAcq v fr fv));
  c_log : forall n d, signed l n d -> stored_first l d }.

Lemma rmerge_valid : forall a b, r_kind (rmerge a b) = KValid <-> r_kind a = KValid \/ r_kind b = KValid.
Proof. intros [[] ? ? ?] [[] ? ? ?]; cbn; split; intros H; try destruct H as [H|H]; try discriminate; auto. Qed.

Lemma stored_first_merge : forall l d r e, dsorted (l_db l) -> stored_first l e ->
  stored_first (set_db (db_merge d r (l_db l)) l) e.
Proof.
  intros l d r e S (q & A & B & C). unfold stored_first. cbn. destruct (N.eq_dec e d) as [->|NE].
  - rewrite db_get_merge_same, A by exact S. eexists. split; [reflexivity|]. split; [apply rmerge_valid; now left|]. cbn. now rewrite C.
  - rewrite db_get_merge_other by exact NE. eauto.
Qed.

(** A merge of a record that is not valid, in a location that stays. *)
Lemma cinv_merge : forall l d r, dsorted (l_db l) -> r_kind r <> KValid -> cinv l -> cinv (set_db (db_merge d r (l_db l)) l).
Proof.
  intros l d r S K [C1 C2 C3]. split.
  - intros e q E KV. cbn in *. destruct (N.eq_dec e d) as [->|NE].
    + rewrite db_get_merge_same in E by exact S. injection E as <-. destruct (db_get d (l_db l)) as [q|] eqn:G; [|contradiction].
      apply rmerge_valid in KV. destruct KV as [KV|KV]; [eauto|contradiction].
    + rewrite db_get_merge_other in E by exact NE. eauto.
  - intros e V. cbn in V. destruct (C2 e V) as [X|X]; [left; now apply stored_first_merge|now right].
  - intros n e H. apply stored_first_merge; [exact S|]. exact (C3 n e H).
Qed.

(** A change of the task of a point that is not, or stays, the half-way first valid one. *)
Lemma cinv_task : forall l d t', cinv l -> (l_val l = Some d -> stored_first l d) \/
  (exists v fr fv, v_valid v = true /\ (t' = THalf v fr fv \/ t' = TAcq v fr fv)) -> cinv (set_task d t' l).
Proof.
  intros l d t' [C1 C2 C3] H. split; auto. intros e V. cbn in V.
  change (stored_first l e \/ exists v fr fv, v_valid v = true /\
    (t_get e (t_set d t' (l_tasks l)) = Some (THalf v fr fv) \/ t_get e (t_set d t' (l_tasks l)) = Some (TAcq v fr fv))).
  destruct (N.eq_dec e d) as [->|NE].
  - destruct H as [H|(v & fr & fv & VV & H)]; [left; auto|]. right. exists v, fr, fv. split; [exact VV|].
    rewrite t_get_same. destruct H as [-> | ->]; auto.
  - rewrite t_get_other by exact NE. auto.
Qed.

Lemma cinv_same : forall l l', l_db l' = l_db l -> l_val l' = l_val l -> l_tasks l' = l_tasks l -> l_log l' = l_log l ->
  cinv l -> cinv l'.
Proof.
  intros l l' D V T L [C1 C2 C3]. split.
  - intros d r E K. rewrite D in E. rewrite V. eauto.
  - intros d E. rewrite V in E. unfold stored_first. rewrite D, T. now apply C2.
  - intros n d H. unfold signed in H. unfold stored_first. rewrite L in H. rewrite D. exact (C3 n d H).
Qed.

Lemma cinv_step : forall rnd skew tm l s l', inv rnd skew tm l -> first_stored l -> cinv l ->
  (forall f b, s = LRestart f b -> settled l) -> exec rnd skew tm l s = Some l' -> cinv l'.
Proof.
  intros rnd skew tm l s l' IV FS CI ST E. pose proof (i_sort _ _ _ _ IV) as S. pose proof CI as [C1 C2 C3].
  assert (TW : forall d, t_get d (l_tasks l) = Some TWork \/ t_get d (l_tasks l) = None -> l_val l <> Some d).
  { intros d H V. pose proof (i_task _ _ _ _ IV d) as X. assert (Y : isval l d = false) by (destruct H as [H|H]; rewrite H in X; apply X).
    unfold isval in Y. rewrite V, N.eqb_refl in Y. discriminate. }
  pose proof (exec_log _ _ _ _ _ _ IV FS E) as LOG.
  destruct s as [d|d|d v|d|d|d|d|d|a k w| |n|f x]; cbn [exec] in E.
  - destruct (t_get d (l_tasks l)) eqn:T; [discriminate|]. injection E as <-. apply cinv_task; [exact CI|].
    left. intros V. destruct (TW d (or_intror T) V).
  - destruct (t_get d (l_tasks l)) as [[]|]; try discriminate. injection E as <-. apply cinv_merge; [exact S|discriminate|exact CI].
  - destruct (t_get d (l_tasks l)) as [[]|] eqn:T; try discriminate. destruct (verdict_ok v); [|discriminate].
    unfold acquire1 in E. destruct (l_res l) eqn:R.
    + injection E as <-. apply cinv_task; [exact CI|]. left. intros V. destruct (TW d (or_introl T) V).
    + pose proof (i_none _ _ _ _ IV R) as V. rewrite V in E. destruct (v_valid v) eqn:VV; injection E as <-.
      * split.
        -- intros e q _ _. discriminate.
        -- intros e X. injection X as <-. right. exists v, true, true. split; [exact VV|]. left. unfold set_task, set_tasks. cbn. apply t_get_same.
        -- exact C3.
      * apply cinv_task; [apply (cinv_same l); auto|]. left. cbn. rewrite V. discriminate.
  - destruct (t_get d (l_tasks l)) as [[|v fr fv| | |]|] eqn:T; try discriminate. injection E as <-.
    assert (KEEP : cinv (set_task d (TAcq v fr fv) l)).
    { apply cinv_task; [exact CI|]. destruct (v_valid v) eqn:VV; [right; exists v, fr, fv; auto|]. left. intros V.
      pose proof (i_task _ _ _ _ IV d) as X. rewrite T in X. cbn in X. destruct X as (_ & _ & _ & D & E & F).
      unfold isval in D. rewrite V, N.eqb_refl in D. subst fv. destruct fr; [destruct (E eq_refl); congruence|now specialize (F eq_refl)]. }
    unfold acquire2. destruct (negb fr && v_valid v) eqn:Q; [|exact KEEP].
    destruct (l_val l) as [e|] eqn:V; [exact KEEP|].
    apply andb_true_iff in Q. destruct Q as [_ VV]. split.
    + discriminate.
    + intros e X. injection X as <-. right. exists v, fr, true. split; [exact VV|]. right. unfold set_task, set_tasks. cbn. apply t_get_same.
    + exact C3.
  - destruct (t_get d (l_tasks l)) as [[| |v fr fv| |]|] eqn:T; try discriminate. injection E as <-.
    pose proof (i_task _ _ _ _ IV d) as X. rewrite T in X. cbn in X. destruct X as (A & _ & _ & D & E & F & G).
    set (r := mkR (v_kind v) (v_valid v && fv) false (v_final v)).
    assert (SF : l_val l = Some d -> stored_first (set_db (db_merge d r (l_db l)) l) d).
    { intros V. unfold isval in D. rewrite V, N.eqb_refl in D. subst fv.
      assert (VV : v_valid v = true) by (destruct (v_valid v); [reflexivity|now specialize (F eq_refl)]).
      assert (KK : v_kind v = KValid) by (unfold verdict_ok in A; rewrite VV in A; destruct (v_kind v); try discriminate; reflexivity).
      unfold stored_first. cbn [set_db l_db]. rewrite db_get_merge_same by exact S. eexists. split; [reflexivity|].
      destruct (db_get d (l_db l)) as [q|].
      - split; [apply rmerge_valid; right; exact KK|]. unfold rmerge, r. cbn. rewrite VV. apply orb_true_r.
      - unfold r. cbn. rewrite VV. auto. }
    split.
    + intros e q EQ KV. cbn in EQ |- *. destruct (N.eq_dec e d) as [->|NE].
      * rewrite db_get_merge_same in EQ by exact S. injection EQ as <-.
        assert (Z : v_kind v = KValid -> l_val l <> None).
        { intros KK. apply G. unfold verdict_ok in A. now rewrite KK in A. }
        destruct (db_get d (l_db l)) as [q|] eqn:GG; [|auto]. apply rmerge_valid in KV. destruct KV as [KV|KV]; [eauto|auto].
      * rewrite db_get_merge_other in EQ by exact NE. eauto.
    + intros e V. cbn in V. destruct (N.eq_dec e d) as [->|NE]; [left; exact (SF V)|].
      destruct (C2 e V) as [X|(v' & fr' & fv' & VV & X)].
      * left. exact (stored_first_merge l d r e S X).
      * right. exists v', fr', fv'. split; [exact VV|]. unfold set_task, set_tasks. cbn. rewrite t_get_other by exact NE. exact X.
    + intros n e H. exact (stored_first_merge l d r e S (C3 n e H)).
  - destruct (t_get d (l_tasks l)) as [[| | |v fr fv|]|] eqn:T; try discriminate.
    destruct (inv_resolve _ _ _ _ _ _ _ _ IV T) as (l1 & E1 & _ & V1 & D1 & L1 & T1 & _). rewrite E1 in E. injection E as <-.
    assert (CI1 : cinv l1) by (apply (cinv_same l); auto). apply cinv_task; [exact CI1|]. left. rewrite V1. intros V.
    destruct (C2 d V) as [(q & X)|(v' & fr' & fv' & _ & [X|X])]; [|congruence|congruence]. exists q. now rewrite D1.
  - injection E as <-. apply cinv_merge; [exact S|discriminate|exact CI].
  - injection E as <-. apply cinv_merge; [exact S|discriminate|exact CI].
  - injection E as <-. apply (cinv_same l); auto.
  - injection E as <-. apply (cinv_same l); auto.
  - destruct (move_keep _ _ _ _ _ _ E) as (D & V & T & _).
    destruct LOG as [L|(k & a & w & e & _ & _ & RE & L)]; [apply (cinv_same l); auto|].
    split.
    + intros d r X K. rewrite D in X. rewrite V. eauto.
    + intros d X. rewrite V in X. unfold stored_first. rewrite D, T. now apply C2.
    + intros m d H. unfold signed in H. unfold stored_first. rewrite L in H. rewrite D. destruct H as [[= _ <-]|H]; [|exact (C3 m d H)].
      pose proof (i_vres _ _ _ _ IV _ _ RE) as VE. pose proof (i_sgn _ _ _ _ IV _ _ RE) as TE.
      destruct (C2 e VE) as [X|(v' & fr' & fv' & _ & [X|X])]; [exact X|congruence|congruence].
  - specialize (ST f x eq_refl).
    destruct (restart_inv rnd skew tm f x l IV FS) as (l1 & E1 & I1 & F1 & L1 & _ & D1 & N1). rewrite E1 in E. injection E as <-.
    pose proof (fun d => restart_db_first f (l_db l) d (i_kind _ _ _ _ IV)) as RF.
    assert (SF : forall d, stored_first l d -> stored_first l1 d).
    { intros d (r & A & B & C). exists r. rewrite D1. split; [|auto]. now apply (proj2 (RF d)). }
    assert (KV : forall d r, db_get d (l_db l1) = Some r -> r_kind r = KValid -> exists e, stored_first l1 e).
    { intros d r A B. assert (OLD : exists q, db_get d (l_db l) = Some q /\ r_kind q = KValid).
      { rewrite D1 in A. destruct f; cbn [restart_db] in A; [|eauto]. rewrite db_reset_get in A.
        destruct (db_get d (l_db l)) as [q|]; [|discriminate]. cbn in A. injection A as <-. apply reset1_valid in B. exists q. tauto. }
      destruct OLD as (q & A' & B'). pose proof (C1 d q A' B') as NV. destruct (l_val l) as [e|] eqn:V; [|contradiction].
      exists e. apply SF. destruct (C2 e eq_refl) as [X|(v' & fr' & fv' & VV & X)]; [exact X|].
      rewrite (ST e v' fr' fv' X) in VV. discriminate. }
    assert (SV : forall d, stored_first l1 d -> l_val l1 = Some d) by (intros d (r & A & _ & C); exact (F1 d r A C)).
    split.
    + intros d r A B. destruct (KV d r A B) as (e & X). rewrite (SV e X). discriminate.
    + intros d V. left.
      assert (Q : exists e, stored_first l1 e).
      { destruct (existsb (fun p => match r_kind (snd p) with KValid => true | _ => false end) (l_db l1)) eqn:EX.
        - apply existsb_exists in EX. destruct EX as ([e q] & H & K). cbn in K. apply (KV e q); [|destruct (r_kind q); try discriminate; reflexivity].
          apply db_in_get; [exact (i_sort _ _ _ _ I1)|exact H].
        - rewrite N1 in V; [discriminate|]. intros e q A B. apply db_get_in in A.
          assert (Y : existsb (fun p => match r_kind (snd p) with KValid => true | _ => false end) (l_db l1) = true).
          { apply existsb_exists. exists (e, q). split; [exact A|]. cbn. now rewrite B. }
          congruence. }
      destruct Q as (e & X). pose proof (SV e X) as Y. rewrite V in Y. injection Y as ->. exact X.
    + intros n d H. unfold signed in H. rewrite L1 in H. apply SF. exact (C3 n d H).
Qed.

Lemma clean_inv : forall rnd skew tm l, clean_reach rnd skew tm l -> reach rnd skew tm l /\ cinv l.
Proof.
  intros rnd skew tm l R. induction R as [|l s l' R [RR CI] ST E].
  - split; [constructor|]. split; [intros d r X; discriminate|discriminate|intros n d []].
  - split; [exact (R_step _ _ _ _ _ _ RR E)|]. destruct (reach_inv _ _ _ _ RR) as [IV FS].
    exact (cinv_step _ _ _ _ _ _ IV FS CI ST E).
Qed.

(** When the process never stops between a valid point taking the location and its status being
    stored, all the signatures, over all restarts, are for one point, and it is stored. *)
Theorem sign_once_across_restarts_partial : forall rnd skew tm l n m d e, clean_reach rnd skew tm l ->
  signed l n d -> signed l m e -> d = e /\ stored_first l d.
Proof.
  intros rnd skew tm l n m d e R A B. destruct (clean_inv _ _ _ _ R) as [RR CI].
  pose proof (c_log _ CI n d A) as X. pose proof (c_log _ CI m e B) as Y. split; [|exact X].
  exact (one_first_stored _ _ _ _ _ _ RR X Y).
Qed.

(** Once the mark is stored it stays, through any later history, and only the marked point is
    signed from then on. *)
Lemma db_step : forall rnd skew tm l s l', inv rnd skew tm l -> first_stored l -> exec rnd skew tm l s = Some l' ->
  (exists d r, l_db l' = db_merge d r (l_db l)) \/ l_db l' = l_db l \/ exists f, l_db l' = restart_db f (l_db l).
Proof.
  intros rnd skew tm l s l' IV FS E. destruct s as [d|d|d v|d|d|d|d|d|a k w| |n|f x]; cbn [exec] in E.
  - destruct (t_get d (l_tasks l)); [discriminate|]. injection E as <-. auto.
  - destruct (t_get d (l_tasks l)) as [[]|]; try discriminate. injection E as <-. left. eexists. eexists. reflexivity.
  - destruct (t_get d (l_tasks l)) as [[]|]; try discriminate. destruct (verdict_ok v); [|discriminate].
    right. left. unfold acquire1 in E. destruct (l_res l); [injection E as <-; reflexivity|].
    destruct (v_valid v); [|injection E as <-; reflexivity]. destruct (l_val l) as [e|]; [|injection E as <-; reflexivity].
    destruct (e =? d); [injection E as <-; reflexivity|discriminate].
  - destruct (t_get d (l_tasks l)) as [[|v fr fv| | |]|]; try discriminate. injection E as <-. right. left. unfold acquire2.
    destruct (negb fr && v_valid v); [|reflexivity]. now destruct (l_val l).
  - destruct (t_get d (l_tasks l)) as [[| |v fr fv| |]|]; try discriminate. injection E as <-. left. eexists. eexists. reflexivity.
  - destruct (t_get d (l_tasks l)) as [[| | |v fr fv|]|] eqn:T; try discriminate.
    destruct (inv_resolve _ _ _ _ _ _ _ _ IV T) as (l1 & E1 & _ & _ & D & _). rewrite E1 in E. injection E as <-. right. left. exact D.
  - injection E as <-. left. eexists. eexists. reflexivity.
  - injection E as <-. left. eexists. eexists. reflexivity.
  - injection E as <-. auto.
  - injection E as <-. auto.
  - right. left. apply (move_keep _ _ _ _ _ _ E).
  - destruct (restart_inv rnd skew tm f x l IV FS) as (l1 & E1 & _ & _ & _ & _ & D & _). rewrite E1 in E. injection E as <-. eauto.
Qed.

Theorem stored_first_binds : forall rnd skew tm ss l l' d, reach rnd skew tm l -> stored_first l d ->
  run rnd skew tm l ss = Some l' ->
  stored_first l' d /\ forall n e, signed l' n e -> signed l n e \/ e = d.
Proof.
  intros rnd skew tm ss. induction ss as [|s t IH]; intros l l' d R SF E; cbn in E.
  - injection E as <-. auto.
  - destruct (exec rnd skew tm l s) as [l1|] eqn:X; [|discriminate]. destruct (reach_inv _ _ _ _ R) as [IV FS].
    assert (SF1 : stored_first l1 d).
    { destruct (db_step _ _ _ _ _ _ IV FS X) as [(e & r & D)|[D|(f & D)]].
      - destruct (stored_first_merge l e r d (i_sort _ _ _ _ IV) SF) as (q & Y). exists q. rewrite D. exact Y.
      - destruct SF as (q & Y). exists q. now rewrite D.
      - destruct SF as (q & Y1 & Y2 & Y3). exists q. rewrite D. split; [|auto].
        now apply (proj2 (restart_db_first f (l_db l) d (i_kind _ _ _ _ IV))). }
    destruct (IH l1 l' d (R_step _ _ _ _ _ _ R X) SF1 E) as (G1 & G2). split; [exact G1|].
    intros n e H. destruct (G2 n e H) as [Y|Y]; [|now right].
    destruct (exec_log _ _ _ _ _ _ IV FS X) as [L|(k & a & w & z & _ & _ & RE & L)]; unfold signed in *; rewrite L in Y; [now left|].
    destruct Y as [[= <- <-]|Y]; [|now left]. right. destruct SF as (q & Y1 & _ & Y3).
    pose proof (FS d q Y1 Y3) as V. pose proof (i_vres _ _ _ _ IV _ _ RE). congruence.
Qed.

(** ** The claim without the condition is false *)

Definition vd : verdict := mkV true KValid false.

(** Round 5, points 1 and 2 of one author. In the first run 1 takes the location, 2 is stored
    as valid, and the process stops before the status of 1 is stored. The second run restores 2,
    signs it, validates 1 and stores it. The third run restores both without a mark and takes 1,
    the smaller digest. *)
Definition two_script : list label :=
  [LNew 1; LFound 1; LNew 2; LFound 2; LAcq1 1 vd; LAcq2 1; LAcq1 2 vd; LAcq2 2; LStore 2; LResolve 2;
   LRestart false (fun _ => false);
   LSign 5 true 1000; LMove 0; LMove 0; LAcq1 1 vd; LAcq2 1; LStore 1; LResolve 1;
   LRestart false (fun _ => false);
   LSign 5 true 1000; LMove 0; LMove 0].

Definition two_state := Eval vm_compute in run 5 10 (fun _ => 1000) loc_init two_script.

Lemma run_reach : forall rnd skew tm ss l l', reach rnd skew tm l -> run rnd skew tm l ss = Some l' -> reach rnd skew tm l'.
Proof.
  intros rnd skew tm ss. induction ss as [|s t IH]; intros l l' R E; cbn in E; [injection E as <-; exact R|].
  destruct (exec rnd skew tm l s) as [l1|] eqn:X; [|discriminate]. exact (IH l1 l' (R_step _ _ _ _ _ _ R X) E).
Qed.

Theorem two_signatures_across_restarts_refuted : exists l, reach 5 10 (fun _ => 1000) l /\
  signed l 1 2 /\ signed l 2 1.
Proof.
  assert (E : run 5 10 (fun _ => 1000) loc_init two_script = two_state) by (vm_compute; reflexivity).
  unfold two_state in E. eexists. split; [exact (run_reach _ _ _ _ _ _ (R_init _ _ _) E)|].
  split; vm_compute; auto.
Qed.

(** ** A plain history *)

(** Point 3 is validated, stored, signed; a fork 4 is refused a place; after a restart the node
    signs 3 again. *)
Definition plain_script : list label :=
  [LNew 3; LFound 3; LAcq1 3 vd; LSign 5 true 1000; LMove 0; LAcq2 3; LStore 3; LResolve 3; LNew 4; LAcq1 4 vd; LAcq2 4;
   LSign 6 true 1000; LMove 1; LReject; LMove 1; LMove 2; LMove 2; LMove 2; LStore 4; LResolve 4; LProof 4;
   LRestart true (fun _ => false); LSign 5 true 1000; LMove 0; LMove 0].

Example plain_example : exists l, run 5 10 (fun _ => 1000) loc_init plain_script = Some l /\
  l_log l = [(1%nat, 3); (0%nat, 3)] /\ l_val l = Some 3 /\ l_thr l = [3] /\ l_calls l = [CRet (Some true)].
Proof. eexists. split; [vm_compute; reflexivity|]. repeat split. Qed.

(** The run before the restart: two answers and a signature. *)
Example plain_before : exists l, run 5 10 (fun _ => 1000) loc_init (firstn 18 plain_script) = Some l /\
  l_log l = [(0%nat, 3)] /\ l_calls l = [CRet None; CRet (Some true); CRet (Some true)].
Proof. eexists. split; [vm_compute; reflexivity|]. split; reflexivity. Qed.

Definition settledb (l : loc) : bool :=
  forallb (fun '(_, t) => match t with THalf v _ _ | TAcq v _ _ => negb (v_valid v) | _ => true end) (l_tasks l).

Lemma settledb_ok : forall l, settledb l = true -> settled l.
Proof.
  intros l H d v fr fv G. unfold settledb in H. rewrite forallb_forall in H.
  assert (TI : forall m t, t_get d m = Some t -> In (d, t) m).
  { induction m as [|[k q] m IH]; intros t E; [discriminate|]. cbn in E. destruct (N.eqb_spec k d) as [->|NE];
      [injection E as ->; now left|right; auto]. }
  destruct G as [G|G]; apply TI in G; specialize (H _ G); cbn in H; now destruct (v_valid v).
Qed.

Fixpoint clean_run rnd skew tm (l : loc) (ss : list label) : option loc :=
  match ss with
  | [] => Some l
  | s :: t =>
      if match s with LRestart _ _ => settledb l | _ => true end
      then match exec rnd skew tm l s with Some l1 => clean_run rnd skew tm l1 t | None => None end
      else None
  end.

Lemma clean_run_reach : forall rnd skew tm ss l l', clean_reach rnd skew tm l -> clean_run rnd skew tm l ss = Some l' ->
  clean_reach rnd skew tm l'.
Proof.
  intros rnd skew tm ss. induction ss as [|s t IH]; intros l l' R E; cbn [clean_run] in E; [injection E as <-; exact R|].
  destruct (match s with LRestart _ _ => settledb l | _ => true end) eqn:Q; [|discriminate].
  destruct (exec rnd skew tm l s) as [l1|] eqn:X; [|discriminate]. apply (IH l1 l'); [|exact E].
  apply (CR_step _ _ _ l s); auto. intros f b ->. now apply settledb_ok.
Qed.

Example plain_clean : exists l, clean_reach 5 10 (fun _ => 1000) l /\ signed l 0 3 /\ signed l 1 3.
Proof.
  assert (E : clean_run 5 10 (fun _ => 1000) loc_init plain_script = run 5 10 (fun _ => 1000) loc_init plain_script)
    by (vm_compute; reflexivity).
  destruct plain_example as (l & X & L & _). rewrite X in E. exists l.
  split; [exact (clean_run_reach _ _ _ _ _ _ (CR_init _ _ _) E)|]. unfold signed. rewrite L. cbn. auto.
Qed.
