(** C92: theorems about the list of neighbours. *)
From Coq Require Import List NArith Bool Arith Lia Permutation ZifyN ZifyNat ZifyBool.
From Verif Require Import NbModel NbChoice.
Import ListNotations.
Local Open Scope N_scope.

(** ** One pass *)
Lemma filter_peers f l : NoDup (map peer l) -> NoDup (map peer (filter f l)).
Proof.
  induction l as [|x l IH]; intros N; [constructor|]. cbn [map] in N. inversion N as [|? ? NI N']; subst. cbn [filter]. destruct (f x); [|auto].
  cbn [map]. constructor; [|auto]. intros H. apply NI. apply in_map_iff in H as (y & E & H). apply filter_In in H as [H _]. apply in_map_iff. eauto.
Qed.
Lemma filter_le {A} (f : A -> bool) l : (length (filter f l) <= length l)%nat.
Proof. induction l as [|x l IH]; [cbn; lia|]. cbn [filter]. destruct (f x); cbn [length]; lia. Qed.
Lemma filter_full {A} (f : A -> bool) l : length (filter f l) = length l -> filter f l = l.
Proof.
  induction l as [|x l IH]; [reflexivity|]. cbn [filter]. destruct (f x); cbn [length]; intros H; [f_equal; apply IH; lia|].
  pose proof (filter_le f l). lia.
Qed.
Lemma known_spec p l : known p l = true <-> In p (map peer l).
Proof.
  unfold known. rewrite existsb_exists, in_map_iff. split; intros (x & A & B).
  - exists x. split; [lia|assumption].
  - exists x. split; [assumption|lia].
Qed.
Lemma worst_from_is ss l : forall i best, (match best with Some (j, _) => (j < i)%nat | None => True end) ->
  match worst_from ss i best l with
  | None => best = None /\ l = []
  | Some k =>
      exists s, (forall x, In x l -> s <= score (ss (ref x))) /\ (match best with Some (_, b) => s <= b | None => True end) /\
      (best = Some (k, s) \/ ((i <= k)%nat /\ exists n, nth_error l (k - i) = Some n /\ score (ss (ref n)) = s))
  end.
Proof.
  induction l as [|x l IH]; intros i best B.
  - cbn [worst_from]. destruct best as [[j b]|]; cbn [option_map fst]; [|auto]. exists b. split; [intros x []|]. split; [lia|auto].
  - cbn [worst_from]. set (nb' := match best with Some (j, b) => _ | None => _ end).
    specialize (IH (S i) nb'). assert (B' : match nb' with Some (j, _) => (j < S i)%nat | None => True end).
    { subst nb'. destruct best as [[j b]|]; [destruct (_ <? _)|]; lia. }
    specialize (IH B'). destruct (worst_from ss (S i) nb' l) as [k|].
    + destruct IH as (s & A & C & D). exists s.
      assert (X : s <= score (ss (ref x)) /\ match best with Some (_, b) => s <= b | None => True end).
      { subst nb'. destruct best as [[j b]|]; [destruct (N.ltb_spec (score (ss (ref x))) b)|]; lia. }
      destruct X as [X1 X2]. split; [intros y [<-|H]; auto|]. split; [exact X2|].
      destruct D as [D|(G & n & E & F)].
      * subst nb'. destruct best as [[j b]|]; [destruct (N.ltb_spec (score (ss (ref x))) b)|].
        -- injection D as <- <-. right. split; [lia|]. exists x. rewrite Nat.sub_diag. auto.
        -- injection D as <- <-. now left.
        -- injection D as <- <-. right. split; [lia|]. exists x. rewrite Nat.sub_diag. auto.
      * right. split; [lia|]. exists n. split; [|exact F]. replace (k - i)%nat with (S (k - S i)) by lia. exact E.
    + destruct IH as [E _]. subst nb'. destruct best as [[j b]|]; [destruct (_ <? _); discriminate|discriminate].
Qed.
Lemma worst_is ss l : match worst ss l with
  | None => l = []
  | Some k => exists n, nth_error l k = Some n /\ forall x, In x l -> score (ss (ref n)) <= score (ss (ref x))
  end.
Proof.
  pose proof (worst_from_is ss l 0 None Logic.I) as H. unfold worst. destruct (worst_from ss 0 None l) as [k|]; [|apply H].
  destruct H as (s & A & _ & [D|(_ & n & E & F)]); [discriminate|]. exists n. rewrite Nat.sub_0_r in E. split; [exact E|]. now rewrite F.
Qed.
Lemma swap_remove_is i l n : nth_error l i = Some n -> Permutation (n :: swap_remove i l) l.
Proof.
  intros E. unfold swap_remove. destruct (rev l) as [|x r] eqn:R.
  - apply (f_equal (@rev nb)) in R. rewrite rev_involutive in R. subst l. destruct i; discriminate.
  - assert (L : l = rev r ++ [x]) by (apply (f_equal (@rev nb)) in R; rewrite rev_involutive in R; exact R). subst l.
    destruct (Nat.eqb_spec i (length (rev r))) as [->|NE].
    + rewrite nth_error_app2, Nat.sub_diag in E by lia. injection E as ->. apply Permutation_cons_append.
    + assert (LT : (i < length (rev r))%nat).
      { assert (X : (i < length (rev r ++ [x]))%nat) by (apply nth_error_Some; congruence). rewrite app_length in X. cbn [length] in X. lia. }
      rewrite nth_error_app1 in E by lia. apply nth_error_split in E as (a & b & E & LA). rewrite E. subst i.
      rewrite firstn_app, Nat.sub_diag, firstn_all. cbn [firstn]. rewrite app_nil_r.
      replace (skipn (S (length a)) (a ++ n :: b)) with b.
      2: { rewrite skipn_app, skipn_all2 by lia. replace (S (length a) - length a)%nat with 1%nat by lia. reflexivity. }
      rewrite <- app_assoc. cbn [app]. rewrite Permutation_middle. apply Permutation_app_head. apply perm_skip. apply Permutation_cons_append.
Qed.

Lemma adds_are max old new : forall base c,
  fold_left (fun '(l, c) n => if (max <=? length l)%nat then (l, c) else if negb (known (peer n) old) then (l ++ [n], true) else (l, c)) new (base, c) =
  let added := firstn (max - length base) (filter (fun n => negb (known (peer n) old)) new) in (base ++ added, c || negb (length added =? 0)%nat).
Proof.
  induction new as [|n new IH]; intros base c; cbn [fold_left].
  - cbn [filter]. rewrite firstn_nil. cbn. now rewrite app_nil_r, orb_false_r.
  - destruct (Nat.leb_spec max (length base)).
    + rewrite IH. replace (max - length base)%nat with 0%nat by lia. reflexivity.
    + cbn [filter]. destruct (negb (known (peer n) old)) eqn:K.
      * rewrite IH, app_length. cbn [length]. replace (max - length base)%nat with (S (max - (length base + 1))) by lia. cbn [firstn].
        rewrite <- app_assoc. cbn [app length Nat.eqb negb]. rewrite orb_true_r. reflexivity.
      * rewrite IH. reflexivity.
Qed.

(** What an update makes of the neighbours: those not reliable or expired go; if there is no room, so does one
    with the least score; then come new ones, in their order, none which was there, while there is room. *)
Definition updated (max : nat) (ss : all_stats) (old new : list nb) (now : N) (l : list nb) : Prop :=
  let kept := filter (fun n => (16 <=? score (ss (ref n))) && (now <? expires n)) old in
  exists base, l = base ++ firstn (max - length base) (filter (fun n => negb (known (peer n) old)) new) /\
    ((length kept < max)%nat /\ base = kept \/
     (max <= length kept)%nat /\ kept = [] /\ base = [] \/
     (max <= length kept)%nat /\ exists w, Permutation (w :: base) kept /\ forall x, In x kept -> score (ss (ref w)) <= score (ss (ref x))).
Lemma compute_update_is max ss old new now : let '(l, c) := compute_update max ss old new now in
  updated max ss old new now l /\ (c = false -> l = old).
Proof.
  unfold compute_update, updated. change (fun n => (16 <=? score (ss (ref n))) && (now <? expires n)) with (usable ss now).
  set (kept := filter (usable ss now) old).
  assert (KF : negb (length kept =? length old)%nat = false -> kept = old).
  { intros H. apply filter_full. fold kept. destruct (Nat.eqb_spec (length kept) (length old)); [assumption|discriminate]. }
  assert (NA : forall m (k : list nb), negb (length (firstn m k) =? 0)%nat = false -> firstn m k = []).
  { intros m k H. destruct (firstn m k); [reflexivity|discriminate]. }
  destruct (Nat.leb_spec max (length kept)) as [L|L].
  - pose proof (worst_is ss kept) as W. destruct (worst ss kept) as [i|].
    + rewrite adds_are. cbv zeta. split; [|intros H; discriminate]. eexists. split; [reflexivity|]. right. right. split; [assumption|].
      destruct W as (w & E & M). exists w. split; [now apply swap_remove_is|exact M].
    + rewrite adds_are. cbv zeta. split.
      * eexists. split; [reflexivity|]. right. left. auto.
      * intros H. apply orb_false_iff in H as [H1 H2]. rewrite (NA _ _ H2), app_nil_r. auto.
  - rewrite adds_are. cbv zeta. split.
    + eexists. split; [reflexivity|]. left. auto.
    + intros H. apply orb_false_iff in H as [H1 H2]. rewrite (NA _ _ H2), app_nil_r. auto.
Qed.

Definition good (max : nat) (l : list nb) : Prop := NoDup (map peer l) /\ (length l <= max)%nat.
Lemma nodup_app {A} (a b : list A) : NoDup a -> NoDup b -> (forall x, In x a -> ~ In x b) -> NoDup (a ++ b).
Proof.
  induction 1 as [|x a X NA IH]; intros NB D; [exact NB|]. cbn [app]. constructor.
  - intros H. apply in_app_or in H as [H|H]; [auto|]. apply (D x); [now left|assumption].
  - apply IH; [assumption|]. intros y Y. apply D. now right.
Qed.
Lemma firstn_in {A} n (l : list A) x : In x (firstn n l) -> In x l.
Proof. intros H. rewrite <- (firstn_skipn n l). apply in_or_app. now left. Qed.
Lemma firstn_nodup n (l : list nb) : NoDup (map peer l) -> NoDup (map peer (firstn n l)).
Proof.
  revert n. induction l as [|x l IH]; intros n N; [rewrite firstn_nil; constructor|]. destruct n; [constructor|]. cbn [map] in N. inversion N as [|? ? NI N']; subst.
  cbn [firstn map]. constructor; [|auto]. intros H. apply NI. apply in_map_iff in H as (y & E & H). apply firstn_in in H. apply in_map_iff. eauto.
Qed.
Lemma updated_good max ss old new now l : good max old -> NoDup (map peer new) -> updated max ss old new now l -> good max l.
Proof.
  intros [ND LE] NN (base & -> & B). set (kept := filter _ old) in B.
  assert (NK : NoDup (map peer kept)) by now apply filter_peers.
  assert (LK : (length kept <= length old)%nat) by apply filter_le.
  assert (IK : forall x, In x kept -> In x old) by (intros x H; apply filter_In in H; apply H).
  assert (NB : NoDup (map peer base) /\ (forall x, In x base -> In x old) /\ (length base <= max)%nat).
  { destruct B as [(L & ->)|[(_ & _ & ->)|(L & w & P & _)]].
    - repeat apply conj; auto. lia.
    - repeat apply conj; [constructor|intros x []|cbn; lia].
    - pose proof (Permutation_NoDup (Permutation_sym (Permutation_map peer P)) NK) as N2. cbn [map] in N2. inversion N2; subst.
      repeat apply conj; [assumption| |pose proof (Permutation_length P) as PL; cbn [length] in PL; lia].
      intros x H. apply IK. apply (Permutation_in _ P). now right. }
  destruct NB as (NB & IB & LB). split.
  - rewrite map_app. apply nodup_app; [assumption|apply firstn_nodup; now apply filter_peers|].
    intros p H1 H2. apply in_map_iff in H2 as (y & <- & H2). apply firstn_in in H2. apply filter_In in H2 as [_ H2].
    assert (K : known (peer y) old = true); [|rewrite K in H2; discriminate]. apply known_spec. apply in_map_iff in H1 as (z & E & H1). apply in_map_iff. eauto.
  - rewrite app_length, firstn_length. lia.
Qed.

Section Thms.
Context (max : nat) (start : list nb) (ss0 : all_stats).
Hypothesis start_good : good max start.
Local Notation step := (step max).
Local Notation run := (run max).

(** the peers given to an update differ *)
Definition fair (h : list op) : Prop := Forall (fun o => match o with OBeginUpdate _ new _ => NoDup (map peer new) | _ => True end) h.
Definition result (p : pending) : list nb := match p with PUpdate _ l _ | PApply _ l _ => l end.
Definition seen (p : pending) : N := match p with PUpdate v _ _ | PApply v _ _ => v end.
Definition changes (p : pending) : bool := match p with PUpdate _ _ c | PApply _ _ c => c end.

Lemma put_case {A} (f : N -> A) k v x : put f k v x = if x =? k then v else f x.
Proof. reflexivity. Qed.
Lemma waiter_rest s w : let s' := step s (OCheck w) in entries s' = entries s /\ version s' = version s /\ idx s' = idx s /\ stat s' = stat s /\ pend s' = pend s /\ gen s' = gen s.
Proof. cbn [NbModel.step]. destruct (waiters s w) as [[[n g] [|]]|]; [destruct (gen s =? g)| destruct (n <=? length (entries s))%nat|]; cbn; auto 10. Qed.

Definition inv (s : st) : Prop := good max (entries s) /\ (forall k p, pend s k = Some p -> good max (result p)).
Lemma inv_step s o : inv s -> fair [o] -> inv (step s o).
Proof.
  intros [G P] F. assert (F1 := Forall_inv F). clear F. destruct o as [r t b|r why|k new now|k now|k|w n|w]; try exact (conj G P).
  - cbn [NbModel.step]. pose proof (compute_update_is max (stat s) (entries s) new now) as U. destruct (compute_update max (stat s) (entries s) new now) as [l c]. destruct U as [U _].
    split; [exact G|]. intros j p. cbn [pend set_pend]. rewrite put_case. destruct (N.eqb_spec j k); [|apply P]. intros [= <-]. cbn [result]. eapply updated_good; eauto.
  - cbn [NbModel.step]. unfold compute_apply. split; [exact G|]. intros j p. cbn [pend set_pend]. rewrite put_case. destruct (N.eqb_spec j k); [|apply P]. intros [= <-]. cbn [result].
    split; [apply filter_peers; apply G|]. pose proof (filter_le (usable (stat s) now) (entries s)). destruct G. lia.
  - cbn [NbModel.step]. destruct (pend s k) as [p|] eqn:E; [|exact (conj G P)].
    assert (PP : forall j p, put (pend s) k None j = Some p -> good max (result p)) by (intros j q; rewrite put_case; destruct (j =? k); [discriminate|apply P]).
    destruct p as [v l c|v l c]; [|destruct (version s =? v)]; (split; [|exact PP]); cbn [entries store_list set_pend]; try exact G; exact (P _ _ E).
  - destruct (waiter_rest s w) as (A & _ & _ & _ & B & _). unfold inv. rewrite A, B. exact (conj G P).
Qed.
Lemma run_snoc s h o : run s (h ++ [o]) = step (run s h) o.
Proof. unfold NbModel.run. now rewrite fold_left_app. Qed.
Lemma inv_run h : fair h -> inv (run (init start ss0) h).
Proof.
  induction h as [|o h IH] using rev_ind; intros F.
  - split; [exact start_good|discriminate].
  - apply Forall_app in F as [F1 F2]. rewrite run_snoc. apply inv_step; auto.
Qed.

(** ** Theorems *)
(** Each peer is a neighbour once at most, and there are no more neighbours than allowed. *)
Theorem neighbours_bounded : forall h, fair h -> let s := run (init start ss0) h in
  NoDup (map peer (entries s)) /\ (length (entries s) <= max)%nat.
Proof. intros h F. apply (inv_run h F). Qed.

(** The index holds the neighbours of the list and no others, with the scores of some moment before. *)
Theorem index_is_of_the_list : forall h, exists h1 h2, h = h1 ++ h2 /\
  idx (run (init start ss0) h) = build (stat (run (init start ss0) h1)) (entries (run (init start ss0) h)).
Proof.
  induction h as [|o h IH] using rev_ind; [exists [], []; auto|]. rewrite run_snoc. set (s := run (init start ss0) h) in *.
  destruct IH as (h1 & h2 & E & B).
  assert (K : forall s', idx s' = idx s -> entries s' = entries s -> exists h1 h2, h ++ [o] = h1 ++ h2 /\ idx s' = build (stat (run (init start ss0) h1)) (entries s')).
  { intros s' -> ->. exists h1, (h2 ++ [o]). split; [rewrite E; now rewrite app_assoc|exact B]. }
  destruct o as [r t b|r why|k new now|k now|k|w n|w]; try (apply K; reflexivity).
  - cbn [NbModel.step]. destruct (compute_update max (stat s) (entries s) new now). apply K; reflexivity.
  - cbn [NbModel.step]. destruct (pend s k) as [[v l c|v l c]|]; [| |apply K; reflexivity].
    + exists h, [OEnd k]. split; reflexivity.
    + destruct (version s =? v); [exists h, [OEnd k]; split; reflexivity|apply K; reflexivity].
  - destruct (waiter_rest s w) as (A & _ & C & _). apply K; assumption.
Qed.

(** An update during which nothing else happens. *)
Theorem update_is_exact : forall s k new now, let s' := step (step s (OBeginUpdate k new now)) (OEnd k) in
  updated max (stat s) (entries s) new now (entries s') /\ idx s' = build (stat s) (entries s').
Proof.
  intros s k new now. cbn [NbModel.step]. pose proof (compute_update_is max (stat s) (entries s) new now) as U.
  destruct (compute_update max (stat s) (entries s) new now) as [l c]. cbn [NbModel.step pend set_pend]. rewrite put_case, N.eqb_refl.
  split; [apply U|reflexivity].
Qed.
(** [try_apply_score]: if another list was stored meanwhile it does nothing; or else it takes away those which
    were not reliable or expired, and makes the index anew from the scores of now. *)
Theorem apply_is_exact : forall s k now h, Forall (fun o => o <> OEnd k /\ (forall n t, o <> OBeginUpdate k n t) /\ (forall t, o <> OBeginApply k t)) h ->
  let s1 := run (step s (OBeginApply k now)) h in let s2 := step s1 (OEnd k) in
  if version s1 =? version s
  then entries s1 = entries s /\ entries s2 = filter (fun n => (16 <=? score (stat s (ref n))) && (now <? expires n)) (entries s) /\
    idx s2 = build (stat s1) (entries s2)
  else entries s2 = entries s1 /\ idx s2 = idx s1.
Proof.
  intros s k now h H s1 s2.
  assert (G : pend s1 k = Some (PApply (version s) (filter (usable (stat s) now) (entries s)) (negb (length (filter (usable (stat s) now) (entries s)) =? length (entries s))%nat)) /\
    version s <= version s1 /\ (version s1 = version s -> entries s1 = entries s)).
  { subst s1. clear s2. induction h as [|o h IH] using rev_ind.
    - cbn. rewrite put_case, N.eqb_refl. repeat apply conj; auto. lia.
    - apply Forall_app in H as [H1 H2]. apply Forall_inv in H2 as (NE & NU & NP). specialize (IH H1). rewrite run_snoc. set (t := run _ h) in *. destruct IH as (A & B & C).
      destruct o as [r u b|r why|j new n|j n|j|w n|w]; try (repeat apply conj; assumption).
      + cbn [NbModel.step]. destruct (compute_update max (stat t) (entries t) new n). cbn [pend set_pend version entries]. rewrite put_case. destruct (N.eqb_spec k j) as [<-|]; [exfalso; eapply NU; reflexivity|auto].
      + cbn [NbModel.step]. destruct (compute_apply (stat t) (entries t) n). cbn [pend set_pend version entries]. rewrite put_case. destruct (N.eqb_spec k j) as [<-|]; [exfalso; eapply NP; reflexivity|auto].
      + cbn [NbModel.step]. destruct (N.eq_dec k j) as [<-|NJ]; [congruence|]. destruct (pend t j) as [[v l c|v l c]|]; [| |auto].
        * cbn [pend set_pend store_list version entries]. rewrite put_case. destruct (N.eqb_spec k j); [congruence|]. repeat apply conj; [assumption|lia|lia].
        * destruct (version t =? v); cbn [pend set_pend store_list version entries]; rewrite put_case; (destruct (N.eqb_spec k j); [congruence|]); repeat apply conj; auto; lia.
      + destruct (waiter_rest t w) as (A1 & A2 & _ & _ & A5 & _). rewrite A1, A2, A5. auto. }
  destruct G as (A & B & C). subst s2. cbn [NbModel.step]. rewrite A. destruct (N.eqb_spec (version s1) (version s)) as [E|E].
  - repeat apply conj; [auto|reflexivity|reflexivity].
  - split; reflexivity.
Qed.

(** *** Waiting for peers *)
(** every update ends before another list is stored *)
Fixpoint calm (s : st) (h : list op) : Prop :=
  match h with
  | [] => True
  | o :: r => (match o with OEnd k => match pend s k with Some (PUpdate v _ _) => v = version s | _ => True end | _ => True end) /\ calm (step s o) r
  end.
Definition winv (s : st) : Prop :=
  (forall k p, pend s k = Some p -> seen p <= version s /\ (seen p = version s -> changes p = false -> result p = entries s)) /\
  (forall w n g z, waiters s w = Some (n, g, z) -> g <= gen s /\ (z = true -> gen s = g -> (length (entries s) < n)%nat)).
Lemma winv_step s o : winv s -> calm s [o] -> winv (step s o).
Proof.
  intros [P W] [Q _]. destruct o as [r t b|r why|k new now|k now|k|w n|w]; try exact (conj P W).
  - cbn [NbModel.step]. pose proof (compute_update_is max (stat s) (entries s) new now) as U. destruct (compute_update max (stat s) (entries s) new now) as [l c]. destruct U as [_ U].
    split; [|exact W]. intros j p. cbn [pend set_pend version entries]. rewrite put_case. destruct (N.eqb_spec j k); [|apply P]. intros [= <-]. cbn [seen changes result]. split; [lia|auto].
  - cbn [NbModel.step]. unfold compute_apply. split; [|exact W]. intros j p. cbn [pend set_pend version entries]. rewrite put_case. destruct (N.eqb_spec j k); [|apply P]. intros [= <-]. cbn [seen changes result]. split; [lia|].
    intros _ H. apply filter_full. destruct (Nat.eqb_spec (length (filter (usable (stat s) now) (entries s))) (length (entries s))); [assumption|discriminate].
  - cbn [NbModel.step]. destruct (pend s k) as [p|] eqn:E; [|exact (conj P W)].
    assert (PP : forall j q, put (pend s) k None j = Some q -> pend s j = Some q) by (intros j q; rewrite put_case; destruct (j =? k); [discriminate|auto]).
    assert (ST : seen p = version s -> winv (store_list (set_pend s k None) (result p) (changes p))).
    { intros SV. destruct (P _ _ E) as [_ SAME]. specialize (SAME SV). split; cbn [pend set_pend store_list version entries gen waiters].
      - intros j q Hq. apply PP, P in Hq as [Hq _]. split; [lia|lia].
      - intros w n g z Hw. apply W in Hw as [Hg Hz]. destruct (changes p) eqn:CH; [split; lia|]. rewrite (SAME eq_refl). split; [lia|exact Hz]. }
    destruct p as [v l c|v l c].
    + exact (ST Q).
    + destruct (N.eqb_spec (version s) v) as [EV|EV]; [exact (ST (eq_sym EV))|]. split; [|exact W]. intros j q Hq. apply PP in Hq. exact (P _ _ Hq).
  - split; [exact P|]. cbn [NbModel.step waiters set_waiter gen entries]. intros x m g z. rewrite put_case. destruct (x =? w); [|apply W]. intros [= <- <- <-]. split; [lia|discriminate].
  - cbn [NbModel.step]. destruct (waiters s w) as [[[n g] [|]]|] eqn:E; [| |exact (conj P W)].
    + destruct (gen s =? g); [exact (conj P W)|]. split; [exact P|]. cbn [waiters set_waiter gen entries]. intros x m g' z. rewrite put_case. destruct (x =? w); [|apply W]. intros [= <- <- <-]. split; [lia|discriminate].
    + destruct (Nat.leb_spec n (length (entries s))); (split; [exact P|]); cbn [waiters set_waiter gen entries]; intros x m g' z; rewrite put_case; (destruct (x =? w); [|apply W]); [discriminate|].
      intros [= <- <- <-]. split; [exact (proj1 (W _ _ _ _ E))|lia].
Qed.
(** If updates are not overtaken, nobody sleeps while there are as many neighbours as it waits for, unless
    it is woken: it then leaves. *)
Theorem no_lost_wakeup : forall h w n g, calm (init start ss0) h -> let s := run (init start ss0) h in
  waiters s w = Some (n, g, true) -> (n <= length (entries s))%nat ->
  gen s <> g /\ waiters (step (step s (OCheck w)) (OCheck w)) w = None.
Proof.
  intros h w n g C s Hw Hn. assert (I : winv s).
  { subst s. assert (I0 : winv (init start ss0)) by (split; discriminate). clear Hw Hn. revert C I0. generalize (init start ss0). induction h as [|o h IH]; intros s C I; [exact I|].
    destruct C as [C1 C2]. apply IH; [exact C2|]. apply winv_step; [exact I|split; [exact C1|exact Logic.I]]. }
  destruct (proj2 I _ _ _ _ Hw) as [_ Z]. assert (NG : gen s <> g) by (intros E; specialize (Z eq_refl E); lia). split; [exact NG|].
  cbn [NbModel.step]. rewrite Hw. destruct (N.eqb_spec (gen s) g); [congruence|]. cbn [waiters set_waiter entries]. rewrite put_case, N.eqb_refl.
  destruct (Nat.leb_spec n (length (entries s))); [|lia]. cbn [waiters set_waiter]. now rewrite put_case, N.eqb_refl.
Qed.
End Thms.
