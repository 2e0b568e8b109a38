(** The buckets of tokens. *)
From Coq Require Import List Bool NArith Lia Sorted ZArith ZifyN ZifyNat ZifyBool.
From Verif Require Import TbModel.
Import ListNotations.
Local Open Scope N_scope.

(** ** Small specification *)

Definition count {A} (f : A -> bool) (l : list A) : N := N.of_nat (length (filter f l)).
(** the instants of the calls that passed *)
Fixpoint passed (l : list N) (r : list bool) : list N :=
  match l, r with t :: l, true :: r => t :: passed l r | _ :: l, _ :: r => passed l r | _, _ => [] end.
Definition within (t w x : N) : bool := (t <=? x) && (x <? t + w).
Definition sorted (l : list N) : Prop := StronglySorted N.le l.
Definition banned (v : verdict) : bool := match v with HardReject => true | _ => false end.

(** the answers of a bucket and of a soft bucket made at [t0] *)
Definition bucket_run (c : config) (t0 : N) (l : list N) : list bool := pass_run c (bucket_new t0 c) l.
Definition soft_run (c : config) (t0 : N) (l : list N) : list verdict := allow_run c (soft_new t0 c) l.

(** ** Basics *)

Lemma count_app {A} (f : A -> bool) l m : count f (l ++ m) = count f l + count f m.
Proof. unfold count. rewrite filter_app, app_length. lia. Qed.
Lemma count_cons {A} (f : A -> bool) a l : count f (a :: l) = (if f a then 1 else 0) + count f l.
Proof. unfold count. cbn [filter]. destruct (f a); cbn [length]; lia. Qed.
Lemma filter_le {A} (f : A -> bool) l : (length (filter f l) <= length l)%nat.
Proof. induction l as [|a l IH]; cbn [filter length]; [lia|]. destruct (f a); cbn [length]; lia. Qed.
Lemma pass_run_app c l : forall b m, pass_run c b (l ++ m) = pass_run c b l ++ pass_run c (pass_after c b l) m.
Proof. induction l as [|t l IH]; intros b m; cbn [app pass_run pass_after]; [reflexivity|]. destruct (passes c t b) as [ok b']. cbn [snd app]. rewrite IH. reflexivity. Qed.
Lemma allow_run_app c l : forall s m, allow_run c s (l ++ m) = allow_run c s l ++ allow_run c (allow_after c s l) m.
Proof. induction l as [|t l IH]; intros b m; cbn [app allow_run allow_after]; [reflexivity|]. destruct (allows c t b) as [ok b']. cbn [snd app]. rewrite IH. reflexivity. Qed.
Lemma pass_run_len c l : forall b, length (pass_run c b l) = length l.
Proof. induction l as [|t l IH]; intros b; cbn [pass_run length]; [reflexivity|]. destruct (passes c t b) as [ok b']. cbn [length]. rewrite IH. reflexivity. Qed.
Lemma allow_run_len c l : forall b, length (allow_run c b l) = length l.
Proof. induction l as [|t l IH]; intros b; cbn [allow_run length]; [reflexivity|]. destruct (allows c t b) as [ok b']. cbn [length]. rewrite IH. reflexivity. Qed.
Lemma passed_len l : forall r, length r = length l -> length (passed l r) = length (filter (fun b => b) r).
Proof. induction l as [|t l IH]; intros [|b r] H; cbn in *; try discriminate; [reflexivity|]. destruct b; cbn [length]; rewrite IH by lia; reflexivity. Qed.
Lemma passed_app l : forall r m s, length r = length l -> passed (l ++ m) (r ++ s) = passed l r ++ passed m s.
Proof. induction l as [|t l IH]; intros [|b r] m s H; cbn in *; try discriminate; [reflexivity|]. destruct b; cbn [app]; rewrite IH by lia; reflexivity. Qed.
Lemma passed_in l : forall r x, In x (passed l r) -> In x l.
Proof. induction l as [|t l IH]; intros [|b r] x H; cbn in *; try contradiction. destruct b; [destruct H as [H|H]; eauto|eauto]. Qed.

Lemma left_le c t b : left_tokens b <= tokens c -> left_tokens (snd (passes c t b)) <= tokens c.
Proof. intros H. unfold passes. destruct (next_refill b <=? t); cbn [left_tokens next_refill]; destruct (0 <? _) eqn:E; cbn [snd left_tokens]; lia. Qed.
Lemma left_after c l : forall b, left_tokens b <= tokens c -> left_tokens (pass_after c b l) <= tokens c.
Proof. induction l as [|t l IH]; intros b H; cbn [pass_after]; [exact H|]. apply IH, left_le, H. Qed.

(** ** How many pass *)

Lemma pass_bound c k : forall l b, left_tokens b <= tokens c -> (forall x, In x l -> x < next_refill b + k * window c) ->
  count (fun b => b) (pass_run c b l) <= left_tokens b + k * tokens c.
Proof.
  intros l. revert k. induction l as [|t l IH]; intros k b LT H; cbn [pass_run]; [unfold count; cbn; lia|].
  pose proof (H t (or_introl eq_refl)) as HT. unfold passes. destruct (N.leb_spec (next_refill b) t) as [C|C].
  - assert (K : 1 <= k) by (destruct (N.eq_dec k 0) as [->|]; lia).
    assert (KK : exists k', k = k' + 1) by (exists (k - 1); lia). destruct KK as (k' & ->).
    assert (BND : forall L, L <= tokens c -> count (fun b => b) (pass_run c (Bk (t + window c) L) l) <= L + k' * tokens c).
    { intros L HL. apply (IH k' (Bk (t + window c) L)); [exact HL|]. cbn [next_refill]. intros x HX. pose proof (H x (or_intror HX)). lia. }
    cbn [left_tokens next_refill]. destruct (N.ltb_spec 0 (tokens c)) as [P|P]; rewrite count_cons.
    + pose proof (BND (tokens c - 1) ltac:(lia)). lia.
    + pose proof (BND (tokens c) ltac:(lia)). lia.
  - destruct (N.ltb_spec 0 (left_tokens b)) as [P|P]; rewrite count_cons.
    + assert (X : count (fun b => b) (pass_run c (Bk (next_refill b) (left_tokens b - 1)) l) <= (left_tokens b - 1) + k * tokens c).
      { apply (IH k (Bk (next_refill b) (left_tokens b - 1))); cbn [left_tokens next_refill]; [lia|]. intros x HX. apply H. right. exact HX. }
      lia.
    + pose proof (IH k b LT (fun x HX => H x (or_intror HX))). lia.
Qed.

(** In [k] windows from the creation at most [k * tokens] pass, in whatever order the instants come. *)
Theorem long_run_rate c t0 l k : 0 < k -> (forall x, In x l -> x < t0 + k * window c) -> count (fun b => b) (bucket_run c t0 l) <= k * tokens c.
Proof.
  intros K H. assert (X : count (fun b => b) (pass_run c (bucket_new t0 c) l) <= left_tokens (bucket_new t0 c) + (k - 1) * tokens c).
  { apply pass_bound; [cbn; lia|]. intros x HX. cbn [bucket_new next_refill]. pose proof (H x HX). nia. }
  cbn [bucket_new left_tokens] in X. fold (bucket_run c t0 l) in X. nia.
Qed.

Lemma pass_window c k b l t : left_tokens b <= tokens c -> (forall x, In x l -> t <= x /\ x < t + (k + 1) * window c) ->
  count (fun b => b) (pass_run c b l) <= (k + 2) * tokens c.
Proof.
  intros LT H. destruct (N.le_gt_cases t (next_refill b)) as [C|C].
  - assert (X : count (fun b => b) (pass_run c b l) <= left_tokens b + (k + 1) * tokens c) by (apply pass_bound; [exact LT|]; intros x HX; destruct (H x HX); lia). lia.
  - destruct l as [|x l]; [unfold count; cbn; lia|]. destruct (H x (or_introl eq_refl)) as [H1 H2]. cbn [pass_run]. unfold passes. rewrite (proj2 (N.leb_le (next_refill b) x)) by lia.
    assert (BND : forall L, L <= tokens c -> count (fun b => b) (pass_run c (Bk (x + window c) L) l) <= L + k * tokens c).
    { intros L HL. apply (pass_bound c k l (Bk (x + window c) L) HL). cbn [next_refill]. intros y HY. destruct (H y (or_intror HY)). lia. }
    cbn [left_tokens next_refill]. destruct (N.ltb_spec 0 (tokens c)) as [P|P]; rewrite count_cons.
    + pose proof (BND (tokens c - 1) ltac:(lia)). lia.
    + pose proof (BND (tokens c) ltac:(lia)). lia.
Qed.

Lemma sorted_split t u l : sorted l -> exists l1 l2 l3, l = l1 ++ l2 ++ l3 /\ (forall x, In x l1 -> x < t) /\ (forall x, In x l2 -> t <= x /\ x < u) /\ (forall x, In x l3 -> u <= x /\ t <= x).
Proof.
  intros S. induction l as [|a l IH].
  - exists [], [], []. split; [reflexivity|]. split; [|split]; intros x [].
  - inversion S as [|? ? S1 S2]; subst. rewrite Forall_forall in S2. destruct (IH S1) as (l1 & l2 & l3 & -> & H1 & H2 & H3). clear IH.
    destruct (N.lt_ge_cases a t) as [C|C].
    + exists (a :: l1), l2, l3. split; [reflexivity|]. split; [|auto]. intros x [<-|H]; auto.
    + assert (E1 : l1 = []) by (destruct l1 as [|x l1]; [reflexivity|]; pose proof (H1 x (or_introl eq_refl)); pose proof (S2 x ltac:(left; reflexivity)); lia). subst l1. cbn [app] in *.
      destruct (N.lt_ge_cases a u) as [D|D].
      * exists [], (a :: l2), l3. split; [reflexivity|]. split; [intros x []|]. split; [intros x [<-|H]; auto|exact H3].
      * assert (E2 : l2 = []) by (destruct l2 as [|x l2]; [reflexivity|]; pose proof (H2 x (or_introl eq_refl)); pose proof (S2 x ltac:(left; reflexivity)); lia). subst l2. cbn [app] in *.
        exists [], [], (a :: l3). split; [reflexivity|]. split; [intros x []|]. split; [intros x []|]. intros x [<-|H]; auto.
Qed.

Lemma passed_window c b l t u K : sorted l -> left_tokens b <= tokens c ->
  (forall b m, left_tokens b <= tokens c -> (forall x, In x m -> t <= x /\ x < u) -> count (fun b => b) (pass_run c b m) <= K) ->
  count (fun x => (t <=? x) && (x <? u)) (passed l (pass_run c b l)) <= K.
Proof.
  intros S LT H. destruct (sorted_split t u l S) as (l1 & l2 & l3 & -> & H1 & H2 & H3).
  rewrite pass_run_app, passed_app by apply pass_run_len. rewrite pass_run_app, passed_app by apply pass_run_len. rewrite !count_app.
  assert (Z : forall m, (forall x, In x m -> (t <=? x) && (x <? u) = false) -> forall r, count (fun x => (t <=? x) && (x <? u)) (passed m r) = 0).
  { intros m HM r. unfold count. destruct (filter _ (passed m r)) as [|y z] eqn:F; [reflexivity|]. assert (IN : In y (filter (fun x => (t <=? x) && (x <? u)) (passed m r))) by (rewrite F; left; reflexivity).
    apply filter_In in IN as [I1 I2]. rewrite (HM y (passed_in _ _ _ I1)) in I2. discriminate. }
  rewrite (Z l1), (Z l3); [|intros x HX; destruct (H3 x HX); lia|intros x HX; pose proof (H1 x HX); lia].
  set (b2 := pass_after c b l1). assert (LT2 : left_tokens b2 <= tokens c) by (apply left_after; exact LT).
  pose proof (H b2 l2 LT2 H2) as X.
  assert (F : count (fun x => (t <=? x) && (x <? u)) (passed l2 (pass_run c b2 l2)) <= count (fun b => b) (pass_run c b2 l2)).
  { unfold count. rewrite <- (passed_len l2) by apply pass_run_len. pose proof (filter_le (fun x => (t <=? x) && (x <? u)) (passed l2 (pass_run c b2 l2))). lia. }
  lia.
Qed.

(** With instants in order, at most twice the tokens pass within any interval of one window. *)
Theorem at_most_twice_the_tokens c t0 l t : sorted l -> count (within t (window c)) (passed l (bucket_run c t0 l)) <= 2 * tokens c.
Proof.
  intros S. unfold bucket_run.
  apply (passed_window c (bucket_new t0 c) l t (t + window c) (2 * tokens c) S); [cbn; lia|].
  intros b m LT H. replace (2 * tokens c) with ((0 + 2) * tokens c) by lia. apply (pass_window c 0 b m t LT). intros x HX. destruct (H x HX). lia.
Qed.
(** Within an interval of [k] windows at most [k + 1] times the tokens. *)
Theorem passes_in_windows c t0 l t k : 0 < k -> sorted l -> count (within t (k * window c)) (passed l (bucket_run c t0 l)) <= (k + 1) * tokens c.
Proof.
  intros K S. unfold bucket_run.
  apply (passed_window c (bucket_new t0 c) l t (t + k * window c) ((k + 1) * tokens c) S); [cbn; lia|].
  intros b m LT H. assert (KK : exists j, k = j + 1) by (exists (k - 1); lia). destruct KK as (j & ->). replace (j + 1 + 1) with (j + 2) by lia.
  apply (pass_window c j b m t LT). intros x HX. destruct (H x HX). lia.
Qed.

(** ** Nobody within the rate is rejected *)

(** [n] calls since the last refill at [r]; all of them in [seen] *)
Lemma allow_run_ok c : 0 < tokens c -> 0 < window c -> forall l s r n seen,
  next_refill (s_bucket s) = r + window c -> left_tokens (s_bucket s) = tokens c - n ->
  soft_rejected s <= n - tokens c ->
  n <= count (within r (window c)) seen ->
  (forall x, In x l -> r <= x) -> sorted l ->
  (forall t, count (within t (window c)) (seen ++ l) <= tokens c + soft_rejects c) ->
  forall v, In v (allow_run c s l) -> v <> HardReject.
Proof.
  intros TP WP. induction l as [|t l IH]; intros s r n seen NR LT SR N HX S W v; [intros []|]. cbn [allow_run]. inversion S as [|? ? S1 S2]; subst. rewrite Forall_forall in S2.
  pose proof (HX t (or_introl eq_refl)) as RT.
  assert (W' : forall t1, count (within t1 (window c)) ((seen ++ [t]) ++ l) <= tokens c + soft_rejects c) by (intros t1; rewrite <- app_assoc; cbn [app]; apply W).
  unfold allows, passes. rewrite NR. destruct (N.leb_spec (r + window c) t) as [C|C].
  - cbn [left_tokens next_refill]. rewrite (proj2 (N.ltb_lt 0 (tokens c)) TP). intros [<-|IN]; [discriminate|].
    refine (IH (Soft (Bk (t + window c) (tokens c - 1)) 0) t 1 (seen ++ [t]) _ _ _ _ _ S1 W' v IN); cbn [s_bucket next_refill left_tokens soft_rejected]; try lia.
    + rewrite count_app, count_cons. unfold within at 2. replace ((t <=? t) && (t <? t + window c)) with true by lia. lia.
    + intros x HI. apply S2. exact HI.
  - assert (CNT : n + 1 <= count (within r (window c)) (seen ++ [t])).
    { rewrite count_app, count_cons. unfold within at 2. replace ((r <=? t) && (t <? r + window c)) with true by lia. lia. }
    destruct (N.ltb_spec 0 (left_tokens (s_bucket s))) as [P|P].
    + intros [<-|IN]; [discriminate|]. refine (IH (Soft (Bk (next_refill (s_bucket s)) (left_tokens (s_bucket s) - 1)) 0) r (n + 1) (seen ++ [t]) _ _ _ _ _ S1 W' v IN); cbn [s_bucket next_refill left_tokens soft_rejected]; try lia.
      intros x HI. apply HX. right. exact HI.
    + pose proof (W' r) as WR. rewrite count_app in WR. destruct (N.ltb_spec (soft_rejected s) (soft_rejects c)) as [Q|Q]; [|lia].
      intros [<-|IN]; [discriminate|]. refine (IH (Soft (s_bucket s) (soft_rejected s + 1)) r (n + 1) (seen ++ [t]) _ _ _ _ _ S1 W' v IN); cbn [s_bucket next_refill left_tokens soft_rejected]; try lia.
      intros x HI. apply HX. right. exact HI.
Qed.

(** A peer whose calls within any interval of one window are at most tokens plus soft rejections is never rejected hard. *)
Theorem never_banned_within_the_limit c t0 l : 0 < tokens c -> 0 < window c -> sorted (t0 :: l) ->
  (forall t, count (within t (window c)) l <= tokens c + soft_rejects c) -> forall v, In v (soft_run c t0 l) -> v <> HardReject.
Proof.
  intros TP WP S W v. inversion S as [|? ? S1 S2]; subst. rewrite Forall_forall in S2. unfold soft_run.
  refine (allow_run_ok c TP WP l (soft_new t0 c) t0 0 [] _ _ _ _ S2 S1 W v); cbn [soft_new bucket_new s_bucket next_refill left_tokens soft_rejected]; lia.
Qed.

Definition is_pass (v : verdict) : bool := match v with Pass => true | _ => false end.
(** a soft bucket passes what its bucket passes *)
Lemma allow_pass c l : forall s, map is_pass (allow_run c s l) = pass_run c (s_bucket s) l.
Proof.
  induction l as [|t l IH]; intros s; cbn [allow_run pass_run map]; [reflexivity|]. unfold allows. destruct (passes c t (s_bucket s)) as [[] b].
  - cbn [map is_pass]. rewrite IH. reflexivity.
  - destruct (soft_rejected s <? soft_rejects c); cbn [map is_pass]; rewrite IH; reflexivity.
Qed.
Theorem soft_bucket_passes_the_same c t0 l : map is_pass (soft_run c t0 l) = bucket_run c t0 l.
Proof. unfold soft_run, bucket_run. rewrite allow_pass. reflexivity. Qed.

(** Who calls at most [tokens] times within any interval of one window always passes. *)
Theorem always_passes_within_the_rate c t0 l : 0 < tokens c -> 0 < window c -> sorted (t0 :: l) ->
  (forall t, count (within t (window c)) l <= tokens c) -> forall b, In b (bucket_run c t0 l) -> b = true.
Proof.
  intros TP WP S W. set (c0 := Cfg (window c) (tokens c) 0).
  assert (E : bucket_run c t0 l = bucket_run c0 t0 l).
  { unfold bucket_run. change (bucket_new t0 c0) with (bucket_new t0 c). generalize (bucket_new t0 c) as b. clear.
    induction l as [|x m IH]; intros b; [reflexivity|]. cbn [pass_run]. change (passes c0 x b) with (passes c x b). destruct (passes c x b) as [ok b']. rewrite IH. reflexivity. }
  intros b H. rewrite E, <- soft_bucket_passes_the_same in H. apply in_map_iff in H as (v & <- & H).
  assert (NB : v <> HardReject) by (apply (never_banned_within_the_limit c0 t0 l TP WP S); [intros t; cbn [c0 tokens soft_rejects window]; rewrite N.add_0_r; apply W|exact H]).
  assert (NS : v <> SoftReject).
  { clear - H. unfold soft_run in H. revert H. generalize (soft_new t0 c0) as s. induction l as [|x m IH]; intros s; [intros []|]. cbn [allow_run]. unfold allows.
    destruct (passes c0 x (s_bucket s)) as [[] b]; [intros [<-|H]; [discriminate|exact (IH _ H)]|]. replace (soft_rejected s <? soft_rejects c0) with false by (cbn [c0 soft_rejects]; lia). intros [<-|H]; [discriminate|exact (IH _ H)]. }
  destruct v; try contradiction. reflexivity.
Qed.

(** ** A hard rejection comes after the soft ones *)

(** the answers since the last pass, the last answer first *)
Fixpoint since_pass (l : list verdict) : list verdict := match l with [] => [] | Pass :: _ => [] | v :: r => v :: since_pass r end.
Lemma soft_count c l : forall s past, soft_rejected s = N.min (soft_rejects c) (N.of_nat (length (since_pass past))) ->
  forall r1 v r2, allow_run c s l = r1 ++ v :: r2 -> v = HardReject <-> (v <> Pass /\ soft_rejects c <= N.of_nat (length (since_pass (rev r1 ++ past)))).
Proof.
  induction l as [|t l IH]; intros s past E r1 v r2 R; cbn [allow_run] in R; [destruct r1; discriminate|].
  unfold allows in R. destruct (passes c t (s_bucket s)) as [ok b]. destruct ok.
  - destruct r1 as [|a r1]; cbn [app] in R; injection R as <- R; [split; [discriminate|intros [H _]; congruence]|].
    cbn [rev]. rewrite <- app_assoc. exact (IH (Soft b 0) (Pass :: past) ltac:(cbn; lia) r1 v r2 R).
  - destruct (N.ltb_spec (soft_rejected s) (soft_rejects c)) as [Q|Q].
    + destruct r1 as [|a r1]; cbn [app] in R; injection R as <- R; [cbn [rev app]; split; [discriminate|intros [_ H]; lia]|].
      cbn [rev]. rewrite <- app_assoc. refine (IH (Soft b (soft_rejected s + 1)) (SoftReject :: past) _ r1 v r2 R). cbn [soft_rejected since_pass length]. lia.
    + destruct r1 as [|a r1]; cbn [app] in R; injection R as <- R; [cbn [rev app]; split; [intros _; split; [discriminate|lia]|reflexivity]|].
      cbn [rev]. rewrite <- app_assoc. refine (IH (Soft b (soft_rejected s)) (HardReject :: past) _ r1 v r2 R). cbn [soft_rejected since_pass length]. lia.
Qed.
(** A rejected call is rejected hard exactly if the configured number of calls before it was rejected since the last pass. *)
Theorem hard_after_soft c t0 l r1 v r2 : soft_run c t0 l = r1 ++ v :: r2 ->
  v = HardReject <-> v <> Pass /\ soft_rejects c <= N.of_nat (length (since_pass (rev r1))).
Proof.
  intros R. unfold soft_run in R. rewrite <- (app_nil_r (rev r1)). refine (soft_count c l (soft_new t0 c) [] _ r1 v r2 R). cbn. lia.
Qed.

(** ** A sender that limits itself *)

Lemma passed_sorted l : forall r, sorted l -> sorted (passed l r).
Proof.
  induction l as [|t l IH]; intros [|b r] S; cbn [passed]; try constructor. inversion S as [|? ? S1 S2]; subst. destruct b; [|apply IH, S1]. constructor; [apply IH, S1|].
  rewrite Forall_forall in *. intros x H. apply S2. exact (passed_in _ _ _ H).
Qed.
Lemma count_shift d t w l : d <= t -> count (within t w) (map (fun x => x + d) l) = count (within (t - d) w) l.
Proof. intros H. induction l as [|a l IH]; cbn [map]; [reflexivity|]. rewrite !count_cons, IH. unfold within. replace ((t <=? a + d) && (a + d <? t + w)) with ((t - d <=? a) && (a <? t - d + w)) by lia. reflexivity. Qed.

(** What a bucket of the sender lets through, delayed by a constant, is never rejected hard by the receiver. *)
Theorem honest_sender_never_banned c t0 t1 l d : 0 < tokens c -> 0 < window c -> tokens c <= soft_rejects c -> sorted l ->
  (forall x, In x l -> t1 <= x + d) -> forall v, In v (soft_run c t1 (map (fun x => x + d) (passed l (bucket_run c t0 l)))) -> v <> HardReject.
Proof.
  intros TP WP TS S T1. assert (SP : sorted (passed l (bucket_run c t0 l))) by (apply passed_sorted, S).
  apply never_banned_within_the_limit; [exact TP|exact WP| |].
  - constructor.
    + clear - SP. induction (passed l (bucket_run c t0 l)) as [|a m IH]; cbn [map]; [constructor|]. inversion SP as [|? ? S1 S2]; subst. constructor; [apply IH, S1|]. rewrite Forall_forall in *. intros x H. apply in_map_iff in H as (y & <- & H). pose proof (S2 y H). lia.
    + rewrite Forall_forall. intros x H. apply in_map_iff in H as (y & <- & H). apply T1. exact (passed_in _ _ _ H).
  - intros t. assert (B : forall u, count (within u (window c)) (passed l (bucket_run c t0 l)) <= tokens c + soft_rejects c) by (intros u; pose proof (at_most_twice_the_tokens c t0 l u S); lia).
    destruct (N.le_gt_cases d t) as [C|C]; [rewrite count_shift by exact C; apply B|].
    assert (E : count (within t (window c)) (map (fun x => x + d) (passed l (bucket_run c t0 l))) <= count (within d (window c)) (map (fun x => x + d) (passed l (bucket_run c t0 l)))).
    { clear - C. induction (passed l (bucket_run c t0 l)) as [|a m IH]; cbn [map]; [unfold count; cbn; lia|]. rewrite !count_cons. unfold within at 1 3. destruct ((t <=? a + d) && (a + d <? t + window c)) eqn:E1; destruct ((d <=? a + d) && (a + d <? d + window c)) eqn:E2; lia. }
    rewrite (count_shift d d) in E by lia. pose proof (B (d - d)). lia.
Qed.

(** With delays of at most one window, twice as many soft rejections would be needed: *)
Definition delayed (j : N) (sent arrived : list N) : Prop := Forall2 (fun s a => s <= a /\ a <= s + j) sent arrived.
Lemma delayed_count j sent arrived t w : delayed j sent arrived -> count (within t w) arrived <= count (fun x => (t - j <=? x) && (x <? t + w)) sent.
Proof. induction 1 as [|s a sent arrived H _ IH]; [unfold count; cbn; lia|]. rewrite !count_cons. unfold within at 1. destruct ((t <=? a) && (a <? t + w)) eqn:E1; destruct ((t - j <=? s) && (s <? t + w)) eqn:E2; lia. Qed.
Theorem delayed_sender_never_banned c t0 t1 l arrived : 0 < tokens c -> 0 < window c -> 2 * tokens c <= soft_rejects c -> sorted l -> sorted (t1 :: arrived) ->
  delayed (window c) (passed l (bucket_run c t0 l)) arrived -> forall v, In v (soft_run c t1 arrived) -> v <> HardReject.
Proof.
  intros TP WP TS S SA D. apply never_banned_within_the_limit; auto. intros t. pose proof (delayed_count _ _ _ t (window c) D) as X.
  pose proof (passes_in_windows c t0 l (t - window c) 2 ltac:(lia) S) as Y.
  assert (Z : count (fun x => (t - window c <=? x) && (x <? t + window c)) (passed l (bucket_run c t0 l)) <= count (within (t - window c) (2 * window c)) (passed l (bucket_run c t0 l))).
  { generalize (passed l (bucket_run c t0 l)) as m. induction m as [|a m IH]; [unfold count; cbn; lia|]. rewrite !count_cons. unfold within at 1. destruct ((t - window c <=? a) && (a <? t + window c)) eqn:E1; destruct ((t - window c <=? a) && (a <? t - window c + 2 * window c)) eqn:E2; lia. }
  lia.
Qed.

(** ** Concrete buckets *)

Definition ex_cfg : config := Cfg 10 2 2.
Example bucket_example : bucket_run ex_cfg 0 [0; 9; 9; 10; 10; 10; 20; 20] = [true; true; false; true; true; false; true; true].
Proof. reflexivity. Qed.
(** the bound of twice the tokens is reached: 4 calls pass within less than 10 *)
Example twice_reached : count (within 9 (window ex_cfg)) (passed [8; 9; 9; 10; 10] (bucket_run ex_cfg 0 [8; 9; 9; 10; 10])) = 3 /\
  count (within 8 (window ex_cfg)) (passed [8; 9; 10; 10] (bucket_run ex_cfg 0 [8; 9; 10; 10])) = 4.
Proof. split; reflexivity. Qed.
(** A sender that limits itself with the receiver's configuration, and delays between 0 and 2 with a
    window of 10: rejected hard. *)
Theorem small_delays_may_ban : exists l arrived v,
  sorted l /\ sorted arrived /\ delayed 2 (passed l (bucket_run ex_cfg 0 l)) arrived /\ In v (soft_run ex_cfg 1 arrived) /\ v = HardReject.
Proof.
  exists [0; 9; 10; 10; 20; 20], [1; 11; 11; 11; 20; 20], HardReject.
  assert (SO : forall l, (fix f (l : list N) := match l with a :: (b :: _) as r => (a <=? b) && f r | _ => true end) l = true -> sorted l).
  { induction l as [|a l IH]; intros H; [constructor|]. destruct l as [|b r]; [constructor; constructor|]. apply andb_true_iff in H as [H1 H2]. specialize (IH H2). constructor; [exact IH|].
    inversion IH as [|? ? Q1 Q2]; subst. rewrite Forall_forall in *. intros x [<-|HX]; [lia|]. pose proof (Q2 x HX). lia. }
  split; [apply SO; reflexivity|]. split; [apply SO; reflexivity|]. split; [|split; [|reflexivity]].
  - change (passed [0; 9; 10; 10; 20; 20] (bucket_run ex_cfg 0 [0; 9; 10; 10; 20; 20])) with [0; 9; 10; 10; 20; 20]. unfold delayed. repeat constructor; lia.
  - change (soft_run ex_cfg 1 [1; 11; 11; 11; 20; 20]) with [Pass; Pass; Pass; SoftReject; SoftReject; HardReject]. cbn. auto 10.
Qed.
