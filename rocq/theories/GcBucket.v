(** The statements of C83 about one bucket: a rate and a burst. *)
From Coq Require Import List Bool NArith Lia Sorted.
From Coq Require Import ZArith ZifyN ZifyNat ZifyBool.
From Verif Require Import TbBucket GcModel.
Import ListNotations.
Local Open Scope N_scope.

(** ** What is said *)

(** the answers of a bucket at the instants of [l], in the order in which it is asked *)
Fixpoint grants (l : traffic) (tat : N) (times : list N) : list bool :=
  match times with
  | [] => []
  | t :: r => match try_claim l tat t with inl _ => false :: grants l tat r | inr tat => true :: grants l tat r end
  end.
(** the calls in the window of [d] ms that starts at [t] *)
Definition inside (t d x : N) : bool := (t <=? x) && (x <=? t + d).
(** what a limit permits: in [d] ms no more than the burst and one for each interval *)
Definition permitted (l : traffic) (d : N) : N := burst l + d / interval_of l.
(** the instants stay in the limit *)
Definition conforming (l : traffic) (times : list N) : Prop := forall t d, count (inside t d) times <= permitted l d.
(** far from the end of [u64] *)
Definition fits (l : traffic) (t : N) : Prop := t + burst l * interval_of l <= u64_max.
Definition proper (l : traffic) : Prop := 0 < rate_per_sec l /\ 0 < burst l.

(** ** Basics *)

Lemma interval_pos l : 0 < interval_of l. Proof. unfold interval_of. lia. Qed.
Lemma tolerance_le l : tolerance_of l <= interval_of l * (burst l - 1). Proof. unfold tolerance_of. lia. Qed.
Lemma tolerance_fits l t : fits l t -> tolerance_of l = interval_of l * (burst l - 1).
Proof. unfold fits, tolerance_of. intros F. pose proof (interval_pos l). nia. Qed.
Lemma tol_interval l : 0 < burst l -> tolerance_of l + interval_of l <= burst l * interval_of l.
Proof. intros B. pose proof (tolerance_le l). nia. Qed.

Lemma claim_ok l tat now tat' : try_claim l tat now = inr tat' -> tat <= now + tolerance_of l /\ tat' = sat_add (N.max tat now) (interval_of l).
Proof. unfold try_claim. destruct (N.ltb_spec now (tat - tolerance_of l)) as [C|C]; intros E; inversion E; subst; split; [lia|reflexivity]. Qed.
Lemma claim_no l tat now after : try_claim l tat now = inl after -> after = tat - tolerance_of l /\ now < after.
Proof. unfold try_claim. destruct (N.ltb_spec now (tat - tolerance_of l)) as [C|C]; intros E; inversion E; subst; split; [reflexivity|exact C]. Qed.
Lemma claim_when l tat now : tat <= now + tolerance_of l -> try_claim l tat now = inr (sat_add (N.max tat now) (interval_of l)).
Proof. intros H. unfold try_claim. rewrite (proj2 (N.ltb_ge _ _)) by lia. reflexivity. Qed.

Lemma grants_len l ts : forall tat, length (grants l tat ts) = length ts.
Proof. induction ts as [|t ts IH]; intros tat; cbn [grants length]; [reflexivity|]. destruct (try_claim l tat t); cbn [length]; rewrite IH; reflexivity. Qed.

(** ** No more than the limit *)

Lemma grants_bound l T : 0 < burst l -> fits l T -> forall ts tat s k, s + k * interval_of l <= tat -> tat <= T + burst l * interval_of l ->
  (forall x, In x ts -> s <= x /\ x <= T) -> k <= burst l + (T - s) / interval_of l -> count (fun b => b) (grants l tat ts) + k <= burst l + (T - s) / interval_of l.
Proof.
  intros B F. induction ts as [|t ts IH]; intros tat s k LO HI W K; cbn [grants]; [unfold count; cbn; lia|].
  pose proof (W t (or_introl eq_refl)) as (W1 & W2). assert (WR : forall x, In x ts -> s <= x /\ x <= T) by (intros x HX; apply W; right; exact HX).
  pose proof (interval_pos l) as IP. destruct (try_claim l tat t) as [after|tat'] eqn:E; rewrite count_cons.
  - apply (IH tat s k LO HI WR K).
  - destruct (claim_ok _ _ _ _ E) as (A & ->). pose proof (tolerance_fits _ _ F) as TO. pose proof (tol_interval l B) as TI.
    assert (SA : sat_add (N.max tat t) (interval_of l) = N.max tat t + interval_of l) by (unfold sat_add; unfold fits in F; lia).
    rewrite SA in *. assert (Q : k * interval_of l <= (T - s) + (burst l - 1) * interval_of l) by nia.
    assert (K' : k + 1 <= burst l + (T - s) / interval_of l).
    { assert (X : k - (burst l - 1) <= (T - s) / interval_of l) by (apply N.div_le_lower_bound; nia). lia. }
    pose proof (IH (N.max tat t + interval_of l) s (k + 1) ltac:(nia) ltac:(nia) WR K'). lia.
Qed.
(** The state of a bucket after some calls. *)
Fixpoint tat_after (l : traffic) (tat : N) (times : list N) : N :=
  match times with [] => tat | t :: r => match try_claim l tat t with inl _ => tat_after l tat r | inr tat => tat_after l tat r end end.
Lemma grants_app l a b : forall tat, grants l tat (a ++ b) = grants l tat a ++ grants l (tat_after l tat a) b.
Proof. induction a as [|t a IH]; intros tat; cbn [grants tat_after app]; [reflexivity|]. destruct (try_claim l tat t); cbn [app]; rewrite IH; reflexivity. Qed.

Lemma tat_upto l T : 0 < burst l -> forall ts tat, tat <= T + burst l * interval_of l -> (forall x, In x ts -> x <= T) -> tat_after l tat ts <= T + burst l * interval_of l.
Proof.
  intros B. induction ts as [|t ts IH]; intros tat H W; cbn [tat_after]; [exact H|].
  assert (WR : forall x, In x ts -> x <= T) by (intros x HX; apply W; right; exact HX). pose proof (W t (or_introl eq_refl)) as WT.
  destruct (try_claim l tat t) as [after|tat'] eqn:E; [apply IH; assumption|]. apply IH; [|exact WR].
  destruct (claim_ok _ _ _ _ E) as (A & ->). pose proof (tol_interval l B). unfold sat_add. lia.
Qed.

(** Wherever a stretch of calls whose instants lie in [d] ms comes, no more than [permitted] are
    granted. The instants need not be in order. *)
Theorem bucket_rate l ts1 ts2 t d : 0 < burst l -> fits l (t + d) -> (forall x, In x ts1 -> x <= t + d) -> (forall x, In x ts2 -> inside t d x = true) ->
  count (fun b => b) (skipn (length ts1) (grants l 0 (ts1 ++ ts2))) <= permitted l d.
Proof.
  intros B F W1 W2. rewrite grants_app, skipn_app, skipn_all2, grants_len, PeanoNat.Nat.sub_diag by (rewrite grants_len; lia). cbn [skipn app].
  pose proof (tat_upto l (t + d) B ts1 0 ltac:(nia) W1) as HI. unfold permitted.
  destruct (N.le_gt_cases t (tat_after l 0 ts1)) as [C|C].
  - pose proof (grants_bound l (t + d) B F ts2 (tat_after l 0 ts1) t 0 ltac:(lia) HI) as X. replace (t + d - t) with d in X by lia.
    specialize (X ltac:(intros x HX; specialize (W2 x HX); unfold inside in W2; lia) ltac:(clear; nia)). lia.
  - (* an old time acts like the first instant of the window *)
    assert (SAME : forall ts tat tat', (forall x, In x ts -> tat <= x /\ tat' <= x) -> grants l tat ts = grants l tat' ts).
    { clear. intros [|x ts] tat tat' H; [reflexivity|]. pose proof (H x (or_introl eq_refl)). cbn [grants].
      rewrite !claim_when by lia. replace (N.max tat x) with (N.max tat' x) by lia. reflexivity. }
    assert (IN : forall x, In x ts2 -> t <= x /\ x <= t + d) by (intros x HX; specialize (W2 x HX); unfold inside in W2; lia).
    rewrite (SAME ts2 (tat_after l 0 ts1) t) by (intros x HX; specialize (IN x HX); lia).
    pose proof (grants_bound l (t + d) B F ts2 t t 0 ltac:(lia) ltac:(nia) IN ltac:(nia)) as X. replace (t + d - t) with d in X by lia. lia.
Qed.

(** ** Within the limit nothing is refused *)

Lemma inside_count_step s seen now : s <= now -> (forall x, In x seen -> x <= now) -> count (inside s (now - s)) (seen ++ [now]) = count (fun x => s <=? x) seen + 1.
Proof.
  intros H W. rewrite count_app. unfold count at 2. cbn [filter]. unfold inside at 2. rewrite (proj2 (N.leb_le s now) H), (proj2 (N.leb_le now (s + (now - s)))) by lia. cbn.
  f_equal. unfold count. f_equal. f_equal. apply filter_ext_in. intros x HX. specialize (W x HX). unfold inside. lia.
Qed.

Lemma sorted_mid (a : list N) : forall b x y, sorted (a ++ b) -> In x a -> In y b -> x <= y.
Proof.
  induction a as [|z a IH]; intros b x y S X Y; [destruct X|]. cbn [app] in S. inversion S as [|? ? S1 S2]; subst. rewrite Forall_forall in S2.
  destruct X as [X|X]; [subst x; apply S2; apply in_or_app; right; exact Y|]. apply (IH b x y S1 X Y).
Qed.

(** [tat] is past, or is no more than some instant and an interval for each call since *)
Definition owes (l : traffic) (seen ts : list N) (tat : N) : Prop :=
  (forall x, In x ts -> tat <= x) \/ exists s, In s seen /\ tat <= s + interval_of l * count (fun x => s <=? x) seen.
Lemma conforming_grants l : 0 < burst l -> forall ts seen tat, owes l seen ts tat -> sorted (seen ++ ts) ->
  (forall t d, count (inside t d) (seen ++ ts) <= permitted l d) -> (forall x, In x ts -> fits l x) ->
  Forall (fun b => b = true) (grants l tat ts).
Proof.
  intros B. induction ts as [|now ts IH]; intros seen tat O S C F; cbn [grants]; [constructor|].
  assert (LE : forall x, In x seen -> x <= now) by (intros x HX; apply (sorted_mid seen (now :: ts) x now S HX); left; reflexivity).
  pose proof (interval_pos l) as IP. pose proof (F now (or_introl eq_refl)) as FN. pose proof (tolerance_fits l now FN) as TO.
  assert (OK : tat <= now + tolerance_of l).
  { destruct O as [O|(s & IS & O)]; [specialize (O now (or_introl eq_refl)); lia|].
    pose proof (C s (now - s)) as X. replace (seen ++ now :: ts) with ((seen ++ [now]) ++ ts) in X by (rewrite <- app_assoc; reflexivity).
    rewrite count_app in X. rewrite inside_count_step in X by (auto; apply LE; exact IS). unfold permitted in X.
    assert (Y : count (fun x => s <=? x) seen - (burst l - 1) <= (now - s) / interval_of l) by (clear - X B; set (q := (now - s) / interval_of l) in *; clearbody q; lia).
    assert (Z : interval_of l * (count (fun x => s <=? x) seen - (burst l - 1)) <= now - s).
    { pose proof (N.mul_div_le (now - s) (interval_of l) ltac:(lia)). nia. }
    pose proof (LE s IS). rewrite TO. clear - O Z H B IP. set (c := count _ seen) in *. set (I := interval_of l) in *. clearbody c I.
    destruct (N.le_gt_cases (burst l - 1) c) as [D|D].
    - assert (E : c = (burst l - 1) + (c - (burst l - 1))) by lia. set (y := c - (burst l - 1)) in *. clearbody y. subst c. nia.
    - nia. }
  rewrite claim_when by exact OK. constructor; [reflexivity|]. apply (IH (seen ++ [now])).
  - right. assert (SN : sat_add (N.max tat now) (interval_of l) <= N.max tat now + interval_of l) by (unfold sat_add; lia).
    destruct (N.le_gt_cases tat now) as [NC|NC].
    + exists now. split; [apply in_or_app; right; left; reflexivity|]. rewrite count_app. unfold count at 2. cbn [filter]. rewrite N.leb_refl. cbn [length]. nia.
    + destruct O as [O|(s & IS & O)]; [specialize (O now (or_introl eq_refl)); lia|]. exists s. split; [apply in_or_app; left; exact IS|]. rewrite count_app. unfold count at 2. cbn [filter].
      rewrite (proj2 (N.leb_le s now) (LE s IS)). cbn [length]. nia.
  - rewrite <- app_assoc. exact S.
  - intros t d. rewrite <- app_assoc. apply C.
  - intros x HX. apply F. right. exact HX.
Qed.

(** Calls that stay in the limit from a moment when the bucket is full are all granted. *)
Theorem bucket_conforming l ts tat : 0 < burst l -> sorted ts -> conforming l ts -> (forall x, In x ts -> fits l x /\ tat <= x) -> Forall (fun b => b = true) (grants l tat ts).
Proof. intros B S C F. apply (conforming_grants l B ts [] tat); [left; intros x HX; apply F; exact HX|exact S|exact C|intros x HX; apply F; exact HX]. Qed.

(** ** The limit that was asked for *)

(** In [d] ms no more than the burst and the rate. *)
Theorem permitted_rate l d : 0 < rate_per_sec l -> permitted l d <= burst l + rate_per_sec l * d / 1000.
Proof.
  intros R. unfold permitted. apply N.add_le_mono_l. apply N.div_le_lower_bound; [lia|]. unfold interval_of.
  set (r := N.min (rate_per_sec l) 1000). assert (RP : 0 < r <= 1000) by lia. assert (RL : r <= rate_per_sec l) by lia. clearbody r.
  set (i := N.max ((1000 + r - 1) / r) 1). assert (IR : 1000 <= i * r).
  { assert (X : (1000 + r - 1) < r * ((1000 + r - 1) / r) + r) by (pose proof (N.mul_succ_div_gt (1000 + r - 1) r ltac:(lia)); lia). assert ((1000 + r - 1) / r <= i) by lia. nia. }
  assert (IP : 0 < i) by lia. pose proof (N.mul_div_le d i ltac:(lia)) as Y. set (q := d / i) in *. clearbody q i.
  assert (1000 * q <= i * r * q) by nia. nia.
Qed.
(** The rate is met exactly when it divides 1000; else the interval is longer and the rate that is kept
    is lower than the one that was asked for. *)
Theorem interval_exact l : 0 < rate_per_sec l <= 1000 -> (interval_of l * rate_per_sec l = 1000 <-> 1000 mod rate_per_sec l = 0).
Proof.
  intros R. unfold interval_of. rewrite N.min_l by lia. set (r := rate_per_sec l) in *. clearbody r.
  assert (RZ : r <> 0) by lia. pose proof (N.div_mod 1000 r RZ) as D. pose proof (N.mod_lt 1000 r RZ) as M. split; intros H.
  - apply N.mod_divide; [exact RZ|]. exists (N.max ((1000 + r - 1) / r) 1). lia.
  - rewrite H in D. assert (Q : (1000 + r - 1) / r = 1000 / r).
    { symmetry. apply (N.div_unique _ r _ (r - 1)); lia. }
    rewrite Q. assert (1 <= 1000 / r) by (apply N.div_le_lower_bound; lia). nia.
Qed.
Corollary rate_501_is_500 b : interval_of (Traffic 501 b) = interval_of (Traffic 500 b) /\ interval_of (Traffic 999 b) = interval_of (Traffic 500 b) /\ interval_of (Traffic 300 b) = interval_of (Traffic 250 b).
Proof. vm_compute. auto. Qed.
