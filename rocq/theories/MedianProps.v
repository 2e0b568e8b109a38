(** Property C22: the streaming median is the median of everything inserted; averages never panic and are exact until overflow. *)
From Verif Require Import MedianModel.
Local Open Scope N_scope.

(** the state after inserting a sequence *)
Definition inserted (l : list N) : median := fold_left (fun m v => med_insert v m) l med_new.

(** Specification: the median of a non-empty sorted sequence *)
Definition true_median (s : list N) : N :=
  let n := length s in
  if Nat.odd n then nth (n / 2)%nat s 0 else (nth (n / 2 - 1)%nat s 0 + nth (n / 2)%nat s 0) / 2.

Lemma fold_max_spec : forall l x, In (fold_left N.max l x) (x :: l) /\ (forall y, In y (x :: l) -> y <= fold_left N.max l x).
Proof.
  induction l as [|z l IH]; intros x; cbn [fold_left]; [split; [now left|intros y [->|[]]; lia]|].
  destruct (IH (N.max x z)) as [A B]. split.
  - destruct A as [E|E]; [|right; now right]. rewrite <- E. destruct (N.max_spec x z) as [[_ ->]|[_ ->]]; [right; now left|now left].
  - intros y [->|[->|I]]; [specialize (B (N.max y z)); assert (N.max y z <= fold_left N.max l (N.max y z)) by (apply B; now left); lia| |apply B; now right].
    specialize (B (N.max x y)). assert (N.max x y <= fold_left N.max l (N.max x y)) by (apply B; now left). lia.
Qed.
Lemma fold_min_spec : forall l x, In (fold_left N.min l x) (x :: l) /\ (forall y, In y (x :: l) -> fold_left N.min l x <= y).
Proof.
  induction l as [|z l IH]; intros x; cbn [fold_left]; [split; [now left|intros y [->|[]]; lia]|].
  destruct (IH (N.min x z)) as [A B]. split.
  - destruct A as [E|E]; [|right; now right]. rewrite <- E. destruct (N.min_spec x z) as [[_ ->]|[_ ->]]; [now left|right; now left].
  - intros y [->|[->|I]]; [specialize (B (N.min y z)); assert (fold_left N.min l (N.min y z) <= N.min y z) by (apply B; now left); lia| |apply B; now right].
    specialize (B (N.min x y)). assert (fold_left N.min l (N.min x y) <= N.min x y) by (apply B; now left). lia.
Qed.
Lemma peek_max_spec l : match peek_max l with None => l = [] | Some x => In x l /\ forall y, In y l -> y <= x end.
Proof. destruct l as [|x l]; cbn [peek_max]; auto. apply fold_max_spec. Qed.
Lemma peek_min_spec l : match peek_min l with None => l = [] | Some x => In x l /\ forall y, In y l -> x <= y end.
Proof. destruct l as [|x l]; cbn [peek_min]; auto. apply fold_min_spec. Qed.
Lemma remove1_perm x l : In x l -> Permutation (x :: remove1 x l) l.
Proof.
  induction l as [|y l IH]; [intros []|]. intros I. cbn [remove1]. destruct (N.eqb_spec x y) as [->|N]; auto.
  destruct I as [->|I]; [congruence|]. rewrite perm_swap. constructor. auto.
Qed.

Record med_inv (l : list N) (m : median) : Prop := {
  mi_perm : Permutation (lo m ++ hi m) l;
  mi_le : forall x y, In x (lo m) -> In y (hi m) -> x <= y;
  mi_len : (length (lo m) = length (hi m) \/ length (lo m) = S (length (hi m)))%nat }.

Lemma insert_inv v l m : med_inv l m -> med_inv (l ++ [v]) (med_insert v m).
Proof.
  intros [P L E]. unfold med_insert.
  pose proof (peek_min_spec (v :: hi m)) as PM. destruct (peek_min (v :: hi m)) as [x|]; [|discriminate].
  destruct PM as [Ix Mx]. set (hi2 := remove1 x (v :: hi m)) in *.
  assert (Ph : Permutation (x :: hi2) (v :: hi m)) by (apply remove1_perm; exact Ix). clearbody hi2.
  assert (Lh : length hi2 = length (hi m)) by (apply Permutation_length in Ph; cbn [length] in Ph; lia).
  assert (Hh : forall y, In y hi2 -> In y (v :: hi m)) by (intros y Hy; eapply Permutation_in; [exact Ph|now right]).
  assert (P1 : Permutation ((x :: lo m) ++ hi2) (l ++ [v])).
  { cbn [app]. rewrite Permutation_middle, Ph, <- Permutation_middle, P. apply Permutation_cons_append. }
  (* either way lower elements of lo are below hi2, except possibly via v *)
  assert (D : x = v \/ In v hi2) by (destruct (Permutation_in v (Permutation_sym Ph) (or_introl eq_refl)); auto).
  destruct (Nat.ltb_spec (length hi2 + 1) (length (x :: lo m))) as [G|G].
  - pose proof (peek_max_spec (x :: lo m)) as PX. destruct (peek_max (x :: lo m)) as [z|]; [|discriminate].
    destruct PX as [Iz Mz]. set (lo2 := remove1 z (x :: lo m)) in *.
    assert (Pl : Permutation (z :: lo2) (x :: lo m)) by (apply remove1_perm; exact Iz). clearbody lo2.
    assert (Ll : length lo2 = length (lo m)) by (apply Permutation_length in Pl; cbn [length] in Pl; lia).
    assert (Hl : forall y, In y lo2 -> In y (x :: lo m)) by (intros y Hy; eapply Permutation_in; [exact Pl|now right]).
    split; cbn [lo hi].
    + rewrite <- Permutation_middle. rewrite <- P1. change (z :: lo2 ++ hi2) with ((z :: lo2) ++ hi2). now rewrite Pl.
    + intros a b Ha [<-|Hb]; [auto|]. pose proof (Mz _ (Hl _ Ha)) as Az.
      destruct (Hl _ Ha) as [->|Ha']; [apply Mx; auto|].
      destruct (Hh _ Hb) as [<-|Hb']; [|auto].
      (* b = v: a in lo m; v in hi2 *)
      destruct (N.le_gt_cases a v) as [|GT]; auto. exfalso.
      (* v < a : then x <= v < a <= every hi, so x = v, and v in hi2 again would be a second copy of v in hi m *)
      assert (x <= v) by (apply Mx; now left).
      assert (x = v) by (destruct Ix as [|Ix]; [auto|]; pose proof (L _ _ Ha' Ix); lia). subst x.
      assert (Ph' : Permutation hi2 (hi m)) by (eapply Permutation_cons_inv; exact Ph).
      pose proof (L _ _ Ha' (Permutation_in _ Ph' Hb)). lia.
    + cbn [length] in *. lia.
  - split; cbn [lo hi]; auto.
    + intros a b [<-|Ha] Hb; [apply Mx; auto|]. destruct (Hh _ Hb) as [<-|Hb']; [|auto].
      destruct (N.le_gt_cases a v) as [|GT]; auto. exfalso.
      assert (x <= v) by (apply Mx; now left).
      assert (x = v) by (destruct Ix as [|Ix]; [auto|]; pose proof (L _ _ Ha Ix); lia). subst x.
      assert (Ph' : Permutation hi2 (hi m)) by (eapply Permutation_cons_inv; exact Ph).
      pose proof (L _ _ Ha (Permutation_in _ Ph' Hb)). lia.
    + cbn [length] in *. lia.
Qed.
Lemma inserted_inv l : med_inv l (inserted l).
Proof.
  unfold inserted. rewrite <- fold_left_rev_right, <- (rev_involutive l) at 1. rewrite <- (rev_involutive l) at 1.
  rewrite rev_involutive at 1. generalize (rev l). clear l. intros l.
  induction l as [|v l IH]; cbn [fold_right rev].
  - split; cbn; auto. intros x y [].
  - now apply insert_inv.
Qed.

Lemma nth_in_app_l {A} (a b : list A) i d : (i < length a)%nat -> nth i (a ++ b) d = nth i a d.
Proof. intros; now rewrite app_nth1. Qed.

(** the greatest element of a sorted list is its last *)
Lemma sorted_last s x : StronglySorted N.le s -> In x s -> (forall y, In y s -> y <= x) -> nth (length s - 1) s 0 = x.
Proof.
  intros HS I M. assert (G : (length s - 1 < length s)%nat) by (destruct s; [destruct I|cbn; lia]).
  pose proof (nth_In s 0 G) as I2. apply N.le_antisymm; [auto|].
  clear M I2 G. revert x I. induction HS as [|a s HS IH F]; intros x I; [destruct I|].
  rewrite Forall_forall in F. destruct s as [|b s]; [destruct I as [->|[]]; cbn; lia|].
  cbn [length] in *. replace (S (S (length s)) - 1)%nat with (S (S (length s) - 1))%nat by lia. cbn [nth].
  destruct I as [->|I]; [|auto]. apply F. change (In (nth (length (b :: s) - 1) (b :: s) 0) (b :: s)). apply nth_In. cbn; lia.
Qed.
Lemma sorted_first s x : StronglySorted N.le s -> In x s -> (forall y, In y s -> x <= y) -> nth 0 s 0 = x.
Proof.
  intros HS I M. destruct HS as [|a s HS F]; [destruct I|]. cbn [nth]. destruct I as [|I]; auto.
  rewrite Forall_forall in F. specialize (F _ I). specialize (M a (or_introl eq_refl)). lia.
Qed.

Lemma nth_middle_eq {A} (a b : list A) d : nth (length a) (a ++ b) d = nth 0 b d.
Proof. rewrite app_nth2, Nat.sub_diag by lia. reflexivity. Qed.

(** For every sequence of u128 values and every sorted permutation of it: the exact answer of the code (the sum of the two
    middle values saturates at u128::MAX). *)
Theorem C22_median_exact : forall l s, Permutation s l -> StronglySorted N.le s ->
  med_get (inserted l) =
    match l with
    | [] => None
    | _ => let n := length s in
           Some (if Nat.odd n then nth (n / 2)%nat s 0
                 else N.min (nth (n / 2 - 1)%nat s 0 + nth (n / 2)%nat s 0) (2 ^ 128 - 1) / 2)
    end.
Proof.
  intros l s P HS. destruct (inserted_inv l) as [Q L E]. set (m := inserted l) in *. clearbody m.
  assert (Es : s = isort (lo m) ++ isort (hi m)).
  { apply sorted_unique; auto.
    - apply sorted_app; try apply isort_sorted. intros x y Hx Hy. apply L; eapply Permutation_in; try apply isort_perm; auto.
    - rewrite P, <- Q. apply Permutation_app; symmetry; apply isort_perm. }
  assert (La : length (isort (lo m)) = length (lo m)) by (apply Permutation_length, isort_perm).
  assert (Lb : length (isort (hi m)) = length (hi m)) by (apply Permutation_length, isort_perm).
  assert (Ln : length s = (length (lo m) + length (hi m))%nat) by (rewrite Es, app_length; lia).
  unfold med_get. pose proof (peek_max_spec (lo m)) as PM. destruct (peek_max (lo m)) as [a|].
  2:{ rewrite PM in *. cbn in E. destruct (hi m) eqn:EH; [|destruct E; discriminate]. cbn in Q. apply Permutation_nil in Q. now subst l. }
  destruct PM as [Ia Ma]. assert (NL : (0 < length (lo m))%nat) by (destruct (lo m); [destruct Ia|cbn; lia]).
  assert (Hl : match l with [] => False | _ => True end).
  { destruct l; auto. apply Permutation_sym, Permutation_nil in Q. destruct (lo m); [destruct Ia|discriminate]. }
  destruct l as [|l0 l]; [destruct Hl|]. cbv zeta.
  assert (N1 : nth (length (lo m) - 1)%nat s 0 = a).
  { rewrite Es, app_nth1 by lia. rewrite <- La. apply sorted_last; [apply isort_sorted| |].
    - eapply Permutation_in; [symmetry; apply isort_perm|exact Ia].
    - intros y Hy. apply Ma. eapply Permutation_in; [apply isort_perm|exact Hy]. }
  destruct (Nat.ltb_spec (length (hi m)) (length (lo m))).
  - f_equal. rewrite Ln. destruct E as [E|E]; [lia|]. rewrite E in *.
    replace (S (length (hi m)) + length (hi m))%nat with (S (2 * length (hi m)))%nat by lia.
    rewrite Nat.odd_succ, Nat.even_mul. cbn [orb Nat.even].
    replace (S (2 * length (hi m)) / 2)%nat with (length (hi m)). 2:{ apply (Nat.div_unique _ 2 _ 1); lia. }
    replace (length (hi m)) with (S (length (hi m)) - 1)%nat by lia. now symmetry.
  - assert (Eq : length (lo m) = length (hi m)) by lia.
    pose proof (peek_min_spec (hi m)) as PN. destruct (peek_min (hi m)) as [b|]; [|rewrite PN in *; cbn in *; lia].
    destruct PN as [Ib Mb]. f_equal. rewrite Ln, <- Eq.
    replace (length (lo m) + length (lo m))%nat with (2 * length (lo m))%nat by lia.
    rewrite Nat.odd_mul. cbn [andb Nat.odd Nat.even negb].
    replace (2 * length (lo m) / 2)%nat with (length (lo m)) by (symmetry; rewrite Nat.mul_comm; apply Nat.div_mul; lia).
    rewrite N1. replace (nth (length (lo m)) s 0) with b; [reflexivity|].
    rewrite Es, <- La, nth_middle_eq. symmetry. apply sorted_first; [apply isort_sorted| |].
    + eapply Permutation_in; [symmetry; apply isort_perm|exact Ib].
    + intros y Hy. apply Mb. eapply Permutation_in; [apply isort_perm|exact Hy].
Qed.

(** The property as stated, for values whose pairwise sums fit u128 (all metrics in use: u64 values). *)
Theorem C22_median : forall l s, l <> [] -> Permutation s l -> StronglySorted N.le s -> Forall (fun v => v < 2 ^ 127) l ->
  med_get (inserted l) = Some (true_median s).
Proof.
  intros l s NE P HS F. rewrite (C22_median_exact l s P HS). destruct l as [|l0 l]; [congruence|]. cbv zeta. f_equal.
  unfold true_median. destruct (Nat.odd (length s)); auto. f_equal. apply N.min_l.
  assert (B : forall i, nth i s 0 < 2 ^ 127).
  { intros i. destruct (nth_in_or_default i s 0) as [I| ->]; [|reflexivity]. rewrite Forall_forall in F. apply F. eapply Permutation_in; eauto. }
  pose proof (B (length s / 2 - 1)%nat). pose proof (B (length s / 2)%nat). change (2 ^ 128) with (2 ^ 127 + 2 ^ 127). lia.
Qed.
Example C22_nonvacuous : med_get (inserted [5; 1; 9; 2]) = Some 3 /\ true_median [1; 2; 5; 9] = 3.
Proof. split; reflexivity. Qed.

(** For values near u128::MAX the middle sum saturates: the median of {MAX, MAX} is reported as MAX/2. *)
Theorem C22_saturation_refuted : exists l s, l <> [] /\ Permutation s l /\ StronglySorted N.le s /\ Forall (fun v => v < 2 ^ 128) l /\
  med_get (inserted l) <> Some (true_median s).
Proof.
  exists [2 ^ 128 - 1; 2 ^ 128 - 1], [2 ^ 128 - 1; 2 ^ 128 - 1]. split; [discriminate|]. split; [reflexivity|].
  split; [repeat constructor; lia|]. split; [repeat constructor|]. vm_compute. discriminate.
Qed.

(** * Property C32: the safe average *)
Definition accumulated (l : list N) : option avg :=
  fold_left (fun a v => match a with Some a => avg_accum v a | None => None end) l (Some avg_new).
Definition total (l : list N) : N := fold_right N.add 0 l.

Lemma accum_none l : fold_left (fun a v => match a with Some a => avg_accum v a | None => None end) l None = None.
Proof. induction l; auto. Qed.
Lemma accum_app l v : accumulated (l ++ [v]) = match accumulated l with Some a => avg_accum v a | None => None end.
Proof. unfold accumulated. now rewrite fold_left_app. Qed.
Lemma total_app a b : total (a ++ b) = total a + total b.
Proof. unfold total. induction a as [|x a IH]; cbn [app fold_right]; lia. Qed.

(** never panics: the counter is positive whenever the sum is *)
Theorem C32_average_total : forall l, Forall (fun v => v < 2 ^ 128) l ->
  exists a, accumulated l = Some a /\ (avg_get a = None <-> l = []) /\ av_sum a <= 2 ^ 128 - 1.
Proof.
  intros l F.
  assert (G : exists a, accumulated l = Some a /\ (av_cnt a = 0 <-> l = []) /\ av_sum a <= u128max /\ (l = [] -> av_sum a = 0)).
  { revert F. induction l as [|v l IH] using rev_ind; intros F.
    - exists avg_new. cbn. repeat split; auto; discriminate.
    - apply Forall_app in F as [F1 F2]. inversion F2; subst. destruct (IH F1) as (a & E & C & B & Z). rewrite accum_app, E. unfold avg_accum.
      assert (NN : l ++ [v] <> []) by (destruct l; discriminate).
      destruct (N.leb_spec (av_sum a + v) u128max) as [L|L].
      + eexists; split; [reflexivity|]. cbn [av_cnt av_sum]. split; [split; [lia|tauto]|]. split; [auto|tauto].
      + destruct (N.eqb_spec (av_cnt a) 0) as [Ez|Ez].
        * apply C in Ez. rewrite (Z Ez) in L. unfold u128max in L. lia.
        * eexists; split; [reflexivity|]. cbn [av_cnt av_sum]. split; [split; [lia|tauto]|]. split; [unfold sat_add; lia|tauto]. }
  destruct G as (a & E & C & B & _). exists a. split; auto. split; [|exact B].
  rewrite <- C. unfold avg_get. destruct (N.eqb_spec (av_cnt a) 0); [tauto|]. destruct (av_cnt a =? 1); split; intros; try discriminate; tauto.
Qed.

(** exact (rounded down) while the sum of everything fits u128 *)
Theorem C32_average_exact : forall l, l <> [] -> total l <= 2 ^ 128 - 1 ->
  exists a, accumulated l = Some a /\ avg_get a = Some (total l / N.of_nat (length l)).
Proof.
  intros l NE T.
  assert (G : accumulated l = Some (Avg (total l) (N.of_nat (length l)))).
  { clear NE. revert T. induction l as [|v l IH] using rev_ind; intros T; [reflexivity|]. rewrite total_app in T. cbn [total fold_right] in T.
    rewrite accum_app, IH by lia. unfold avg_accum. cbn [av_sum av_cnt]. destruct (N.leb_spec (total l + v) u128max) as [L|L]; [|unfold u128max in L; lia].
    rewrite total_app, app_length. cbn [total fold_right length]. do 2 f_equal; lia. }
  exists (Avg (total l) (N.of_nat (length l))). split; auto. unfold avg_get. cbn [av_sum av_cnt].
  destruct (N.eqb_spec (N.of_nat (length l)) 0); [destruct l; [congruence|cbn in *; lia]|].
  destruct (N.eqb_spec (N.of_nat (length l)) 1) as [->|]; auto. now rewrite N.div_1_r.
Qed.
(** when the total would not fit 128 bits, the running mean so far is added to the new value and counts, with it, as one value *)
Theorem C32_overflow_step : forall l v a m, Forall (fun v => v < 2 ^ 128) l -> v < 2 ^ 128 -> accumulated l = Some a -> avg_get a = Some m ->
  2 ^ 128 <= av_sum a + v ->
  exists a', accumulated (l ++ [v]) = Some a' /\ avg_get a' = Some (N.min (m + v) (2 ^ 128 - 1)) /\
    forall w, w < 2 ^ 128 -> N.min (m + v) (2 ^ 128 - 1) + w < 2 ^ 128 ->
    exists a'', accumulated (l ++ [v] ++ [w]) = Some a'' /\ avg_get a'' = Some ((N.min (m + v) (2 ^ 128 - 1) + w) / 2).
Proof.
  intros l v a m F V E G O. rewrite accum_app, E. unfold avg_accum.
  destruct (N.leb_spec (av_sum a + v) u128max) as [L|L]; [unfold u128max in L; lia|].
  assert (Hd : av_cnt a <> 0 /\ m = av_sum a / av_cnt a).
  { unfold avg_get in G. destruct (N.eqb_spec (av_cnt a) 0); [discriminate|]. split; auto.
    destruct (N.eqb_spec (av_cnt a) 1) as [->|]; injection G as <-; [now rewrite N.div_1_r|auto]. }
  destruct Hd as [Hz ->]. destruct (N.eqb_spec (av_cnt a) 0) as [|_]; [contradiction|].
  eexists. split; [reflexivity|]. split; [reflexivity|]. intros w W Fit.
  assert (E1 : accumulated (l ++ [v]) = Some (Avg (N.min (av_sum a / av_cnt a + v) u128max) 1)).
  { rewrite accum_app, E. unfold avg_accum. destruct (N.leb_spec (av_sum a + v) u128max) as [L'|_]; [lia|].
    destruct (N.eqb_spec (av_cnt a) 0) as [|_]; [contradiction|]. reflexivity. }
  rewrite app_assoc, accum_app, E1. unfold avg_accum. cbn [av_sum av_cnt].
  change (2 ^ 128 - 1) with u128max in *. destruct (N.leb_spec (N.min (av_sum a / av_cnt a + v) u128max + w) u128max) as [L2|L2]; [|exfalso; unfold u128max in *; lia].
  eexists. split; [reflexivity|]. reflexivity.
Qed.
(** finding: so the average may leave the range of the values *)
Theorem C32_average_in_range_refuted : exists l a m, Forall (fun v => v <= 2 ^ 127) l /\ accumulated l = Some a /\ avg_get a = Some m /\ 2 ^ 127 < m.
Proof.
  exists [2 ^ 127; 2 ^ 127], (Avg (2 ^ 128 - 1) 1), (2 ^ 128 - 1). split; [repeat constructor; vm_compute; congruence|].
  split; [reflexivity|]. split; [reflexivity|]. vm_compute. reflexivity.
Qed.
Example C32_nonvacuous : exists a, accumulated [3; 4; 6] = Some a /\ avg_get a = Some 4.
Proof. eexists. split; reflexivity. Qed.

Print Assumptions C22_median_exact. Print Assumptions C22_median. Print Assumptions C22_saturation_refuted.
Print Assumptions C32_average_total. Print Assumptions C32_average_exact.
Print Assumptions C32_overflow_step. Print Assumptions C32_average_in_range_refuted.
