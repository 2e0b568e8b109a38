(** C92: theorems about the choice of neighbours and the fines. *)
From Coq Require Import List NArith Bool Arith Lia Permutation ZifyN ZifyNat ZifyBool.
From Verif Require Import NbModel.
Import ListNotations.
Local Open Scope N_scope.

(** *** The specification: the candidates with their weights *)
Definition cands (ss : all_stats) (l : list nb) : list (nb * N) :=
  flat_map (fun n => match selection_score (ss (ref n)) with Some w => [(n, w)] | None => [] end) l.
Definition wt (fine : option (N -> N)) (c : nb * N) : N :=
  match fine with Some f => N.max (snd c - f (peer (fst c))) 1 | None => snd c end.
Definition total (fine : option (N -> N)) (l : list (nb * N)) : N := fold_right (fun c s => wt fine c + s) 0 l.

Fixpoint cum (fine : option (N -> N)) (acc : N) (l : list (nb * N)) : list N :=
  match l with [] => [] | c :: r => (acc + wt fine c) :: cum fine (acc + wt fine c) r end.
Lemma cands_cons ss n l : cands ss (n :: l) = match selection_score (ss (ref n)) with Some w => (n, w) :: cands ss l | None => cands ss l end.
Proof. unfold cands. cbn [flat_map]. destruct (selection_score (ss (ref n))); reflexivity. Qed.
Lemma build_fst ss l : forall acc, map fst (build_from ss acc l) = map fst (cands ss l).
Proof. induction l as [|n l IH]; intros acc; [reflexivity|]. rewrite cands_cons. cbn [build_from]. destruct (selection_score (ss (ref n))); cbn [map fst]; now rewrite IH. Qed.
Lemma build_snd ss l : forall acc, map snd (build_from ss acc l) = cum None acc (cands ss l).
Proof. induction l as [|n l IH]; intros acc; [reflexivity|]. rewrite cands_cons. cbn [build_from]. destruct (selection_score (ss (ref n))); [|apply IH]. cbn [map snd cum wt]. now rewrite IH. Qed.
Lemma build_adj ss f l : forall prev acc, adjusted f prev acc (build_from ss prev l) = cum (Some f) acc (cands ss l).
Proof.
  induction l as [|n l IH]; intros prev acc; [reflexivity|]. rewrite cands_cons. cbn [build_from]. destruct (selection_score (ss (ref n))) as [w|]; [|apply IH].
  cbn [adjusted cum wt fst snd]. replace (prev + w - prev) with w by lia. now rewrite IH.
Qed.
Lemma dist_is ss l fine : distribution (build ss l) fine = cum fine 0 (cands ss l).
Proof. unfold distribution, build. destruct fine; [apply build_adj|apply build_snd]. Qed.
Lemma last_cum fine l : forall acc, l <> [] -> last (cum fine acc l) 0 = acc + total fine l.
Proof.
  induction l as [|c l IH]; intros acc NE; [congruence|]. cbn [cum]. change (total fine (c :: l)) with (wt fine c + total fine l).
  destruct l as [|d l]; [cbn [cum last total fold_right]; lia|]. change (cum fine (acc + wt fine c) (d :: l)) with (acc + wt fine c + wt fine d :: cum fine (acc + wt fine c + wt fine d) l) at 1.
  change (last (?a :: ?b :: ?c) 0) with (last (b :: c) 0). change (acc + wt fine c + wt fine d :: cum fine (acc + wt fine c + wt fine d) l) with (cum fine (acc + wt fine c) (d :: l)).
  rewrite IH by discriminate. lia.
Qed.
Lemma point_cum fine c post r pre : forall acc, acc + total fine pre <= r < acc + total fine pre + wt fine c ->
  point (cum fine acc (pre ++ c :: post)) r = length pre.
Proof.
  induction pre as [|x pre IH]; intros acc H.
  - cbn [app cum point length]. cbn [total fold_right] in H. destruct (N.leb_spec (acc + wt fine c) r); [lia|reflexivity].
  - change (total fine (x :: pre)) with (wt fine x + total fine pre) in H. cbn [app cum point length].
    destruct (N.leb_spec (acc + wt fine x) r); [|lia]. f_equal. apply IH. lia.
Qed.
Lemma cand_weight ss l n w : In (n, w) (cands ss l) -> In n l /\ selection_score (ss (ref n)) = Some w /\ 16 <= w.
Proof.
  induction l as [|x l IH]; [intros []|]. rewrite cands_cons. destruct (selection_score (ss (ref x))) as [v|] eqn:E.
  - intros [[= -> ->]|H]; [|destruct (IH H); split; [now right|assumption]]. split; [now left|]. split; [assumption|].
    unfold selection_score, threshold in E. match type of E with (if 16 <=? ?c then _ else _) = _ => destruct (N.leb_spec 16 c) as [L|L] end; [|discriminate]. injection E as <-. exact L.
  - intros H. destruct (IH H). split; [now right|assumption].
Qed.

(** A neighbour is chosen for as many of the numbers that may be drawn as is its weight: its score, less its
    fine, but at least one.  None is chosen only if none has a score to be chosen. *)
Theorem choose_is_weighted : forall ss l fine,
  choose_range (build ss l) fine = total fine (cands ss l) /\
  (forall r, choose (build ss l) fine r = None <-> cands ss l = [] \/ total fine (cands ss l) <= r) /\
  forall pre n w post r, cands ss l = pre ++ (n, w) :: post ->
    total fine pre <= r < total fine pre + wt fine (n, w) -> choose (build ss l) fine r = Some n.
Proof.
  intros ss l fine.
  assert (R : choose_range (build ss l) fine = total fine (cands ss l)).
  { unfold choose_range, last_weight. rewrite dist_is. destruct (cands ss l) as [|c k] eqn:E; [reflexivity|]. rewrite last_cum by discriminate. reflexivity. }
  assert (NZ : cands ss l <> [] -> (last_weight (map snd (build ss l)) =? 0) || (length (build ss l) =? 0)%nat = false).
  { intros NE. unfold last_weight, build. rewrite build_snd, last_cum by assumption. rewrite <- (map_length fst), build_fst, map_length.
    destruct (cands ss l) as [|[n w] k] eqn:E; [congruence|]. assert (I : In (n, w) (cands ss l)) by (rewrite E; now left).
    apply cand_weight in I as (_ & _ & W). change (total None ((n, w) :: k)) with (w + total None k). cbn [length]. lia. }
  assert (C : forall pre n w post r, cands ss l = pre ++ (n, w) :: post ->
    total fine pre <= r < total fine pre + wt fine (n, w) -> choose (build ss l) fine r = Some n).
  { intros pre n w post r E H. unfold choose. rewrite NZ by (rewrite E; now destruct pre). rewrite dist_is, E, point_cum by lia.
    rewrite <- nth_error_map. unfold build. rewrite build_fst, E, map_app. rewrite nth_error_app2 by (rewrite map_length; lia). rewrite map_length, Nat.sub_diag. reflexivity. }
  split; [exact R|]. split; [|exact C]. intros r. split.
  - intros N. destruct (cands ss l) as [|c0 k0] eqn:E0; [now left|]. right. destruct (N.le_gt_cases (total fine (c0 :: k0)) r) as [L|L]; [assumption|]. exfalso.
    assert (S : exists pre c post, c0 :: k0 = pre ++ c :: post /\ total fine pre <= r < total fine pre + wt fine c).
    { clear - L. generalize dependent r. induction (c0 :: k0) as [|c k IH]; intros r L; [cbn in L; lia|]. change (total fine (c :: k)) with (wt fine c + total fine k) in L.
      destruct (N.lt_ge_cases r (wt fine c)).
      - exists [], c, k. split; [reflexivity|]. cbn [total fold_right]. lia.
      - destruct (IH (r - wt fine c)) as (pre & d & post & -> & H'); [lia|]. exists (c :: pre), d, post. split; [reflexivity|].
        change (total fine (c :: pre)) with (wt fine c + total fine pre). lia. }
    destruct S as (pre & [n w] & post & E & H). rewrite E in C. rewrite (C pre n w post r eq_refl H) in N. discriminate.
  - intros [E|L].
    + unfold choose, build. rewrite <- (map_length fst), build_fst, E. cbn. now rewrite orb_true_r.
    + unfold choose. destruct (_ || _); [reflexivity|]. rewrite dist_is. rewrite <- nth_error_map. unfold build. rewrite build_fst.
      assert (P : point (cum fine 0 (cands ss l)) r = length (cands ss l)).
      { assert (G : forall k acc, acc + total fine k <= r -> point (cum fine acc k) r = length k).
        { induction k as [|c k IH]; intros acc B; [reflexivity|]. change (total fine (c :: k)) with (wt fine c + total fine k) in B. cbn [cum point length].
          destruct (N.leb_spec (acc + wt fine c) r); [|lia]. f_equal. apply IH. lia. }
        apply G. lia. }
      rewrite P. apply nth_error_None. rewrite map_length. lia.
Qed.

(** Of many, as many different ones are chosen as are asked for and there; all of them reliable, if asked so. *)
Theorem choose_multiple_is_sound : forall ss l ss' n reliable_only arr, NoDup (map peer l) ->
  Permutation arr (map fst (build ss l)) -> let res := choose_multiple ss' (build ss l) n reliable_only arr in
  NoDup (map peer res) /\ (forall x, In x res -> In x l /\ selection_score (ss (ref x)) <> None) /\
  (length res <= n)%nat /\ (reliable_only = false -> length res = Nat.min n (length (cands ss l))) /\
  (reliable_only = true -> Forall (fun x => higher (ss' (ref x)) = true) res).
Proof.
  intros ss l ss' n ro arr ND P. cbv zeta. unfold choose_multiple.
  assert (LB : length (build ss l) = length (cands ss l)) by (rewrite <- (map_length fst); unfold build; now rewrite build_fst, map_length).
  assert (PC : Permutation arr (map fst (cands ss l))) by (unfold build in P; now rewrite build_fst in P).
  assert (LA : length arr = length (cands ss l)) by (rewrite (Permutation_length PC); apply map_length).
  assert (NA : NoDup (map peer arr)).
  { apply (Permutation_NoDup (Permutation_sym (Permutation_map peer PC))). clear - ND. induction l as [|x l IH]; [constructor|].
    cbn [map] in ND. inversion ND as [|? ? NI ND']; subst. rewrite cands_cons. destruct (selection_score (ss (ref x))); [|auto]. cbn [map fst]. constructor; [|auto].
    intros H. apply NI. apply in_map_iff in H as (y & <- & H). apply in_map_iff in H as ([z w] & E & H). cbn in E. subst z. apply cand_weight in H. apply in_map. apply H. }
  destruct (Nat.eqb_spec (Nat.min n (length (build ss l))) 0) as [Z|Z].
  { cbn [map length]. repeat apply conj; [constructor|intros x []|lia|lia|constructor]. }
  set (tail := skipn _ arr). set (p := fun x => _).
  assert (LT : length tail = Nat.min n (length (cands ss l))) by (subst tail; rewrite skipn_length, LA, LB; lia).
  assert (NT : NoDup (map peer tail)).
  { subst tail. rewrite <- (firstn_skipn (length (build ss l) - Nat.min n (length (build ss l))) arr), map_app in NA. clear - NA.
    induction (map peer (firstn (length (build ss l) - Nat.min n (length (build ss l))) arr)) as [|x k IH]; [exact NA|]. inversion NA; auto. }
  assert (IT : forall x, In x tail -> In x arr).
  { intros x H. rewrite <- (firstn_skipn (length (build ss l) - Nat.min n (length (build ss l))) arr). apply in_or_app. now right. }
  repeat apply conj.
  - clear - NT. induction tail as [|x k IH]; [constructor|]. cbn [map] in NT. inversion NT as [|? ? NI N']; subst. cbn [filter]. destruct (p x); [|auto].
    cbn [map]. constructor; [|auto]. intros H. apply NI. apply in_map_iff in H as (y & E & H). apply filter_In in H as [H _]. apply in_map_iff. eauto.
  - intros x H. apply filter_In in H as [H _]. apply IT in H. apply (Permutation_in _ PC) in H. apply in_map_iff in H as ([y w] & <- & H). cbn [fst].
    apply cand_weight in H as (A & B & _). split; [assumption|congruence].
  - assert (LF : forall k, (length (filter p k) <= length k)%nat) by (induction k as [|y k IH]; [cbn; lia|]; cbn [filter length]; destruct (p y); cbn [length]; lia).
    specialize (LF tail). lia.
  - intros ->. assert (E : filter p tail = tail); [|now rewrite E]. subst p. cbn [negb orb]. clear. induction tail as [|x k IH]; [reflexivity|]. cbn [filter]. now rewrite IH.
  - intros ->. apply Forall_forall. intros x H. apply filter_In in H as [_ H]. exact H.
Qed.

(** ** Fines *)
Definition fined (cap : nat) (l : fines) : Prop :=
  NoDup (map fst l) /\ (length l <= cap)%nat /\ Forall (fun x => In (snd x) [1; 2; 4; 8; 16]) l.
Lemma peek_in l p f : peek l p = Some f -> In (p, f) l.
Proof. induction l as [|[x g] l IH]; [discriminate|]. cbn [peek]. destruct (N.eqb_spec x p) as [->|]; [intros [= ->]; now left|]. intros H. right. auto. Qed.
Lemma peek_none l p : peek l p = None <-> ~ In p (map fst l).
Proof.
  induction l as [|[x g] l IH]; [cbn; tauto|]. cbn [peek map fst In]. destruct (N.eqb_spec x p) as [->|]; [split; [discriminate|tauto]|].
  rewrite IH. tauto.
Qed.
Lemma drop_in l p x : In x (drop l p) <-> In x l /\ fst x <> p.
Proof. unfold drop. rewrite filter_In. destruct (N.eqb_spec (fst x) p); cbn [negb]; intuition. Qed.
Lemma drop_fst l p : NoDup (map fst l) -> NoDup (map fst (drop l p)) /\ ~ In p (map fst (drop l p)).
Proof.
  induction l as [|[x g] l IH]; intros N; [split; [constructor|intros []]|]. cbn [map fst] in N. inversion N as [|? ? NI N']; subst. destruct (IH N') as [A B].
  unfold drop in *. cbn [filter fst]. destruct (N.eqb_spec x p) as [->|]; cbn [negb]; [auto|]. cbn [map fst]. split.
  - constructor; [|exact A]. intros H. apply NI. apply in_map_iff in H as (y & E & H). apply filter_In in H as [H _]. apply in_map_iff. eauto.
  - intros [?|?]; [congruence|auto].
Qed.
Lemma drop_len l p f : peek l p = Some f -> (S (length (drop l p)) <= length l)%nat.
Proof.
  assert (LF : forall k, (length (drop k p) <= length k)%nat) by (unfold drop; induction k as [|y k IH]; [cbn; lia|]; cbn [filter length]; destruct (negb _); cbn [length]; lia).
  induction l as [|[x g] l IH]; [discriminate|]. cbn [peek]. unfold drop. cbn [filter fst length]. destruct (N.eqb_spec x p) as [->|]; cbn [negb]; intros H.
  - specialize (LF l). unfold drop in LF. lia.
  - specialize (IH H). unfold drop in IH. cbn [length]. lia.
Qed.
Lemma drop_peek l p q : q <> p -> peek (drop l p) q = peek l q.
Proof.
  intros NE. induction l as [|[x g] l IH]; [reflexivity|]. unfold drop in *. cbn [filter fst peek]. destruct (N.eqb_spec x p) as [->|]; cbn [negb].
  - destruct (N.eqb_spec p q); [congruence|exact IH].
  - cbn [peek]. now rewrite IH.
Qed.
Lemma removelast_incl {A} (l : list A) x : In x (removelast l) -> In x l.
Proof. induction l as [|y [|z l] IH]; [intros []|intros []|]. cbn [removelast]. intros [->|H]; [now left|]. right. now apply IH. Qed.
Lemma removelast_fst {A} (l : list (N * A)) : NoDup (map fst l) -> NoDup (map fst (removelast l)).
Proof.
  induction l as [|y [|z l] IH]; intros N; [constructor|constructor|]. cbn [map fst] in N. inversion N as [|? ? NI N']; subst.
  change (removelast (y :: z :: l)) with (y :: removelast (z :: l)). cbn [map]. constructor; [|apply IH; exact N'].
  intros H. apply NI. apply in_map_iff in H as (w & E & H). apply removelast_incl in H. change (In (fst y) (map fst (z :: l))). apply in_map_iff. eauto.
Qed.
Lemma removelast_len {A} (l : list A) : length (removelast l) = pred (length l).
Proof. induction l as [|y [|z l] IH]; [reflexivity|reflexivity|]. change (removelast (y :: z :: l)) with (y :: removelast (z :: l)). cbn [length] in *. rewrite IH. reflexivity. Qed.

(** Fines are powers of two up to 16, one for a peer, and no more of them than there is room for. *)
Theorem fines_bounded : forall cap h, (1 <= cap)%nat -> fined cap (fold_left (fun l x => got_response cap l (fst x) (snd x)) h []).
Proof.
  intros cap h CP. assert (G : forall l, fined cap l -> fined cap (fold_left (fun l x => got_response cap l (fst x) (snd x)) h l)).
  { induction h as [|[p u] h IH]; intros l F; [exact F|]. cbn [fold_left fst snd]. apply IH. clear IH. destruct F as (N & L & V). unfold got_response.
    assert (VD : Forall (fun x => In (snd x) [1; 2; 4; 8; 16]) (drop l p)).
    { apply Forall_forall. intros x H. apply drop_in in H as [H _]. rewrite Forall_forall in V. auto. }
    destruct (drop_fst l p N) as [DN DI].
    destruct (peek l p) as [f|] eqn:P.
    - pose proof (drop_len l p f P) as DL. assert (VF : In f [1; 2; 4; 8; 16]) by (apply peek_in in P; rewrite Forall_forall in V; exact (V _ P)).
      destruct u.
      + destruct (N.eqb_spec (N.shiftr f 1) 0); [unfold fined; repeat apply conj; auto; lia|]. repeat apply conj; cbn [map fst length]; [now constructor|lia|].
        constructor; [|exact VD]. cbn [snd]. cbn [In] in VF. destruct VF as [<-|[<-|[<-|[<-|[<-|[]]]]]]; cbn in *; tauto.
      + repeat apply conj; cbn [map fst length]; [now constructor|lia|].
        constructor; [|exact VD]. cbn [snd]. cbn [In] in VF. destruct VF as [<-|[<-|[<-|[<-|[<-|[]]]]]]; cbn in *; tauto.
    - destruct u; [unfold fined; auto|]. apply peek_none in P. destruct (Nat.ltb_spec (length l) cap).
      + repeat apply conj; cbn [map fst length]; [now constructor|lia|]. constructor; [cbn; tauto|exact V].
      + repeat apply conj; cbn [map fst length].
        * constructor; [|now apply removelast_fst]. intros H'. apply P. apply in_map_iff in H' as (w & E & H'). apply removelast_incl in H'. apply in_map_iff. eauto.
        * rewrite removelast_len. lia.
        * constructor; [cbn; tauto|]. apply Forall_forall. intros x H'. apply removelast_incl in H'. rewrite Forall_forall in V. auto. }
  apply G. repeat apply conj; [constructor|cbn; lia|constructor].
Qed.
(** A useful answer halves the fine, another doubles it up to 16, or makes it one.  The fine of another peer
    stays, unless room is needed and its was used the longest ago. *)
Theorem fine_is_exact : forall cap l p useful, fined cap l -> (1 <= cap)%nat -> let l' := got_response cap l p useful in
  fine_of l' p = (if useful then fine_of l p / 2 else if fine_of l p =? 0 then 1 else N.min (2 * fine_of l p) 16) /\
  forall q, q <> p -> fine_of l' q = fine_of l q \/
    (useful = false /\ fine_of l p = 0 /\ length l = cap /\ exists front f, l = front ++ [(q, f)]).
Proof.
  intros cap l p u (N & L & V) CP. cbv zeta. unfold got_response, fine_of. destruct (drop_fst l p N) as [DN DI].
  destruct (peek l p) as [f|] eqn:P.
  - assert (VF : In f [1; 2; 4; 8; 16]) by (apply peek_in in P; rewrite Forall_forall in V; exact (V _ P)). destruct u.
    + destruct (N.eqb_spec (N.shiftr f 1) 0) as [Z|Z].
      * split; [|intros q NE; left; now rewrite drop_peek]. apply peek_none in DI. rewrite DI. cbn [In] in VF. destruct VF as [<-|[<-|[<-|[<-|[<-|[]]]]]]; vm_compute in *; congruence.
      * split; [|intros q NE; left; cbn [peek]; destruct (N.eqb_spec p q); [congruence|now rewrite drop_peek]]. cbn [peek]. rewrite N.eqb_refl. cbn [In] in VF. destruct VF as [<-|[<-|[<-|[<-|[<-|[]]]]]]; reflexivity.
    + split; [|intros q NE; left; cbn [peek]; destruct (N.eqb_spec p q); [congruence|now rewrite drop_peek]]. cbn [peek]. rewrite N.eqb_refl. cbn [In] in VF. destruct VF as [<-|[<-|[<-|[<-|[<-|[]]]]]]; reflexivity.
  - destruct u; [rewrite P; split; [reflexivity|auto]|]. split; [cbn [peek]; now rewrite N.eqb_refl|]. intros q NE. cbn [peek]. destruct (N.eqb_spec p q); [congruence|].
    destruct (Nat.ltb_spec (length l) cap) as [H|H]; [now left|]. destruct (exists_last (l := l)) as (front & [x f] & E); [destruct l; [cbn in H; lia|discriminate]|].
    destruct (N.eq_dec x q) as [->|NX]; [right; repeat apply conj; [reflexivity|reflexivity|lia|eauto]|]. left. subst l. rewrite removelast_last.
    assert (G : forall k, peek (k ++ [(x, f)]) q = peek k q).
    { induction k as [|[y g] k IH]; cbn [app peek]; [destruct (N.eqb_spec x q); [congruence|reflexivity]|]. now rewrite IH. }
    now rewrite G.
Qed.
