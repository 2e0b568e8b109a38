(** C83: the limiter of requests of addresses. *)
From Coq Require Import List Bool NArith Lia Sorted.
From Coq Require Import ZArith ZifyN ZifyNat ZifyBool.
From Verif Require Import TbBucket GcModel GcBucket GcPeer.
Import ListNotations.
Local Open Scope N_scope.

(** ** What is said *)

Definition is_allow (v : verdict) : bool := match v with Allow => true | Reject _ => false end.
Definition refused (v : verdict) : Prop := is_allow v = false.
(** the calls of [k] and [cl] in the window that were allowed *)
Definition allowed_in (k : key) (cl : class) (t d : N) (l : list call) (v : list verdict) : N :=
  count (fun x => (fst (fst (fst x)) =? k) && (snd (fst (fst x)) =? cl) && inside t d (snd (fst x)) && is_allow (snd x)) (combine l v).
(** the instants of the calls of a class *)
Definition class_times (cl : class) (l : list kcall) : list N := map snd (filter (fun c => fst c =? cl) l).
Fixpoint class_answers {A} (cl : class) (l : list kcall) (v : list A) : list A :=
  match l, v with c :: l, a :: v => if fst c =? cl then a :: class_answers cl l v else class_answers cl l v | _, _ => [] end.
(** no [n] refusals in a row *)
Definition no_run (n : N) (v : list verdict) : Prop := forall a b c, v = a ++ b ++ c -> Forall refused b -> N.of_nat (length b) < n.
(** the last answer was not a refusal *)
Definition clear_end (v : list verdict) : Prop := v = [] \/ exists w, v = w ++ [Allow].

(** ** Basics *)

Lemma answers_app {A} k a b (v w : list A) : length v = length a -> answers_of k (a ++ b) (v ++ w) = answers_of k a v ++ answers_of k b w.
Proof.
  revert v. induction a as [|c a IH]; intros [|x v] H; cbn in H; try discriminate; [reflexivity|]. cbn [app answers_of].
  destruct (fst (fst c) =? k); [cbn [app]; f_equal|]; apply IH; lia.
Qed.
Lemma calls_app k a b : calls_of k (a ++ b) = calls_of k a ++ calls_of k b.
Proof. unfold calls_of. rewrite filter_app, map_app. reflexivity. Qed.
Lemma calls_times k l x : In x (map snd (calls_of k l)) -> In x (times_of l).
Proof.
  unfold calls_of, times_of. intros H. apply in_map_iff in H. destruct H as (y & <- & H). apply in_map_iff in H. destruct H as (z & <- & H). apply filter_In in H. destruct H as (H & _). cbn [snd]. apply (in_map (fun c : call => snd c) l z H).
Qed.
Lemma sorted_calls k l : sorted (times_of l) -> sorted (map snd (calls_of k l)).
Proof.
  induction l as [|[[k' cl] now] l IH]; intros S; [constructor|]. inversion S as [|? ? S1 S2]; subst. specialize (IH S1). unfold calls_of. cbn [filter fst snd]. destruct (k' =? k); [|exact IH].
  cbn [map fst snd]. constructor; [exact IH|]. rewrite Forall_forall in *. intros x HX. apply S2. apply (calls_times k). exact HX.
Qed.
Lemma class_times_in cl l x : In x (class_times cl l) -> In x (map snd l).
Proof. unfold class_times. intros H. apply in_map_iff in H. destruct H as (z & <- & H). apply filter_In in H. apply (in_map snd). apply H. Qed.
Lemma sorted_class cl l : sorted (map snd l) -> sorted (class_times cl l).
Proof.
  induction l as [|[cl' now] l IH]; intros S; [constructor|]. inversion S as [|? ? S1 S2]; subst. specialize (IH S1). unfold class_times. cbn [filter fst]. destruct (cl' =? cl); [|exact IH].
  cbn [map snd]. constructor; [exact IH|]. rewrite Forall_forall in *. intros x HX. apply S2. apply (class_times_in cl). exact HX.
Qed.
Lemma in_order_times t0 l : in_order t0 l -> sorted (times_of l).
Proof. intros S. inversion S; assumption. Qed.

Lemma sorted_tail (a b : list N) : sorted (a ++ b) -> sorted b.
Proof. induction a as [|x a IH]; intros S; [exact S|]. apply IH. inversion S; assumption. Qed.
Lemma sorted_head (a b : list N) : sorted (a ++ b) -> sorted a.
Proof.
  induction a as [|x a IH]; intros S; [constructor|]. inversion S as [|? ? S1 S2]; subst. constructor; [apply IH; exact S1|].
  rewrite Forall_forall in *. intros y HY. apply S2. apply in_or_app. left. exact HY.
Qed.

(** ** No more than the limit *)

Fixpoint allowed_times (cl : class) (l : list kcall) (v : list verdict) : list N :=
  match l, v with
  | c :: l, a :: v => if (fst c =? cl) && is_allow a then snd c :: allowed_times cl l v else allowed_times cl l v
  | _, _ => []
  end.
Lemma allowed_granted lim c cl ks : forall p, Forall (fun b => b = true) (grants (lim cl) (p_tat p cl) (allowed_times cl ks (peer_run lim c p ks))).
Proof.
  induction ks as [|[cl' now] ks IH]; intros p; cbn [peer_run allowed_times]; [constructor|]. destruct (peer_check lim c cl' now p) as [v p'] eqn:E.
  cbn [fst snd]. specialize (IH p'). unfold peer_check in E. destruct (now <? p_cooldown p).
  { inversion E; subst; clear E. cbn [is_allow]. rewrite andb_false_r. cbn [p_tat] in IH. exact IH. }
  destruct (try_claim (lim cl') (p_tat p cl') now) as [after|tat] eqn:EC.
  - destruct (g_rejects c <=? N.min (p_rejects p + 1) 255); inversion E; subst; clear E; cbn [is_allow]; rewrite andb_false_r; cbn [p_tat] in IH; exact IH.
  - inversion E; subst; clear E. cbn [is_allow p_tat] in *. rewrite andb_true_r. unfold upd in IH. destruct (N.eqb_spec cl' cl) as [Ek|NE].
    + subst cl'. rewrite N.eqb_refl in IH. cbn [grants]. rewrite EC. constructor; [reflexivity|exact IH].
    + rewrite (proj2 (N.eqb_neq cl cl')) in IH by congruence. exact IH.
Qed.
Lemma allowed_times_in cl ks : forall v x, In x (allowed_times cl ks v) -> In x (map snd ks).
Proof.
  induction ks as [|[cl' now] ks IH]; intros [|a v] x H; cbn [allowed_times] in H; try (destruct H; fail). cbn [fst snd map] in *. destruct ((cl' =? cl) && is_allow a); [destruct H as [H|H]; [left; exact H|]|]; right; apply (IH v x H).
Qed.
Lemma allowed_times_sorted cl ks : forall v, sorted (map snd ks) -> sorted (allowed_times cl ks v).
Proof.
  induction ks as [|[cl' now] ks IH]; intros [|a v] S; cbn [allowed_times]; try constructor. inversion S as [|? ? S1 S2]; subst. cbn [fst snd] in *.
  destruct ((cl' =? cl) && is_allow a); [|apply IH; exact S1]. constructor; [apply IH; exact S1|]. rewrite Forall_forall in *. intros x HX. apply S2. apply (allowed_times_in cl ks v x HX).
Qed.
Lemma all_true_count (l : list bool) : Forall (fun b => b = true) l -> count (fun b => b) l = N.of_nat (length l).
Proof. induction 1 as [|b l -> F IH]; [reflexivity|]. rewrite count_cons, IH. cbn [length]. lia. Qed.
Lemma inside_none t d l : (forall x, In x l -> inside t d x = false) -> count (inside t d) l = 0.
Proof. induction l as [|a l IH]; intros H; [reflexivity|]. rewrite count_cons, (H a (or_introl eq_refl)), IH by (intros x HX; apply H; right; exact HX). reflexivity. Qed.
Lemma inside_all t d l : (forall x, In x l -> inside t d x = true) -> count (inside t d) l = N.of_nat (length l).
Proof. induction l as [|a l IH]; intros H; [reflexivity|]. rewrite count_cons, (H a (or_introl eq_refl)), IH by (intros x HX; apply H; right; exact HX). cbn [length]. lia. Qed.
Lemma granted_window l A t d : 0 < burst l -> fits l (t + d) -> sorted A -> Forall (fun b => b = true) (grants l 0 A) -> count (inside t d) A <= permitted l d.
Proof.
  intros B F S G. destruct (sorted_split t (t + d + 1) A S) as (l1 & l2 & l3 & -> & H1 & H2 & H3). rewrite !count_app.
  rewrite (inside_none t d l1) by (intros x HX; specialize (H1 x HX); unfold inside; lia). rewrite (inside_none t d l3) by (intros x HX; specialize (H3 x HX); unfold inside; lia).
  assert (I2 : forall x, In x l2 -> inside t d x = true) by (intros x HX; specialize (H2 x HX); unfold inside; lia). rewrite (inside_all t d l2 I2).
  rewrite grants_app in G. apply Forall_app in G. destruct G as (_ & G). rewrite grants_app in G. apply Forall_app in G. destruct G as (G & _).
  pose proof (bucket_rate l l1 l2 t d B F ltac:(intros x HX; specialize (H1 x HX); lia) I2) as X.
  rewrite grants_app, skipn_app, skipn_all2, grants_len, PeanoNat.Nat.sub_diag in X by (rewrite grants_len; lia). cbn [skipn app] in X.
  rewrite (all_true_count _ G), grants_len in X. lia.
Qed.
Lemma allowed_in_times k cl t d : forall l v, length v = length l -> allowed_in k cl t d l v = count (inside t d) (allowed_times cl (calls_of k l) (answers_of k l v)).
Proof.
  induction l as [|[[k' cl'] now] l IH]; intros [|a v] H; cbn in H; try discriminate; [reflexivity|]. unfold allowed_in. cbn [combine]. rewrite count_cons. fold (allowed_in k cl t d l v). rewrite IH by lia.
  unfold calls_of. cbn [filter answers_of fst snd]. destruct (k' =? k); [|reflexivity]. cbn [map allowed_times fst snd].
  destruct (cl' =? cl); destruct (is_allow a); cbn [andb]; rewrite ?andb_false_r, ?andb_true_r; try reflexivity. rewrite count_cons. reflexivity.
Qed.

(** In any window, of any class and any key, no more calls are allowed than the limit permits, whatever
    other keys and other classes do. *)
Theorem rate_is_kept lim c t0 l k cl t d : limits_ok lim -> lasting lim c -> in_order t0 l -> fits (lim cl) (t + d) ->
  allowed_in k cl t d l (limiter_run lim c t0 l) <= permitted (lim cl) d.
Proof.
  intros LO LA S F. rewrite allowed_in_times by apply check_run_len. rewrite answers_are_of_the_key by assumption. unfold alone_run.
  apply granted_window; [apply LO|exact F|apply allowed_times_sorted; apply sorted_calls; apply (in_order_times t0); exact S|].
  pose proof (allowed_granted lim (normalize c) cl (calls_of k l) (peer_new 0)) as G. cbn [peer_new p_tat] in G. exact G.
Qed.
Corollary rate_is_kept_per_second lim c t0 l k cl t d : limits_ok lim -> lasting lim c -> in_order t0 l -> fits (lim cl) (t + d) -> 0 < rate_per_sec (lim cl) ->
  allowed_in k cl t d l (limiter_run lim c t0 l) <= burst (lim cl) + rate_per_sec (lim cl) * d / 1000.
Proof. intros LO LA S F R. pose proof (rate_is_kept lim c t0 l k cl t d LO LA S F). pose proof (permitted_rate (lim cl) d R). lia. Qed.

(** ** Within the limit nothing is refused *)

Lemma peer_all_allowed lim c ks : forall p, (forall x, In x (map snd ks) -> p_cooldown p <= x) ->
  (forall cl, Forall (fun b => b = true) (grants (lim cl) (p_tat p cl) (class_times cl ks))) -> Forall (fun v => v = Allow) (peer_run lim c p ks).
Proof.
  induction ks as [|[cl now] ks IH]; intros p CD G; cbn [peer_run]; [constructor|]. unfold peer_check. rewrite (proj2 (N.ltb_ge now (p_cooldown p))) by (apply CD; left; reflexivity).
  pose proof (G cl) as GC. unfold class_times in GC. cbn [filter fst] in GC. rewrite N.eqb_refl in GC. cbn [map snd grants] in GC.
  destruct (try_claim (lim cl) (p_tat p cl) now) as [after|tat] eqn:E; inversion GC as [|? ? G1 G2]; subst; [discriminate|]. constructor; [reflexivity|]. apply IH.
  - cbn [p_cooldown]. intros x HX. apply CD. right. exact HX.
  - intros cl'. cbn [p_tat]. unfold upd. destruct (N.eqb_spec cl' cl) as [Ek|NE]; [subst cl'; exact G2|].
    specialize (G cl'). unfold class_times in G. cbn [filter fst] in G. rewrite (proj2 (N.eqb_neq cl cl')) in G by congruence. exact G.
Qed.
Lemma peer_reach lim c ks : limits_ok lim -> forall p t, reach lim c p t -> sorted (t :: map snd ks) -> forall u, (forall x, In x (t :: map snd ks) -> x <= u) -> reach lim c (peer_after lim c p ks) u.
Proof.
  intros LO. induction ks as [|[cl now] ks IH]; intros p t R S u U; cbn [peer_after].
  - destruct R as (R1 & R2). pose proof (U t (or_introl eq_refl)). split; [intros cl; specialize (R1 cl)|]; lia.
  - inversion S as [|? ? S1 S2]; subst. rewrite Forall_forall in S2. apply (IH _ now); [|exact S1|intros x HX; apply U; right; exact HX].
    apply (reach_check lim c cl now p t LO); [apply S2; left; reflexivity|exact R].
Qed.
(** for a cooldown and a full bucket after [t] *)
Definition rested (lim : class -> traffic) (c : config) (t u : N) : Prop := t + g_cooldown c <= u /\ forall cl, t + burst (lim cl) * interval_of (lim cl) <= u.

(** A key that stays in the limits of all classes is never refused: from its first call, and again
    after it was quiet for long enough, whatever it did before. *)
Theorem conforming_key_is_served lim c t0 l1 l2 k t : limits_ok lim -> lasting lim c -> in_order t0 (l1 ++ l2) ->
  (forall cl, conforming (lim cl) (class_times cl (calls_of k l2))) ->
  (forall cl u, In u (map snd (calls_of k l2)) -> fits (lim cl) u) ->
  calls_of k l1 = [] \/ ((forall x, In x (map snd (calls_of k l1)) -> x <= t) /\ forall u, In u (map snd (calls_of k l2)) -> rested lim c t u) ->
  Forall (fun v => v = Allow) (answers_of k l2 (skipn (length l1) (limiter_run lim c t0 (l1 ++ l2)))).
Proof.
  intros LO LA S C F Q. set (vs := limiter_run lim c t0 (l1 ++ l2)). assert (LV : length vs = (length l1 + length l2)%nat) by (unfold vs, limiter_run; rewrite check_run_len, app_length; reflexivity).
  assert (SP : answers_of k (l1 ++ l2) vs = answers_of k l1 (firstn (length l1) vs) ++ answers_of k l2 (skipn (length l1) vs)).
  { rewrite <- (firstn_skipn (length l1) vs) at 1. apply answers_app. rewrite firstn_length. lia. }
  assert (LA1 : length (answers_of k l1 (firstn (length l1) vs)) = length (calls_of k l1)).
  { assert (X : length (firstn (length l1) vs) = length l1) by (rewrite firstn_length; lia). revert X. generalize (firstn (length l1) vs). clear. induction l1 as [|[[k' cl] now] l1 IH]; intros [|a v] X; cbn in X; try discriminate; [reflexivity|].
    unfold calls_of. cbn [answers_of filter fst]. destruct (k' =? k); cbn [map length]; [f_equal|]; apply IH; lia. }
  unfold vs in SP at 1. rewrite answers_are_of_the_key in SP by assumption. unfold alone_run in SP. rewrite calls_app, peer_run_app in SP.
  assert (EQ : answers_of k l2 (skipn (length l1) vs) = peer_run lim (normalize c) (peer_after lim (normalize c) (peer_new 0) (calls_of k l1)) (calls_of k l2)).
  { apply (f_equal (skipn (length (calls_of k l1)))) in SP. rewrite !skipn_app in SP. rewrite !skipn_all2 in SP by (rewrite ?peer_run_len; lia). rewrite peer_run_len, LA1, PeanoNat.Nat.sub_diag in SP. cbn in SP. rewrite (skipn_all2 (answers_of k l1 (firstn (length l1) vs))) in SP by lia. symmetry. exact SP. }
  rewrite EQ. clear SP EQ. assert (SC : sorted (map snd (calls_of k (l1 ++ l2)))) by (apply sorted_calls; apply (in_order_times t0); exact S).
  assert (S2 : sorted (times_of l2)). { apply in_order_times in S. unfold times_of in *. rewrite map_app in S. apply (sorted_tail _ _ S). }
  assert (FR : forall u, In u (map snd (calls_of k l2)) -> fresh u (peer_after lim (normalize c) (peer_new 0) (calls_of k l1))).
  { intros u HU. destruct Q as [Q|(Q1 & Q2)].
    - rewrite Q. cbn [peer_after]. split; [intros cl|]; cbn; lia.
    - assert (S1 : sorted (0 :: map snd (calls_of k l1))).
      { constructor; [|apply Forall_forall; intros x _; lia]. rewrite calls_app, map_app in SC. apply (sorted_head _ _ SC). }
      pose proof (peer_reach lim (normalize c) (calls_of k l1) LO (peer_new 0) 0 ltac:(split; [intros cl|]; cbn; lia) S1 t) as R.
      destruct R as (R1 & R2). { intros x [<-|HX]; [lia|apply Q1; exact HX]. }
      destruct (Q2 u HU) as (Q3 & Q4). rewrite normalize_cooldown in R2. split; [intros cl; specialize (R1 cl); specialize (Q4 cl)|]; lia. }
  apply peer_all_allowed; [intros x HX; apply FR; exact HX|]. intros cl. apply bucket_conforming; [apply LO|apply sorted_class; apply sorted_calls; exact S2|apply C|].
  intros x HX. apply class_times_in in HX. split; [apply F; exact HX|apply FR; exact HX].
Qed.
