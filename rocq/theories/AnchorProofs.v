(** * AnchorProofs: the operations of the anchors cache and its transactions *)

From Coq Require Import List NArith Bool Sorted Lia ZArith ZifyN ZifyNat ZifyBool.
From Verif Require Import AnchorModel AnchorSpec.
Import ListNotations.
Open Scope N_scope.

Lemma fold_push_front : forall (l h : list info),
  fold_left (fun h i => i :: h) (rev l) h = l ++ h.
Proof.
  intros l h. rewrite <- (rev_involutive l) at 2. generalize (rev l); clear l.
  intros l; revert h. induction l as [|x t IH]; intros h; [reflexivity|].
  cbn [fold_left rev]. rewrite IH, <- app_assoc. reflexivity.
Qed.

Lemma fold_push_back {A} : forall (l h : list A),
  fold_left (fun h i => h ++ [i]) l h = h ++ l.
Proof.
  induction l as [|x t IH]; intros h; cbn [fold_left]; [now rewrite app_nil_r|].
  rewrite IH, <- app_assoc. reflexivity.
Qed.

Lemma collect_drop : forall ct h,
  collect_before ct (length h) h ++ drop_before ct h = h.
Proof.
  intros ct h. induction h as [|x t IH]; [reflexivity|].
  destruct t as [|y r].
  - cbn. now rewrite andb_false_r.
  - change (collect_before ct (length (x :: y :: r)) (x :: y :: r)) with
      (if (i_ct x <? ct) && true then x :: collect_before ct (length (y :: r)) (y :: r) else []).
    change (drop_before ct (x :: y :: r)) with
      (if i_ct x <? ct then drop_before ct (y :: r) else x :: y :: r).
    destruct (i_ct x <? ct); [|reflexivity].
    cbn [andb]. change ((x :: collect_before ct (length (y :: r)) (y :: r)) ++ drop_before ct (y :: r))
      with (x :: (collect_before ct (length (y :: r)) (y :: r) ++ drop_before ct (y :: r))).
    now rewrite IH.
Qed.

Lemma split_cache_cut : forall ct r,
  snd (split_cache_rev ct r) = cut_rev ct r /\
  fst (split_cache_rev ct r) ++ snd (split_cache_rev ct r) = r.
Proof.
  intros ct r. induction r as [|x t [I1 I2]]; [now split|].
  cbn. destruct (ct <? a_ct (c_anchor x)).
  - destruct (split_cache_rev ct t) as [p k]. cbn in *. split; [exact I1|now rewrite I2].
  - now split.
Qed.

Lemma split_hist_drop : forall ct r,
  snd (split_hist_rev ct r) = drop_above_rev ct r /\
  fst (split_hist_rev ct r) ++ snd (split_hist_rev ct r) = r.
Proof.
  intros ct r. induction r as [|x t [I1 I2]]; [now split|].
  destruct t as [|y q].
  - cbn. rewrite andb_false_r. now split.
  - change (split_hist_rev ct (x :: y :: q)) with
      (if (ct <? i_ct x) && true then let '(p, k) := split_hist_rev ct (y :: q) in (x :: p, k)
       else ([], x :: y :: q)).
    change (drop_above_rev ct (x :: y :: q)) with
      (if ct <? i_ct x then drop_above_rev ct (y :: q) else x :: y :: q).
    destruct (ct <? i_ct x); cbn [andb].
    + destruct (split_hist_rev ct (y :: q)) as [p k]. cbn [fst snd] in *.
      split; [exact I1|]. cbn [app]. now rewrite I2.
    + now split.
Qed.

Lemma cached_eta : forall x, mkC (c_key x) (c_anchor x) (c_our x) = x.
Proof. now destruct x. Qed.

(** One transactional pop: the cache is the popped cache and the log undoes it. *)
Lemma tx_pop_sim : forall t,
  t_cache (fst (tx_pop t)) = fst (pop_front (t_cache t)) /\
  snd (tx_pop t) = snd (pop_front (t_cache t)) /\
  t_committed (fst (tx_pop t)) = t_committed t /\
  undo_all (t_log (fst (tx_pop t))) (t_cache (fst (tx_pop t))) =
    undo_all (t_log t) (t_cache t).
Proof.
  intros [c l cm]. unfold tx_pop, pop_front. cbn [t_cache t_log t_committed].
  destruct c as [k h p]. cbn [ac_cache ac_hist ac_pend].
  destruct k as [|x k]; [now repeat split|].
  cbn [fst snd t_cache t_log t_committed]. repeat split.
  cbn [undo_all undo_one ac_cache ac_hist]. rewrite fold_push_front, collect_drop, cached_eta.
  reflexivity.
Qed.

Lemma nonempty_len : forall {A} (p k : list A),
  Nat.ltb (length k) (length (p ++ k)) = nonempty p.
Proof.
  intros A p k. rewrite app_length. destruct p; [apply Nat.ltb_irrefl|apply Nat.ltb_lt; cbn [length]; lia].
Qed.

Lemma tx_above_sim : forall ct t,
  t_cache (tx_above ct t) = fst (remove_above ct (t_cache t)) /\
  t_committed (tx_above ct t) = t_committed t /\
  undo_all (t_log (tx_above ct t)) (t_cache (tx_above ct t)) =
    undo_all (t_log t) (t_cache t).
Proof.
  intros ct [c l cm]. unfold tx_above, remove_above. cbn [t_cache t_log t_committed].
  destruct c as [k h p]. cbn [ac_cache ac_hist ac_pend].
  destruct (split_cache_cut ct (rev k)) as [C1 C2].
  destruct (split_hist_drop ct (rev h)) as [H1 H2].
  destruct (split_cache_rev ct (rev k)) as [pc kc]. destruct (split_hist_rev ct (rev h)) as [ph kh].
  cbn [fst snd] in *. cbn [t_cache t_log t_committed].
  assert (K : k = rev kc ++ rev pc).
  { rewrite <- rev_app_distr, C2. now rewrite rev_involutive. }
  assert (HH : h = rev kh ++ rev ph).
  { rewrite <- rev_app_distr, H2. now rewrite rev_involutive. }
  repeat split.
  - unfold drop_above. rewrite <- C1, <- H1. f_equal.
    rewrite <- (rev_length k), <- C2, rev_length, nonempty_len.
    destruct pc; cbn [nonempty]; [reflexivity|].
    destruct kc as [|z kc]; [reflexivity|]. cbn [rev].
    now destruct (rev kc).
  - cbn [undo_all undo_one ac_cache ac_hist].
    rewrite !fold_push_back, <- K, <- HH. reflexivity.
Qed.

Lemma run_tx_sim : forall ops t,
  t_cache (fst (run_tx ops t)) = fst (run_plain ops (t_cache t)) /\
  snd (run_tx ops t) = snd (run_plain ops (t_cache t)) /\
  t_committed (fst (run_tx ops t)) = t_committed t /\
  undo_all (t_log (fst (run_tx ops t))) (t_cache (fst (run_tx ops t))) =
    undo_all (t_log t) (t_cache t).
Proof.
  induction ops as [|[|ct] r IH]; intros t; cbn [run_tx run_plain]; [now repeat split| |].
  - destruct (tx_pop_sim t) as (S1 & S2 & S3 & S4).
    destruct (tx_pop t) as [t1 res]. destruct (pop_front (t_cache t)) as [c1 res1].
    cbn [fst snd] in *. destruct (IH t1) as (I1 & I2 & I3 & I4).
    rewrite S1 in I1, I2. destruct (run_tx r t1) as [t2 o2]. destruct (run_plain r c1) as [c2 o2'].
    cbn [fst snd] in *. subst res1. repeat split; [exact I1|now rewrite I2|congruence|congruence].
  - destruct (tx_above_sim ct t) as (S1 & S2 & S3).
    destruct (IH (tx_above ct t)) as (I1 & I2 & I3 & I4). rewrite S1 in I1, I2.
    repeat split; [exact I1|exact I2|congruence|congruence].
Qed.

(** An abandoned transaction leaves the cache as it was. *)
Lemma tx_abandon : forall ops c, tx_drop (fst (run_tx ops (tx_new c))) = c.
Proof.
  intros ops c. destruct (run_tx_sim ops (tx_new c)) as (_ & _ & C & U).
  unfold tx_drop. rewrite C. cbn [tx_new t_committed]. unfold tx_rollback. cbn [t_cache].
  rewrite U. reflexivity.
Qed.

(** So does an explicit rollback, whatever happens with the transaction afterwards. *)
Lemma tx_rollback_any : forall ops c,
  t_cache (tx_rollback (fst (run_tx ops (tx_new c)))) = c /\
  tx_drop (tx_rollback (fst (run_tx ops (tx_new c)))) = c /\
  tx_drop (tx_commit (tx_rollback (fst (run_tx ops (tx_new c))))) = c.
Proof.
  intros ops c. destruct (run_tx_sim ops (tx_new c)) as (_ & _ & C & U).
  unfold tx_drop, tx_rollback, tx_commit. cbn [t_cache t_committed t_log undo_all].
  rewrite C. cbn [tx_new t_committed]. now rewrite U.
Qed.

(** A committed transaction is the same calls made on the cache. *)
Lemma tx_commit_plain : forall ops c,
  tx_drop (tx_commit (fst (run_tx ops (tx_new c)))) = fst (run_plain ops c) /\
  snd (run_tx ops (tx_new c)) = snd (run_plain ops c).
Proof.
  intros ops c. destruct (run_tx_sim ops (tx_new c)) as (E & O & _ & _).
  split; [exact E|exact O].
Qed.

(** ** The history *)

Lemma drop_before_split : forall ct h,
  exists pre, h = pre ++ drop_before ct h /\ Forall (fun i => i_ct i < ct) pre.
Proof.
  intros ct h. induction h as [|x t (pre & E & F)]; [exists []; split; auto|].
  destruct t as [|y r]; [exists []; split; auto|].
  change (drop_before ct (x :: y :: r)) with
      (if i_ct x <? ct then drop_before ct (y :: r) else x :: y :: r).
  destruct (N.ltb_spec (i_ct x) ct).
  - exists (x :: pre). split; [cbn [app]; now rewrite <- E|auto].
  - exists []. split; auto.
Qed.

Lemma drop_before_nil : forall ct h, drop_before ct h = [] -> h = [].
Proof.
  intros ct h. induction h as [|x t IH]; [reflexivity|]. destruct t as [|y r]; [discriminate|].
  change (drop_before ct (x :: y :: r)) with
      (if i_ct x <? ct then drop_before ct (y :: r) else x :: y :: r).
  destruct (i_ct x <? ct); [|discriminate]. intros E. specialize (IH E). discriminate.
Qed.

Lemma last_opt_app {A} : forall (l : list A) x, last_opt (l ++ [x]) = Some x.
Proof. intros. unfold last_opt. now rewrite rev_app_distr. Qed.

Lemma last_opt_app2 {A} : forall (p l : list A), l <> [] -> last_opt (p ++ l) = last_opt l.
Proof.
  intros p l N. unfold last_opt. rewrite rev_app_distr.
  destruct (rev l) as [|x r] eqn:E; [|reflexivity].
  destruct N. rewrite <- (rev_involutive l), E. reflexivity.
Qed.

Lemma last_opt_some {A} : forall (l : list A) x,
  last_opt l = Some x -> exists p, l = p ++ [x].
Proof.
  intros l x. unfold last_opt. destruct (rev l) as [|y r] eqn:E; [discriminate|].
  cbn. intros [= ->]. exists (rev r). rewrite <- (rev_involutive l), E. reflexivity.
Qed.

Lemma last_opt_none {A} : forall (l : list A), last_opt l = None -> l = [].
Proof.
  intros l. unfold last_opt. destruct (rev l) eqn:E; [|discriminate].
  intros _. rewrite <- (rev_involutive l), E. reflexivity.
Qed.

Lemma drop_before_last : forall ct h, last_opt (drop_before ct h) = last_opt h.
Proof.
  intros ct h. destruct (drop_before_split ct h) as (pre & E & _).
  destruct (drop_before ct h) eqn:D.
  - apply drop_before_nil in D. now subst.
  - rewrite E. symmetry. apply last_opt_app2. discriminate.
Qed.

Lemma drop_above_rev_split : forall ct r,
  exists suf, r = suf ++ drop_above_rev ct r /\ Forall (fun i => ct < i_ct i) suf /\
    (match drop_above_rev ct r with
     | [] => r = []
     | x :: t => i_ct x <= ct \/ t = []
     end).
Proof.
  intros ct r. induction r as [|x t (suf & E & F & G)]; [exists []; repeat split; auto|].
  destruct t as [|y q]; [exists []; cbn; repeat split; auto|].
  change (drop_above_rev ct (x :: y :: q)) with
      (if ct <? i_ct x then drop_above_rev ct (y :: q) else x :: y :: q).
  destruct (N.ltb_spec ct (i_ct x)).
  - exists (x :: suf). split; [cbn [app]; now rewrite <- E|]. split; [auto|].
    destruct (drop_above_rev ct (y :: q)); [discriminate|exact G].
  - exists []. cbn [app]. auto.
Qed.

Lemma drop_above_split : forall ct h,
  exists suf, h = drop_above ct h ++ suf /\ Forall (fun i => ct < i_ct i) suf.
Proof.
  intros ct h. destruct (drop_above_rev_split ct (rev h)) as (suf & E & F & _).
  exists (rev suf). unfold drop_above. split.
  - rewrite <- rev_app_distr, <- E. now rewrite rev_involutive.
  - apply Forall_rev, F.
Qed.

(** The read-only lookup is the last info left by the cut, for every history. *)
Lemma find_drop_above : forall ct r,
  match find (fun i => i_ct i <=? ct) r with
  | Some i => Some i
  | None => hd_error (rev r)
  end = hd_error (drop_above_rev ct r).
Proof.
  intros ct r. induction r as [|x t IH]; [reflexivity|].
  destruct t as [|y q].
  - cbn. now destruct (i_ct x <=? ct).
  - change (drop_above_rev ct (x :: y :: q)) with
      (if ct <? i_ct x then drop_above_rev ct (y :: q) else x :: y :: q).
    remember (y :: q) as t eqn:T. cbn [find].
    rewrite (N.ltb_antisym (i_ct x) ct) in *. destruct (i_ct x <=? ct); cbn [negb]; [reflexivity|].
    rewrite <- IH. destruct (find _ t); [reflexivity|].
    cbn [rev]. destruct (rev t) eqn:E; [|reflexivity].
    apply (f_equal (@rev _)) in E. rewrite rev_involutive in E. subst t. discriminate.
Qed.

Lemma at_ct_is_cut : forall ct c,
  last_info_at_ct ct c = snd (remove_above ct c).
Proof.
  intros ct c. unfold last_info_at_ct, remove_above, last_info, last_opt. cbn [snd ac_hist].
  unfold drop_above. rewrite rev_involutive. rewrite <- find_drop_above, rev_involutive.
  reflexivity.
Qed.

Lemma drop_above_covered : forall ct h, (exists i, In i h /\ i_ct i <= ct) ->
  exists p x, drop_above ct h = p ++ [x] /\ i_ct x <= ct.
Proof.
  intros ct h (i & Hi & L). destruct (drop_above_rev_split ct (rev h)) as (suf & E & F & G).
  unfold drop_above. destruct (drop_above_rev ct (rev h)) as [|x t].
  - apply in_rev in Hi. rewrite G in Hi. destruct Hi.
  - exists (rev t), x. split; [reflexivity|]. destruct G as [G|G]; [exact G|].
    subst t. apply in_rev in Hi. rewrite E in Hi. apply in_app_or in Hi.
    destruct Hi as [Hi|[->|[]]]; [|exact L].
    rewrite Forall_forall in F. specialize (F i Hi). lia.
Qed.

Lemma cut_rev_split : forall ct r,
  exists suf, r = suf ++ cut_rev ct r /\ Forall (fun x => ct < a_ct (c_anchor x)) suf /\
    match cut_rev ct r with [] => True | x :: _ => a_ct (c_anchor x) <= ct end.
Proof.
  intros ct r. induction r as [|x t (suf & E & F & G)]; [exists []; repeat split; auto|].
  cbn [cut_rev]. destruct (N.ltb_spec ct (a_ct (c_anchor x))).
  - exists (x :: suf). split; [cbn [app]; now rewrite <- E|]. auto.
  - exists []. cbn [app]. auto.
Qed.
