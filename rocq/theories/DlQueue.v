(** The queue of peers: what it gives and what it keeps. *)
From Coq Require Import List Bool NArith Lia ZArith ZifyN ZifyNat ZifyBool.
From Verif Require Import OMap VomModel VomProofs PeerCountModel DlModel.
Import ListNotations.
Local Open Scope N_scope.

Lemma Ntot : total_order N.compare.
Proof. split; [intros a b; apply N.compare_eq_iff|intros a b; apply N.compare_antisym|]. intros a b d H1 H2. rewrite N.compare_lt_iff in *. exact (N.lt_trans _ _ _ H1 H2). Qed.
Lemma lex_tot : total_order lex.
Proof.
  split.
  - induction a as [|x a IH]; intros [|y b]; cbn [lex]; try (split; [discriminate|discriminate]); [tauto|].
    destruct (N.compare_spec x y) as [E|E|E].
    + subst y. rewrite IH. split; [intros ->; reflexivity|intros [= ->]; reflexivity].
    + split; [discriminate|]. intros [= X _]. lia.
    + split; [discriminate|]. intros [= X _]. lia.
  - induction a as [|x a IH]; intros [|y b]; cbn [lex]; try reflexivity. rewrite (N.compare_antisym x y). destruct (x ?= y); cbn [CompOpp]; auto.
  - induction a as [|x a IH]; intros [|y b] [|z d]; cbn [lex]; try discriminate; auto.
    destruct (N.compare_spec x y) as [E|E|E], (N.compare_spec y z) as [E2|E2|E2]; try discriminate; intros H1 H2.
    + subst. rewrite N.compare_refl. eauto.
    + subst. rewrite (proj2 (N.compare_lt_iff _ _) E2). reflexivity.
    + subst. rewrite (proj2 (N.compare_lt_iff _ _) E). reflexivity.
    + rewrite (proj2 (N.compare_lt_iff x z)); [reflexivity|lia].
Qed.
Lemma key_inj a b : st_key a = st_key b -> a = b.
Proof.
  destruct a as [a1 a2 a3 a4 a5 a6], b as [b1 b2 b3 b4 b5 b6]. unfold st_key. cbn [t_res t_flight t_last t_failed t_indep t_rand]. intros [= E1 E2 E3 E4 E5 E6]. subst.
  f_equal; [destruct a1, b1; congruence|destruct a2, b2; congruence|destruct a3, b3; [f_equal; lia|lia|lia|reflexivity]|destruct a5, b5; congruence].
Qed.
Lemma rev_tot : total_order rev_cmp.
Proof.
  destruct lex_tot as [T1 T2 T3]. unfold rev_cmp, st_cmp. split.
  - intros a b. rewrite T1. split; [intros E; apply key_inj; symmetry; exact E|intros ->; reflexivity].
  - intros a b. apply T2.
  - intros a b d H1 H2. exact (T3 _ _ _ H2 H1).
Qed.

Definition q_ok (q : queue) : Prop := vm_ok N.compare rev_cmp q.

Lemma keqb_N x y : k_eqb N.compare x y = (x =? y).
Proof. unfold k_eqb. destruct (N.compare_spec x y) as [E|E|E], (N.eqb_spec x y); auto; lia. Qed.

Lemma ne_false a b : ne a b = false -> a = b.
Proof. unfold ne, st_eqb. destruct (st_cmp a b) eqn:E; cbn [negb]; try discriminate. intros _. apply (to_eq _ lex_tot) in E. exact (key_inj _ _ E). Qed.

Lemma put_ok p s0 s q : q_ok q -> q_get p q = Some s0 -> q_ok (q_put p s q) /\ forall x, q_get x (q_put p s q) = if x =? p then Some s else q_get x q.
Proof.
  intros O G. unfold q_put, q_get in *. pose proof (upsert_spec N.compare rev_cmp Ntot rev_tot p s ne q O) as U.
  destruct (upsert N.compare rev_cmp p s ne q) as [q' r]. cbn [fst]. destruct U as (O' & _ & U). split; [exact O'|]. intros x.
  destruct r as [|old|k v| |]; cbn [up_spec] in U.
  - destruct U as (U & _). congruence.
  - destruct U as (_ & _ & U). rewrite U, keqb_N. reflexivity.
  - destruct U as (U & _). congruence.
  - destruct U as ((old & U1 & U2) & ->). apply ne_false in U2. destruct (N.eqb_spec x p) as [E|E]; [subst; congruence|reflexivity].
  - destruct U as (U & _). congruence.
Qed.
Lemma update_ok p f q q' : q_ok q -> q_update p f q = Some q' -> q_ok q' /\ (exists s, q_get p q = Some s) /\ forall x, q_get x q' = if x =? p then option_map f (q_get x q) else q_get x q.
Proof.
  unfold q_update. destruct (q_get p q) as [s|] eqn:G; [|discriminate]. intros O [= <-]. destruct (put_ok p s (f s) q O G) as [O' U]. split; [exact O'|]. split; [eauto|].
  intros x. rewrite U. destruct (N.eqb_spec x p) as [E|E]; [subst x; rewrite G; reflexivity|reflexivity].
Qed.
Lemma update__ok p f q : q_ok q -> q_ok (q_update_ p f q) /\ forall x, q_get x (q_update_ p f q) = if x =? p then option_map f (q_get x q) else q_get x q.
Proof.
  intros O. unfold q_update_. destruct (q_update p f q) as [q'|] eqn:E.
  - destruct (update_ok p f q q' O E) as (A & _ & B). auto.
  - split; [exact O|]. intros x. destruct (N.eqb_spec x p) as [D|D]; [|reflexivity]. subst x. unfold q_update in E. destruct (q_get p q); [discriminate|reflexivity].
Qed.
Lemma remove_ok p q : q_ok q -> q_ok (fst (vm_remove N.compare p q)) /\ snd (vm_remove N.compare p q) = q_get p q /\ forall x, q_get x (fst (vm_remove N.compare p q)) = if x =? p then None else q_get x q.
Proof.
  intros O. pose proof (remove_spec N.compare rev_cmp Ntot p q O) as U. destruct (vm_remove N.compare p q) as [q' r]. cbn [fst snd]. destruct U as (A & _ & B & D).
  split; [exact A|]. split; [exact B|]. intros x. unfold q_get. rewrite D, keqb_N. reflexivity.
Qed.

(** [st_le a b]: [a] is asked not later than [b] *)
Definition st_le (a b : status) : Prop := st_cmp a b <> Gt.

Lemma take_none a q p s : q_ok q -> take_to_flight a q = None -> q_get p q = Some s -> is_ready s a = false.
Proof.
  intros O T G. unfold take_to_flight in T. pose proof (max_spec N.compare rev_cmp Ntot q O) as M. destruct (vm_maxe q) as [[k v]|].
  - destruct M as [_ M]. destruct (is_ready v a) eqn:R; [discriminate|]. destruct (M p s G) as [E|E]; [injection E as -> ->; exact R|].
    unfold vm_lt, vm_cmp, rev_cmp, st_cmp in E. cbn [fst snd] in E.
    assert (L : lex (st_key v) (st_key s) <> Gt) by (destruct (lex (st_key v) (st_key s)); congruence).
    clear - R L. destruct v as [v1 v2 v3 v4 v5 v6], s as [s1 s2 s3 s4 s5 s6]. unfold is_ready, st_key in *. cbn [t_res t_flight t_last t_failed t_indep t_rand lex] in *.
    destruct s1; [|reflexivity]. destruct s2; [reflexivity|]. destruct v1; [|cbn in L; congruence]. destruct v2; [cbn in L; congruence|]. cbn [andb negb] in *.
    destruct v3 as [v3|]; [|discriminate]. destruct s3 as [s3|].
    + change (0 ?= 0) with Eq in L. cbv iota in L. destruct (N.compare_spec (v3 + 1) (s3 + 1)) as [E|E|E]; [lia|lia|congruence].
    + change (0 ?= 0) with Eq in L. cbv iota in L. destruct (N.compare_spec (v3 + 1) 0) as [E|E|E]; [lia|lia|congruence].
  - unfold q_get in G. rewrite M in G. discriminate.
Qed.
Lemma take_some a q p q' : q_ok q -> take_to_flight a q = Some (p, q') ->
  exists s, q_get p q = Some s /\ is_ready s a = true /\ (forall x u, q_get x q = Some u -> st_le s u) /\ q_ok q' /\
    forall x, q_get x q' = if x =? p then Some (St (t_res s) true (Some a) (t_failed s) (t_indep s) (t_rand s)) else q_get x q.
Proof.
  intros O T. unfold take_to_flight in T. pose proof (max_spec N.compare rev_cmp Ntot q O) as M. destruct (vm_maxe q) as [[k v]|]; [|discriminate].
  destruct M as [G M]. destruct (is_ready v a) eqn:R; [|discriminate]. injection T as <- <-. exists v. split; [exact G|]. split; [exact R|]. split.
  - intros x u GU. destruct (M x u GU) as [E|E].
    + injection E as -> ->. unfold st_le, st_cmp. rewrite (proj2 (to_eq _ lex_tot _ _) eq_refl). discriminate.
    + unfold vm_lt, vm_cmp, rev_cmp in E. cbn [fst snd] in E. unfold st_le. destruct (st_cmp v u); congruence.
  - apply (put_ok k v); assumption.
Qed.
Lemma new_queue_ok c : q_ok (new_queue c) /\ forall x s, q_get x (new_queue c) = Some s -> exists r, In (x, r) (c_vset c ++ [(c_author c, c_author_res c)]) /\ s = st_new r (c_rand c x).
Proof.
  unfold new_queue. set (l := map _ _). destruct (from_iter_spec N.compare rev_cmp Ntot rev_tot l) as (O & _ & G). split; [exact O|].
  intros x s H. unfold q_get in H. rewrite G in H.
  assert (A : forall m : list (N * status), last_value N.compare x m = Some s -> In (x, s) m).
  { clear. induction m as [|[k v] m IH]; cbn [last_value]; [discriminate|]. destruct (last_value N.compare x m) as [w|]; [intros [= ->]; right; auto|].
    rewrite keqb_N. destruct (N.eqb_spec x k) as [E|E]; [|discriminate]. intros [= ->]. subst. left. reflexivity. }
  apply A in H. unfold l in H. apply in_map_iff in H as ([y r] & E & H). cbn [fst snd] in E. injection E as <- <-. eauto.
Qed.
Lemma new_queue_has c x : In x (map fst (c_vset c)) \/ x = c_author c -> exists s, q_get x (new_queue c) = Some s.
Proof.
  intros H. unfold new_queue. set (l := map _ _). destruct (from_iter_spec N.compare rev_cmp Ntot rev_tot l) as (O & _ & G). unfold q_get. rewrite G.
  assert (A : forall m : list (N * status), In x (map fst m) -> exists s, last_value N.compare x m = Some s).
  { clear. induction m as [|[k v] m IH]; cbn [last_value map In fst]; [intros []|]. intros [H|H].
    - destruct (last_value N.compare x m) as [w|]; [eauto|]. rewrite keqb_N, H, N.eqb_refl. eauto.
    - destruct (IH H) as (s & ->). eauto. }
  apply A. unfold l. rewrite map_map. cbn [fst]. rewrite map_app. cbn [map fst]. apply in_app_iff. destruct H as [H| ->]; [left; exact H|right; left; reflexivity].
Qed.
