(** The broadcaster's bookkeeping: every peer has at most one query in flight. *)
From Coq Require Import List Bool NArith Lia ZArith ZifyN ZifyNat ZifyBool Permutation.
From Verif Require Import PsModel PsThms PsPeers PeerCountModel BrModel.
Import ListNotations.
Local Open Scope N_scope.

Lemma in_add p q l : In q (add p l) <-> In q l \/ q = p.
Proof. rewrite <- !mem_In, mem_add, orb_true_iff, N.eqb_eq. reflexivity. Qed.
Lemma in_del p q l : In q (del p l) <-> In q l /\ q <> p.
Proof. rewrite <- !mem_In, mem_del, andb_true_iff, negb_true_iff, N.eqb_neq. reflexivity. Qed.
Lemma nd_add p l : NoDup l -> NoDup (add p l).
Proof.
  intros H. unfold add. destruct (mem p l) eqn:M; [exact H|]. constructor; [|exact H].
  intros I. apply mem_In in I. congruence.
Qed.
Lemma nd_del p l : NoDup l -> NoDup (del p l).
Proof. intros H. unfold del. apply NoDup_filter. exact H. Qed.
Lemma mem_no p l : mem p l = false <-> ~ In p l.
Proof. rewrite <- mem_In. destruct (mem p l); split; congruence. Qed.

Lemma rm1_in p q l : NoDup l -> (In q (rm1 p l) <-> In q l /\ q <> p).
Proof.
  unfold rm1. induction l as [|a l IH]; intros N; [split; [intros []|intros [[] _]]|].
  inversion N as [|? ? N1 N2]; subst. destruct (N.eqb_spec a p) as [E|E].
  - subst a. split.
    + intros H. split; [right; exact H|]. intros ->. contradiction.
    + intros [[H|H] Q]; [congruence|exact H].
  - split.
    + intros [H|H]; [subst; auto with datatypes|]. apply (IH N2) in H as [H Q]. split; [right; exact H|exact Q].
    + intros [[H|H] Q]; [left; exact H|]. right. apply (IH N2). auto.
Qed.
Lemma rm1_nd p l : NoDup l -> NoDup (rm1 p l).
Proof.
  induction l as [|a l IH]; intros N; [constructor|]. inversion N as [|? ? N1 N2]; subst.
  unfold rm1. destruct (a =? p); [exact N2|]. constructor; [|exact (IH N2)].
  intros H. apply (rm1_in p a l N2) in H. tauto.
Qed.
Lemma rm1s_map p l : map fst (rm1s p l) = rm1 p (map fst l).
Proof.
  unfold rm1s, rm1. induction l as [|[a b] l IH]; [reflexivity|]. cbn [map fst]. destruct (a =? p); [reflexivity|].
  cbn [map fst]. rewrite <- IH. reflexivity.
Qed.
Lemma rm1s_in p e l : NoDup (map fst l) -> (In e (rm1s p l) <-> In e l /\ fst e <> p).
Proof.
  unfold rm1s. induction l as [|[a b] l IH]; intros N; [split; [intros []|intros [[] _]]|].
  cbn [map fst] in N. inversion N as [|? ? N1 N2]; subst. cbn [fst]. destruct (N.eqb_spec a p) as [E|E].
  - subst a. split.
    + intros H. split; [right; exact H|]. intros Q. apply N1. rewrite <- Q. apply in_map. exact H.
    + intros [[H|H] Q]; [subst e; cbn [fst] in Q; congruence|exact H].
  - split.
    + intros [H|H]; [subst e; split; [left; reflexivity|exact E]|]. apply (IH N2) in H as [H Q]. split; [right; exact H|exact Q].
    + intros [[H|H] Q]; [left; exact H|]. right. apply (IH N2). auto.
Qed.

Definition waiting (s : bc) : list peer := map fst (b_sfut s).

Record binv (v : env) (s : bc) : Prop := {
  i_bf : NoDup (b_bfut s);
  i_sf : NoDup (waiting s);
  i_bs : forall p, In p (b_bfut s) -> ~ In p (waiting s);
  i_in : forall p, In p (b_inflight s) <-> In p (b_bfut s) \/ In p (waiting s);
  i_sn : NoDup (b_speers s);
  i_sp : forall p, In p (b_speers s) -> ~ In p (b_inflight s);
  i_bn : NoDup (b_bpeers s);
  i_bp : forall p, In p (b_bpeers s) -> ~ In p (b_inflight s) /\ ~ In p (b_speers s);
  i_rn : NoDup (b_rej s);
  i_gn : NoDup (map fst (b_sigs s));
  i_gv : forall p g, In (p, g) (b_sigs s) -> In p (v_signers v) /\ v_verify v p g = true;
  i_sg : forall p, In p (waiting s) -> In p (v_signers v) }.

(** what a sequence of broadcasts does *)
Record sent (s s' : bc) (l : list peer) : Prop := {
  t_removed : b_removed s' = b_removed s;
  t_rej : b_rej s' = b_rej s;
  t_sigs : b_sigs s' = b_sigs s;
  t_speers : b_speers s' = b_speers s;
  t_bpeers : b_bpeers s' = b_bpeers s;
  t_sfut : b_sfut s' = b_sfut s;
  t_bfut : forall p, In p (b_bfut s') <-> In p (b_bfut s) \/ (In p l /\ ~ In p (b_removed s)) }.
Record asked (v : env) (a : bool) (s s' : bc) (l : list peer) : Prop := {
  a_removed : b_removed s' = b_removed s;
  a_rej : b_rej s' = b_rej s;
  a_sigs : b_sigs s' = b_sigs s;
  a_speers : b_speers s' = b_speers s;
  a_bpeers : b_bpeers s' = b_bpeers s;
  a_bfut : b_bfut s' = b_bfut s;
  a_sfut : forall p b, In (p, b) (b_sfut s') <-> In (p, b) (b_sfut s) \/ (b = a /\ In p l /\ ~ In p (b_removed s) /\ In p (v_signers v)) }.

Lemma broadcast_ok v s p : binv v s -> ~ In p (b_inflight s) -> ~ In p (b_speers s) -> ~ In p (b_bpeers s) ->
  exists s', broadcast s p = Some s' /\ binv v s' /\ sent s s' [p] /\
    (forall q, In q (b_inflight s') -> In q (b_inflight s) \/ q = p).
Proof.
  intros I NI NS NB. pose proof I as [BF SF BS IN SN SP BN BP RN GN GV SG]. unfold broadcast. destruct (mem p (b_removed s)) eqn:M.
  - exists s. split; [reflexivity|]. split; [exact I|]. split; [|auto]. constructor; try reflexivity.
    intros q. split; [auto|]. intros [H|[[H|[]] Q]]; [exact H|]. subst q. apply mem_In in M. contradiction.
  - apply mem_no in M. pose proof (proj2 (mem_no p (b_inflight s)) NI) as NI'. rewrite NI'.
    eexists. split; [reflexivity|]. split; [|split].
    + constructor; cbn [b_removed b_inflight b_rej b_sigs b_bpeers b_speers b_bfut b_sfut]; auto.
      * apply Permutation_NoDup with (p :: b_bfut s); [apply Permutation_cons_append|]. constructor; [|exact BF].
        intros H. apply NI. apply IN. auto.
      * intros q H. apply in_app_iff in H as [H|[H|[]]]; [apply BS; exact H|]. subst q. intros W. apply NI. apply IN. auto.
      * intros q. cbn [In]. rewrite in_app_iff. cbn [In]. rewrite IN. unfold waiting. cbn [b_sfut]. tauto.
      * intros q H [Q|Q]; [subst q; contradiction|]. exact (SP q H Q).
      * intros q H. destruct (BP q H) as [Q1 Q2]. split; [|exact Q2]. intros [Q|Q]; [subst q; contradiction|exact (Q1 Q)].
    + constructor; try reflexivity. intros q. cbn [b_bfut]. rewrite in_app_iff. cbn [In]. split.
      * intros [H|[H|[]]]; [auto|]. subst q. auto.
      * intros [H|[[H|[]] _]]; auto.
    + intros q [H|H]; auto.
Qed.

Lemma broadcasts_ok v l : forall s, binv v s -> NoDup l ->
  (forall p, In p l -> ~ In p (b_inflight s) /\ ~ In p (b_speers s) /\ ~ In p (b_bpeers s)) ->
  exists s', each broadcast l s = Some s' /\ binv v s' /\ sent s s' l.
Proof.
  induction l as [|p l IH]; intros s I N D; cbn [each].
  - exists s. split; [reflexivity|]. split; [exact I|]. constructor; try reflexivity. intros q. cbn [In]. tauto.
  - inversion N as [|? ? N1 N2]; subst. destruct (D p (or_introl eq_refl)) as (D1 & D2 & D3).
    destruct (broadcast_ok v s p I D1 D2 D3) as (s1 & E1 & I1 & [T1 T2 T3 T4 T5 T6 T7] & F1). rewrite E1.
    destruct (IH s1 I1 N2) as (s2 & E2 & I2 & [U1 U2 U3 U4 U5 U6 U7]).
    { intros q Q. destruct (D q (or_intror Q)) as (Q1 & Q2 & Q3). rewrite T4, T5. split; [|auto].
      intros W. destruct (F1 q W) as [W'|W']; [contradiction|]. subst q. contradiction. }
    exists s2. split; [exact E2|]. split; [exact I2|]. constructor; try congruence.
    intros q. rewrite U7, T7, T1. cbn [In]. split.
    + intros [[H|[[H|[]] R]]|[H R]]; auto.
    + intros [H|[[H|H] R]]; auto.
Qed.

Lemma request_ok v a s p : binv v s -> ~ In p (b_inflight s) -> ~ In p (b_speers s) -> ~ In p (b_bpeers s) ->
  exists s', request_signature v a s p = Some s' /\ binv v s' /\ asked v a s s' [p] /\
    (forall q, In q (b_inflight s') -> In q (b_inflight s) \/ q = p).
Proof.
  intros I NI NS NB. pose proof I as [BF SF BS IN SN SP BN BP RN GN GV SG]. unfold request_signature.
  destruct (negb (mem p (b_removed s)) && mem p (v_signers v)) eqn:M.
  - apply andb_true_iff in M as [M1 M2]. apply negb_true_iff, mem_no in M1. apply mem_In in M2.
    pose proof (proj2 (mem_no p (b_inflight s)) NI) as NI'. rewrite NI'.
    eexists. split; [reflexivity|]. split; [|split].
    + constructor; unfold waiting in *; cbn [b_removed b_inflight b_rej b_sigs b_bpeers b_speers b_bfut b_sfut]; rewrite ?map_app; cbn [map fst]; auto.
      * apply Permutation_NoDup with (p :: map fst (b_sfut s)); [apply Permutation_cons_append|]. constructor; [|exact SF].
        intros H. apply NI. apply IN. auto.
      * intros q H W. apply in_app_iff in W as [W|[W|[]]]; [exact (BS q H W)|]. subst q. apply NI. apply IN. auto.
      * intros q. cbn [In]. rewrite in_app_iff. cbn [In]. rewrite IN. tauto.
      * intros q H [Q|Q]; [subst q; contradiction|]. exact (SP q H Q).
      * intros q H. destruct (BP q H) as [Q1 Q2]. split; [|exact Q2]. intros [Q|Q]; [subst q; contradiction|exact (Q1 Q)].
      * intros q H. apply in_app_iff in H as [H|[H|[]]]; [apply SG; exact H|]. subst q. exact M2.
    + constructor; try reflexivity. intros q b. cbn [b_sfut]. rewrite in_app_iff. cbn [In]. split.
      * intros [H|[H|[]]]; [auto|]. injection H as <- <-. auto.
      * intros [H|(-> & [H|[]] & _)]; [auto|]. subst q. auto.
    + intros q [H|H]; auto.
  - exists s. split; [reflexivity|]. split; [exact I|]. split; [|auto]. constructor; try reflexivity.
    intros q b. split; [auto|]. intros [H|(-> & [H|[]] & R & S)]; [exact H|]. subst q. exfalso.
    apply mem_no in R. apply mem_In in S. rewrite R, S in M. discriminate.
Qed.

Lemma requests_ok v a l : forall s, binv v s -> NoDup l ->
  (forall p, In p l -> ~ In p (b_inflight s) /\ ~ In p (b_speers s) /\ ~ In p (b_bpeers s)) ->
  exists s', each (request_signature v a) l s = Some s' /\ binv v s' /\ asked v a s s' l.
Proof.
  induction l as [|p l IH]; intros s I N D; cbn [each].
  - exists s. split; [reflexivity|]. split; [exact I|]. constructor; try reflexivity. intros q b. cbn [In]. tauto.
  - inversion N as [|? ? N1 N2]; subst. destruct (D p (or_introl eq_refl)) as (D1 & D2 & D3).
    destruct (request_ok v a s p I D1 D2 D3) as (s1 & E1 & I1 & [T1 T2 T3 T4 T5 T6 T7] & F1). rewrite E1.
    destruct (IH s1 I1 N2) as (s2 & E2 & I2 & [U1 U2 U3 U4 U5 U6 U7]).
    { intros q Q. destruct (D q (or_intror Q)) as (Q1 & Q2 & Q3). rewrite T4, T5. split; [|auto].
      intros W. destruct (F1 q W) as [W'|W']; [contradiction|]. subst q. contradiction. }
    exists s2. split; [exact E2|]. split; [exact I2|]. constructor; try congruence.
    intros q b. rewrite U7, T7, T1. cbn [In]. split.
    + intros [[H|(-> & [H|[]] & R)]|(-> & H & R)]; auto.
    + intros [H|(-> & [H|H] & R)]; auto 6.
Qed.

(** *** the pieces of the broadcaster *)

Lemma send_all_ok v s : binv v s -> exists s', send_all s = Some s' /\ binv v s' /\
  sent (Bc (b_removed s) (b_inflight s) (b_rej s) (b_sigs s) [] (b_speers s) (b_bfut s) (b_sfut s)) s' (b_bpeers s).
Proof.
  intros I. pose proof I as [BF SF BS IN SN SP BN BP RN GN GV SG]. unfold send_all. apply broadcasts_ok.
  - constructor; cbn [b_removed b_inflight b_rej b_sigs b_bpeers b_speers b_bfut b_sfut]; auto; try constructor; intros p [].
  - exact BN.
  - intros p H. destruct (BP p H). cbn [b_inflight b_speers b_bpeers]. auto.
Qed.

Lemma new_binv v l : NoDup l -> binv v (bc_new v l).
Proof. intros N. constructor; unfold waiting; cbn; try constructor; auto; try tauto; intros; try contradiction. Qed.
Lemma none_binv v : binv v bc_none.
Proof. constructor; unfold waiting; cbn; try constructor; auto; try tauto; intros; try contradiction. Qed.

(** after a wrap of the attempts *)
Lemma attempt0_ok v s : NoDup (v_signers v) -> binv v s -> b_bpeers s = [] -> exists s', match_attempt v 0 s = Some s' /\ binv v s' /\
  sent (Bc (b_removed s) [] [] (b_sigs s) (b_bpeers s) [] [] []) s' (v_signers v).
Proof.
  intros NS I BE. pose proof I as [BF SF BS IN SN SP BN BP RN GN GV SG]. unfold match_attempt. cbn [N.eqb].
  apply broadcasts_ok.
  - rewrite BE. constructor; unfold waiting; cbn; auto; try constructor; try tauto; try contradiction; try apply (GV _ _ H).
  - exact NS.
  - intros p H. cbn [b_inflight b_speers b_bpeers]. rewrite ?BE. auto.
Qed.
Lemma attempt_ok v a s : 1 < a -> binv v s -> b_bpeers s = [] -> exists s', match_attempt v a s = Some s' /\ binv v s' /\
  asked v false (Bc (b_removed s) (b_inflight s) (b_rej s) (b_sigs s) (b_bpeers s) [] (b_bfut s) (b_sfut s)) s' (b_speers s).
Proof.
  intros A I BE. pose proof I as [BF SF BS IN SN SP BN BP RN GN GV SG]. unfold match_attempt.
  destruct (N.eqb_spec a 0); [lia|]. destruct (N.ltb_spec 1 a); [|lia]. apply requests_ok.
  - constructor; cbn [b_removed b_inflight b_rej b_sigs b_bpeers b_speers b_bfut b_sfut]; auto; try constructor; intros; try contradiction.
    destruct (BP p H0). auto. intros [].
  - exact SN.
  - intros p H0. cbn [b_inflight b_speers b_bpeers]. rewrite BE. split; [apply SP; exact H0|]. auto.
Qed.
Lemma match_attempt_ok v a s : NoDup (v_signers v) -> binv v s -> b_bpeers s = [] ->
  exists s', match_attempt v a s = Some s' /\ binv v s' /\ b_bpeers s' = [] /\ b_removed s' = b_removed s /\ b_sigs s' = b_sigs s.
Proof.
  intros NS I BE. destruct (N.eq_dec a 0) as [->|A0].
  - destruct (attempt0_ok v s NS I BE) as (s' & E & I' & [T1 T2 T3 T4 T5 T6 T7]). exists s'. cbn [b_bpeers b_removed b_sigs] in *. split; [exact E|]. split; [exact I'|]. split; [congruence|]. split; congruence.
  - destruct (N.eq_dec a 1) as [->|A1].
    + exists s. split; [reflexivity|]. auto.
    + destruct (attempt_ok v a s ltac:(lia) I BE) as (s' & E & I' & [T1 T2 T3 T4 T5 T6 T7]). exists s'. cbn [b_bpeers b_removed b_sigs] in *. split; [exact E|]. split; [exact I'|]. split; [congruence|]. split; congruence.
Qed.

(** a completed query leaves the flight *)
Definition landed_b (s : bc) (p : peer) : bc :=
  Bc (b_removed s) (del p (b_inflight s)) (b_rej s) (b_sigs s) (b_bpeers s) (b_speers s) (rm1 p (b_bfut s)) (b_sfut s).
Definition landed_s (s : bc) (p : peer) : bc :=
  Bc (b_removed s) (del p (b_inflight s)) (b_rej s) (b_sigs s) (b_bpeers s) (b_speers s) (b_bfut s) (rm1s p (b_sfut s)).
Lemma landed_b_ok v s p : binv v s -> In p (b_bfut s) ->
  binv v (landed_b s p) /\ ~ In p (b_inflight (landed_b s p)) /\ ~ In p (b_speers s) /\ mem p (b_inflight s) = true.
Proof.
  intros [BF SF BS IN SN SP BN BP RN GN GV SG] P.
  assert (PI : In p (b_inflight s)) by (apply IN; auto).
  split; [|split; [|split]].
  - constructor; unfold waiting, landed_b in *; cbn [b_removed b_inflight b_rej b_sigs b_bpeers b_speers b_bfut b_sfut]; auto.
    + apply rm1_nd. exact BF.
    + intros q H. apply (rm1_in p q _ BF) in H. apply BS. tauto.
    + intros q. rewrite in_del, IN, (rm1_in p q _ BF). split; [tauto|]. intros [H|H]; [tauto|]. split; [auto|]. intros ->. exact (BS p P H).
    + intros q H Q. apply in_del in Q. exact (SP q H (proj1 Q)).
    + intros q H. destruct (BP q H) as [Q1 Q2]. split; [|exact Q2]. intros Q. apply in_del in Q. tauto.
  - cbn [landed_b b_inflight]. intros H. apply in_del in H. tauto.
  - intros H. exact (SP p H PI).
  - apply mem_In. exact PI.
Qed.
Lemma landed_s_ok v s p : binv v s -> In p (waiting s) ->
  binv v (landed_s s p) /\ ~ In p (b_inflight (landed_s s p)) /\ ~ In p (b_speers s) /\ mem p (b_inflight s) = true.
Proof.
  intros [BF SF BS IN SN SP BN BP RN GN GV SG] P.
  assert (PI : In p (b_inflight s)) by (apply IN; auto).
  split; [|split; [|split]].
  - constructor; unfold waiting, landed_s in *; cbn [b_removed b_inflight b_rej b_sigs b_bpeers b_speers b_bfut b_sfut]; rewrite ?rm1s_map; auto.
    + apply rm1_nd. exact SF.
    + intros q H W. apply (rm1_in p q _ SF) in W. exact (BS q H (proj1 W)).
    + intros q. rewrite in_del, IN, (rm1_in p q _ SF). split; [tauto|]. intros [H|H]; [|tauto]. split; [auto|]. intros ->. exact (BS p H P).
    + intros q H Q. apply in_del in Q. exact (SP q H (proj1 Q)).
    + intros q H. destruct (BP q H) as [Q1 Q2]. split; [|exact Q2]. intros Q. apply in_del in Q. tauto.
    + intros q H. apply (rm1_in p q _ SF) in H. apply SG. tauto.
  - cbn [landed_s b_inflight]. intros H. apply in_del in H. tauto.
  - intros H. exact (SP p H PI).
  - apply mem_In. exact PI.
Qed.
Lemma reject_binv v s p : binv v s -> binv v (reject s p).
Proof.
  intros [BF SF BS IN SN SP BN BP RN GN GV SG]. constructor; unfold waiting in *; cbn [reject b_removed b_inflight b_rej b_sigs b_bpeers b_speers b_bfut b_sfut]; auto.
  apply nd_add. exact RN.
Qed.
Lemma enqueue_binv v s p : binv v s -> ~ In p (b_inflight s) -> b_bpeers s = [] -> binv v (enqueue s p).
Proof.
  intros [BF SF BS IN SN SP BN BP RN GN GV SG] NI BE. constructor; unfold waiting in *; cbn [enqueue b_removed b_inflight b_rej b_sigs b_bpeers b_speers b_bfut b_sfut]; auto.
  - apply nd_add. exact SN.
  - intros q H. apply in_add in H as [H|H]; [exact (SP q H)|subst q; exact NI].
  - intros q H. rewrite BE in H. destruct H.
Qed.
Lemma sign_binv v s p g : binv v s -> In p (v_signers v) -> v_verify v p g = true -> binv v (sign s p g).
Proof.
  intros [BF SF BS IN SN SP BN BP RN GN GV SG] PS PV. constructor; unfold waiting in *; cbn [sign b_removed b_inflight b_rej b_sigs b_bpeers b_speers b_bfut b_sfut]; auto.
  - cbn [map fst]. constructor.
    + intros H. apply in_map_iff in H as ((a & b) & E & H). cbn [fst] in E. subst a. apply filter_In in H as [_ H].
      cbn [fst] in H. rewrite N.eqb_refl in H. discriminate.
    + clear - GN. induction (b_sigs s) as [|[a b] l IH]; [constructor|]. cbn [map fst] in GN. inversion GN as [|? ? G1 G2]; subst.
      cbn [filter fst]. destruct (negb (a =? p)); [|auto]. cbn [map fst]. constructor; [|auto].
      intros H. apply G1. apply in_map_iff in H as ((c & d) & E & H). cbn [fst] in E. subst c. apply filter_In in H as [H _].
      apply (in_map fst) in H. exact H.
  - intros q h [H|H]; [injection H as <- <-; auto|]. apply filter_In in H as [H _]. exact (GV q h H).
Qed.

Lemma bcast_result_ok v s p r : binv v s -> b_bpeers s = [] -> In p (b_bfut s) ->
  exists s', match_broadcast_result v s p r = Some s' /\ binv v s' /\ b_bpeers s' = [] /\ b_removed s' = b_removed s.
Proof.
  intros I BE P. destruct (landed_b_ok v s p I P) as (IL & NI & NS & M).
  unfold match_broadcast_result. rewrite M. fold (landed_b s p). destruct r.
  - eexists. split; [reflexivity|]. split; [apply reject_binv; exact IL|]. auto.
  - eexists. split; [reflexivity|]. split; [apply enqueue_binv; assumption|]. auto.
  - destruct (request_ok v true (landed_b s p) p IL NI NS) as (s' & E & I' & [T1 T2 T3 T4 T5 T6 T7] & _).
    { cbn [landed_b b_bpeers]. rewrite BE. auto. }
    exists s'. cbn [landed_b b_removed b_bpeers] in *. split; [exact E|]. split; [exact I'|]. split; congruence.
Qed.
Lemma sig_result_ok v s p a r : binv v s -> b_bpeers s = [] -> In p (waiting s) ->
  exists s', match_signature_result v s p a r = Some s' /\ binv v s' /\ b_bpeers s' = [] /\ b_removed s' = b_removed s.
Proof.
  intros I BE P. destruct (landed_s_ok v s p I P) as (IL & NI & NS & M).
  pose proof (i_sg _ _ I p P) as PS. apply mem_In in PS.
  unfold match_signature_result. rewrite M. fold (landed_s s p). destruct r as [| |g| | |].
  - eexists. split; [reflexivity|]. split; [apply reject_binv; exact IL|]. auto.
  - eexists. split; [reflexivity|]. split; [apply enqueue_binv; assumption|]. auto.
  - rewrite PS. destruct (v_verify v p g) eqn:V; (eexists; split; [reflexivity|]; split; [|auto]).
    + apply sign_binv; [exact IL|apply mem_In; exact PS|exact V].
    + apply reject_binv. exact IL.
  - destruct a.
    + eexists. split; [reflexivity|]. split; [apply enqueue_binv; assumption|]. auto.
    + destruct (broadcast_ok v (landed_s s p) p IL NI NS) as (s' & E & I' & [T1 T2 T3 T4 T5 T6 T7] & _).
      { cbn [landed_s b_bpeers]. rewrite BE. auto. }
      exists s'. cbn [landed_s b_removed b_bpeers] in *. split; [exact E|]. split; [exact I'|]. split; congruence.
  - eexists. split; [reflexivity|]. split; [apply enqueue_binv; assumption|]. auto.
  - rewrite PS. eexists. split; [reflexivity|]. split; [apply reject_binv; exact IL|]. auto.
Qed.
Definition revived (s : bc) (p : peer) : bc :=
  Bc (del p (b_removed s)) (b_inflight s) (del p (b_rej s)) (b_sigs s) (b_bpeers s) (b_speers s) (b_bfut s) (b_sfut s).
Definition unqueued (s : bc) (p : peer) : bc :=
  Bc (b_removed s) (b_inflight s) (b_rej s) (b_sigs s) (del p (b_bpeers s)) (del p (b_speers s)) (b_bfut s) (b_sfut s).
Lemma update_ok v s p st : binv v s -> b_bpeers s = [] ->
  exists s', match_peer_update s p st = Some s' /\ binv v s' /\ b_bpeers s' = [] /\
    b_sigs s' = b_sigs s /\
    b_removed s' = (if st then del p (b_removed s) else add p (b_removed s)).
Proof.
  intros I BE. pose proof I as [BF SF BS IN SN SP BN BP RN GN GV SG]. unfold match_peer_update.
  assert (IR : binv v (revived s p)).
  { constructor; unfold waiting in *; cbn [revived b_removed b_inflight b_rej b_sigs b_bpeers b_speers b_bfut b_sfut]; auto. apply nd_del. exact RN. }
  destruct st.
  - fold (revived s p). destruct (mem p (b_inflight s)) eqn:M.
    + eexists. split; [reflexivity|]. auto.
    + apply mem_no in M. fold (unqueued (revived s p) p).
      assert (IU : binv v (unqueued (revived s p) p)).
      { destruct IR as [BF' SF' BS' IN' SN' SP' BN' BP' RN' GN' GV' SG'].
        constructor; unfold waiting in *; cbn [unqueued revived b_removed b_inflight b_rej b_sigs b_bpeers b_speers b_bfut b_sfut] in *; auto.
        - apply nd_del. exact SN.
        - intros q H. apply in_del in H as [H _]. exact (SP q H).
        - apply nd_del. exact BN.
        - intros q H. apply in_del in H as [H _]. rewrite BE in H. destruct H. }
      destruct (broadcast_ok v (unqueued (revived s p) p) p IU) as (s' & E & I' & [T1 T2 T3 T4 T5 T6 T7] & _).
      { exact M. }
      { cbn [unqueued revived b_speers]. intros H. apply in_del in H. tauto. }
      { cbn [unqueued revived b_bpeers]. intros H. apply in_del in H. tauto. }
      exists s'. cbn [unqueued revived b_removed b_bpeers b_sigs] in *. rewrite BE in T5. split; [exact E|]. split; [exact I'|]. split; [exact T5|]. split; congruence.
  - eexists. split; [reflexivity|]. split; [|auto].
    constructor; unfold waiting in *; cbn [b_removed b_inflight b_rej b_sigs b_bpeers b_speers b_bfut b_sfut]; auto.
Qed.

(** ** The system *)

Record yinv (v : env) (y : sys) : Prop := {
  yi_b : binv v (y_bc y);
  yi_e : active y = true -> b_bpeers (y_bc y) = [];
  yi_ev : forall p g, match y_evidence y with Some l => In (p, g) l | None => False end ->
            In p (v_signers v) /\ v_verify v p g = true;
  yi_en : match y_evidence y with Some l => NoDup (map fst l) | None => True end }.

Lemma finish_yinv v y : yinv v y -> yinv v (finish y).
Proof.
  intros [[BF SF BS IN SN SP BN BP RN GN GV SG] E EV EN]. constructor.
  - constructor; unfold waiting in *; cbn [finish y_bc b_removed b_inflight b_rej b_sigs b_bpeers b_speers b_bfut b_sfut]; auto; [constructor|intros p g []].
  - discriminate.
  - exact GV.
  - exact GN.
Qed.
Lemma yinv_same v y z : yinv v y -> y_bc z = y_bc y -> y_evidence z = y_evidence y -> (active z = true -> active y = true) -> yinv v z.
Proof.
  intros [B E EV EN] H1 H2 H3. constructor.
  - rewrite H1. exact B.
  - intros A. rewrite H1. apply E. exact (H3 A).
  - rewrite H2. exact EV.
  - rewrite H2. exact EN.
Qed.
Lemma yinv_bc v y s : yinv v y -> binv v s -> b_bpeers s = [] -> yinv v (with_bc y s).
Proof. intros [B E EV EN] I BE. constructor; auto. Qed.

Lemma step_yinv v cur y e : NoDup (v_signers v) -> yinv v y -> enabled y e = true -> exists z, step v cur y e = Some z /\ yinv v z.
Proof.
  intros NS I EN. pose proof I as [B E EV EVN]. destruct e as [rs| | | | |con tka| | |p st|p r|p a r| |]; cbn [step enabled] in *.
  - destruct (send_all_ok v (bc_new v (nodup N.eq_dec rs)) (new_binv v _ (NoDup_nodup N.eq_dec rs))) as (s & ES & IS & [T1 T2 T3 T4 T5 T6 T7]).
    rewrite ES. eexists. split; [reflexivity|]. constructor; auto.
  - eexists. split; [reflexivity|]. eapply yinv_same; [exact I|reflexivity|reflexivity|discriminate].
  - eexists. split; [reflexivity|]. destruct (y_ok y); eapply yinv_same; eauto.
  - destruct (y_signal y) as [[|]|]; (eexists; split; [reflexivity|]); try destruct (y_includes y); eapply yinv_same; eauto.
  - eexists. split; [reflexivity|]. destruct (_ && _); eapply yinv_same; eauto.
  - eexists. split; [reflexivity|]. destruct (_ || _); [eapply yinv_same; eauto|exact I].
  - apply andb_true_iff in EN as [EN _].
    assert (AC : active y = true) by (unfold is_run in EN; unfold active; destruct (y_phase y); congruence).
    assert (IS : yinv v (seen y)) by (eapply yinv_same; eauto).
    unfold should_finish. destruct (_ <=? _).
    + eexists. split; [reflexivity|]. apply finish_yinv. eapply yinv_same; [exact IS|reflexivity|reflexivity|auto].
    + match goal with |- context [on_bc ?a _] => set (y1 := a) end.
      assert (I1 : yinv v y1 /\ y_bc y1 = y_bc y /\ active y1 = true).
      { unfold y1. destruct (_ && _); (split; [eapply yinv_same; eauto|split; [reflexivity|exact AC]]). }
      destruct I1 as (I1 & EB & A1). rewrite EB.
      destruct (match_attempt_ok v (y_attempt (seen y)) (y_bc y) NS B (E AC)) as (s & ES & IB & BE & _). rewrite ES.
      eexists. split; [reflexivity|]. apply yinv_bc; assumption.
  - eexists. split; [reflexivity|]. apply finish_yinv. exact I.
  - destruct (update_ok v (y_bc y) p st B (E EN)) as (s & ES & IB & BE & _). rewrite ES. eexists. split; [reflexivity|]. apply yinv_bc; assumption.
  - apply andb_true_iff in EN as [AC EN]. apply mem_In in EN.
    destruct (bcast_result_ok v (y_bc y) p r B (E AC) EN) as (s & ES & IB & BE & _). rewrite ES. eexists. split; [reflexivity|]. apply yinv_bc; assumption.
  - apply andb_true_iff in EN as [AC EN]. apply existsb_exists in EN as ((q & b) & EN & Q). cbn [fst snd] in Q.
    apply andb_true_iff in Q as [Q _]. apply N.eqb_eq in Q. subst q.
    assert (W : In p (waiting (y_bc y))) by (unfold waiting; apply (in_map fst) in EN; exact EN).
    destruct (sig_result_ok v (y_bc y) p a r B (E AC) W) as (s & ES & IB & BE & _). rewrite ES. eexists. split; [reflexivity|]. apply yinv_bc; assumption.
  - destruct (send_all_ok v (y_bc y) B) as (s & ES & IS & [T1 T2 T3 T4 T5 T6 T7]). rewrite ES.
    eexists. split; [reflexivity|]. constructor; auto.
  - assert (AC : active y = true) by (unfold active; destruct (y_phase y); congruence).
    destruct (match_attempt_ok v ((y_retry y + 1) mod 256) (y_bc y) NS B (E AC)) as (s & ES & IB & BE & _). rewrite ES.
    eexists. split; [reflexivity|]. constructor; auto.
Qed.

Lemma start_yinv v : yinv v round_start.
Proof. constructor; [apply none_binv|discriminate|intros p g []|exact I]. Qed.
Lemma old_yinv v l : yinv v (old_point v l).
Proof. constructor; [apply new_binv; apply NoDup_nodup|discriminate|intros p g []|exact I]. Qed.
Lemma runs_yinv v cur y l z : NoDup (v_signers v) -> yinv v y -> runs v cur y l z -> yinv v z.
Proof.
  intros NS I R. induction R as [|l z e z' R IH EN ST]; [exact I|].
  destruct (step_yinv v cur z e NS IH EN) as (z2 & E2 & I2). congruence.
Qed.
