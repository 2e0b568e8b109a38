(** C17, C18, C19, C34, C35: the consensus commit path. Properties only; vocabulary in DagGather
    ([holds], [links], [reach]) and DagProofs ([runs], [env_points], [env_calls]). *)
From Coq Require Import List Bool NArith Lia Permutation Sorting.Sorted ZArith ZifyN ZifyNat ZifyBool.
From Verif Require Import AMap DagModel DagGather DagProofs DagRuns DagDet.
Import ListNotations.
Local Open Scope N_scope.

(** a shuffle and a hash iteration order are permutations, nothing else is known of them *)
Definition shuffles {rng} (shuffle : rng -> list (N * N) -> list (N * N) * rng) : Prop :=
  forall g l, Permutation (fst (shuffle g l)) l.
Definition orders (h : list (N * N) -> list (N * N)) : Prop := forall l, Permutation (h l) l.

(** ** C17 *)
Lemma sent_sub_log rng seed shuffle h c env s sent log : runs rng seed shuffle h c env s sent log ->
  exists rest, Permutation (flat_map ids sent ++ rest) (log_ids log).
Proof.
  intros R. induction R as [ga gap|s sent log o s' sent1 dq1 R [rest IH] Ev St]; [exists []; reflexivity|].
  assert (D : sent1 = dq1 \/ sent1 = []).
  { destruct o; cbn [step] in St.
    - destruct (aget pid_eqb i (d_pts (c_dag s))); injection St as <- <- <-; auto.
    - destruct (ft <? fb); [injection St as <- <- <-; auto|]. destruct (d_top (c_dag s) + 1 <? fb); [discriminate|]. injection St as <- <- <-; auto.
    - destruct (snd (commit rng seed shuffle h c s trigger)); try discriminate; injection St as <- <- <-; auto.
    - injection St as <- <- <-; auto.
    - destruct (d_top (c_dag s) <? anchor_round - hist_rounds c); [discriminate|]. injection St as <- <- <-; auto.
    - destruct (c_gap s) as [[|]|]; injection St as <- <- <-; auto.
    - injection St as <- <- <-; auto.
    - injection St as <- <- <-; auto. }
  rewrite log_ids_app, log_ids_map. destruct D as [->| ->].
  - exists rest. rewrite flat_map_app, <- app_assoc. rewrite (Permutation_app_comm (flat_map ids dq1) rest), app_assoc, IH. reflexivity.
  - exists (rest ++ flat_map ids dq1). rewrite flat_map_app. cbn [flat_map]. rewrite app_nil_r, app_assoc, IH. reflexivity.
Qed.

Lemma nodup_app_left {A} (l1 l2 : list A) : NoDup (l1 ++ l2) -> NoDup l1.
Proof.
  induction l1 as [|x l1 IH]; cbn [app]; intros H; [constructor|]. inversion H; subst. constructor; auto.
  intros I. apply H2. apply in_app_iff. now left.
Qed.

(** No point is in two histories handed to the consumer, nor twice in one, whatever the sequence of
    calls (commits, failed commits, gaps, drops, resets). *)
Theorem commit_each_point_once rng seed shuffle h owner c s sent log :
  @shuffles rng shuffle -> orders h ->
  runs rng seed shuffle h c (env_points owner) s sent log ->
  NoDup (flat_map (fun a => map p_id (a_history a)) sent).
Proof.
  intros Sp Hp R. destruct (sent_sub_log _ _ _ _ _ _ _ _ _ R) as [rest P].
  pose proof (pi_nd _ _ _ (pinv_runs rng seed shuffle h Sp Hp owner c s sent log R)) as N.
  apply (Permutation_NoDup (Permutation_sym P)) in N. now apply nodup_app_left in N.
Qed.

(** The same for everything marked, delivered or lost to an error: the assertion "committed twice"
    cannot fail. *)
Theorem commit_marks_once rng seed shuffle h owner c s sent log :
  @shuffles rng shuffle -> orders h ->
  runs rng seed shuffle h c (env_points owner) s sent log ->
  NoDup (log_ids log) /\
  (forall fhb anchor un, holds (c_dag s) (p_id anchor) anchor -> d_bottom (c_dag s) <= p_round anchor <= d_top (c_dag s) ->
     gather_uncommitted rng seed shuffle h c (c_dag s) fhb anchor = Ok un -> exists d', mark_all (c_dag s) un = Ok d').
Proof.
  intros Sp Hp R. pose proof (pinv_runs rng seed shuffle h Sp Hp owner c s sent log R) as P.
  split; [exact (pi_nd _ _ _ P)|]. intros fhb anchor un Ha Hb G.
  destruct (gather_spec rng seed shuffle h Sp Hp owner c (c_dag s) fhb anchor un (pi_bind _ _ _ P) (pi_wf _ _ _ P) Ha Hb G) as (_ & _ & A1 & _ & A2 & A3 & _).
  apply mark_all_ok; [exact A1|]. intros p I. apply (in_map p_id) in I. now apply A3 in I.
Qed.

(** ** C18: the history of the [k]-th dequeued anchor is exactly what the anchor reaches inside the
    window and no earlier anchor took; dependencies first. The window starts at the history limit or,
    if higher, at the bottom [b] of the DAG at that time. *)
Theorem commit_history_exact rng seed shuffle h owner c s sent log pre b a post :
  @shuffles rng shuffle -> orders h ->
  runs rng seed shuffle h c (env owner c) s sent log -> log = pre ++ (b, a) :: post ->
  let low := N.max (N.max (genesis c + 1) (p_round (a_anchor a) - hist_rounds c)) b in
  (forall i, In i (map p_id (a_history a)) <->
      reach (c_dag s) low (p_id (a_anchor a)) i /\ (forall x, In x pre -> ~ In i (map p_id (a_history (snd x))))) /\
  (forall p, In p (a_history a) -> holds (c_dag s) (p_id p) p) /\
  NoDup (map p_id (a_history a)) /\
  (forall l1 p l2 q l3, a_history a = l1 ++ p :: l2 ++ q :: l3 -> p_round p <= p_round q /\ ~ links p (p_id q)).
Proof.
  intros Sp Hp R E low.
  pose proof (finv_runs rng seed shuffle h Sp Hp owner c s sent log R) as F.
  pose proof (log_ok_split _ _ _ _ _ _ _ (fi_log _ _ _ _ _ _ _ _ F) _ _ _ _ E) as G.
  split.
  { intros i. change (map p_id (a_history a)) with (ids a). rewrite (eg_ids _ _ _ _ _ _ _ _ _ G). fold (history_limit c (p_round (a_anchor a))) in low. fold low.
    apply and_iff_compat_l. unfold log_ids. rewrite in_flat_map. split.
    - intros H x Hx I. apply H. exists x. split; assumption.
    - intros H (x & Hx & I). exact (H x Hx I). }
  split; [exact (eg_holds _ _ _ _ _ _ _ _ _ G)|]. split; [exact (eg_nd _ _ _ _ _ _ _ _ _ G)|].
  intros l1 p l2 q l3 Eh. pose proof (eg_sorted _ _ _ _ _ _ _ _ _ G) as So. rewrite Eh in So.
  assert (L : p_round p <= p_round q).
  { clear - So. induction l1 as [|x l1 IH]; cbn [app] in So; inversion So as [|? ? S1 S2]; subst; [|auto].
    rewrite Forall_forall in S2. apply (S2 q). apply in_app_iff. right. now left. }
  split; [exact L|]. intros Lk. apply links_lt in Lk. unfold p_round in *. lia.
Qed.

(** ** C34: an anchor marked executable always carries its complete window *)
Theorem commit_executable_full_history rng seed shuffle h owner c s sent log pre b a post :
  @shuffles rng shuffle -> orders h ->
  runs rng seed shuffle h c (env owner c) s sent log -> log = pre ++ (b, a) :: post ->
  a_executable a = true ->
  forall i, In i (map p_id (a_history a)) <->
      reach (c_dag s) (N.max (genesis c + 1) (p_round (a_anchor a) - hist_rounds c)) (p_id (a_anchor a)) i /\
      (forall x, In x pre -> ~ In i (map p_id (a_history (snd x)))).
Proof.
  intros Sp Hp R E Ex.
  pose proof (finv_runs rng seed shuffle h Sp Hp owner c s sent log R) as F.
  pose proof (log_ok_split _ _ _ _ _ _ _ (fi_log _ _ _ _ _ _ _ _ F) _ _ _ _ E) as G.
  destruct (commit_history_exact rng seed shuffle h owner c s sent log pre b a post Sp Hp R E) as [H _].
  rewrite N.max_l in H; [exact H|]. exact (eg_exec _ _ _ _ _ _ _ _ _ G Ex).
Qed.

(** ** C19 *)
Theorem commit_anchor_order rng seed shuffle h owner c s sent log pre b a post :
  @shuffles rng shuffle -> orders h ->
  runs rng seed shuffle h c (env owner c) s sent log -> log = pre ++ (b, a) :: post ->
  (* the anchor is the previous point of its author's proof, one round below *)
  p_is_proof (a_proof a) = true /\
  prev_id (a_proof a) = Some (p_id (a_anchor a)) /\
  pi_author (p_id (a_anchor a)) = pi_author (p_id (a_proof a)) /\
  p_round (a_proof a) = p_round (a_anchor a) + 1 /\
  (* strictly above every anchor dequeued before *)
  (forall x, In x pre -> p_round (a_anchor (snd x)) < p_round (a_anchor a)) /\
  (* and linked to the last one, unless there was a gap in between or the link goes below it *)
  (forall pre' b' x, pre = pre' ++ [(b', x)] ->
     exists l, p_chain (a_proof a) = Some l /\
       (l = p_id (a_proof x) \/
        (pi_round l = p_round (a_proof x) /\ pi_author l = pi_author (p_id (a_proof x))) \/
        pi_round l < p_round (a_proof x) \/
        (p_round (a_proof x) < b /\ pi_round l <= b))) /\
  (forall r, a_prev_anchor a = Some r -> exists l, p_chain (a_proof a) = Some l /\ r = pi_round l - 1).
Proof.
  intros Sp Hp R E.
  pose proof (finv_runs rng seed shuffle h Sp Hp owner c s sent log R) as F.
  pose proof (log_ok_split _ _ _ _ _ _ _ (fi_log _ _ _ _ _ _ _ _ F) _ _ _ _ E) as G.
  split; [exact (eg_isproof _ _ _ _ _ _ _ _ _ G)|]. split; [exact (eg_prev _ _ _ _ _ _ _ _ _ G)|].
  split; [apply prev_id_author; exact (eg_prev _ _ _ _ _ _ _ _ _ G)|]. split; [exact (eg_round _ _ _ _ _ _ _ _ _ G)|].
  split.
  { intros [bx x] Ix. cbn [snd]. destruct (eg_order _ _ _ _ _ _ _ _ _ G _ Ix) as [O _]. cbn [snd] in O.
    destruct (in_split _ _ Ix) as (p1 & p2 & Ep). subst pre. rewrite <- app_assoc in E. cbn [app] in E.
    pose proof (log_ok_split _ _ _ _ _ _ _ (fi_log _ _ _ _ _ _ _ _ F) _ _ _ _ E) as Gx.
    pose proof (eg_round _ _ _ _ _ _ _ _ _ Gx). pose proof (eg_round _ _ _ _ _ _ _ _ _ G). lia. }
  split; [exact (eg_link _ _ _ _ _ _ _ _ _ G)|exact (eg_prevanchor _ _ _ _ _ _ _ _ _ G)].
Qed.

Lemma dequeue_panic rng seed shuffle h owner c s log e : @shuffles rng shuffle -> orders h ->
  finv rng seed shuffle h owner c s log ->
  good (c_dag s) (N.max (base (c_dag s)) (d_bottom (c_dag s))) (d_top (c_dag s)) e ->
  dequeue_anchor rng seed shuffle h c s e = Panic ->
  gather_uncommitted rng seed shuffle h c (c_dag s) (c_fhb s) (q_anchor e) = Panic \/ c_gap s = Some false.
Proof.
  intros Sp Hp F G E. unfold dequeue_anchor in E.
  destruct (gather_uncommitted rng seed shuffle h c (c_dag s) (c_fhb s) (q_anchor e)) as [un| | |] eqn:Eg; try discriminate; [|now left].
  cbn [bind] in E. right. set (d := c_dag s) in *.
  pose proof (go_lo _ _ _ _ G) as G1. pose proof (go_hi _ _ _ _ G) as G2. pose proof (go_round _ _ _ _ G) as G3.
  pose proof (fi_bb _ _ _ _ _ _ _ _ F) as Fb. fold d in Fb.
  assert (El : (match d_last d with None => true | Some l => l <? p_round (q_proof e) end) = true).
  { unfold base in *. destruct (d_last d); [lia|reflexivity]. }
  rewrite El in E. cbn [negb] in E.
  assert (Eb : (d_bottom d <=? p_round (q_proof e)) && (p_round (q_proof e) <=? d_top d) = true) by lia.
  rewrite Eb in E. cbn [negb] in E.
  assert (Eu : amem N.eqb (p_round (q_proof e)) (d_used d) = false).
  { unfold amem. destruct (aget N.eqb (p_round (q_proof e)) (d_used d)) eqn:U; [|reflexivity]. apply (fi_used _ _ _ _ _ _ _ _ F) in U. fold d in U. lia. }
  rewrite Eu in E.
  pose proof (fi_p _ _ _ _ _ _ _ _ F) as P.
  assert (Hbt : d_bottom d <= p_round (q_anchor e) <= d_top d) by lia.
  destruct (gather_spec rng seed shuffle h Sp Hp owner c d (c_fhb s) (q_anchor e) un (pi_bind _ _ _ P) (pi_wf _ _ _ P) (or_introl (go_anchor _ _ _ _ G)) Hbt Eg) as (_ & _ & A1 & _ & A2 & A3 & _).
  match type of E with bind (mark_all ?D un) _ = _ => destruct (mark_all_ok un D) as [d' Em]; [exact A1| |rewrite Em in E] end.
  { intros p I. apply (in_map p_id) in I. apply A3 in I. exact (proj2 I). }
  cbn [bind] in E. destruct (c_gap s) as [[|]|]; [destruct (c_first_exec s <=? p_round (q_anchor e)); discriminate|reflexivity|discriminate].
Qed.

(** The order assertions of [dequeue_anchor] never fail: a commit can only panic while walking the
    chain, while gathering a history, or because the gap flag was not consumed. *)
Theorem commit_order_asserts_hold rng seed shuffle h owner c s sent log t s' dq :
  @shuffles rng shuffle -> orders h ->
  runs rng seed shuffle h c (env owner c) s sent log ->
  commit rng seed shuffle h c s t = (s', dq, Panic) ->
  (exists p, t = EValid p /\ anchor_chain (c_dag s) p = Panic) \/
  (exists anchor, gather_uncommitted rng seed shuffle h c (c_dag s') (c_fhb s') anchor = Panic) \/
  c_gap s' = Some false.
Proof.
  intros Sp Hp R E. pose proof (finv_runs rng seed shuffle h Sp Hp owner c s sent log R) as F.
  unfold commit in E. destruct t as [p|p hp ce|r0 ce|].
  - destruct (negb (p_is_trigger p)); [discriminate|]. destruct (p_round p <? d_bottom (c_dag s)); [discriminate|].
    destruct (p_round p =? genesis c); [discriminate|].
    destruct (anchor_chain (c_dag s) p) as [chain| | |] eqn:A; try discriminate; [|left; eauto].
    right. destruct (anchor_chain_spec _ _ _ (pi_wf _ _ _ (fi_p _ _ _ _ _ _ _ _ F)) A) as (G & So & L & H).
    assert (Hl : match chain with [] => True | e :: _ => forall log' b x, log = log' ++ [(b, x)] ->
        link_ok x (mkadata (q_anchor e) (q_proof e) None [] true) (d_bottom (c_dag s)) end).
    { destruct chain as [|e chain]; [exact Logic.I|]. intros log' b x Ex. destruct H as (l & H1 & H2 & H3).
      exists l. cbn [a_proof]. split; [exact H1|].
      pose proof (fi_last _ _ _ _ _ _ _ _ F) as FL. pose proof (fi_bb _ _ _ _ _ _ _ _ F) as FB. unfold base in H2, H3, FB.
      destruct (d_last (c_dag s)) as [lp|].
      + destruct FL as (log2 & b2 & a2 & E2 & E3 & E4). rewrite Ex in E2. apply app_inj_tail in E2. destruct E2 as [_ [= <- <-]].
        destruct (N.eq_dec (pi_round l) lp) as [El|]; [|right; right; left; lia].
        right. left. split; [congruence|]. apply H3; [lia|]. now rewrite El.
      + right. right. right. split; [|lia]. apply (FL (b, x)). rewrite Ex. apply in_app_iff. right. now left. }
    clear H A R. revert s sent log s' dq F G So L Hl E. induction chain as [|e chain IH]; intros s sent log s' dq F G So L Hl E; cbn [dequeue_all] in E; [discriminate|].
    destruct (dequeue_anchor rng seed shuffle h c s e) as [[s1 a]| | |] eqn:D; try discriminate.
    + destruct (finv_dequeue rng seed shuffle h Sp Hp owner c s log e s1 a F (G e (or_introl eq_refl)) Hl D) as (F1 & B1 & B2 & B3 & B4 & B5).
      destruct (dequeue_all rng seed shuffle h c s1 chain) as [[s2 dq2] r2] eqn:D2. cbn [fst snd] in E. injection E as <- <- ->.
      inversion So as [|x y So1 So2]; subst. rewrite Forall_forall in So2.
      eapply (IH s1 sent); try exact D2; try exact F1; auto.
      * intros e' I'. assert (G' := G e' (or_intror I')). specialize (So2 _ I'). unfold qlt in So2.
        eapply good_weaken; [exact B3|exact G'| |].
        -- rewrite B4. pose proof (go_round _ _ _ _ G'). pose proof (go_lo _ _ _ _ G'). lia.
        -- rewrite B2. exact (go_hi _ _ _ _ G').
      * destruct chain as [|e2 chain]; [exact Logic.I|]. exact (proj2 L).
      * destruct chain as [|e2 chain]; [exact Logic.I|]. intros log' b x Ex. apply app_inj_tail in Ex. destruct Ex as [_ [= <- <-]].
        exists (p_id (q_proof e)). cbn [a_proof]. split; [exact (proj1 L)|]. left. now rewrite B5.
    + injection E as <- <-. destruct (dequeue_panic rng seed shuffle h owner c s log e Sp Hp F (G e (or_introl eq_refl)) D) as [P|P]; [left; eauto|now right].
  - destruct (hp && (d_bottom (c_dag s) <=? p_round p)); discriminate.
  - destruct (ce && (d_bottom (c_dag s) <=? r0)); discriminate.
  - discriminate.
Qed.

(** ** C35: two nodes that both executed the same anchor emitted the same history, in the same order,
    if they committed the same anchors within its history window. The nodes may differ in hash
    iteration order, in where their DAG starts, in gaps, drops and the batching of commits. *)
Theorem commit_agreement rng seed shuffle h1 h2 owner c s1 s2 sent1 sent2 log1 log2 pre1 pre2 b1 b2 a1 a2 post1 post2 :
  @shuffles rng shuffle -> orders h1 -> orders h2 ->
  runs rng seed shuffle h1 c (env owner c) s1 sent1 log1 -> runs rng seed shuffle h2 c (env owner c) s2 sent2 log2 ->
  log1 = pre1 ++ (b1, a1) :: post1 -> log2 = pre2 ++ (b2, a2) :: post2 ->
  p_id (a_anchor a1) = p_id (a_anchor a2) -> a_executable a1 = true -> a_executable a2 = true ->
  (* a point id (a hash) names the same point on both nodes *)
  (forall i p q, holds (c_dag s1) i p -> holds (c_dag s2) i q -> p = q) ->
  let limit := N.max (genesis c + 1) (p_round (a_anchor a1) - hist_rounds c) in
  (forall x, In x pre1 -> limit <= p_round (a_anchor (snd x)) -> exists y, In y pre2 /\ p_id (a_anchor (snd y)) = p_id (a_anchor (snd x))) ->
  (forall x, In x pre2 -> limit <= p_round (a_anchor (snd x)) -> exists y, In y pre1 /\ p_id (a_anchor (snd y)) = p_id (a_anchor (snd x))) ->
  a_history a1 = a_history a2.
Proof.
  intros Sp H1 H2 R1 R2 E1 E2 Ea X1 X2 Ag limit C1 C2.
  exact (agreement rng seed shuffle h1 h2 owner c s1 s2 log1 log2 pre1 pre2 b1 b2 a1 a2 post1 post2 Sp H1 H2
           (finv_runs rng seed shuffle h1 Sp H1 owner c s1 sent1 log1 R1) (finv_runs rng seed shuffle h2 Sp H2 owner c s2 sent2 log2 R2)
           E1 E2 Ea X1 X2 Ag C1 C2).
Qed.

(** ** A concrete run: two authors, three anchors in two commits *)
Definition ex_own (x : N) : N := x mod 10.
Definition ex_sh (g : N) (l : list (N * N)) : list (N * N) * N := (rev l, g).
Definition ex_ho (rv : bool) (l : list (N * N)) : list (N * N) := if rv then rev l else l.
Definition ex_cf : conf := mkconf 1 4 2.
(* digest of a point: 10 * round + author *)
Definition ex_id (r a : N) : pid := mkpid r a (10 * r + a).
Definition ex_lk (r a : N) : N * N := (a, 10 * r + a).
Definition ex_pt (r a : N) (inc wit : list (N * N)) (ch : option pid) (pr tr : bool) : point :=
  mkpoint (ex_id r a) inc wit (Some (10 * (r - 1) + a)) ch pr tr.
Definition ex_both (r : N) := [ex_lk r 1; ex_lk r 2].
Definition ex_pts : list point :=
  [ ex_pt 2 1 [ex_lk 1 1] [] None false false; ex_pt 2 2 [ex_lk 1 1] [] None false false;
    ex_pt 3 1 (ex_both 2) [] None false false; ex_pt 3 2 [ex_lk 2 2] [] None false false;
    ex_pt 4 1 (ex_both 3) [] (Some (ex_id 1 1)) true false; ex_pt 4 2 (ex_both 3) [ex_lk 2 1] None false false;
    ex_pt 5 1 (ex_both 4) [] None false true; ex_pt 5 2 (ex_both 4) [] None false false;
    ex_pt 6 2 (ex_both 5) [] (Some (ex_id 4 1)) true false; ex_pt 6 1 (ex_both 5) [] None false false;
    ex_pt 7 2 (ex_both 6) [ex_lk 5 2] (Some (ex_id 6 2)) true true; ex_pt 7 1 (ex_both 6) [] None false false;
    ex_pt 8 2 (ex_both 7) [] None false true ].
Definition ex_load : list op := OExtend 2 9 :: map (fun p => OResolve (p_id p) (EValid p)) ex_pts.
Definition ex_t5 := EValid (ex_pt 5 1 (ex_both 4) [] None false true).
Definition ex_t8 := EValid (ex_pt 8 2 (ex_both 7) [] None false true).
(* node A commits in two batches, node B in one and with another hash order *)
Definition ex_opsA : list op := ex_load ++ [OCommit ex_t5; ORemove 3; OCommit ex_t8; ORemove 6].
Definition ex_opsB : list op := ex_load ++ [OCommit ex_t8; ORemove 3].

Definition ex_stp (rv : bool) := step N (fun x => x) ex_sh (ex_ho rv) ex_cf.
Fixpoint ex_exec (rv : bool) (s : committer) (sent : list adata) (log : list (N * adata)) (ops : list op)
  : option (committer * list adata * list (N * adata)) :=
  match ops with
  | [] => Some (s, sent, log)
  | o :: r => match ex_stp rv s o with
              | None => None
              | Some x => ex_exec rv (fst (fst x)) (sent ++ snd (fst x)) (log ++ map (pair (d_bottom (c_dag s))) (snd x)) r
              end
  end.
Fixpoint ex_envs (rv : bool) (s : committer) (ops : list op) : Prop :=
  match ops with
  | [] => True
  | o :: r => env ex_own ex_cf s o /\ match ex_stp rv s o with None => True | Some x => ex_envs rv (fst (fst x)) r end
  end.
Lemma ex_exec_runs rv ops : forall s sent log x, runs N (fun x => x) ex_sh (ex_ho rv) ex_cf (env ex_own ex_cf) s sent log ->
  ex_envs rv s ops -> ex_exec rv s sent log ops = Some x ->
  runs N (fun x => x) ex_sh (ex_ho rv) ex_cf (env ex_own ex_cf) (fst (fst x)) (snd (fst x)) (snd x).
Proof.
  induction ops as [|o ops IH]; intros s sent log x R Ev E; cbn [ex_exec] in E.
  - injection E as <-. exact R.
  - cbn [ex_envs] in Ev. destruct Ev as [Ev1 Ev2]. unfold ex_stp in *.
    destruct (step N (fun x => x) ex_sh (ex_ho rv) ex_cf s o) as [[[s1 sent1] dq1]|] eqn:St; [|discriminate]. cbn [fst snd] in *.
    eapply IH; [|exact Ev2|exact E]. econstructor; eassumption.
Qed.
Local Ltac envs_tac :=
  repeat (cbn [ex_envs]; split;
    [split; [first [exact Logic.I | (split; [reflexivity|split; [reflexivity|]]; intros a x I; cbn in I; unfold ex_own;
               repeat (destruct I as [I|I]; try contradiction); try (injection I as <- <-; reflexivity);
               repeat (destruct I as [I|I]; try contradiction); try (injection I as <- <-; reflexivity))]
            |vm_compute; first [exact Logic.I | reflexivity]]
    |match goal with |- match ?e with _ => _ end => let e' := eval vm_compute in e in change e with e' end; cbn [fst snd]]);
  exact Logic.I.
Lemma ex_envA : ex_envs false (start ex_cf 1 false) ex_opsA.
Proof. unfold ex_opsA, ex_load, ex_pts. cbn [map app]. envs_tac. Qed.
Lemma ex_envB : ex_envs true (start ex_cf 1 false) ex_opsB.
Proof. unfold ex_opsB, ex_load, ex_pts. cbn [map app]. envs_tac. Qed.

Definition ex_summary (log : list (N * adata)) :=
  map (fun y => (fst y, p_id (a_anchor (snd y)), map (fun p => pi_digest (p_id p)) (a_history (snd y)), a_executable (snd y))) log.

Lemma ex_runA : exists s sent log, runs N (fun x => x) ex_sh (ex_ho false) ex_cf (env ex_own ex_cf) s sent log /\
  ex_summary log = [(1, ex_id 3 1, [21; 22; 31], true); (1, ex_id 5 2, [32; 41; 42; 52], true); (1, ex_id 6 2, [51; 62], true)] /\
  map snd log = sent.
Proof.
  destruct (ex_exec false (start ex_cf 1 false) [] [] ex_opsA) as [[[s sent] log]|] eqn:E; [|vm_compute in E; discriminate].
  exists s, sent, log. split; [exact (ex_exec_runs _ _ _ _ _ _ (runs_start _ _ _ _ _ _ 1 false) ex_envA E)|].
  vm_compute in E. injection E as <- <- <-. vm_compute. split; reflexivity.
Qed.
Lemma ex_runB : exists s sent log, runs N (fun x => x) ex_sh (ex_ho true) ex_cf (env ex_own ex_cf) s sent log /\
  ex_summary log = [(1, ex_id 3 1, [21; 22; 31], true); (1, ex_id 5 2, [32; 41; 42; 52], true); (1, ex_id 6 2, [51; 62], true)] /\
  map snd log = sent.
Proof.
  destruct (ex_exec true (start ex_cf 1 false) [] [] ex_opsB) as [[[s sent] log]|] eqn:E; [|vm_compute in E; discriminate].
  exists s, sent, log. split; [exact (ex_exec_runs _ _ _ _ _ _ (runs_start _ _ _ _ _ _ 1 false) ex_envB E)|].
  vm_compute in E. injection E as <- <- <-. vm_compute. split; reflexivity.
Qed.
Lemma ex_perms rv : shuffles ex_sh /\ orders (ex_ho rv).
Proof. split; [intros g l; symmetry; apply Permutation_rev|intros l; destruct rv; [symmetry; apply Permutation_rev|reflexivity]]. Qed.

Print Assumptions commit_each_point_once.
Print Assumptions commit_marks_once.
Print Assumptions commit_history_exact.
Print Assumptions commit_executable_full_history.
Print Assumptions commit_anchor_order.
Print Assumptions commit_order_asserts_hold.
Print Assumptions commit_agreement.
Print Assumptions ex_runA.
