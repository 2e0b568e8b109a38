(** Executions of the committer and their invariants. *)
From Coq Require Import List Bool NArith Lia Permutation Sorting.Sorted ZArith ZifyN ZifyNat ZifyBool.
From Verif Require Import AMap DagModel DagGather.
Import ListNotations.
Local Open Scope N_scope.

(** ** the anchor chain *)
Record good (d : dag) (lo hi : N) (e : enq) : Prop := {
  go_proof : In (p_id (q_proof e), EValid (q_proof e)) (d_pts d);
  go_isproof : p_is_proof (q_proof e) = true;
  go_anchor : In (p_id (q_anchor e), EValid (q_anchor e)) (d_pts d);
  go_prev : prev_id (q_proof e) = Some (p_id (q_anchor e));
  go_round : p_round (q_proof e) = p_round (q_anchor e) + 1;
  go_lo : lo <= p_round (q_anchor e);
  go_hi : p_round (q_proof e) <= hi;
  go_chain : exists l, p_chain (q_proof e) = Some l /\ q_prev_proof e = pi_round l }.

(** each proof is the chained one of the next *)
Fixpoint linked (l : list enq) : Prop :=
  match l with
  | e1 :: ((e2 :: _) as r) => p_chain (q_proof e2) = Some (p_id (q_proof e1)) /\ linked r
  | _ => True
  end.
Definition qlt (a b : enq) : Prop := p_round (q_proof a) < p_round (q_proof b).

Lemma ready_valid_in d i p : wf_pts d -> ready_valid_point d i = Ok p -> In (i, EValid p) (d_pts d) /\ p_id p = i.
Proof.
  intros W. unfold ready_valid_point. destruct (aget pid_eqb i (d_pts d)) as [e|] eqn:G; [|discriminate].
  apply aget_in in G. destruct e as [q|q hp ce|r ce|]; try discriminate; [|destruct ce; discriminate|destruct ce; discriminate].
  intros [= ->]. split; [exact G|]. apply W. now left.
Qed.

Lemma chain_loop_spec d bot : wf_pts d ->
  forall n hi lookup acc res lo H,
  lo + N.of_nat n = hi + 1 -> hi <= H ->
  chain_loop d bot (down n hi) lookup acc = Ok res ->
  (forall e, In e acc -> good d lo H e /\ hi < p_round (q_proof e)) -> StronglySorted qlt acc -> linked acc ->
  match acc with [] => True | e :: _ => p_chain (q_proof e) = Some lookup end ->
  (forall e, In e res -> good d lo H e) /\ StronglySorted qlt res /\ linked res.
Proof.
  intros W. induction n as [|n IH]; intros hi lookup acc res lo H Hn HH E A So L C.
  - cbn [down chain_loop] in E. injection E as <-. split; [intros e I; apply (A e I)|]. split; assumption.
  - cbn [down chain_loop] in E.
    destruct (N.ltb_spec (pi_round lookup) hi) as [Hl|Hl].
    { destruct n as [|n'].
      - cbn [down chain_loop] in E. injection E as <-. split; [intros e I; apply (A e I)|]. split; assumption.
      - eapply (IH (hi - 1) lookup acc res lo H); try eassumption; try lia.
        intros e I. destruct (A e I) as [G1 G2]. split; [exact G1|lia]. }
    destruct (N.eqb_spec hi (pi_round lookup)) as [Er|]; [|discriminate]. cbn [negb] in E.
    destruct (aget N.eqb hi (d_used d)) as [a|] eqn:Eu.
    { destruct (pi_author lookup =? a); [|discriminate]. destruct (bot <=? hi); [|discriminate].
      injection E as <-. split; [intros e I; apply (A e I)|]. split; assumption. }
    unfold chained_proof in E. destruct (ready_valid_point d lookup) as [proof| | |] eqn:Ep; try discriminate. cbn [bind] in E.
    destruct (ready_valid_in d lookup proof W Ep) as [Hp Hpi].
    destruct (p_is_proof proof) eqn:Eip; [|discriminate]. cbn [bind] in E.
    destruct (prev_id proof) as [ai|] eqn:Epr; [|discriminate].
    destruct n as [|n'].
    { cbn [down] in E. destruct (pi_round ai <=? d_bottom d); [|discriminate]. injection E as <-.
      split; [intros e I; apply (A e I)|]. split; assumption. }
    assert (Ed : down (S n') (hi - 1) = (hi - 1) :: down n' (hi - 1 - 1)) by reflexivity.
    rewrite Ed in E. rewrite <- Ed in E.
    destruct (N.eqb_spec (hi - 1) (pi_round ai)) as [Ea|]; [|discriminate]. cbn [negb] in E.
    destruct (ready_valid_point d ai) as [anchor| | |] eqn:Ean; try discriminate. cbn [bind] in E.
    destruct (ready_valid_in d ai anchor W Ean) as [Ha Hai].
    destruct (p_chain proof) as [l|] eqn:Ech; [|discriminate].
    eapply (IH (hi - 1) l _ res lo H); try eassumption; try lia.
    + intros e [<-|I].
      * cbn [q_proof]. split; [|unfold p_round; rewrite Hpi; lia]. constructor; cbn [q_proof q_anchor q_prev_proof].
        -- now rewrite Hpi.
        -- exact Eip.
        -- now rewrite Hai.
        -- now rewrite Hai.
        -- unfold p_round. rewrite Hpi, Hai. lia.
        -- unfold p_round. rewrite Hai. lia.
        -- unfold p_round. rewrite Hpi. lia.
        -- eauto.
      * destruct (A e I) as [G1 G2]. split; [exact G1|lia].
    + constructor; [exact So|]. apply Forall_forall. intros e I. unfold qlt. cbn [q_proof]. destruct (A e I) as [_ G2].
      unfold p_round at 1. rewrite Hpi. lia.
    + destruct acc as [|e2 acc]; cbn [linked]; [exact Logic.I|]. split; [cbn [q_proof]; now rewrite Hpi|exact L].
Qed.

(** how the walk ends: the last looked up proof id is below the range, or is the used proof of its round *)
Lemma chain_loop_end d bot :
  forall n hi lookup acc res lo,
  lo + N.of_nat (S n) = hi + 1 ->
  chain_loop d bot (down (S n) hi) lookup acc = Ok res ->
  match acc with [] => True | e :: _ => p_chain (q_proof e) = Some lookup end ->
  match res with
  | [] => True
  | e :: _ => exists l, p_chain (q_proof e) = Some l /\
                (lo <= pi_round l -> forall a, aget N.eqb (pi_round l) (d_used d) = Some a -> pi_author l = a)
  end.
Proof.
  induction n as [|n IH]; intros hi lookup acc res lo Hn E C.
  - cbn [down chain_loop] in E.
    destruct (N.ltb_spec (pi_round lookup) hi) as [Hl|Hl].
    { injection E as <-. destruct acc as [|e acc]; [exact Logic.I|]. exists lookup. split; auto. intros; lia. }
    destruct (N.eqb_spec hi (pi_round lookup)) as [Er|]; [|discriminate]. cbn [negb] in E.
    destruct (aget N.eqb hi (d_used d)) as [a|] eqn:Eu.
    { destruct (N.eqb_spec (pi_author lookup) a); [|discriminate]. destruct (bot <=? hi); [|discriminate].
      injection E as <-. destruct acc as [|e0 acc]; [exact Logic.I|]. exists lookup. split; auto. intros _ a' Ha. rewrite <- Er in Ha. congruence. }
    destruct (chained_proof d lookup) as [proof| | |] eqn:Ep; try discriminate. cbn [bind] in E.
    destruct (prev_id proof) as [ai|] eqn:Epr; [|discriminate].
    destruct (pi_round ai <=? d_bottom d); [|discriminate]. injection E as <-.
    destruct acc as [|e acc]; [exact Logic.I|]. exists lookup. split; auto. intros _ a' Ha. rewrite <- Er in Ha. congruence.
  - assert (Ed : down (S (S n)) hi = hi :: down (S n) (hi - 1)) by reflexivity. rewrite Ed in E. cbn [chain_loop] in E.
    destruct (N.ltb_spec (pi_round lookup) hi) as [Hl|Hl].
    { exact (IH (hi - 1) lookup acc res lo ltac:(lia) E C). }
    destruct (N.eqb_spec hi (pi_round lookup)) as [Er|]; [|discriminate]. cbn [negb] in E.
    destruct (aget N.eqb hi (d_used d)) as [a|] eqn:Eu.
    { destruct (N.eqb_spec (pi_author lookup) a); [|discriminate]. destruct (bot <=? hi); [|discriminate].
      injection E as <-. destruct acc as [|e0 acc]; [exact Logic.I|]. exists lookup. split; auto. intros _ a' Ha. rewrite <- Er in Ha. congruence. }
    destruct (chained_proof d lookup) as [proof| | |] eqn:Ep; try discriminate. cbn [bind] in E.
    destruct (prev_id proof) as [ai|] eqn:Epr; [|discriminate].
    assert (Ed2 : down (S n) (hi - 1) = (hi - 1) :: down n (hi - 1 - 1)) by reflexivity.
    rewrite Ed2 in E. rewrite <- Ed2 in E.
    destruct (negb (hi - 1 =? pi_round ai)); [discriminate|].
    destruct (ready_valid_point d ai) as [anchor| | |]; try discriminate. cbn [bind] in E.
    destruct (p_chain proof) as [l|] eqn:Ech; [|discriminate].
    exact (IH (hi - 1) l _ res lo ltac:(lia) E Ech).
Qed.

Definition base (d : dag) : N := match d_last d with Some p => p | None => d_bottom d end.

Lemma anchor_chain_spec d t chain : wf_pts d -> anchor_chain d t = Ok chain ->
  (forall e, In e chain -> good d (N.max (base d) (d_bottom d)) (d_top d) e) /\ StronglySorted qlt chain /\ linked chain /\
  match chain with
  | [] => True
  | e :: _ => exists l, p_chain (q_proof e) = Some l /\ pi_round l <= base d /\
        (N.max (base d) (d_bottom d) <= pi_round l -> forall a, aget N.eqb (pi_round l) (d_used d) = Some a -> pi_author l = a)
  end.
Proof.
  intros W E. unfold anchor_chain in E. fold (base d) in E.
  destruct (p_round t - 1 <? base d).
  { injection E as <-. split; [intros ? []|]. repeat constructor. }
  destruct (prev_id t) as [l|]; [|discriminate].
  destruct (chain_loop d (base d) (dag_range d (base d) (p_round t - 1)) l []) as [r| | |] eqn:L; try discriminate.
  cbn [bind] in E.
  assert (G : (forall e, In e r -> good d (N.max (base d) (d_bottom d)) (d_top d) e) /\ StronglySorted qlt r /\ linked r /\
     match r with [] => True | e :: _ => exists l, p_chain (q_proof e) = Some l /\
        (N.max (base d) (d_bottom d) <= pi_round l -> forall a, aget N.eqb (pi_round l) (d_used d) = Some a -> pi_author l = a) end).
  { unfold dag_range, rounds_desc in L. set (lo := N.max (base d) (d_bottom d)) in *. set (hi := N.min (p_round t - 1) (d_top d)) in *.
    destruct (N.le_gt_cases lo hi) as [Hc|Hc].
    - assert (Q : (forall e, In e r -> good d lo (d_top d) e) /\ StronglySorted qlt r /\ linked r).
      { eapply (chain_loop_spec d (base d) W (N.to_nat (hi + 1 - lo)) hi l [] r lo (d_top d)); try lia; try exact L; try constructor.
        all: contradiction. }
      destruct Q as (Q1 & Q2 & Q3). split; [exact Q1|]. split; [exact Q2|]. split; [exact Q3|].
      replace (N.to_nat (hi + 1 - lo)) with (S (N.to_nat (hi - lo))) in L by lia.
      eapply (chain_loop_end d (base d) (N.to_nat (hi - lo)) hi l [] r lo); [lia|exact L|exact Logic.I].
    - replace (N.to_nat (hi + 1 - lo)) with O in L by lia. cbn [down chain_loop] in L. injection L as <-.
      split; [intros ? []|]. repeat constructor. }
  destruct G as (G1 & G2 & G3 & G4). destruct r as [|e r]; [injection E as <-; split; [exact G1|]; repeat constructor|].
  destruct (N.leb_spec (q_prev_proof e) (base d)) as [Hq|]; [|discriminate]. injection E as <-.
  split; [exact G1|]. split; [exact G2|]. split; [exact G3|].
  destruct G4 as (l' & C1 & C2). exists l'. split; [exact C1|]. split; [|exact C2].
  destruct (go_chain _ _ _ _ (G1 e (or_introl eq_refl))) as (l2 & C3 & C4). congruence.
Qed.

(** ** Executions *)
Section Runs.
  Variable rng : Type.
  Variable seed : N -> rng.
  Variable shuffle : rng -> list (N * N) -> list (N * N) * rng.
  Variable horder : list (N * N) -> list (N * N).

  Local Notation step := (step rng seed shuffle horder).
  Local Notation dequeue_anchor := (dequeue_anchor rng seed shuffle horder).
  Local Notation dequeue_all := (dequeue_all rng seed shuffle horder).
  Local Notation gather := (gather_uncommitted rng seed shuffle horder).

  (** What may be stored in the DAG: a point version under its own id, with digests that bind authors *)
  Definition entry_ok (owner : N -> N) (i : pid) (e : entry) : Prop :=
    pi_author i = owner (pi_digest i) /\
    match e with
    | EValid p | ETransInvalid p _ _ =>
        p_id p = i /\ (forall a x, In (a, x) (p_includes p) \/ In (a, x) (p_witness p) -> a = owner x)
    | _ => True
    end.
  Definition env_points (owner : N -> N) (s : committer) (o : op) : Prop :=
    match o with OResolve i e => entry_ok owner i e | _ => True end.

  (** How the engine calls the committer: rounds are dropped upwards, [remove_committed] gets the round of
      an anchor already dequeued (its proof is one round above, at most the last committed proof), a reset
      jumps over a gap above every known round, and the first executable anchor is set past the rounds
      needed for a full history. *)
  Definition env_calls (c : conf) (s : committer) (o : op) : Prop :=
    let d := c_dag s in
    match o with
    | ODrop nb => d_bottom d <= nb
    | ORemove ar => match d_last d with Some l => ar < l | None => False end
    | OFirstExec r => d_bottom d + hist_rounds c <= r \/ d_bottom d <= genesis c + 1
    | OReset b => d_top d < b /\ (genesis c + hist_rounds c < b \/ hist_rounds c <= dedup_rounds c)
    | _ => True
    end.

  (** [runs c env s sent log]: the calls allowed by [env] lead from the start to [s]; [sent] are the anchors
      handed to the consumer and [log] all the dequeued ones, with the DAG bottom at that time *)
  Inductive runs (c : conf) (env : committer -> op -> Prop) : committer -> list adata -> list (N * adata) -> Prop :=
  | runs_start ga gap : runs c env (start c ga gap) [] []
  | runs_step s sent log o s' sent1 dq1 :
      runs c env s sent log -> env s o -> step c s o = Some (s', sent1, dq1) ->
      runs c env s' (sent ++ sent1) (log ++ map (pair (d_bottom (c_dag s))) dq1).

  Definition ids (a : adata) : list pid := map p_id (a_history a).
  Definition log_ids (log : list (N * adata)) : list pid := flat_map (fun x => ids (snd x)) log.

  Lemma log_ids_app l1 l2 : log_ids (l1 ++ l2) = log_ids l1 ++ log_ids l2.
  Proof. apply flat_map_app. Qed.

  Hypothesis shuffle_perm : forall g l, Permutation (fst (shuffle g l)) l.
  Hypothesis horder_perm : forall l, Permutation (horder l) l.

  (** ** Points and marks: needs nothing of the calls *)
  Record pinv (owner : N -> N) (d : dag) (marked : list pid) : Prop := {
    pi_wf : wf_pts d; pi_bind : binding owner d;
    pi_bt : d_bottom d <= d_top d;
    pi_marks : forall i, committed d i <-> In i marked;
    pi_held : forall i, committed d i -> exists p, holds d i p;
    pi_nd : NoDup marked }.

  Lemma mark_all_spec l : forall d d', mark_all d l = Ok d' ->
    d_bottom d' = d_bottom d /\ d_top d' = d_top d /\ d_pts d' = d_pts d /\ d_used d' = d_used d /\ d_last d' = d_last d /\
    (forall i, committed d' i <-> committed d i \/ In i (map p_id l)).
  Proof.
    induction l as [|p l IH]; intros d d'; cbn [mark_all].
    - intros [= <-]. do 5 (split; [reflexivity|]). intros i. cbn [map In]. tauto.
    - destruct (is_committed d (p_id p)); [discriminate|]. intros E. destruct (IH _ _ E) as (A & B & C & D & F & G).
      cbn [d_bottom d_top d_pts d_used d_last] in *. do 5 (split; [assumption|]). intros i. rewrite G. unfold committed.
      cbn [d_committed map In]. tauto.
  Qed.
  Lemma mark_all_ok l : forall d, NoDup (map p_id l) -> (forall p, In p l -> ~ committed d (p_id p)) -> exists d', mark_all d l = Ok d'.
  Proof.
    induction l as [|p l IH]; intros d ND H; cbn [mark_all]; [eauto|]. inversion ND; subst.
    assert (F : is_committed d (p_id p) = false) by (apply is_committed_false, H; now left). rewrite F.
    apply IH; auto. intros q Q [E|C].
    - apply H2. rewrite E. now apply in_map.
    - apply (H q); [now right|exact C].
  Qed.

  (** the part of the state [dequeue_anchor] starts from *)
  Lemma dequeue_spec owner c s e s' a marked lo :
    pinv owner (c_dag s) marked -> good (c_dag s) lo (d_top (c_dag s)) e -> d_bottom (c_dag s) <= lo ->
    dequeue_anchor c s e = Ok (s', a) ->
    let d := c_dag s in let d' := c_dag s' in let pr := p_round (q_proof e) in
    a_anchor a = q_anchor e /\ a_proof a = q_proof e /\
    gather c d (c_fhb s) (q_anchor e) = Ok (a_history a) /\
    d_bottom d' = d_bottom d /\ d_top d' = d_top d /\ d_pts d' = d_pts d /\
    d_used d' = aset N.eqb pr (pi_author (p_id (q_anchor e))) (d_used d) /\ d_last d' = Some pr /\
    aget N.eqb pr (d_used d) = None /\
    (match d_last d with None => True | Some l => l < pr end) /\
    (forall i, committed d' i <-> committed d i \/ In i (ids a)) /\
    a_executable a = (c_first_exec s <=? p_round (q_anchor e)) /\
    c_fhb s' = c_fhb s /\ c_first_exec s' = c_first_exec s /\
    (a_prev_anchor a = None \/ a_prev_anchor a = Some (q_prev_proof e - 1)) /\
    pinv owner d' (marked ++ ids a).
  Proof.
    intros P G Hlo E d d' pr. unfold DagModel.dequeue_anchor in E.
    destruct (gather_uncommitted rng seed shuffle horder c (c_dag s) (c_fhb s) (q_anchor e)) as [un| | |] eqn:Eg; try discriminate.
    cbn [bind] in E. fold d pr in E.
    destruct (match d_last d with None => true | Some l => l <? pr end) eqn:El; cbn [negb] in E; [|discriminate].
    destruct ((d_bottom d <=? pr) && (pr <=? d_top d)) eqn:Eb; cbn [negb] in E; [|discriminate].
    destruct (amem N.eqb pr (d_used d)) eqn:Eu; [discriminate|].
    match type of E with bind (mark_all ?D1 un) _ = _ => set (d1 := D1) in * end.
    destruct (mark_all d1 un) as [d2| | |] eqn:Em; try discriminate. cbn [bind] in E.
    destruct (mark_all_spec un d1 d2 Em) as (M1 & M2 & M3 & M4 & M5 & M6).
    assert (Es : c_dag s' = d2 /\ a_anchor a = q_anchor e /\ a_proof a = q_proof e /\ a_history a = un /\
       a_executable a = (c_first_exec s <=? p_round (q_anchor e)) /\ c_fhb s' = c_fhb s /\ c_first_exec s' = c_first_exec s /\
       (a_prev_anchor a = None \/ a_prev_anchor a = Some (q_prev_proof e - 1))).
    { destruct (c_gap s) as [[|]|]; [destruct (c_first_exec s <=? p_round (q_anchor e))|discriminate|]; injection E as <- <-;
        cbn [c_dag a_anchor a_proof a_history a_executable c_fhb c_first_exec a_prev_anchor]; do 7 (split; [reflexivity|]);
        try (now left); destruct (genesis c <? q_prev_proof e - 1); auto. }
    destruct Es as (S1 & S2 & S3 & S4 & S5 & S6 & S7 & S8).
    assert (Hbt : d_bottom d <= p_round (q_anchor e) <= d_top d).
    { pose proof (go_lo _ _ _ _ G); pose proof (go_hi _ _ _ _ G); pose proof (go_round _ _ _ _ G). unfold d. lia. }
    pose proof (gather_spec rng seed shuffle horder shuffle_perm horder_perm owner c d (c_fhb s) (q_anchor e) un
       (pi_bind _ _ _ P) (pi_wf _ _ _ P) (or_introl (go_anchor _ _ _ _ G)) Hbt Eg) as Gs.
    cbn zeta in Gs. destruct Gs as (G1 & G2 & G3 & G4 & G5 & G6 & G7).
    assert (Mk : forall i, committed d' i <-> committed d i \/ In i (ids a)).
    { intros i. unfold d', ids. rewrite S1, S4, M6. reflexivity. }
    split; [exact S2|]. split; [exact S3|]. split; [rewrite S4; exact Eg|].
    unfold d'. rewrite S1. split; [exact M1|]. split; [exact M2|]. split; [exact M3|]. split; [exact M4|]. split; [exact M5|].
    split. { unfold amem in Eu. destruct (aget N.eqb pr (d_used d)); [discriminate|reflexivity]. }
    split. { destruct (d_last d); [lia|exact Logic.I]. }
    rewrite <- S1. split; [exact Mk|]. split; [exact S5|]. split; [exact S6|]. split; [exact S7|]. split; [exact S8|].
    destruct P as [P1 P2 P3 P4 P5 P6].
    assert (Ep : d_pts (c_dag s') = d_pts (c_dag s)) by (rewrite S1; exact M3).
    assert (Hh : forall i p, holds (c_dag s') i p <-> holds (c_dag s) i p) by (intros; unfold holds; rewrite Ep; reflexivity).
    constructor.
    - destruct P1 as [W1 W2]. split; [rewrite Ep; exact W1|]. intros i p H. apply W2. now apply Hh.
    - destruct P2 as [B1 B2]. split; [rewrite Ep; exact B1|]. intros i p H. apply (B2 i p). now apply Hh.
    - rewrite S1, M1, M2. exact P3.
    - intros i. fold d'. rewrite Mk, in_app_iff. unfold d. rewrite P4. reflexivity.
    - intros i C. fold d' in C. apply Mk in C. destruct C as [C|C].
      + destruct (P5 i C) as (p & Hp). exists p. now apply Hh.
      + unfold ids in C. rewrite S4 in C. apply in_map_iff in C. destruct C as (p & <- & Ip). exists p. apply Hh. now apply G5.
    - unfold ids. rewrite S4. clear - P6 G3 G6 P4. induction marked as [|m ms IH] in P6, P4 |- * ; cbn [app].
      + exact G3.
      + apply NoDup_cons_iff in P6. destruct P6 as [N1 N2].
        assert (Q : forall i, In i ms -> committed (c_dag s) i) by (intros i Hi; apply P4; now right).
        assert (Qm : committed (c_dag s) m) by (apply P4; now left).
        clear P4. revert N1. clear IH. revert Q Qm N2. revert ms m.
        assert (Key : forall ms, (forall i, In i ms -> committed (c_dag s) i) -> NoDup ms -> NoDup (ms ++ map p_id un)).
        { induction ms as [|x ms IH]; cbn [app]; intros Q N; [exact G3|]. apply NoDup_cons_iff in N. destruct N as [Na Nb].
          constructor; [|apply IH; auto; intros; apply Q; now right]. intros I. apply in_app_iff in I. destruct I as [I|I]; [auto|].
          apply (G6 x) in I. destruct I as [_ NC]. apply NC. apply Q. now left. }
        intros ms m Q Qm N2 N1. constructor; [|now apply Key]. intros I. apply in_app_iff in I. destruct I as [I|I]; [auto|].
        apply (G6 m) in I. destruct I as [_ NC]. now apply NC.
  Qed.
End Runs.
