(** Broadcasting the own point and finishing a round: what the node relies on. *)
From Coq Require Import List Bool NArith Lia ZArith ZifyN ZifyNat ZifyBool Permutation.
From Verif Require Import PsModel PsThms PsPeers PeerCountModel BrModel BrInv.
Import ListNotations.
Local Open Scope N_scope.

(** No round and no continued broadcast ever panics. *)
Theorem round_never_panics v cur l y e rs : NoDup (v_signers v) ->
  (runs v cur round_start l y \/ runs v cur (old_point v rs) l y) -> enabled y e = true ->
  exists z, step v cur y e = Some z.
Proof.
  intros NS R EN.
  assert (I : yinv v y) by (destruct R as [R|R]; [eapply runs_yinv; [exact NS|apply start_yinv|exact R]|eapply runs_yinv; [exact NS|apply old_yinv|exact R]]).
  destruct (step_yinv v cur y e NS I EN) as (z & E & _). eauto.
Qed.

(** A peer has at most one query at a time, and is not queued for another one meanwhile. *)
Theorem one_query_per_peer v cur l y rs : NoDup (v_signers v) ->
  (runs v cur round_start l y \/ runs v cur (old_point v rs) l y) ->
  NoDup (b_bfut (y_bc y) ++ waiting (y_bc y) ++ b_speers (y_bc y)).
Proof.
  intros NS R.
  assert (I : yinv v y) by (destruct R as [R|R]; [eapply runs_yinv; [exact NS|apply start_yinv|exact R]|eapply runs_yinv; [exact NS|apply old_yinv|exact R]]).
  destruct (yi_b _ _ I) as [BF SF BS IN SN SP BN BP RN GN GV SG].
  assert (APP : forall (a b : list peer), NoDup a -> NoDup b -> (forall x, In x a -> ~ In x b) -> NoDup (a ++ b)).
  { intros a b HA HB D. induction HA as [|x a X HA IH]; [exact HB|]. cbn [app]. constructor.
    - rewrite in_app_iff. intros [Q|Q]; [contradiction|]. exact (D x (or_introl eq_refl) Q).
    - apply IH. intros z Z. apply D. right. exact Z. }
  apply APP; [exact BF| |].
  - apply APP; [exact SF|exact SN|]. intros p H Q. exact (SP p Q (proj2 (IN p) (or_intror H))).
  - intros p H Q. apply in_app_iff in Q as [Q|Q]; [exact (BS p H Q)|]. exact (SP p Q (proj2 (IN p) (or_introl H))).
Qed.

(** The signatures gathered so far, or returned as evidence. *)
Definition gathered (y : sys) : list (peer * N) := match y_evidence y with Some l => l | None => b_sigs (y_bc y) end.

(** Evidence is made of correct signatures of validators of the next round, one of each. *)
Theorem evidence_is_genuine v cur l y : NoDup (v_signers v) -> runs v cur round_start l y ->
  NoDup (map fst (gathered y)) /\
  forall p g, In (p, g) (gathered y) -> In p (v_signers v) /\ v_verify v p g = true.
Proof.
  intros NS R. pose proof (runs_yinv v cur _ l y NS (start_yinv v) R) as [B E EV EN]. unfold gathered.
  destruct (y_evidence y); [auto|]. split; [exact (i_gn _ _ B)|exact (i_gv _ _ B)].
Qed.

(** ** Facts about single steps of the broadcaster *)

Lemma sent_inflight v s s' l p : binv v s -> binv v s' -> sent s s' l ->
  (In p (b_inflight s') <-> In p (b_inflight s) \/ (In p l /\ ~ In p (b_removed s))).
Proof.
  intros I I' [T1 T2 T3 T4 T5 T6 T7]. rewrite (i_in _ _ I'), (i_in _ _ I), T7. unfold waiting. rewrite T6. tauto.
Qed.
Lemma asked_inflight v a s s' l p : binv v s -> binv v s' -> asked v a s s' l ->
  (In p (b_inflight s') <-> In p (b_inflight s) \/ (In p l /\ ~ In p (b_removed s) /\ In p (v_signers v))).
Proof.
  intros I I' [T1 T2 T3 T4 T5 T6 T7]. rewrite (i_in _ _ I'), (i_in _ _ I), T6. unfold waiting. rewrite !in_map_iff. split.
  - intros [H|((q & b) & E & H)]; [auto|]. cbn [fst] in E. subst q. apply T7 in H as [H|(_ & H)]; [|auto].
    left; right. exists (p, b). auto.
  - intros [[H|((q & b) & E & H)]|H]; [auto| |].
    + right. exists (q, b). split; [exact E|]. apply T7. auto.
    + right. exists (p, a). split; [reflexivity|]. apply T7. auto.
Qed.

(** where a peer can be *)
Definition known (s : bc) (p : peer) : Prop :=
  In p (b_inflight s) \/ In p (b_speers s) \/ In p (b_rej s) \/ In p (map fst (b_sigs s)).

Lemma sigs_sign s p g q : In q (map fst (b_sigs (sign s p g))) <-> q = p \/ In q (map fst (b_sigs s)).
Proof.
  cbn [sign b_sigs map fst In]. split.
  - intros [H|H]; [auto|]. apply in_map_iff in H as (e & E & H). apply filter_In in H as [H _]. right. rewrite <- E. apply in_map. exact H.
  - intros [H|H]; [auto|]. destruct (N.eq_dec q p) as [->|N]; [auto|]. right.
    apply in_map_iff in H as (e & E & H). apply in_map_iff. exists e. split; [exact E|]. apply filter_In. split; [exact H|].
    apply negb_true_iff, N.eqb_neq. intros X. apply N. rewrite <- E. exact X.
Qed.
Lemma sigs_length s p g : NoDup (map fst (b_sigs s)) -> (length (b_sigs s) <= length (b_sigs (sign s p g)))%nat.
Proof.
  intros N. cbn [sign b_sigs length]. revert N. induction (b_sigs s) as [|[a b] l IH]; intros N; [cbn; lia|].
  cbn [map fst] in N. inversion N as [|? ? N1 N2]; subst. cbn [filter fst]. destruct (N.eqb_spec a p) as [E|E]; cbn [negb].
  - subst a. assert (F : filter (fun e => negb (fst e =? p)) l = l).
    { clear - N1. induction l as [|[c d] l IH]; [reflexivity|]. cbn [filter fst map] in *. destruct (N.eqb_spec c p) as [E|E].
      - exfalso. apply N1. left. exact E.
      - cbn [negb]. rewrite IH; [reflexivity|]. intros H. apply N1. right. exact H. }
    rewrite F. cbn [length]. lia.
  - cbn [length]. specialize (IH N2). lia.
Qed.

(** what one broadcaster step does to a peer other than [p], and to [p] *)
Record local (v : env) (s s' : bc) (p : peer) : Prop := {
  lo_other : forall q, q <> p -> (In q (b_inflight s') <-> In q (b_inflight s)) /\ (In q (b_speers s') <-> In q (b_speers s)) /\
               (In q (b_rej s') <-> In q (b_rej s)) /\ (In q (map fst (b_sigs s')) <-> In q (map fst (b_sigs s)));
  lo_sigs : (length (b_sigs s) <= length (b_sigs s'))%nat;
  lo_signed : forall q, In q (map fst (b_sigs s)) -> In q (map fst (b_sigs s')) }.

Lemma bcast_local v s p r s' : binv v s -> b_bpeers s = [] -> In p (b_bfut s) -> match_broadcast_result v s p r = Some s' ->
  local v s s' p /\ (In p (v_signers v) -> ~ In p (b_removed s) -> known s' p) /\
  (In p (b_inflight s') -> ~ In p (b_removed s) /\ ~ In p (b_rej s' ) \/ In p (b_rej s)) /\
  b_sigs s' = b_sigs s /\
  (~ In p (b_rej s) -> (In p (b_rej s') -> ~ In p (b_inflight s') /\ ~ In p (b_speers s')) /\ (In p (b_speers s') -> ~ In p (b_inflight s'))).
Proof.
  intros I BE P. destruct (landed_b_ok v s p I P) as (IL & NI & NS & M).
  unfold match_broadcast_result. rewrite M. fold (landed_b s p).
  assert (DL : forall q, q <> p -> (In q (del p (b_inflight s)) <-> In q (b_inflight s))).
  { intros q Q. rewrite in_del. tauto. }
  assert (DP : ~ In p (del p (b_inflight s))) by (rewrite in_del; tauto).
  destruct r.
  - intros [= <-]. split; [constructor|].
    + intros q Q. cbn [reject landed_b b_inflight b_speers b_rej b_sigs]. rewrite (DL q Q), in_add. tauto.
    + reflexivity.
    + auto.
    + cbn [reject landed_b b_inflight b_speers b_rej b_sigs b_removed]. split; [|split; [|split]].
      * intros _ _. right; right; left. cbn [b_rej]. apply in_add. auto.
      * intros Q. contradiction.
      * reflexivity.
      * intros _. split; [|intros; assumption]. intros _. split; assumption.
  - intros [= <-]. split; [constructor|].
    + intros q Q. cbn [enqueue landed_b b_inflight b_speers b_rej b_sigs]. rewrite (DL q Q), in_add. tauto.
    + reflexivity.
    + auto.
    + cbn [enqueue landed_b b_inflight b_speers b_rej b_sigs b_removed]. split; [|split; [|split]].
      * intros _ _. right; left. cbn [b_speers]. apply in_add. auto.
      * intros Q. contradiction.
      * reflexivity.
      * intros NR. split; [intros Q; contradiction|]. intros _. exact DP.
  - intros E. destruct (request_ok v true (landed_b s p) p IL NI NS) as (s2 & E2 & I2 & A & _).
    { cbn [landed_b b_bpeers]. rewrite BE. auto. }
    rewrite E2 in E. injection E as <-. pose proof (fun q => asked_inflight v true (landed_b s p) s2 [p] q IL I2 A) as AI.
    destruct A as [T1 T2 T3 T4 T5 T6 T7]. cbn [landed_b b_removed b_rej b_sigs b_speers b_inflight] in *.
    split; [constructor|].
    + intros q Q. rewrite AI, T4, T2, T3, (DL q Q). cbn [In]. split; [|tauto]. split; [|auto]. intros [H|([H|[]] & _)]; [exact H|congruence].
    + rewrite T3. lia.
    + rewrite T3. auto.
    + split; [|split; [|split]].
      * intros S R. left. apply AI. right. cbn [In]. auto.
      * intros Q. apply AI in Q as [Q|(_ & Q & _)]; [contradiction|]. rewrite T2. destruct (in_dec N.eq_dec p (b_rej s)); auto.
      * exact T3.
      * intros NR. rewrite T2, T4. split; [intros; contradiction|intros; contradiction].
Qed.

Lemma sig_local v s p a r s' : binv v s -> b_bpeers s = [] -> In p (waiting s) -> match_signature_result v s p a r = Some s' ->
  local v s s' p /\ (~ In p (b_removed s) -> known s' p) /\
  (~ In p (b_rej s) -> ~ In p (map fst (b_sigs s)) ->
     (In p (b_inflight s') -> ~ In p (b_rej s') /\ ~ In p (map fst (b_sigs s'))) /\
     (In p (b_speers s') -> ~ In p (b_inflight s') /\ ~ In p (b_rej s') /\ ~ In p (map fst (b_sigs s'))) /\
     (In p (b_rej s') -> ~ In p (map fst (b_sigs s')))) /\
  (~ In p (b_removed s) \/ ~ In p (b_inflight s')).
Proof.
  intros I BE P. destruct (landed_s_ok v s p I P) as (IL & NI & NS & M).
  pose proof (i_sg _ _ I p P) as PS. apply mem_In in PS.
  unfold match_signature_result. rewrite M. fold (landed_s s p).
  assert (DL : forall q, q <> p -> (In q (del p (b_inflight s)) <-> In q (b_inflight s))).
  { intros q Q. rewrite in_del. tauto. }
  assert (DP : ~ In p (del p (b_inflight s))) by (rewrite in_del; tauto).
  assert (REJ : forall s', Some (reject (landed_s s p) p) = Some s' ->
    local v s s' p /\ (~ In p (b_removed s) -> known s' p) /\
    (~ In p (b_rej s) -> ~ In p (map fst (b_sigs s)) ->
       (In p (b_inflight s') -> ~ In p (b_rej s') /\ ~ In p (map fst (b_sigs s'))) /\
       (In p (b_speers s') -> ~ In p (b_inflight s') /\ ~ In p (b_rej s') /\ ~ In p (map fst (b_sigs s'))) /\
       (In p (b_rej s') -> ~ In p (map fst (b_sigs s')))) /\
    (~ In p (b_removed s) \/ ~ In p (b_inflight s'))).
  { intros z [= <-]. split; [constructor|].
    - intros q Q. cbn [reject landed_s b_inflight b_speers b_rej b_sigs]. rewrite (DL q Q), in_add. tauto.
    - reflexivity.
    - auto.
    - cbn [reject landed_s b_inflight b_speers b_rej b_sigs b_removed]. split; [|split].
      + intros _. right; right; left. cbn [b_rej]. apply in_add. auto.
      + intros NR NG. split; [intros Q; contradiction|]. split; [intros Q; contradiction|]. auto.
      + right. exact DP. }
  assert (ENQ : forall s', Some (enqueue (landed_s s p) p) = Some s' ->
    local v s s' p /\ (~ In p (b_removed s) -> known s' p) /\
    (~ In p (b_rej s) -> ~ In p (map fst (b_sigs s)) ->
       (In p (b_inflight s') -> ~ In p (b_rej s') /\ ~ In p (map fst (b_sigs s'))) /\
       (In p (b_speers s') -> ~ In p (b_inflight s') /\ ~ In p (b_rej s') /\ ~ In p (map fst (b_sigs s'))) /\
       (In p (b_rej s') -> ~ In p (map fst (b_sigs s')))) /\
    (~ In p (b_removed s) \/ ~ In p (b_inflight s'))).
  { intros z [= <-]. split; [constructor|].
    - intros q Q. cbn [enqueue landed_s b_inflight b_speers b_rej b_sigs]. rewrite (DL q Q), in_add. tauto.
    - reflexivity.
    - auto.
    - cbn [enqueue landed_s b_inflight b_speers b_rej b_sigs b_removed]. split; [|split].
      + intros _. right; left. cbn [b_speers]. apply in_add. auto.
      + intros NR NG. split; [intros Q; contradiction|]. split; [auto|]. intros Q; contradiction.
      + right. exact DP. }
  destruct r as [| |g| | |].
  - apply REJ.
  - apply ENQ.
  - rewrite PS. destruct (v_verify v p g) eqn:V; [|apply REJ]. intros [= <-]. split; [constructor|].
    + intros q Q. rewrite sigs_sign. cbn [sign landed_s b_inflight b_speers b_rej b_sigs]. rewrite (DL q Q). tauto.
    + apply (sigs_length (landed_s s p) p g). exact (i_gn _ _ I).
    + intros q Q. apply sigs_sign. right. exact Q.
    + split; [|split].
      * intros _. right; right; right. apply sigs_sign. auto.
      * intros NR NG. cbn [sign landed_s b_inflight b_speers b_rej]. split; [intros Q; contradiction|].
        split; [intros Q; contradiction|]. intros Q; contradiction.
      * right. exact DP.
  - destruct a; [apply ENQ|]. intros E.
    destruct (broadcast_ok v (landed_s s p) p IL NI NS) as (s2 & E2 & I2 & A & _).
    { cbn [landed_s b_bpeers]. rewrite BE. auto. }
    rewrite E2 in E. injection E as <-. pose proof (fun q => sent_inflight v (landed_s s p) s2 [p] q IL I2 A) as AI.
    destruct A as [T1 T2 T3 T4 T5 T6 T7]. cbn [landed_s b_removed b_rej b_sigs b_speers b_inflight] in *.
    split; [constructor|].
    + intros q Q. rewrite AI, T4, T2, T3, (DL q Q). cbn [In]. split; [|tauto]. split; [|auto]. intros [H|([H|[]] & _)]; [exact H|congruence].
    + rewrite T3. lia.
    + rewrite T3. auto.
    + split; [|split].
      * intros R. left. apply AI. right. cbn [In]. auto.
      * intros NR NG. rewrite T2, T3, T4. split; [auto|]. split; [intros; contradiction|intros; contradiction].
      * destruct (in_dec N.eq_dec p (b_removed s)) as [D|D]; [right|left; exact D].
        intros Q. apply AI in Q as [Q|(_ & Q)]; contradiction.
  - apply ENQ.
  - rewrite PS. apply REJ.
Qed.
