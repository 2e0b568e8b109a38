(** What the limits of a peer promise over a history. *)
From Coq Require Import List Bool NArith Lia Sorted ZArith ZifyN ZifyNat ZifyBool.
From Verif Require Import TbModel TbBucket TbLimits.
Import ListNotations.
Local Open Scope N_scope.

Definition is_granted (a : answer) : bool := match a with Granted _ => true | _ => false end.
(** the answers to the calls of a kind *)
Definition answers (k : kind) (cs : list (kind * N * answer)) : list answer := map snd (filter (fun e => same_kind (fst (fst e)) k) cs).
(** an answer of the receiver and the verdict of the bucket *)
Definition fits (a : answer) (v : verdict) : Prop := (a = Hard_ <-> v = HardReject) /\ (is_granted a = true -> v = Pass) /\ (v = SoftReject -> a = Soft_).
(** an answer of the sender and the answer of the bucket *)
Definition fits_sender (a : answer) (b : bool) : Prop := a <> Soft_ /\ (is_granted a = true -> b = true).

Lemma answers_snoc k cs k1 now a : answers k (cs ++ [(k1, now, a)]) = answers k cs ++ (if same_kind k1 k then [a] else []).
Proof. unfold answers. rewrite filter_app, map_app. cbn [filter fst snd]. destruct (same_kind k1 k); reflexivity. Qed.

Lemma note_other p h e a : match e with ECall _ q _ => q <> p | ERemove ps => existsb (N.eqb p) ps = false | EDrop _ => True end -> note p h (e, a) = h.
Proof. destruct e as [k q now|o|ps]; cbn [note]; intros H; [|reflexivity|rewrite H; reflexivity]. destruct a; [|reflexivity]. rewrite (proj2 (N.eqb_neq q p) H). reflexivity. Qed.

(** induction over the history of one peer *)
Lemma history_ind d u lc p (P : N -> list (kind * N * answer) -> Prop) : side_ok d u -> cap u lc <= 255 ->
  (forall t0, P t0 []) ->
  (forall l x k now a x' t0 cs e, runs d u lc l x -> pinv (cap u lc) x -> enabled u x (ECall k p now) = true -> step d lc x (ECall k p now) = (x', Some a) -> 
     agrees d u lc t0 cs e -> (lookup p (l_map x) = Some e \/ lookup p (l_map x) = None /\ e = En (soft_new now (lc_bcast lc)) (soft_new now (lc_sig lc)) (l_next x) 0) ->
     P t0 cs -> P t0 (cs ++ [(k, now, a)])) ->
  forall l x t0 cs, runs d u lc l x -> history p l = Some (t0, cs) -> P t0 cs.
Proof.
  intros SO N255 P0 PS l x t0 cs R. revert t0 cs. induction R as [|l x e x' a R IH EN ST]; intros t0 cs H; [discriminate|].
  assert (HI : history p (l ++ [(e, a)]) = note p (history p l) (e, a)) by (unfold history; rewrite fold_left_app; reflexivity). rewrite HI in H.
  pose proof (step_answer _ _ _ _ _ _ ST) as SA. destruct e as [k q now|o|ps].
  - destruct (N.eq_dec q p) as [Q|Q]; [|rewrite note_other in H by exact Q; exact (IH t0 cs H)]. subst q. destruct SA as (v & ->).
    destruct (runs_inv d u lc l x SO N255 R) as [V HV]. specialize (HV p). cbn [note] in H. rewrite N.eqb_refl in H. destruct (history p l) as [[t1 c1]|] eqn:HP.
    + injection H as <- <-. destruct (lookup p (l_map x)) as [e|] eqn:L; [|contradiction]. exact (PS l x k now v x' t1 c1 e R V EN ST (proj1 HV) (or_introl L) (IH t1 c1 eq_refl)).
    + injection H as <- <-. destruct (lookup p (l_map x)) as [e|] eqn:L; [contradiction|].
      exact (PS l x k now v x' now [] _ R V EN ST (agrees_new d u lc now (l_next x)) (or_intror (conj L eq_refl)) (P0 now)).
  - exact (IH t0 cs H).
  - cbn [note] in H. destruct (existsb (N.eqb p) ps); [discriminate|exact (IH t0 cs H)].
Qed.

Lemma fits_of a v (X : Prop) : match a with Granted _ => v = Pass | Soft_ => v = SoftReject \/ v = Pass /\ X | Hard_ => v = HardReject end -> fits a v.
Proof.
  unfold fits. destruct a; cbn [is_granted].
  - intros ->. split; [split; discriminate|]. split; [auto|discriminate].
  - intros [-> |[-> _]]; (split; [split; discriminate|]; split; [discriminate|auto]).
  - intros ->. split; [tauto|]. split; discriminate.
Qed.

Section Receiver.
  Variable lc : lconf.
  Hypothesis CAP : lc_permits lc <= 255.

  (** The receiver answers as one soft bucket for each kind of calls of each peer, whatever others
      do; what the bucket passes is granted or, if all permits of the peer are held, rejected softly. *)
  Theorem receiver_answers l x p t0 cs k : runs Receiver false lc l x -> history p l = Some (t0, cs) -> k <> Upload ->
    Forall2 fits (answers k cs) (soft_run (cfg_of lc k) t0 (instants k cs)).
  Proof.
    intros R H K. revert R H. apply (history_ind Receiver false lc p (fun t0 cs => Forall2 fits (answers k cs) (soft_run (cfg_of lc k) t0 (instants k cs)))); clear t0 cs.
    - discriminate.
    - exact CAP.
    - intros t0. constructor.
    - intros l0 x0 k1 now a x' t0 cs e R V EN ST AG LE IH. rewrite answers_snoc, instants_snoc. destruct (same_kind k1 k) eqn:SK; [|rewrite !app_nil_r; exact IH].
      assert (k1 = k) by (destruct k1, k; try discriminate; reflexivity). subst k1. unfold soft_run in *. rewrite run_last. apply Forall2_app; [exact IH|]. constructor; [|constructor].
      destruct (call_facts Receiver false lc k p now x0 a x' EN ltac:(discriminate) V ST) as (e1 & e' & E1 & _ & _ & _ & _ & E6 & E7).
      assert (e1 = e) by (destruct E1 as [E1|[E1 ->]], LE as [LE|[LE ->]]; congruence). subst e1.
      unfold agrees in AG. destruct (proj1 AG eq_refl) as [B1 B2]. destruct k; cbn [cfg_of]; [| |contradiction].
      + destruct E7 as (_ & _ & _ & E7). rewrite <- B1. exact (fits_of a _ _ E7).
      + destruct E7 as (_ & _ & _ & E7). rewrite <- B2. exact (fits_of a _ _ E7).
  Qed.

  Lemma hard_in k cs vs : Forall2 fits (answers k cs) vs -> forall now, In (k, now, Hard_) cs -> In HardReject vs.
  Proof.
    intros F now IN. assert (IA : In Hard_ (answers k cs)).
    { unfold answers. apply in_map_iff. exists (k, now, Hard_). split; [reflexivity|]. apply filter_In. split; [exact IN|]. destruct k; reflexivity. }
    clear IN. revert IA. induction F as [|a v l m FV F IH]; [intros []|]. intros [E|H]; [left; exact (proj1 (proj1 FV) E)|right; exact (IH H)].
  Qed.

  (** A peer whose calls within any window are within tokens plus soft rejections is never rejected hard. *)
  Theorem receiver_never_bans_within_the_limit l x p t0 cs k : runs Receiver false lc l x -> history p l = Some (t0, cs) -> k <> Upload ->
    0 < tokens (cfg_of lc k) -> 0 < window (cfg_of lc k) -> sorted (t0 :: instants k cs) ->
    (forall t, count (within t (window (cfg_of lc k))) (instants k cs) <= tokens (cfg_of lc k) + soft_rejects (cfg_of lc k)) ->
    forall now, ~ In (k, now, Hard_) cs.
  Proof.
    intros R H K TP WP S W now IN. pose proof (hard_in k cs _ (receiver_answers l x p t0 cs k R H K) now IN) as IH.
    exact (never_banned_within_the_limit (cfg_of lc k) t0 (instants k cs) TP WP S W _ IH eq_refl).
  Qed.

  (** A call within the rate is rejected only if all the permits of the peer are held. *)
  Theorem receiver_grants_within_the_rate l x p k now x' a t0 cs : runs Receiver false lc l x -> enabled false x (ECall k p now) = true ->
    step Receiver lc x (ECall k p now) = (x', Some a) -> history p (l ++ [(ECall k p now, Some a)]) = Some (t0, cs) ->
    0 < tokens (cfg_of lc k) -> 0 < window (cfg_of lc k) -> 1 <= lc_permits lc -> sorted (t0 :: instants k cs) ->
    (forall t, count (within t (window (cfg_of lc k))) (instants k cs) <= tokens (cfg_of lc k)) ->
    is_granted a = true \/ a = Soft_ /\ exists e, lookup p (l_map x) = Some e /\ held (e_obj e) x = lc_permits lc.
  Proof.
    intros R EN ST H TP WP P1 S W. cbn [enabled] in EN. destruct (runs_inv Receiver false lc l x ltac:(discriminate) CAP R) as [V HV].
    assert (R' : runs Receiver false lc (l ++ [(ECall k p now, Some a)]) x') by (econstructor; eauto).
    destruct (call_history Receiver false lc l x k p now a x' ltac:(discriminate) CAP R EN ST) as (t1 & c1 & e & e' & H1 & AG & LE & _). rewrite H1 in H. injection H as <- <-.
    pose proof (always_passes_within_the_rate (cfg_of lc k) t1 _ TP WP S W) as AP. rewrite instants_snoc in AP. replace (same_kind k k) with true in AP by (destruct k; reflexivity). unfold bucket_run in AP. rewrite pass_last in AP.
    specialize (AP _ ltac:(apply in_app_iff; right; left; reflexivity)).
    destruct (call_facts Receiver false lc k p now x a x' EN ltac:(discriminate) V ST) as (e1 & e2 & E1 & _ & _ & _ & _ & E6 & E7).
    assert (PB : forall c s, fst (allows c now (allow_after c s (instants k c1))) = Pass <-> fst (passes c now (pass_after c (s_bucket s) (instants k c1))) = true).
    { intros c s. assert (X : s_bucket (allow_after c s (instants k c1)) = pass_after c (s_bucket s) (instants k c1)).
      { clear. generalize (instants k c1) as m. intros m. revert s. induction m as [|y m IH]; intros s; cbn [allow_after pass_after]; [reflexivity|]. rewrite IH. f_equal. unfold allows. destruct (passes c y (s_bucket s)) as [[] b]; [reflexivity|]. destruct (_ <? _); reflexivity. }
      unfold allows. rewrite X. destruct (passes c now _) as [[] b]; [tauto|]. destruct (_ <? _); cbn [fst]; split; discriminate. }
    assert (NH : held (e_obj e1) x = lc_permits lc -> 1 <= lc_permits lc -> lookup p (l_map x) = Some e1).
    { intros HE _. destruct E1 as [E1|[E1 ->]]; [exact E1|]. cbn [e_obj] in HE. destruct (proj2 (p_left _ _ V (l_next x)) (N.le_refl _)) as [_ Z]. lia. }
    assert (AG1 : agrees Receiver false lc t1 c1 e1).
    { destruct LE as [[LE1 LE2]|(LE1 & -> & -> & LE2 & _)]; [destruct E1 as [E1|[E1 ->]]; congruence|]. destruct E1 as [E1|[E1 ->]]; [congruence|]. apply agrees_new. }
    unfold agrees in AG1. destruct (proj1 AG1 eq_refl) as [B1 B2].
    destruct k; cbn [cfg_of] in *; [| |discriminate EN]; destruct E7 as (_ & _ & _ & E7); rewrite ?B1, ?B2 in E7; (rewrite (proj2 (PB _ _)) in E7 by exact AP);
      (destruct a as [o| |]; [left; reflexivity|right; split; [reflexivity|]; destruct E7 as [E7|[_ E7]]; [discriminate|]; exists e1; split; [exact (NH E7 P1)|exact E7]|discriminate]).
  Qed.
End Receiver.

  (** the instants of the granted calls *)
  Definition sent (k : kind) (cs : list (kind * N * answer)) : list N := instants k (granted cs).
  Lemma sent_passed k cs r : length r = length (instants k cs) -> Forall2 fits_sender (answers k cs) r ->
    (forall f, count f (sent k cs) <= count f (passed (instants k cs) r)) /\ (forall y, In y (sent k cs) -> In y (instants k cs)) /\ (sorted (instants k cs) -> sorted (sent k cs)).
  Proof.
    revert r. induction cs as [|[[k1 now] a] cs IH]; intros r LEN F.
    - split; [|split]; auto. intros f. cbn. apply N.le_0_l.
    - unfold sent, granted, instants, answers in *. cbn [filter fst snd map] in *. destruct (same_kind k1 k) eqn:SK.
      + cbn [map fst snd] in *. inversion F as [|? b ? r' F1 F2]; subst. cbn [length] in LEN. destruct (IH r' ltac:(lia) F2) as (I1 & I2 & I3). cbn [passed]. destruct a; cbn [is_granted] in F1; cbn [filter fst snd map].
        * destruct F1 as [_ F1]. rewrite (F1 eq_refl). cbn [filter fst snd]. rewrite SK. cbn [map fst snd]. split; [intros f; rewrite !count_cons; pose proof (I1 f); lia|]. split; [intros y [<-|H]; [left; reflexivity|right; auto]|].
          intros S. inversion S as [|? ? S1 S2]; subst. constructor; [exact (I3 S1)|]. rewrite Forall_forall in *. auto.
        * split; [intros f; destruct b; rewrite ?count_cons; pose proof (I1 f); destruct (f now); lia|]. split; [intros y H; right; auto|]. intros S. inversion S; subst. auto.
        * split; [intros f; destruct b; rewrite ?count_cons; pose proof (I1 f); destruct (f now); lia|]. split; [intros y H; right; auto|]. intros S. inversion S; subst. auto.
      + destruct (IH r LEN F) as (I1 & I2 & I3). destruct a; cbn [filter fst snd]; rewrite ?SK; auto.
  Qed.

Section Sender.
  Variable lc : lconf.
  Hypothesis CAP : lc_permits lc <= 255.

  Theorem sender_answers l x p t0 cs k : runs Sender false lc l x -> history p l = Some (t0, cs) -> k <> Upload ->
    Forall2 fits_sender (answers k cs) (bucket_run (cfg_of lc k) t0 (instants k cs)).
  Proof.
    intros R H K. revert R H. apply (history_ind Sender false lc p (fun t0 cs => Forall2 fits_sender (answers k cs) (bucket_run (cfg_of lc k) t0 (instants k cs)))); clear t0 cs.
    - intros _. reflexivity.
    - exact CAP.
    - intros t0. constructor.
    - intros l0 x0 k1 now a x' t0 cs e R V EN ST AG LE IH. rewrite answers_snoc, instants_snoc. destruct (same_kind k1 k) eqn:SK; [|rewrite !app_nil_r; exact IH].
      assert (k1 = k) by (destruct k1, k; try discriminate; reflexivity). subst k1. unfold bucket_run in *. rewrite pass_last. apply Forall2_app; [exact IH|]. constructor; [|constructor].
      destruct (call_facts Sender false lc k p now x0 a x' EN ltac:(intros _; exact K) V ST) as (e1 & e' & E1 & _ & _ & _ & _ & E6 & E7).
      assert (e1 = e) by (destruct E1 as [E1|[E1 ->]], LE as [LE|[LE ->]]; congruence). subst e1.
      unfold agrees in AG. destruct AG as [B1 B2]. unfold fits_sender. destruct k; cbn [cfg_of]; [| |contradiction]; destruct E7 as (_ & _ & E7); rewrite <- ?B1, <- ?B2; destruct a; cbn [is_granted]; (split; [try discriminate; try contradiction|try discriminate; auto]).
  Qed.

  (** The sender sends at most twice the tokens within any window. *)
  Theorem sender_keeps_the_rate l x p t0 cs k t : runs Sender false lc l x -> history p l = Some (t0, cs) -> k <> Upload ->
    sorted (instants k cs) -> count (within t (window (cfg_of lc k))) (sent k cs) <= 2 * tokens (cfg_of lc k).
  Proof.
    intros R H K S. pose proof (sender_answers l x p t0 cs k R H K) as F. destruct (sent_passed k cs _ ltac:(apply pass_run_len) F) as (I1 & _).
    pose proof (I1 (within t (window (cfg_of lc k)))). pose proof (at_most_twice_the_tokens (cfg_of lc k) t0 (instants k cs) t S). unfold bucket_run in *. lia.
  Qed.
End Sender.

(** Nodes with the same configuration: if the receiver gets what the sender's limits let through,
    each after the same delay, and neither forgets the other, then it never rejects hard. *)
Theorem honest_peers_do_not_ban lc ls xs q t0 cs lr xr p t1 cr k d : lc_permits lc <= 255 -> k <> Upload ->
  0 < tokens (cfg_of lc k) -> 0 < window (cfg_of lc k) -> tokens (cfg_of lc k) <= soft_rejects (cfg_of lc k) ->
  runs Sender false lc ls xs -> history q ls = Some (t0, cs) -> sorted (instants k cs) ->
  runs Receiver false lc lr xr -> history p lr = Some (t1, cr) -> instants k cr = map (fun y => y + d) (sent k cs) -> (forall y, In y (instants k cr) -> t1 <= y) ->
  forall now, ~ In (k, now, Hard_) cr.
Proof.
  intros CAP K TP WP TS RS HS SS RR HR E T1. pose proof (sent_passed k cs _ ltac:(apply pass_run_len) (sender_answers lc CAP ls xs q t0 cs k RS HS K)) as (_ & _ & I3).
  assert (RATE : forall u, count (within u (window (cfg_of lc k))) (sent k cs) <= 2 * tokens (cfg_of lc k)) by (intros u; exact (sender_keeps_the_rate lc CAP ls xs q t0 cs k u RS HS K SS)).
  apply (receiver_never_bans_within_the_limit lc CAP lr xr p t1 cr k RR HR K TP WP).
  - constructor; [|rewrite Forall_forall; exact T1]. rewrite E. specialize (I3 SS). clear - I3. induction (sent k cs) as [|a m IH]; cbn [map]; [constructor|]. inversion I3 as [|? ? S1 S2]; subst. constructor; [apply IH, S1|]. rewrite Forall_forall in *. intros y H. apply in_map_iff in H as (z & <- & H). pose proof (S2 z H). lia.
  - intros t. rewrite E. destruct (N.le_gt_cases d t) as [C|C]; [rewrite count_shift by exact C; pose proof (RATE (t - d)); lia|].
    assert (LE : count (within t (window (cfg_of lc k))) (map (fun y => y + d) (sent k cs)) <= count (within d (window (cfg_of lc k))) (map (fun y => y + d) (sent k cs))).
    { clear - C. induction (sent k cs) as [|a m IH]; cbn [map]; [unfold count; cbn; lia|]. rewrite !count_cons. unfold within at 1 3. destruct ((t <=? a + d) && (a + d <? t + window (cfg_of lc k))) eqn:E1; destruct ((d <=? a + d) && (a + d <? d + window (cfg_of lc k))) eqn:E2; lia. }
    rewrite (count_shift d d) in LE by lia. pose proof (RATE (d - d)). lia.
Qed.

(** The configurations of broadcasts and signatures meet the conditions. *)
Theorem real_configurations a r p : 0 < a -> 0 < r -> let lc := LC (bcast_config a r) (sig_config a r) 2 p in
  forall k, k <> Upload -> 0 < tokens (cfg_of lc k) /\ 0 < window (cfg_of lc k) /\ tokens (cfg_of lc k) = soft_rejects (cfg_of lc k) /\ lc_permits lc <= 255.
Proof. intros A R. cbn zeta. intros k K. destruct k; cbn; nia. Qed.

(** ** Uploads *)

(** A download query is served exactly if fewer than the configured number of the peer's queries are
    being served; it is rejected hard exactly if not served and that many were rejected since the last was served. *)
Theorem upload_answers lc l x p now x' a : lc_upload lc <= 255 -> 1 <= lc_upload lc -> runs Receiver true lc l x -> step Receiver lc x (ECall Upload p now) = (x', Some a) ->
  let busy := match lookup p (l_map x) with Some e => held (e_obj e) x | None => 0 end in
  let past := match history p l with Some (_, cs) => cs | None => [] end in
  (is_granted a = true <-> busy < lc_upload lc) /\
  (a = Hard_ <-> busy = lc_upload lc /\ lc_upload lc <= N.of_nat (length (since_grant (rev past)))).
Proof.
  intros CAP P1 R ST busy past. destruct (runs_inv Receiver true lc l x ltac:(discriminate) CAP R) as [V HV]. specialize (HV p).
  destruct (call_facts Receiver true lc Upload p now x a x' eq_refl ltac:(discriminate) V ST) as (e & e' & E1 & _ & _ & _ & _ & E6 & _ & _ & E7).
  assert (BE : busy = held (e_obj e) x).
  { unfold busy. destruct E1 as [E1|[E1 ->]]; rewrite E1; [reflexivity|]. cbn [e_obj]. destruct (proj2 (p_left _ _ V (l_next x)) (N.le_refl _)) as [_ Z]. lia. }
  assert (RE : e_rej e = N.min (lc_upload lc) (N.of_nat (length (since_grant (rev past))))).
  { unfold past. destruct E1 as [E1|[E1 ->]]; rewrite E1 in HV; destruct (history p l) as [[t0 cs]|]; try contradiction; [apply (proj2 (proj1 HV)); reflexivity|cbn; lia]. }
  rewrite BE. cbn [cap] in *. destruct a as [o| |]; cbn [is_granted].
  - destruct E6 as [[_ E6]|[E6|E6]]; try discriminate. split; [split; auto|]. split; [discriminate|lia].
  - destruct E7 as (Q1 & Q2 & _). split; [split; [discriminate|lia]|]. split; [discriminate|]. intros [_ Q]. lia.
  - destruct E7 as (Q1 & Q2 & _). split; [split; [discriminate|lia]|]. split; [intros _; split; [exact Q1|lia]|reflexivity].
Qed.

(** ** Concrete limits *)

Definition ex_lc : lconf := LC (bcast_config 1 1) (sig_config 1 1) 2 1.
Fixpoint go (d : side) (lc : lconf) (x : limits) (l : list event) : list (event * option answer) * limits :=
  match l with [] => ([], x) | e :: r => let '(x1, a) := step d lc x e in let '(h, x2) := go d lc x1 r in ((e, a) :: h, x2) end.
Fixpoint all_enabled (d : side) (u : bool) (lc : lconf) (x : limits) (l : list event) : bool :=
  match l with [] => true | e :: r => enabled u x e && all_enabled d u lc (fst (step d lc x e)) r end.
Lemma go_runs d u lc : forall l h x, runs d u lc h x -> all_enabled d u lc x l = true -> runs d u lc (h ++ fst (go d lc x l)) (snd (go d lc x l)).
Proof.
  induction l as [|e l IH]; intros h x R EN; cbn [go all_enabled] in *; [cbn; rewrite app_nil_r; exact R|]. apply andb_true_iff in EN as [E1 E2].
  destruct (step d lc x e) as [x1 a] eqn:ST. cbn [fst] in E2. specialize (IH (h ++ [(e, a)]) x1 (t_snoc d u lc h x e x1 a R E1 ST) E2). destruct (go d lc x1 l) as [h2 x2]. cbn [fst snd] in *. rewrite <- app_assoc in IH. exact IH.
Qed.
(** third concurrent call: soft; permits back, beyond the tokens: soft, then hard; peer 8 is not affected *)
Definition ex_calls : list event :=
  [ECall Bcast 7 0; ECall Sig 7 1; ECall Sig 7 2; EDrop 0; ECall Bcast 7 3; EDrop 0; EDrop 0; ECall Bcast 7 4; ECall Bcast 7 5; ECall Bcast 7 6; ECall Bcast 8 6; ECall Bcast 7 1000000].
Example ex_run : runs Receiver false ex_lc (fst (go Receiver ex_lc lims_new ex_calls)) (snd (go Receiver ex_lc lims_new ex_calls)) /\
  map snd (fst (go Receiver ex_lc lims_new ex_calls)) =
  [Some (Granted 0); Some (Granted 0); Some Soft_; None; Some (Granted 0); None; None; Some Soft_; Some Soft_; Some Hard_; Some (Granted 1); Some (Granted 0)].
Proof. split; [apply (go_runs Receiver false ex_lc ex_calls [] lims_new); [constructor|reflexivity]|reflexivity]. Qed.
