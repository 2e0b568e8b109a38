(** C83: when a key is told to come back, and the cooldown. *)
From Coq Require Import List Bool NArith Lia Sorted.
From Coq Require Import ZArith ZifyN ZifyNat ZifyBool.
From Verif Require Import TbBucket GcModel GcBucket GcPeer GcThms.
Import ListNotations.
Local Open Scope N_scope.

(** ** What is said *)

(** the cooldown is off, or not shorter than the wait for a token *)
Definition long_cooldown (lim : class -> traffic) (c : config) : Prop := g_cooldown c = 0 \/ forall cl, interval_of (lim cl) <= g_cooldown c.
(** far from the end of [u64] *)
Definition far (lim : class -> traffic) (c : config) (t : N) : Prop := t + g_cooldown c <= u64_max /\ forall cl, fits (lim cl) t.

(** ** The time to come back *)

(** what holds of a state at [t] *)
Definition sound (lim : class -> traffic) (c : config) (t : N) (p : peer) : Prop :=
  (forall cl, p_tat p cl <= t + tolerance_of (lim cl) + interval_of (lim cl)) /\ (p_cooldown p <= t \/ forall cl, p_tat p cl <= p_cooldown p + tolerance_of (lim cl)).
Lemma sound_check lim c cl now p t : long_cooldown lim c -> now + g_cooldown c <= u64_max -> t <= now -> sound lim c t p -> sound lim c now (snd (peer_check lim c cl now p)).
Proof.
  intros LC FA LE (S1 & S2). assert (S1' : forall cl', p_tat p cl' <= now + tolerance_of (lim cl') + interval_of (lim cl')) by (intros cl'; specialize (S1 cl'); lia).
  assert (S2' : p_cooldown p <= now \/ forall cl, p_tat p cl <= p_cooldown p + tolerance_of (lim cl)) by (destruct S2 as [X|X]; [left; lia|right; exact X]).
  unfold peer_check. destruct (N.ltb_spec now (p_cooldown p)) as [L|L]; [split; assumption|].
  destruct (try_claim (lim cl) (p_tat p cl) now) as [after|tat] eqn:E.
  - destruct (g_rejects c <=? N.min (p_rejects p + 1) 255); cbn [snd]; [|split; assumption]. split; cbn [p_tat p_cooldown]; [exact S1'|].
    assert (SA : sat_add now (g_cooldown c) = now + g_cooldown c) by (unfold sat_add; lia). rewrite SA. destruct LC as [Z|LC]; [left; lia|].
    right. intros cl'. specialize (S1' cl'). specialize (LC cl'). lia.
  - cbn [snd]. destruct (claim_ok _ _ _ _ E) as (A & ->). split; cbn [p_tat p_cooldown]; [|left; exact L].
    intros cl'. unfold upd. destruct (N.eqb_spec cl' cl) as [->|]; [|apply S1']. unfold sat_add. lia.
Qed.
Lemma sound_after lim c ks : long_cooldown lim c -> forall p t, sound lim c t p -> sorted (t :: map snd ks) -> (forall x, In x (map snd ks) -> x + g_cooldown c <= u64_max) ->
  forall u, (forall x, In x (t :: map snd ks) -> x <= u) -> sound lim c u (peer_after lim c p ks).
Proof.
  intros LC. induction ks as [|[cl now] ks IH]; intros p t R S FA u U; cbn [peer_after].
  - destruct R as (S1 & S2). pose proof (U t (or_introl eq_refl)) as L. split; [intros cl; specialize (S1 cl); lia|]. destruct S2 as [X|X]; [left; lia|right; exact X].
  - inversion S as [|? ? T1 T2]; subst. rewrite Forall_forall in T2. apply (IH _ now); [|exact T1|intros x HX; apply FA; right; exact HX|intros x HX; apply U; right; exact HX].
    apply (sound_check lim c cl now p t LC); [apply FA; left; reflexivity|apply T2; left; reflexivity|exact R].
Qed.

(** after a refusal at [now] with [r], the next call of the class *)
Lemma come_back lim c cl now p r p' : long_cooldown lim c -> now + g_cooldown c <= u64_max -> sound lim c now p -> peer_check lim c cl now p = (Reject r, p') ->
  0 < r /\ forall now', now <= now' -> is_allow (fst (peer_check lim c cl now' p')) = (now + r <=? now').
Proof.
  intros LC FA SO E. pose proof (sound_check lim c cl now p now LC FA (N.le_refl _) SO) as SO'. rewrite E in SO'. cbn [snd] in SO'.
  unfold peer_check in E. destruct (N.ltb_spec now (p_cooldown p)) as [L|L].
  - inversion E; subst; clear E. split; [lia|]. intros now' H. unfold peer_check. cbn [p_cooldown p_tat] in *. destruct SO' as (_ & SO'). cbn [p_cooldown p_tat] in SO'. destruct SO' as [X|X]; [lia|]. specialize (X cl).
    destruct (N.ltb_spec now' (p_cooldown p)) as [L'|L']; [cbn [fst is_allow]; symmetry; apply N.leb_gt; lia|].
    rewrite claim_when by lia. cbn [fst is_allow]. symmetry. apply N.leb_le. lia.
  - destruct (try_claim (lim cl) (p_tat p cl) now) as [after|tat] eqn:EC; [|discriminate].
    destruct (claim_no _ _ _ _ EC) as (AE & AL). destruct (g_rejects c <=? N.min (p_rejects p + 1) 255); cbn [p_cooldown p_tat] in E.
    + set (cd := N.max (p_cooldown p) (sat_add now (g_cooldown c))) in *. assert (CE : cd = now + g_cooldown c) by (unfold cd, sat_add; lia).
      destruct (N.ltb_spec now cd) as [D|D]; inversion E; subst r p'; clear E; (split; [lia|]); intros now' H; unfold peer_check; cbn [p_cooldown p_tat] in *; destruct SO' as (_ & SO'); cbn [p_cooldown p_tat] in SO'.
      * destruct SO' as [X|X]; [lia|]. specialize (X cl). destruct (N.ltb_spec now' cd) as [L'|L']; [cbn [fst is_allow]; symmetry; apply N.leb_gt; lia|].
        rewrite claim_when by lia. cbn [fst is_allow]. symmetry. apply N.leb_le. lia.
      * rewrite (proj2 (N.ltb_ge now' cd)) by lia. unfold try_claim. destruct (N.ltb_spec now' (p_tat p cl - tolerance_of (lim cl))) as [Y|Y].
        -- cbn [fst is_allow]. symmetry. apply N.leb_gt. lia.
        -- cbn [fst is_allow]. symmetry. apply N.leb_le. lia.
    + rewrite (proj2 (N.ltb_ge now (p_cooldown p))) in E by lia. inversion E; subst r p'; clear E. split; [lia|]. intros now' H. unfold peer_check. cbn [p_cooldown p_tat].
      rewrite (proj2 (N.ltb_ge now' (p_cooldown p))) by lia. unfold try_claim. destruct (N.ltb_spec now' (p_tat p cl - tolerance_of (lim cl))) as [Y|Y].
      * destruct (g_rejects c <=? _); cbn [fst is_allow]; symmetry; apply N.leb_gt; lia.
      * cbn [fst is_allow]. symmetry. apply N.leb_le. lia.
Qed.

Lemma calls_none_cons k k' cl now l : k' <> k -> calls_of k ((k', cl, now) :: l) = calls_of k l.
Proof. intros H. unfold calls_of. cbn [filter fst]. rewrite (proj2 (N.eqb_neq k' k) H). reflexivity. Qed.
Lemma calls_cons k cl now l : calls_of k ((k, cl, now) :: l) = (cl, now) :: calls_of k l.
Proof. unfold calls_of. cbn [filter fst]. rewrite N.eqb_refl. reflexivity. Qed.

(** A call that is refused is told how long to wait, exactly: the next call of the key, if of the same
    class, is refused before and allowed from then on. *)
Theorem retry_after_is_exact lim c t0 l1 l2 k cl now now' vs r v : limits_ok lim -> lasting lim c -> long_cooldown lim c -> far lim c now ->
  let l := l1 ++ (k, cl, now) :: l2 ++ [(k, cl, now')] in
  in_order t0 l -> calls_of k l2 = [] -> answers_of k l (limiter_run lim c t0 l) = vs ++ [Reject r; v] -> 0 < r /\ (v = Allow <-> now + r <= now').
Proof.
  intros LO LA LC (FA & _) l S NO E. rewrite answers_are_of_the_key in E by assumption. unfold alone_run in E. unfold l in E.
  rewrite calls_app, calls_cons, calls_app, NO, calls_cons in E. cbn [app] in E. change (calls_of k []) with (@nil kcall) in E. rewrite peer_run_app in E.
  set (p := peer_after lim (normalize c) (peer_new 0) (calls_of k l1)) in *. cbn [peer_run] in E.
  destruct (peer_check lim (normalize c) cl now p) as [v1 p1] eqn:E1. destruct (peer_check lim (normalize c) cl now' p1) as [v2 p2] eqn:E2.
  assert (Q : v1 = Reject r /\ v2 = v).
  { change [v1; v2] with ([v1] ++ [v2]) in E. change [Reject r; v] with ([Reject r] ++ [v]) in E. rewrite !app_assoc in E. apply app_inj_tail in E. destruct E as (E & ->). apply app_inj_tail in E. destruct E as (_ & ->). auto. }
  destruct Q as (-> & ->). clear E. assert (OS : sorted (times_of l)) by (apply (in_order_times t0); exact S).
  assert (SO : sound lim (normalize c) now p).
  { assert (SC : sorted (map snd (calls_of k l))) by (apply sorted_calls; exact OS). unfold l in SC. rewrite calls_app, calls_cons, map_app in SC.
    apply (sound_after lim (normalize c) (calls_of k l1) LC (peer_new 0) 0).
    - split; [intros cl'; cbn|left; cbn]; lia.
    - constructor; [apply (sorted_head _ _ SC)|apply Forall_forall; intros x _; lia].
    - intros x HX. rewrite normalize_cooldown. assert (x <= now) by (apply (sorted_mid _ _ _ _ SC HX); left; reflexivity). lia.
    - intros x [<-|HX]; [lia|]. apply (sorted_mid _ _ _ _ SC HX). left; reflexivity. }
  assert (LE : now <= now').
  { unfold l, times_of in OS. rewrite map_app in OS. apply sorted_tail in OS. cbn [map snd] in OS. inversion OS as [|? ? T1 T2]; subst. rewrite Forall_forall in T2. apply T2. rewrite map_app. apply in_or_app. right. left. reflexivity. }
  destruct (come_back lim (normalize c) cl now p r p1 LC FA SO E1) as (RP & NEXT). split; [exact RP|]. specialize (NEXT now' LE). rewrite E2 in NEXT. cbn [fst] in NEXT.
  destruct v; cbn [is_allow] in NEXT; split; intros H; try discriminate; [apply N.leb_le; auto|reflexivity|lia].
Qed.

(** ** The cooldown *)

(** nothing is refused without the bucket or the cooldown *)
Definition untroubled (now : N) (p : peer) : Prop := p_cooldown p <= now /\ p_rejects p = 0.
Lemma allow_untroubled lim c cl now p p' : peer_check lim c cl now p = (Allow, p') -> untroubled now p'.
Proof.
  unfold peer_check. destruct (N.ltb_spec now (p_cooldown p)) as [L|L]; [discriminate|]. destruct (try_claim (lim cl) (p_tat p cl) now); [discriminate|].
  intros E. inversion E; subst. split; [exact L|reflexivity].
Qed.
Lemma clear_state lim c ks p u : untroubled 0 p -> clear_end (peer_run lim c p ks) -> (forall x, In x (map snd ks) -> x <= u) -> untroubled u (peer_after lim c p ks).
Proof.
  intros UN CE U. revert CE U. pattern ks. apply rev_ind; clear ks.
  - intros _ _. cbn [peer_after]. destruct UN as (A & B). split; [lia|exact B].
  - intros (cl, now) ks _ CE U. rewrite peer_after_app. cbn [peer_after]. rewrite peer_run_app in CE. cbn [peer_run] in CE.
    destruct (peer_check lim c cl now (peer_after lim c p ks)) as [v p'] eqn:E. cbn [snd]. destruct CE as [CE|(w & CE)]; [destruct (peer_run lim c p ks); discriminate|].
    apply app_inj_tail in CE. destruct CE as (_ & ->). destruct (allow_untroubled _ _ _ _ _ _ E) as (A & B). split; [|exact B].
    assert (now <= u) by (apply U; rewrite map_app; apply in_or_app; right; left; reflexivity). lia.
Qed.

(** refusals from an untroubled state *)
Lemma refusals_count lim c (ks : list kcall) : g_rejects c <= 254 -> forall p j, p_rejects p = j -> (forall x, In x (map snd ks) -> p_cooldown p <= x) -> j + N.of_nat (length ks) < g_rejects c ->
  Forall refused (peer_run lim c p ks) -> p_rejects (peer_after lim c p ks) = j + N.of_nat (length ks) /\ p_cooldown (peer_after lim c p ks) = p_cooldown p.
Proof.
  intros G. induction ks as [|[cl now] ks IH]; intros p j R CD LT F; cbn [peer_after peer_run length] in *; [split; [lia|reflexivity]|].
  destruct (peer_check lim c cl now p) as [v p'] eqn:E. cbn [snd]. inversion F as [|? ? F1 F2]; subst. clear F. unfold peer_check in E.
  rewrite (proj2 (N.ltb_ge now (p_cooldown p))) in E by (apply CD; left; reflexivity). destruct (try_claim (lim cl) (p_tat p cl) now) as [after|tat]; [|inversion E; subst; discriminate].
  rewrite (proj2 (N.leb_gt (g_rejects c) (N.min (p_rejects p + 1) 255))) in E by lia. inversion E; subst; clear E.
  destruct (IH (Peer (p_tat p) ((p_rejects p + 1) mod 256) (p_cooldown p) now) (p_rejects p + 1)) as (A & B).
  - cbn [p_rejects]. apply N.mod_small. lia.
  - cbn [p_cooldown]. intros x HX. apply CD. right. exact HX.
  - lia.
  - exact F2.
  - split; [rewrite A; lia|exact B].
Qed.
Lemma in_cooldown_run lim c (ks : list kcall) : forall p, (forall x, In x (map snd ks) -> x < p_cooldown p) ->
  peer_run lim c p ks = map (fun x => Reject (p_cooldown p - snd x)) ks /\ p_cooldown (peer_after lim c p ks) = p_cooldown p /\ p_tat (peer_after lim c p ks) = p_tat p.
Proof.
  induction ks as [|[cl now] ks IH]; intros p H; cbn [peer_run peer_after map]; [auto|]. assert (L : (now <? p_cooldown p) = true) by (apply N.ltb_lt; apply H; left; reflexivity).
  unfold peer_check. rewrite L. cbn [snd]. destruct (IH (Peer (p_tat p) (p_rejects p) (p_cooldown p) now)) as (A & B & C); [cbn [p_cooldown]; intros x HX; apply H; right; exact HX|].
  cbn [p_cooldown p_tat] in *. rewrite A. auto.
Qed.

(** As many refusals in a row as the threshold says, and the key is shut out for the cooldown, from the
    last of them: the calls that come in between are refused with the time that remains and do not
    prolong it, and the first call after it is allowed. *)
Theorem cooldown_from_the_last_refusal lim c t0 l k (ks1 ks2 : list kcall) cl s (ks3 : list kcall) cl' now' : limits_ok lim -> lasting lim c -> long_cooldown lim c -> 0 < g_cooldown c -> s + g_cooldown c <= u64_max -> in_order t0 l ->
  calls_of k l = ks1 ++ (ks2 ++ [(cl, s)]) ++ ks3 ++ [(cl', now')] ->
  clear_end (alone_run lim c ks1) ->
  N.of_nat (length ks2) + 1 = g_rejects (normalize c) ->
  forall vs1 vs2 vs3 v, answers_of k l (limiter_run lim c t0 l) = vs1 ++ vs2 ++ vs3 ++ [v] -> length vs1 = length ks1 -> length vs2 = S (length ks2) -> length vs3 = length ks3 ->
  Forall refused vs2 -> (forall x, In x (map snd ks3) -> x < s + g_cooldown c) ->
  vs3 = map (fun x => Reject (s + g_cooldown c - snd x)) ks3 /\ (s + g_cooldown c <= now' -> v = Allow) /\ (now' < s + g_cooldown c -> v = Reject (s + g_cooldown c - now')).
Proof.
  intros LO LA LC CP FA S EC CE RN vs1 vs2 vs3 v E L1 L2 L3 F B3. rewrite answers_are_of_the_key in E by assumption. pose proof (sorted_calls k l (in_order_times t0 l S)) as SC. rewrite EC in E, SC. unfold alone_run in *.
  set (C := normalize c) in *. assert (GC : g_cooldown C = g_cooldown c) by reflexivity. rewrite !peer_run_app in E. rewrite peer_after_app in E. cbn [peer_after] in E.
  set (p1 := peer_after lim C (peer_new 0) ks1) in *. set (p2 := peer_after lim C p1 ks2) in *.
  cbn [peer_run] in E. destruct (peer_check lim C cl s p2) as [vl p3] eqn:EL. cbn [snd] in E. set (p4 := peer_after lim C p3 ks3) in *. destruct (peer_check lim C cl' now' p4) as [vn p5] eqn:EN.
  assert (Q : peer_run lim C p1 ks2 ++ [vl] = vs2 /\ peer_run lim C p3 ks3 = vs3 /\ vn = v).
  { assert (T : forall (a b a' b' : list verdict), length a = length a' -> a ++ b = a' ++ b' -> a = a' /\ b = b').
    { clear. induction a as [|x a IH]; intros b [|y a'] b' H E; cbn in H, E; try discriminate; [auto|]. injection E as -> E. destruct (IH b a' b' ltac:(lia) E) as (-> & ->). auto. }
    apply T in E; [|rewrite peer_run_len; symmetry; assumption]. destruct E as (_ & E). apply T in E; [|rewrite app_length, peer_run_len, L2; cbn; apply PeanoNat.Nat.add_1_r]. destruct E as (E2 & E).
    apply T in E; [|rewrite peer_run_len; symmetry; assumption]. destruct E as (E3 & E). injection E as E. auto. }
  destruct Q as (<- & <- & <-). clear E L1 L2 L3. apply Forall_app in F. destruct F as (F2 & FL). inversion FL as [|? ? FL' _]; subst. clear FL.
  rewrite map_app in SC. assert (LE1 : forall x y, In x (map snd ks1) -> In y (map snd ((ks2 ++ [(cl, s)]) ++ ks3 ++ [(cl', now')])) -> x <= y) by (intros x y; apply (sorted_mid _ _ _ _ SC)).
  apply sorted_tail in SC as SC2. rewrite map_app in SC2. assert (LE2 : forall x y, In x (map snd (ks2 ++ [(cl, s)])) -> In y (map snd (ks3 ++ [(cl', now')])) -> x <= y) by (intros x y; apply (sorted_mid _ _ _ _ SC2)).
  pose proof (sorted_head _ _ SC2) as SC3. rewrite map_app in SC3.
  assert (INS : In s (map snd (ks2 ++ [(cl, s)]))) by (rewrite map_app; apply in_or_app; right; left; reflexivity).
  assert (INN : In now' (map snd (ks3 ++ [(cl', now')]))) by (rewrite map_app; apply in_or_app; right; left; reflexivity).
  pose proof (LE2 s now' INS INN) as SN.
  (* the state before the refusals *)
  assert (U : forall u, (forall x, In x (map snd ks1) -> x <= u) -> untroubled u p1) by (intros u HU; apply clear_state; [split; cbn; lia|exact CE|exact HU]).
  assert (US : forall x, In x (map snd (ks2 ++ [(cl, s)])) -> p_cooldown p1 <= x).
  { intros x HX. apply (U x). intros y HY. apply LE1; [exact HY|]. rewrite map_app. apply in_or_app. left. exact HX. }
  assert (RZ : p_rejects p1 = 0). { apply (U s). intros y HY. apply LE1; [exact HY|]. rewrite map_app. apply in_or_app. left. exact INS. }
  pose proof (normalize_rejects c) as NR. fold C in NR.
  destruct (refusals_count lim C ks2 (proj2 NR) p1 0 RZ) as (R2 & CD2); [intros x HX; apply US; rewrite map_app; apply in_or_app; left; exact HX|lia|exact F2|]. fold p2 in R2, CD2.
  pose proof (US s INS) as CDS.
  (* the last refusal *)
  assert (P3 : p_cooldown p3 = s + g_cooldown c /\ p_tat p3 = p_tat p2).
  { clear EN. unfold peer_check in EL. rewrite (proj2 (N.ltb_ge s (p_cooldown p2))) in EL by lia. destruct (try_claim (lim cl) (p_tat p2 cl) s) as [after|tat]; [|inversion EL; subst; discriminate].
    rewrite (proj2 (N.leb_le (g_rejects C) (N.min (p_rejects p2 + 1) 255))) in EL by lia. inversion EL; subst; clear EL. cbn [p_cooldown p_tat]. split; [|reflexivity]. unfold sat_add. cbn. lia. }
  destruct P3 as (P3 & T3). destruct (in_cooldown_run lim C ks3 p3) as (RUN & CD4 & T4); [rewrite P3; exact B3|]. fold p4 in CD4, T4. rewrite P3 in *. split; [exact RUN|].
  assert (SO : sound lim C s p3).
  { assert (SO2 : sound lim C s p2).
    { unfold p2, p1. rewrite <- peer_after_app. apply (sound_after lim C (ks1 ++ ks2) LC (peer_new 0) 0).
      - split; [intros x; cbn|left; cbn]; lia.
      - constructor; [|apply Forall_forall; intros x _; lia]. rewrite map_app. apply (sorted_head _ (map snd [(cl, s)])). rewrite <- app_assoc.
        rewrite <- map_app. rewrite <- map_app. apply (sorted_head _ (map snd (ks3 ++ [(cl', now')]))). rewrite <- map_app in SC2. rewrite <- map_app, <- app_assoc. rewrite map_app. exact SC.
      - intros x HX. rewrite GC. assert (x <= s); [|lia]. rewrite map_app in HX. apply in_app_or in HX. destruct HX as [HX|HX].
        + apply LE1; [exact HX|]. rewrite map_app. apply in_or_app. left. exact INS.
        + apply (sorted_mid _ _ x s SC3 HX). left. reflexivity.
      - intros x [<-|HX]; [lia|]. rewrite map_app in HX. apply in_app_or in HX. destruct HX as [HX|HX].
        + apply LE1; [exact HX|]. rewrite map_app. apply in_or_app. left. exact INS.
        + apply (sorted_mid _ _ x s SC3 HX). left. reflexivity. }
    pose proof (sound_check lim C cl s p2 s LC ltac:(rewrite GC; exact FA) (N.le_refl _) SO2) as X. rewrite EL in X. exact X. }
  destruct SO as (_ & SO). rewrite P3 in SO. destruct SO as [SO|SO]; [lia|]. unfold peer_check in EN. rewrite CD4 in EN. split; intros H.
  - rewrite (proj2 (N.ltb_ge now' (s + g_cooldown c))) in EN by lia. rewrite T4 in EN. rewrite claim_when in EN by (specialize (SO cl'); lia). inversion EN. reflexivity.
  - rewrite (proj2 (N.ltb_lt now' (s + g_cooldown c)) H) in EN. inversion EN. reflexivity.
Qed.

(** ** No cooldown without refusals in a row *)

Lemma no_run_tail n a b : no_run n (a ++ b) -> no_run n b.
Proof. intros H x y z E F. apply (H (a ++ x) y z); [rewrite E, app_assoc; reflexivity|exact F]. Qed.
Lemma classes_apart lim c cl : g_rejects c <= 254 -> forall ks p w, p_cooldown p = 0 -> p_rejects p = N.of_nat (length w) -> Forall refused w -> no_run (g_rejects c) (w ++ peer_run lim c p ks) ->
  map is_allow (class_answers cl ks (peer_run lim c p ks)) = grants (lim cl) (p_tat p cl) (class_times cl ks).
Proof.
  intros G. induction ks as [|[cl' now] ks IH]; intros p w CD R F NR; cbn [peer_run class_answers]; [reflexivity|].
  destruct (peer_check lim c cl' now p) as [v p'] eqn:E. cbn [peer_run] in NR. rewrite E in NR. unfold class_times. cbn [fst filter].
  unfold peer_check in E. rewrite CD in E. rewrite (proj2 (N.ltb_ge now 0)) in E by lia.
  destruct (try_claim (lim cl') (p_tat p cl') now) as [after|tat] eqn:EC.
  - assert (LT : N.of_nat (length w) + 1 < g_rejects c).
    { assert (RF : refused v) by (destruct (g_rejects c <=? N.min (p_rejects p + 1) 255); inversion E; subst; reflexivity).
      pose proof (NR [] (w ++ [v]) (peer_run lim c p' ks)) as X. rewrite app_length in X. cbn in X. rewrite <- app_assoc in X. specialize (X eq_refl). assert (FF : Forall refused (w ++ [v])) by (apply Forall_app; split; [exact F|constructor; [exact RF|constructor]]). specialize (X FF). lia. }
    rewrite (proj2 (N.leb_gt (g_rejects c) (N.min (p_rejects p + 1) 255))) in E by lia. cbn [p_cooldown] in E. inversion E; subst; clear E.
    match type of NR with no_run _ (w ++ ?v :: peer_run lim c ?p ks) => set (p1 := p) in *; set (v1 := v) in * end.
    pose proof (IH p1 (w ++ [v1]) eq_refl) as X. specialize (X ltac:(cbn [p_rejects p1]; rewrite app_length; cbn [length]; rewrite N.mod_small by lia; lia)).
    specialize (X ltac:(apply Forall_app; split; [exact F|constructor; [reflexivity|constructor]])). rewrite <- app_assoc in X. specialize (X NR). cbn [p_tat p1] in X.
    destruct (N.eqb_spec cl' cl) as [Ek|NE]; [|exact X]. subst cl'. cbn [map snd grants]. rewrite EC. f_equal. exact X.
  - inversion E; subst; clear E. match type of NR with no_run _ (w ++ ?v :: peer_run lim c ?p ks) => set (p1 := p) in * end.
    pose proof (IH p1 [] eq_refl eq_refl (Forall_nil _)) as X. specialize (X ltac:(apply (no_run_tail _ (w ++ [Allow])); rewrite <- app_assoc; exact NR)). cbn [p_tat p1] in X. unfold upd in X.
    destruct (N.eqb_spec cl' cl) as [Ek|NE].
    + subst cl'. rewrite N.eqb_refl in X. cbn [map snd grants]. rewrite EC. f_equal. exact X.
    + rewrite (proj2 (N.eqb_neq cl cl')) in X by congruence. exact X.
Qed.

(** As long as a key is not refused as often in a row as the threshold says, each of its classes is
    answered by its own bucket alone. *)
Theorem no_cooldown_without_run lim c t0 l k cl : limits_ok lim -> lasting lim c -> in_order t0 l ->
  no_run (g_rejects (normalize c)) (answers_of k l (limiter_run lim c t0 l)) ->
  map is_allow (class_answers cl (calls_of k l) (answers_of k l (limiter_run lim c t0 l))) = grants (lim cl) 0 (class_times cl (calls_of k l)).
Proof.
  intros LO LA S NR. rewrite answers_are_of_the_key in * by assumption. unfold alone_run in *.
  apply (classes_apart lim (normalize c) cl (proj2 (normalize_rejects c)) (calls_of k l) (peer_new 0) []); [reflexivity|reflexivity|constructor|exact NR].
Qed.

(** ** What the limiter does not do *)

(** An entry that expired is replaced even while the key is in its cooldown (the removal keeps it): a
    cooldown longer than the time to live is not kept. One call in a second, a cooldown of an hour after
    one refusal, entries live 10 s: the key comes back after 10 s. *)
Example cooldown_is_lost : let lim := fun _ : class => Traffic 1 1 in let c := GCfg 1 3600000 30000 10000 in
  limiter_run lim c 1000 [(7, 0, 1000); (7, 0, 1001); (7, 0, 1002); (7, 0, 11002)] = [Allow; Reject 3600000; Reject 3599999; Allow].
Proof. vm_compute. reflexivity. Qed.
(** A burst takes longer to refill than an entry lives: the burst is there again at once. *)
Example burst_again : let lim := fun _ : class => Traffic 1 3 in let c := GCfg 5 30000 30000 1000 in
  limiter_run lim c 1000 [(7, 0, 1000); (7, 0, 1000); (7, 0, 1000); (7, 0, 2000); (7, 0, 2000); (7, 0, 2000); (7, 0, 2000)] =
  [Allow; Allow; Allow; Allow; Allow; Allow; Reject 1000] /\
  permitted (lim 0) 1000 = 4.
Proof. vm_compute. auto. Qed.
(** With a cooldown shorter than the interval the time to come back is too short. *)
Example retry_too_soon : let lim := fun _ : class => Traffic 1 1 in let c := GCfg 1 100 30000 300000 in
  limiter_run lim c 1000 [(7, 0, 1000); (7, 0, 1001); (7, 0, 1101)] = [Allow; Reject 100; Reject 100].
Proof. vm_compute. reflexivity. Qed.

(** ** The hypotheses are met *)

(** the limits of rpc/src/endpoint/rate_limits.rs 46-53 with the configuration of 67-76 *)
Definition rpc_lim (cl : class) : traffic := if cl =? 0 then Traffic 10 10 else Traffic 5 5.
Definition default_cfg : config := GCfg 5 30000 30000 300000.
Lemma rpc_is_fine : limits_ok rpc_lim /\ lasting rpc_lim default_cfg /\ long_cooldown rpc_lim default_cfg.
Proof.
  assert (H : forall cl, rpc_lim cl = Traffic 10 10 \/ rpc_lim cl = Traffic 5 5) by (intros cl; unfold rpc_lim; destruct (cl =? 0); auto).
  split; [|split]; [intros cl; destruct (H cl) as [-> | ->]; cbn; lia| |right; intros cl; destruct (H cl) as [-> | ->]; vm_compute; discriminate].
  split; [vm_compute; discriminate|]. intros cl; destruct (H cl) as [-> | ->]; vm_compute; discriminate.
Qed.
Definition some_calls : list call := map (fun _ => (7, 1, 1000)) (seq 0 10) ++ [(8, 1, 1500); (7, 0, 30000); (7, 1, 31000); (7, 1, 61000)].
Example some_answers : in_order 900 some_calls /\ limiter_run rpc_lim default_cfg 900 some_calls =
  [Allow; Allow; Allow; Allow; Allow; Reject 200; Reject 200; Reject 200; Reject 200; Reject 30000; Allow; Reject 1000; Allow; Allow].
Proof. split; [|vm_compute; reflexivity]. unfold in_order, some_calls. repeat (constructor; [|repeat (constructor; [vm_compute; discriminate|]); constructor]). constructor. Qed.

(** after a cooldown has started the refusals count anew: fewer of them than the threshold, made when it is over, start no other. *)
Theorem cooldown_counts_anew lim c cl now p v p' (ks : list kcall) : g_rejects c <= 254 -> peer_check lim c cl now p = (v, p') -> p_cooldown p' <> p_cooldown p ->
  (forall x, In x (map snd ks) -> p_cooldown p' <= x) -> N.of_nat (length ks) < g_rejects c -> Forall refused (peer_run lim c p' ks) ->
  p_cooldown (peer_after lim c p' ks) = p_cooldown p'.
Proof.
  intros G E NE T LT F. refine (proj2 (refusals_count lim c ks G p' 0 _ T _ F)); [|lia]. unfold peer_check in E.
  destruct (N.ltb_spec now (p_cooldown p)) as [L|L]; [inversion E; subst; elim NE; reflexivity|].
  destruct (try_claim (lim cl) (p_tat p cl) now) as [after|tat]; [|inversion E; subst; elim NE; reflexivity].
  destruct (N.leb_spec (g_rejects c) (N.min (p_rejects p + 1) 255)) as [L'|L']; inversion E; subst; [reflexivity|]. elim NE. reflexivity.
Qed.
Example counts_anew : let lim := fun _ : class => Traffic 1 1 in let c := GCfg 2 100 30000 300000 in
  limiter_run lim c 1000 [(7, 0, 1000); (7, 0, 1001); (7, 0, 1002); (7, 0, 1150); (7, 0, 1151)] = [Allow; Reject 999; Reject 100; Reject 850; Reject 100].
Proof. vm_compute. reflexivity. Qed.
