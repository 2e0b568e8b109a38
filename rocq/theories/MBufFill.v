(** * MBufFill: a whole call of [fill_message_group] *)

From Coq Require Import List NArith ZArith Bool PeanoNat Permutation Lia.
From Verif Require Import AMap MBufModel MBufSpec MBufBasics MBufInv MBufSlots MBufLoops MBufStep2 MBufIndex.
Import ListNotations.

(** ** Empty accounts go *)
Definition nonempty (m : amap N (list msg)) : amap N (list msg) :=
  filter (fun e : N * list msg => negb (is_nil (snd e))) m.

Lemma nonempty_all m : all_msgs (nonempty m) = all_msgs m.
Proof.
  unfold all_msgs. induction m as [|[a l] m IH]; [reflexivity|]. cbn [nonempty filter snd map concat].
  destruct l; cbn [is_nil negb]; [exact IH|]. cbn [map snd concat]. now rewrite <- IH.
Qed.
Lemma nonempty_get m a : NoDup (akeys m) ->
  mget a (nonempty m) = match mget a m with Some [] => None | x => x end.
Proof.
  induction m as [|[k l] m IH]; intros ND; [reflexivity|]. cbn [akeys map fst] in ND.
  inversion ND as [|? ? NI ND']; subst. cbn [nonempty filter snd aget].
  destruct l as [|x l]; cbn [is_nil negb].
  - destruct (Neqs a k) as [->|Hn]; [|now apply IH].
    unfold nonempty in IH. rewrite (IH ND'). apply (aget_none N.eqb Neqs) in NI. now rewrite NI.
  - cbn [aget]. destruct (Neqs a k) as [->|Hn]; [reflexivity|]. now apply IH.
Qed.
Lemma nonempty_nodup m : NoDup (akeys m) -> NoDup (akeys (nonempty m)).
Proof.
  unfold akeys. induction m as [|[k l] m IH]; intros ND; [constructor|]. cbn [map fst] in ND.
  inversion ND as [|? ? NI ND']; subst. cbn [nonempty filter snd]. destruct (negb (is_nil l)); [|now apply IH].
  cbn [map fst]. constructor; [|now apply IH]. intros H. apply NI. apply in_map_iff in H as ((x & y) & E & H).
  apply filter_In in H as [H _]. apply in_map_iff. exists (x, y). auto.
Qed.
Lemma waiting_finish a b : NoDup (akeys (b_msgs b)) -> waiting a (finish b) = waiting a b.
Proof.
  intros ND. unfold waiting, of_acc, finish. cbn [b_msgs]. fold (nonempty (b_msgs b)). rewrite nonempty_get by assumption.
  destruct (mget a (b_msgs b)) as [[|x l]|]; reflexivity.
Qed.
Lemma tx_from_finish o b : NoDup (akeys (b_msgs b)) ->
  (forall b1, o = Some b1 -> forall a l, mget a (b_msgs b1) = Some l -> l <> []) ->
  tx_from o b -> tx_from o (finish b).
Proof.
  intros ND NE T. unfold finish. fold (nonempty (b_msgs b)). destruct o as [b1|]; cbn [tx_from b_tx] in *; [|assumption].
  destruct T as (x & Ex & X1 & X2 & X3 & X4 & X5). exists x.
  split; [assumption|]. split; [assumption|]. split; [assumption|]. split; [assumption|]. split; [assumption|].
  intros a l H. destruct (X5 _ _ H) as [Hs|[Hs Hc]]; [now left|right]. split; [assumption|].
  cbn [b_msgs]. rewrite nonempty_get, Hc by assumption. pose proof (NE _ eq_refl _ _ H). now destruct l.
Qed.

Section Main.
Variable fl : filt.
Variable chk : N -> bool.
Variable SC V : nat.
Variable skipped : list N.
Variable o : option buffer.
Variable b0 : buffer.
Variable g0 : group.
Notation ref := (refused skipped chk).
Notation INV := (INV fl chk V skipped o b0 g0).
Notation FIN := (FIN chk V skipped).
Notation VIS := (VIS chk skipped).
Notation CLN := (CLN fl g0).
Notation NEW k := (~ In k (akeys (g_slots g0))).

Definition f0 : fstate := mkF b0 (g_msgs g0) (g_slots g0) (g_last g0) [] [] 0 skipped 0.

Lemma inv_init : wf_buffer b0 -> wf_group V g0 -> tx_from o b0 -> INV f0.
Proof.
  intros WB WG T. split.
  - constructor; cbn [f0 f_buf f_msgs f_keys f_count f_expired f_skip].
    + reflexivity.
    + intros a. exists [], (waiting a b0). cbn. rewrite app_nil_r. repeat split; auto.
    + exists [], []. cbn. rewrite !app_nil_r. split; [reflexivity|]. split; [reflexivity|]. split; [reflexivity|].
      split; [reflexivity|]. split; [reflexivity|]. split; [constructor|]. split; [constructor|]. split; lia.
    + reflexivity.
    + auto.
    + intros a H. now left.
    + intros a l H. now apply (wg_acc _ _ WG) in H.
    + apply (wg_keys _ _ WG).
    + exact T.
  - constructor; cbn [f0 f_slots f_msgs f_upds f_last f_keys f_count].
    + apply (wg_slots _ _ WG).
    + intros id s Es. destruct (wg_slot _ _ WG _ _ Es) as (H1 & H2 & H3 & H4). unfold collected in *. repeat split; auto; lia.
    + apply (wg_in _ _ WG).
    + apply (wg_once _ _ WG).
    + apply (wg_last _ _ WG).
    + auto.
    + constructor.
    + discriminate.
    + intros id _. now left.
    + cbn. lia.
Qed.

Record OUT (r : fres) (f : fstate) : Prop := {
  ou_inv : INV f;
  ou_buf : r_buf r = finish (f_buf f);
  ou_msgs : g_msgs (r_group r) = f_msgs f;
  ou_slots : g_slots (r_group r) = f_slots f;
  ou_last : g_last (r_group r) = f_last f;
  ou_idx : exists x, x = apply_upds (f_upds f) (mkIdx [] (presize V (g_index g0)) (g_int g0) (g_ext g0)) /\
           g_index (r_group r) = drop_old (k_rem x) (k_index x) /\ g_int (r_group r) = k_int x /\ g_ext (r_group r) = k_ext x;
  ou_res : r_skip r = f_skip f /\ r_keys r = f_keys f /\ r_count r = f_count f /\ r_expired r = f_expired f;
  ou_cnt : forall k s, sget k (f_slots f) = Some s -> 1 <= s_count s;
  ou_len : length (f_slots f) <= Nat.max SC (length (g_slots g0));
  ou_cln : forall a, CLEAN fl g0 a f;
  ou_max : forall a, waiting a (f_buf f) <> [] -> ~ ref a ->
           (exists id s, sget id (f_slots f) = Some s /\ In a (s_accs s) /\ s_count s = V) \/
           ((forall id s, sget id (f_slots f) = Some s -> s_count s = V) /\ SC <= length (f_slots f)) }.

Lemma fill_main : 1 <= V -> wf_buffer b0 -> wf_group V g0 -> tx_from o b0 ->
  exists r f, fill fl chk SC V skipped g0 b0 = Some r /\ OUT r f.
Proof.
  intros HV WB WG T. pose proof (inv_init WB WG T) as I0.
  assert (VS0 : VIS (akeys (b_msgs b0)) f0).
  { intros a W. right. left. apply mget_in. unfold waiting, of_acc in W. cbn [f0 f_buf] in W.
    destruct (mget a (b_msgs b0)) as [v|]; [eauto|congruence]. }
  assert (CL0 : CLN (akeys (b_msgs b0)) f0).
  { intros a. destruct (mget a (b_msgs b0)) as [v|] eqn:E; [left; apply mget_in; eauto|]. right. left.
    intros m. cbn [f0 f_buf]. unfold waiting, of_acc. rewrite E. intros []. }
  unfold fill. fold f0.
  (* the first step *)
  assert (S1 : exists used rest f1,
    match SC - length (g_slots g0) with
    | O => Some ([], akeys (b_msgs b0), f0)
    | S k => step1 fl chk V (2 * length (akeys (b_msgs b0)) + 3) (next_slot g0) k [] [] (akeys (b_msgs b0)) f0
    end = Some (used, rest, f1) /\
    INV f1 /\ VIS rest f1 /\ CLN rest f1 /\ (forall k, NEW k -> FIN f1 k) /\
    (forall k s, NEW k -> sget k (f_slots f1) = Some s -> 1 <= s_count s /\ (s_count s = V \/ rest = [])) /\
    length (f_slots f1) <= Nat.max SC (length (g_slots g0)) /\
    (rest = [] \/ SC <= length (f_slots f1)) /\
    (forall k, In k used -> NEW k) /\
    (forall k, In k (akeys (g_slots g0)) -> sget k (f_slots f1) = sget k (g_slots g0))).
  { destruct (SC - length (g_slots g0)) as [|k] eqn:Ek.
    - exists [], (akeys (b_msgs b0)), f0. split; [reflexivity|]. split; [assumption|]. split; [assumption|]. split; [assumption|].
      cbn [f0 f_slots]. split; [|split; [|split; [lia|split; [right; lia|split; [intros k []|reflexivity]]]]].
      + intros k Hk s Es. cbn [f0 f_slots] in Es. destruct Hk. apply sget_in. eauto.
      + intros k s Hk Es. destruct Hk. apply sget_in. eauto.
    - assert (LT : forall k, In k (akeys (f_slots f0)) -> k < next_slot g0).
      { intros j Hj. destruct (wg_last _ _ WG _ Hj) as (l & El & Hl). unfold next_slot. rewrite El. lia. }
      assert (P : S1P fl chk V skipped o b0 g0 SC (next_slot g0) k [] (akeys (b_msgs b0)) f0).
      { constructor; auto.
        - intros H. apply LT in H. lia.
        - intros j Hj s Es. cbn [f0 f_slots] in Es. destruct Hj. apply sget_in. eauto.
        - intros j s Hj _ Es. destruct Hj. apply sget_in. eauto.
        - repeat constructor. intros [].
        - intros j [].
        - left. split; [assumption|]. cbn [f0 f_slots]. lia. }
      destruct (step1_spec fl chk V skipped o b0 g0 SC (2 * length (akeys (b_msgs b0)) + 3) _ k [] [] _ f0 HV P)
        as (used & rest & f1 & E & [Q1 Q2 Qc Q3 Q4 Q5 Q6 Q7 Q8] & _).
      { cbn [length]. lia. }
      exists used, rest, f1. split; [exact E|]. split; [assumption|]. split; [assumption|]. split; [assumption|]. split; [assumption|].
      split; [assumption|]. split; [lia|]. split; [destruct Q6; [now left|right; lia]|].
      split; [intros j Hj; destruct (Q7 j Hj) as [[]|]; assumption|]. destruct Q8 as (_ & _ & Q8). exact Q8. }
  destruct S1 as (used & rest & f1 & -> & I1 & V1 & CL1 & F1 & C1 & L1 & R1 & U1 & G1).
  (* the second step *)
  set (index := presize V (g_index g0)).
  assert (IDS : forall k, In k (concat (firstn V index)) -> In k (akeys (g_slots g0))).
  { intros k Hk. apply concat_firstn_in in Hk as (n & _ & Hk). unfold index in Hk. rewrite presize_nth in Hk.
    exact (wg_index_ids _ _ WG _ _ Hk). }
  assert (HD : forall k, (NEW k /\ In k (akeys (f_slots f1))) \/ s_count (slot_of k f1) = V -> FULL chk V skipped rest f1 k).
  { intros k [[Hk Hi]|Hk].
    - split; [now apply F1|]. apply sget_in in Hi as (s & Es). rewrite (slot_of_some _ _ _ Es). apply (C1 k s Hk Es).
    - split; [|now left]. intros s Es. left. now rewrite (slot_of_some _ _ _ Es) in Hk. }
  destruct (step2_spec fl chk V skipped o b0 g0 (concat (firstn V index)) used rest f1
              (fun k => (NEW k /\ In k (akeys (f_slots f1))) \/ s_count (slot_of k f1) = V)
              IDS U1 I1 V1 CL1 HD) as (rest2 & f2 & E2 & I2 & V2 & A2 & (p & Ep) & FU2 & MO2 & CL2).
  rewrite E2.
  assert (K2 : akeys (f_slots f2) = akeys (f_slots f1)) by apply (adv_s _ _ A2).
  assert (G0 : forall k s, sget k (g_slots g0) = Some s -> slot_of k f1 = s).
  { intros k s Es. apply slot_of_some. rewrite G1; [assumption|]. apply sget_in. eauto. }
  assert (ALL : forall k s, sget k (f_slots f2) = Some s -> FULL chk V skipped rest2 f2 k /\ 1 <= s_count s).
  { intros k s Es. assert (Hk : In k (akeys (f_slots f1))) by (rewrite <- K2; apply sget_in; eauto).
    specialize (MO2 k). rewrite (slot_of_some _ _ _ Es) in MO2.
    destruct (in_dec Nat.eq_dec k (akeys (g_slots g0))) as [Hg|Hg].
    - apply sget_in in Hg as (s0 & Es0). rewrite (G0 _ _ Es0) in MO2.
      destruct (wg_slot _ _ WG _ _ Es0) as (_ & _ & _ & HC). split; [|lia]. apply FU2.
      destruct (Nat.eq_dec (s_count s0) V) as [Hc|Hc].
      + left. right. now rewrite (G0 _ _ Es0).
      + right. apply concat_firstn_in. exists (s_count s0). split; [lia|]. unfold index. rewrite presize_nth.
        exact (wg_index _ _ WG _ _ Es0).
    - split; [apply FU2; left; left; auto|].
      assert (exists s1, sget k (f_slots f1) = Some s1) as (s1 & Es1) by (now apply sget_in).
      destruct (C1 k s1 Hg Es1) as [H1 _]. rewrite (slot_of_some _ _ _ Es1) in MO2. lia. }
  set (f3 := if can_skip fl then skip_rest fl rest2 f2 else f2).
  assert (F3 : INV f3 /\ ADV f2 f3 /\ f_slots f3 = f_slots f2).
  { unfold f3. destruct (can_skip fl); [now apply skip_rest_spec|]. split; [assumption|]. split; [apply adv_refl|reflexivity]. }
  destruct F3 as (I3 & A3 & S3).
  eexists. exists f3. split; [reflexivity|]. constructor; cbn [r_buf r_group r_skip r_keys r_count r_expired g_msgs g_slots g_last g_index g_int g_ext]; auto.
  - eexists. split; [reflexivity|]. auto.
  - intros k s Es. rewrite S3 in Es. now apply ALL in Es.
  - rewrite S3. rewrite <- (akeys_len (f_slots f2)), K2, akeys_len. assumption.
  - intros a. unfold f3. destruct (can_skip fl) eqn:EC.
    + destruct (skip_rest_clean fl g0 rest2 f2 CL2 a) as [[]|H]. exact H.
    + left. intros m _. destruct fl; [reflexivity|discriminate].
  - intros a W NR. rewrite S3.
    destruct (vis_keep chk skipped _ _ _ A3 V2 a W) as [R|[R|R]]; [contradiction| |].
    + right. split.
      * intros k s Es. destruct (ALL k s Es) as [[_ [H|H]] _]; [now rewrite (slot_of_some _ _ _ Es) in H|subst rest2; destruct R].
      * destruct R1 as [R1|R1].
        { rewrite R1 in Ep. destruct p; [|discriminate]. cbn in Ep. rewrite <- Ep in R. destruct R. }
        rewrite <- (akeys_len (f_slots f2)), K2, akeys_len. assumption.
    + left. apply (si_in _ _ _ (proj2 I3)) in R as (id & s & Es & Ha). rewrite S3 in Es.
      exists id, s. split; [assumption|]. split; [assumption|].
      destruct (ALL id s Es) as [[FI _] _]. destruct (FI s Es) as [H|H]; [assumption|].
      destruct (H a Ha) as [H1|H1]; [contradiction|]. destruct (W (adv_w _ _ A3 _ H1)).
Qed.

(** ** The results are well formed *)
Hypothesis HV : 1 <= V.
Hypothesis WB : wf_buffer b0.
Hypothesis WG : wf_group V g0.

Lemma out_buffer r f : OUT r f -> wf_buffer (r_buf r).
Proof.
  intros O. rewrite (ou_buf _ _ O). destruct (ou_inv _ _ O) as [C S].
  assert (ND : NoDup (akeys (b_msgs (f_buf f)))) by (rewrite (ci_keys _ _ _ _ _ _ _ C); apply (wb_keys _ WB)).
  destruct (ci_tot _ _ _ _ _ _ _ C) as (mv & ex & T1 & T2 & T3 & T4 & T5 & T6 & T7 & T8 & T9).
  constructor; unfold finish; cbn [b_msgs b_int b_ext b_min]; fold (nonempty (b_msgs (f_buf f))).
  - now apply nonempty_nodup.
  - intros a l. rewrite nonempty_get by assumption. destruct (mget a (b_msgs (f_buf f))) as [[|x l0]|] eqn:E; try discriminate.
    intros [= <-]. split; [discriminate|].
    destruct (ci_acc _ _ _ _ _ _ _ C a) as (p & q & Hw & _ & Hw' & _).
    rewrite (waiting_get _ _ _ E) in Hw'.
    assert (FB : Forall (fun m => m_acc m = a) (waiting a b0)).
    { unfold waiting, of_acc. destruct (mget a (b_msgs b0)) as [v|] eqn:Ev; [now apply (wb_acc _ WB) in Ev|constructor]. }
    rewrite Hw in FB. apply Forall_app in FB as [_ FB]. destruct Hw' as [->| ->]; [assumption|].
    rewrite Forall_forall in *. intros m Hm. apply filter_In in Hm as [Hm _]. now apply FB.
  - rewrite nonempty_all, T8, (wb_int _ WB), (nint_perm _ _ T1), !nint_app. destruct (skipped_next _ _ T6) as [_ ->]. lia.
  - rewrite nonempty_all, T9, (wb_ext _ WB), (next_perm _ _ T1), !next_app. destruct (skipped_next _ _ T6) as [-> _]. lia.
  - rewrite nonempty_all. intros m ct Hm Hct. destruct (is_nil (nonempty (b_msgs (f_buf f)))) eqn:En.
    + exfalso. destruct (nonempty (b_msgs (f_buf f))) eqn:E; [|discriminate]. rewrite <- nonempty_all, E in Hm. destruct Hm.
    + rewrite (ci_min _ _ _ _ _ _ _ C). apply (wb_min _ WB m); [|assumption].
      apply (Permutation_in _ (Permutation_sym T1)). apply in_or_app. now left.
Qed.

Lemma out_group r f : OUT r f -> wf_group V (r_group r).
Proof.
  intros O. destruct (ou_inv _ _ O) as [C S].
  destruct (ci_tot _ _ _ _ _ _ _ C) as (mv & ex & T1 & T2 & T3 & T4 & T5 & T6 & T7 & T8 & T9).
  destruct (ou_idx _ _ O) as (x & Ex & X1 & X2 & X3).
  assert (IN : forall j k, In j (nth k (k_index x) []) <-> In j (nth k (g_index g0) []) \/ exists u, In (j, u) (f_upds f) /\ k = u_ni u + u_ne u).
  { intros j k. rewrite Ex, apply_index. cbn [k_index]. now rewrite presize_nth. }
  assert (RM : forall old l j, In (old, l) (k_rem x) -> In j l -> exists u, In (j, u) (f_upds f) /\ old = u_oi u + u_oe u).
  { intros old l j H Hj. rewrite Ex in H. destruct (apply_rem _ _ _ _ _ H Hj) as [(l' & [] & _)|]; assumption. }
  assert (UP : forall j u, In (j, u) (f_upds f) <-> sget j (f_upds f) = Some u)
    by (intros j u; apply (aget_in Nat.eqb Nateqs); apply (si_upd_nd _ _ _ S)).
  assert (SM : k_int x = (g_int g0 + Z.of_nat (nint mv))%Z /\ k_ext x = (g_ext g0 + Z.of_nat (next mv))%Z).
  { destruct (apply_sums (f_upds f) (mkIdx [] (presize V (g_index g0)) (g_int g0) (g_ext g0))) as [H1 H2].
    rewrite <- Ex in H1, H2. cbn [k_int k_ext] in *. rewrite H1, H2. destruct (si_sum _ _ _ S) as [-> ->].
    rewrite T3, map_length, T4. fold (nint mv). pose proof (int_ext_len mv). split; lia. }
  constructor; unfold collected; rewrite ?(ou_msgs _ _ O), ?(ou_slots _ _ O), ?(ou_last _ _ O).
  - apply (ci_nd _ _ _ _ _ _ _ C).
  - intros a l E. split; [exact (ci_ne _ _ _ _ _ _ _ C a l E)|].
    destruct (ci_acc _ _ _ _ _ _ _ C a) as (p & q & Hw & Hg & _). unfold of_acc in Hg. rewrite E in Hg. subst l.
    apply Forall_app. split.
    + unfold collected, of_acc. destruct (mget a (g_msgs g0)) as [v|] eqn:Ev; [now apply (wg_acc _ _ WG) in Ev|constructor].
    + assert (FB : Forall (fun m => m_acc m = a) (waiting a b0)).
      { unfold waiting, of_acc. destruct (mget a (b_msgs b0)) as [v|] eqn:Ev; [now apply (wb_acc _ WB) in Ev|constructor]. }
      rewrite Hw in FB. apply Forall_app in FB as [FB _].
      rewrite Forall_forall in *. intros m Hm. apply filter_In in Hm as [Hm _]. now apply FB.
  - apply (si_nd _ _ _ S).
  - intros id s Es. destruct (si_slot _ _ _ S _ _ Es) as (H1 & H2 & H3 & H4). pose proof (ou_cnt _ _ O _ _ Es).
    split; [assumption|]. split; [assumption|]. split; [assumption|lia].
  - apply (si_in _ _ _ S).
  - apply (si_once _ _ _ S).
  - rewrite X2, (proj1 SM), (wg_int _ _ WG), (nint_perm _ _ T2), nint_app. lia.
  - rewrite X3, (proj2 SM), (wg_ext _ _ WG), (next_perm _ _ T2), next_app. lia.
  - apply (si_last _ _ _ S).
  - intros id s Es. rewrite X1. apply drop_old_keep.
    + apply IN. destruct (sget id (f_upds f)) as [u|] eqn:Eu.
      * right. exists u. split; [now apply UP|]. destruct (si_upd _ _ _ S _ _ Eu) as (s1 & Es1 & U1 & U2 & _).
        assert (s1 = s) as -> by congruence. unfold s_count. lia.
      * left. destruct (si_same _ _ _ S _ Eu) as [H|[H1 _]].
        -- rewrite H in Es. exact (wg_index _ _ WG _ _ Es).
        -- exfalso. rewrite H1 in Es. injection Es as <-. pose proof (ou_cnt _ _ O _ _ H1) as H. cbn in H. lia.
    + intros l Hl Hin. destruct (RM _ _ _ Hl Hin) as (u & Hu & Eo). apply UP in Hu.
      destruct (si_upd _ _ _ S _ _ Hu) as (s1 & Es1 & U1 & U2 & _ & _ & U5).
      assert (s1 = s) as -> by congruence. unfold s_count in Eo. lia.
  - intros id n. rewrite X1. intros H. apply drop_old_sub in H. apply IN in H as [H|(u & Hu & _)].
    + apply (si_grow _ _ _ S). exact (wg_index_ids _ _ WG _ _ H).
    + apply UP in Hu. destruct (si_upd _ _ _ S _ _ Hu) as (s & Es & _). apply sget_in. eauto.
Qed.

End Main.
