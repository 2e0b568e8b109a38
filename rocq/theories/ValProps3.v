(** C42: the signatures collected for a block; C43: cancellation is not lost. *)
From Coq Require Import NArith Lia List Bool ZArith ZifyN ZifyBool Permutation.
From Verif Require Import AMap StatsSpec StatsProofs ValModel ValInv ValStep ValUniq ValProps ValProps2.
Import ListNotations.
Open Scope N_scope.
Local Opaque u64_mod u32_top.

(* ------------------------------------------------------------------ monotonicity of every step *)
Definition obj_mono (c : vcfg) (x x' : vobj) : Prop := obj_le c x x' /\ (vo_validated x = true -> vo_validated x' = true).
Lemma obj_mono_refl c x : obj_mono c x x. Proof. split; [exact (obj_le_refl c x)|auto]. Qed.
Record mono (c : vcfg) (s s' : vst) : Prop := {
  m_obj : forall o x, get_obj s o = Some x -> exists x', get_obj s' o = Some x' /\ obj_mono c x x';
  m_until : vs_until s <= vs_until s';
  m_tok : vs_token s = true -> vs_token s' = true }.
Lemma mono_refl c s : mono c s s.
Proof. constructor; [|lia|auto]. intros o x G. exists x. split; [auto|apply obj_mono_refl]. Qed.
Lemma obj_mono_trans c x y z : obj_mono c x y -> obj_mono c y z -> obj_mono c x z.
Proof.
  intros [(A1 & A2 & A3 & A4 & A5) A6] [(B1 & B2 & B3 & B4 & B5) B6]. split; [|auto]. split; [congruence|]. split; [congruence|]. split; [auto|]. split; [lia|auto].
Qed.
Lemma mono_trans c s1 s2 s3 : mono c s1 s2 -> mono c s2 s3 -> mono c s1 s3.
Proof.
  intros A B. constructor; [|pose proof (m_until _ _ _ A); pose proof (m_until _ _ _ B); lia|intros H; apply (m_tok _ _ _ B), (m_tok _ _ _ A), H].
  intros o x G. destruct (m_obj _ _ _ A _ _ G) as (y & G2 & M). destruct (m_obj _ _ _ B _ _ G2) as (z & G3 & M2). exists z. split; [auto|eapply obj_mono_trans; eauto].
Qed.
Lemma mono_objs c s s' : vs_objs s' = vs_objs s -> vs_until s <= vs_until s' -> (vs_token s = true -> vs_token s' = true) -> mono c s s'.
Proof. intros O U T. constructor; auto. intros o x G. exists x. unfold get_obj in *. rewrite O. split; [auto|apply obj_mono_refl]. Qed.
Lemma mono_set c s o x x' s' : get_obj s o = Some x -> obj_mono c x x' -> vs_objs s' = aset N.eqb o x' (vs_objs s) ->
  vs_until s' = vs_until s -> vs_token s' = vs_token s -> mono c s s'.
Proof.
  intros G M O U T. constructor; rewrite ?U, ?T; [|lia|auto]. intros o' y Gy. unfold get_obj in *. rewrite O, nget_aset. destruct (N.eqb_spec o' o) as [->|].
  - rewrite G in Gy. injection Gy as <-. exists x'. auto.
  - exists y. split; [auto|apply obj_mono_refl].
Qed.
Lemma mono_fresh c s o x' s' : get_obj s o = None -> vs_objs s' = aset N.eqb o x' (vs_objs s) ->
  vs_until s' = vs_until s -> vs_token s' = vs_token s -> mono c s s'.
Proof.
  intros G O U T. constructor; rewrite ?U, ?T; [|lia|auto]. intros o' y Gy. unfold get_obj in *. rewrite O, nget_aset. destruct (N.eqb_spec o' o) as [->|].
  - congruence.
  - exists y. split; [auto|apply obj_mono_refl].
Qed.

Lemma mono_slot c s o x p sg : cfg_ok c -> Inv c s -> get_obj s o = Some x -> slot_of p (vo_slots x) = Some None -> obj_mono c x (obj_slot p sg x).
Proof.
  intros CK I G Sl. pose proof (ok_keys _ _ _ _ (i_obj _ _ I _ _ G)) as K. split; [|auto]. split; [reflexivity|]. split; [reflexivity|]. split; [|split; [|auto]].
  - intros p' sg' H. cbn [obj_slot vo_slots]. rewrite nget_aset. destruct (N.eqb_spec p' p) as [->|]; [unfold slot_of in Sl; congruence|auto].
  - cbn [obj_slot vo_slots]. unfold slot_of in Sl. rewrite fsum_fill; [lia| |exact Sl]. rewrite K. pose proof (ck_nd _ CK) as Nd. unfold vall in Nd. inversion Nd; auto.
Qed.

Lemma vstep_mono c s a s' : cfg_ok c -> Inv c s -> vstep c s a = Some s' -> mono c s s'.
Proof.
  intros CK I R. pose proof (i_until _ _ I) as UT.
  destruct a; cbn [vstep] in R; try (bust R; apply mono_objs; [reflexivity|apply N.le_refl|auto]; fail).
  destruct (aget N.eqb t (vs_ths s)) as [th|] eqn:G; [|discriminate].
  destruct th; cbn [run_th run_add run_task run_exch run_cancel run_validate] in R; cbv zeta in R;
    try (destruct k); try (destruct todo); try discriminate R; bust R;
    try (apply mono_objs; [reflexivity|cbn [vs_until set_th set_until set_obj set_token set_min set_caches set_blocks set_cobj bump spawn]; lia|auto]; fail);
    try (eapply mono_set; [eassumption| |reflexivity|reflexivity|reflexivity];
         split; [split; [reflexivity|split; [reflexivity|split; [auto|split; [apply N.le_refl|auto]]]]|auto]; fail);
    try (eapply mono_fresh; [|reflexivity|reflexivity|reflexivity]; apply (i_fobj _ _ I); lia; fail);
    try (eapply mono_set; [eassumption|eapply mono_slot; eauto|reflexivity|reflexivity|reflexivity]; fail).
  1-2: destruct can; [eapply mono_set; [eassumption| |reflexivity|reflexivity|reflexivity];
         split; [split; [reflexivity|split; [reflexivity|split; [auto|split; [apply N.le_refl|auto]]]]|auto]|apply mono_objs; [reflexivity|apply N.le_refl|auto]].
  destruct (aget N.eqb t (vs_ths s)) as [[]|]; try discriminate R. destruct (aget N.eqb u (vs_ths s)) as [[]|]; try discriminate R.
  destruct (_ && _); [|discriminate R]. destruct (aget N.eqb _ (vc_vals c)); injection R as <-; (apply mono_objs; [reflexivity|apply N.le_refl|auto]).
Qed.
Lemma vrun_mono c l : cfg_ok c -> forall s s', Inv2 c s -> vrun c s l = Some s' -> mono c s s'.
Proof.
  intros CK. induction l as [|a l IH]; cbn [vrun]; intros s s' I R; [injection R as <-; apply mono_refl|]. destruct (vstep c s a) as [s1|] eqn:E; [|discriminate].
  eapply mono_trans; [eapply vstep_mono; eauto; apply I|]. apply IH; [eapply vstep_inv; eauto|exact R].
Qed.

(* ------------------------------------------------------------------ C42 *)
(** Specification: the signatures the session has accepted for the block registered under object [o] *)
Definition accepted (s : vst) (o p sg : N) : Prop :=
  exists x, aget N.eqb o (vs_objs s) = Some x /\ aget N.eqb p (vo_slots x) = Some (Some sg).
Definition block_of (s : vst) (o : N) (b : vblock) : Prop := exists x, aget N.eqb o (vs_objs s) = Some x /\ vo_blk x = b.

(** Every accepted signature is of a member of the validator set other than the node, and verifies for
    exactly the block it is stored with; so no peer, whatever it sends, gets an invalid signature counted. *)
Theorem C42_accepted_valid : forall vals own slots keep ver sgn start l c s o b p sg,
  session_state vals own slots keep ver sgn start l c s -> total_weight vals < 2 ^ 64 ->
  block_of s o b -> accepted s o p sg ->
  In p (map fst vals) /\ p <> own /\ ver p (vdata b) sg = true.
Proof.
  intros vals own slots keep ver sgn start l c s o b p sg SS W (x & Gx & Bx) (x' & Gx' & Sx).
  destruct (session_good _ _ _ _ _ _ _ _ _ _ SS W) as (CK & I2 & Us). destruct SS as (Nd & New & Run).
  rewrite Gx in Gx'. injection Gx' as <-. pose proof (i_obj _ _ (proj1 I2) _ _ Gx) as OK.
  assert (Hp : In p (vkeys c)) by (rewrite <- (ok_keys _ _ _ _ OK); apply nget_in; eauto).
  pose proof (ck_nd _ CK) as Nd2. unfold vall in Nd2. inversion Nd2 as [|? ? Hn Hd]; subst.
  destruct (new_fields _ _ _ _ _ _ _ Nd New) as (E1 & E2 & _). split; [|split].
  - eapply Permutation_in; [apply (new_perm _ _ _ _ _ _ _ Nd New)|]. right. exact Hp.
  - intros ->. rewrite E1 in Hn. contradiction.
  - rewrite <- E2. apply (ok_valid _ _ _ _ OK _ _ Sx).
Qed.

(** An accepted signature is never dropped or replaced, whatever happens afterwards. *)
Theorem C42_accepted_stable : forall vals own slots keep ver sgn start l c s l' s' o b p sg,
  session_state vals own slots keep ver sgn start l c s -> total_weight vals < 2 ^ 64 ->
  vrun c s l' = Some s' -> block_of s o b -> accepted s o p sg -> block_of s' o b /\ accepted s' o p sg.
Proof.
  intros vals own slots keep ver sgn start l c s l' s' o b p sg SS W R (x & Gx & Bx) (x' & Gx' & Sx).
  destruct (session_good _ _ _ _ _ _ _ _ _ _ SS W) as (CK & I2 & Us). rewrite Gx in Gx'. injection Gx' as <-.
  destruct (m_obj _ _ _ (vrun_mono _ _ CK _ _ I2 R) _ _ Gx) as (y & Gy & (A1 & A2 & A3 & A4 & A5) & A6).
  split; exists y; (split; [exact Gy|]); [congruence|auto].
Qed.

(** the weight of the signatures accepted for an object, the node's own included *)
Definition collected (vals : list (N * N)) (own : N) (x : vobj) : N :=
  weight_of vals own + weight_all vals (map fst (filter (fun e => match snd e with Some _ => true | None => false end) (vo_slots x))).

Lemma collected_eq vals own slots keep ver sgn c s o x : NoDup (map fst vals) -> vnew vals own slots keep ver sgn = Some c -> cfg_ok c -> Inv c s -> get_obj s o = Some x ->
  collected vals own x = vc_ownw c + fsum c (vo_slots x).
Proof.
  intros Nd New CK I G. destruct (new_fields _ _ _ _ _ _ _ Nd New) as (E1 & _ & _ & _ & _ & E6 & _). unfold collected, weight_of at 1. rewrite E6. f_equal.
  pose proof (ok_keys _ _ _ _ (i_obj _ _ I _ _ G)) as K. pose proof (ck_nd _ CK) as Nd2. unfold vall in Nd2. inversion Nd2 as [|? ? Hn Hd]; subst.
  assert (Hk : forall p, In p (akeys (vo_slots x)) -> p <> vc_own c) by (intros p Hp ->; rewrite K in Hp; contradiction).
  unfold weight_all, fsum. revert Hk. generalize (vo_slots x). intros m. induction m as [|[p v] m IH]; intros Hk; [reflexivity|].
  cbn [filter snd map fst akeys] in *. rewrite (lsum_cons _ (p, v)). cbn [fst snd]. rewrite <- IH by (intros q Hq; apply Hk; right; exact Hq). destruct v; [|lia].
  cbn [map fst]. rewrite lsum_cons. f_equal. rewrite <- (new_wta _ _ _ _ _ _ _ Nd New). unfold wta. destruct (N.eqb_spec p (vc_own c)) as [E|]; [|reflexivity].
  exfalso. apply (Hk p); [left; reflexivity|exact E].
Qed.

(** A block is marked validated only when the accepted signatures, with the node's own, exceed two thirds of
    the total weight; and the running sum never exceeds their weight. *)
Theorem C42_validated_is_quorum : forall vals own slots keep ver sgn start l c s o x,
  session_state vals own slots keep ver sgn start l c s -> 2 * total_weight vals < 2 ^ 64 ->
  aget N.eqb o (vs_objs s) = Some x ->
  vo_weight x <= collected vals own x /\ collected vals own x <= total_weight vals /\
  (vo_validated x = true -> 2 * total_weight vals < 3 * collected vals own x).
Proof.
  intros vals own slots keep ver sgn start l c s o x SS W G.
  destruct (session_good _ _ _ _ _ _ _ _ _ _ SS ltac:(lia)) as (CK & I2 & Us). destruct SS as (Nd & New & Run).
  rewrite (collected_eq _ _ _ _ _ _ _ _ _ _ Nd New CK (proj1 I2) G). pose proof (proj2 (proj2 I2) _ _ G) as Wx. pose proof (i_obj _ _ (proj1 I2) _ _ G) as OK.
  split; [lia|]. split.
  - pose proof (fsum_le c (vo_slots x)) as L. rewrite (ok_keys _ _ _ _ OK) in L. pose proof (vall_sum c (ck_nd _ CK)) as V.
    rewrite (lsum_perm _ _ _ (new_perm _ _ _ _ _ _ _ Nd New)) in V. rewrite (lsum_ext (wta c) (weight_of vals)) in V by (intros; apply (new_wta _ _ _ _ _ _ _ Nd New)).
    rewrite weight_sum_keys in V by auto. lia.
  - intros V. apply thr_gt. rewrite <- (new_thr _ _ _ _ _ _ _ Nd New W). apply (ok_vd _ _ _ _ OK V).
Qed.

(** converse: no quorum is missed. A thread still busy adding a signature to [o]: *)
Definition adding (o : N) (th : vth) : Prop := match th with AAdd _ o' _ _ | AFlag _ o' _ _ _ => o' = o | _ => False end.
Definition VF (c : vcfg) (s : vst) : Prop := forall o x, get_obj s o = Some x -> vc_thr c <= vo_weight x ->
  vo_validated x = true \/ exists t k p sg, get_th s t = Some (AFlag k o p sg true).
Lemma VF_th c s t th0 th : VF c s -> get_th s t = Some th0 -> (forall k o p sg, th0 <> AFlag k o p sg true) -> VF c (set_th t th s).
Proof.
  intros V G Hn o x Go Wx. destruct (V o x Go Wx) as [H|(t1 & k & p & sg & H)]; [auto|]. right. exists t1, k, p, sg. rewrite get_th_set.
  destruct (N.eqb_spec t1 t) as [->|]; [|exact H]. exfalso. rewrite G in H. injection H as ->. eapply Hn. reflexivity.
Qed.
Lemma VF_same c s s' : VF c s -> vs_ths s' = vs_ths s -> vs_objs s' = vs_objs s -> VF c s'.
Proof. intros V T O. unfold VF, get_obj, get_th in *. rewrite T, O. exact V. Qed.
Lemma VF_spawn c s th : (forall t, vs_fresh s <= t -> get_th s t = None) -> VF c s -> VF c (spawn th s).
Proof.
  intros F V. apply (VF_same c (set_th (vs_fresh s) th s)); [|reflexivity|reflexivity]. intros o x Go Wx. destruct (V o x Go Wx) as [H|(t1 & k & p & sg & H)]; [auto|]. right.
  exists t1, k, p, sg. rewrite get_th_set. destruct (N.eqb_spec t1 (vs_fresh s)) as [->|]; [|exact H]. rewrite F in H; [discriminate|lia].
Qed.
Lemma VF_obj c s o x x' : VF c s -> get_obj s o = Some x -> vo_weight x' = vo_weight x -> (vo_validated x = true -> vo_validated x' = true) -> VF c (set_obj o x' s).
Proof.
  intros V G E H o' y Gy Wy. rewrite get_obj_set in Gy. destruct (N.eqb_spec o' o) as [->|]; [|exact (V _ _ Gy Wy)]. injection Gy as <-. rewrite E in Wy.
  destruct (V _ _ G Wy); auto.
Qed.
Lemma vstep_VF c s a s' : cfg_ok c -> Inv2 c s -> VF c s -> vstep c s a = Some s' -> VF c s'.
Proof.
  intros CK I2 V R. pose proof (proj1 I2) as I. pose proof (i_fth _ _ I) as F.
  destruct a; cbn [vstep] in R; try (bust R; apply VF_spawn; assumption).
  2: { destruct (aget N.eqb t (vs_ths s)) as [[]|] eqn:G; try discriminate R. injection R as <-. eapply VF_th; [exact V|exact G|discriminate]. }
  2: { destruct (aget N.eqb t (vs_ths s)) as [[]|] eqn:G; try discriminate R. destruct (aget N.eqb u (vs_ths s)) as [[]|]; try discriminate R.
       destruct (_ && _); [|discriminate R]. destruct (aget N.eqb _ (vc_vals c)); injection R as <-; (eapply VF_th; [exact V|exact G|discriminate]). }
  2: { destruct (aget N.eqb t (vs_ths s)) as [[]|] eqn:G; try discriminate R. bust R. eapply VF_th; [exact V|exact G|discriminate]. }
  destruct (aget N.eqb t (vs_ths s)) as [th|] eqn:G; [|discriminate].
  destruct th; cbn [run_th run_add run_task run_exch run_cancel run_validate] in R; cbv zeta in R;
    try (destruct todo); try discriminate R; try (bust R;
      match goal with |- VF c (set_th t ?th ?s2) => eapply (VF_th c s2 t _ th); [|exact G|discriminate] end;
      first [exact V | apply (VF_same c s); [exact V|reflexivity|reflexivity]
            | apply VF_spawn; assumption
            | eapply VF_obj; [exact V|eassumption|reflexivity|auto] ]; fail).
  - (* VInsert *)
    destruct (aget N.eqb (vb_seqno b) (vs_blocks s)); injection R as <-.
    + apply (VF_th c s t _ _ V G). discriminate.
    + match goal with |- VF c (set_th t ?th ?s2) => eapply (VF_th c s2 t _ th); [|exact G|discriminate] end.
      match goal with |- VF c (bump (set_blocks _ ?s2)) => apply (VF_same c s2); [|reflexivity|reflexivity] end.
      intros o' y Gy Wy. rewrite get_obj_set in Gy. destruct (N.eqb_spec o' (vs_fresh s)) as [->|]; [|exact (V _ _ Gy Wy)]. injection Gy as <-. cbn [vo_weight vo_validated] in *. left. lia.
  - (* VSpawn *) injection R as <-. match goal with |- VF c (set_th t ?th ?s2) => eapply (VF_th c s2 t (VSpawn b o cid p [] res total pend) th); [apply VF_spawn; assumption| |discriminate] end.
    match goal with |- get_th (spawn ?a ?b') t = _ => change (get_th (spawn a b') t) with (get_th (set_th (vs_fresh b') a b') t) end. rewrite get_th_set.
    destruct (N.eqb_spec t (vs_fresh s)) as [->|]; [|exact G]. specialize (F (vs_fresh s) (N.le_refl _)). unfold get_th in F. congruence.
  - (* VSpawn *) injection R as <-. match goal with |- VF c (set_th t ?th ?s2) => eapply (VF_th c s2 t (VSpawn b o cid p (n :: todo) res total pend) th); [apply VF_spawn; assumption| |discriminate] end.
    match goal with |- get_th (spawn ?a ?b') t = _ => change (get_th (spawn a b') t) with (get_th (set_th (vs_fresh b') a b') t) end. rewrite get_th_set.
    destruct (N.eqb_spec t (vs_fresh s)) as [->|]; [|exact G]. specialize (F (vs_fresh s) (N.le_refl _)). unfold get_th in F. congruence.
  - (* AAdd *)
    destruct (aget N.eqb o (vs_objs s)) as [x|] eqn:Go; [|discriminate]. destruct (aget N.eqb p (vc_vals c)) as [w|]; [|discriminate]. injection R as <-.
    intros o' y Gy Wy. change (get_obj (set_th t (AFlag k o p s0 (vc_thr c <=? vadd (vo_weight x) w)) (set_obj o (obj_weight (vadd (vo_weight x) w) x) s)) o')
      with (get_obj (set_obj o (obj_weight (vadd (vo_weight x) w) x) s) o') in Gy. rewrite get_obj_set in Gy.
    destruct (N.eqb_spec o' o) as [->|].
    + injection Gy as <-. cbn [obj_weight vo_weight] in Wy. right. exists t, k, p, s0. rewrite get_th_set, N.eqb_refl. apply N.leb_le in Wy. rewrite Wy. reflexivity.
    + destruct (V _ _ Gy Wy) as [H|(t1 & k1 & p1 & sg1 & H)]; [auto|]. right. exists t1, k1, p1, sg1. rewrite get_th_set. destruct (N.eqb_spec t1 t) as [->|]; [|exact H].
      unfold get_th in H. congruence.
  - (* AFlag *)
    destruct (aget N.eqb o (vs_objs s)) as [x|] eqn:Go; [|discriminate]. injection R as <-. destruct can.
    + intros o' y Gy Wy. change (get_obj (set_obj o (obj_validated x) s) o' = Some y) in Gy. rewrite get_obj_set in Gy. destruct (N.eqb_spec o' o) as [->|].
      * injection Gy as <-. left. reflexivity.
      * destruct (V _ _ Gy Wy) as [H|(t1 & k1 & p1 & sg1 & H)]; [auto|]. right. exists t1, k1, p1, sg1. rewrite get_th_set. destruct (N.eqb_spec t1 t) as [->|]; [|exact H].
        unfold get_th in H. congruence.
    + eapply VF_th; [exact V|exact G|]. intros ? ? ? ? E. discriminate E.
Qed.

Lemma reach_VF c start l s : cfg_ok c -> vrun c (vinit c start) l = Some s -> VF c s.
Proof.
  intros CK R. assert (H : Inv2 c (vinit c start) /\ VF c (vinit c start)).
  { split; [apply vinit_inv; auto|]. intros o x G. unfold get_obj in G. rewrite (proj2 (vinit_ths c start)) in G. discriminate G. }
  revert H R. generalize (vinit c start). induction l as [|a l IH]; cbn [vrun]; intros s0 [I V] R; [injection R as <-; exact V|].
  destruct (vstep c s0 a) as [s1|] eqn:E; [|discriminate]. apply (IH s1); [|exact R]. split; [eapply vstep_inv; eauto|eapply vstep_VF; eauto].
Qed.

(** No quorum is missed: when no thread is in the middle of adding a signature to the block and the accepted
    signatures reach the threshold, the block is marked validated (late peers are answered at once), and the
    running sum is exact. *)
Theorem C42_quorum_noticed : forall vals own slots keep ver sgn start l c s o x,
  session_state vals own slots keep ver sgn start l c s -> 2 * total_weight vals < 2 ^ 64 ->
  aget N.eqb o (vs_objs s) = Some x ->
  (forall t th, aget N.eqb t (vs_ths s) = Some th -> ~ adding o th) ->
  vo_weight x = collected vals own x /\ (vo_validated x = true <-> 2 * total_weight vals < 3 * collected vals own x).
Proof.
  intros vals own slots keep ver sgn start l c s o x SS W G Q. pose proof (C42_validated_is_quorum _ _ _ _ _ _ _ _ _ _ _ _ SS W G) as (_ & _ & V1).
  destruct (session_good _ _ _ _ _ _ _ _ _ _ SS ltac:(lia)) as (CK & I2 & Us). destruct SS as (Nd & New & Run).
  pose proof (collected_eq _ _ _ _ _ _ _ _ _ _ Nd New CK (proj1 I2) G) as Ce. pose proof (proj2 (proj2 I2) _ _ G) as Wx.
  assert (P0 : pendw c o (vs_ths s) = 0).
  { unfold pendw. assert (Hz : forall e, In e (vs_ths s) -> pw c o (snd e) = 0).
    { intros [t th] He. assert (Gt : aget N.eqb t (vs_ths s) = Some th) by (apply aget_in; [apply N_spec|apply (i_nd _ _ (proj1 I2))|exact He]).
      specialize (Q _ _ Gt). cbn [snd]. destruct th; cbn [pw adding] in *; auto. destruct (N.eqb_spec o0 o); [contradiction|auto]. }
    revert Hz. generalize (vs_ths s). intros ths. induction ths as [|e ths IH]; intros Hz; [reflexivity|]. rewrite lsum_cons, IH by (intros; apply Hz; right; auto).
    rewrite Hz by (left; auto). reflexivity. }
  assert (E : vo_weight x = collected vals own x) by lia. split; [exact E|]. split; [exact V1|]. intros L.
  destruct (reach_VF c start l s CK Run o x G) as [H|(t & k & p & sg & H)]; [|exact H|exfalso; exact (Q _ _ H eq_refl)].
  rewrite E, (new_thr _ _ _ _ _ _ _ Nd New W). assert (2 * total_weight vals / 3 < collected vals own x) by (apply N.div_lt_upper_bound; lia). lia.
Qed.

(** what an answered Complete means *)
Definition XI (s : vst) : Prop := forall t p q sg, get_th s t = Some (XRet p q (XComplete sg)) ->
  exists o x, get_obj s o = Some x /\ vb_seqno (vo_blk x) = q /\ (vo_validated x = true \/ exists sg', aget N.eqb p (vo_slots x) = Some (Some sg')).
Lemma XI_mono c s s' : mono c s s' -> XI s -> vs_ths s' = vs_ths s -> XI s'.
Proof.
  intros M X T t p q sg G. unfold get_th in G. rewrite T in G. destruct (X _ _ _ _ G) as (o & x & Go & Q & H).
  destruct (m_obj _ _ _ M _ _ Go) as (y & Gy & (A1 & A2 & A3 & _) & A6). exists o, y. split; [auto|]. split; [congruence|]. destruct H as [H|[sg' H]]; [auto|right; eauto].
Qed.
Lemma XI_th s t th : XI s -> (forall p q sg, th = XRet p q (XComplete sg) -> exists o x, get_obj s o = Some x /\ vb_seqno (vo_blk x) = q /\
   (vo_validated x = true \/ exists sg', aget N.eqb p (vo_slots x) = Some (Some sg'))) -> XI (set_th t th s).
Proof.
  intros X H t' p q sg G. rewrite get_th_set in G. destruct (t' =? t); [injection G as ->; exact (H _ _ _ eq_refl)|exact (X _ _ _ _ G)].
Qed.
Lemma vstep_XI c s a s' : cfg_ok c -> Inv2 c s -> XI s -> vstep c s a = Some s' -> XI s'.
Proof.
  intros CK I2 X R. pose proof (proj1 I2) as I. pose proof (vstep_mono _ _ _ _ CK I R) as M.
  (* threads of s' : those of s, except one that moved or was started *)
  assert (K : forall t p q sg, get_th s' t = Some (XRet p q (XComplete sg)) -> get_th s t = Some (XRet p q (XComplete sg)) \/
     exists o x, get_obj s' o = Some x /\ vb_seqno (vo_blk x) = q /\ (vo_validated x = true \/ exists sg', aget N.eqb p (vo_slots x) = Some (Some sg'))).
  { assert (ST : forall t th s2, vs_ths s2 = vs_ths s -> s' = set_th t th s2 ->
       (forall p q sg, th = XRet p q (XComplete sg) -> exists o x, get_obj s' o = Some x /\ vb_seqno (vo_blk x) = q /\ (vo_validated x = true \/ exists sg', aget N.eqb p (vo_slots x) = Some (Some sg'))) ->
       forall t' p q sg, get_th s' t' = Some (XRet p q (XComplete sg)) -> get_th s t' = Some (XRet p q (XComplete sg)) \/
         exists o x, get_obj s' o = Some x /\ vb_seqno (vo_blk x) = q /\ (vo_validated x = true \/ exists sg', aget N.eqb p (vo_slots x) = Some (Some sg'))).
    { intros t th s2 T E H t' p q sg G. rewrite E, get_th_set in G. destruct (t' =? t); [injection G as ->; right; exact (H _ _ _ eq_refl)|]. left. unfold get_th in *. congruence. }
    assert (SP : forall th s2, vs_ths s2 = vs_ths s -> vs_ths s' = aset N.eqb (vs_fresh s) th (vs_ths s) -> (forall p q sg, th <> XRet p q (XComplete sg)) ->
       forall t' p q sg, get_th s' t' = Some (XRet p q (XComplete sg)) -> get_th s t' = Some (XRet p q (XComplete sg)) \/
         exists o x, get_obj s' o = Some x /\ vb_seqno (vo_blk x) = q /\ (vo_validated x = true \/ exists sg', aget N.eqb p (vo_slots x) = Some (Some sg'))).
    { intros th s2 _ E H t' p q sg G. unfold get_th in G. rewrite E, nget_aset in G. destruct (t' =? vs_fresh s); [injection G as ->; exfalso; eapply H; reflexivity|]. left. exact G. }
    destruct a; cbn [vstep] in R.
    1-4: bust R; eapply (SP _ s); [reflexivity|reflexivity|discriminate].
    2: { destruct (aget N.eqb t (vs_ths s)) as [[]|] eqn:G; try discriminate R. injection R as <-. eapply ST; [|reflexivity|discriminate]. reflexivity. }
    2: { destruct (aget N.eqb t (vs_ths s)) as [[]|] eqn:G; try discriminate R. destruct (aget N.eqb u (vs_ths s)) as [[]|]; try discriminate R.
         destruct (_ && _); [|discriminate R]. destruct (aget N.eqb _ (vc_vals c)); injection R as <-; (eapply ST; [|reflexivity|discriminate]; reflexivity). }
    2: { destruct (aget N.eqb t (vs_ths s)) as [[]|] eqn:G; try discriminate R. bust R. eapply ST; [|reflexivity|discriminate]; reflexivity. }
    destruct (aget N.eqb t (vs_ths s)) as [th|] eqn:G; [|discriminate]. pose proof (i_th _ _ I _ _ G) as OK.
    destruct th; cbn [run_th run_add run_task run_exch run_cancel run_validate] in R; cbv zeta in R;
      try (destruct todo); try discriminate R; try (bust R; (eapply ST; [|reflexivity|discriminate]; reflexivity); fail).
    - bust R; (eapply ST; [|reflexivity|intros ? ? ? E'; try destruct (_ <=? _); discriminate E']; reflexivity).
    - bust R; (eapply ST; [|reflexivity|intros ? ? ? E'; try destruct (_ <=? _); discriminate E']; reflexivity).
    - bust R; (eapply ST; [|reflexivity|intros ? ? ? E'; try destruct (_ || _); discriminate E']; reflexivity).
    - injection R as <-. intros t' p' q' sg' G'. rewrite get_th_set in G'. destruct (t' =? t); [discriminate G'|]. left.
      match type of G' with get_th (spawn ?a ?b') _ = _ => change (get_th (spawn a b') t') with (get_th (set_th (vs_fresh b') a b') t') in G' end. rewrite get_th_set in G'.
      destruct (t' =? vs_fresh s); [discriminate G'|exact G'].
    - injection R as <-. intros t' p' q' sg' G'. rewrite get_th_set in G'. destruct (t' =? t); [discriminate G'|]. left.
      match type of G' with get_th (spawn ?a ?b') _ = _ => change (get_th (spawn a b') t') with (get_th (set_th (vs_fresh b') a b') t') in G' end. rewrite get_th_set in G'.
      destruct (t' =? vs_fresh s); [discriminate G'|exact G'].
    - (* ALoad *)
      cbn [th_ok] in OK. destruct (aget N.eqb o (vs_objs s)) as [x|] eqn:Go; [|discriminate]. destruct (slot_of p (vo_slots x)) as [[sv|]|] eqn:Sl; [| |discriminate].
      + injection R as <-. eapply ST; [|reflexivity|]; [reflexivity|]. intros p' q' sg' E. destruct (sv =? s0).
        * destruct k; [|discriminate E]. injection E as <- <- <-. destruct OK as [(y & Gy & Qy) _]. unfold get_obj in Gy. rewrite Go in Gy. injection Gy as <-.
          exists o, x. split; [exact Go|]. split; [exact Qy|]. right. exists sv. exact Sl.
        * destruct k; discriminate E.
      + destruct (aget N.eqb p (vc_vals c)); injection R as <-; (eapply ST; [|reflexivity|]; [reflexivity|]); intros p' q' sg' E; [|discriminate E].
        destruct (vc_verify c p _ _); [discriminate E|destruct k; discriminate E].
    - (* ACas *)
      destruct (aget N.eqb o (vs_objs s)) as [x|] eqn:Go; [|discriminate]. destruct (slot_of p (vo_slots x)) as [[sv|]|] eqn:Sl; [| |discriminate]; injection R as <-;
        (eapply ST; [|reflexivity|]; [reflexivity|]); intros p' q' sg' E; [|discriminate E]. destruct (sv =? s0); [discriminate E|destruct k; discriminate E].
    - (* AFlag *)
      cbn [th_ok] in OK. destruct (aget N.eqb o (vs_objs s)) as [x|] eqn:Go; [|discriminate]. injection R as <-.
      eapply ST; [|reflexivity|]; [destruct can; reflexivity|]. intros p' q' sg' E. destruct k as [q''|]; [|discriminate E]. injection E as <- <- <-.
      destruct OK as ((y & Gy & Qy) & _ & (z & Gz & Sz) & _). unfold get_obj in Gy, Gz. rewrite Go in Gy, Gz. injection Gy as <-. injection Gz as <-.
      destruct (m_obj _ _ _ M _ _ Go) as (x' & Gx' & (A1 & A2 & A3 & _) & A6). exists o, x'. split; [exact Gx'|]. split; [congruence|]. right. exists s0. apply A3. exact Sz.
    - bust R; (eapply ST; [|reflexivity|intros ? ? ? E'; try destruct (vs_token s); discriminate E']; reflexivity).
    - (* XFlag *)
      cbn [th_ok] in OK. destruct (aget N.eqb o (vs_objs s)) as [x|] eqn:Go; [|discriminate]. injection R as <-.
      eapply ST; [|reflexivity|]; [reflexivity|]. intros p' q' sg' E. destruct (vo_validated x) eqn:V; [|discriminate E]. injection E as <- <- <-.
      destruct OK as [(y & Gy & Qy) _]. unfold get_obj in Gy. rewrite Go in Gy. injection Gy as <-. exists o, x. auto. }
  intros t p q sg G. destruct (K _ _ _ _ G) as [G0|H]; [|exact H]. destruct (X _ _ _ _ G0) as (o & x & Go & Q & H).
  destruct (m_obj _ _ _ M _ _ Go) as (y & Gy & (A1 & A2 & A3 & _) & A6). exists o, y. split; [auto|]. split; [congruence|]. destruct H as [H|[sg' H]]; [auto|right; eauto].
Qed.
Lemma reach_XI c start l s : cfg_ok c -> vrun c (vinit c start) l = Some s -> XI s.
Proof.
  intros CK R. assert (H : Inv2 c (vinit c start) /\ XI (vinit c start)).
  { split; [apply vinit_inv; auto|]. intros t p q sg G. unfold get_th in G. rewrite (proj1 (vinit_ths c start)) in G. discriminate G. }
  revert H R. generalize (vinit c start). induction l as [|a l IH]; cbn [vrun]; intros s0 [I V] R; [injection R as <-; exact V|].
  destruct (vstep c s0 a) as [s1|] eqn:E; [|discriminate]. apply (IH s1); [|exact R]. split; [eapply vstep_inv; eauto|eapply vstep_XI; eauto].
Qed.
(** A peer is given the node's signature only after a signature of that peer for the same block was accepted,
    or once the block has a quorum. *)
Theorem C42_answer_needs_signature : forall vals own slots keep ver sgn start l c s t p q sg,
  session_state vals own slots keep ver sgn start l c s -> 2 * total_weight vals < 2 ^ 64 ->
  answered s t p q (XComplete sg) ->
  exists o x, aget N.eqb o (vs_objs s) = Some x /\ vb_seqno (vo_blk x) = q /\
    (2 * total_weight vals < 3 * collected vals own x \/ exists sg', accepted s o p sg' /\ ver p (vdata (vo_blk x)) sg' = true).
Proof.
  intros vals own slots keep ver sgn start l c s t p q sg SS W A.
  destruct (session_good _ _ _ _ _ _ _ _ _ _ SS ltac:(lia)) as (CK & I2 & Us).
  destruct (reach_XI c start l s CK (proj2 (proj2 SS)) _ _ _ _ A) as (o & x & Go & Q & H). exists o, x. split; [exact Go|]. split; [exact Q|].
  destruct H as [H|[sg' H]].
  - left. apply (proj2 (proj2 (C42_validated_is_quorum _ _ _ _ _ _ _ _ _ _ _ _ SS W Go)) H).
  - right. exists sg'. assert (Ac : accepted s o p sg') by (exists x; auto). split; [exact Ac|].
    eapply (C42_accepted_valid _ _ _ _ _ _ _ _ _ _ _ _ _ _ SS ltac:(lia)); [exists x; split; [exact Go|reflexivity]|exact Ac].
Qed.
