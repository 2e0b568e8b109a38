(** C43: cancellation of validation is not lost, is confined to the cancelled seqnos, and terminates. *)
From Coq Require Import NArith Lia List Bool ZArith ZifyN ZifyBool Permutation.
From Verif Require Import AMap StatsSpec StatsProofs ValModel ValInv ValStep ValUniq ValProps ValProps2 ValProps3.
Import ListNotations.
Open Scope N_scope.
Local Opaque u64_mod u32_top.

(* ------------------------------------------------------------------ specification *)
(** a cancellation covering seqno [q] has returned *)
Definition cancelled_returned (s : vst) (q : N) : Prop :=
  exists u, aget N.eqb u (vs_ths s) = Some CRet \/ exists q', aget N.eqb u (vs_ths s) = Some (URet q') /\ q <= q'.
(** thread [t] is a validate_block(b) call, running or returned *)
Definition validating (s : vst) (t : N) (b : vblock) : Prop := exists th, aget N.eqb t (vs_ths s) = Some th /\ blk_of th = Some b.
(** a label by which only thread [t] moves, with no help of the network, peers, or other tasks *)
Definition own_label (t : N) (a : vlabel) : Prop := a = LRun t \/ a = LSkip t.

(* ------------------------------------------------------------------ progress *)
Section Progress.
  Variable c : vcfg.
  Hypothesis CK : cfg_ok c.
  Definition meas (th : vth) : N :=
    let K := N.of_nat (length (vkeys c)) in
    match th with
    | VBegin _ => 20 + 3 * K + vc_slots c
    | VMin _ => 19 + 3 * K + vc_slots c
    | VSlotLoad _ => 18 + 3 * K + vc_slots c
    | VSlots _ i to => 17 + 3 * K + (to - i)
    | VPeek _ => 16 + 3 * K
    | VBuild _ _ todo _ _ => 15 + 2 * K + N.of_nat (length todo)
    | VInsert _ _ _ _ => 14 + 2 * K
    | VCheck1 _ _ _ => 13 + 2 * K
    | VCheck2 _ _ _ => 12 + 2 * K
    | VUncache _ _ _ => 11 + 2 * K
    | VScan _ _ _ todo _ _ _ => 5 + 2 * N.of_nat (length todo)
    | VSpawn _ _ _ _ todo _ _ _ => 6 + 2 * N.of_nat (length todo)
    | VWait _ _ _ _ _ => 4
    | VFail1 _ _ => 3
    | VFail2 _ => 2
    | _ => 0
    end.

  Lemma valid_enabled s t th b : Good c s -> aget N.eqb t (vs_ths s) = Some th -> blk_of th = Some b -> (forall r, th <> VRet b r) ->
    cancelled_returned s (vb_seqno b) ->
    exists a s' th', own_label t a /\ vstep c s a = Some s' /\ aget N.eqb t (vs_ths s') = Some th' /\ blk_of th' = Some b /\ meas th' < meas th /\
      (forall u thu, u <> t -> aget N.eqb u (vs_ths s) = Some thu -> aget N.eqb u (vs_ths s') = Some thu).
  Proof.
    intros [I2 Us] G B Nr C. pose proof (proj1 I2) as I. pose proof (i_th _ _ I _ _ G) as OK.
    assert (UQ : vb_seqno b <= u32_top -> vb_seqno b <= vs_until s).
    { intros L. destruct C as (u & [Gu|(q' & Gu & Lq)]); pose proof (i_th _ _ I _ _ Gu) as Hu; cbn [th_ok] in Hu; lia. }
    assert (CA : forall th1 o x, aget N.eqb t (vs_ths s) = Some th1 -> pas_of th1 = Some (b, o) -> get_obj s o = Some x -> vo_cancelled x || vs_token s = true).
    { intros th1 o x G1 P Go. destruct C as (u & [Gu|(q' & Gu & Lq)]).
      - pose proof (i_th _ _ I _ _ Gu) as Hu. cbn [th_ok] in Hu. destruct Hu as [_ ->]. apply orb_true_r.
      - rewrite (u_scan _ Us u (URet q') q' (q' + 1) t th1 b o x Gu eq_refl G1 P Go Lq); [reflexivity|lia]. }
    assert (ST : forall th' s2, run_th c t th s = Some (set_th t th' s2) -> (forall u thu, u <> t -> aget N.eqb u (vs_ths s) = Some thu -> aget N.eqb u (vs_ths s2) = Some thu) ->
       blk_of th' = Some b -> meas th' < meas th ->
       exists a s' th', own_label t a /\ vstep c s a = Some s' /\ aget N.eqb t (vs_ths s') = Some th' /\ blk_of th' = Some b /\ meas th' < meas th /\
      (forall u thu, u <> t -> aget N.eqb u (vs_ths s) = Some thu -> aget N.eqb u (vs_ths s') = Some thu)).
    { intros th' s2 R O B' M. exists (LRun t), (set_th t th' s2), th'. split; [left; reflexivity|]. split; [cbn [vstep]; rewrite G; exact R|].
      cbn [set_th vs_ths]. rewrite nget_aset, N.eqb_refl. split; [reflexivity|]. split; [exact B'|]. split; [exact M|]. intros u thu Hu Gu. rewrite nget_aset.
      destruct (N.eqb_spec u t); [contradiction|]. auto. }
    assert (KV : forall p, In p (vkeys c) -> exists w, aget N.eqb p (vc_vals c) = Some w) by (intros p Hp; apply nget_in; exact Hp).
    destruct th; cbn [blk_of] in B; try discriminate B; injection B as ->; cbn [th_ok] in OK.
    - (* VBegin *) eapply ST; [cbn [run_th run_validate]; rewrite (proj2 (N.leb_le _ _) (UQ OK)); reflexivity|auto|reflexivity|cbn [meas]; lia].
    - (* VMin *) eapply ST; [reflexivity|auto|reflexivity|cbn [meas]; lia].
    - (* VSlotLoad *) eapply ST; [reflexivity|auto|reflexivity|cbn [meas]; lia].
    - (* VSlots *)
      destruct (i <? to) eqn:L.
      + destruct (aget N.eqb i (vs_caches s)) eqn:Ec; (eapply ST; [cbn [run_th run_validate]; rewrite L, Ec; reflexivity|auto|reflexivity|cbn [meas]; lia]).
      + eapply ST; [cbn [run_th run_validate]; rewrite L; reflexivity|auto|reflexivity|cbn [meas]; lia].
    - (* VPeek *)
      destruct (aget N.eqb (vb_seqno b) (vs_caches s)) as [ci|] eqn:Ec.
      + destruct (i_cache _ _ I _ _ Ec) as [m Em]. eapply ST; [cbn [run_th run_validate]; rewrite Ec, Em; reflexivity|auto|reflexivity|cbn [meas]].
        rewrite (i_cobj _ _ I _ _ Em). lia.
      + eapply ST; [cbn [run_th run_validate]; rewrite Ec; reflexivity|auto|reflexivity|cbn [meas]; lia].
    - (* VBuild *)
      destruct OK as (Q & K & V & W & m & Em). destruct todo as [|p todo]; [eapply ST; [reflexivity|auto|reflexivity|cbn [meas length]; lia]|].
      assert (Hp : In p (vkeys c)) by (rewrite <- K; apply in_app_iff; right; left; reflexivity).
      assert (Hp' : In p (akeys m)) by (rewrite (i_cobj _ _ I _ _ Em); exact Hp). apply nget_in in Hp'. destruct Hp' as [v Ev]. destruct (KV p Hp) as [wp Ew].
      destruct v as [sg|].
      + destruct (vc_verify c p (vdata b) sg) eqn:Vf; (eapply ST; [cbn [run_th run_validate]; unfold slot_of; rewrite Em, Ev, Ew, Vf; reflexivity|auto|reflexivity|cbn [meas length]; lia]).
      + eapply ST; [cbn [run_th run_validate]; unfold slot_of; rewrite Em, Ev; reflexivity|auto|reflexivity|cbn [meas length]; lia].
    - (* VInsert *)
      destruct (aget N.eqb (vb_seqno b) (vs_blocks s)) eqn:Eb; (eapply ST; [cbn [run_th run_validate]; rewrite Eb; reflexivity|auto|reflexivity|cbn [meas]; lia]).
    - (* VCheck1 *)
      destruct OK as (x & Go & Bx). pose proof (ok_seq _ _ _ _ (i_obj _ _ I _ _ Go)) as Q. rewrite Bx in Q.
      eapply ST; [cbn [run_th run_validate]; rewrite (proj2 (N.leb_le _ _) (UQ Q)); reflexivity|auto|reflexivity|cbn [meas]; lia].
    - (* VCheck2 *)
      destruct OK as (x & Go & Bx). eapply ST; [cbn [run_th run_validate]; unfold get_obj in Go; rewrite Go, (CA _ o x G eq_refl Go); reflexivity|auto|reflexivity|cbn [meas]; lia].
    - (* VFail1 *)
      destruct OK as [(x & Go & Bx) _]. eapply ST; [cbn [run_th run_validate]; unfold get_obj in Go; rewrite Go; reflexivity|auto|reflexivity|cbn [meas]; lia].
    - (* VFail2 *) eapply ST; [reflexivity|auto|reflexivity|cbn [meas]; lia].
    - (* VUncache *)
      destruct OK as (x & Go & Bx). eapply ST; [cbn [run_th run_validate]; unfold get_obj in Go; rewrite Go; reflexivity|auto|reflexivity|cbn [meas]].
      rewrite (ok_keys _ _ _ _ (i_obj _ _ I _ _ Go)). lia.
    - (* VScan *)
      destruct todo as [|p todo]; [eapply ST; [reflexivity|auto|reflexivity|cbn [meas length]; lia]|].
      destruct OK as ((x & Go & Bx) & Ht & _). assert (Hp : In p (vkeys c)) by (apply Ht; left; reflexivity).
      assert (Hp' : In p (akeys (vo_slots x))) by (rewrite (ok_keys _ _ _ _ (i_obj _ _ I _ _ Go)); exact Hp). apply nget_in in Hp'. destruct Hp' as [v Ev]. destruct (KV p Hp) as [wp Ew].
      unfold get_obj in Go. destruct v as [sg|].
      + eapply ST; [cbn [run_th run_validate]; unfold slot_of; rewrite Go, Ev, Ew; reflexivity|auto|reflexivity|cbn [meas length]; lia].
      + eapply ST; [cbn [run_th run_validate]; unfold slot_of; rewrite Go, Ev; reflexivity|auto|reflexivity|cbn [meas length]; lia].
    - (* VSpawn *)
      eapply ST; [reflexivity| |reflexivity|cbn [meas]; lia]. intros u thu Hu Gu. cbn [spawn bump set_th vs_ths]. rewrite nget_aset. destruct (N.eqb_spec u (vs_fresh s)) as [->|]; [|exact Gu].
      pose proof (i_fth _ _ I (vs_fresh s) (N.le_refl _)) as F. unfold get_th in F. congruence.
    - (* VWait *)
      destruct OK as ((x & Go & Bx) & _). destruct (total <? vc_thr c) eqn:L.
      + exists (LSkip t), (set_th t (VRet b VSkipped) s), (VRet b VSkipped). split; [right; reflexivity|]. split.
        { cbn [vstep]. rewrite G. unfold get_obj in Go. rewrite Go, L, (CA _ o x G eq_refl Go). reflexivity. }
        cbn [set_th vs_ths]. rewrite nget_aset, N.eqb_refl. split; [reflexivity|]. split; [reflexivity|]. split; [cbn [meas]; lia|]. intros u thu Hu Gu. rewrite nget_aset.
        destruct (N.eqb_spec u t); [contradiction|]. auto.
      + eapply ST; [cbn [run_th run_validate]; rewrite L; reflexivity|auto|reflexivity|cbn [meas]; lia].
    - exfalso. eapply Nr. reflexivity.
  Qed.

  Lemma valid_finishes n : forall s t th b, (N.to_nat (meas th) < n)%nat -> Good c s -> aget N.eqb t (vs_ths s) = Some th -> blk_of th = Some b -> cancelled_returned s (vb_seqno b) ->
    exists l s' r, Forall (own_label t) l /\ vrun c s l = Some s' /\ aget N.eqb t (vs_ths s') = Some (VRet b r).
  Proof.
    induction n as [|n IH]; intros s t th b Hn Gd G B C; [lia|].
    assert (Dec : (exists r, th = VRet b r) \/ forall r, th <> VRet b r).
    { destruct th; try (right; discriminate). cbn [blk_of] in B. injection B as ->. left. eauto. }
    destruct Dec as [[r ->]|Nr]; [exists [], s, r; split; [constructor|]; split; [reflexivity|exact G]|].
    destruct (valid_enabled _ _ _ _ Gd G B Nr C) as (a & s1 & th1 & Oa & E & G1 & B1 & M & Fr).
    assert (Gd1 : Good c s1) by (destruct Gd as [I2 Us]; split; [eapply vstep_inv; eauto|eapply vstep_U; eauto]).
    assert (C1 : cancelled_returned s1 (vb_seqno b)).
    { destruct C as (u & [Gu|(q' & Gu & Lq)]); exists u; [left|right; exists q'; split; [|exact Lq]].
      - apply Fr; [|exact Gu]. intros ->. rewrite G in Gu. injection Gu as ->. discriminate B.
      - apply Fr; [|exact Gu]. intros ->. rewrite G in Gu. injection Gu as ->. discriminate B. }
    destruct (IH s1 t th1 b ltac:(lia) Gd1 G1 B1 C1) as (l & s' & r & Fl & R & Gr). exists (a :: l), s', r.
    split; [constructor; auto|]. split; [cbn [vrun]; rewrite E; exact R|exact Gr].
  Qed.
End Progress.

(** After cancel() or cancel_until(q) has returned, every validate_block call for a seqno <= q, at whatever
    point it was when the cancellation ran and also if it is made later, can return by its own steps
    alone - no peer has to answer, no other task has to move. *)
Theorem C43_cancellation_not_lost : forall vals own slots keep ver sgn start l c s t b,
  session_state vals own slots keep ver sgn start l c s -> total_weight vals < 2 ^ 64 ->
  validating s t b -> cancelled_returned s (vb_seqno b) ->
  exists l' s' r, Forall (own_label t) l' /\ vrun c s l' = Some s' /\ returned s' t b r.
Proof.
  intros vals own slots keep ver sgn start l c s t b SS W (th & G & B) C.
  destruct (session_good _ _ _ _ _ _ _ _ _ _ SS W) as (CK & Gd).
  exact (valid_finishes c CK (S (N.to_nat (meas c th))) s t th b (Nat.lt_succ_diag_r _) Gd G B C).
Qed.

(** and while it waits for signatures (the only place where it can block), it sees the cancellation at once *)
Theorem C43_waiting_call_skips : forall vals own slots keep ver sgn start l c s t b o res total pend,
  session_state vals own slots keep ver sgn start l c s -> total_weight vals < 2 ^ 64 ->
  aget N.eqb t (vs_ths s) = Some (VWait b o res total pend) -> total < vc_thr c -> cancelled_returned s (vb_seqno b) ->
  exists s', vstep c s (LSkip t) = Some s' /\ returned s' t b VSkipped.
Proof.
  intros vals own slots keep ver sgn start l c s t b o res total pend SS W G L C.
  destruct (session_good _ _ _ _ _ _ _ _ _ _ SS W) as (CK & I2 & Us). pose proof (i_th _ _ (proj1 I2) _ _ G) as OK. cbn [th_ok] in OK. destruct OK as ((x & Go & Bx) & _).
  assert (CA : vo_cancelled x || vs_token s = true).
  { destruct C as (u & [Gu|(q' & Gu & Lq)]).
    - pose proof (i_th _ _ (proj1 I2) _ _ Gu) as Hu. cbn [th_ok] in Hu. destruct Hu as [_ ->]. apply orb_true_r.
    - rewrite (u_scan _ Us u (URet q') q' (q' + 1) t _ b o x Gu eq_refl G eq_refl Go Lq); [reflexivity|lia]. }
  eexists. split; [cbn [vstep]; rewrite G; unfold get_obj in Go; rewrite Go, (proj2 (N.ltb_lt _ _) L), CA; reflexivity|].
  unfold returned. cbn [set_th vs_ths]. rewrite nget_aset, N.eqb_refl. reflexivity.
Qed.

(* ------------------------------------------------------------------ cancellation terminates *)
Section CancelProgress.
  Variable c : vcfg.
  Hypothesis CK : cfg_ok c.
  Definition cmeas (th : vth) : N :=
    match th with
    | CBegin => 2 | CToken => 1
    | UBegin q => 3 * (q + 3) + 2 | UMin q => 3 * (q + 3) + 1
    | UCache q k => 2 * (q + 3) + (q + 1 - k)
    | UScan q k => (q + 3) + (q + 1 - k)
    | URem q k => 1 + (q + 1 - k)
    | _ => 0
    end.
  Definition cancel_of (th : vth) : option (option N) :=
    match th with
    | CBegin | CToken | CRet => Some None
    | UBegin q | UMin q | UCache q _ | UScan q _ | URem q _ | URet q => Some (Some q)
    | _ => None
    end.
  Lemma cancel_enabled s t th w : Good c s -> aget N.eqb t (vs_ths s) = Some th -> cancel_of th = Some w -> th <> CRet -> (forall q, th <> URet q) ->
    exists s' th', vstep c s (LRun t) = Some s' /\ aget N.eqb t (vs_ths s') = Some th' /\ cancel_of th' = Some w /\ cmeas th' < cmeas th.
  Proof.
    intros [I2 Us] G B N1 N2. pose proof (proj1 I2) as I.
    assert (ST : forall th' s2, run_th c t th s = Some (set_th t th' s2) -> cancel_of th' = Some w -> cmeas th' < cmeas th ->
       exists s' th', vstep c s (LRun t) = Some s' /\ aget N.eqb t (vs_ths s') = Some th' /\ cancel_of th' = Some w /\ cmeas th' < cmeas th).
    { intros th' s2 R B' M. exists (set_th t th' s2), th'. split; [cbn [vstep]; rewrite G; exact R|].
      cbn [set_th vs_ths]. rewrite nget_aset, N.eqb_refl. auto. }
    destruct th; cbn [cancel_of] in B; try discriminate B; injection B as <-; try (exfalso; congruence); try (exfalso; eapply N2; reflexivity).
    - eapply ST; [reflexivity|reflexivity|cbn [cmeas]; lia].
    - eapply ST; [reflexivity|reflexivity|cbn [cmeas]; lia].
    - eapply ST; [reflexivity|reflexivity|cbn [cmeas]; lia].
    - eapply ST; [reflexivity|reflexivity|cbn [cmeas]; lia].
    - destruct (nextk k q (vs_caches s)) as [k'|] eqn:E; (eapply ST; [cbn [run_th run_cancel]; rewrite E; reflexivity|reflexivity|cbn [cmeas]]); [|lia].
      apply nextk_some in E. lia.
    - destruct (nextk k q (vs_blocks s)) as [k'|] eqn:E.
      + pose proof (nextk_some _ _ _ _ E) as (L1 & L2 & L3 & _). apply nget_in in L3. destruct L3 as [o Eo]. destruct (i_blk _ _ I _ _ Eo) as (x & Go & _). unfold get_obj in Go.
        eapply ST; [cbn [run_th run_cancel]; rewrite E, Eo, Go; reflexivity|reflexivity|cbn [cmeas]; lia].
      + eapply ST; [cbn [run_th run_cancel]; rewrite E; reflexivity|reflexivity|cbn [cmeas]; lia].
    - destruct (nextk k (q - vc_keep c) (vs_blocks s)) as [k'|] eqn:E; (eapply ST; [cbn [run_th run_cancel]; rewrite E; reflexivity|reflexivity|cbn [cmeas]]); [|lia].
      apply nextk_some in E. lia.
  Qed.
  Lemma cancel_finishes n : forall s t th w, (N.to_nat (cmeas th) < n)%nat -> Good c s -> aget N.eqb t (vs_ths s) = Some th -> cancel_of th = Some w ->
    exists l s', Forall (eq (LRun t)) l /\ vrun c s l = Some s' /\ aget N.eqb t (vs_ths s') = Some (match w with None => CRet | Some q => URet q end).
  Proof.
    induction n as [|n IH]; intros s t th w Hn Gd G B; [lia|].
    assert (Dec : th = (match w with None => CRet | Some q => URet q end) \/ (th <> CRet /\ forall q, th <> URet q)).
    { destruct th; try (right; split; [discriminate|intros; discriminate]); cbn [cancel_of] in B; injection B as <-; auto. }
    destruct Dec as [->|[N1 N2]]; [exists [], s; split; [constructor|]; split; [reflexivity|exact G]|].
    destruct (cancel_enabled _ _ _ _ Gd G B N1 N2) as (s1 & th1 & E & G1 & B1 & M).
    assert (Gd1 : Good c s1) by (destruct Gd as [I2 Us]; split; [eapply vstep_inv; eauto|eapply vstep_U; eauto]).
    destruct (IH s1 t th1 w ltac:(lia) Gd1 G1 B1) as (l & s' & Fl & R & Gr). exists (LRun t :: l), s'.
    split; [constructor; auto|]. split; [cbn [vrun]; rewrite E; exact R|exact Gr].
  Qed.
End CancelProgress.

(** cancel and cancel_until always return by their own steps *)
Theorem C43_cancel_returns : forall vals own slots keep ver sgn start l c s a s0,
  session_state vals own slots keep ver sgn start l c s0 -> total_weight vals < 2 ^ 64 ->
  (a = LCancel \/ exists q, a = LUntil q) -> vstep c s0 a = Some s ->
  exists t l' s', Forall (eq (LRun t)) l' /\ vrun c s l' = Some s' /\
    aget N.eqb t (vs_ths s') = Some (match a with LUntil q => URet q | _ => CRet end).
Proof.
  intros vals own slots keep ver sgn start l c s a s0 SS W Ha E.
  destruct (session_good _ _ _ _ _ _ _ _ _ _ SS W) as (CK & Gd0).
  assert (Gd : Good c s) by (destruct Gd0 as [I2 Us]; split; [eapply vstep_inv; eauto|eapply vstep_U; eauto]).
  exists (vs_fresh s0). destruct Ha as [->|[q ->]]; cbn [vstep] in E.
  - injection E as <-. apply (cancel_finishes c CK 3 _ _ CBegin None); [cbn; lia|exact Gd| |reflexivity]. cbn [spawn bump set_th vs_ths]. rewrite nget_aset, N.eqb_refl. reflexivity.
  - destruct (q <=? u32_top); [|discriminate]. injection E as <-.
    apply (cancel_finishes c CK (S (N.to_nat (cmeas (UBegin q)))) _ _ (UBegin q) (Some q)); [lia|exact Gd| |reflexivity]. cbn [spawn bump set_th vs_ths]. rewrite nget_aset, N.eqb_refl. reflexivity.
Qed.

(* ------------------------------------------------------------------ cancellation is confined *)
Definition SkI (s : vst) : Prop := forall t b, get_th s t = Some (VRet b VSkipped) -> vb_seqno b <= vs_until s.
Lemma vstep_SkI c s a s' : cfg_ok c -> Inv2 c s -> SkI s -> vstep c s a = Some s' -> SkI s'.
Proof.
  intros CK I2 X R. pose proof (proj1 I2) as I. pose proof (m_until _ _ _ (vstep_mono _ _ _ _ CK I R)) as M.
  assert (K : forall t b, get_th s' t = Some (VRet b VSkipped) -> get_th s t = Some (VRet b VSkipped) \/ vb_seqno b <= vs_until s').
  { assert (ST : forall t th s2, vs_ths s2 = vs_ths s -> s' = set_th t th s2 -> (forall b, th = VRet b VSkipped -> vb_seqno b <= vs_until s') ->
       forall t' b, get_th s' t' = Some (VRet b VSkipped) -> get_th s t' = Some (VRet b VSkipped) \/ vb_seqno b <= vs_until s').
    { intros t th s2 T E H t' b G. rewrite E, get_th_set in G. destruct (t' =? t); [injection G as ->; right; exact (H _ eq_refl)|]. left. unfold get_th in *. congruence. }
    assert (SP : forall th, vs_ths s' = aset N.eqb (vs_fresh s) th (vs_ths s) -> (forall b, th <> VRet b VSkipped) ->
       forall t' b, get_th s' t' = Some (VRet b VSkipped) -> get_th s t' = Some (VRet b VSkipped) \/ vb_seqno b <= vs_until s').
    { intros th E H t' b G. unfold get_th in G. rewrite E, nget_aset in G. destruct (t' =? vs_fresh s); [injection G as ->; exfalso; eapply H; reflexivity|]. left. exact G. }
    destruct a; cbn [vstep] in R.
    1-4: bust R; eapply SP; [reflexivity|discriminate].
    2: { destruct (aget N.eqb t (vs_ths s)) as [[]|] eqn:G; try discriminate R. injection R as <-. eapply ST; [|reflexivity|discriminate]. reflexivity. }
    2: { destruct (aget N.eqb t (vs_ths s)) as [[]|] eqn:G; try discriminate R. destruct (aget N.eqb u (vs_ths s)) as [[]|]; try discriminate R.
         destruct (_ && _); [|discriminate R]. destruct (aget N.eqb _ (vc_vals c)); injection R as <-; (eapply ST; [|reflexivity|discriminate]; reflexivity). }
    2: { destruct (aget N.eqb t (vs_ths s)) as [[]|] eqn:G; try discriminate R. destruct (aget N.eqb o (vs_objs s)) as [x|] eqn:Go; [|discriminate R].
         destruct ((total <? vc_thr c) && (vo_cancelled x || vs_token s)) eqn:Cd; [|discriminate R]. injection R as <-. eapply ST; [|reflexivity|]; [reflexivity|].
         intros b' E. injection E as <-. pose proof (i_th _ _ I _ _ G) as OK. cbn [th_ok] in OK. destruct OK as ((y & Gy & By) & _). unfold get_obj in Gy. rewrite Go in Gy. injection Gy as <-.
         pose proof (i_obj _ _ I _ _ Go) as Ob. rewrite <- By. cbn [set_th vs_until]. apply andb_prop in Cd. destruct Cd as [_ Cd]. apply orb_prop in Cd. destruct Cd as [Cd|Cd].
         - exact (ok_canc _ _ _ _ Ob Cd).
         - rewrite (i_tok _ _ I Cd). exact (ok_seq _ _ _ _ Ob). }
    destruct (aget N.eqb t (vs_ths s)) as [th|] eqn:G; [|discriminate]. pose proof (i_th _ _ I _ _ G) as OK.
    destruct th; cbn [run_th run_add run_task run_exch run_cancel run_validate] in R; cbv zeta in R;
      try (destruct todo); try discriminate R; try (bust R; (eapply ST; [|reflexivity|discriminate]; reflexivity); fail).
    - (* VBegin *) injection R as <-. eapply ST; [|reflexivity|]; [reflexivity|]. intros b' E. destruct (N.leb_spec (vb_seqno b) (vs_until s)) as [L|L]; [|discriminate E].
      injection E as <-. exact L.
    - bust R; (eapply ST; [|reflexivity|intros ? E'; try destruct (_ <=? _); discriminate E']; reflexivity).
    - bust R; (eapply ST; [|reflexivity|intros ? E'; try destruct (_ || _); discriminate E']; reflexivity).
    - (* VFail2 *) injection R as <-. eapply ST; [|reflexivity|]; [reflexivity|]. intros b' E. injection E as <-. exact OK.
    - injection R as <-. intros t' b' G'. rewrite get_th_set in G'. destruct (t' =? t); [discriminate G'|]. left.
      match type of G' with get_th (spawn ?a ?b') _ = _ => change (get_th (spawn a b') t') with (get_th (set_th (vs_fresh b') a b') t') in G' end. rewrite get_th_set in G'.
      destruct (t' =? vs_fresh s); [discriminate G'|exact G'].
    - injection R as <-. intros t' b' G'. rewrite get_th_set in G'. destruct (t' =? t); [discriminate G'|]. left.
      match type of G' with get_th (spawn ?a ?b') _ = _ => change (get_th (spawn a b') t') with (get_th (set_th (vs_fresh b') a b') t') in G' end. rewrite get_th_set in G'.
      destruct (t' =? vs_fresh s); [discriminate G'|exact G'].
    - destruct k; bust R; (eapply ST; [|reflexivity|intros ? E'; repeat match type of E' with context [if ?e then _ else _] => destruct e end; discriminate E']; reflexivity).
    - destruct k; bust R; (eapply ST; [|reflexivity|intros ? E'; repeat match type of E' with context [if ?e then _ else _] => destruct e end; discriminate E']; reflexivity).
    - destruct (aget N.eqb o (vs_objs s)) as [x|]; [|discriminate]. injection R as <-. destruct can; destruct k; (eapply ST; [|reflexivity|discriminate]; reflexivity).
    - bust R; (eapply ST; [|reflexivity|intros ? E'; repeat match type of E' with context [if ?e then _ else _] => destruct e end; discriminate E']; reflexivity).
    - bust R; (eapply ST; [|reflexivity|intros ? E'; repeat match type of E' with context [if ?e then _ else _] => destruct e end; discriminate E']; reflexivity). }
  intros t b G. destruct (K _ _ G) as [G0|H]; [|exact H]. specialize (X _ _ G0). lia.
Qed.
Lemma reach_SkI c start l s : cfg_ok c -> vrun c (vinit c start) l = Some s -> SkI s.
Proof.
  intros CK R. assert (H : Inv2 c (vinit c start) /\ SkI (vinit c start)).
  { split; [apply vinit_inv; auto|]. intros t b G. unfold get_th in G. rewrite (proj1 (vinit_ths c start)) in G. discriminate G. }
  revert H R. generalize (vinit c start). induction l as [|a l IH]; cbn [vrun]; intros s0 [I V] R; [injection R as <-; exact V|].
  destruct (vstep c s0 a) as [s1|] eqn:E; [|discriminate]. apply (IH s1); [|exact R]. split; [eapply vstep_inv; eauto|eapply vstep_SkI; eauto].
Qed.
Lemma reach_until c start l s : vrun c (vinit c start) l = Some s -> vs_until s <= cancelled_to l.
Proof.
  intros Run. assert (U0 : vs_until (vinit c start) = 0).
  { unfold vinit. assert (H : vs_until (VS [] [] [] [] false 0 start [] 0) = 0) by reflexivity. revert H. generalize (VS [] [] [] [] false 0 start [] 0). generalize start.
    induction (N.to_nat (vc_slots c)) as [|n IH]; intros q' s0 H; [exact H|]. cbn [vinit_slots]. apply IH. exact H. }
  apply (until_bound c l (vinit c start) s 0); [|exact Run]. split; [lia|]. intros t th G. unfold get_th in G. rewrite (proj1 (vinit_ths c start)) in G. discriminate G.
Qed.
(** validate_block returns Skipped only for seqnos some cancel or cancel_until call covered: block 0 aside,
    a cancellation never stops the validation of a later block. *)
Theorem C43_skipped_only_if_cancelled : forall vals own slots keep ver sgn start l c s t b,
  session_state vals own slots keep ver sgn start l c s -> total_weight vals < 2 ^ 64 ->
  returned s t b VSkipped -> vb_seqno b <= cancelled_to l.
Proof.
  intros vals own slots keep ver sgn start l c s t b SS W R. destruct (session_good _ _ _ _ _ _ _ _ _ _ SS W) as (CK & Gd).
  pose proof (reach_SkI c start l s CK (proj2 (proj2 SS)) _ _ R). pose proof (reach_until c start l s (proj2 (proj2 SS))). lia.
Qed.

(* ------------------------------------------------------------------ concrete cases *)
(** validate_block of seqno 5 (thread 2) is waiting for signatures of 2 and 3 when cancel_until(5) (thread 7)
    runs; a second call (thread 8) is made afterwards. *)
Definition ex43_run : list vlabel := [LValidate ex_blk] ++ runs 2 19 ++ [LUntil 5] ++ runs 7 7 ++ [LValidate ex_blk].
Theorem C43_nonvacuous : exists s, session_state ex_vals 1 2 0 ex_ver (ex_sgn 1) 5 ex43_run ex_cfg s /\ total_weight ex_vals < 2 ^ 64 /\
  validating s 2 ex_blk /\ validating s 8 ex_blk /\ cancelled_returned s 5 /\
  aget N.eqb 2 (vs_ths s) = Some (VWait ex_blk 4 [(1, 1078)] 1 [(6, 3); (5, 2)]) /\ 1 < vc_thr ex_cfg.
Proof.
  destruct (vrun ex_cfg (vinit ex_cfg 5) ex43_run) as [s|] eqn:E; [|exfalso; vm_compute in E; discriminate E].
  exists s. split; [split; [|split; [reflexivity|exact E]]; repeat constructor; cbn; intuition discriminate|]. split; [reflexivity|].
  assert (Es : option_map (fun s => (aget N.eqb 2 (vs_ths s), aget N.eqb 7 (vs_ths s), aget N.eqb 8 (vs_ths s))) (vrun ex_cfg (vinit ex_cfg 5) ex43_run)
               = Some (Some (VWait ex_blk 4 [(1, 1078)] 1 [(6, 3); (5, 2)]), Some (URet 5), Some (VBegin ex_blk))) by (vm_compute; reflexivity).
  rewrite E in Es. cbn [option_map] in Es. injection Es as E1 E2 E3.
  split; [eexists; split; [exact E1|reflexivity]|]. split; [eexists; split; [exact E3|reflexivity]|]. split; [exists 7; right; exists 5; split; [exact E2|reflexivity]|]. split; [exact E1|reflexivity].
Qed.

(** Finding (limit of C41_no_equivocation): two validate_block calls for different blocks of seqno 5 run
    concurrently; the first one registers its block and answers peer 2 with its signature; cancel_until(5)
    removes the registration; the second call, which had passed the first check before the cancellation,
    registers its block, and until its second check fails peer 3 gets a signature for the other block. *)
Definition eq_run : list vlabel :=
  [LValidate ex_blk; LValidate (VB 5 1 2)] ++ runs 2 12 ++ runs 3 10 ++ [LExchange 2 5 2078] ++ runs 6 7 ++
  [LUntil 5] ++ runs 7 8 ++ runs 3 1 ++ [LExchange 3 5 3012] ++ runs 9 7 ++ runs 2 3 ++ runs 3 3.
Theorem C41_equivocation_race_refuted : exists s,
  session_state ex_vals 1 2 0 ex_ver (ex_sgn 1) 5 eq_run ex_cfg s /\
  answered s 6 2 5 (XComplete (ex_sgn 1 (7, 8))) /\ answered s 9 3 5 (XComplete (ex_sgn 1 (1, 2))) /\
  returned s 2 ex_blk VSkipped /\ returned s 3 (VB 5 1 2) VSkipped.
Proof.
  destruct (vrun ex_cfg (vinit ex_cfg 5) eq_run) as [s|] eqn:E; [|exfalso; vm_compute in E; discriminate E].
  exists s. split; [split; [|split; [reflexivity|exact E]]; repeat constructor; cbn; intuition discriminate|].
  assert (Es : option_map (fun s => (aget N.eqb 6 (vs_ths s), aget N.eqb 9 (vs_ths s), aget N.eqb 2 (vs_ths s), aget N.eqb 3 (vs_ths s))) (vrun ex_cfg (vinit ex_cfg 5) eq_run)
               = Some (Some (XRet 2 5 (XComplete 1078)), Some (XRet 3 5 (XComplete 1012)), Some (VRet ex_blk VSkipped), Some (VRet (VB 5 1 2) VSkipped))) by (vm_compute; reflexivity).
  rewrite E in Es. cbn [option_map] in Es. injection Es as E1 E2 E3 E4. split; [exact E1|]. split; [exact E2|]. split; [exact E3|exact E4].
Qed.

(** C41, C42 on the run of C40_nonvacuous: peer 2's valid signature is accepted, it gets ours, nothing cancelled *)
Theorem C42_nonvacuous : exists s x, session_state ex_vals 1 2 0 ex_ver (ex_sgn 1) 5 ex_run ex_cfg s /\ 2 * total_weight ex_vals < 2 ^ 64 /\
  cancelled_to ex_run < 5 /\ answered s 8 2 5 (XComplete (ex_sgn 1 (7, 8))) /\ aget N.eqb 4 (vs_objs s) = Some x /\ block_of s 4 ex_blk /\ accepted s 4 2 2078 /\
  (forall t th, aget N.eqb t (vs_ths s) = Some th -> ~ adding 4 th) /\ vo_validated x = true /\ collected ex_vals 1 x = 3.
Proof.
  destruct (vrun ex_cfg (vinit ex_cfg 5) ex_run) as [s|] eqn:E; [|exfalso; vm_compute in E; discriminate E].
  assert (Es : option_map (fun s => (aget N.eqb 8 (vs_ths s), aget N.eqb 4 (vs_objs s), map fst (vs_ths s))) (vrun ex_cfg (vinit ex_cfg 5) ex_run)
               = Some (Some (XRet 2 5 (XComplete 1078)), Some (VO ex_blk 1078 [(2, Some 2078); (3, Some 3078)] 3 true false), [2; 5; 6; 7; 8])) by (vm_compute; reflexivity).
  assert (Et : option_map (fun s => map snd (filter (fun e => match snd e with AAdd _ _ _ _ | AFlag _ _ _ _ _ => true | _ => false end) (vs_ths s))) (vrun ex_cfg (vinit ex_cfg 5) ex_run) = Some []) by (vm_compute; reflexivity).
  rewrite E in Es, Et. cbn [option_map] in Es, Et. injection Es as E1 E2 _. injection Et as Et.
  exists s, (VO ex_blk 1078 [(2, Some 2078); (3, Some 3078)] 3 true false).
  split; [split; [|split; [reflexivity|exact E]]; repeat constructor; cbn; intuition discriminate|]. split; [reflexivity|]. split; [reflexivity|]. split; [exact E1|]. split; [exact E2|].
  split; [eexists; split; [exact E2|reflexivity]|]. split; [eexists; split; [exact E2|reflexivity]|]. split; [|split; reflexivity].
  intros t th G A. assert (Hin : In (t, th) (vs_ths s)).
  { clear -G. induction (vs_ths s) as [|[k v] m IH]; cbn [aget] in G; [discriminate|]. destruct (N.eqb_spec t k) as [->|]; [injection G as ->; left; reflexivity|right; auto]. }
  assert (Hf : In th (map snd (filter (fun e => match snd e with AAdd _ _ _ _ | AFlag _ _ _ _ _ => true | _ => false end) (vs_ths s)))).
  { apply in_map_iff. exists (t, th). split; [reflexivity|]. apply filter_In. split; [exact Hin|]. cbn [snd]. destruct th; cbn [adding] in A; try contradiction; reflexivity. }
  rewrite Et in Hf. exact Hf.
Qed.
