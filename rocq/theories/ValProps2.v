(** C41 (one block per seqno), C42 (collected signatures), C43 (cancellation). *)
From Coq Require Import NArith Lia List Bool ZArith ZifyN ZifyBool Permutation.
From Verif Require Import AMap StatsSpec StatsProofs ValModel ValInv ValStep ValUniq ValProps.
Import ListNotations.
Open Scope N_scope.
Lemma u32_eq : u32_top = 2 ^ 32 - 1. Proof. reflexivity. Qed.
Local Opaque u64_mod u32_top.

Lemma session_good vals own slots keep ver sgn start l c s :
  session_state vals own slots keep ver sgn start l c s -> total_weight vals < 2 ^ 64 -> cfg_ok c /\ Good c s.
Proof.
  intros (Nd & New & Run) W. assert (CK : cfg_ok c) by (eapply new_ok; eauto). split; [auto|]. eapply reach_good; eauto.
Qed.

(* ------------------------------------------------------------------ C41 *)
(** In one session at most one validate_block call per seqno ever returns Complete: whatever is validated
    concurrently, retried, or cancelled, two different blocks of one seqno are never both completed. *)
Theorem C41_one_complete_per_seqno : forall vals own slots keep ver sgn start l c s t1 t2 b1 b2 sigs1 sigs2 w1 w2,
  session_state vals own slots keep ver sgn start l c s -> total_weight vals < 2 ^ 64 ->
  returned s t1 b1 (VComplete sigs1 w1) -> returned s t2 b2 (VComplete sigs2 w2) ->
  vb_seqno b1 = vb_seqno b2 -> t1 = t2.
Proof.
  intros vals own slots keep ver sgn start l c s t1 t2 b1 b2 sigs1 sigs2 w1 w2 SS W R1 R2 E.
  destruct (session_good _ _ _ _ _ _ _ _ _ _ SS W) as (CK & I2 & Us).
  eapply (u_one _ Us t1 t2 _ _ (vb_seqno b1)); [exact R1|exact R2|reflexivity|]. cbn [psd_of pas_of ret_of]. congruence.
Qed.

(** blocks of threads and objects were submitted to validate_block *)
Definition blk_of (th : vth) : option vblock :=
  match th with
  | VBegin b | VMin b | VSlotLoad b | VSlots b _ _ | VPeek b | VBuild b _ _ _ _ | VInsert b _ _ _ | VCheck1 b _ _ | VCheck2 b _ _ | VFail1 b _ | VFail2 b
  | VUncache b _ _ | VScan b _ _ _ _ _ _ | VSpawn b _ _ _ _ _ _ _ | VWait b _ _ _ _ | VRet b _ => Some b
  | _ => None
  end.
Definition Src (P : vblock -> Prop) (s : vst) : Prop :=
  (forall t th b, get_th s t = Some th -> blk_of th = Some b -> P b) /\ (forall o x, get_obj s o = Some x -> P (vo_blk x)).
Lemma src_th (P : vblock -> Prop) s t th : Src P s -> (forall b, blk_of th = Some b -> P b) -> Src P (set_th t th s).
Proof.
  intros [A B] H. split; [|exact B]. intros t' th' b G E. rewrite get_th_set in G. destruct (t' =? t); [injection G as <-; auto|eauto].
Qed.
Lemma src_obj P s o x : Src P s -> P (vo_blk x) -> Src P (set_obj o x s).
Proof. intros [A B] H. split; [exact A|]. intros o' x' G. rewrite get_obj_set in G. destruct (o' =? o); [injection G as <-; auto|eauto]. Qed.
Lemma src_same P s s' : Src P s -> vs_ths s' = vs_ths s -> vs_objs s' = vs_objs s -> Src P s'.
Proof. intros [A B] T O. split; unfold get_th, get_obj in *; rewrite ?T, ?O; auto. Qed.

Ltac bust R := repeat match type of R with
  | Some _ = Some _ => injection R as <-
  | None = Some _ => discriminate R
  | context [match ?x with _ => _ end] => let E := fresh "E" in destruct x eqn:E
  end.

Lemma vstep_src c (P : vblock -> Prop) s a s' : Src P s -> (forall b, a = LValidate b -> P b) -> vstep c s a = Some s' -> Src P s'.
Proof.
  intros Sr H R.
  assert (TH : forall t th b, aget N.eqb t (vs_ths s) = Some th -> blk_of th = Some b -> P b) by (apply Sr).
  assert (OB : forall o x, aget N.eqb o (vs_objs s) = Some x -> P (vo_blk x)) by (apply Sr).
  destruct a; cbn [vstep] in R.
  - destruct (vb_seqno b <=? u32_top); [|discriminate]. injection R as <-. unfold spawn. match goal with |- Src _ (bump ?x) => apply (src_same _ x); [|reflexivity|reflexivity] end. apply src_th; [exact Sr|].
    intros b' E. injection E as <-. auto.
  - injection R as <-. unfold spawn. match goal with |- Src _ (bump ?x) => apply (src_same _ x); [|reflexivity|reflexivity] end. apply src_th; [exact Sr|cbn [blk_of]; discriminate].
  - injection R as <-. unfold spawn. match goal with |- Src _ (bump ?x) => apply (src_same _ x); [|reflexivity|reflexivity] end. apply src_th; [exact Sr|cbn [blk_of]; discriminate].
  - destruct (q <=? u32_top); [|discriminate]. injection R as <-. unfold spawn. match goal with |- Src _ (bump ?x) => apply (src_same _ x); [|reflexivity|reflexivity] end. apply src_th; [exact Sr|cbn [blk_of]; discriminate].
  - destruct (aget N.eqb t (vs_ths s)) as [th|] eqn:G; [|discriminate]. specialize (TH t th).
    assert (BL : forall b, blk_of th = Some b -> P b) by (intros; eapply TH; eauto).
    destruct th; cbn [run_th run_add run_task run_exch run_cancel run_validate blk_of] in R, BL; cbv zeta in R;
      try (destruct k); try (destruct todo); try discriminate R; bust R;
      unfold add_done, add_changed, add_invalid;
      repeat (match goal with
       | |- Src _ (set_th _ (if ?e then _ else _) _) => destruct e
       | |- Src _ (set_th _ _ _) => apply src_th; [|cbn [blk_of]; first [discriminate | (intros ? EE; injection EE as <-; apply BL; reflexivity)]]
       | |- Src _ (set_obj _ _ _) => apply src_obj; [|cbn [obj_slot obj_weight obj_validated obj_cancel vo_blk]; first [(eapply OB; eassumption) | (apply BL; reflexivity)]]
       | |- Src _ (if ?e then _ else _) => destruct e
       | |- Src _ s => exact Sr
       | |- Src _ (bump ?x) => apply (src_same _ x); [|reflexivity|reflexivity]
       | |- Src _ (spawn ?th ?x) => unfold spawn
       | |- Src _ (set_blocks _ ?x) => apply (src_same _ x); [|reflexivity|reflexivity]
       | |- Src _ (set_caches _ ?x) => apply (src_same _ x); [|reflexivity|reflexivity]
       | |- Src _ (set_cobj _ _ ?x) => apply (src_same _ x); [|reflexivity|reflexivity]
       | |- Src _ (set_until _ ?x) => apply (src_same _ x); [|reflexivity|reflexivity]
       | |- Src _ (set_min _ ?x) => apply (src_same _ x); [|reflexivity|reflexivity]
       | |- Src _ (set_token ?x) => apply (src_same _ x); [|reflexivity|reflexivity]
       end).
  - destruct (aget N.eqb t (vs_ths s)) as [th|] eqn:G; [|discriminate]. destruct th; try discriminate. injection R as <-. apply src_th; [exact Sr|cbn [blk_of]; discriminate].
  - destruct (aget N.eqb t (vs_ths s)) as [th|] eqn:G; [|discriminate]. destruct th; try discriminate.
    destruct (aget N.eqb u (vs_ths s)) as [tu|]; [|discriminate]. destruct tu; try discriminate. bust R; (apply src_th; [exact Sr|cbn [blk_of]; first [discriminate|(intros ? EE; injection EE as <-; eapply TH; [exact G|reflexivity])]]).
  - destruct (aget N.eqb t (vs_ths s)) as [th|] eqn:G; [|discriminate]. destruct th; try discriminate. bust R. apply src_th; [exact Sr|].
    intros ? EE; injection EE as <-; eapply TH; [exact G|reflexivity].
Qed.
Lemma vrun_src c (P : vblock -> Prop) l : forall s s', Src P s -> (forall b, In (LValidate b) l -> P b) -> vrun c s l = Some s' -> Src P s'.
Proof.
  induction l as [|a l IH]; cbn [vrun]; intros s s' Sr H R; [injection R as <-; auto|]. destruct (vstep c s a) as [s1|] eqn:E; [|discriminate].
  eapply IH; [|intros b Hb; apply H; right; exact Hb|exact R]. eapply vstep_src; [exact Sr| |exact E]. intros b ->. apply H. left. reflexivity.
Qed.
Lemma reach_src c start l s : vrun c (vinit c start) l = Some s -> Src (fun b => In (LValidate b) l) s.
Proof.
  intros R. eapply vrun_src; [|intros b Hb; exact Hb|exact R]. destruct (vinit_ths c start) as [T O]. split; unfold get_th, get_obj; rewrite ?T, ?O; intros; discriminate.
Qed.

(** Every signature of its own the node gives to a peer is for a block with the requested seqno that was
    submitted to validate_block, and as long as no cancellation has covered the seqno all of them are for the
    same block: the node does not equivocate. *)
Theorem C41_own_signature_source : forall vals own slots keep ver sgn start l c s t p q sg,
  session_state vals own slots keep ver sgn start l c s -> total_weight vals < 2 ^ 64 ->
  answered s t p q (XComplete sg) ->
  exists b, In (LValidate b) l /\ vb_seqno b = q /\ sg = sgn (vdata b).
Proof.
  intros vals own slots keep ver sgn start l c s t p q sg SS W A.
  destruct (session_good _ _ _ _ _ _ _ _ _ _ SS W) as (CK & I2 & Us). destruct SS as (Nd & New & Run).
  pose proof (i_th _ _ (proj1 I2) _ _ A) as (o & x & Go & Q & E). exists (vo_blk x).
  split; [apply (proj2 (reach_src _ _ _ _ Run) _ _ Go)|]. split; [auto|]. destruct (new_fields _ _ _ _ _ _ _ Nd New) as (_ & _ & E3 & _).
  rewrite E, (ok_own _ _ _ _ (i_obj _ _ (proj1 I2) _ _ Go)), E3. reflexivity.
Qed.

(** the highest seqno any cancel_until has been called with in [l]; u32::MAX after a cancel *)
Definition cancelled_to (l : list vlabel) : N :=
  fold_left (fun a x => match x with LUntil q => N.max a q | LCancel => N.max a (2 ^ 32 - 1) | _ => a end) l 0.

Lemma until_bound c l : forall s s' a, (vs_until s <= a /\ forall t th, get_th s t = Some th -> match th with UBegin q => q <= a | CBegin => 2 ^ 32 - 1 <= a | _ => True end) ->
  vrun c s l = Some s' ->
  let a' := fold_left (fun a x => match x with LUntil q => N.max a q | LCancel => N.max a (2 ^ 32 - 1) | _ => a end) l a in
  vs_until s' <= a' /\ forall t th, get_th s' t = Some th -> match th with UBegin q => q <= a' | CBegin => 2 ^ 32 - 1 <= a' | _ => True end.
Proof.
  induction l as [|x l IH]; intros s s' a H R; cbn [vrun fold_left] in *; [injection R as <-; exact H|].
  destruct (vstep c s x) as [s1|] eqn:E; [|discriminate]. eapply IH; [|exact R]. clear IH R s'. destruct H as [H1 H2].
  assert (SP : forall th a', a <= a' -> match th with UBegin q => q <= a' | CBegin => 2 ^ 32 - 1 <= a' | _ => True end ->
     vs_until (spawn th s) <= a' /\ forall t th0, get_th (spawn th s) t = Some th0 -> match th0 with UBegin q => q <= a' | CBegin => 2 ^ 32 - 1 <= a' | _ => True end).
  { intros th a' L Ht. split; [cbn; lia|]. intros t th0 G. assert (Gt : get_th (spawn th s) t = if t =? vs_fresh s then Some th else get_th s t) by (exact (get_th_set (vs_fresh s) th s t)).
    rewrite Gt in G. destruct (t =? vs_fresh s); [injection G as <-; exact Ht|]. specialize (H2 _ _ G). destruct th0; auto; lia. }
  assert (ST : forall t th s2, vs_ths s2 = vs_ths s -> vs_until s2 <= a -> match th with UBegin q => q <= a | CBegin => 2 ^ 32 - 1 <= a | _ => True end ->
     vs_until (set_th t th s2) <= a /\ forall t' th0, get_th (set_th t th s2) t' = Some th0 -> match th0 with UBegin q => q <= a | CBegin => 2 ^ 32 - 1 <= a | _ => True end).
  { intros t th s2 E2 L Ht. split; [exact L|]. intros t' th0 G. rewrite get_th_set in G. destruct (t' =? t); [injection G as <-; exact Ht|].
    unfold get_th in G. rewrite E2 in G. exact (H2 _ _ G). }
  destruct x; cbn [vstep] in E.
  - bust E. apply SP; [lia|exact I].
  - bust E. apply SP; [lia|exact I].
  - bust E. apply SP; lia.
  - bust E. apply SP; lia.
  - destruct (aget N.eqb t (vs_ths s)) as [th|] eqn:G; [|discriminate]. pose proof (H2 _ _ G) as Ht.
    destruct th; cbn [run_th run_add run_task run_exch run_cancel run_validate] in E; cbv zeta in E;
      try (destruct k); try (destruct todo); try discriminate E; bust E; unfold add_done, add_changed, add_invalid;
      try (match goal with |- context [set_th _ (if ?e then _ else _) _] => destruct e end);
      try (apply ST; [reflexivity|cbn [vs_until set_until set_obj set_token set_min set_caches set_blocks set_cobj bump]; rewrite ?u32_eq; auto; lia|exact I]);
      try (match goal with |- context [set_th _ _ (if ?e then _ else _)] => destruct e end; (apply ST; [reflexivity|exact H1|exact I])).
    all: split; [exact H1|]; intros t' th0 G'; rewrite get_th_set in G'; destruct (t' =? t); [injection G' as <-; exact I|];
      destruct (SP (TStart o p (match cid with None => None | Some ci => match aget N.eqb ci (vs_cobjs s) with None => None | Some m => match slot_of p m with Some (Some sg) => Some sg | _ => None end end end)) a (N.le_refl a) I) as [_ SP2];
      exact (SP2 _ _ G').
  - bust E. apply ST; [reflexivity|exact H1|exact I].
  - bust E; (apply ST; [reflexivity|exact H1|exact I]).
  - bust E. apply ST; [reflexivity|exact H1|exact I].
Qed.

Theorem C41_no_equivocation : forall vals own slots keep ver sgn start l c s q t1 t2 p1 p2 sg1 sg2,
  session_state vals own slots keep ver sgn start l c s -> total_weight vals < 2 ^ 64 ->
  cancelled_to l < q ->
  answered s t1 p1 q (XComplete sg1) -> answered s t2 p2 q (XComplete sg2) -> sg1 = sg2.
Proof.
  intros vals own slots keep ver sgn start l c s q t1 t2 p1 p2 sg1 sg2 SS W C A1 A2.
  destruct (session_good _ _ _ _ _ _ _ _ _ _ SS W) as (CK & I2 & Us). destruct SS as (Nd & New & Run).
  assert (U0 : vs_until (vinit c start) = 0).
  { unfold vinit. assert (H : vs_until (VS [] [] [] [] false 0 start [] 0) = 0) by reflexivity. revert H. generalize (VS [] [] [] [] false 0 start [] 0). generalize start.
    induction (N.to_nat (vc_slots c)) as [|n IH]; intros q' s0 H; [exact H|]. cbn [vinit_slots]. apply IH. exact H. }
  destruct (until_bound c l (vinit c start) s 0) as [UB _]; [|exact Run|].
  { split; [lia|]. intros t th G. unfold get_th in G. rewrite (proj1 (vinit_ths c start)) in G. discriminate G. }
  fold (cancelled_to l) in UB.
  pose proof (i_th _ _ (proj1 I2) _ _ A1) as (o1 & x1 & Go1 & Q1 & E1). pose proof (i_th _ _ (proj1 I2) _ _ A2) as (o2 & x2 & Go2 & Q2 & E2).
  pose proof (ok_live _ _ _ _ (i_obj _ _ (proj1 I2) _ _ Go1)) as L1. pose proof (ok_live _ _ _ _ (i_obj _ _ (proj1 I2) _ _ Go2)) as L2.
  rewrite Q1 in L1. rewrite Q2 in L2. specialize (L1 ltac:(lia)). specialize (L2 ltac:(lia)). assert (o1 = o2) by congruence. subst o2. congruence.
Qed.
