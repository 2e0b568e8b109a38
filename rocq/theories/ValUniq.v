(** Uniqueness and cancellation invariants of the validator session machine. *)
From Coq Require Import NArith Lia List Bool ZArith ZifyN ZifyBool.
From Verif Require Import AMap StatsSpec StatsProofs ValModel ValInv ValStep.
Import ListNotations.
Open Scope N_scope.
Local Opaque u64_mod u32_top.

(** the block object a running validate_block call has registered *)
Definition own_of (th : vth) : option N :=
  match th with
  | VCheck1 _ o _ | VCheck2 _ o _ | VFail1 _ o | VUncache _ o _ | VScan _ o _ _ _ _ _ | VSpawn _ o _ _ _ _ _ _ | VWait _ o _ _ _ => Some o
  | _ => None
  end.
(** validate_block calls that found the seqno not cancelled after registering the block *)
Definition pas_of (th : vth) : option (vblock * N) :=
  match th with
  | VCheck2 b o _ | VUncache b o _ | VScan b o _ _ _ _ _ | VSpawn b o _ _ _ _ _ _ | VWait b o _ _ _ => Some (b, o)
  | _ => None
  end.
Definition ret_of (th : vth) : option vblock := match th with VRet b (VComplete _ _) => Some b | _ => None end.
Definition psd_of (th : vth) : option N :=
  match pas_of th, ret_of th with
  | Some (b, _), _ => Some (vb_seqno b)
  | None, Some b => Some (vb_seqno b)
  | None, None => None
  end.
Definition exc_of (th : vth) : option N :=
  match th with VCheck1 b _ _ | VFail1 b _ | VFail2 b => Some (vb_seqno b) | _ => None end.
(** cancel_until(q) has already visited the blocks below k *)
Definition scan_of (th : vth) : option (N * N) :=
  match th with UScan q k => Some (q, k) | URem q _ | URet q => Some (q, q + 1) | _ => None end.

Record U (s : vst) : Prop := {
  u_own : forall t1 t2 th1 th2 o, get_th s t1 = Some th1 -> get_th s t2 = Some th2 -> own_of th1 = Some o -> own_of th2 = Some o -> t1 = t2;
  u_ret : forall t th b, get_th s t = Some th -> ret_of th = Some b ->
            exists o x, get_obj s o = Some x /\ vo_blk x = b /\ forall t' th', get_th s t' = Some th' -> own_of th' <> Some o;
  u_one : forall t1 t2 th1 th2 q, get_th s t1 = Some th1 -> get_th s t2 = Some th2 -> psd_of th1 = Some q -> psd_of th2 = Some q -> t1 = t2;
  u_live : forall t th b o x, get_th s t = Some th -> pas_of th = Some (b, o) -> get_obj s o = Some x -> vo_cancelled x = false ->
            aget N.eqb (vb_seqno b) (vs_blocks s) = Some o;
  u_exc : forall t th b o x t' th', get_th s t = Some th -> pas_of th = Some (b, o) -> get_obj s o = Some x -> vo_cancelled x = false ->
            get_th s t' = Some th' -> exc_of th' = Some (vb_seqno b) -> False;
  u_scan : forall u thu q k t th b o x, get_th s u = Some thu -> scan_of thu = Some (q, k) -> get_th s t = Some th -> pas_of th = Some (b, o) ->
            get_obj s o = Some x -> vb_seqno b <= q -> vb_seqno b < k -> vo_cancelled x = true
}.

(** objects only get cancelled, threads and blocks untouched *)
Lemma U_obj s s' : U s -> vs_ths s' = vs_ths s -> vs_blocks s' = vs_blocks s ->
  (forall o x', get_obj s' o = Some x' -> exists x, get_obj s o = Some x /\ (vo_cancelled x = true -> vo_cancelled x' = true)) ->
  (forall o x, get_obj s o = Some x -> exists x', get_obj s' o = Some x' /\ vo_blk x' = vo_blk x) -> U s'.
Proof.
  intros [A1 A2 A3 A4 A5 A6] T B H1 H2.
  assert (F : forall o x', get_obj s' o = Some x' -> vo_cancelled x' = false -> exists x, get_obj s o = Some x /\ vo_cancelled x = false).
  { intros o x' G C. destruct (H1 _ _ G) as (x & Gx & Cx). exists x. split; [auto|]. destruct (vo_cancelled x); [specialize (Cx eq_refl); congruence|auto]. }
  constructor; unfold get_th in *; rewrite ?T, ?B; auto.
  - intros t th b G R. destruct (A2 _ _ _ G R) as (o & x & Gx & Bx & N). destruct (H2 _ _ Gx) as (x' & Gx' & Bx'). exists o, x'. split; [auto|]. split; [congruence|auto].
  - intros t th b o x' G P Gx C. destruct (F _ _ Gx C) as (x & Gx0 & C0). eauto.
  - intros t th b o x' t' th' G P Gx C G' E. destruct (F _ _ Gx C) as (x & Gx0 & C0). eauto.
  - intros u thu q k t th b o x' Gu Sc G P Gx L1 L2. destruct (H1 _ _ Gx) as (x & Gx0 & C0). apply C0. eauto.
Qed.

Lemma psd_pas th b o : pas_of th = Some (b, o) -> psd_of th = Some (vb_seqno b).
Proof. unfold psd_of. intros ->. reflexivity. Qed.
Lemma pas_own th b o : pas_of th = Some (b, o) -> own_of th = Some o.
Proof. destruct th; cbn [pas_of own_of]; intros E; try discriminate; injection E; congruence. Qed.

(** a thread moves without entering a new class *)
Lemma U_th s t th0 th : U s -> get_th s t = Some th0 ->
  (forall o, own_of th = Some o -> own_of th0 = Some o) -> ret_of th = None ->
  (forall p, pas_of th = Some p -> pas_of th0 = Some p) ->
  (forall q, exc_of th = Some q -> exc_of th0 = Some q) ->
  (forall q k, scan_of th = Some (q, k) -> k = 0 \/ scan_of th0 = Some (q, k)) -> U (set_th t th s).
Proof.
  intros [A1 A2 A3 A4 A5 A6] G O R P E Sc.
  assert (Gt : forall t', get_th (set_th t th s) t' = if t' =? t then Some th else get_th s t') by (intros; apply get_th_set).
  assert (PS : forall q, psd_of th = Some q -> psd_of th0 = Some q).
  { intros q. unfold psd_of. rewrite R. destruct (pas_of th) as [[b o]|] eqn:Ep; [|discriminate]. rewrite (P _ eq_refl). auto. }
  assert (L : forall t' th' (f : vth -> Prop), get_th (set_th t th s) t' = Some th' -> f th' -> (f th -> f th0) -> exists th1, get_th s t' = Some th1 /\ f th1).
  { intros t' th' f G' F' FF. rewrite Gt in G'. destruct (N.eqb_spec t' t) as [->|]; [injection G' as <-; eauto|eauto]. }
  constructor; change (get_obj (set_th t th s)) with (get_obj s); change (vs_blocks (set_th t th s)) with (vs_blocks s).
  - intros t1 t2 th1 th2 o G1 G2 O1 O2. destruct (L _ _ (fun x => own_of x = Some o) G1 O1 (O o)) as (y1 & Y1 & Z1). destruct (L _ _ (fun x => own_of x = Some o) G2 O2 (O o)) as (y2 & Y2 & Z2). eauto.
  - intros t1 th1 b G1 R1. rewrite Gt in G1. destruct (N.eqb_spec t1 t); [injection G1 as <-; congruence|].
    destruct (A2 _ _ _ G1 R1) as (o & x & Gx & Bx & N). exists o, x. split; [auto|]. split; [auto|]. intros t' th' G' O'.
    destruct (L _ _ (fun x => own_of x = Some o) G' O' (O o)) as (y & Y & Z). exact (N _ _ Y Z).
  - intros t1 t2 th1 th2 q G1 G2 O1 O2. destruct (L _ _ (fun x => psd_of x = Some q) G1 O1 (PS q)) as (y1 & Y1 & Z1). destruct (L _ _ (fun x => psd_of x = Some q) G2 O2 (PS q)) as (y2 & Y2 & Z2). eauto.
  - intros t1 th1 b o x G1 P1. destruct (L _ _ (fun x => pas_of x = Some (b, o)) G1 P1 (P _)) as (y1 & Y1 & Z1). eauto.
  - intros t1 th1 b o x t2 th2 G1 P1 Gx C G2 E2. destruct (L _ _ (fun x => pas_of x = Some (b, o)) G1 P1 (P _)) as (y1 & Y1 & Z1).
    destruct (L _ _ (fun x => exc_of x = Some (vb_seqno b)) G2 E2 (E _)) as (y2 & Y2 & Z2). eauto.
  - intros u thu q k t1 th1 b o x Gu Su G1 P1 Gx L1 L2. destruct (L _ _ (fun x => pas_of x = Some (b, o)) G1 P1 (P _)) as (y1 & Y1 & Z1).
    rewrite Gt in Gu. destruct (N.eqb_spec u t) as [->|]; [|eauto]. injection Gu as <-. destruct (Sc _ _ Su) as [->|Sc']; [lia|]. eauto.
Qed.

Lemma U_set_obj s o x x' : U s -> get_obj s o = Some x -> vo_blk x' = vo_blk x -> (vo_cancelled x = true -> vo_cancelled x' = true) -> U (set_obj o x' s).
Proof.
  intros Us Go B C. eapply U_obj; [exact Us|reflexivity|reflexivity|..]; intros o' y; rewrite get_obj_set; destruct (N.eqb_spec o' o) as [->|].
  - intros E. injection E as <-. exists x. auto.
  - intros E. exists y. auto.
  - intros E. rewrite Go in E. injection E as <-. exists x'. auto.
  - intros E. exists y. auto.
Qed.

Section Uniq.
  Variable c : vcfg.
  Hypothesis CK : cfg_ok c.

  Lemma pas_has s t th b o : Inv c s -> get_th s t = Some th -> pas_of th = Some (b, o) -> has_obj s o b.
  Proof.
    intros I G P. pose proof (i_th _ _ I _ _ G) as H. destruct th; cbn [pas_of] in P; try discriminate; injection P as <- <-; cbn [th_ok] in H; tauto.
  Qed.
  Lemma own_has s t th o : Inv c s -> get_th s t = Some th -> own_of th = Some o -> exists x, get_obj s o = Some x.
  Proof.
    intros I G P. pose proof (i_th _ _ I _ _ G) as H. destruct th; cbn [own_of] in P; try discriminate; injection P as <-; cbn [th_ok] in H;
      first [solve [destruct H as [(x & Gx & _) _]; eauto] | solve [destruct H as (x & Gx & _); eauto]].
  Qed.
  Lemma has_live s o b : Inv c s -> has_obj s o b -> vs_until s < vb_seqno b -> aget N.eqb (vb_seqno b) (vs_blocks s) = Some o.
  Proof. intros I (x & G & <-) L. apply (ok_live _ _ _ _ (i_obj _ _ I _ _ G) L). Qed.

  Ltac cls := first [discriminate | reflexivity | (intros; discriminate) | (intros ? E; exact E) | (intros ? E; injection E as <-; reflexivity) | (intros ? ? E; right; exact E)
     | (intros ? ? E; discriminate E) | (intros ? E; injection E as <- <-; reflexivity)
     | (intros ? ? E; left; injection E; congruence)].
  Ltac uth G := eapply U_th; [|exact G| cls|cls|cls|cls|cls].

  Lemma run_add_U s t th s' : Inv2 c s -> U s -> get_th s t = Some th -> run_add c t th s = Some s' -> U s'.
  Proof.
    intros I2 Us G R. destruct th; cbn [run_add] in R; try discriminate R; fold (get_obj s o) in R;
      (destruct (get_obj s o) as [x|] eqn:Go; [|discriminate]); unfold slot_of in R.
    - destruct (aget N.eqb p (vo_slots x)) as [[saved|]|]; [| |discriminate].
      + injection R as <-. destruct (saved =? s0), k; cbn [add_done add_changed]; uth G; auto.
      + destruct (aget N.eqb p (vc_vals c)); injection R as <-; [destruct (vc_verify c p (vdata (vo_blk x)) s0), k; cbn [add_invalid]|]; uth G; auto.
    - destruct (aget N.eqb p (vo_slots x)) as [[saved|]|]; [| |discriminate]; injection R as <-.
      + destruct (saved =? s0), k; cbn [add_changed]; uth G; auto.
      + uth G. eapply U_set_obj; eauto.
    - destruct (aget N.eqb p (vc_vals c)); [|discriminate]. injection R as <-. uth G. eapply U_set_obj; eauto.
    - injection R as <-. destruct can, k; cbn [add_done]; uth G; auto; eapply U_set_obj; eauto.
  Qed.

  Lemma run_task_U s t th s' : U s -> get_th s t = Some th -> run_task t th s = Some s' -> U s'.
  Proof.
    intros Us G R. destruct th; cbn [run_task] in R; try discriminate R.
    - destruct cached; injection R as <-; uth G; auto.
    - destruct (aget N.eqb o (vs_objs s)) as [x|]; [|discriminate]. destruct (slot_of p (vo_slots x)) as [[sg|]|]; try discriminate. injection R as <-. uth G; auto.
    - destruct (aget N.eqb o (vs_objs s)) as [x|]; [|discriminate]. destruct (slot_of p (vo_slots x)) as [[sg|]|]; try discriminate; injection R as <-; uth G; auto.
  Qed.

  Lemma U_same s s' : U s -> vs_ths s' = vs_ths s -> vs_blocks s' = vs_blocks s -> vs_objs s' = vs_objs s -> U s'.
  Proof.
    intros Us T B O. eapply U_obj; eauto; unfold get_obj; rewrite O; intros o x E; exists x; auto.
  Qed.

  Lemma run_exch_U s t th s' : U s -> get_th s t = Some th -> run_exch t th s = Some s' -> U s'.
  Proof.
    intros Us G R. destruct th; cbn [run_exch] in R; try discriminate R.
    - injection R as <-. destruct (vs_token s); uth G; auto.
    - destruct (aget N.eqb q (vs_blocks s)) as [o|]; [|injection R as <-; uth G; auto].
      destruct (aget N.eqb o (vs_objs s)) as [x|]; [|discriminate]. destruct (slot_of p (vo_slots x)); injection R as <-; uth G; auto.
    - destruct (aget N.eqb o (vs_objs s)) as [x|]; [|discriminate]. injection R as <-. destruct (vo_validated x); uth G; auto.
    - destruct (aget N.eqb q (vs_caches s)) as [o|]; [|injection R as <-; uth G; auto].
      destruct (aget N.eqb o (vs_cobjs s)) as [x|]; [|discriminate]. destruct (slot_of p x); injection R as <-; uth G; auto.
    - destruct (aget N.eqb c0 (vs_cobjs s)) as [x|]; [|discriminate]. injection R as <-. uth G. eapply U_same; eauto.
  Qed.

  (** a key is removed that no uncancelled passed call relies on *)
  Lemma U_del s q : U s -> (forall t th b o x, get_th s t = Some th -> pas_of th = Some (b, o) -> get_obj s o = Some x -> vo_cancelled x = false -> vb_seqno b <> q) ->
    U (set_blocks (adel N.eqb q (vs_blocks s)) s).
  Proof.
    intros [A1 A2 A3 A4 A5 A6] H. constructor; auto. intros t th b o x G P Gx C. cbn [set_blocks vs_blocks]. rewrite nget_adel.
    destruct (N.eqb_spec (vb_seqno b) q) as [E|]; [exfalso; eapply H; eauto|eauto].
  Qed.

  (** cancel_until moves its cursor *)
  Lemma U_cursor s t th0 th q k : U s -> get_th s t = Some th0 -> own_of th = None -> ret_of th = None -> pas_of th = None -> exc_of th = None ->
    scan_of th = Some (q, k) ->
    (forall t1 th1 b o x, get_th s t1 = Some th1 -> pas_of th1 = Some (b, o) -> get_obj s o = Some x -> vb_seqno b <= q -> vb_seqno b < k -> vo_cancelled x = true) ->
    U (set_th t th s).
  Proof.
    intros [A1 A2 A3 A4 A5 A6] G O R P E Sc H.
    assert (Gt : forall t', get_th (set_th t th s) t' = if t' =? t then Some th else get_th s t') by (intros; apply get_th_set).
    assert (PS : psd_of th = None) by (unfold psd_of; rewrite R, P; reflexivity).
    constructor; change (get_obj (set_th t th s)) with (get_obj s); change (vs_blocks (set_th t th s)) with (vs_blocks s).
    - intros t1 t2 th1 th2 o G1 G2. rewrite Gt in G1, G2. destruct (t1 =? t); [injection G1 as <-; congruence|]. destruct (t2 =? t); [injection G2 as <-; congruence|]. eauto.
    - intros t1 th1 b G1 R1. rewrite Gt in G1. destruct (t1 =? t); [injection G1 as <-; congruence|].
      destruct (A2 _ _ _ G1 R1) as (o & x & Gx & Bx & N). exists o, x. split; [auto|]. split; [auto|]. intros t' th' G' O'.
      rewrite Gt in G'. destruct (t' =? t); [injection G' as <-; congruence|]. eapply N; eauto.
    - intros t1 t2 th1 th2 o G1 G2. rewrite Gt in G1, G2. destruct (t1 =? t); [injection G1 as <-; congruence|]. destruct (t2 =? t); [injection G2 as <-; congruence|]. eauto.
    - intros t1 th1 b o x G1. rewrite Gt in G1. destruct (t1 =? t); [injection G1 as <-; congruence|]. eauto.
    - intros t1 th1 b o x t2 th2 G1 P1 Gx C G2. rewrite Gt in G1, G2. destruct (t1 =? t); [injection G1 as <-; congruence|]. destruct (t2 =? t); [injection G2 as <-; congruence|]. eauto.
    - intros u thu q' k' t1 th1 b o x Gu Su G1 P1 Gx L1 L2. rewrite Gt in G1, Gu. destruct (t1 =? t); [injection G1 as <-; congruence|].
      destruct (u =? t); [|eauto]. injection Gu as <-. rewrite Sc in Su. injection Su as <- <-. eauto.
  Qed.

  Lemma U_spawn s th : U s -> own_of th = None -> ret_of th = None -> pas_of th = None -> exc_of th = None -> scan_of th = None -> U (spawn th s).
  Proof.
    intros [A1 A2 A3 A4 A5 A6] O R P E Sc. set (t := vs_fresh s).
    assert (Gt : forall t', get_th (spawn th s) t' = if t' =? t then Some th else get_th s t') by (intros t'; exact (get_th_set t th s t')).
    assert (PS : psd_of th = None) by (unfold psd_of; rewrite R, P; reflexivity).
    constructor; change (get_obj (spawn th s)) with (get_obj s); change (vs_blocks (spawn th s)) with (vs_blocks s).
    - intros t1 t2 th1 th2 o G1 G2. rewrite Gt in G1, G2. destruct (t1 =? t); [injection G1 as <-; congruence|]. destruct (t2 =? t); [injection G2 as <-; congruence|]. eauto.
    - intros t1 th1 b G1 R1. rewrite Gt in G1. destruct (t1 =? t); [injection G1 as <-; congruence|].
      destruct (A2 _ _ _ G1 R1) as (o & x & Gx & Bx & N). exists o, x. split; [auto|]. split; [auto|]. intros t' th' G' O'.
      rewrite Gt in G'. destruct (t' =? t); [injection G' as <-; congruence|]. eapply N; eauto.
    - intros t1 t2 th1 th2 o G1 G2. rewrite Gt in G1, G2. destruct (t1 =? t); [injection G1 as <-; congruence|]. destruct (t2 =? t); [injection G2 as <-; congruence|]. eauto.
    - intros t1 th1 b o x G1. rewrite Gt in G1. destruct (t1 =? t); [injection G1 as <-; congruence|]. eauto.
    - intros t1 th1 b o x t2 th2 G1 P1 Gx C G2. rewrite Gt in G1, G2. destruct (t1 =? t); [injection G1 as <-; congruence|]. destruct (t2 =? t); [injection G2 as <-; congruence|]. eauto.
    - intros u thu q' k' t1 th1 b o x Gu Su G1 P1 Gx L1 L2. rewrite Gt in G1, Gu. destruct (t1 =? t); [injection G1 as <-; congruence|].
      destruct (u =? t); [injection Gu as <-; congruence|]. eauto.
  Qed.

  Lemma blk_key s k o : aget N.eqb k (vs_blocks s) = Some o -> In k (akeys (vs_blocks s)).
  Proof. intros H. apply nget_in. eauto. Qed.

  Lemma run_cancel_U s t th s' : Inv2 c s -> U s -> get_th s t = Some th -> run_cancel c t th s = Some s' -> U s'.
  Proof.
    intros I2 Us G R. pose proof (proj1 I2) as I. pose proof (i_th _ _ I _ _ G) as H.
    destruct th; cbn [run_cancel] in R; try discriminate R; cbn [th_ok] in H.
    - injection R as <-. uth G. eapply U_same; eauto.
    - injection R as <-. uth G. eapply U_same; eauto.
    - injection R as <-. uth G. eapply U_same; eauto.
    - injection R as <-. uth G. eapply U_same; eauto.
    - destruct (nextk k q (vs_caches s)) as [k'|]; injection R as <-; uth G; auto. eapply U_same; eauto.
    - destruct (nextk k q (vs_blocks s)) as [k'|] eqn:Nk.
      + destruct (nextk_some _ _ _ _ Nk) as (L1 & L2 & L3 & L4).
        destruct (aget N.eqb k' (vs_blocks s)) as [o|] eqn:B; [|discriminate]. destruct (i_blk _ _ I _ _ B) as (x & Go & Q).
        unfold get_obj in Go. rewrite Go in R. injection R as <-. fold (get_obj s o) in Go.
        eapply U_cursor with (q := q) (k := k' + 1); try reflexivity; [eapply U_set_obj; eauto; reflexivity|exact G|].
        intros t1 th1 b o1 x1 G1 P1 Gx1 L5 L6. change (get_th s t1 = Some th1) in G1. rewrite get_obj_set in Gx1.
        destruct (N.eqb_spec o1 o) as [->|Ho]; [injection Gx1 as <-; reflexivity|].
        destruct (vo_cancelled x1) eqn:C; [reflexivity|]. exfalso. pose proof (u_live _ Us _ _ _ _ _ G1 P1 Gx1 C) as LV.
        destruct (N.lt_ge_cases (vb_seqno b) k) as [Lk|Lk].
        * pose proof (u_scan _ Us _ _ _ _ _ _ _ _ _ G eq_refl G1 P1 Gx1 L5 Lk). congruence.
        * specialize (L4 _ (blk_key _ _ _ LV) Lk L5). assert (E : vb_seqno b = k') by lia. rewrite E in LV. congruence.
      + injection R as <-. eapply U_cursor with (q := q) (k := q + 1); try reflexivity; [exact Us|exact G|].
        intros t1 th1 b o1 x1 G1 P1 Gx1 L5 L6. destruct (vo_cancelled x1) eqn:C; [reflexivity|]. exfalso. pose proof (u_live _ Us _ _ _ _ _ G1 P1 Gx1 C) as LV.
        destruct (N.lt_ge_cases (vb_seqno b) k) as [Lk|Lk].
        * pose proof (u_scan _ Us _ _ _ _ _ _ _ _ _ G eq_refl G1 P1 Gx1 L5 Lk). congruence.
        * eapply nextk_none; [exact Nk|exact (blk_key _ _ _ LV)|auto|auto].
    - destruct (nextk k (q - vc_keep c) (vs_blocks s)) as [k'|] eqn:Nk; injection R as <-; [|uth G; auto].
      destruct (nextk_some _ _ _ _ Nk) as (L1 & L2 & _). uth G. apply U_del; auto.
      intros t1 th1 b o1 x1 G1 P1 Gx1 C E. assert (vo_cancelled x1 = true); [|congruence].
      apply (u_scan _ Us _ _ _ _ _ _ _ _ _ G eq_refl G1 P1 Gx1); lia.
  Qed.

  Lemma run_validate_U s t th s' : Inv2 c s -> U s -> get_th s t = Some th -> run_validate c t th s = Some s' -> U s'.
  Proof.
    intros I2 Us G R. pose proof (proj1 I2) as I. pose proof (i_th _ _ I _ _ G) as H.
    assert (Ft : t < vs_fresh s).
    { destruct (N.lt_ge_cases t (vs_fresh s)) as [L|L]; [auto|]. rewrite (i_fth _ _ I _ L) in G. discriminate. }
    destruct th; cbn [run_validate] in R; try discriminate R; cbn [th_ok] in H.
    - injection R as <-. destruct (vb_seqno b <=? vs_until s); uth G; auto.
    - injection R as <-. uth G. eapply U_same; eauto.
    - injection R as <-. uth G; auto.
    - destruct (i <? to); [|injection R as <-; uth G; auto].
      destruct (aget N.eqb i (vs_caches s)) as [ci|]; injection R as <-; uth G; auto. eapply U_same; eauto.
    - destruct (aget N.eqb (vb_seqno b) (vs_caches s)) as [ci|].
      + destruct (aget N.eqb ci (vs_cobjs s)); [|discriminate]. injection R as <-. uth G; auto.
      + injection R as <-. uth G; auto.
    - destruct todo as [|p todo]; [injection R as <-; uth G; auto|].
      destruct (aget N.eqb cid (vs_cobjs s)) as [m|]; [|discriminate]. destruct (slot_of p m) as [[sg|]|]; [| |discriminate].
      + destruct (aget N.eqb p (vc_vals c)); [|injection R as <-; uth G; auto]. destruct (vc_verify c p (vdata b) sg); injection R as <-; uth G; auto.
      + injection R as <-. uth G; auto.
    - (* VInsert *)
      destruct (aget N.eqb (vb_seqno b) (vs_blocks s)) eqn:B; [injection R as <-; uth G; auto|].
      cbv zeta in R. injection R as <-. set (o := vs_fresh s) in *. set (x := VO b _ _ _ _ _). set (th := VCheck1 b o cid).
      set (s' := set_th t th _).
      assert (Gt : forall t', get_th s' t' = if t' =? t then Some th else get_th s t') by (intros t'; exact (get_th_set t th s t')).
      assert (Gx : forall o', get_obj s' o' = if o' =? o then Some x else get_obj s o') by (intros o'; exact (get_obj_set o x s o')).
      assert (No : get_obj s o = None) by (apply (i_fobj _ _ I); unfold o; lia).
      assert (Nown : forall t' th', get_th s t' = Some th' -> own_of th' <> Some o).
      { intros t' th' G' O'. destruct (own_has _ _ _ _ I G' O') as [x' E]. congruence. }
      destruct Us as [A1 A2 A3 A4 A5 A6]. constructor.
      + intros t1 t2 th1 th2 o' G1 G2 O1 O2. rewrite Gt in G1, G2. destruct (N.eqb_spec t1 t), (N.eqb_spec t2 t); subst; auto.
        * injection G1 as <-. cbn [th own_of] in O1. injection O1 as <-. exfalso. eapply Nown; eauto.
        * injection G2 as <-. cbn [th own_of] in O2. injection O2 as <-. exfalso. eapply Nown; eauto.
        * eauto.
      + intros t1 th1 b1 G1 R1. rewrite Gt in G1. destruct (t1 =? t); [injection G1 as <-; discriminate|].
        destruct (A2 _ _ _ G1 R1) as (o1 & x1 & Go1 & Bx & N). assert (Ne : o1 <> o) by (intros ->; congruence).
        exists o1, x1. rewrite Gx. destruct (N.eqb_spec o1 o); [congruence|]. split; [auto|]. split; [auto|]. intros t' th' G'. rewrite Gt in G'.
        destruct (t' =? t); [injection G' as <-; cbn [th own_of]; congruence|eauto].
      + intros t1 t2 th1 th2 q G1 G2. rewrite Gt in G1, G2. destruct (t1 =? t); [injection G1 as <-; discriminate|]. destruct (t2 =? t); [injection G2 as <-; discriminate|]. eauto.
      + intros t1 th1 b1 o1 x1 G1 P1 Gx1 C. rewrite Gt in G1. destruct (t1 =? t); [injection G1 as <-; discriminate|].
        rewrite Gx in Gx1. destruct (N.eqb_spec o1 o) as [->|]; [exfalso; eapply Nown; [exact G1|eapply pas_own; eauto]|].
        pose proof (A4 _ _ _ _ _ G1 P1 Gx1 C) as LV. change (vs_blocks s') with (aset N.eqb (vb_seqno b) o (vs_blocks s)). rewrite nget_aset.
        destruct (N.eqb_spec (vb_seqno b1) (vb_seqno b)) as [E|]; [|auto]. rewrite E in LV. congruence.
      + intros t1 th1 b1 o1 x1 t2 th2 G1 P1 Gx1 C G2 E2. rewrite Gt in G1. destruct (t1 =? t); [injection G1 as <-; discriminate|].
        rewrite Gx in Gx1. destruct (N.eqb_spec o1 o) as [->|]; [eapply Nown; [exact G1|eapply pas_own; eauto]|].
        pose proof (A4 _ _ _ _ _ G1 P1 Gx1 C) as LV. rewrite Gt in G2. destruct (t2 =? t); [|eauto].
        injection G2 as <-. cbn [th exc_of] in E2. injection E2 as E. rewrite <- E in LV. congruence.
      + intros u thu q k t1 th1 b1 o1 x1 Gu Su G1 P1 Gx1 L1 L2. rewrite Gt in G1, Gu. destruct (t1 =? t); [injection G1 as <-; discriminate|].
        destruct (u =? t); [injection Gu as <-; discriminate|].
        rewrite Gx in Gx1. destruct (N.eqb_spec o1 o) as [->|]; [exfalso; eapply Nown; [exact G1|eapply pas_own; eauto]|]. eauto.
    - (* VCheck1 *)
      injection R as <-. destruct (N.leb_spec (vb_seqno b) (vs_until s)) as [L|L]; [uth G; auto|].
      pose proof (has_live _ _ _ I H L) as LB.
      set (th := VCheck2 b o cid).
      assert (Gt : forall t', get_th (set_th t th s) t' = if t' =? t then Some th else get_th s t') by (intros t'; exact (get_th_set t th s t')).
      assert (NP : forall t1 th1, get_th s t1 = Some th1 -> psd_of th1 = Some (vb_seqno b) -> False).
      { intros t1 th1 G1 P1. unfold psd_of in P1. destruct (pas_of th1) as [[b1 o1]|] eqn:E1.
        - injection P1 as Eq. pose proof (pas_has _ _ _ _ _ I G1 E1) as H1. assert (LB1 := has_live _ _ _ I H1). rewrite Eq in LB1. specialize (LB1 L).
          assert (Eo : o1 = o) by congruence. subst o1.
          assert (Et : t1 = t) by (eapply (u_own _ Us); [exact G1|exact G|eapply pas_own; eauto|reflexivity]). subst t1. rewrite G in G1. injection G1 as <-. discriminate E1.
        - destruct (ret_of th1) as [b1|] eqn:E2; [|discriminate]. injection P1 as Eq.
          destruct (u_ret _ Us _ _ _ G1 E2) as (o1 & x1 & Gx1 & Bx1 & N1).
          assert (H1 : has_obj s o1 b1) by (exists x1; auto). assert (LB1 := has_live _ _ _ I H1). rewrite Eq in LB1. specialize (LB1 L).
          assert (Eo : o1 = o) by congruence. subst o1. exact (N1 _ _ G eq_refl). }
      destruct Us as [A1 A2 A3 A4 A5 A6]. constructor; change (get_obj (set_th t th s)) with (get_obj s); change (vs_blocks (set_th t th s)) with (vs_blocks s).
      + intros t1 t2 th1 th2 o' G1 G2 O1 O2. rewrite Gt in G1, G2. destruct (N.eqb_spec t1 t), (N.eqb_spec t2 t); subst; auto.
        * injection G1 as <-. eapply A1; [exact G|exact G2|exact O1|exact O2].
        * injection G2 as <-. eapply A1; [exact G1|exact G|exact O1|exact O2].
        * eauto.
      + intros t1 th1 b1 G1 R1. rewrite Gt in G1. destruct (t1 =? t); [injection G1 as <-; discriminate|].
        destruct (A2 _ _ _ G1 R1) as (o1 & x1 & Go1 & Bx & N). exists o1, x1. split; [auto|]. split; [auto|]. intros t' th' G'. rewrite Gt in G'.
        destruct (t' =? t); [injection G' as <-; exact (N _ _ G)|eauto].
      + intros t1 t2 th1 th2 q G1 G2 P1 P2. rewrite Gt in G1, G2. destruct (N.eqb_spec t1 t), (N.eqb_spec t2 t); subst; auto.
        * injection G1 as <-. injection P1 as <-. exfalso. eapply NP; eauto.
        * injection G2 as <-. injection P2 as <-. exfalso. eapply NP; eauto.
        * eauto.
      + intros t1 th1 b1 o1 x1 G1 P1 Gx1 C. rewrite Gt in G1. destruct (t1 =? t); [injection G1 as <-; injection P1 as <- <-; exact LB|eauto].
      + intros t1 th1 b1 o1 x1 t2 th2 G1 P1 Gx1 C G2 E2. rewrite Gt in G1, G2. destruct (N.eqb_spec t2 t); [injection G2 as <-; discriminate|].
        destruct (N.eqb_spec t1 t) as [->|]; [|eauto]. injection G1 as <-. injection P1 as <- <-.
        pose proof (i_th _ _ I _ _ G2) as H2. destruct th2; cbn [exc_of] in E2; try discriminate; injection E2 as Eq; cbn [th_ok] in H2.
        * assert (LB1 := has_live _ _ _ I H2). rewrite Eq in LB1. specialize (LB1 L). assert (o0 = o) by congruence. subst o0.
          apply n. eapply A1; [exact G2|exact G|reflexivity|reflexivity].
        * lia.
        * lia.
      + intros u thu q k t1 th1 b1 o1 x1 Gu Su G1 P1 Gx1 L1 L2. rewrite Gt in G1, Gu. destruct (N.eqb_spec u t); [injection Gu as <-; discriminate|].
        destruct (t1 =? t); [|eauto]. injection G1 as <-. injection P1 as <- <-.
        pose proof (i_th _ _ I _ _ Gu) as H2. destruct thu; cbn [scan_of] in Su; try discriminate; injection Su as <- <-; cbn [th_ok] in H2; lia.
    - (* VCheck2 *)
      destruct (aget N.eqb o (vs_objs s)) as [x|] eqn:Go; [|discriminate]. fold (get_obj s o) in Go. injection R as <-.
      destruct (vo_cancelled x || vs_token s); [|uth G; auto].
      set (th := VFail1 b o).
      assert (Gt : forall t', get_th (set_th t th s) t' = if t' =? t then Some th else get_th s t') by (intros t'; exact (get_th_set t th s t')).
      destruct Us as [A1 A2 A3 A4 A5 A6]. constructor; change (get_obj (set_th t th s)) with (get_obj s); change (vs_blocks (set_th t th s)) with (vs_blocks s).
      + intros t1 t2 th1 th2 o' G1 G2 O1 O2. rewrite Gt in G1, G2. destruct (N.eqb_spec t1 t), (N.eqb_spec t2 t); subst; auto.
        * injection G1 as <-. eapply A1; [exact G|exact G2|exact O1|exact O2].
        * injection G2 as <-. eapply A1; [exact G1|exact G|exact O1|exact O2].
        * eauto.
      + intros t1 th1 b1 G1 R1. rewrite Gt in G1. destruct (t1 =? t); [injection G1 as <-; discriminate|].
        destruct (A2 _ _ _ G1 R1) as (o1 & x1 & Go1 & Bx & N). exists o1, x1. split; [auto|]. split; [auto|]. intros t' th' G'. rewrite Gt in G'.
        destruct (t' =? t); [injection G' as <-; exact (N _ _ G)|eauto].
      + intros t1 t2 th1 th2 q G1 G2 P1 P2. rewrite Gt in G1, G2. destruct (t1 =? t); [injection G1 as <-; discriminate|]. destruct (t2 =? t); [injection G2 as <-; discriminate|]. eauto.
      + intros t1 th1 b1 o1 x1 G1 P1 Gx1 C. rewrite Gt in G1. destruct (t1 =? t); [injection G1 as <-; discriminate|eauto].
      + intros t1 th1 b1 o1 x1 t2 th2 G1 P1 Gx1 C G2 E2. rewrite Gt in G1, G2. destruct (N.eqb_spec t1 t); [injection G1 as <-; discriminate|].
        destruct (t2 =? t); [|eauto]. injection G2 as <-. injection E2 as Eq. apply n.
        eapply A3; [exact G1|exact G|eapply psd_pas; eauto|]. cbn [psd_of pas_of]. congruence.
      + intros u thu q k t1 th1 b1 o1 x1 Gu Su G1 P1 Gx1 L1 L2. rewrite Gt in G1, Gu. destruct (t1 =? t); [injection G1 as <-; discriminate|].
        destruct (u =? t); [injection Gu as <-; discriminate|eauto].
    - destruct (aget N.eqb o (vs_objs s)) as [x|] eqn:Go; [|discriminate]. injection R as <-. uth G. eapply U_set_obj; [exact Us|exact Go|reflexivity|reflexivity].
    - injection R as <-. uth G. apply U_del; auto. intros t1 th1 b1 o1 x1 G1 P1 Gx1 C E. eapply (u_exc _ Us); [exact G1|exact P1|exact Gx1|exact C|exact G|cbn [exc_of]; congruence].
    - destruct (aget N.eqb o (vs_objs s)) as [x|]; [|discriminate]. injection R as <-. uth G. eapply U_same; eauto.
    - destruct todo as [|p todo]; [injection R as <-; uth G; auto|].
      destruct (aget N.eqb o (vs_objs s)) as [x|]; [|discriminate]. destruct (slot_of p (vo_slots x)) as [[sg|]|]; [| |discriminate].
      + destruct (aget N.eqb p (vc_vals c)); injection R as <-; uth G; auto.
      + injection R as <-. uth G; auto.
    - (* VSpawn *)
      set (cached := match cid with None => None | Some ci => _ end) in R. clearbody cached. cbv zeta in R. injection R as <-.
      assert (Gs : get_th (spawn (TStart o p cached) s) t = Some (VSpawn b o cid p todo res total pend)).
      { change (get_th (set_th (vs_fresh s) (TStart o p cached) s) t = Some (VSpawn b o cid p todo res total pend)). rewrite get_th_set.
        destruct (N.eqb_spec t (vs_fresh s)); [lia|exact G]. }
      uth Gs. apply U_spawn; auto.
    - (* VWait *)
      destruct (total <? vc_thr c).
      + destruct pend; [|discriminate]. injection R as <-. uth G; auto.
      + injection R as <-. set (th := VRet b (VComplete res total)).
        assert (Gt : forall t', get_th (set_th t th s) t' = if t' =? t then Some th else get_th s t') by (intros t'; exact (get_th_set t th s t')).
        destruct H as ((x & Go & Bx) & _).
        assert (NO : forall t' th', get_th (set_th t th s) t' = Some th' -> own_of th' <> Some o).
        { intros t' th' G' O'. rewrite Gt in G'. destruct (N.eqb_spec t' t); [injection G' as <-; discriminate|]. apply n. eapply (u_own _ Us); [exact G'|exact G|exact O'|reflexivity]. }
        destruct Us as [A1 A2 A3 A4 A5 A6]. constructor; change (get_obj (set_th t th s)) with (get_obj s); change (vs_blocks (set_th t th s)) with (vs_blocks s).
        * intros t1 t2 th1 th2 o' G1 G2 O1 O2. rewrite Gt in G1, G2. destruct (t1 =? t); [injection G1 as <-; discriminate|]. destruct (t2 =? t); [injection G2 as <-; discriminate|]. eauto.
        * intros t1 th1 b1 G1 R1. rewrite Gt in G1. destruct (t1 =? t).
          -- injection G1 as <-. injection R1 as <-. exists o, x. auto.
          -- destruct (A2 _ _ _ G1 R1) as (o1 & x1 & Go1 & Bx1 & N). exists o1, x1. split; [auto|]. split; [auto|]. intros t' th' G'. rewrite Gt in G'.
             destruct (t' =? t); [injection G' as <-; discriminate|eauto].
        * intros t1 t2 th1 th2 q G1 G2 P1 P2. rewrite Gt in G1, G2. destruct (N.eqb_spec t1 t), (N.eqb_spec t2 t); subst; auto.
          -- injection G1 as <-. eapply A3; [exact G|exact G2|exact P1|exact P2].
          -- injection G2 as <-. eapply A3; [exact G1|exact G|exact P1|exact P2].
          -- eauto.
        * intros t1 th1 b1 o1 x1 G1 P1 Gx1 C. rewrite Gt in G1. destruct (t1 =? t); [injection G1 as <-; discriminate|eauto].
        * intros t1 th1 b1 o1 x1 t2 th2 G1 P1 Gx1 C G2 E2. rewrite Gt in G1, G2. destruct (N.eqb_spec t1 t); [injection G1 as <-; discriminate|].
          destruct (t2 =? t); [injection G2 as <-; discriminate|eauto].
        * intros u thu q k t1 th1 b1 o1 x1 Gu Su G1 P1 Gx1 L1 L2. rewrite Gt in G1, Gu. destruct (t1 =? t); [injection G1 as <-; discriminate|].
          destruct (u =? t); [injection Gu as <-; discriminate|eauto].
  Qed.

  Lemma vstep_U s l s' : Inv2 c s -> U s -> vstep c s l = Some s' -> U s'.
  Proof.
    intros I2 Us R. destruct l; cbn [vstep] in R.
    - destruct (vb_seqno b <=? u32_top); [|discriminate]. injection R as <-. apply U_spawn; auto.
    - injection R as <-. apply U_spawn; auto.
    - injection R as <-. apply U_spawn; auto.
    - destruct (q <=? u32_top); [|discriminate]. injection R as <-. apply U_spawn; auto.
    - fold (get_th s t) in R. destruct (get_th s t) as [th|] eqn:G; [|discriminate].
      destruct th; cbn [run_th] in R; first [eapply run_validate_U; [exact I2|exact Us|exact G|exact R] | eapply run_task_U; [exact Us|exact G|exact R]
        | eapply run_add_U; [exact I2|exact Us|exact G|exact R] | eapply run_exch_U; [exact Us|exact G|exact R] | eapply run_cancel_U; [exact I2|exact Us|exact G|exact R]].
    - fold (get_th s t) in R. destruct (get_th s t) as [th|] eqn:G; [|discriminate]. destruct th; try discriminate. injection R as <-. uth G; auto.
    - fold (get_th s t) in R. fold (get_th s u) in R. destruct (get_th s t) as [th|] eqn:G; [|discriminate]. destruct th; try discriminate.
      destruct (get_th s u) as [tu|] eqn:Gu; [|discriminate]. destruct tu; try discriminate.
      destruct ((total <? vc_thr c) && existsb (fun e => fst e =? u) pend); [|discriminate].
      destruct (aget N.eqb p (vc_vals c)); injection R as <-; uth G; auto.
    - fold (get_th s t) in R. destruct (get_th s t) as [th|] eqn:G; [|discriminate]. destruct th; try discriminate.
      destruct (aget N.eqb o (vs_objs s)) as [x|]; [|discriminate]. destruct ((total <? vc_thr c) && (vo_cancelled x || vs_token s)); [|discriminate].
      injection R as <-. uth G; auto.
  Qed.

  Lemma vinit_ths start : vs_ths (vinit c start) = [] /\ vs_objs (vinit c start) = [].
  Proof.
    unfold vinit. assert (H : vs_ths (VS [] [] [] [] false 0 start [] 0) = [] /\ vs_objs (VS [] [] [] [] false 0 start [] 0) = []) by auto.
    revert H. generalize (VS [] [] [] [] false 0 start [] 0). generalize start. induction (N.to_nat (vc_slots c)) as [|n IH]; intros q s H; [exact H|].
    cbn [vinit_slots]. apply IH. exact H.
  Qed.
  Lemma vinit_U start : U (vinit c start).
  Proof.
    destruct (vinit_ths start) as [T _]. constructor; unfold get_th; rewrite T; intros; discriminate.
  Qed.

  Definition Good s := Inv2 c s /\ U s.
  Lemma vrun_good l : forall s s', Good s -> vrun c s l = Some s' -> Good s'.
  Proof.
    induction l as [|a l IH]; cbn [vrun]; intros s s' I R; [injection R as <-; auto|].
    destruct (vstep c s a) as [s1|] eqn:E; [|discriminate]. eapply IH; [|exact R]. destruct I as [I Us]. split; [eapply vstep_inv; eauto|eapply vstep_U; eauto].
  Qed.
  Lemma reach_good start l s : vrun c (vinit c start) l = Some s -> Good s.
  Proof. intros R. eapply vrun_good; [|exact R]. split; [apply vinit_inv; auto|apply vinit_U]. Qed.
End Uniq.
