(** Every step of the validator session machine preserves the basic invariants. *)
From Coq Require Import NArith Lia List Bool ZArith ZifyN ZifyBool Permutation.
From Verif Require Import AMap StatsSpec StatsProofs ValModel ValInv.
Import ListNotations.
Open Scope N_scope.
Local Opaque u64_mod u32_top.

(** thread [th] fetches the signature of peer [p] for object [o] *)
Definition is_task (o p : N) (th : vth) : Prop :=
  match th with
  | TStart o' p' _ | TWait o' p' | TReload o' p' | TRet o' p' _ => o' = o /\ p' = p
  | ALoad KT o' p' _ | ACas KT o' p' _ | AAdd KT o' p' _ | AFlag KT o' p' _ _ => o' = o /\ p' = p
  | _ => False
  end.
Definition pend_of (th : vth) : option (N * list (N * N)) :=
  match th with
  | VScan _ o _ _ _ _ pend | VSpawn _ o _ _ _ _ _ pend | VWait _ o _ _ pend => Some (o, pend)
  | _ => None
  end.
Definition pend_ok (s : vst) (o : N) (pend : list (N * N)) : Prop :=
  NoDup (map fst pend) /\ forall u p, In (u, p) pend -> exists tu, get_th s u = Some tu /\ is_task o p tu.
Definition Tk (s : vst) : Prop := forall t th o pend, get_th s t = Some th -> pend_of th = Some (o, pend) -> pend_ok s o pend.
(** weight a thread still has to add to object [o]: it filled a slot but has not updated the sum *)
Definition pw (c : vcfg) (o : N) (th : vth) : N :=
  match th with AAdd _ o' p _ => if o' =? o then wt c p else 0 | _ => 0 end.
Definition pendw (c : vcfg) (o : N) (ths : list (N * vth)) : N := lsum (fun e => pw c o (snd e)) ths.
Definition Wt (c : vcfg) (s : vst) : Prop :=
  forall o x, get_obj s o = Some x -> vo_weight x + pendw c o (vs_ths s) = vc_ownw c + fsum c (vo_slots x).
(** no thread mentions an object that does not exist yet *)
Definition Inv2 c s := Inv c s /\ Tk s /\ Wt c s.

Lemma pendw_set c o t th0 th ths : NoDup (akeys ths) -> aget N.eqb t ths = Some th0 ->
  pendw c o (aset N.eqb t th ths) + pw c o th0 = pendw c o ths + pw c o th.
Proof.
  induction ths as [|[k v] m IH]; cbn [akeys map fst aget aset]; [discriminate|].
  intros Nd H. inversion Nd as [|? ? Hn Nd']; subst. unfold pendw in *. destruct (N.eqb_spec t k) as [->|Hk].
  - injection H as ->. rewrite !lsum_cons. cbn [snd]. lia.
  - rewrite !lsum_cons. specialize (IH Nd' H). lia.
Qed.
Lemma pendw_new c o t th ths : aget N.eqb t ths = None -> pendw c o (aset N.eqb t th ths) = pendw c o ths + pw c o th.
Proof.
  induction ths as [|[k v] m IH]; cbn [aget aset].
  - intros _. unfold pendw. rewrite !lsum_cons. cbn [snd lsum fold_right]. lia.
  - destruct (N.eqb_spec t k) as [->|Hk]; [discriminate|]. intros H. unfold pendw in *. rewrite !lsum_cons, IH by auto. lia.
Qed.

Lemma pend_ok_set s t th0 th o pend : get_th s t = Some th0 -> (forall o p, is_task o p th0 -> is_task o p th) ->
  pend_ok s o pend -> pend_ok (set_th t th s) o pend.
Proof.
  intros G H [N1 N2]. split; [auto|]. intros u p Hu. destruct (N2 u p Hu) as (tu & Gu & Tu). rewrite get_th_set. destruct (N.eqb_spec u t) as [->|].
  - exists th. split; [reflexivity|]. rewrite G in Gu. injection Gu as <-. auto.
  - eauto.
Qed.
Lemma tk_set_th s t th0 th : Tk s -> get_th s t = Some th0 -> (forall o p, is_task o p th0 -> is_task o p th) ->
  (forall o pend, pend_of th = Some (o, pend) -> pend_ok s o pend) -> Tk (set_th t th s).
Proof.
  intros T G H2 H3. intros t' th' o pend G' P'. eapply pend_ok_set; eauto. rewrite get_th_set in G'. destruct (t' =? t).
  - injection G' as <-. auto.
  - eapply T; eauto.
Qed.
Lemma inv2_set_th c s t th0 th : Inv2 c s -> get_th s t = Some th0 -> th_ok c s th -> (forall o p, is_task o p th0 -> is_task o p th) ->
  (forall o pend, pend_of th = Some (o, pend) -> pend_ok s o pend) -> (forall o, pw c o th = pw c o th0) -> Inv2 c (set_th t th s).
Proof.
  intros (I & T & W) G H1 H2 H3 H4. split; [eapply inv_set_th; eauto|]. split; [eapply tk_set_th; eauto|].
  intros o x Gx. pose proof (W o x Gx) as Wx. pose proof (pendw_set c o t th0 th (vs_ths s) (i_nd _ _ I) G) as E. rewrite H4 in E. cbn [set_th vs_ths]. lia.
Qed.
Lemma inv2_spawn c s th : Inv2 c s -> th_ok c s th -> pend_of th = None -> (forall o, pw c o th = 0) -> Inv2 c (spawn th s).
Proof.
  intros (I & T & W) H P Z. split; [apply inv_spawn; auto|].
  assert (Gt : forall t, get_th (spawn th s) t = if t =? vs_fresh s then Some th else get_th s t).
  { intros t. change (get_th (spawn th s) t) with (get_th (set_th (vs_fresh s) th s) t). apply get_th_set. }
  split.
  - intros t' th' o pend G' P'. rewrite Gt in G'. destruct (N.eqb_spec t' (vs_fresh s)); [injection G' as <-; congruence|].
    destruct (T _ _ _ _ G' P') as [N1 N2]. split; [auto|]. intros u p Hu. destruct (N2 u p Hu) as (tu & Gu & Tu). exists tu. rewrite Gt.
    destruct (N.eqb_spec u (vs_fresh s)) as [->|]; [|auto]. rewrite (i_fth _ _ I) in Gu; [discriminate|lia].
  - intros o x Gx. pose proof (W o x Gx) as Wx. cbn [spawn bump set_th vs_ths]. rewrite pendw_new; [rewrite Z; lia|]. apply (i_fth _ _ I). lia.
Qed.

Lemma nextk_some lo hi m k : nextk lo hi m = Some k -> lo <= k /\ k <= hi /\ In k (akeys m) /\ (forall k', In k' (akeys m) -> lo <= k' -> k' <= hi -> k <= k').
Proof.
  revert k. induction m as [|[k0 v0] m IH]; cbn [nextk fold_right fst akeys map In]; intros k H; [discriminate|].
  fold (nextk lo hi m) in H. fold (@akeys N N m) in *.
  destruct ((lo <=? k0) && (k0 <=? hi)) eqn:E.
  - rewrite andb_true_iff, !N.leb_le in E. destruct (nextk lo hi m) as [k1|] eqn:E1.
    + injection H as <-. destruct (IH _ eq_refl) as (A1 & A2 & A3 & A4). destruct (N.min_dec k1 k0) as [Em|Em]; rewrite Em.
      * split; [auto|]. split; [auto|]. split; [auto|]. intros k' [<-|Hk] L1 L2; [lia|auto].
      * split; [lia|]. split; [lia|]. split; [auto|]. intros k' [<-|Hk] L1 L2; [lia|]. specialize (A4 k' Hk L1 L2). lia.
    + injection H as <-. split; [lia|]. split; [lia|]. split; [auto|]. intros k' [<-|Hk] L1 L2; [lia|].
      exfalso. clear -E1 Hk L1 L2. induction m as [|[k2 v2] m IH]; [exact Hk|]. cbn [nextk fold_right fst akeys map In] in *. fold (nextk lo hi m) in E1.
      destruct ((lo <=? k2) && (k2 <=? hi)) eqn:E; [destruct (nextk lo hi m); discriminate|]. destruct Hk as [->|Hk]; [|apply (IH E1 Hk)].
      rewrite andb_false_iff, !N.leb_gt in E. lia.
  - destruct (IH _ H) as (A1 & A2 & A3 & A4). split; [auto|]. split; [auto|]. split; [auto|]. intros k' [<-|Hk] L1 L2; [|auto].
    rewrite andb_false_iff, !N.leb_gt in E. lia.
Qed.
Lemma nextk_none lo hi m : nextk lo hi m = None -> forall k', In k' (akeys m) -> lo <= k' -> k' <= hi -> False.
Proof.
  intros E1 k' Hk L1 L2. induction m as [|[k2 v2] m IH]; [exact Hk|]. cbn [nextk fold_right fst akeys map In] in *. fold (nextk lo hi m) in E1.
  destruct ((lo <=? k2) && (k2 <=? hi)) eqn:E; [destruct (nextk lo hi m); discriminate|]. destruct Hk as [->|Hk]; [|apply (IH E1 Hk)].
  rewrite andb_false_iff, !N.leb_gt in E. lia.
Qed.

Lemma nodup_left {A} (l r : list A) : NoDup (l ++ r) -> NoDup l.
Proof.
  induction l as [|a l IH]; cbn [app]; intros H; [constructor|]. inversion H as [|? ? Hn Hd]; subst. constructor; [|auto]. rewrite in_app_iff in Hn. tauto.
Qed.
Lemma map_fst_filter (u : N) (l : list (N * N)) : NoDup (map fst l) -> NoDup (map fst (filter (fun e => negb (fst e =? u)) l)).
Proof. apply filter_nodup. Qed.
Lemma perm_take (u p : N) (l : list (N * N)) : NoDup (map fst l) -> In (u, p) l -> Permutation (map snd l) (p :: map snd (filter (fun e => negb (fst e =? u)) l)).
Proof.
  induction l as [|[u' p'] l IH]; cbn [map fst snd filter In]; [tauto|]. intros Nd [E|H]; inversion Nd as [|? ? Hn Hd]; subst.
  - injection E as -> ->. rewrite N.eqb_refl. cbn [negb]. apply Permutation_cons; [reflexivity|].
    enough (E : filter (fun e => negb (fst e =? u)) l = l) by (rewrite E; reflexivity).
    clear -Hn. induction l as [|[u2 p2] l IH]; [reflexivity|]. cbn [map fst In filter] in *. destruct (N.eqb_spec u2 u) as [->|]; [tauto|].
    cbn [negb]. f_equal. apply IH. tauto.
  - destruct (N.eqb_spec u' u) as [->|]; [exfalso; apply Hn; apply (in_map fst) in H; exact H|]. cbn [negb map snd]. rewrite (IH Hd H). apply perm_swap.
Qed.

Section Step.
  Variable c : vcfg.
  Hypothesis CK : cfg_ok c.

  Lemma vkeys_nd : NoDup (vkeys c).
  Proof. destruct CK as [H _]. inversion H; auto. Qed.
  Lemma own_notin : ~ In (vc_own c) (vkeys c).
  Proof. destruct CK as [H _]. inversion H; auto. Qed.
  Lemma wt_sum_lt : vc_ownw c + lsum (wt c) (vkeys c) < u64_mod.
  Proof. destruct CK as [H H2]. rewrite vall_sum in H2; auto. Qed.
  Lemma fsum_bound m : akeys m = vkeys c -> vc_ownw c + fsum c m < u64_mod.
  Proof. intros K. pose proof (fsum_le c m). rewrite K in H. pose proof wt_sum_lt. lia. Qed.
  Lemma in_vals p : In p (vkeys c) -> exists w, aget N.eqb p (vc_vals c) = Some w /\ wt c p = w.
  Proof. intros H. apply nget_in in H. destruct H as [w E]. exists w. unfold wt. rewrite E. auto. Qed.
  Lemma vempty_keys : akeys (vempty c) = vkeys c.
  Proof. unfold vempty, vkeys, akeys. rewrite map_map. reflexivity. Qed.
  Lemma vempty_get p sg : aget N.eqb p (vempty c) <> Some (Some sg).
  Proof. unfold vempty. induction (vc_vals c) as [|e l IH]; cbn [map aget fst]; [discriminate|]. destruct (p =? fst e); [discriminate|auto]. Qed.
  Lemma vempty_fsum : fsum c (vempty c) = 0.
  Proof. unfold vempty. induction (vc_vals c) as [|e l IH]; [reflexivity|]. cbn [map]. rewrite fsum_cons. cbn [snd]. lia. Qed.

  Lemma perm_snoc_res {V} (res : amap N V) p sg (l1 l2 : list N) : ~ In p (akeys res) ->
    Permutation (akeys res ++ l1 ++ p :: l2) (vall c) -> Permutation (akeys (aset N.eqb p sg res) ++ l1 ++ l2) (vall c).
  Proof.
    intros Nn P. rewrite keys_aset_new by auto. rewrite <- P. rewrite <- app_assoc. apply Permutation_app_head. cbn [app]. apply Permutation_middle.
  Qed.
  Lemma perm_notin (l1 l2 l3 : list N) p : Permutation (l1 ++ l2 ++ p :: l3) (vall c) -> ~ In p l1 /\ ~ In p (l2 ++ l3).
  Proof.
    intros P. assert (Nd : NoDup (l1 ++ l2 ++ p :: l3)) by (eapply Permutation_NoDup; [symmetry; exact P|apply CK]).
    rewrite app_assoc in Nd. apply NoDup_remove_2 in Nd. rewrite !in_app_iff in *. tauto.
  Qed.
  Lemma total_bound (l1 l2 : list N) p : Permutation (l1 ++ p :: l2) (vall c) -> lsum (wta c) l1 + wta c p < u64_mod.
  Proof.
    intros P. destruct CK as [_ W]. rewrite <- (lsum_perm _ _ _ P) in W. rewrite lsum_app, lsum_cons in W. lia.
  Qed.
  Lemma wta_in p : In p (vkeys c) -> wta c p = wt c p.
  Proof. intros H. unfold wta. destruct (N.eqb_spec p (vc_own c)) as [->|]; [exfalso; apply own_notin; auto|reflexivity]. Qed.
  Lemma valid_slot s o x p sg : Inv c s -> get_obj s o = Some x -> aget N.eqb p (vo_slots x) = Some (Some sg) -> vc_verify c p (vdata (vo_blk x)) sg = true.
  Proof. intros I G H. exact (ok_valid _ _ _ _ (i_obj _ _ I _ _ G) _ _ H). Qed.
  Lemma slot_key s o x p v : Inv c s -> get_obj s o = Some x -> aget N.eqb p (vo_slots x) = Some v -> In p (vkeys c).
  Proof. intros I G H. rewrite <- (ok_keys _ _ _ _ (i_obj _ _ I _ _ G)). apply nget_in. eauto. Qed.

  Ltac fin k := first [reflexivity | discriminate | (intros ? ?; cbn [is_task]; tauto) | (intros ? ?; cbn [pend_of]; discriminate) | (intros ?; reflexivity) | (intros ? ?; destruct k; cbn [is_task add_done add_changed add_invalid]; tauto)
    | (intros ? ?; destruct k; cbn [pend_of add_done add_changed add_invalid]; discriminate)
    | (intros ?; destruct k; reflexivity)].
  Ltac stt I2 G k := eapply inv2_set_th; [exact I2|exact G| |try fin k|try fin k|try fin k].

  Lemma run_add_inv s t th s' : Inv2 c s -> get_th s t = Some th -> run_add c t th s = Some s' -> Inv2 c s'.
  Proof.
    intros I2 G R. pose proof (proj1 I2) as I. pose proof (i_th _ _ I _ _ G) as H.
    destruct th; cbn [run_add] in R; try discriminate R; cbn [th_ok] in H.
    - (* ALoad *)
      fold (get_obj s o) in R. destruct (get_obj s o) as [x|] eqn:Go; [|discriminate]. unfold slot_of in R.
      destruct (aget N.eqb p (vo_slots x)) as [[saved|]|] eqn:Sl; [| |discriminate].
      + injection R as <-. destruct (N.eqb_spec saved s0) as [->|].
        * stt I2 G k. destruct k; cbn [add_done th_ok].
          -- destruct H as [(x' & Gx & Q) _]. rewrite Go in Gx. injection Gx as <-. exists o, x. auto.
          -- split; [exists x; auto|tauto].
        * stt I2 G k. destruct k; cbn [add_changed th_ok kont_ok] in *; tauto.
      + destruct (in_vals p (proj2 H)) as (w & Ew & _). rewrite Ew in R. injection R as <-. destruct (vc_verify c p (vdata (vo_blk x)) s0) eqn:V.
        * stt I2 G k. cbn [th_ok]. destruct H. eauto 6.
        * stt I2 G k. destruct k; cbn [add_invalid th_ok kont_ok] in *; tauto.
    - (* ACas *)
      destruct H as (K & P & x0 & Gx & V). fold (get_obj s o) in R. rewrite Gx in R. unfold slot_of in R.
      destruct (aget N.eqb p (vo_slots x0)) as [[saved|]|] eqn:Sl; [| |discriminate].
      + injection R as <-. destruct (N.eqb_spec saved s0) as [->|].
        * stt I2 G k. cbn [th_ok]. split; [auto|]. split; [auto|]. split; [exists x0; auto|discriminate].
        * stt I2 G k. destruct k; cbn [add_changed th_ok kont_ok] in *; eauto.
      + injection R as <-. pose proof (i_obj _ _ I _ _ Gx) as OK.
        assert (Nd : NoDup (akeys (vo_slots x0))) by (rewrite (ok_keys _ _ _ _ OK); apply vkeys_nd).
        assert (L : obj_le c x0 (obj_slot p s0 x0)).
        { unfold obj_le. cbn [obj_slot vo_blk vo_own vo_slots vo_cancelled]. split; [auto|]. split; [auto|]. split; [|split; [rewrite fsum_fill by auto; lia|auto]].
          intros p' sg' H'. rewrite nget_aset. destruct (N.eqb_spec p' p) as [->|]; [congruence|auto]. }
        assert (I' : Inv c (set_obj o (obj_slot p s0 x0) s)).
        { eapply inv_set_obj; eauto; cbn [obj_slot vo_blk vo_own vo_slots vo_cancelled vo_validated].
          - rewrite keys_aset_same; [apply OK|]. rewrite (ok_keys _ _ _ _ OK). auto.
          - intros p' sg' H'. rewrite nget_aset in H'. destruct (N.eqb_spec p' p) as [->|]; [injection H' as <-; auto|]. exact (ok_valid _ _ _ _ OK _ _ H').
          - apply OK.
          - intros D. pose proof (ok_vd _ _ _ _ OK D). rewrite fsum_fill by auto. lia. }
        pose proof (ext_set_obj _ _ _ _ _ I Gx L) as E.
        destruct I2 as (_ & T & W). split; [|split].
        * eapply inv_set_th; [exact I'|exact G|]. cbn [th_ok].
          split; [eapply ext_kont; eauto|]. split; [auto|]. exists (obj_slot p s0 x0). split; [rewrite get_obj_set, N.eqb_refl; auto|].
          cbn [obj_slot vo_slots]. rewrite nget_aset, N.eqb_refl. auto.
        * change (Tk (set_th t (AAdd k o p s0) s)). eapply tk_set_th; [exact T|exact G|fin k|fin k].
        * intros o' x'. change (get_obj (set_th t (AAdd k o p s0) (set_obj o (obj_slot p s0 x0) s)) o') with (get_obj (set_obj o (obj_slot p s0 x0) s) o').
          rewrite get_obj_set. intros Gx'. cbn [set_th set_obj vs_ths].
          pose proof (pendw_set c o' t _ (AAdd k o p s0) (vs_ths s) (i_nd _ _ I) G) as E'. cbn [pw] in E'.
          destruct (N.eqb_spec o' o) as [->|].
          -- injection Gx' as <-. cbn [obj_slot vo_weight vo_slots]. rewrite fsum_fill by auto. specialize (W _ _ Gx). rewrite N.eqb_refl in E'. lia.
          -- specialize (W _ _ Gx'). destruct (N.eqb_spec o o'); [congruence|]. lia.
    - (* AAdd *)
      destruct H as (K & P & Sl). destruct (in_vals p P) as (w & Ew & Ww).
      fold (get_obj s o) in R. destruct (get_obj s o) as [x|] eqn:Go; [|discriminate]. rewrite Ew in R.
      cbv zeta in R. injection R as <-. destruct I2 as (_ & T & W). pose proof (W _ _ Go) as Wx. pose proof (i_obj _ _ I _ _ Go) as OK.
      pose proof (fsum_bound _ (ok_keys _ _ _ _ OK)) as FB.
      assert (Ew2 : forall o' can, pendw c o' (aset N.eqb t (AFlag k o p s0 can) (vs_ths s)) + (if o =? o' then w else 0) = pendw c o' (vs_ths s)).
      { intros o' can. pose proof (pendw_set c o' t _ (AFlag k o p s0 can) (vs_ths s) (i_nd _ _ I) G) as E'. cbn [pw] in E'. rewrite Ww in E'. lia. }
      assert (Va : vadd (vo_weight x) w = vo_weight x + w /\ vo_weight x + w <= vc_ownw c + fsum c (vo_slots x)).
      { pose proof (Ew2 o true) as E1. rewrite N.eqb_refl in E1. split; [apply vadd_small; lia|lia]. }
      destruct Va as [Va Vb]. rewrite Va. set (can := vc_thr c <=? vo_weight x + w).
      assert (L : obj_le c x (obj_weight (vo_weight x + w) x)) by exact (obj_le_refl c x).
      assert (I' : Inv c (set_obj o (obj_weight (vo_weight x + w) x) s)).
      { eapply inv_set_obj; eauto; cbn [obj_weight vo_blk vo_own vo_slots vo_cancelled vo_validated]; apply OK. }
      pose proof (ext_set_obj _ _ _ _ _ I Go L) as E.
      split; [|split].
      + eapply inv_set_th; [exact I'|exact G|]. cbn [th_ok]. split; [eapply ext_kont; eauto|]. split; [auto|]. split; [eapply ext_slot_is; eauto|].
        intros C. exists (obj_weight (vo_weight x + w) x). split; [rewrite get_obj_set, N.eqb_refl; auto|]. cbn [obj_weight vo_slots].
        unfold can in C. rewrite N.leb_le in C. lia.
      + change (Tk (set_th t (AFlag k o p s0 can) s)). eapply tk_set_th; [exact T|exact G|fin k|fin k].
      + intros o' x'. change (get_obj (set_th t (AFlag k o p s0 can) (set_obj o (obj_weight (vo_weight x + w) x) s)) o') with (get_obj (set_obj o (obj_weight (vo_weight x + w) x) s) o').
        rewrite get_obj_set. intros Gx'. cbn [set_th set_obj vs_ths]. specialize (Ew2 o' can).
        destruct (N.eqb_spec o' o) as [->|].
        * injection Gx' as <-. cbn [obj_weight vo_weight vo_slots]. rewrite N.eqb_refl in Ew2. lia.
        * specialize (W _ _ Gx'). destruct (N.eqb_spec o o'); [congruence|]. lia.
    - (* AFlag *)
      destruct H as (K & P & Sl & T). fold (get_obj s o) in R. destruct (get_obj s o) as [x|] eqn:Go; [|discriminate]. injection R as <-.
      assert (D : Inv2 c (if can then set_obj o (obj_validated x) s else s) /\ ext c s (if can then set_obj o (obj_validated x) s else s)).
      { destruct can.
        - destruct (T eq_refl) as (x1 & Gx & Tx). injection Gx as <-. pose proof (i_obj _ _ I _ _ Go) as OK.
          assert (L : obj_le c x (obj_validated x)) by exact (obj_le_refl c x).
          split; [|eapply ext_set_obj; eauto]. split; [|split; [exact (proj1 (proj2 I2))|]].
          + eapply inv_set_obj; eauto; cbn [obj_validated vo_blk vo_own vo_slots vo_cancelled vo_validated]; try apply OK; auto.
          + intros o' x'. rewrite get_obj_set. intros Gx'. destruct (N.eqb_spec o' o) as [->|]; [|apply (proj2 (proj2 I2) _ _ Gx')].
            injection Gx' as <-. exact (proj2 (proj2 I2) _ _ Go).
        - split; [auto|]. constructor; auto; [|intros ci m Hm; exists m; auto|lia|apply I]. intros o' y Gy. exists y. destruct (obj_le_refl c y) as (A1 & A2 & A3 & A4 & A5). auto 10. }
      destruct D as [D E]. assert (G' : get_th (if can then set_obj o (obj_validated x) s else s) t = Some (AFlag k o p s0 can)) by (destruct can; exact G).
      stt D G' k. destruct k; cbn [add_done th_ok kont_ok] in *.
      + destruct K as (x' & Gx & Q). rewrite Go in Gx. injection Gx as <-. destruct (e_obj _ _ _ E _ _ Go) as (x' & G2 & B & O & _).
        exists o, x'. split; [auto|]. split; [congruence|auto].
      + split; [|auto]. eapply ext_slot_is; eauto.
  Qed.

  Lemma run_task_inv s t th s' : Inv2 c s -> get_th s t = Some th -> run_task t th s = Some s' -> Inv2 c s'.
  Proof.
    intros I2 G R. pose proof (proj1 I2) as I. pose proof (i_th _ _ I _ _ G) as H.
    destruct th; cbn [run_task] in R; try discriminate R; cbn [th_ok] in H.
    - destruct cached as [sg|]; injection R as <-.
      + stt I2 G KT. cbn [th_ok kont_ok]. auto.
      + stt I2 G KT. cbn [th_ok]. auto.
    - fold (get_obj s o) in R. destruct (get_obj s o) as [x|] eqn:Go; [|discriminate]. unfold slot_of in R.
      destruct (aget N.eqb p (vo_slots x)) as [[sg|]|] eqn:Sl; try discriminate. injection R as <-. stt I2 G KT. cbn [th_ok kont_ok]. split; [eauto|tauto].
    - fold (get_obj s o) in R. destruct (get_obj s o) as [x|] eqn:Go; [|discriminate]. unfold slot_of in R.
      destruct (aget N.eqb p (vo_slots x)) as [[sg|]|] eqn:Sl; try discriminate; injection R as <-; stt I2 G KT; cbn [th_ok kont_ok].
      + split; [exists x; auto|tauto].
      + split; [eauto|tauto].
  Qed.

  Lemma run_exch_inv s t th s' : Inv2 c s -> get_th s t = Some th -> run_exch t th s = Some s' -> Inv2 c s'.
  Proof.
    intros I2 G R. pose proof (proj1 I2) as I. pose proof (i_th _ _ I _ _ G) as H.
    destruct th; cbn [run_exch] in R; try discriminate R; cbn [th_ok] in H.
    - injection R as <-. destruct (vs_token s); stt I2 G KT; exact Logic.I.
    - destruct (aget N.eqb q (vs_blocks s)) as [o|] eqn:B.
      + pose proof (i_blk _ _ I _ _ B) as HS. fold (get_obj s o) in R. destruct (get_obj s o) as [x|] eqn:Go; [|discriminate]. unfold slot_of in R.
        destruct (aget N.eqb p (vo_slots x)) eqn:Sl; injection R as <-; stt I2 G KT; cbn [th_ok]; auto. split; [auto|]. eapply slot_key; eauto.
      + injection R as <-. stt I2 G KT; exact Logic.I.
    - fold (get_obj s o) in R. destruct (get_obj s o) as [x|] eqn:Go; [|discriminate]. injection R as <-. destruct H as [(x' & Gx & Q) P].
      rewrite Go in Gx. injection Gx as <-. destruct (vo_validated x); stt I2 G KT; cbn [th_ok kont_ok].
      + exists o, x. auto.
      + split; [exists x; auto|auto].
    - destruct (aget N.eqb q (vs_caches s)) as [ci|] eqn:B.
      + destruct (aget N.eqb ci (vs_cobjs s)) as [m|] eqn:Gc; [|discriminate]. unfold slot_of in R. destruct (aget N.eqb p m) eqn:Sl; injection R as <-; stt I2 G KT; cbn [th_ok]; auto.
        split; [|eauto]. rewrite <- (i_cobj _ _ I _ _ Gc). apply nget_in. eauto.
      + injection R as <-. stt I2 G KT; exact Logic.I.
    - destruct (aget N.eqb c0 (vs_cobjs s)) as [m|] eqn:Gc; [|discriminate]. injection R as <-.
      assert (I' : Inv2 c (set_cobj c0 (aset N.eqb p (Some s0) m) s)).
      { split; [|exact (proj2 I2)]. apply inv_cobj; auto.
        - destruct (N.lt_ge_cases c0 (vs_fresh s)) as [L|L]; [auto|]. rewrite (i_fcobj _ _ I _ L) in Gc. discriminate.
        - rewrite keys_aset_same; [apply (i_cobj _ _ I _ _ Gc)|]. rewrite (i_cobj _ _ I _ _ Gc). tauto. }
      stt I' G KT; exact Logic.I.
  Qed.

  Lemma inv2_cancel s o x : Inv2 c s -> get_obj s o = Some x -> vb_seqno (vo_blk x) <= vs_until s -> Inv2 c (set_obj o (obj_cancel x) s).
  Proof.
    intros (I & T & W) Go L. pose proof (i_obj _ _ I _ _ Go) as OK. split; [|split; [exact T|]].
    - eapply inv_set_obj; eauto; cbn [obj_cancel vo_blk vo_own vo_slots vo_cancelled vo_validated]; try apply OK; auto.
      unfold obj_le. cbn [obj_cancel vo_blk vo_own vo_slots vo_cancelled]. repeat split; auto. lia.
    - intros o' x'. rewrite get_obj_set. intros Gx'. destruct (N.eqb_spec o' o) as [->|]; [|apply (W _ _ Gx')].
      injection Gx' as <-. exact (W _ _ Go).
  Qed.

  Lemma run_cancel_inv s t th s' : Inv2 c s -> get_th s t = Some th -> run_cancel c t th s = Some s' -> Inv2 c s'.
  Proof.
    intros I2 G R. pose proof (proj1 I2) as I. pose proof (i_th _ _ I _ _ G) as H. pose proof (i_until _ _ I) as U.
    destruct th; cbn [run_cancel] in R; try discriminate R; cbn [th_ok] in H.
    - injection R as <-. assert (I' : Inv2 c (set_until u32_top s)) by (split; [apply inv_until; auto; lia|exact (proj2 I2)]).
      stt I' G KT. reflexivity.
    - injection R as <-. assert (I' : Inv2 c (set_token s)) by (split; [apply inv_token; auto; lia|exact (proj2 I2)]).
      stt I' G KT. cbn [th_ok]. split; [exact H|reflexivity].
    - injection R as <-. assert (I' : Inv2 c (set_until (N.max (vs_until s) q) s)) by (split; [apply inv_until; auto; lia|exact (proj2 I2)]).
      stt I' G KT. cbn [th_ok set_until vs_until]. lia.
    - injection R as <-. assert (I' : Inv2 c (set_min (N.max (vs_min s) q) s)) by (split; [apply inv_min; auto|exact (proj2 I2)]).
      stt I' G KT. exact H.
    - destruct (nextk k q (vs_caches s)) as [k'|]; injection R as <-.
      + assert (I' : Inv2 c (set_caches (adel N.eqb k' (vs_caches s)) s)).
        { split; [|exact (proj2 I2)]. apply inv_caches; auto. intros q' ci. rewrite nget_adel. destruct (q' =? k'); [discriminate|]. apply (i_cache _ _ I). }
        stt I' G KT. exact H.
      + stt I2 G KT. exact H.
    - destruct (nextk k q (vs_blocks s)) as [k'|] eqn:Nk.
      + destruct (nextk_some _ _ _ _ Nk) as (L1 & L2 & _).
        destruct (aget N.eqb k' (vs_blocks s)) as [o|] eqn:B; [|discriminate]. destruct (i_blk _ _ I _ _ B) as (x & Go & Q).
        unfold get_obj in Go. rewrite Go in R. injection R as <-.
        assert (I' : Inv2 c (set_obj o (obj_cancel x) s)) by (apply inv2_cancel; auto; lia). stt I' G KT. exact H.
      + injection R as <-. stt I2 G KT. exact H.
    - destruct (nextk k (q - vc_keep c) (vs_blocks s)) as [k'|] eqn:Nk; injection R as <-.
      + destruct (nextk_some _ _ _ _ Nk) as (L1 & L2 & _).
        assert (I' : Inv2 c (set_blocks (adel N.eqb k' (vs_blocks s)) s)) by (split; [apply inv_blocks_del; auto; lia|exact (proj2 I2)]).
        stt I' G KT. exact H.
      + stt I2 G KT. exact H.
  Qed.

  Lemma slots_build_none (slots : vslots) p todo : akeys slots ++ p :: todo = vkeys c -> ~ In p (akeys slots).
  Proof. intros E. pose proof vkeys_nd as Nd. rewrite <- E in Nd. apply NoDup_remove_2 in Nd. rewrite in_app_iff in Nd. tauto. Qed.

  Lemma run_validate_inv s t th s' : Inv2 c s -> get_th s t = Some th -> run_validate c t th s = Some s' -> Inv2 c s'.
  Proof.
    intros I2 G R. pose proof (proj1 I2) as I. pose proof (i_th _ _ I _ _ G) as H. pose proof (i_until _ _ I) as U.
    destruct th; cbn [run_validate] in R; try discriminate R; cbn [th_ok] in H.
    - injection R as <-. destruct (vb_seqno b <=? vs_until s); stt I2 G KT; [exact Logic.I|exact H].
    - injection R as <-. assert (I' : Inv2 c (set_min (N.max (vs_min s) (vb_seqno b)) s)) by (split; [apply inv_min; auto|exact (proj2 I2)]).
      stt I' G KT. exact H.
    - injection R as <-. stt I2 G KT. exact H.
    - destruct (i <? to); [|injection R as <-; stt I2 G KT; exact H].
      destruct (aget N.eqb i (vs_caches s)) as [ci|] eqn:Ci; injection R as <-; [stt I2 G KT; exact H|].
      assert (I1 : Inv c (bump (set_caches (aset N.eqb i (vs_fresh s) (vs_caches s)) (set_cobj (vs_fresh s) (vempty c) s)))).
      { assert (Ib : Inv c (set_cobj (vs_fresh s) (vempty c) (bump s))).
        { apply inv_cobj; [apply inv_bump; auto|cbn [bump vs_fresh]; lia|apply vempty_keys]. }
        change (Inv c (set_caches (aset N.eqb i (vs_fresh s) (vs_caches s)) (set_cobj (vs_fresh s) (vempty c) (bump s)))).
        apply inv_caches; auto. intros q ci. rewrite nget_aset. intros Hq. destruct (q =? i).
        - injection Hq as <-. exists (vempty c). cbn [set_cobj bump vs_cobjs]. rewrite nget_aset, N.eqb_refl. reflexivity.
        - apply (i_cache _ _ Ib _ _ Hq). }
      assert (I' : Inv2 c (bump (set_caches (aset N.eqb i (vs_fresh s) (vs_caches s)) (set_cobj (vs_fresh s) (vempty c) s)))) by (split; [exact I1|exact (proj2 I2)]).
      stt I' G KT. exact H.
    - destruct (aget N.eqb (vb_seqno b) (vs_caches s)) as [ci|] eqn:Ci.
      + destruct (i_cache _ _ I _ _ Ci) as [m Gm]. rewrite Gm in R. injection R as <-. stt I2 G KT. cbn [th_ok akeys map app].
        split; [auto|]. split; [apply (i_cobj _ _ I _ _ Gm)|]. split; [intros p sg; discriminate|]. split; [cbn; lia|eauto].
      + injection R as <-. stt I2 G KT. cbn [th_ok]. split; [auto|]. split; [apply vempty_keys|]. split; [intros p sg Hp; exfalso; eapply vempty_get; eauto|].
        rewrite vempty_fsum. lia.
    - (* VBuild *)
      destruct H as (Q & K & V & W & m & Gm). destruct todo as [|p todo].
      + injection R as <-. stt I2 G KT. cbn [th_ok]. rewrite app_nil_r in K. auto.
      + rewrite Gm in R. unfold slot_of in R. pose proof (slots_build_none _ _ _ K) as Np.
        assert (Pk : In p (vkeys c)) by (rewrite <- K, in_app_iff; right; left; auto).
        assert (Vn : slots_valid c b (aset N.eqb p None slots)).
        { intros p' sg'. rewrite nget_aset. destruct (p' =? p); [discriminate|]. apply V. }
        assert (Kn : forall v, akeys (aset N.eqb p v slots) ++ todo = vkeys c) by (intros v; rewrite keys_aset_new by auto; rewrite <- app_assoc; exact K).
        destruct (aget N.eqb p m) as [[sg|]|] eqn:Sl; [| |discriminate].
        * destruct (in_vals p Pk) as (wp & Ew & Ww). rewrite Ew in R. destruct (vc_verify c p (vdata b) sg) eqn:Ver; injection R as <-; stt I2 G KT; cbn [th_ok].
          -- split; [auto|]. split; [apply Kn|]. split; [|split; [|eauto]].
             ++ intros p' sg'. rewrite nget_aset. destruct (N.eqb_spec p' p) as [->|]; [intros E; injection E as <-; auto|apply V].
             ++ rewrite fsum_new by auto. rewrite Ww. rewrite W. rewrite vadd_small; [lia|].
                pose proof (fsum_le c slots). pose proof wt_sum_lt as WL. rewrite <- K, lsum_app, lsum_cons in WL. lia.
          -- split; [auto|]. split; [apply Kn|]. split; [exact Vn|]. split; [rewrite fsum_new by auto; lia|eauto].
        * injection R as <-. stt I2 G KT. cbn [th_ok]. split; [auto|]. split; [apply Kn|]. split; [exact Vn|]. split; [rewrite fsum_new by auto; lia|eauto].
    - (* VInsert *)
      destruct H as (Q & K & V & W). destruct (aget N.eqb (vb_seqno b) (vs_blocks s)) eqn:B.
      + injection R as <-. stt I2 G KT. exact Logic.I.
      + cbv zeta in R. injection R as <-. destruct (inv_insert c s b slots w I B Q K V W) as (I' & E & Go). cbv zeta in I', E, Go.
        set (s1 := bump (set_blocks (aset N.eqb (vb_seqno b) (vs_fresh s) (vs_blocks s))
            (set_obj (vs_fresh s) (VO b (vc_sign c (vdata b)) slots w (vc_thr c <=? w) false) s))) in *.
        assert (I3 : Inv2 c s1).
        { split; [exact I'|]. split; [exact (proj1 (proj2 I2))|]. intros o x Gx. unfold s1 in Gx.
          change (get_obj (set_obj (vs_fresh s) (VO b (vc_sign c (vdata b)) slots w (vc_thr c <=? w) false) s) o = Some x) in Gx. rewrite get_obj_set in Gx.
          change (vs_ths s1) with (vs_ths s). destruct (N.eqb_spec o (vs_fresh s)) as [->|]; [|apply (proj2 (proj2 I2) _ _ Gx)].
          injection Gx as <-. cbn [vo_weight vo_slots]. rewrite W. enough (pendw c (vs_fresh s) (vs_ths s) = 0) as -> by lia.
          apply lsum_zero. intros [u th] Hu. cbn [snd]. destruct th; try reflexivity. cbn [pw].
          assert (Gu : get_th s u = Some (AAdd k o p s0)) by (apply aget_in; [apply N_spec|apply I|exact Hu]).
          pose proof (i_th _ _ I _ _ Gu) as (_ & _ & x & Gx & _). destruct (N.eqb_spec o (vs_fresh s)) as [->|]; [|reflexivity].
          rewrite (i_fobj _ _ I) in Gx; [discriminate|lia]. }
        stt I3 G KT. cbn [th_ok]. eexists. split; [exact Go|reflexivity].
    - injection R as <-. destruct (N.leb_spec (vb_seqno b) (vs_until s)); stt I2 G KT; cbn [th_ok]; auto.
    - fold (get_obj s o) in R. destruct H as (x & Go & Bx). rewrite Go in R. injection R as <-.
      destruct (vo_cancelled x || vs_token s) eqn:Cc; stt I2 G KT; cbn [th_ok]; [|exists x; auto].
      split; [exists x; auto|]. apply orb_true_iff in Cc. pose proof (i_obj _ _ I _ _ Go) as OK. rewrite <- Bx. destruct Cc as [Cc|Cc].
      + apply (ok_canc _ _ _ _ OK Cc).
      + rewrite (i_tok _ _ I Cc). apply OK.
    - fold (get_obj s o) in R. destruct H as ((x & Go & Bx) & L). rewrite Go in R. injection R as <-.
      assert (I' : Inv2 c (set_obj o (obj_cancel x) s)) by (apply inv2_cancel; auto; congruence). stt I' G KT. exact L.
    - injection R as <-. assert (I' : Inv2 c (set_blocks (adel N.eqb (vb_seqno b) (vs_blocks s)) s)) by (split; [apply inv_blocks_del; auto|exact (proj2 I2)]).
      stt I' G KT. exact Logic.I.
    - fold (get_obj s o) in R. destruct H as (x & Go & Bx). rewrite Go in R. injection R as <-.
      assert (I' : Inv2 c (set_caches (adel N.eqb (vb_seqno b) (vs_caches s)) s)).
      { split; [|exact (proj2 I2)]. apply inv_caches; auto. intros q' ci. rewrite nget_adel. destruct (q' =? vb_seqno b); [discriminate|]. apply (i_cache _ _ I). }
      pose proof (i_obj _ _ I _ _ Go) as OK. rewrite (ok_keys _ _ _ _ OK).
      eapply inv2_set_th; [exact I'|exact G| |fin KT| |fin KT].
      + cbn [th_ok]. split; [exists x; auto|]. split; [auto|]. split; [reflexivity|]. split.
        * cbn [akeys map fst]. rewrite lsum_cons. unfold wta. rewrite N.eqb_refl. cbn. lia.
        * cbn [aget]. rewrite N.eqb_refl. split; [rewrite (ok_own _ _ _ _ OK), Bx; auto|]. intros p sg. destruct (N.eqb_spec p (vc_own c)); [congruence|discriminate].
      + cbn [pend_of]. intros o' pend E. injection E as <- <-. split; [constructor|]. intros u p [].
    - (* VScan *)
      destruct H as ((x & Go & Bx) & Td & P & Tot & Ow & V).
      pose proof (proj1 (proj2 I2) t _ o pend G eq_refl) as PO. destruct todo as [|p todo].
      + injection R as <-. eapply inv2_set_th; [exact I2|exact G| |fin KT| |fin KT].
        * cbn [th_ok]. rewrite app_nil_r in P. split; [exists x; auto|]. auto.
        * intros o' pend' E. injection E as <- <-. exact PO.
      + fold (get_obj s o) in R. rewrite Go in R. unfold slot_of in R. destruct (aget N.eqb p (vo_slots x)) as [[sg|]|] eqn:Sl; [| |discriminate].
        * destruct (in_vals p (Td p (or_introl eq_refl))) as (wp & Ew & Ww). rewrite Ew in R. injection R as <-.
          destruct (perm_notin _ _ _ _ P) as [Np _].
          eapply inv2_set_th; [exact I2|exact G| |fin KT| |fin KT].
          -- cbn [th_ok]. split; [exists x; auto|]. split; [intros p' Hp'; apply Td; right; auto|]. split; [apply perm_snoc_res; auto|]. split; [|split].
             ++ rewrite keys_aset_new by auto. rewrite lsum_app, lsum_cons. cbn [lsum fold_right]. rewrite wta_in by (apply Td; left; auto). rewrite Ww.
                rewrite vadd_small; [rewrite Tot; lia|].
                assert (P' : Permutation (akeys res ++ p :: (map snd pend ++ todo)) (vall c)) by (rewrite <- P; apply Permutation_app_head; apply Permutation_middle).
                pose proof (total_bound _ _ _ P') as TB. rewrite wta_in in TB by (apply Td; left; auto). lia.
             ++ rewrite nget_aset. destruct (N.eqb_spec (vc_own c) p) as [E|]; [|auto]. exfalso. apply own_notin. rewrite E. apply Td. left; auto.
             ++ intros p' sg'. rewrite nget_aset. destruct (N.eqb_spec p' p) as [->|]; [|apply V]. intros E _. injection E as <-. rewrite <- Bx. eapply valid_slot; eauto.
          -- intros o' pend' E. injection E as <- <-. exact PO.
        * injection R as <-. eapply inv2_set_th; [exact I2|exact G| |fin KT| |fin KT].
          -- cbn [th_ok]. split; [exists x; auto|]. auto.
          -- intros o' pend' E. injection E as <- <-. exact PO.
    - (* VSpawn *)
      destruct H as ((x & Go & Bx) & Td & P & Tot & Ow & V). set (cached := match cid with None => None | Some ci => _ end) in R. clearbody cached.
      pose proof (proj1 (proj2 I2) t _ o pend G eq_refl) as PO. cbv zeta in R. injection R as <-.
      assert (Ft : t < vs_fresh s).
      { destruct (N.lt_ge_cases t (vs_fresh s)) as [L|L]; [auto|]. rewrite (i_fth _ _ I _ L) in G. discriminate. }
      assert (Is : Inv2 c (spawn (TStart o p cached) s)).
      { apply inv2_spawn; [exact I2| |reflexivity|reflexivity]. cbn [th_ok]. split; [eauto|apply Td; left; auto]. }
      assert (Gs : get_th (spawn (TStart o p cached) s) t = Some (VSpawn b o cid p todo res total pend)).
      { change (get_th (set_th (vs_fresh s) (TStart o p cached) s) t = Some (VSpawn b o cid p todo res total pend)). rewrite get_th_set.
        destruct (N.eqb_spec t (vs_fresh s)); [lia|exact G]. }
      assert (Sw : Inv2 c (set_th t (VScan b o cid todo res total ((vs_fresh s, p) :: pend)) (spawn (TStart o p cached) s))).
      { eapply inv2_set_th; [exact Is|exact Gs| |fin KT| |fin KT].
        - cbn [th_ok map snd]. split; [exists x; auto|]. split; [intros p' Hp'; apply Td; right; auto|]. split; [|auto].
          rewrite <- P. apply Permutation_app_head. cbn [app]. apply Permutation_middle.
        - intros o' pend' E. injection E as <- <-. destruct PO as [N1 N2]. split.
          + cbn [map fst]. constructor; [|auto]. intros Hin. apply in_map_iff in Hin. destruct Hin as ((u & p') & Eu & Hu). cbn [fst] in Eu. subst u.
            destruct (N2 _ _ Hu) as (tu & Gu & _). rewrite (i_fth _ _ I) in Gu; [discriminate|lia].
          + intros u p' [E|Hu].
            * injection E as <- <-. exists (TStart o p cached). split; [|cbn; auto].
              change (get_th (set_th (vs_fresh s) (TStart o p cached) s) (vs_fresh s) = Some (TStart o p cached)). rewrite get_th_set, N.eqb_refl. reflexivity.
            * destruct (N2 _ _ Hu) as (tu & Gu & Tu). exists tu. split; [|auto].
              change (get_th (set_th (vs_fresh s) (TStart o p cached) s) u = Some tu). rewrite get_th_set.
              destruct (N.eqb_spec u (vs_fresh s)) as [->|]; [|exact Gu]. rewrite (i_fth _ _ I) in Gu; [discriminate|lia]. }
      exact Sw.
    - (* VWait *)
      destruct H as ((x & Go & Bx) & P & Tot & Ow & V). destruct (N.ltb_spec total (vc_thr c)).
      + destruct pend; [|discriminate]. injection R as <-. stt I2 G KT. cbn [th_ok]. cbn [map] in P. rewrite app_nil_r in P.
        rewrite <- (lsum_perm _ _ _ P). lia.
      + injection R as <-. stt I2 G KT. cbn [th_ok].
        assert (Nd : NoDup (akeys res ++ map snd pend)) by (eapply Permutation_NoDup; [symmetry; exact P|apply CK]).
        split; [eapply nodup_left; exact Nd|]. split; [|auto].
        intros p Hp. eapply Permutation_in; [exact P|]. rewrite in_app_iff. auto.
  Qed.

  Lemma vstep_inv s l s' : Inv2 c s -> vstep c s l = Some s' -> Inv2 c s'.
  Proof.
    intros I2 R. pose proof (proj1 I2) as I. destruct l; cbn [vstep] in R.
    - destruct (N.leb_spec (vb_seqno b) u32_top); [|discriminate]. injection R as <-. apply inv2_spawn; auto.
    - injection R as <-. apply inv2_spawn; auto. exact Logic.I.
    - injection R as <-. apply inv2_spawn; auto. exact Logic.I.
    - destruct (N.leb_spec q u32_top); [|discriminate]. injection R as <-. apply inv2_spawn; auto.
    - fold (get_th s t) in R. destruct (get_th s t) as [th|] eqn:G; [|discriminate].
      destruct th; cbn [run_th] in R; first [eapply run_validate_inv; [exact I2|exact G|exact R] | eapply run_task_inv; [exact I2|exact G|exact R]
        | eapply run_add_inv; [exact I2|exact G|exact R] | eapply run_exch_inv; [exact I2|exact G|exact R] | eapply run_cancel_inv; [exact I2|exact G|exact R]].
    - fold (get_th s t) in R. destruct (get_th s t) as [th|] eqn:G; [|discriminate]. destruct th; try discriminate. injection R as <-.
      pose proof (i_th _ _ I _ _ G) as H. cbn [th_ok] in H. stt I2 G KT. exact H.
    - fold (get_th s t) in R. fold (get_th s u) in R. destruct (get_th s t) as [th|] eqn:G; [|discriminate]. destruct th; try discriminate.
      destruct (get_th s u) as [tu|] eqn:Gu; [|discriminate]. destruct tu; try discriminate.
      destruct (total <? vc_thr c); [|discriminate]. destruct (existsb (fun e => fst e =? u) pend) eqn:Ex; [|discriminate]. cbn [andb] in R.
      pose proof (i_th _ _ I _ _ G) as H. cbn [th_ok] in H. destruct H as ((x & Go & Bx) & P & Tot & Ow & V).
      pose proof (i_th _ _ I _ _ Gu) as Hu. cbn [th_ok] in Hu. destruct Hu as ((x' & Go' & Sl) & Pk).
      pose proof (proj1 (proj2 I2) t _ o pend G eq_refl) as PO. destruct PO as [N1 N2].
      apply existsb_exists in Ex. destruct Ex as ((u' & p') & Hin & E). cbn [fst] in E. apply N.eqb_eq in E. subst u'.
      destruct (N2 _ _ Hin) as (tu & Gu' & Tu). rewrite Gu in Gu'. injection Gu' as <-. cbn [is_task] in Tu. destruct Tu as [-> ->].
      rewrite Go in Go'. injection Go' as <-. destruct (in_vals p' Pk) as (wp & Ew & Ww). rewrite Ew in R. injection R as <-.
      assert (P' : Permutation (akeys res ++ p' :: map snd (filter (fun e => negb (fst e =? u)) pend)) (vall c)).
      { rewrite <- P. apply Permutation_app_head. symmetry. apply perm_take; auto. }
      assert (Np : ~ In p' (akeys res)).
      { assert (Nd : NoDup (akeys res ++ p' :: map snd (filter (fun e => negb (fst e =? u)) pend))) by (eapply Permutation_NoDup; [symmetry; exact P'|apply CK]).
        apply NoDup_remove_2 in Nd. rewrite in_app_iff in Nd. tauto. }
      eapply inv2_set_th; [exact I2|exact G| |fin KT| |fin KT].
      + cbn [th_ok]. split; [exists x; auto|]. split; [|split; [|split]].
        * rewrite keys_aset_new by auto. rewrite <- app_assoc. exact P'.
        * rewrite keys_aset_new by auto. rewrite lsum_app, lsum_cons. cbn [lsum fold_right]. pose proof (total_bound _ _ _ P') as TB.
          rewrite wta_in in * by auto. rewrite Ww in *. rewrite vadd_small; lia.
        * rewrite nget_aset. destruct (N.eqb_spec (vc_own c) p') as [E|]; [|auto]. exfalso. apply own_notin. rewrite E. auto.
        * intros p2 sg2. rewrite nget_aset. destruct (N.eqb_spec p2 p') as [->|]; [|apply V]. intros E _. injection E as <-. rewrite <- Bx. eapply valid_slot; eauto.
      + intros o' pend' E. injection E as <- <-. split; [apply map_fst_filter; auto|]. intros u' p2 H2. apply filter_In in H2. apply N2. tauto.
    - fold (get_th s t) in R. destruct (get_th s t) as [th|] eqn:G; [|discriminate]. destruct th; try discriminate.
      destruct (aget N.eqb o (vs_objs s)) as [x|]; [|discriminate]. destruct ((total <? vc_thr c) && (vo_cancelled x || vs_token s)); [|discriminate].
      injection R as <-. stt I2 G KT. exact Logic.I.
  Qed.

  Lemma vinit_inv start : Inv2 c (vinit c start).
  Proof.
    unfold vinit. assert (I0 : Inv2 c (VS [] [] [] [] false 0 start [] 0)).
    { split; [|split].
      - constructor; cbn [vs_ths vs_fresh vs_objs vs_cobjs vs_caches vs_blocks vs_token vs_until]; try (intros; discriminate); auto;
          try (apply NoDup_nil); try (apply N.le_0_l).
      - intros t th o pend G. discriminate G.
      - intros o x G. discriminate G. }
    revert I0. generalize (VS [] [] [] [] false 0 start [] 0). generalize start. induction (N.to_nat (vc_slots c)) as [|n IH]; intros q s I0; [exact I0|].
    cbn [vinit_slots]. apply IH. split; [|exact (proj2 I0)]. destruct I0 as [I _].
    assert (Ib : Inv c (set_cobj (vs_fresh s) (vempty c) (bump s))).
    { apply inv_cobj; [apply inv_bump; auto|cbn [bump vs_fresh]; lia|apply vempty_keys]. }
    change (Inv c (set_caches (aset N.eqb q (vs_fresh s) (vs_caches s)) (set_cobj (vs_fresh s) (vempty c) (bump s)))).
    apply inv_caches; auto. intros q' ci. rewrite nget_aset. intros Hq. destruct (q' =? q).
    - injection Hq as <-. exists (vempty c). cbn [set_cobj bump vs_cobjs]. rewrite nget_aset, N.eqb_refl. reflexivity.
    - apply (i_cache _ _ Ib _ _ Hq).
  Qed.

  Lemma vrun_inv l : forall s s', Inv2 c s -> vrun c s l = Some s' -> Inv2 c s'.
  Proof.
    induction l as [|a l IH]; cbn [vrun]; intros s s' I R; [injection R as <-; auto|].
    destruct (vstep c s a) as [s1|] eqn:E; [|discriminate]. eapply IH; [|exact R]. eapply vstep_inv; eauto.
  Qed.
End Step.
