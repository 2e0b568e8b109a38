(* Removing a tree, in any interleaving of the threads. *)
From Coq Require Import NArith ZArith List Bool Lia Permutation.
From Coq Require Import ZifyN ZifyNat ZifyBool.
From Verif Require Import AMap CntModel CntSpec RcModel RcSpec RcBasics RcStore RcStoreFin.
Import ListNotations.
Open Scope N_scope.

Definition rpc_h (p : rpc) : list N := match p with RCell h => [h] | RSlow h _ _ _ _ => [h] | RIter => [] end.
Definition rtbag (t : rthr) : list N := rpc_h (rt_pc t) ++ concat (rt_stack t).
Definition rbag (ts : list rthr) : list N := flat_map rtbag ts.
Definition is_desc (e : N * removed) : bool := r_old (snd e) =? r_rem (snd e).
Definition desc (tx : list (N * removed)) : list N := map fst (filter is_desc tx).
Definition trem (tx : list (N * removed)) (h : N) : N := match get h tx with Some v => r_rem v | None => 0 end.

Lemma rbag_mid a b c : forall h, occ h (rbag (a ++ b ++ c)) = occ h (rbag a) + occ h (rbag b) + occ h (rbag c).
Proof. intros h. unfold rbag. rewrite !flat_map_app, !occ_app. lia. Qed.
Lemma rbag1 t h : occ h (rbag [t]) = occ h (rpc_h (rt_pc t)) + occ h (concat (rt_stack t)).
Proof. unfold rbag. cbn [flat_map]. rewrite app_nil_r. unfold rtbag. apply occ_app. Qed.

Lemma trem_aset tx h v h' : trem (aset N.eqb h v tx) h' = if h' =? h then r_rem v else trem tx h'.
Proof. unfold trem. rewrite nget_aset. destruct (h' =? h); reflexivity. Qed.

Lemma desc_aset content tx h v v' k : NoDup (akeys tx) -> get h tx = Some v -> r_rem v <> r_old v ->
  refs_to content k (desc (aset N.eqb h v' tx)) =
  refs_to content k (desc tx) + (if is_desc (h, v') then occ k (cc_refs (content h)) else 0).
Proof.
  unfold desc. induction tx as [|[x b] tx IH]; cbn [aget aset akeys map fst]; [discriminate|].
  intros ND. inversion ND as [|? ? NI ND']; subst. destruct (N.eqb_spec h x) as [->|E].
  - intros [= ->] NE. cbn [filter]. assert (Q : is_desc (x, v) = false).
    { unfold is_desc. cbn [snd]. apply N.eqb_neq. congruence. }
    rewrite Q. destruct (is_desc (x, v')); cbn [map fst refs_to]; lia.
  - intros Q NE. cbn [filter]. specialize (IH ND' Q NE). destruct (is_desc (x, b)); cbn [map fst refs_to]; rewrite IH; lia.
Qed.
Lemma desc_new content tx h v k : get h tx = None ->
  refs_to content k (desc (aset N.eqb h v tx)) =
  refs_to content k (desc tx) + (if is_desc (h, v) then occ k (cc_refs (content h)) else 0).
Proof.
  intros E. rewrite akeys_aset_new by exact E. unfold desc. rewrite filter_app, map_app, refs_app. f_equal.
  cbn [filter]. destruct (is_desc (h, v)); cbn [map fst refs_to]; lia.
Qed.
Lemma desc_in tx h : NoDup (akeys tx) ->
  (In h (desc tx) <-> exists v, get h tx = Some v /\ r_rem v = r_old v).
Proof.
  intros ND. unfold desc. rewrite in_map_iff. split.
  - intros ([x v] & <- & H). apply filter_In in H. destruct H as [H1 H2]. cbn [fst].
    unfold is_desc in H2. cbn [snd] in H2. apply N.eqb_eq in H2.
    exists v. split; [|now symmetry]. now apply (aget_in N.eqb N.eqb_spec).
  - intros (v & E & E2). exists (h, v). split; [reflexivity|]. apply filter_In. split.
    + now apply (aget_some_in N.eqb N.eqb_spec).
    + unfold is_desc. cbn [snd]. apply N.eqb_eq. now symmetry.
Qed.
Lemma desc_nodup tx : NoDup (akeys tx) -> NoDup (desc tx).
Proof. intros H. unfold desc. now apply filter_keys_nodup. Qed.

Definition in_nur (d : cdb) (h : N) : bool := match get h (d_nur d) with Some _ => true | None => false end.
Definition rent_ok (content : N -> cellc) (d : cdb) (h : N) (v : removed) : Prop :=
  exists w, look d h = Some w /\ r_idx v = fst w /\ r_nur v = in_nur d h /\ r_refs v = cc_refs (content h) /\
    r_old v = d_rc d (fst w) /\ 1 <= r_rem v <= r_old v.

Record RI (content : N -> cellc) (d : cdb) (r : N) (c : rctx) (ts : list rthr) : Prop := {
  ri_cnt : forall h, trem (y_tx c) h + tdel (y_del c) h + occ h (rbag ts)
                     = occ h [r] + refs_to content h (desc (y_tx c));
  ri_tx : NoDup (akeys (y_tx c));
  ri_ent : forall h v, get h (y_tx c) = Some v -> rent_ok content d h v;
  ri_del : NoDup (akeys (y_del c));
  ri_delp : forall h n, get h (y_del c) = Some n ->
            (exists v, get h (y_tx c) = Some v) \/ (exists t, In t ts /\ rpc_h (rt_pc t) = [h]);
  ri_slow : forall t h i nu o refs, In t ts -> rt_pc t = RSlow h i nu o refs ->
    exists w, look d h = Some w /\ i = fst w /\ nu = in_nur d h /\ refs = cc_refs (content h) /\ o = d_rc d (fst w);
  ri_cache : forall h v, get h (y_cache c) = Some v -> get h (d_rows d) = Some v;
  ri_reach : forall h, In h (rbag ts) -> reach content r h;
  ri_txr : forall h v, get h (y_tx c) = Some v -> reach content r h
}.

Lemma occ1_le r R h : In r R -> occ h [r] <= occ h R.
Proof.
  intros H. cbn [occ]. destruct (N.eqb_spec h r) as [->|]; [|lia]. apply occ_in in H. lia.
Qed.

Section Rem.
  Variables (fp : N -> N) (content : N -> cellc) (d : cdb) (R : list N) (r : N).
  Hypothesis G : GOOD fp content d R.
  Hypothesis HR : In r R.

  Lemma desc_stored c ts h : RI content d r c ts -> In h (desc (y_tx c)) -> In h (stored d).
  Proof.
    intros I H. apply desc_in in H; [|exact (ri_tx _ _ _ _ _ I)]. destruct H as (v & E & _).
    destruct (ri_ent _ _ _ _ _ I h v E) as (w & L & _). apply in_stored. exists w. exact L.
  Qed.
  Lemma total_le c ts h w : RI content d r c ts -> look d h = Some w ->
    occ h [r] + refs_to content h (desc (y_tx c)) <= d_rc d (fst w).
  Proof.
    intros I L. rewrite (proj1 (g_rc _ _ _ _ G h w L)). pose proof (occ1_le r R h HR).
    pose proof (refs_incl content h (desc (y_tx c)) (stored d) (desc_nodup _ (ri_tx _ _ _ _ _ I))
                  (fun x => desc_stored c ts x I)). lia.
  Qed.
  Lemma pend_stored c ts h : RI content d r c ts -> 0 < occ h [r] + refs_to content h (desc (y_tx c)) ->
    exists w, look d h = Some w.
  Proof.
    intros I P. apply in_stored. destruct (N.eq_dec (occ h [r]) 0) as [Z|NZ].
    - rewrite Z, N.add_0_l in P. apply refs_pos in P. destruct P as (p & P1 & P2).
      exact (g_closed _ _ _ _ G p h (desc_stored c ts p I P1) P2).
    - assert (Q : In h [r]) by (apply occ_in; lia). destruct Q as [<-|[]]. exact (g_roots _ _ _ _ G r HR).
  Qed.

  (* the removal of one reference to a cell of the transaction *)
  Lemma rbump_ok c a t b h v : RI content d r c (a ++ t :: b) -> rpc_h (rt_pc t) = [h] -> get h (y_tx c) = Some v ->
    exists v' bb, add_removes 1 v = Some (v', bb) /\
    RI content d r (mkRC (aset N.eqb h v' (y_tx c)) (y_del c) (y_cache c))
       (a ++ [mkRT RIter (descend bb (r_refs v) (rt_stack t))] ++ b).
  Proof.
    intros I PC E. pose proof (ri_ent _ _ _ _ _ I h v E) as (w & L & B1 & B2 & B3 & B4 & B5).
    pose proof (ri_cnt _ _ _ _ _ I) as CNT.
    assert (CNT' : forall k, trem (y_tx c) k + tdel (y_del c) k + (occ k (rbag a) + (occ k [h] + occ k (concat (rt_stack t))) + occ k (rbag b))
                    = occ k [r] + refs_to content k (desc (y_tx c))).
    { intros k. rewrite <- CNT. change (a ++ t :: b) with (a ++ [t] ++ b). rewrite rbag_mid, rbag1, PC. lia. }
    pose proof (total_le c _ h w I L) as TL. pose proof (CNT' h) as CH. cbn [occ] in CH, TL. rewrite N.eqb_refl in CH.
    unfold trem in CH. rewrite E in CH.
    unfold add_removes. destruct (N.ltb_spec (r_old v) (r_rem v + 1)) as [LT|LT]; [lia|].
    eexists. eexists. split; [reflexivity|].
    set (v' := mkRem (r_idx v) (r_nur v) (r_old v) (r_rem v + 1) (r_refs v)).
    assert (ID : is_desc (h, v') = (r_old v =? r_rem v + 1)) by reflexivity.
    constructor; cbn [y_tx y_del y_cache].
    - intros k. rewrite (desc_aset content _ h v v') by (apply (ri_tx _ _ _ _ _ I) || exact E || lia).
      rewrite ID. specialize (CNT' k). rewrite rbag_mid, rbag1. cbn [rt_pc rt_stack rpc_h occ] in *. rewrite trem_aset.
      assert (OD : occ k (concat (descend (r_old v =? r_rem v + 1) (r_refs v) (rt_stack t))) =
                   (if r_old v =? r_rem v + 1 then occ k (cc_refs (content h)) else 0) + occ k (concat (rt_stack t))).
      { unfold descend. destruct (r_old v =? r_rem v + 1); [|lia]. cbn [concat]. rewrite occ_app, B3. lia. }
      rewrite OD. cbn [v' r_rem]. destruct (N.eqb_spec k h) as [Ek|]; [|lia].
      unfold trem in CNT'. rewrite Ek, E in CNT'. rewrite Ek. lia.
    - apply (aset_nodup N.eqb N.eqb_spec), (ri_tx _ _ _ _ _ I).
    - intros k y. rewrite nget_aset. destruct (N.eqb_spec k h) as [->|]; [|apply (ri_ent _ _ _ _ _ I)].
      intros [= <-]. exists w. cbn [v' r_idx r_nur r_refs r_old r_rem]. split; [exact L|]. split; [exact B1|].
      split; [exact B2|]. split; [exact B3|]. split; [exact B4|]. lia.
    - exact (ri_del _ _ _ _ _ I).
    - intros k n Hk. destruct (ri_delp _ _ _ _ _ I k n Hk) as [(y & Q)|(t' & T1 & T2)].
      + left. rewrite nget_aset. destruct (k =? h); [eexists; reflexivity|exists y; exact Q].
      + apply in_app_iff in T1. destruct T1 as [T1|[<-|T1]].
        * right. exists t'. split; [apply in_mid; now left|exact T2].
        * left. rewrite PC in T2. injection T2 as <-. rewrite nget_aset, N.eqb_refl. eexists; reflexivity.
        * right. exists t'. split; [apply in_mid; right; now right|exact T2].
    - intros t' k i nu o rf T1 T2. apply in_mid in T1. destruct T1 as [T1|[[<-|[]]|T1]]; [|discriminate|].
      + apply (ri_slow _ _ _ _ _ I t' k i nu o rf); [apply in_app_iff; now left|exact T2].
      + apply (ri_slow _ _ _ _ _ I t' k i nu o rf); [apply in_app_iff; right; now right|exact T2].
    - exact (ri_cache _ _ _ _ _ I).
    - intros k Hk. unfold rbag in Hk. rewrite !flat_map_app in Hk. cbn [flat_map app] in Hk.
      rewrite app_nil_r, !in_app_iff in Hk.
      assert (OLD : In k (rbag (a ++ t :: b)) -> reach content r k) by apply (ri_reach _ _ _ _ _ I).
      unfold rbag in OLD. rewrite flat_map_app in OLD. cbn [flat_map] in OLD. rewrite !in_app_iff in OLD.
      destruct Hk as [Q|[Q|Q]]; [apply OLD; now left| |apply OLD; right; now right].
      unfold rtbag in Q. cbn [rt_pc rt_stack rpc_h app] in Q. unfold descend in Q.
      assert (Q' : In k (cc_refs (content h)) \/ In k (concat (rt_stack t))).
      { destruct (r_old v =? r_rem v + 1); [|now right]. cbn [concat] in Q. apply in_app_iff in Q. now rewrite B3 in Q. }
      destruct Q' as [Q'|Q']; [|apply OLD; right; left; unfold rtbag; apply in_app_iff; now right].
      exact (reach_step content r h k (ri_txr _ _ _ _ _ I h v E) Q').
    - intros k y. rewrite nget_aset. destruct (N.eqb_spec k h) as [->|]; [|apply (ri_txr _ _ _ _ _ I)].
      intros _. exact (ri_txr _ _ _ _ _ I h v E).
  Qed.

  Lemma find_del_ok cache h w : (forall h v, get h cache = Some v -> get h (d_rows d) = Some v) -> look d h = Some w ->
    find_del d cache h = Some (fst w, in_nur d h, cc_refs (content h)).
  Proof.
    intros C L. pose proof (proj1 (g_val _ _ _ _ G h w L)) as V. unfold find_del, in_nur, look in *.
    destruct (get h (d_nur d)) as [x|]; [injection L as ->; now rewrite V|].
    destruct (get h cache) as [x|] eqn:E.
    - rewrite (C h x E) in L. injection L as ->. now rewrite V.
    - rewrite L, V. reflexivity.
  Qed.

  Lemma rstep_ok sp c a t b : RI content d r c (a ++ t :: b) ->
    exists c' ts, rstep sp d c t = Some (c', ts) /\ RI content d r c' (a ++ ts ++ b).
  Proof.
    intros I. unfold rstep. destruct t as [pc st]. cbn [rt_pc rt_stack].
    pose proof (ri_cnt _ _ _ _ _ I) as CNT.
    assert (CNT' : forall k, trem (y_tx c) k + tdel (y_del c) k + (occ k (rbag a) + (occ k (rpc_h pc) + occ k (concat st)) + occ k (rbag b))
                    = occ k [r] + refs_to content k (desc (y_tx c))).
    { intros k. rewrite <- CNT. change (a ++ mkRT pc st :: b) with (a ++ [mkRT pc st] ++ b). rewrite rbag_mid, rbag1.
      cbn [rt_pc rt_stack]. lia. }
    assert (RT : forall k, In k (rtbag (mkRT pc st)) -> reach content r k).
    { intros k Hk. apply (ri_reach _ _ _ _ _ I). unfold rbag. rewrite flat_map_app, in_app_iff. right.
      cbn [flat_map]. apply in_app_iff. now left. }
    assert (RO : forall k, In k (rbag a) \/ In k (rbag b) -> reach content r k).
    { intros k Hk. apply (ri_reach _ _ _ _ _ I). unfold rbag in *. rewrite flat_map_app. cbn [flat_map].
      rewrite !in_app_iff. destruct Hk as [Q|Q]; [now left|right; now right]. }
    assert (SLOW : forall t' k i nu o rf, In t' a \/ In t' b -> rt_pc t' = RSlow k i nu o rf ->
       exists w, look d k = Some w /\ i = fst w /\ nu = in_nur d k /\ rf = cc_refs (content k) /\ o = d_rc d (fst w)).
    { intros t' k i nu o rf H. apply (ri_slow _ _ _ _ _ I). rewrite in_app_iff. destruct H; [now left|right; now right]. }
    assert (DELP : forall h n, get h (y_del c) = Some n -> (exists x, get h (y_tx c) = Some x) \/
       (exists t, (In t a \/ In t b) /\ rpc_h (rt_pc t) = [h]) \/ rpc_h pc = [h]).
    { intros h n E. destruct (ri_delp _ _ _ _ _ I h n E) as [Q|(t' & T1 & T2)]; [now left|right].
      apply in_app_iff in T1. destruct T1 as [T1|[<-|T1]]; [left; exists t'; split; [now left|exact T2]|right; exact T2|
        left; exists t'; split; [now right|exact T2]]. }
    assert (PST : forall h, rpc_h pc = [h] -> exists w, look d h = Some w).
    { intros h Q. apply (pend_stored c _ h I). rewrite <- CNT'. rewrite Q. cbn [occ]. rewrite N.eqb_refl. lia. }
    destruct pc as [h|h i nu o rf|].
    - destruct (get h (y_tx c)) as [v|] eqn:E.
      + destruct (rbump_ok c a (mkRT (RCell h) st) b h v I eq_refl E) as (v' & bb & Q1 & Q2).
        rewrite Q1. eexists. eexists. split; [reflexivity|exact Q2].
      + destruct (PST h eq_refl) as (w & L). rewrite (find_del_ok (y_cache c) h w (ri_cache _ _ _ _ _ I) L).
        rewrite (cget_rc fp content d R h w G L).
        eexists. eexists. split; [reflexivity|]. constructor.
        * intros k. rewrite <- CNT'. rewrite rbag_mid, rbag1. cbn [rt_pc rt_stack rpc_h]. lia.
        * exact (ri_tx _ _ _ _ _ I).
        * exact (ri_ent _ _ _ _ _ I).
        * exact (ri_del _ _ _ _ _ I).
        * intros k n Hk. destruct (DELP k n Hk) as [Q|[(t' & T1 & T2)|Q]]; [now left| |]; right.
          -- exists t'. split; [apply in_mid; destruct T1; [now left|right; now right]|exact T2].
          -- eexists. split; [apply in_mid; right; left; left; reflexivity|exact Q].
        * intros t' k i' nu' o' rf' T1 T2. apply in_mid in T1. destruct T1 as [T1|[[<-|[]]|T1]].
          -- apply (SLOW t' k i' nu' o' rf'); [now left|exact T2].
          -- cbn [rt_pc] in T2. injection T2 as <- <- <- <- <-. exists w. repeat split; auto.
          -- apply (SLOW t' k i' nu' o' rf'); [now right|exact T2].
        * exact (ri_cache _ _ _ _ _ I).
        * intros k Hk. unfold rbag in Hk. rewrite !flat_map_app in Hk. cbn [flat_map] in Hk.
          rewrite app_nil_r, !in_app_iff in Hk. destruct Hk as [Q|[Q|Q]]; [apply RO; now left|exact (RT k Q)|apply RO; now right].
        * exact (ri_txr _ _ _ _ _ I).
    - destruct (get h (y_tx c)) as [v|] eqn:E.
      + destruct (rbump_ok c a (mkRT (RSlow h i nu o rf) st) b h v I eq_refl E) as (v' & bb & Q1 & Q2).
        rewrite Q1. eexists. eexists. split; [reflexivity|exact Q2].
      + destruct (ri_slow _ _ _ _ _ I (mkRT (RSlow h i nu o rf) st) h i nu o rf) as (w & L & -> & -> & -> & ->);
          [apply in_app_iff; right; now left|reflexivity|].
        eexists. eexists. split; [reflexivity|].
        assert (RC : 1 <= d_rc d (fst w)) by (destruct (g_rc _ _ _ _ G h w L); lia).
        assert (RH : reach content r h). { apply RT. unfold rtbag. cbn [rt_pc rpc_h app]. now left. }
        set (v' := mkRem (fst w) (in_nur d h) (d_rc d (fst w)) 1 (cc_refs (content h))).
        assert (ID : is_desc (h, v') = (d_rc d (fst w) =? 1)) by reflexivity.
        constructor; cbn [y_tx y_del y_cache].
        * intros k. rewrite (desc_new content _ h v') by exact E.
          rewrite ID. specialize (CNT' k). rewrite rbag_mid, rbag1. cbn [rt_pc rt_stack rpc_h occ] in *. rewrite trem_aset.
          assert (OD : occ k (concat (descend (d_rc d (fst w) =? 1) (cc_refs (content h)) st)) =
                       (if d_rc d (fst w) =? 1 then occ k (cc_refs (content h)) else 0) + occ k (concat st)).
          { unfold descend. destruct (d_rc d (fst w) =? 1); [|lia]. cbn [concat]. rewrite occ_app. lia. }
          rewrite OD. cbn [v' r_rem]. destruct (N.eqb_spec k h) as [Ek|]; [|lia].
          unfold trem in CNT'. rewrite Ek, E in CNT'. rewrite Ek. lia.
        * apply (aset_nodup N.eqb N.eqb_spec), (ri_tx _ _ _ _ _ I).
        * intros k y. rewrite nget_aset. destruct (N.eqb_spec k h) as [->|]; [|apply (ri_ent _ _ _ _ _ I)].
          intros [= <-]. exists w. cbn [v' r_idx r_nur r_refs r_old r_rem]. repeat split; auto; lia.
        * exact (ri_del _ _ _ _ _ I).
        * intros k n Hk. destruct (DELP k n Hk) as [(y & Q)|[(t' & T1 & T2)|Q]].
          -- left. rewrite nget_aset. destruct (k =? h); [eexists; reflexivity|exists y; exact Q].
          -- right. exists t'. split; [apply in_mid; destruct T1; [now left|right; now right]|exact T2].
          -- left. cbn [rpc_h] in Q. injection Q as ->. rewrite nget_aset, N.eqb_refl. eexists; reflexivity.
        * intros t' k i' nu' o' rf' T1 T2. apply in_mid in T1. destruct T1 as [T1|[[<-|[]]|T1]]; [|discriminate|].
          -- apply (SLOW t' k i' nu' o' rf'); [now left|exact T2].
          -- apply (SLOW t' k i' nu' o' rf'); [now right|exact T2].
        * exact (ri_cache _ _ _ _ _ I).
        * intros k Hk. unfold rbag in Hk. rewrite !flat_map_app in Hk. cbn [flat_map] in Hk.
          rewrite app_nil_r, !in_app_iff in Hk. destruct Hk as [Q|[Q|Q]]; [apply RO; now left| |apply RO; now right].
          unfold rtbag in Q. cbn [rt_pc rt_stack rpc_h app] in Q. unfold descend in Q.
          assert (Q' : In k (cc_refs (content h)) \/ In k (concat st)).
          { destruct (d_rc d (fst w) =? 1); [|now right]. cbn [concat] in Q. apply in_app_iff in Q. exact Q. }
          destruct Q' as [Q'|Q']; [exact (reach_step content r h k RH Q')|].
          apply RT. unfold rtbag. cbn [rt_pc rt_stack]. apply in_app_iff. now right.
        * intros k y. rewrite nget_aset. destruct (N.eqb_spec k h) as [->|]; [intros _; exact RH|apply (ri_txr _ _ _ _ _ I)].
    - assert (KEEP : forall c2 ts2, y_tx c2 = y_tx c -> y_cache c2 = y_cache c ->
        (forall k, tdel (y_del c2) k + occ k (rbag ts2) = tdel (y_del c) k + occ k (concat st)) ->
        NoDup (akeys (y_del c2)) ->
        (forall k n, get k (y_del c2) = Some n -> (exists n', get k (y_del c) = Some n') \/
            exists t, In t ts2 /\ rpc_h (rt_pc t) = [k]) ->
        (forall t k i nu o rf, In t ts2 -> rt_pc t <> RSlow k i nu o rf) ->
        (forall k, In k (rbag ts2) -> In k (concat st)) ->
        RI content d r c2 (a ++ ts2 ++ b)).
      { intros c2 ts2 Q1 Q3 Q4 Q5 Q6 Q7 Q8. constructor; rewrite ?Q1, ?Q3.
        - intros k. rewrite <- CNT', rbag_mid. cbn [rpc_h occ]. specialize (Q4 k). lia.
        - exact (ri_tx _ _ _ _ _ I).
        - exact (ri_ent _ _ _ _ _ I).
        - exact Q5.
        - intros k n Hk. destruct (Q6 k n Hk) as [(n' & Hk')|(t' & T1 & T2)].
          + destruct (DELP k n' Hk') as [Q|[(t' & T1 & T2)|Q]]; [now left|right|discriminate].
            exists t'. split; [apply in_mid; destruct T1; [now left|right; now right]|exact T2].
          + right. exists t'. split; [apply in_mid; right; now left|exact T2].
        - intros t' k i' nu' o' rf' T1 T2. apply in_mid in T1. destruct T1 as [T1|[T1|T1]].
          + apply (SLOW t' k i' nu' o' rf'); [now left|exact T2].
          + exfalso. exact (Q7 t' k i' nu' o' rf' T1 T2).
          + apply (SLOW t' k i' nu' o' rf'); [now right|exact T2].
        - exact (ri_cache _ _ _ _ _ I).
        - intros k Hk. unfold rbag in Hk. rewrite !flat_map_app, !in_app_iff in Hk.
          destruct Hk as [Q|[Q|Q]]; [apply RO; now left| |apply RO; now right].
          apply RT. unfold rtbag. cbn [rt_pc rt_stack rpc_h app]. apply Q8. exact Q.
        - exact (ri_txr _ _ _ _ _ I). }
      pose proof (ri_del _ _ _ _ _ I) as ND.
      destruct st as [|[|h rest] st].
      + eexists. eexists. split; [reflexivity|]. apply KEEP; auto. intros k n Q. left. exists n. exact Q.
      + eexists. eexists. split; [reflexivity|]. apply KEEP; auto.
        * intros k. rewrite rbag1. reflexivity.
        * intros k n Q. left. exists n. exact Q.
        * intros t k i nu o rf [<-|[]]. discriminate.
        * intros k Hk. unfold rbag in Hk. cbn [flat_map] in Hk. rewrite app_nil_r in Hk. exact Hk.
      + destruct (sp h).
        * destruct (get h (y_del c)) as [n|] eqn:E; eexists; eexists; (split; [reflexivity|]); apply KEEP;
            cbn [y_tx y_cache y_del]; auto.
          -- intros k. rewrite tdel_aset, rbag1. cbn [rt_pc rt_stack rpc_h app concat occ].
             destruct (N.eqb_spec k h) as [->|]; [|lia]. unfold tdel. rewrite E. lia.
          -- now apply (aset_nodup N.eqb N.eqb_spec).
          -- intros k m. rewrite nget_aset. destruct (N.eqb_spec k h) as [->|]; intros Q; left; eexists; eassumption.
          -- intros t k i nu o rf [<-|[]]. discriminate.
          -- intros k Hk. unfold rbag in Hk. cbn [flat_map] in Hk. rewrite app_nil_r in Hk. right. exact Hk.
          -- intros k. rewrite tdel_aset. unfold rbag. cbn [flat_map concat app]. rewrite ?app_nil_r.
             unfold rtbag. cbn [rt_pc rt_stack rpc_h app concat]. rewrite !occ_app. cbn [occ]. rewrite occ_app.
             destruct (N.eqb_spec k h) as [->|]; [|lia]. unfold tdel. rewrite E. lia.
          -- now apply (aset_nodup N.eqb N.eqb_spec).
          -- intros k m. rewrite nget_aset. destruct (N.eqb_spec k h) as [->|]; intros Q; [|left; eexists; eassumption].
             right. exists (mkRT (RCell h) []). split; [right; now left|reflexivity].
          -- intros t k i nu o rf [<-|[<-|[]]]; discriminate.
          -- intros k Hk. unfold rbag in Hk. cbn [flat_map] in Hk. rewrite app_nil_r in Hk.
             apply in_app_iff in Hk. destruct Hk as [Q|[<-|[]]]; [right; exact Q|now left].
        * eexists. eexists. split; [reflexivity|]. apply KEEP; auto.
          -- intros k. rewrite rbag1. cbn [rt_pc rt_stack rpc_h app concat occ]. lia.
          -- intros k n Q. left. exists n. exact Q.
          -- intros t k i nu o rf [<-|[]]. discriminate.
          -- intros k Hk. unfold rbag in Hk. cbn [flat_map] in Hk. rewrite app_nil_r in Hk. exact Hk.
  Qed.

  Lemma rstart_ok : RI content d r (fst (rstart d r)) (snd (rstart d r)).
  Proof.
    unfold rstart. cbn [fst snd]. constructor; cbn [y_tx y_del y_cache].
    - intros h. rewrite rbag1. unfold trem, tdel, desc. cbn [aget rt_pc rt_stack rpc_h concat filter map refs_to occ]. lia.
    - constructor.
    - intros h a E. discriminate.
    - constructor.
    - intros h n E. discriminate.
    - intros t h i nu o rf [<-|[]] E. discriminate.
    - exact (g_cache _ _ _ _ G).
    - intros h [<-|[]]. apply reach_refl.
    - intros h v E. discriminate.
  Qed.

  Lemma rrun_ok sp n s s' : rrun sp d n s s' ->
    RI content d r (fst s) (snd s) -> RI content d r (fst s') (snd s').
  Proof.
    intros H. induction H as [s|n s c a t b c' ts H IH ST|n s c l h v H IH E|n s c l h H IH]; intros I; [exact I| | |].
    - cbn [fst snd]. destruct (rstep_ok sp c a t b (IH I)) as (c2 & ts2 & Q1 & Q2). rewrite ST in Q1.
      injection Q1 as <- <-. exact Q2.
    - specialize (IH I). cbn [fst snd] in *. destruct IH. constructor; cbn [y_tx y_del y_cache]; try assumption.
      intros k w. rewrite nget_aset. destruct (N.eqb_spec k h) as [->|]; [|apply ri_cache0]. intros [= <-]. exact E.
    - specialize (IH I). cbn [fst snd] in *. destruct IH. constructor; cbn [y_tx y_del y_cache]; try assumption.
      intros k w. rewrite nget_adel. destruct (N.eqb_spec k h) as [->|]; [discriminate|]. apply ri_cache0.
  Qed.
End Rem.
