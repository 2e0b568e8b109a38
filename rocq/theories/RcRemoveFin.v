(* The end of a removal: counters go down, cells without references go. *)
From Coq Require Import NArith ZArith List Bool Lia Permutation.
From Coq Require Import ZifyN ZifyNat ZifyBool.
From Verif Require Import AMap CntModel CntSpec RcModel RcSpec RcBasics RcStore RcStoreFin RcRemove.
Import ListNotations.
Open Scope N_scope.

Definition rem_n (n : N) (v : removed) : removed :=
  mkRem (r_idx v) (r_nur v) (r_old v) (r_rem v + n) (r_refs v).
Lemma rem_n_0 v : rem_n 0 v = v.
Proof. destruct v. unfold rem_n. cbn. now rewrite N.add_0_r. Qed.

Lemma rdelayed_ok l : forall tx, NoDup (akeys l) -> NoDup (akeys tx) ->
  (forall h n, get h l = Some n -> exists v, get h tx = Some v /\ r_rem v + n <= r_old v) ->
  exists tx', rdelayed l tx = Some tx' /\ akeys tx' = akeys tx /\
    forall h, get h tx' = option_map (rem_n (tdel l h)) (get h tx).
Proof.
  induction l as [|[x n] l IH]; intros tx ND NT H.
  - exists tx. split; [reflexivity|]. split; [reflexivity|]. intros h. unfold tdel. cbn [aget].
    destruct (get h tx) as [a|]; [|reflexivity]. cbn [option_map]. now rewrite rem_n_0.
  - cbn [akeys map fst] in ND. inversion ND as [|? ? NI ND']; subst.
    assert (LX : get x l = None) by (now apply nget_none).
    assert (H' : forall h m, get h l = Some m -> exists v, get h tx = Some v /\ r_rem v + m <= r_old v).
    { intros h m E. apply (H h m). cbn [aget]. destruct (N.eqb_spec h x) as [->|]; [congruence|exact E]. }
    destruct (H x n) as (a & EA & LA). { cbn [aget]. now rewrite N.eqb_refl. }
    cbn [rdelayed]. destruct (N.eqb_spec n 0) as [->|NZ].
    + destruct (IH tx ND' NT H') as (tx' & E1 & E2 & E4). exists tx'. split; [exact E1|]. split; [exact E2|].
      intros h. rewrite E4. unfold tdel. cbn [aget].
      destruct (N.eqb_spec h x) as [->|]; [now rewrite LX|reflexivity].
    + rewrite EA. unfold add_removes. destruct (N.ltb_spec (r_old a) (r_rem a + n)) as [Q|_]; [lia|].
      change (mkRem (r_idx a) (r_nur a) (r_old a) (r_rem a + n) (r_refs a)) with (rem_n n a).
      set (tx2 := aset N.eqb x (rem_n n a) tx).
      destruct (IH tx2) as (tx' & E1 & E2 & E4).
      * exact ND'.
      * now apply (aset_nodup N.eqb N.eqb_spec).
      * intros h m E. destruct (H' h m E) as (b & EB & LB). unfold tx2. rewrite nget_aset.
        destruct (N.eqb_spec h x) as [->|]; [congruence|exists b; now split].
      * exists tx'. split; [exact E1|]. split; [rewrite E2; now apply (aset_keys x (rem_n n a) a)|].
        intros h. rewrite E4. unfold tx2. rewrite nget_aset.
        unfold tdel. cbn [aget]. destruct (N.eqb_spec h x) as [->|]; [|reflexivity].
        rewrite LX, EA. cbn [option_map]. now rewrite rem_n_0.
Qed.

(* only detached cells are delayed *)
Lemma rrun_sp sp d n s s' : rrun sp d n s s' ->
  (forall h k, get h (y_del (fst s)) = Some k -> sp h = true) ->
  forall h k, get h (y_del (fst s')) = Some k -> sp h = true.
Proof.
  intros H. induction H as [s|n s c a t b c' ts H IH ST|n s c l h v H IH E|n s c l h H IH]; intros I; [exact I| | |];
    [|exact (IH I)..].
  specialize (IH I). cbn [fst] in *. unfold rstep in ST. destruct (rt_pc t) as [x|x i nu o rf|].
  - destruct (get x (y_tx c)) as [v|].
    + destruct (add_removes 1 v) as [[v' bb]|]; [|discriminate]. injection ST as <- <-. exact IH.
    + destruct (find_del d (y_cache c) x) as [[[i nu] rf]|]; [|discriminate]. injection ST as <- <-. exact IH.
  - destruct (get x (y_tx c)) as [v|].
    + destruct (add_removes 1 v) as [[v' bb]|]; [|discriminate]. injection ST as <- <-. exact IH.
    + injection ST as <- <-. exact IH.
  - destruct (rt_stack t) as [|[|x rest] st]; [injection ST as <- <-; exact IH..|].
    destruct (sp x) eqn:SP; [|injection ST as <- <-; exact IH].
    destruct (get x (y_del c)) as [m|]; injection ST as <- <-; cbn [y_del]; intros k z; rewrite nget_aset;
      (destruct (N.eqb_spec k x) as [->|]; [intros _; exact SP|apply IH]).
Qed.

Lemma fremove_perm x l : forall m, Permutation l (x :: m) -> Permutation (fremove x l) m.
Proof.
  induction l as [|y l IH]; intros m P; [apply Permutation_nil in P; discriminate|].
  cbn [fremove]. destruct (N.eqb_spec x y) as [->|E]; [now apply Permutation_cons_inv in P|].
  assert (Q : In y m).
  { assert (I : In y (x :: m)) by (apply (Permutation_in _ P); now left). destruct I as [I|I]; [congruence|exact I]. }
  destruct (in_split y m Q) as (m1 & m2 & ->).
  assert (P2 : Permutation l (x :: m1 ++ m2)).
  { apply Permutation_cons_inv with (a := y). rewrite P. rewrite perm_swap. apply perm_skip.
    symmetry. apply Permutation_middle. }
  rewrite (IH _ P2). apply Permutation_middle.
Qed.
Lemma adel_perm {V} h (v : V) m : NoDup (akeys m) -> get h m = Some v -> Permutation (akeys m) (h :: akeys (adel N.eqb h m)).
Proof.
  unfold akeys, adel. induction m as [|[x w] m IH]; cbn [map fst aget filter]; intros ND E; [discriminate|].
  inversion ND as [|? ? NI ND']; subst. destruct (N.eqb_spec h x) as [->|NE]; cbn [negb].
  - apply perm_skip. clear -NI. induction m as [|[y z] m IH]; cbn [map fst filter] in *; [constructor|].
    destruct (N.eqb_spec x y) as [->|]; cbn [negb map fst]; [exfalso; apply NI; now left|].
    apply perm_skip. apply IH. intros Q. apply NI. now right.
  - cbn [map fst]. rewrite (IH ND' E). apply perm_swap.
Qed.
Lemma fremove_all_ok fp hs : forall filt rows, NoDup hs -> NoDup (akeys rows) ->
  (forall h, In h hs -> exists v : rowv, get h rows = Some v) ->
  Permutation filt (map fp (akeys rows)) ->
  Permutation (fremove_all fp hs filt) (map fp (akeys (del_all hs rows))).
Proof.
  induction hs as [|h hs IH]; intros filt rows NH NR K P; cbn [fremove_all del_all]; [exact P|].
  inversion NH as [|? ? NI NH']; subst. destruct (K h (or_introl eq_refl)) as (v & E).
  apply IH; [exact NH'|now apply (adel_nodup N.eqb)| |].
  - intros k Hk. destruct (K k (or_intror Hk)) as (w & Q). exists w. rewrite nget_adel.
    destruct (N.eqb_spec k h) as [->|]; [contradiction|exact Q].
  - apply fremove_perm. rewrite P. rewrite (adel_perm h v rows NR E). reflexivity.
Qed.

Lemma r_gone_in b tx h : NoDup (akeys tx) ->
  (In h (r_gone b tx) <-> exists v, get h tx = Some v /\ r_newrc v = 0 /\ r_nur v = b).
Proof.
  intros ND. unfold r_gone. rewrite in_map_iff. split.
  - intros ([x v] & <- & H). apply filter_In in H. destruct H as [H1 H2]. cbn [fst snd] in *.
    apply andb_true_iff in H2. destruct H2 as [H2 H3]. apply N.eqb_eq in H2. apply eqb_prop in H3.
    exists v. split; [now apply (aget_in N.eqb N.eqb_spec)|now split].
  - intros (v & E & E2 & E3). exists (h, v). split; [reflexivity|]. apply filter_In. split.
    + now apply (aget_some_in N.eqb N.eqb_spec).
    + cbn [snd]. rewrite E2, E3, N.eqb_refl. destruct b; reflexivity.
Qed.

Section RFin.
  Variables (fp : N -> N) (content : N -> cellc) (d : cdb) (R1 R2 : list N) (r : N) (sp : N -> bool) (c : rctx).
  Hypothesis G : GOOD fp content d (R1 ++ r :: R2).
  Hypothesis I : RI content d r c [].
  Hypothesis SP : forall h k, get h (y_del c) = Some k -> sp h = true.
  Hypothesis SO : split_ok content d sp r.

  Lemma rf_HR : In r (R1 ++ r :: R2).
  Proof. apply in_app_iff. right. now left. Qed.
  Lemma rf_cnt h : trem (y_tx c) h + tdel (y_del c) h = occ h [r] + refs_to content h (desc (y_tx c)).
  Proof. rewrite <- (ri_cnt _ _ _ _ _ I h). unfold rbag. cbn [flat_map occ]. lia. Qed.
  Lemma rf_deltx h n : get h (y_del c) = Some n -> exists v, get h (y_tx c) = Some v.
  Proof. intros E. destruct (ri_delp _ _ _ _ _ I h n E) as [Q|(t & [] & _)]. exact Q. Qed.

  Lemma rf_tx : exists tx, rdelayed (y_del c) (y_tx c) = Some tx /\ NoDup (akeys tx) /\
    (forall h v, get h tx = Some v -> rent_ok content d h v) /\
    (forall h, trem tx h = occ h [r] + refs_to content h (desc tx)) /\
    (forall h, In h (desc tx) <-> In h (desc (y_tx c))).
  Proof.
    assert (LE : forall h v, get h (y_tx c) = Some v -> r_rem v + tdel (y_del c) h <= r_old v).
    { intros h v E. destruct (ri_ent _ _ _ _ _ I h v E) as (w & L & B1 & B2 & B3 & B4 & B5).
      pose proof (total_le fp content d _ r G rf_HR c [] h w I L) as TL. rewrite <- rf_cnt in TL.
      unfold trem in TL. rewrite E in TL. lia. }
    destruct (rdelayed_ok (y_del c) (y_tx c) (ri_del _ _ _ _ _ I) (ri_tx _ _ _ _ _ I)) as (tx & E1 & E2 & E4).
    { intros h n E. destruct (rf_deltx h n E) as (v & EV). exists v. split; [exact EV|].
      pose proof (LE h v EV) as Q. unfold tdel in Q. rewrite E in Q. exact Q. }
    assert (NT : NoDup (akeys tx)) by (rewrite E2; exact (ri_tx _ _ _ _ _ I)).
    assert (SAME : forall h, In h (desc tx) <-> In h (desc (y_tx c))).
    { intros h. rewrite (desc_in tx h NT), (desc_in _ h (ri_tx _ _ _ _ _ I)). rewrite E4.
      destruct (get h (y_tx c)) as [v|] eqn:E; cbn [option_map]; [|split; intros (v & Q & _); discriminate].
      assert (Z : tdel (y_del c) h = 0 \/ r_rem v + tdel (y_del c) h < r_old v).
      { unfold tdel. destruct (get h (y_del c)) as [n|] eqn:ED; [|now left].
        destruct (ri_ent _ _ _ _ _ I h v E) as (w & L & B1 & B2 & B3 & B4 & B5).
        destruct (SO (desc (y_tx c)) h (desc_nodup _ (ri_tx _ _ _ _ _ I))) as [Q|Q].
        - intros u Hu. apply desc_in in Hu; [|exact (ri_tx _ _ _ _ _ I)]. destruct Hu as (x & X & _).
          exact (ri_txr _ _ _ _ _ I u x X).
        - exact (SP h n ED).
        - left. rewrite <- rf_cnt in Q. unfold trem, tdel in Q. rewrite E, ED in Q. lia.
        - right. rewrite <- rf_cnt in Q. unfold trem, tdel, rcount in Q. rewrite E, ED, L in Q. lia. }
      destruct Z as [Z|Z].
      - rewrite Z, rem_n_0. reflexivity.
      - split; intros (x & [= <-] & Q); [cbn [rem_n r_rem r_old] in Q; lia|]. exfalso. lia. }
    exists tx. split; [exact E1|]. split; [exact NT|]. split; [|split; [|exact SAME]].
    - intros h v E. rewrite E4 in E. destruct (get h (y_tx c)) as [b|] eqn:EB; [|discriminate]. injection E as <-.
      destruct (ri_ent _ _ _ _ _ I h b EB) as (w & L & B1 & B2 & B3 & B4 & B5). exists w.
      cbn [rem_n r_idx r_nur r_refs r_old r_rem]. pose proof (LE h b EB).
      split; [exact L|]. split; [exact B1|]. split; [exact B2|]. split; [exact B3|]. split; [exact B4|]. lia.
    - intros h. assert (PM : Permutation (desc tx) (desc (y_tx c))).
      { apply NoDup_Permutation; [now apply desc_nodup|apply desc_nodup; exact (ri_tx _ _ _ _ _ I)|exact SAME]. }
      rewrite (refs_perm content h _ _ PM), <- rf_cnt. unfold trem. rewrite E4.
      destruct (get h (y_tx c)) as [v|] eqn:E; cbn [option_map rem_n r_rem]; [reflexivity|].
      unfold tdel. destruct (get h (y_del c)) as [n|] eqn:ED; [|reflexivity].
      destruct (rf_deltx h n ED) as (v & Q). congruence.
  Qed.
End RFin.

Section RFin2.
  Variables (fp : N -> N) (content : N -> cellc) (d : cdb) (R1 R2 : list N) (r : N)
            (cache : list (N * rowv)) (st : list (N * N)) (tx : list (N * removed)).
  Hypothesis G : GOOD fp content d (R1 ++ r :: R2).
  Hypothesis NT : NoDup (akeys tx).
  Hypothesis EN : forall h v, get h tx = Some v -> rent_ok content d h v.
  Hypothesis CNT : forall h, trem tx h = occ h [r] + refs_to content h (desc tx).
  Hypothesis CA : forall h v, get h cache = Some v -> get h (d_rows d) = Some v.

  Definition d2 : cdb := mkDb (del_all (r_gone true tx) (d_nur d)) (del_all (r_gone false tx) (d_rows d))
    (del_all (r_gone false tx) cache) (fremove_all fp (r_gone false tx) (d_filt d))
    (d_next d) (tset_all (d_rc d) (r_updates tx)) st.

  Lemma q_zero h v : get h tx = Some v -> (r_newrc v = 0 <-> In h (desc tx)).
  Proof.
    intros E. rewrite desc_in by exact NT. destruct (EN h v E) as (w & L & B1 & B2 & B3 & B4 & B5). unfold r_newrc. split.
    - intros Z. exists v. split; [exact E|lia].
    - intros (x & X & Q). rewrite E in X. injection X as <-. lia.
  Qed.
  Lemma q_gone b h : In h (r_gone b tx) <-> In h (desc tx) /\ in_nur d h = b.
  Proof.
    rewrite r_gone_in by exact NT. split.
    - intros (v & E & Z & Q). destruct (EN h v E) as (w & L & B1 & B2 & _). split; [now apply (q_zero h v E)|congruence].
    - intros (H & Q). pose proof H as H'. apply desc_in in H'; [|exact NT]. destruct H' as (v & E & _). exists v. split; [exact E|].
      split; [now apply (q_zero h v E)|]. destruct (EN h v E) as (w & L & B1 & B2 & _). congruence.
  Qed.
  Lemma q_look h : look d2 h = if nmem h (desc tx) then None else look d h.
  Proof.
    destruct (proj1 (stored_nd d) (g_nk _ _ _ _ G)) as (N1 & N2 & DJ).
    unfold look, d2. cbn [d_nur d_rows]. rewrite !del_all_get.
    destruct (nmem h (desc tx)) eqn:E.
    - apply nmem_in in E. destruct (in_nur d h) eqn:IN.
      + rewrite (proj2 (nmem_in h (r_gone true tx))) by (apply q_gone; now split).
        unfold in_nur in IN. destruct (get h (d_nur d)) as [v|] eqn:EN2; [|discriminate].
        rewrite (DJ h v EN2). destruct (nmem h (r_gone false tx)); reflexivity.
      + rewrite (proj2 (nmem_in h (r_gone false tx))) by (apply q_gone; now split).
        unfold in_nur in IN. destruct (get h (d_nur d)); [discriminate|]. destruct (nmem h (r_gone true tx)); reflexivity.
    - apply nmem_false in E. rewrite (proj2 (nmem_false h (r_gone true tx))) by (rewrite q_gone; tauto).
      rewrite (proj2 (nmem_false h (r_gone false tx))) by (rewrite q_gone; tauto). reflexivity.
  Qed.
  Lemma q_desc_stored h : In h (desc tx) -> In h (stored d).
  Proof.
    intros H. apply desc_in in H; [|exact NT]. destruct H as (v & E & _). destruct (EN h v E) as (w & L & _).
    apply in_stored. exists w. exact L.
  Qed.
  Lemma q_nodup : NoDup (stored d2).
  Proof.
    destruct (proj1 (stored_nd d) (g_nk _ _ _ _ G)) as (N1 & N2 & DJ). apply stored_nd. unfold d2. cbn [d_nur d_rows].
    split; [now apply del_all_nodup|]. split; [now apply del_all_nodup|]. intros h v. rewrite !del_all_get.
    destruct (nmem h (r_gone true tx)); [discriminate|]. intros E. rewrite (DJ h v E).
    destruct (nmem h (r_gone false tx)); reflexivity.
  Qed.
  Lemma q_in h : In h (stored d2) <-> In h (stored d) /\ ~ In h (desc tx).
  Proof.
    rewrite !in_stored. setoid_rewrite q_look. destruct (nmem h (desc tx)) eqn:E.
    - apply nmem_in in E. split; [intros (v & Q); discriminate|tauto].
    - apply nmem_false in E. tauto.
  Qed.
  Lemma q_stored : Permutation (stored d) (stored d2 ++ desc tx).
  Proof.
    apply NoDup_Permutation; [exact (g_nk _ _ _ _ G)| |].
    - apply nodup_app. split; [exact q_nodup|]. split; [now apply desc_nodup|]. intros h Hh. apply q_in in Hh. tauto.
    - intros h. rewrite in_app_iff, q_in. pose proof (q_desc_stored h). split; [|tauto].
      intros Hh. destruct (nmem h (desc tx)) eqn:E; [right; now apply nmem_in|left]. apply nmem_false in E. tauto.
  Qed.
  Lemma q_updnd : NoDup (map fst (r_updates tx)).
  Proof.
    unfold r_updates. rewrite map_map. cbn [fst]. apply (map_inj_nodup r_idx tx NT).
    intros h h' v v' E E' Q. destruct (EN h v E) as (w & L & B1 & _). destruct (EN h' v' E') as (w' & L' & B1' & _).
    apply (g_inj _ _ _ _ G h h' w w' L L'). congruence.
  Qed.
  Lemma q_rc_in h v : get h tx = Some v -> d_rc d2 (r_idx v) = r_newrc v.
  Proof.
    intros E. unfold d2. cbn [d_rc]. apply tset_all_in; [exact q_updnd|].
    apply (aget_some_in N.eqb N.eqb_spec) in E.
    exact (in_map (fun e => (r_idx (snd e), r_newrc (snd e))) _ _ E).
  Qed.
  Lemma q_rc_out i : (forall h v, get h tx = Some v -> r_idx v <> i) -> d_rc d2 i = d_rc d i.
  Proof.
    intros H. unfold d2. cbn [d_rc]. apply tset_all_out. unfold r_updates. rewrite map_map. cbn [fst].
    intros Q. apply in_map_iff in Q. destruct Q as ([h a] & Q1 & Q2). cbn [snd] in Q1.
    apply (H h a); [now apply (aget_in N.eqb N.eqb_spec)|exact Q1].
  Qed.
  (* the exact new count, also of the deleted cells *)
  Lemma q_count h w : look d h = Some w ->
    d_rc d2 (fst w) = occ h (R1 ++ R2) + refs_to content h (stored d2) /\
    (In h (desc tx) <-> d_rc d2 (fst w) = 0).
  Proof.
    intros L. destruct (g_rc _ _ _ _ G h w L) as (RC & POS). rewrite (refs_perm content h _ _ q_stored), refs_app in RC.
    rewrite occ_app in RC. cbn [occ] in RC. rewrite occ_app. pose proof (CNT h) as CH. cbn [occ] in CH. unfold trem in CH.
    destruct (get h tx) as [v|] eqn:E.
    - destruct (EN h v E) as (w' & L' & B1 & B2 & B3 & B4 & B5). rewrite L in L'. injection L' as <-.
      rewrite <- B1, (q_rc_in h v E). rewrite <- (q_zero h v E). split; [|reflexivity]. unfold r_newrc. lia.
    - assert (NI : ~ In h (desc tx)).
      { intros Q. apply desc_in in Q; [|exact NT]. destruct Q as (v & Q & _). congruence. }
      rewrite q_rc_out.
      + split; [lia|]. split; [contradiction|lia].
      + intros k v Q QI. destruct (EN k v Q) as (w' & L' & B1 & _). assert (k = h); [|congruence].
        apply (g_inj _ _ _ _ G k h w' w L' L). congruence.
  Qed.
  Lemma q_alive h w : look d h = Some w -> 0 < occ h (R1 ++ R2) + refs_to content h (stored d2) -> In h (stored d2).
  Proof.
    intros L P. apply q_in. split; [apply in_stored; exists w; exact L|]. destruct (q_count h w L) as (C1 & C2).
    rewrite C2, C1. lia.
  Qed.

  Lemma d2_good : GOOD fp content d2 (R1 ++ R2).
  Proof.
    assert (LK : forall h v, look d2 h = Some v -> look d h = Some v /\ ~ In h (desc tx)).
    { intros h v. rewrite q_look. destruct (nmem h (desc tx)) eqn:E; [discriminate|]. apply nmem_false in E. tauto. }
    constructor.
    - exact q_nodup.
    - intros h v E. destruct (LK h v E) as (L & _). exact (g_val _ _ _ _ G h v L).
    - intros h h' v v' E E'. destruct (LK h v E) as (L & _). destruct (LK h' v' E') as (L' & _).
      exact (g_inj _ _ _ _ G h h' v v' L L').
    - intros h v E. destruct (LK h v E) as (L & NI). destruct (q_count h v L) as (C1 & C2). split; [exact C1|].
      destruct (N.eq_dec (d_rc d2 (fst v)) 0) as [Z|]; [|lia]. apply C2 in Z. contradiction.
    - intros i H. destruct (existsb (fun e => r_idx (snd e) =? i) tx) eqn:EX.
      + apply existsb_exists in EX. destruct EX as ([h v] & H1 & H2). cbn [snd] in H2. apply N.eqb_eq in H2.
        apply (aget_in N.eqb N.eqb_spec) in H1; [|exact NT]. destruct (EN h v H1) as (w & L & B1 & _).
        destruct (q_count h w L) as (C1 & C2). rewrite <- H2, B1. apply C2.
        destruct (nmem h (desc tx)) eqn:M; [now apply nmem_in|exfalso]. apply (H h w); [now rewrite q_look, M|congruence].
      + assert (NO : forall h v, get h tx = Some v -> r_idx v <> i).
        { intros h v E Q. apply (aget_some_in N.eqb N.eqb_spec) in E.
          assert (T : existsb (fun e => r_idx (snd e) =? i) tx = true); [|congruence].
          apply existsb_exists. exists (h, v). split; [exact E|]. cbn [snd]. now apply N.eqb_eq. }
        rewrite q_rc_out by exact NO. apply (g_free _ _ _ _ G i). intros h w L Q.
        destruct (nmem h (desc tx)) eqn:M.
        * apply nmem_in in M. apply desc_in in M; [|exact NT]. destruct M as (v & E & _).
          destruct (EN h v E) as (w' & L' & B1 & _). rewrite L in L'. injection L' as <-. apply (NO h v E). congruence.
        * apply (H h w); [now rewrite q_look, M|exact Q].
    - intros h k Hh Hk. pose proof (proj1 (q_in h) Hh) as (Hs & _).
      pose proof (g_closed _ _ _ _ G h k Hs Hk) as Ks. apply in_stored in Ks. destruct Ks as (w & L).
      apply (q_alive k w L). assert (P : 0 < refs_to content k (stored d2)) by (apply refs_pos; exists h; now split). lia.
    - intros h Hh. assert (Hs : In h (stored d)).
      { apply (g_roots _ _ _ _ G). rewrite in_app_iff in *. cbn [In]. tauto. }
      apply in_stored in Hs. destruct Hs as (w & L). apply (q_alive h w L).
      assert (P : 0 < occ h (R1 ++ R2)) by (now apply occ_in). lia.
    - destruct (proj1 (stored_nd d) (g_nk _ _ _ _ G)) as (N1 & N2 & DJ). unfold d2. cbn [d_filt d_rows].
      apply fremove_all_ok; [|exact N2| |exact (g_filt _ _ _ _ G)].
      + unfold r_gone. now apply filter_keys_nodup.
      + intros h Hh. apply q_gone in Hh. destruct Hh as (H1 & H2). apply q_desc_stored in H1. apply in_stored in H1.
        destruct H1 as (w & L). exists w. unfold look, in_nur in *. destruct (get h (d_nur d)); [discriminate|exact L].
    - intros h v. unfold d2. cbn [d_cache d_rows]. rewrite !del_all_get.
      destruct (nmem h (r_gone false tx)); [discriminate|]. exact (CA h v).
  Qed.
End RFin2.

(* the whole removal *)
Lemma rfin_ok fp content d R1 R2 r sp c blk : GOOD fp content d (R1 ++ r :: R2) -> RI content d r c [] ->
  (forall h k, get h (y_del c) = Some k -> sp h = true) -> split_ok content d sp r ->
  exists tx d', rdelayed (y_del c) (y_tx c) = Some tx /\ rfin fp d c blk = Some d' /\
    GOOD fp content d' (R1 ++ R2) /\
    d_states d' = adel N.eqb blk (d_states d) /\ d_next d' = d_next d /\
    d_rc d' = tset_all (d_rc d) (r_updates tx) /\
    NoDup (map fst (r_updates tx)) /\
    (forall h v, get h tx = Some v -> rent_ok content d h v) /\
    (forall h v, look d' h = Some v -> look d h = Some v).
Proof.
  intros G I SP SO. destruct (rf_tx fp content d R1 R2 r sp c G I SP SO) as (tx & E1 & NT & EN & CNT & _).
  exists tx. unfold rfin. rewrite E1. eexists. split; [reflexivity|]. split; [reflexivity|].
  pose proof (d2_good fp content d R1 R2 r (y_cache c) (adel N.eqb blk (d_states d)) tx G NT EN CNT (ri_cache _ _ _ _ _ I)) as G2.
  split; [exact G2|]. split; [reflexivity|]. split; [reflexivity|]. split; [reflexivity|].
  split; [exact (q_updnd fp content d R1 R2 r tx G NT EN)|]. split; [exact EN|].
  intros h v L.
  change (look (d2 fp d (y_cache c) (adel N.eqb blk (d_states d)) tx) h = Some v) in L.
  rewrite (q_look fp content d R1 R2 r _ _ tx G NT EN CNT (ri_cache _ _ _ _ _ I)) in L. destruct (nmem h (desc tx)); [discriminate|exact L].
Qed.
