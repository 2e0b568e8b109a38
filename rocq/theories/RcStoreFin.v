(* The end of a store: the transaction becomes counters and nursery cells. *)
From Coq Require Import NArith ZArith List Bool Lia Permutation.
From Coq Require Import ZifyN ZifyNat ZifyBool.
From Verif Require Import AMap CntModel CntSpec RcModel RcSpec RcBasics RcStore.
Import ListNotations.
Open Scope N_scope.

Lemma add_n_0 a : add_n 0 a = a.
Proof. destruct a as [i o x n]. unfold add_n. cbn. now rewrite N.add_0_r. Qed.

Lemma aset_keys {V} k (v w : V) m : get k m = Some w -> akeys (aset N.eqb k v m) = akeys m.
Proof.
  unfold akeys. induction m as [|[x y] m IH]; cbn [aget aset map fst]; [discriminate|].
  destruct (N.eqb_spec k x) as [->|]; cbn [map fst]; [reflexivity|]. intros H. now rewrite IH.
Qed.

Lemma sdelayed_ok l : forall tx, NoDup (akeys l) -> NoDup (akeys tx) ->
  (forall h n, get h l = Some n -> exists a, get h tx = Some a) ->
  exists tx', sdelayed l tx = Some tx' /\ akeys tx' = akeys tx /\ newkeys tx' = newkeys tx /\
    forall h, get h tx' = option_map (add_n (tdel l h)) (get h tx).
Proof.
  induction l as [|[x n] l IH]; intros tx ND NT H.
  - exists tx. split; [reflexivity|]. split; [reflexivity|]. split; [reflexivity|]. intros h. unfold tdel. cbn [aget].
    destruct (get h tx) as [a|]; [|reflexivity]. cbn [option_map]. now rewrite add_n_0.
  - cbn [akeys map fst] in ND. inversion ND as [|? ? NI ND']; subst.
    assert (LX : get x l = None) by (now apply nget_none).
    assert (H' : forall h m, get h l = Some m -> exists a, get h tx = Some a).
    { intros h m E. apply (H h m). cbn [aget]. destruct (N.eqb_spec h x) as [->|]; [congruence|exact E]. }
    destruct (H x n) as (a & EA). { cbn [aget]. now rewrite N.eqb_refl. }
    cbn [sdelayed]. destruct (N.eqb_spec n 0) as [->|NZ].
    + destruct (IH tx ND' NT H') as (tx' & E1 & E2 & E3 & E4). exists tx'. split; [exact E1|]. split; [exact E2|].
      split; [exact E3|]. intros h. rewrite E4. unfold tdel. cbn [aget].
      destruct (N.eqb_spec h x) as [->|]; [now rewrite LX|reflexivity].
    + rewrite EA. set (tx2 := aset N.eqb x (add_n n a) tx).
      destruct (IH tx2) as (tx' & E1 & E2 & E3 & E4).
      * exact ND'.
      * now apply (aset_nodup N.eqb N.eqb_spec).
      * intros h m E. destruct (H' h m E) as (b & EB). unfold tx2. rewrite nget_aset.
        destruct (h =? x); [eexists; reflexivity|exists b; exact EB].
      * exists tx'. split; [exact E1|]. split; [rewrite E2; now apply (aset_keys x (add_n n a) a)|].
        split; [rewrite E3; now apply newkeys_bump|]. intros h. rewrite E4. unfold tx2. rewrite nget_aset.
        unfold tdel. cbn [aget]. destruct (N.eqb_spec h x) as [->|]; [|reflexivity].
        rewrite LX, EA. cbn [option_map]. now rewrite add_n_0.
Qed.

Lemma s_inserts_keys tx : map fst (s_inserts tx) = newkeys tx.
Proof.
  unfold newkeys. induction tx as [|[h a] tx IH]; cbn [s_inserts filter]; [reflexivity|].
  unfold is_new at 1. cbn [snd]. destruct (a_new a); cbn [map fst]; now rewrite IH.
Qed.
Lemma s_inserts_get tx h : NoDup (akeys tx) -> get h (s_inserts tx) =
  match get h tx with Some a => option_map (fun c => (a_idx a, c)) (a_new a) | None => None end.
Proof.
  induction tx as [|[x a] tx IH]; cbn [s_inserts aget akeys map fst]; intros ND; [reflexivity|].
  inversion ND as [|? ? NI ND']; subst. specialize (IH ND'). destruct (N.eqb_spec h x) as [->|E].
  - destruct (a_new a) as [c|]; cbn [aget option_map]; [now rewrite N.eqb_refl|].
    rewrite IH. assert (Q : get x tx = None) by (now apply nget_none). now rewrite Q.
  - destruct (a_new a) as [c|]; [|exact IH]. cbn [aget]. destruct (N.eqb_spec h x); [contradiction|exact IH].
Qed.

Lemma nur_insert_ok l : NoDup (map fst l) -> forall m, (forall h, In h (map fst l) -> get h m = None) ->
  nur_insert l m = Some (put_all l m).
Proof.
  induction l as [|[x v] l IH]; intros ND m H; cbn [nur_insert put_all]; [reflexivity|].
  cbn [map fst] in ND. inversion ND as [|? ? NI ND']; subst.
  rewrite (H x) by (now left). apply IH; [exact ND'|]. intros h Hh. rewrite nget_aset.
  destruct (N.eqb_spec h x) as [->|]; [contradiction|]. apply H. now right.
Qed.

Lemma tset_all_out l : forall m i, ~ In i (map fst l) -> tset_all m l i = m i.
Proof.
  induction l as [|[x v] l IH]; intros m i H; cbn [tset_all]; [reflexivity|]. cbn [map fst In] in H.
  rewrite IH by tauto. unfold tset. destruct (N.eqb_spec i x) as [->|]; [tauto|reflexivity].
Qed.
Lemma tset_all_in l : NoDup (map fst l) -> forall m i v, In (i, v) l -> tset_all m l i = v.
Proof.
  induction l as [|[x w] l IH]; intros ND m i v H; [destruct H|]. cbn [tset_all map fst] in *.
  inversion ND as [|? ? NI ND']; subst. destruct H as [[= -> ->]|H]; [|now apply IH].
  rewrite tset_all_out by exact NI. unfold tset. now rewrite N.eqb_refl.
Qed.

Lemma map_inj_nodup {V} (f : V -> N) (l : list (N * V)) : NoDup (akeys l) ->
  (forall h h' v v', get h l = Some v -> get h' l = Some v' -> f v = f v' -> h = h') ->
  NoDup (map (fun e => f (snd e)) l).
Proof.
  intros ND INJ. assert (P : forall e, In e l -> get (fst e) l = Some (snd e)).
  { intros [h v] He. now apply (aget_in N.eqb N.eqb_spec). }
  assert (P2 : forall s, (exists p, l = p ++ s) -> NoDup (map (fun e => f (snd e)) s)); [|apply P2; exists []; reflexivity].
  intros s. induction s as [|[h v] s IH]; intros (p & E); [constructor|]. cbn [map snd]. constructor.
  - intros Q. apply in_map_iff in Q. destruct Q as ([h' v'] & Q1 & Q2). cbn [snd] in Q1.
    assert (h = h').
    { apply (INJ h h' v v'); [| |now symmetry].
      - apply (P (h, v)). rewrite E. apply in_app_iff. right. now left.
      - apply (P (h', v')). rewrite E. apply in_app_iff. right. now right. }
    subst h'. unfold akeys in ND. rewrite E, map_app in ND. cbn [map fst] in ND.
    apply NoDup_remove in ND. destruct ND as [_ ND]. apply ND. apply in_app_iff. right.
    exact (in_map fst _ _ Q2).
  - apply IH. exists (p ++ [(h, v)]). rewrite <- app_assoc. exact E.
Qed.

Section Fin.
  Variables (fp : N -> N) (content : N -> cellc) (d : cdb) (R : list N) (r : N) (c : sctx).
  Hypothesis G : GOOD fp content d R.
  Hypothesis I : SI content d r c [].

  Lemma fin_tx : exists tx, sdelayed (x_del c) (x_tx c) = Some tx /\ NoDup (akeys tx) /\
    (forall h a, get h tx = Some a -> ent_ok content d (x_next c) h a) /\
    (forall h h' a a', get h tx = Some a -> get h' tx = Some a' -> a_idx a = a_idx a' -> h = h') /\
    (forall h, tadd tx h = occ h [r] + refs_to content h (newkeys tx)).
  Proof.
    assert (DP : forall h n, get h (x_del c) = Some n -> exists a, get h (x_tx c) = Some a).
    { intros h n E. destruct (si_delp _ _ _ _ _ I h n E) as [Q|(t & [] & _)]. exact Q. }
    destruct (sdelayed_ok (x_del c) (x_tx c) (si_del _ _ _ _ _ I) (si_tx _ _ _ _ _ I) DP) as (tx & E1 & E2 & E3 & E4).
    assert (NT : NoDup (akeys tx)) by (rewrite E2; exact (si_tx _ _ _ _ _ I)).
    assert (EN : forall h a, get h tx = Some a -> ent_ok content d (x_next c) h a).
    { intros h a E. rewrite E4 in E. destruct (get h (x_tx c)) as [b|] eqn:EB; [|discriminate]. injection E as <-.
      apply ent_ok_add. exact (si_ent _ _ _ _ _ I h b EB). }
    exists tx. split; [exact E1|]. split; [exact NT|]. split; [exact EN|]. split.
    - intros h h' a a' EA EA' EI.
      pose proof (EN h a EA) as (_ & B). pose proof (EN h' a' EA') as (_ & B').
      destruct (a_new a) as [cc|] eqn:N1, (a_new a') as [cc'|] eqn:N2.
      + rewrite E4 in EA, EA'. destruct (get h (x_tx c)) as [b|] eqn:EB; [|discriminate].
        destruct (get h' (x_tx c)) as [b'|] eqn:EB'; [|discriminate]. injection EA as <-. injection EA' as <-.
        cbn [add_n a_new a_idx] in *. apply (si_inj _ _ _ _ _ I h h' b b' EB EB'); [congruence|congruence|exact EI].
      + destruct B as (_ & _ & _ & B). destruct B' as (v & L & Q & _). pose proof (proj2 (g_val _ _ _ _ G h' v L)). lia.
      + destruct B' as (_ & _ & _ & B'). destruct B as (v & L & Q & _). pose proof (proj2 (g_val _ _ _ _ G h v L)). lia.
      + destruct B as (v & L & Q & _). destruct B' as (v' & L' & Q' & _).
        apply (g_inj _ _ _ _ G h h' v v' L L'). congruence.
    - intros h. rewrite E3. rewrite <- (si_cnt _ _ _ _ _ I h). cbn [bag flat_map occ]. rewrite N.add_0_r.
      unfold tadd. rewrite E4. destruct (get h (x_tx c)) as [a|] eqn:EA; cbn [option_map add_n a_add]; [lia|].
      unfold tdel. destruct (get h (x_del c)) as [n|] eqn:ED; [|reflexivity].
      destruct (DP h n ED) as (a & Q). congruence.
  Qed.
End Fin.

Section Fin2.
  Variables (fp : N -> N) (content : N -> cellc) (d : cdb) (R : list N) (r : N) (next : N)
            (cache : list (N * rowv)) (st : list (N * N)) (tx : list (N * added)).
  Hypothesis G : GOOD fp content d R.
  Hypothesis NT : NoDup (akeys tx).
  Hypothesis EN : forall h a, get h tx = Some a -> ent_ok content d next h a.
  Hypothesis INJ : forall h h' a a', get h tx = Some a -> get h' tx = Some a' -> a_idx a = a_idx a' -> h = h'.
  Hypothesis CNT : forall h, tadd tx h = occ h [r] + refs_to content h (newkeys tx).
  Hypothesis CA : forall h v, get h cache = Some v -> get h (d_rows d) = Some v.
  Hypothesis NX : d_next d <= next.

  Definition d1 : cdb := mkDb (put_all (s_inserts tx) (d_nur d)) (d_rows d) cache (d_filt d) next
    (tset_all (d_rc d) (s_updates tx)) st.

  Lemma f_new h a cc : get h tx = Some a -> a_new a = Some cc -> look d h = None.
  Proof. intros E E2. destruct (EN h a E) as (_ & B). rewrite E2 in B. tauto. Qed.
  Lemma f_fresh h : In h (map fst (s_inserts tx)) -> look d h = None.
  Proof.
    rewrite s_inserts_keys, newkeys_in by exact NT. intros (a & cc & E & E2). exact (f_new h a cc E E2).
  Qed.
  Lemma look_none h : look d h = None -> get h (d_nur d) = None /\ get h (d_rows d) = None.
  Proof. unfold look. destruct (get h (d_nur d)); [discriminate|auto]. Qed.
  Lemma f_insnd : NoDup (map fst (s_inserts tx)).
  Proof. rewrite s_inserts_keys. now apply newkeys_nodup. Qed.
  Lemma f_nur : put_all (s_inserts tx) (d_nur d) = d_nur d ++ s_inserts tx.
  Proof. apply put_all_new; [exact f_insnd|]. intros h Hh. exact (proj1 (look_none h (f_fresh h Hh))). Qed.
  Lemma f_look h : look d1 h =
    match get h tx with
    | Some a => match a_new a with Some cc => Some (a_idx a, cc) | None => look d h end
    | None => look d h
    end.
  Proof.
    unfold look at 1, d1. cbn [d_nur d_rows]. rewrite put_all_get by exact f_insnd. rewrite s_inserts_get by exact NT.
    destruct (get h tx) as [a|] eqn:E; [|reflexivity].
    destruct (a_new a) as [cc|]; reflexivity.
  Qed.
  Lemma f_stored : Permutation (stored d1) (stored d ++ newkeys tx).
  Proof.
    unfold stored, d1. cbn [d_nur d_rows]. rewrite f_nur. unfold akeys at 1. rewrite map_app, s_inserts_keys.
    rewrite <- !app_assoc. apply Permutation_app_head. apply Permutation_app_comm.
  Qed.
  Lemma f_nodup : NoDup (stored d1).
  Proof.
    eapply Permutation_NoDup; [symmetry; exact f_stored|]. apply nodup_app. split; [exact (g_nk _ _ _ _ G)|].
    split; [now apply newkeys_nodup|]. intros h H1 H2. apply newkeys_in in H2; [|exact NT].
    destruct H2 as (a & cc & E & E2). pose proof (f_new h a cc E E2) as L. apply not_stored in L. contradiction.
  Qed.
  Lemma f_updnd : NoDup (map fst (s_updates tx)).
  Proof.
    unfold s_updates. rewrite map_map. cbn [fst]. exact (map_inj_nodup a_idx tx NT INJ).
  Qed.
  Lemma f_rc_in h a : get h tx = Some a -> d_rc d1 (a_idx a) = s_newrc a.
  Proof.
    intros E. unfold d1. cbn [d_rc]. apply tset_all_in; [exact f_updnd|].
    apply (aget_some_in N.eqb N.eqb_spec) in E.
    exact (in_map (fun e => (a_idx (snd e), s_newrc (snd e))) _ _ E).
  Qed.
  Lemma f_look_idx h a : get h tx = Some a -> exists v, look d1 h = Some v /\ fst v = a_idx a.
  Proof.
    intros E. rewrite f_look, E. destruct (EN h a E) as (_ & B). destruct (a_new a) as [cc|].
    - exists (a_idx a, cc). split; reflexivity.
    - destruct B as (v & L & Q & _). exists v. split; [exact L|now symmetry].
  Qed.
  Lemma f_rc_out i : (forall h a, get h tx = Some a -> a_idx a <> i) -> d_rc d1 i = d_rc d i.
  Proof.
    intros H. unfold d1. cbn [d_rc]. apply tset_all_out. unfold s_updates. rewrite map_map. cbn [fst].
    intros Q. apply in_map_iff in Q. destruct Q as ([h a] & Q1 & Q2). cbn [snd] in Q1.
    apply (H h a); [now apply (aget_in N.eqb N.eqb_spec)|exact Q1].
  Qed.
  Lemma f_tx_of h : 0 < occ h [r] + refs_to content h (newkeys tx) -> exists a, get h tx = Some a.
  Proof.
    rewrite <- CNT. unfold tadd. destruct (get h tx) as [a|]; [intros _; exists a; reflexivity|lia].
  Qed.
  Lemma f_in h a : get h tx = Some a -> In h (stored d1).
  Proof. intros E. apply in_stored. destruct (f_look_idx h a E) as (v & L & _). exists v. exact L. Qed.
  Lemma f_old h : In h (stored d) -> In h (stored d1).
  Proof. intros H. apply (Permutation_in _ (Permutation_sym f_stored)). apply in_app_iff. now left. Qed.
  Lemma f_zero h : look d h = None -> occ h R = 0 /\ refs_to content h (stored d) = 0.
  Proof.
    intros L. apply not_stored in L. split.
    - apply occ_zero. intros Q. apply L. exact (g_roots _ _ _ _ G h Q).
    - destruct (N.eq_dec (refs_to content h (stored d)) 0) as [Z|NZ]; [exact Z|exfalso].
      assert (P : 0 < refs_to content h (stored d)) by lia. apply refs_pos in P. destruct P as (p & P1 & P2).
      apply L. exact (g_closed _ _ _ _ G p h P1 P2).
  Qed.

  Lemma d1_good : GOOD fp content d1 (r :: R).
  Proof.
    constructor.
    - exact f_nodup.
    - intros h v E. rewrite f_look in E. cbn [d1 d_next].
      assert (OLD : look d h = Some v -> snd v = content h /\ fst v < next).
      { intros Q. destruct (g_val _ _ _ _ G h v Q). split; [assumption|lia]. }
      destruct (get h tx) as [a|] eqn:EA; [|exact (OLD E)]. destruct (EN h a EA) as (_ & B).
      destruct (a_new a) as [cc|]; [|exact (OLD E)]. injection E as <-. cbn [fst snd].
      destruct B as (B1 & _ & _ & B4). split; [exact B1|lia].
    - intros h h' v v' E E' EI. rewrite f_look in E, E'.
      assert (C1 : (look d h = Some v /\ forall a, get h tx = Some a -> a_idx a = fst v) \/ (exists a, get h tx = Some a /\ a_idx a = fst v /\ d_next d <= fst v)).
      { destruct (get h tx) as [a|] eqn:EA; [|left; split; [exact E|intros a Q; discriminate]].
        destruct (EN h a EA) as (_ & B). destruct (a_new a) as [cc|].
        - right. exists a. injection E as <-. cbn [fst]. split; [reflexivity|]. split; [reflexivity|lia].
        - left. split; [exact E|]. intros b Q. injection Q as <-. destruct B as (w & L & Q & _). congruence. }
      assert (C2 : (look d h' = Some v' /\ forall a, get h' tx = Some a -> a_idx a = fst v') \/ (exists a, get h' tx = Some a /\ a_idx a = fst v' /\ d_next d <= fst v')).
      { destruct (get h' tx) as [a|] eqn:EA; [|left; split; [exact E'|intros a Q; discriminate]].
        destruct (EN h' a EA) as (_ & B). destruct (a_new a) as [cc|].
        - right. exists a. injection E' as <-. cbn [fst]. split; [reflexivity|]. split; [reflexivity|lia].
        - left. split; [exact E'|]. intros b Q. injection Q as <-. destruct B as (w & L & Q & _). congruence. }
      destruct C1 as [(L & _)|(a & A1 & A2 & A3)], C2 as [(L' & _)|(a' & A1' & A2' & A3')].
      + exact (g_inj _ _ _ _ G h h' v v' L L' EI).
      + pose proof (proj2 (g_val _ _ _ _ G h v L)). lia.
      + pose proof (proj2 (g_val _ _ _ _ G h' v' L')). lia.
      + apply (INJ h h' a a' A1 A1'). congruence.
    - intros h v E. rewrite (refs_perm content h _ _ f_stored), refs_app.
      change (occ h (r :: R)) with ((if h =? r then 1 else 0) + occ h R).
      pose proof (CNT h) as CH. cbn [occ] in CH. rewrite N.add_0_r in CH.
      rewrite f_look in E. destruct (get h tx) as [a|] eqn:EA.
      + unfold tadd in CH. rewrite EA in CH. pose proof (EN h a EA) as (A1 & B). destruct (a_new a) as [cc|] eqn:EW.
        * injection E as <-. cbn [fst]. rewrite (f_rc_in h a EA). unfold s_newrc.
          destruct B as (_ & L & B3 & _). destruct (f_zero h L) as (Z1 & Z2). lia.
        * destruct B as (w & L & Q & O). rewrite E in L. injection L as <-. rewrite <- Q.
          rewrite (f_rc_in h a EA). unfold s_newrc. rewrite O. destruct (g_rc _ _ _ _ G h v E) as (Q1 & Q2). lia.
      + unfold tadd in CH. rewrite EA in CH. rewrite f_rc_out; [destruct (g_rc _ _ _ _ G h v E); lia|].
        intros k a Q QI. destruct (EN k a Q) as (_ & B). destruct (a_new a) as [cc|].
        * destruct B as (_ & _ & _ & B). pose proof (proj2 (g_val _ _ _ _ G h v E)). lia.
        * destruct B as (w & L & W & _). assert (k = h); [|congruence].
          apply (g_inj _ _ _ _ G k h w v L E). congruence.
    - intros i H. rewrite f_rc_out.
      + apply (g_free _ _ _ _ G i). intros h v L. destruct (get h tx) as [a|] eqn:EA.
        * destruct (EN h a EA) as (_ & B). destruct (a_new a) as [cc|] eqn:EW.
          -- destruct B as (_ & L2 & _). congruence.
          -- apply (H h v). rewrite f_look, EA, EW. exact L.
        * apply (H h v). rewrite f_look, EA. exact L.
      + intros h a EA. destruct (f_look_idx h a EA) as (v & L & Q). rewrite <- Q. exact (H h v L).
    - intros h k Hh Hk. apply (Permutation_in _ f_stored) in Hh. apply in_app_iff in Hh. destruct Hh as [Hh|Hh].
      + apply f_old. exact (g_closed _ _ _ _ G h k Hh Hk).
      + destruct (f_tx_of k) as (a & E).
        { assert (P : 0 < refs_to content k (newkeys tx)) by (apply refs_pos; exists h; now split). lia. }
        exact (f_in k a E).
    - intros h [<-|Hh].
      + destruct (f_tx_of r) as (a & E); [cbn [occ]; rewrite N.eqb_refl; lia|]. exact (f_in r a E).
      + apply f_old. exact (g_roots _ _ _ _ G h Hh).
    - exact (g_filt _ _ _ _ G).
    - exact CA.
  Qed.
End Fin2.

Lemma filter_keys_nodup {V} (p : N * V -> bool) (m : list (N * V)) : NoDup (map fst m) -> NoDup (map fst (filter p m)).
Proof.
  induction m as [|e m IH]; cbn [filter map]; intros ND; [constructor|]. inversion ND as [|? ? NI ND']; subst.
  destruct (p e); [|now apply IH]. cbn [map]. constructor; [|now apply IH].
  intros Q. apply NI. apply in_map_iff in Q. destruct Q as (x & Q1 & Q2). apply filter_In in Q2.
  rewrite <- Q1. exact (in_map fst _ _ (proj1 Q2)).
Qed.

(* the whole store *)
Lemma sfin_ok fp content d R r c pr blk : GOOD fp content d R -> SI content d r c [] ->
  exists tx d', sdelayed (x_del c) (x_tx c) = Some tx /\ sfin fp d c pr blk r = Some d' /\
    GOOD fp content d' (r :: R) /\
    d_states d' = aset N.eqb blk r (d_states d) /\ d_next d' = x_next c /\
    d_rc d' = tset_all (d_rc d) (s_updates tx) /\
    NoDup (map fst (s_updates tx)) /\
    (forall h a, get h tx = Some a -> ent_ok content d (x_next c) h a) /\
    (forall h v, look d h = Some v -> look d' h = Some v).
Proof.
  intros G I. destruct (fin_tx fp content d R r c G I) as (tx & E1 & NT & EN & INJ & CNT).
  exists tx. unfold sfin. rewrite E1.
  assert (FI : forall h, In h (map fst (s_inserts tx)) -> get h (d_nur d) = None).
  { intros h Hh. exact (proj1 (look_none d h (f_fresh content d (x_next c) tx NT EN h Hh))). }
  rewrite nur_insert_ok; [|now apply f_insnd|exact FI].
  set (d2 := d1 d (x_next c) (x_cache c) (aset N.eqb blk r (d_states d)) tx).
  assert (G2 : GOOD fp content d2 (r :: R)).
  { apply d1_good; try assumption. - exact (si_cache _ _ _ _ _ I). - exact (si_next _ _ _ _ _ I). }
  assert (ND : NoDup (map fst (proms d pr))).
  { unfold proms. apply filter_keys_nodup. exact (proj1 (proj1 (stored_nd d) (g_nk _ _ _ _ G))). }
  assert (SUB : forall e, In e (proms d pr) -> get (fst e) (d_nur d2) = Some (snd e)).
  { intros [h v] He. unfold proms in He. apply filter_In in He. destruct He as [He _]. cbn [fst snd].
    apply (aget_in N.eqb N.eqb_spec) in He; [|exact (proj1 (proj1 (stored_nd d) (g_nk _ _ _ _ G)))].
    unfold d2, d1. cbn [d_nur]. rewrite put_all_get by (now apply f_insnd).
    destruct (get h (s_inserts tx)) as [w|] eqn:EW; [|exact He].
    assert (Q : get h (d_nur d) = None). { apply FI. apply nget_key. exists w. exact EW. } congruence. }
  eexists. split; [reflexivity|]. split; [reflexivity|].
  split; [exact (promote_good fp content d2 (r :: R) (proms d pr) G2 ND SUB)|].
  split; [reflexivity|]. split; [reflexivity|]. split; [reflexivity|]. split; [now apply f_updnd|]. split; [exact EN|].
  intros h v L. change (look (promote fp d2 (proms d pr)) h = Some v).
  rewrite (promote_look fp d2 (proms d pr) ND SUB). unfold d2. rewrite f_look by assumption.
  destruct (get h tx) as [a|] eqn:EA; [|exact L]. destruct (EN h a EA) as (_ & B).
  destruct (a_new a); [|exact L]. destruct B as (_ & Q & _). congruence.
Qed.
