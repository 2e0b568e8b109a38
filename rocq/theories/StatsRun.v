(** Every operation of CumulativeStatistics keeps the invariant. *)
From Verif Require Import StatsSpec StatsProofs StatsCum StatsInv RouterProofs QueueKeysProofs QueueStoreProofs ProcProofs.
From Coq Require Import ZArith ZifyN ZifyBool Lia.
Local Open Scope N_scope.

(** ** Transactions of the result table *)
Definition notx (res : amap N pstats) : Prop := forall p s, In (p, s) res -> qs_in_tx (fst s) = false /\ qs_in_tx (tr_stats (snd s)) = false.
Definition alltx (newp : list N) (res : amap N pstats) : Prop :=
  forall p s, In (p, s) res -> existsb (fun q => N.eqb q p) newp = false -> qs_in_tx (fst s) = true /\ qs_in_tx (tr_stats (snd s)) = true.
Definition rbp (s : pstats) : pstats :=
  (if qs_in_tx (fst s) then qs_rb (fst s) else fst s, if qs_in_tx (tr_stats (snd s)) then tr_rb (snd s) else snd s).
Definition rbres (newp : list N) (res : amap N pstats) : amap N pstats :=
  filter (fun e => negb (existsb (fun q => N.eqb q (fst e)) newp)) (map (fun e => (fst e, rbp (snd e))) res).

Lemma end_res_rb m : end_res qs_rollback tr_rollback m = Some (map (fun e => (fst e, rbp (snd e))) m).
Proof.
  unfold end_res. induction m as [|[p [q t]] m IH]; cbn [map_res map fst snd]; auto. rewrite IH.
  unfold rbp, if_tx, qs_in_tx, qs_rollback, tr_rollback, qs_rb, tr_rb. cbn [fst snd]. destruct (qs_tx q) eqn:Eq; unfold qs_rollback; destruct (qs_tx (tr_stats t)) eqn:Et; auto.
Qed.
Lemma rb_same newp r r' : rsame r r' -> alltx newp r -> rbres newp r' = rbres newp r.
Proof.
  intros [_ H] Ha. unfold rbres. induction H as [|[p s] [p' s'] l l' [E1 E2] Hf IH]; auto. cbn [map filter fst snd] in *. subst p'.
  rewrite IH; [|intros q t Hi; apply (Ha q t); right; auto].
  destruct (existsb _ newp) eqn:En; cbn [negb]; auto. f_equal. f_equal.
  destruct (Ha p s (or_introl eq_refl) En) as [T1 T2]. destruct E2 as [[Q1 Q2] [[R1 R2] R3]].
  unfold rbp. rewrite Q1, R1, T1, T2. unfold qs_rb, tr_rb, qs_rb. now rewrite Q2, R2, R3.
Qed.
Lemma alltx_same newp r r' : rsame r r' -> alltx newp r -> alltx newp r'.
Proof.
  intros [_ H] Ha. induction H as [|[p s] [p' s'] l l' [E1 E2] Hf IH]; auto. cbn [fst snd] in *. subst p'.
  assert (Hl : alltx newp l') by (apply IH; intros q t Hi; apply (Ha q t); right; auto).
  intros q t [Hi|Hi] En; [|eapply Hl; eauto]. injection Hi as <- <-.
  destruct (Ha p s (or_introl eq_refl) En) as [T1 T2]. destruct E2 as [[Q1 _] [[R1 _] _]]. now rewrite Q1, R1.
Qed.
Lemma notx_same r r' : rsame r r' -> notx r -> notx r'.
Proof.
  intros [_ H] Ha. induction H as [|[p s] [p' s'] l l' [E1 E2] Hf IH]; auto. cbn [fst snd] in *. subst p'.
  assert (Hl : notx l') by (apply IH; intros q t Hi; apply (Ha q t); right; auto).
  intros q t [Hi|Hi]; [|eapply Hl; eauto]. injection Hi as <- <-.
  destruct (Ha p s (or_introl eq_refl)) as [T1 T2]. destruct E2 as [[Q1 _] [[R1 _] _]]. now rewrite Q1, R1.
Qed.

Lemma aget_nodup_in {V} (r : amap N V) p s : NoDup (akeys r) -> In (p, s) r -> aget N.eqb p r = Some s.
Proof. intros H Hi. now apply (aget_in N.eqb N.eqb_spec). Qed.

Section Run.
  Variable contains : shard -> raddr -> bool.
  Variable D : list shard.
  Variable for_ : shard.
  Hypothesis Hdisj : disjoint_shards contains D.
  Hypothesis Hfor : In for_ D.
  Local Notation done := (done contains).
  Local Notation live := (live contains).
  Local Notation core := (core contains D for_).

  (** tables with the same values *)
  Definition rvals (r r' : amap N pstats) : Prop :=
    Forall2 (fun e e' : N * pstats => fst e' = fst e /\ (pwf contains for_ (snd e) -> pwf contains for_ (snd e')) /\
       forall a, qv (fst (snd e')) a = qv (fst (snd e)) a /\ qv (tr_stats (snd (snd e'))) a = qv (tr_stats (snd (snd e))) a) r r'.
  Lemma rvals_get r r' p : rvals r r' ->
    match aget N.eqb p r, aget N.eqb p r' with
    | Some s, Some s' => (pwf contains for_ s -> pwf contains for_ s') /\ forall a, qv (fst s') a = qv (fst s) a /\ qv (tr_stats (snd s')) a = qv (tr_stats (snd s)) a
    | None, None => True
    | _, _ => False
    end.
  Proof.
    induction 1 as [|[q s] [q' s'] l l' (E1 & E2 & E3) Hf IH]; cbn [aget]; auto. cbn [fst snd] in *. subst q'. destruct (p =? q); auto.
  Qed.
  Lemma rvals_keys r r' : rvals r r' -> akeys r' = akeys r.
  Proof. unfold akeys. induction 1 as [|? ? ? ? (E1 & _) ? IH]; cbn [map]; auto. now rewrite IH, E1. Qed.
  Lemma core_res staged for' all stats res tx res' tx' b :
    rvals res res' -> core staged (CU for' all stats res tx) b -> core staged (CU for' all stats res' tx') b.
  Proof.
    intros Hr [K1 K2 K3 K4 K5 K6 K7 K8 K9 K10 K11 K12]. cbn [cu_for cu_all cu_stats cu_res] in *. constructor; cbn [cu_for cu_all cu_stats cu_res]; auto.
    - intros p. rewrite <- K7. unfold amem. pose proof (rvals_get _ _ p Hr) as G. destruct (aget N.eqb p res), (aget N.eqb p res'); tauto.
    - destruct K9 as [W1 W2]. split; [now rewrite (rvals_keys _ _ Hr)|]. intros p s Es. pose proof (rvals_get _ _ p Hr) as G. rewrite Es in G.
      destruct (aget N.eqb p res) as [s0|] eqn:E0; [|tauto]. apply G. eauto.
    - intros p a Ha. specialize (K10 p a Ha). unfold rv, iv in *. pose proof (rvals_get _ _ p Hr) as G.
      destruct (aget N.eqb p res), (aget N.eqb p res'); try tauto. destruct G as [_ G]. destruct (G a) as [-> ->]. auto.
    - intros p a. rewrite <- K11. unfold iv. pose proof (rvals_get _ _ p Hr) as G.
      destruct (aget N.eqb p res), (aget N.eqb p res'); try tauto. destruct G as [_ G]. now destruct (G a) as [-> _].
    - intros p a Ha. destruct (K12 p a Ha) as [A B]. split; auto. rewrite <- B. unfold rv. pose proof (rvals_get _ _ p Hr) as G.
      destruct (aget N.eqb p res), (aget N.eqb p res'); try tauto. destruct G as [_ G]. now destruct (G a) as [_ ->].
  Qed.
  Lemma core_force staged for' all stats res tx all' tx' b f' :
    force_ok D all' -> force_ok D f' -> (forall d k, fcov all d k = fcov all' d k) -> (forall d k, fcov (sb_force b) d k = fcov f' d k) ->
    core staged (CU for' all stats res tx) b -> core staged (CU for' all' stats res tx') (with_force b f').
  Proof.
    intros Ha Hf E1 E2 [K1 K2 K3 K4 K5 K6 K7 K8 K9 K10 K11 K12]. cbn [cu_for cu_all cu_stats cu_res] in *.
    assert (Hd : forall k a, done f' k a = done (sb_force b) k a).
    { intros k a. apply done_ext; [apply Hf|apply K3|]. intros; symmetry; auto. }
    constructor; cbn [cu_for cu_all cu_stats cu_res with_force sb_log sb_force sb_reads]; auto.
    - intros d k. now rewrite <- E1, K4, E2.
    - apply log_ok_force; auto. intros d k Hc. now rewrite <- E2.
    - destruct K8 as [A B]. split; auto. cbn [with_force sb_log sb_force]. intros e Hi a. rewrite (B e Hi a). now rewrite Hd.
    - intros p a. rewrite K11. unfold unprocessed. cbn [with_force sb_log sb_force]. apply lsum_ext. intros e _. now rewrite Hd.
  Qed.

  (** ** The relation between the code and the specification *)
  Definition rel (c : cum) (s : sspec) : Prop :=
    core (tx_staged c) c (ss_now s) /\
    match cu_tx c, ss_saved s with
    | None, None => notx (cu_res c)
    | Some x, Some b0 =>
        staged_ok D (ss_now s) (x_upd x) (x_staged x) /\ alltx (x_newp x) (cu_res c) /\
        exists c0, cu_rollback c = Some c0 /\ core [] c0 b0 /\ notx (cu_res c0) /\ cu_tx c0 = None
    | _, _ => False
    end.

  Lemma rollback_eq c x : cu_tx c = Some x ->
    cu_rollback c = Some (CU (cu_for c) (x_all x) (filter (fun e => negb (existsb (fun k => ek_eqb k (fst e)) (x_added x))) (cu_stats c)) (rbres (x_newp x) (cu_res c)) None).
  Proof. intros E. unfold cu_rollback. rewrite E, end_res_rb, !fold_adel. reflexivity. Qed.

  (** ** handle *)
  Lemma rel_handle dst pt c s : In dst D -> pt_ok pt -> forward (sb_force (ss_now s)) (aset sh_eqb dst (true, pt) (sb_force (ss_now s))) -> rel c s ->
    exists c', handle_update contains dst pt c = Some c' /\ cu_all c' = aset sh_eqb dst (true, pt) (cu_all c) /\
      rel c' (on_now s (with_force (ss_now s) (aset sh_eqb dst (true, pt) (sb_force (ss_now s))))).
  Proof.
    intros Hd Hp Hfw [Hc Hx]. unfold rel. 
    destruct (handle_ok contains D for_ Hdisj Hfor dst pt c (ss_now s) Hd Hp Hfw Hc) as (c' & E & H1 & H2 & H3 & H4 & H5).
    { destruct (cu_tx c); auto. destruct (ss_saved s); tauto. }
    exists c'. split; auto. split; auto. cbn [on_now ss_now ss_saved]. split; auto.
    destruct (cu_tx c) as [x|] eqn:Ex, (cu_tx c') as [x'|] eqn:Ex', (ss_saved s) as [b0|]; try tauto.
    - destruct Hx as (X1 & X2 & c0 & X3 & X4). destruct H5 as (Y1 & Y2 & Y3 & Y4 & Y5). split; auto. split.
      + rewrite Y4. eapply alltx_same; eauto.
      + exists c0. split; auto. rewrite <- X3. rewrite (rollback_eq c' x' Ex'), (rollback_eq c x Ex). rewrite H3, Y2, Y3, Y4, Y5, (rb_same _ _ _ H2); auto.
    - eapply notx_same; eauto.
  Qed.

  (** ** update *)
  Lemma rel_update_fold l : forall c s, NoDup (akeys l) -> (forall d v, In (d, v) l -> In d D /\ pt_ok (snd v)) ->
    (forall d v k, In (d, v) l -> fcov (sb_force (ss_now s)) d k = true -> covers (snd v) k = true) -> rel c s ->
    exists c' f', fold_left (update_step contains) l (Some c) = Some c' /\ rel c' (on_now s (with_force (ss_now s) f')) /\
      (forall d k, fcov f' d k = match aget sh_eqb d l with Some v => covers (snd v) k | None => fcov (sb_force (ss_now s)) d k end).
  Proof.
    induction l as [|[d v] l IH]; intros c s Hn Hok Hfw Hr.
    - exists c, (sb_force (ss_now s)). cbn [fold_left aget]. split; auto. split; auto.
      assert (E : on_now s (with_force (ss_now s) (sb_force (ss_now s))) = s) by (destruct s as [[? ? ?] ?]; reflexivity). now rewrite E.
    - unfold akeys in Hn. cbn [map fst] in Hn. inversion Hn as [|? ? Hni Hn2]; subst. cbn [fold_left]. unfold update_step at 2. cbn [fst snd].
      destruct (Hok d v (or_introl eq_refl)) as [Hd Hp].
      assert (Hok2 : forall d v, In (d, v) l -> In d D /\ pt_ok (snd v)) by (intros; apply Hok; right; auto).
      destruct (match aget sh_eqb d (cu_all c) with Some (_, old) => negb (pt_eqb old (snd v)) | None => true end) eqn:Ech.
      + destruct (rel_handle d (snd v) c s Hd Hp) as (c1 & E1 & Ha & R1); auto.
        { intros d' k Hc. rewrite fcov_aset. destruct (sh_eqb_spec d' d) as [->|]; auto. cbn [snd]. eapply Hfw; [left; reflexivity|auto]. }
        rewrite E1. set (f1 := aset sh_eqb d (true, snd v) (sb_force (ss_now s))) in *.
        destruct (IH c1 (on_now s (with_force (ss_now s) f1)) Hn2 Hok2) as (c' & f' & E & R & F); auto.
        * cbn [on_now ss_now with_force sb_force]. intros d' v' k Hi. unfold f1. rewrite fcov_aset. destruct (sh_eqb_spec d' d) as [->|].
          -- exfalso. apply Hni. now apply (in_map fst) in Hi.
          -- apply Hfw. right; auto.
        * exists c', f'. split; auto. split; [exact R|]. intros d' k. rewrite F. cbn [aget on_now ss_now with_force sb_force]. unfold f1. rewrite fcov_aset.
          destruct (sh_eqb_spec d' d) as [->|]; auto. apply (aget_none sh_eqb sh_eqb_spec) in Hni. now rewrite Hni.
      + destruct (IH c s Hn2 Hok2) as (c' & f' & E & R & F); auto.
        { intros d' v' k Hi. apply Hfw. right; auto. }
        exists c', f'. split; auto. split; auto. intros d' k. rewrite F. cbn [aget]. destruct (sh_eqb_spec d' d) as [->|]; auto.
        apply (aget_none sh_eqb sh_eqb_spec) in Hni. rewrite Hni. destruct Hr as [Hc _]. rewrite <- (k_cov _ _ _ _ _ _ Hc d k).
        unfold fcov. destruct (aget sh_eqb d (cu_all c)) as [[b0 old]|] eqn:Eg; [|discriminate]. apply negb_false_iff in Ech.
        apply pt_eqb_covers; auto. apply (force_get D _ _ _ (k_all _ _ _ _ _ _ Hc)) in Eg. apply Eg.
  Qed.
  Lemma rel_force c s f' all' : force_ok D all' -> force_ok D f' -> (forall d k, fcov (cu_all c) d k = fcov all' d k) ->
    (forall d k, fcov (sb_force (ss_now s)) d k = fcov f' d k) -> rel c s ->
    rel (CU (cu_for c) all' (cu_stats c) (cu_res c) (cu_tx c)) (on_now s (with_force (ss_now s) f')).
  Proof.
    intros Ha Hf E1 E2 [Hc Hx]. destruct c as [for' all stats res tx]. cbn [cu_for cu_all cu_stats cu_res cu_tx] in *. split.
    - unfold tx_staged in *. cbn [cu_tx] in *. cbn [on_now ss_now]. eapply core_force; eauto.
    - cbn [cu_tx cu_res on_now ss_now ss_saved] in *. destruct tx as [x|], (ss_saved s) as [b0|]; try tauto.
      destruct Hx as ((S0 & S1 & S3) & X2 & X3). split; [|split; auto].
      split; auto. split; auto. intros d pt k. cbn [with_force sb_force]. rewrite <- E2. apply S3.
  Qed.
  Lemma rel_update new c s : force_ok D new -> forward (sb_force (ss_now s)) new -> rel c s ->
    exists c', update_processed_to contains new c = Some c' /\ rel c' (on_now s (with_force (ss_now s) new)).
  Proof.
    intros Hn Hfw Hr. pose proof (proj1 Hr) as Hc. unfold update_processed_to. destruct (all_eqb (cu_all c) new) eqn:Ea.
    - exists c. split; auto. pose proof (all_eqb_fcov D _ _ (k_all _ _ _ _ _ _ Hc) Hn Ea) as E.
      assert (R : rel (CU (cu_for c) (cu_all c) (cu_stats c) (cu_res c) (cu_tx c)) (on_now s (with_force (ss_now s) new))).
      { apply rel_force; auto; [apply (k_all _ _ _ _ _ _ Hc)|]. intros d k. rewrite <- (k_cov _ _ _ _ _ _ Hc). auto. }
      destruct c; exact R.
    - destruct (rel_update_fold new c s (proj1 Hn) (proj2 Hn)) as (c' & f' & E & R & F); auto.
      { intros d v k Hi Hk. apply Hfw in Hk. unfold fcov in Hk. apply (aget_in sh_eqb sh_eqb_spec) in Hi; [|apply Hn]. rewrite Hi in Hk. now destruct v. }
      rewrite E. eexists; split; [reflexivity|].
      assert (Ff : forall d k, fcov f' d k = fcov new d k).
      { intros d k. rewrite F. unfold fcov at 2. destruct (aget sh_eqb d new) as [[b0 pt]|] eqn:Eg; auto.
        destruct (fcov (sb_force (ss_now s)) d k) eqn:Ek; auto. apply Hfw in Ek. unfold fcov in Ek. now rewrite Eg in Ek. }
      apply (rel_force c' (on_now s (with_force (ss_now s) f')) new new Hn Hn); auto.
      intros d k. rewrite <- Ff. apply (k_cov _ _ _ _ _ _ (proj1 R)).
  Qed.

  (** ** apply *)
  Lemma lsum_snoc {T} (f : T -> N) l x : lsum f (l ++ [x]) = lsum f l + f x.
  Proof. rewrite lsum_app. cbn. lia. Qed.
  Lemma rel_apply k st c s : ~ In k (map ap_key (sb_log (ss_now s))) -> NoDup (akeys st) -> (forall a n, In (a, n) st -> 0 < n) -> rel c s ->
    exists c', apply_diff_cum contains k st c = Some c' /\
      rel c' (on_now s (SBase (sb_log (ss_now s) ++ [ApDiff k st (sb_force (ss_now s))]) (sb_force (ss_now s)) (sb_reads (ss_now s)))).
  Proof.
    intros Hk Hn Hp [Hc Hx]. destruct Hc as [K1 K2 K3 K4 K5 K6 K7 K8 K9 K10 K11 K12]. set (b := ss_now s) in *.
    unfold apply_diff_cum. rewrite K1. fold (afilter contains (cu_all c) k st).
    destruct (afilter_ok contains (cu_all c) k st Hn Hp) as (F1 & F2 & F3).
    set (flt := afilter contains (cu_all c) k st) in *. set (p0 := ek_part k).
    assert (Hkm : ~ In k (akeys (cu_stats c))) by (intros Hi; apply Hk, (proj1 K8), Hi).
    destruct (amem ek_eqb k (cu_stats c)) eqn:Em; [exfalso; apply amem_ekey in Em; auto|]. clear Em.
    set (cur := match aget N.eqb p0 (cu_res c) with Some s => s | None => (qs_new, tr_new) end).
    assert (Hflt : forall a, cnt flt a = if done (sb_force b) k a then 0 else cnt st a).
    { intros a. rewrite F3, exists_done by apply K2. rewrite (done_ext contains (cu_all c) (sb_force b)); auto; [apply K2|apply K3]. }
    assert (Hcur : pwf contains for_ cur).
    { unfold cur. destruct (aget N.eqb p0 (cu_res c)) eqn:E; [eapply K9; eauto|]. repeat split; cbn; auto; constructor. }
    destruct (qs_append_ok flt (fst cur) F1 (proj1 Hcur)) as (Q1 & Q2 & Q3).
    destruct (tr_append_ok contains for_ flt (snd cur) F1 (proj2 Hcur)) as (T1 & T2 & T3).
    set (new := (qs_append flt (fst cur), tr_append contains for_ flt (snd cur))).
    set (res' := aset N.eqb p0 new (cu_res c)).
    set (tx' := match cu_tx c with Some x => Some (CTX (x_added x ++ [k]) (if negb (amem N.eqb p0 (cu_res c)) then p0 :: x_newp x else x_newp x) (x_all x) (x_upd x) (x_staged x)) | None => None end).
    exists (CU for_ (cu_all c) (aset ek_eqb k flt (cu_stats c)) res' tx'). split; [reflexivity|].
    assert (Hiv : forall p a, iv res' p a = iv (cu_res c) p a + (if p0 =? p then cnt flt a else 0)).
    { intros p a. unfold iv, res'. rewrite (aget_aset N.eqb N.eqb_spec), (N.eqb_sym p0 p). destruct (N.eqb_spec p p0) as [->|]; [|destruct (aget N.eqb p (cu_res c)); lia].
      unfold new. cbn [fst]. rewrite Q3. unfold cur. destruct (aget N.eqb p0 (cu_res c)); auto. }
    assert (Hrv : forall p a, rv res' p a = rv (cu_res c) p a + (if p0 =? p then cnt flt a else 0)).
    { intros p a. unfold rv, res'. rewrite (aget_aset N.eqb N.eqb_spec), (N.eqb_sym p0 p). destruct (N.eqb_spec p p0) as [->|]; [|destruct (aget N.eqb p (cu_res c)); lia].
      unfold new. cbn [snd]. rewrite T3. unfold cur. destruct (aget N.eqb p0 (cu_res c)); auto. }
    set (b' := SBase (sb_log b ++ [ApDiff k st (sb_force b)]) (sb_force b) (sb_reads b)).
    assert (Hlog : log_ok b').
    { destruct K5 as [L1 L2]. split; cbn [b' sb_log].
      - rewrite map_app. cbn [map]. apply NoDup_Add with (a := k) (l := map ap_key (sb_log b)); [|split; auto].
        rewrite <- (app_nil_r (map ap_key (sb_log b))) at 1. apply Add_app.
      - intros e Hi. apply in_app_or in Hi as [Hi|[<-|[]]]; [apply L2; auto|]. cbn [ap_force]. split; [apply K3|]. intros ? ? Hc; exact Hc. }
    assert (Hst : forall a, live (tx_staged c) k a = false -> cnt flt a = 0).
    { intros a Hl. apply live_split in Hl as (d & Hi & Ha). rewrite Hflt.
      unfold tx_staged in Hi. destruct (cu_tx c) as [x|]; [|destruct Hi]. destruct (ss_saved s); [|tauto]. destruct Hx as ((S0 & S1 & S3) & _).
      destruct (S1 d k Hi) as (_ & pt & E1 & E2). specialize (S3 d pt k E1 E2).
      assert (Hdn : done (sb_force b) k a = true) by (apply done_iff; [apply K3|eauto]). now rewrite Hdn. }
    assert (Hagree : agree contains (aset ek_eqb k flt (cu_stats c)) (live (tx_staged c)) b').
    { destruct K8 as [A1 A2]. split.
      - cbn [b' sb_log]. intros k' Hi. apply (akeys_aset_in ek_eqb ek_eqb_spec) in Hi. rewrite map_app. apply in_or_app. cbn. destruct Hi as [->|Hi]; auto.
      - cbn [b' sb_log sb_force]. intros e Hi a. apply in_app_or in Hi as [Hi|[<-|[]]].
        + rewrite <- (A2 e Hi a). unfold lval, sval. rewrite (aget_aset ek_eqb ek_eqb_spec). destruct (ek_eqb_spec (ap_key e) k) as [E|]; auto.
          exfalso. apply Hk. rewrite <- E. now apply in_map.
        + cbn [ap_key ap_stats]. unfold lval, sval. rewrite (aget_aset ek_eqb ek_eqb_spec), (eqb_refl' ek_eqb ek_eqb_spec).
          rewrite <- Hflt. destruct (live (tx_staged c) k a) eqn:El; auto. symmetry; auto. }
    assert (Hsok : stats_ok (aset ek_eqb k flt (cu_stats c))).
    { split; [apply (aset_nodup ek_eqb ek_eqb_spec); apply K6|]. intros k' st' Hi. rewrite (aset_fresh ek_eqb ek_eqb_spec) in Hi by auto.
      apply in_app_or in Hi as [Hi|[Hi|[]]]; [apply (proj2 K6 _ _ Hi)|]. injection Hi as <- <-. auto. }
    split.
    - assert (Es : tx_staged (CU for_ (cu_all c) (aset ek_eqb k flt (cu_stats c)) res' tx') = tx_staged c).
      { unfold tx_staged, tx'. cbn [cu_tx]. destruct (cu_tx c); auto. }
      rewrite Es. constructor; cbn [cu_for cu_all cu_stats cu_res on_now ss_now]; auto.
      + intros p. fold b'. cbn [b' sb_log]. rewrite existsb_app. cbn [existsb ap_key]. rewrite orb_false_r, <- K7. unfold amem.
        unfold res'. rewrite (aget_aset N.eqb N.eqb_spec). change (ek_part k) with p0. rewrite (N.eqb_sym p0 p). destruct (p =? p0); [now rewrite orb_true_r|now rewrite orb_false_r].
      + split; [apply (aset_nodup N.eqb N.eqb_spec); apply K9|]. intros p t. unfold res'. rewrite (aget_aset N.eqb N.eqb_spec).
        destruct (p =? p0); [|apply K9]. intros E. injection E as <-. split; auto.
      + intros p a Ha. rewrite Hiv, Hrv, K10; auto.
      + intros p a. rewrite Hiv, K11. unfold unprocessed. unfold b'. cbn [sb_log sb_force]. rewrite lsum_snoc. f_equal. cbn [ap_key ap_stats]. fold p0.
        destruct (p0 =? p); cbn [andb]; auto. rewrite Hflt. now destruct (done (sb_force b) k a).
      + intros p a Ha. destruct (K12 p a Ha) as [R1 R2]. rewrite Hrv, R2. unfold received, nread in *. unfold b'. cbn [sb_log sb_reads]. rewrite lsum_snoc.
        cbn [ap_key ap_stats ap_force]. fold p0. rewrite Hflt. 
        set (rec := lsum _ (sb_log b)) in *. set (rd := lsum _ (sb_reads b)) in *.
        destruct (p0 =? p); cbn [andb]; [destruct (done (sb_force b) k a); cbn [negb]|]; lia.
    - cbn [cu_tx cu_res on_now ss_saved ss_now]. unfold tx' in *. destruct (cu_tx c) as [x|] eqn:Ex, (ss_saved s) as [b0|]; try tauto.
      + destruct Hx as (X1 & X2 & c0 & X3 & X4). cbn [x_upd x_staged x_newp]. split; [exact X1|].
        assert (Hres : rbres (if negb (amem N.eqb p0 (cu_res c)) then p0 :: x_newp x else x_newp x) res' = rbres (x_newp x) (cu_res c) /\
                       alltx (if negb (amem N.eqb p0 (cu_res c)) then p0 :: x_newp x else x_newp x) res').
        { unfold amem. destruct (aget N.eqb p0 (cu_res c)) as [s0|] eqn:E0; cbn [negb].
          - assert (Hs : rsame (cu_res c) res'). { eapply rsame_aset; eauto. unfold new, cur. split; auto. }
            split; [apply rb_same; auto|eapply alltx_same; eauto].
          - assert (Hni : ~ In p0 (akeys (cu_res c))) by now apply (aget_none N.eqb N.eqb_spec).
            unfold res'. rewrite (aset_fresh N.eqb N.eqb_spec) by auto. split.
            + unfold rbres. rewrite map_app, filter_app. cbn [map filter fst snd existsb]. rewrite N.eqb_refl. cbn [orb negb]. rewrite app_nil_r.
              apply filter_ext_in. intros e Hi. apply in_map_iff in Hi as (e' & <- & Hi). cbn [fst]. apply (in_map fst) in Hi.
              destruct (N.eqb_spec p0 (fst e')) as [E|]; [|reflexivity]. exfalso. apply Hni. rewrite E. exact Hi.
            + intros p t Hi En. cbn [existsb] in En. apply orb_false_iff in En as [En1 En2]. apply in_app_or in Hi as [Hi|[Hi|[]]]; [eauto|].
              injection Hi as <- <-. now rewrite N.eqb_refl in En1. }
        destruct Hres as [R1 R2]. split; auto. exists c0. split; auto. rewrite <- X3. rewrite (rollback_eq c x Ex).
        erewrite rollback_eq; [|reflexivity]. cbn [cu_for cu_stats cu_res x_all x_newp x_added]. rewrite R1, K1. f_equal. f_equal.
        rewrite (aset_fresh ek_eqb ek_eqb_spec) by auto. rewrite filter_app. cbn [filter fst]. rewrite existsb_app. cbn [existsb]. rewrite (eqb_refl' ek_eqb ek_eqb_spec), orb_true_r. cbn [negb]. rewrite app_nil_r.
        apply filter_ext_in. intros e Hi. rewrite existsb_app. cbn [existsb]. apply (in_map fst) in Hi.
        destruct (ek_eqb_spec k (fst e)) as [E|]; [|now rewrite !orb_false_r]. exfalso. apply Hkm. rewrite E. exact Hi.
      + unfold notx in *. intros p t Hi.
        apply (aget_nodup_in res') in Hi; [|apply (aset_nodup N.eqb N.eqb_spec); apply K9].
        unfold res' in Hi. rewrite (aget_aset N.eqb N.eqb_spec) in Hi. destruct (N.eqb_spec p p0) as [->|].
        * injection Hi as <-. unfold new. cbn [fst snd]. destruct Q2 as [Q2 _]. destruct T2 as [[T2 _] _]. rewrite Q2, T2.
          unfold cur. destruct (aget N.eqb p0 (cu_res c)) as [s0|] eqn:E0; [|auto]. apply (aget_some_in N.eqb N.eqb_spec) in E0. eauto.
        * apply (aget_some_in N.eqb N.eqb_spec) in Hi. eauto.
  Qed.

  (** ** reading *)
  Lemma rel_read p a n c s : contains for_ a = true -> 0 < n -> rel c s ->
    match ss_step contains for_ s (SRead p a n) with
    | Some s' => exists c', reader_dec contains p a n c = Some c' /\ rel c' s'
    | None => reader_dec contains p a n c = None
    end.
  Proof.
    intros Ha Hn [Hc Hx]. destruct Hc as [K1 K2 K3 K4 K5 K6 K7 K8 K9 K10 K11 K12]. cbn [ss_step]. set (b := ss_now s) in *.
    unfold reader_dec. rewrite <- K7. unfold amem. destruct (aget N.eqb p (cu_res c)) as [t|] eqn:E.
    - unfold left_to_read. rewrite Ha. destruct (K12 p a Ha) as [R1 R2]. rewrite <- R2. rewrite K1.
      assert (Erv : rv (cu_res c) p a = qv (tr_stats (snd t)) a) by (unfold rv; now rewrite E). rewrite Erv in *.
      destruct (N.ltb_spec (qv (tr_stats (snd t)) a) n) as [Hl|Hl]; [now rewrite tr_dec_fail|].
      destruct (proj2 K9 _ _ E) as [W1 W2].
      destruct (tr_dec_ok contains for_ a n (snd t) W2 Hn Hl) as (t' & -> & T1 & T2 & T3). eexists; split; [reflexivity|].
      set (res' := aset N.eqb p (fst t, t') (cu_res c)).
      assert (Hs : rsame (cu_res c) res') by (eapply rsame_aset; eauto; split; [apply qsame_refl|auto]).
      assert (Hiv : forall p' a', iv res' p' a' = iv (cu_res c) p' a').
      { intros p' a'. unfold iv, res'. rewrite (aget_aset N.eqb N.eqb_spec). destruct (N.eqb_spec p' p) as [->|]; auto. now rewrite E. }
      assert (Hrv : forall p' a', rv res' p' a' = if (p =? p') && ra_eqb a a' then rv (cu_res c) p a - n else rv (cu_res c) p' a').
      { intros p' a'. unfold rv, res'. rewrite (aget_aset N.eqb N.eqb_spec), (N.eqb_sym p p'). destruct (N.eqb_spec p' p) as [->|]; cbn [andb]; auto.
        rewrite E. cbn [snd]. rewrite T3. destruct (ra_eqb_spec a' a), (ra_eqb_spec a a'); congruence. }
      split.
      + unfold tx_staged. cbn [cu_tx]. fold (tx_staged c). constructor; cbn [cu_for cu_all cu_stats cu_res on_now ss_now sb_log sb_force sb_reads]; auto.
        * intros p'. fold res'. rewrite <- K7. unfold amem, res'. rewrite (aget_aset N.eqb N.eqb_spec). destruct (N.eqb_spec p' p) as [->|]; auto. now rewrite E.
        * split; [apply (aset_nodup N.eqb N.eqb_spec); apply K9|]. intros p' t0. unfold res'. rewrite (aget_aset N.eqb N.eqb_spec).
          destruct (p' =? p); [|apply K9]. intros Ei. injection Ei as <-. split; auto.
        * intros p' a' Ha'. fold res'. rewrite Hiv, Hrv. destruct (p =? p'); cbn [andb]; [destruct (ra_eqb_spec a a'); [congruence|]|]; apply K10; auto.
        * intros p' a'. rewrite Hiv. apply K11.
        * intros p' a' Ha'. destruct (K12 p' a' Ha') as [A1 A2]. unfold received, nread in *. cbn [sb_log sb_reads]. fold b. rewrite lsum_snoc, Hrv. cbn [fst snd].
          set (rec := lsum _ (sb_log b)) in A1, A2. fold rec. set (rd := lsum _ (sb_reads b)) in A1, A2. fold rd.
          destruct (N.eqb_spec p p') as [<-|]; cbn [andb]; [|rewrite A2; lia].
          destruct (ra_eqb_spec a a') as [<-|]; [|rewrite A2; lia].
          rewrite Erv. rewrite Erv in A2. rewrite A2 in *. lia.
      + cbn [cu_tx cu_res on_now ss_saved ss_now]. destruct (cu_tx c) as [x|] eqn:Ex, (ss_saved s) as [b0|]; try tauto.
        * destruct Hx as (X1 & X2 & c0 & X3 & X4). split; [exact X1|]. split; [eapply alltx_same; eauto|]. exists c0. split; auto.
          rewrite <- X3. rewrite (rollback_eq c x Ex). erewrite rollback_eq; [|reflexivity]. cbn [cu_for cu_stats cu_res]. fold res'. rewrite K1, (rb_same _ _ _ Hs); auto.
        * eapply notx_same; eauto.
    - exists c. split; auto. split; auto. constructor; auto.
  Qed.

  (** ** transactions *)
  Lemma begin_res res : notx res -> (forall p s, In (p, s) res -> pwf contains for_ s) -> exists res',
    map_res (fun s => match qs_begin (fst s), tr_begin (snd s) with Some q, Some t => Some (q, t) | _, _ => None end) res = Some res' /\
    rvals res res' /\ alltx [] res' /\ rvals res (rbres [] res') /\ notx (rbres [] res').
  Proof.
    induction res as [|[p s] res IH]; intros Hn Hw; cbn [map_res].
    - exists []. split; auto. split; [constructor|]. split; [intros ? ? []|]. split; [constructor|intros ? ? []].
    - destruct IH as (res' & E & V & A & V2 & N2); [intros q t Hi; apply (Hn q t); right; auto|intros q t Hi; apply (Hw q t); right; auto|].
      destruct (Hn p s (or_introl eq_refl)) as [T1 T2]. destruct (Hw p s (or_introl eq_refl)) as [W1 W2].
      destruct (qs_begin_ok _ W1 T1) as (q & Eq & Q1 & Q2 & Q3 & Q4).
      destruct (tr_begin_ok contains for_ _ W2 T2) as (t & Et & U1 & U2 & U3 & U4 & U5 & U6 & U7).
      rewrite Eq, Et, E. eexists; split; [reflexivity|]. split; [constructor; auto; cbn [fst snd]; split; auto; split; auto; intros _; split; auto|].
      split; [intros p' s' [Hi|Hi] _; [injection Hi as <- <-; auto|eapply A; eauto]|].
      assert (Hrb : rbp (q, t) = (fst s, tr_rb t)) by (unfold rbp; cbn [fst snd]; rewrite Q2, U2, Q3; reflexivity).
      unfold rbres in *. cbn [map filter fst snd existsb negb]. rewrite Hrb. split.
      + constructor; auto. cbn [fst snd]. split; auto. split.
        * intros _. unfold pwf, twf. cbn [fst snd]. split; [exact W1|]. destruct W2 as [W3 W4]. split; [rewrite U5; exact W3|rewrite U5, U6; exact W4].
        * intros a. split; auto. cbn [snd]. now rewrite U5.
      + intros p' s' [Hi|Hi]; [|eapply N2; eauto]. injection Hi as <- <-. cbn [fst snd]. rewrite U5. auto.
  Qed.
  Lemma rel_begin c s : rel c s ->
    match ss_saved s with
    | None => exists c', cu_begin c = Some c' /\ rel c' (SSpec (ss_now s) (Some (ss_now s)))
    | Some _ => cu_begin c = None
    end.
  Proof.
    intros [Hc Hx]. unfold cu_begin. destruct (cu_tx c) as [x|] eqn:Ex, (ss_saved s) as [b0|]; try tauto.
    destruct (begin_res (cu_res c) Hx) as (res' & E & V & A & V2 & N2).
    { intros p t Hi. apply (proj2 (k_rwf _ _ _ _ _ _ Hc) p). apply aget_nodup_in; auto. apply (k_rwf _ _ _ _ _ _ Hc). }
    rewrite E. eexists; split; [reflexivity|]. unfold rel. cbn [cu_tx cu_res ss_saved ss_now x_upd x_staged x_newp]. unfold tx_staged in *. cbn [cu_tx x_staged]. rewrite Ex in Hc.
    destruct c as [for' all stats res tx]. cbn [cu_for cu_all cu_stats cu_res cu_tx] in *.
    split; [eapply core_res; eauto|]. split; [split; [constructor|split; [intros ? ? []|discriminate]]|]. split; auto.
    eexists. split; [erewrite rollback_eq; reflexivity|]. cbn [cu_for x_all cu_stats cu_res x_newp x_added cu_tx]. split; [|split; auto].
    assert (Ef : filter (fun e : ekey * astats => negb (existsb (fun k => ek_eqb k (fst e)) [])) stats = stats).
    { clear. induction stats as [|e m IHm]; [reflexivity|]. cbn in *. now rewrite IHm. }
    rewrite Ef. apply (core_res [] for' all stats res tx); auto.
  Qed.
  Lemma commit_res res : (forall p s, In (p, s) res -> pwf contains for_ s) -> exists res',
    end_res qs_commit tr_commit res = Some res' /\ rvals res res' /\ notx res'.
  Proof.
    unfold end_res. induction res as [|[p s] res IH]; intros Hw; cbn [map_res].
    - exists []. split; auto. split; [constructor|intros ? ? []].
    - destruct IH as (res' & E & V & A); [intros q t Hi; apply (Hw q t); right; auto|].
      destruct (Hw p s (or_introl eq_refl)) as [W1 W2].
      assert (Hq : exists q, if_tx (qs_in_tx (fst s)) qs_commit (fst s) = Some q /\ qwf q /\ qs_in_tx q = false /\ forall a, qv q a = qv (fst s) a).
      { unfold if_tx. destruct (qs_in_tx (fst s)) eqn:Ei; [apply qs_commit_ok; auto|exists (fst s); auto]. }
      assert (Ht : exists t, if_tx (qs_in_tx (tr_stats (snd s))) tr_commit (snd s) = Some t /\ twf contains for_ t /\ qs_in_tx (tr_stats t) = false /\ forall a, qv (tr_stats t) a = qv (tr_stats (snd s)) a).
      { unfold if_tx. destruct (qs_in_tx (tr_stats (snd s))) eqn:Ei; [apply tr_commit_ok; auto|exists (snd s); auto]. }
      destruct Hq as (q & -> & Q1 & Q2 & Q3). destruct Ht as (t & -> & U1 & U2 & U3). rewrite E. eexists; split; [reflexivity|].
      split; [constructor; auto; cbn [fst snd]; split; auto; split; auto; intros _; split; auto|].
      intros p' s' [Hi|Hi]; [injection Hi as <- <-; auto|eapply A; eauto].
  Qed.
  Lemma retain_fold upd : forall m, stats_ok m ->
    let r := fold_left (fun m (e : shard * by_parts) => retain_pass contains (fst e) (snd e) m) upd m in
    stats_ok r /\ (forall k, In k (akeys r) -> In k (akeys m)) /\
    forall k a, sval r k a = if existsb (fun e : shard * by_parts => covers (snd e) k && contains (fst e) a) upd then 0 else sval m k a.
  Proof.
    induction upd as [|[d pt] upd IH]; intros m Hm; cbn [fold_left existsb fst snd]; auto.
    destruct (retain_keys contains d pt m) as [R1 R2]. destruct (IH _ (R2 Hm)) as (A1 & A2 & A3). split; auto. split; auto.
    intros k a. rewrite A3, retain_get by apply Hm. destruct (existsb _ upd); [now rewrite orb_true_r|]. rewrite orb_false_r. auto.
  Qed.
  Lemma rel_commit c s : rel c s ->
    match ss_saved s with
    | Some _ => exists c', cu_commit contains c = Some c' /\ rel c' (SSpec (ss_now s) None)
    | None => cu_commit contains c = None
    end.
  Proof.
    intros [Hc Hx]. unfold cu_commit. destruct (cu_tx c) as [x|] eqn:Ex, (ss_saved s) as [b0|]; try tauto.
    destruct Hx as ((S0 & S1 & S3) & X2 & _).
    destruct (commit_res (cu_res c)) as (res' & E & V & A).
    { intros p t Hi. apply (proj2 (k_rwf _ _ _ _ _ _ Hc) p). apply aget_nodup_in; auto. apply (k_rwf _ _ _ _ _ _ Hc). }
    rewrite E. eexists; split; [reflexivity|]. split; [|exact A]. unfold tx_staged in *. rewrite Ex in Hc. cbn [cu_tx ss_now].
    destruct c as [for' all stats res tx]. cbn [cu_for cu_all cu_stats cu_res cu_tx] in *.
    apply (core_res _ for' all _ res tx); auto. destruct Hc as [K1 K2 K3 K4 K5 K6 K7 K8 K9 K10 K11 K12]. cbn [cu_for cu_all cu_stats cu_res] in *.
    destruct (retain_fold (x_upd x) stats K6) as (R1 & R2 & R3). constructor; cbn [cu_for cu_all cu_stats cu_res]; auto.
    destruct K8 as [A1 A2]. split; auto. intros e Hi a. rewrite <- (A2 e Hi a). unfold lval. rewrite R3.
    change (live [] (ap_key e) a) with true. cbv iota.
    destruct (existsb (fun e0 => covers (snd e0) (ap_key e) && contains (fst e0) a) (x_upd x)) eqn:Eu.
    - apply existsb_exists in Eu as ((d & pt) & Hu & Hca). cbn [fst snd] in Hca. apply andb_true_iff in Hca as [H1 H2].
      apply (aget_in sh_eqb sh_eqb_spec) in Hu; auto. specialize (S3 d pt _ Hu H1).
      assert (Hdn : done (sb_force (ss_now s)) (ap_key e) a = true) by (apply done_iff; [apply K3|eauto]).
      specialize (A2 e Hi a). rewrite Hdn in A2. unfold lval in A2. now rewrite A2.
    - destruct (live (x_staged x) (ap_key e) a) eqn:El; auto. exfalso. apply live_split in El as (d & Hs & Ha).
      destruct (S1 _ _ Hs) as (_ & pt & G1 & G2). apply (aget_some_in sh_eqb sh_eqb_spec) in G1.
      assert (Hx : existsb (fun e0 : shard * by_parts => covers (snd e0) (ap_key e) && contains (fst e0) a) (x_upd x) = true).
      { apply existsb_exists. exists (d, pt). split; auto. cbn [fst snd]. now rewrite G2, Ha. }
      congruence.
  Qed.
  Lemma rel_rollback c s : rel c s ->
    match ss_saved s with
    | Some b0 => exists c', cu_rollback c = Some c' /\ rel c' (SSpec b0 None)
    | None => cu_rollback c = None
    end.
  Proof.
    intros [Hc Hx]. destruct (cu_tx c) as [x|] eqn:Ex, (ss_saved s) as [b0|]; try tauto.
    - destruct Hx as (_ & _ & c0 & E & C0 & N0 & T0). exists c0. split; auto. unfold rel, tx_staged. rewrite T0. cbn [ss_now ss_saved]. auto.
    - unfold cu_rollback. now rewrite Ex.
  Qed.

  Lemma rel_step c s o : sop_env contains D for_ s o -> rel c s ->
    match ss_step contains for_ s o with
    | Some s' => exists c', sstep contains c o = Some c' /\ rel c' s'
    | None => sstep contains c o = None
    end.
  Proof.
    intros Henv Hr. destruct o as [k st|new|d pt|p a n| | |]; cbn [sop_env ss_step sstep] in *.
    - destruct Henv as (H1 & H2 & H3). now apply rel_apply.
    - destruct Henv as (H1 & H2). now apply rel_update.
    - destruct Henv as (H1 & H2 & H3). destruct (rel_handle d pt c s H1 H2 H3 Hr) as (c' & E & _ & R). exists c'. split; auto.
    - destruct Henv as (H1 & H2). exact (rel_read p a n c s H1 H2 Hr).
    - pose proof (rel_begin c s Hr) as H. destruct (ss_saved s); auto.
    - pose proof (rel_commit c s Hr) as H. destruct (ss_saved s); auto.
    - pose proof (rel_rollback c s Hr) as H. destruct (ss_saved s); auto.
  Qed.
  Lemma rel_run s os r : ss_run contains D for_ s os r -> forall c, rel c s ->
    match r with
    | Some s' => exists c', srun contains c os = Some c' /\ rel c' s'
    | None => srun contains c os = None
    end.
  Proof.
    induction 1 as [s|s o os He Hs|s o os s' r He Hs Hr IH]; intros c Hc; cbn [srun].
    - eauto.
    - pose proof (rel_step c s o He Hc) as H. rewrite Hs in H. now rewrite H.
    - pose proof (rel_step c s o He Hc) as H. rewrite Hs in H. destruct H as (c' & -> & Hc'). now apply IH.
  Qed.
  Lemma rel_init all : force_ok D all -> rel (cu_new for_ all) (ss_init all).
  Proof.
    intros Ha. split; [|intros ? ? []]. constructor; cbn [cu_new cu_for cu_all cu_stats cu_res tx_staged cu_tx ss_init ss_now sb_force sb_log]; auto.
    - split; [constructor|intros ? []].
    - split; [constructor|intros ? ? []].
    - split; [intros ? []|intros ? []].
    - split; [constructor|discriminate].
    - intros p a _. reflexivity.
    - intros p a _. cbn. lia.
  Qed.
End Run.
