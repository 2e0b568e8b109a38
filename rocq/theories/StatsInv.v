(** The invariant of CumulativeStatistics. *)
From Verif Require Import StatsSpec StatsProofs StatsCum RouterProofs QueueKeysProofs QueueStoreProofs ProcProofs.
From Coq Require Import ZArith ZifyN ZifyBool Lia.
Local Open Scope N_scope.

Lemma aset_fresh {K V} (eqb : K -> K -> bool) (sp : forall a b, reflect (a = b) (eqb a b)) k (v : V) m :
  ~ In k (akeys m) -> aset eqb k v m = m ++ [(k, v)].
Proof.
  unfold akeys. induction m as [|[k' v'] m IH]; cbn [aset map fst In app]; auto. intros H.
  destruct (sp k k'); [subst; tauto|]. rewrite IH; tauto.
Qed.
Lemma fold_adel {K V} (eqb : K -> K -> bool) (l : list K) : forall m : amap K V,
  fold_left (fun m k => adel eqb k m) l m = filter (fun e => negb (existsb (fun k => eqb k (fst e)) l)) m.
Proof.
  induction l as [|k l IH]; intros m; cbn [fold_left].
  - cbn. induction m as [|e m IHm]; cbn [filter]; auto. now rewrite <- IHm.
  - rewrite IH. unfold adel. induction m as [|e m IHm]; cbn [filter]; auto. cbn [existsb].
    destruct (eqb k (fst e)); cbn [negb orb filter]; auto. destruct (existsb _ l); cbn [negb]; now rewrite IHm.
Qed.

(** ** Equality tests *)
Lemma om_eqb_get a b : osorted sh_ord a -> osorted sh_ord b -> om_eqb a b = true -> forall s, oget sh_ord s a = oget sh_ord s b.
Proof.
  intros Ha Hb H s. unfold om_eqb in H. apply andb_true_iff in H as [Hl Hf]. apply Nat.eqb_eq in Hl.
  rewrite forallb_forall in Hf.
  assert (Hab : forall x k, oget sh_ord x a = Some k -> oget sh_ord x b = Some k).
  { intros x k E. apply (oin_get sh_ord sh_total) in E; auto. specialize (Hf _ E). unfold opt_eqb in Hf. cbn [fst snd] in Hf.
    destruct (oget sh_ord x b) as [k'|]; [|discriminate]. destruct (qk_eqb_spec k k'); [congruence|discriminate]. }
  destruct (oget sh_ord s a) as [k|] eqn:E; [symmetry; auto|].
  destruct (oget sh_ord s b) as [k|] eqn:E2; auto. exfalso.
  assert (Hi : incl (map fst b) (map fst a)).
  { apply NoDup_length_incl; [apply (osorted_nodup sh_ord sh_total); auto|rewrite !map_length; lia|].
    intros x Hx. apply in_map_iff in Hx as ((x' & k') & <- & Hi). cbn [fst].
    apply (oin_get sh_ord sh_total) in Hi; auto. apply Hab in Hi. apply (oin_get sh_ord sh_total) in Hi; auto.
    now apply (in_map fst) in Hi. }
  apply (oin_get sh_ord sh_total) in E2; auto. apply (in_map fst) in E2. apply Hi in E2.
  apply in_map_iff in E2 as ((s' & k') & E3 & Hin). cbn [fst] in E3. subst s'.
  apply (oin_get sh_ord sh_total) in Hin; auto. congruence.
Qed.
Lemma amap_eqb_get {K V} (eqb : K -> K -> bool) (sp : forall a b, reflect (a = b) (eqb a b)) (veqb : V -> V -> bool) (a b : amap K V) :
  NoDup (akeys a) -> NoDup (akeys b) ->
  Nat.eqb (length a) (length b) && forallb (fun e : K * V => opt_eqb veqb (snd e) (aget eqb (fst e) b)) a = true ->
  forall k, match aget eqb k a, aget eqb k b with
            | Some x, Some y => veqb x y = true | None, None => True | _, _ => False end.
Proof.
  intros Ha Hb H k. apply andb_true_iff in H as [Hl Hf]. apply Nat.eqb_eq in Hl. rewrite forallb_forall in Hf.
  assert (Hab : forall x v, aget eqb x a = Some v -> exists v', aget eqb x b = Some v' /\ veqb v v' = true).
  { intros x v E. apply (aget_in eqb sp) in E; auto. specialize (Hf _ E). unfold opt_eqb in Hf. cbn [fst snd] in Hf.
    destruct (aget eqb x b) as [v'|]; [eauto|discriminate]. }
  destruct (aget eqb k a) as [v|] eqn:E.
  - destruct (Hab _ _ E) as (v' & -> & Hv). auto.
  - destruct (aget eqb k b) as [v|] eqn:E2; auto.
    assert (Hi : incl (akeys b) (akeys a)).
    { apply NoDup_length_incl; [auto|unfold akeys; rewrite !map_length; lia|].
      intros x Hx. apply (aget_some_key eqb sp) in Hx as [v' Hx]. apply Hab in Hx as (v'' & Hx & _).
      apply (aget_some_in eqb sp) in Hx. now apply (in_map fst) in Hx. }
    apply (aget_some_in eqb sp) in E2. apply (in_map fst) in E2. apply Hi in E2.
    apply (aget_none eqb sp) in E. now apply E in E2.
Qed.
Lemma pt_eqb_covers a b : pt_ok a -> pt_ok b -> pt_eqb a b = true -> forall k, covers a k = covers b k.
Proof.
  intros [Ha Ha2] [Hb Hb2] H k. pose proof (amap_eqb_get N.eqb N.eqb_spec om_eqb a b Ha Hb H (ek_part k)) as G.
  unfold covers, pt_to. destruct (aget N.eqb (ek_part k) a) as [x|] eqn:Ea; destruct (aget N.eqb (ek_part k) b) as [y|] eqn:Eb; try tauto.
  rewrite (om_eqb_get x y); auto.
  - apply (aget_some_in N.eqb N.eqb_spec) in Ea. eauto.
  - apply (aget_some_in N.eqb N.eqb_spec) in Eb. eauto.
Qed.
Lemma force_get D f d v : force_ok D f -> aget sh_eqb d f = Some v -> In d D /\ pt_ok (snd v).
Proof. intros [_ H] E. apply (aget_some_in sh_eqb sh_eqb_spec) in E. eauto. Qed.
Lemma all_eqb_fcov D a b : force_ok D a -> force_ok D b -> all_eqb a b = true -> forall d k, fcov a d k = fcov b d k.
Proof.
  intros Ha Hb H d k. pose proof (amap_eqb_get sh_eqb sh_eqb_spec _ a b (proj1 Ha) (proj1 Hb) H d) as G.
  unfold fcov. destruct (aget sh_eqb d a) as [[x pt]|] eqn:Ea; destruct (aget sh_eqb d b) as [[y pt']|] eqn:Eb; try tauto.
  cbn [fst snd] in G. apply andb_true_iff in G as [_ G].
  apply (force_get D) in Ea; auto. apply (force_get D) in Eb; auto. cbn [snd] in *. now apply pt_eqb_covers.
Qed.
Lemma force_aset D f d pt : force_ok D f -> In d D -> pt_ok pt -> force_ok D (aset sh_eqb d (true, pt) f).
Proof.
  intros [H1 H2] Hd Hp. split; [now apply (aset_nodup sh_eqb sh_eqb_spec)|].
  intros d' v Hi. apply (aget_in sh_eqb sh_eqb_spec) in Hi; [|now apply (aset_nodup sh_eqb sh_eqb_spec)].
  rewrite (aget_aset sh_eqb sh_eqb_spec) in Hi. destruct (sh_eqb_spec d' d) as [->|].
  - injection Hi as <-. auto.
  - apply (aget_some_in sh_eqb sh_eqb_spec) in Hi. eauto.
Qed.

Section Inv.
  Variable contains : shard -> raddr -> bool.
  Variable D : list shard.
  Variable for_ : shard.
  Hypothesis Hdisj : disjoint_shards contains D.
  Hypothesis Hfor : In for_ D.
  Local Notation done := (done contains).
  Local Notation live := (live contains).
  Local Notation stagedb := (stagedb contains).

  Definition sval (m : amap ekey astats) (k : ekey) (a : raddr) : N := match aget ek_eqb k m with Some st => cnt st a | None => 0 end.
  Definition lval (m : amap ekey astats) (lv : ekey -> raddr -> bool) (k : ekey) (a : raddr) : N := if lv k a then sval m k a else 0.
  Definition stats_ok (m : amap ekey astats) : Prop :=
    NoDup (akeys m) /\ forall k st, In (k, st) m -> NoDup (akeys st) /\ (forall a n, In (a, n) st -> 0 < n).
  Definition log_ok (b : sbase) : Prop :=
    NoDup (map ap_key (sb_log b)) /\
    forall e, In e (sb_log b) -> NoDup (akeys (ap_force e)) /\ forward (ap_force e) (sb_force b).
  (** the table of diffs agrees with the log *)
  Definition agree (m : amap ekey astats) (lv : ekey -> raddr -> bool) (b : sbase) : Prop :=
    (forall k, In k (akeys m) -> In k (map ap_key (sb_log b))) /\
    forall e, In e (sb_log b) -> forall a, lval m lv (ap_key e) a = if done (sb_force b) (ap_key e) a then 0 else cnt (ap_stats e) a.

  Lemma lsum_unprocessed m lv b p a : NoDup (akeys m) -> NoDup (map ap_key (sb_log b)) -> agree m lv b ->
    lsum (ec lv p a) m = unprocessed contains b p a.
  Proof.
    intros Hm Hl [Hk He]. set (F := fun k => if ek_part k =? p then lval m lv k a else 0).
    assert (E1 : lsum (ec lv p a) m = lsum F (akeys m)).
    { unfold akeys. rewrite lsum_map. apply lsum_ext. intros [k st] Hi. unfold ec, F, lval, sval. cbn [fst snd].
      apply (aget_in ek_eqb ek_eqb_spec) in Hi; auto. rewrite Hi. destruct (ek_part k =? p), (lv k a); auto. }
    assert (E2 : unprocessed contains b p a = lsum F (map ap_key (sb_log b))).
    { unfold unprocessed. rewrite lsum_map. apply lsum_ext. intros e Hi. unfold F. rewrite (He e Hi).
      destruct (ek_part (ap_key e) =? p), (done (sb_force b) (ap_key e) a); auto. }
    rewrite E1, E2. apply lsum_keys; auto.
    intros k _ Hn. unfold F, lval, sval. apply (aget_none ek_eqb ek_eqb_spec) in Hn. rewrite Hn. destruct (ek_part k =? p), (lv k a); auto.
  Qed.

  Record core (staged : list (shard * ekey)) (c : cum) (b : sbase) : Prop := Core {
    k_for : cu_for c = for_;
    k_all : force_ok D (cu_all c);
    k_force : force_ok D (sb_force b);
    k_cov : forall d k, fcov (cu_all c) d k = fcov (sb_force b) d k;
    k_log : log_ok b;
    k_stats : stats_ok (cu_stats c);
    k_part : forall p, amem N.eqb p (cu_res c) = existsb (fun e => ek_part (ap_key e) =? p) (sb_log b);
    k_agree : agree (cu_stats c) (live staged) b;
    k_rwf : rwf contains for_ (cu_res c);
    k_req : req contains for_ (cu_res c);
    k_iv : forall p a, iv (cu_res c) p a = unprocessed contains b p a;
    k_rv : forall p a, contains for_ a = true -> nread b p a <= received contains b p a /\ rv (cu_res c) p a = received contains b p a - nread b p a }.

  (** ** handle_processed_to_update *)
  Definition tx_staged (c : cum) : list (shard * ekey) := match cu_tx c with Some x => x_staged x | None => [] end.
  Definition in_tx (c : cum) : bool := match cu_tx c with Some _ => true | None => false end.
  (** what the staged set means *)
  Definition staged_ok (b : sbase) (upd : amap shard by_parts) (staged : list (shard * ekey)) : Prop :=
    NoDup (akeys upd) /\
    (forall d k, In (d, k) staged -> In d D /\ exists pt, aget sh_eqb d upd = Some pt /\ covers pt k = true) /\
    (forall d pt k, aget sh_eqb d upd = Some pt -> covers pt k = true -> fcov (sb_force b) d k = true).

  Lemma live_split staged k a : live staged k a = false <-> exists d, In (d, k) staged /\ contains d a = true.
  Proof.
    unfold StatsCum.live, StatsCum.stagedb. rewrite negb_false_iff, existsb_exists. split.
    - intros ((d & k') & Hi & H). cbn [fst snd] in H. apply andb_true_iff in H as [H1 H2]. destruct (ek_eqb_spec k' k); [subst|discriminate]. eauto.
    - intros (d & Hi & H). exists (d, k). split; auto. cbn [fst snd]. rewrite H. destruct (ek_eqb_spec k k); auto.
  Qed.
  Lemma staged_has dst staged k : existsb (fun x : shard * ekey => sh_eqb (fst x) dst && ek_eqb (snd x) k) staged = true <-> In (dst, k) staged.
  Proof.
    rewrite existsb_exists. split.
    - intros ((d & k') & Hi & H). cbn [fst snd] in H. apply andb_true_iff in H as [H1 H2].
      destruct (sh_eqb_spec d dst), (ek_eqb_spec k' k); try discriminate. subst. auto.
    - intros Hi. exists (dst, k). split; auto. cbn [fst snd]. rewrite sh_eqb_refl. destruct (ek_eqb_spec k k); auto.
  Qed.
  Lemma for_dst dst : In dst D -> sh_eqb for_ dst = false -> forall a, contains dst a = true -> contains for_ a = false.
  Proof.
    intros Hd He a Ha. destruct (contains for_ a) eqn:E; auto. rewrite (Hdisj for_ dst a Hfor Hd E Ha) in He. now rewrite sh_eqb_refl in He.
  Qed.
  Definition nlive (dst : shard) (pt : by_parts) (mode : bool) (staged : list (shard * ekey)) (k : ekey) (a : raddr) : bool :=
    live staged k a && negb (hit dst pt mode staged k && contains dst a).
  Definition with_force (b : sbase) (f : all_shards) : sbase := SBase (sb_log b) f (sb_reads b).

  Lemma agree_handle dst pt mode staged m b : In dst D -> pt_ok pt -> force_ok D (sb_force b) ->
    forward (sb_force b) (aset sh_eqb dst (true, pt) (sb_force b)) ->
    agree m (live staged) b -> agree m (nlive dst pt mode staged) (with_force b (aset sh_eqb dst (true, pt) (sb_force b))).
  Proof.
    intros Hd Hp Hf Hfw [Hk He]. split; [exact Hk|]. cbn [sb_log with_force sb_force]. intros e Hi a. specialize (He e Hi a).
    set (f := sb_force b) in *. set (f' := aset sh_eqb dst (true, pt) f) in *. set (k := ap_key e) in *.
    assert (Hf' : force_ok D f') by now apply force_aset.
    unfold lval, nlive in *. destruct (done f k a) eqn:E1.
    - rewrite (done_mono contains f f' k a (proj1 Hf) (proj1 Hf') Hfw E1). destruct (live staged k a); cbn [andb]; auto.
      destruct (negb _); auto.
    - destruct (done f' k a) eqn:E2.
      + apply (done_iff contains) in E2 as (d & H1 & H2); [|exact (proj1 Hf')]. unfold f' in H2. rewrite fcov_aset in H2. cbn [snd] in H2.
        destruct (sh_eqb_spec d dst) as [->|].
        * destruct (live staged k a) eqn:El; cbn [andb]; auto. rewrite H1. unfold hit. rewrite H2. cbn [andb].
          destruct (mode && _) eqn:Em; cbn [negb andb]; auto. exfalso.
          apply andb_true_iff in Em as [_ Em]. apply staged_has in Em.
          assert (live staged k a = false) by (apply live_split; eauto). congruence.
        * exfalso. assert (done f k a = true) by (apply (done_iff contains); [exact (proj1 Hf)|eauto]). congruence.
      + assert (Hc : hit dst pt mode staged k && contains dst a = false).
        { destruct (contains dst a) eqn:Ec; [|now rewrite andb_false_r]. unfold hit. destruct (covers pt k) eqn:Ek; auto. exfalso.
          assert (done f' k a = true). { apply (done_iff contains); [exact (proj1 Hf')|]. exists dst. split; auto. unfold f'. rewrite fcov_aset. now rewrite sh_eqb_refl. }
          congruence. }
        rewrite Hc. cbn [negb]. rewrite andb_true_r. exact He.
  Qed.

  Lemma retain_get dst pt m k a : NoDup (akeys m) ->
    sval (retain_pass contains dst pt m) k a = if covers pt k && contains dst a then 0 else sval m k a.
  Proof.
    intros Hn. unfold sval, retain_pass. induction m as [|[k' st] m IH].
    - cbn. now destruct (covers pt k && contains dst a).
    - unfold akeys in Hn. cbn [map fst] in Hn. inversion Hn as [|? ? Hni Hn2]; subst. specialize (IH Hn2).
      cbn [map filter fst snd]. set (st' := if covers pt k' then filter _ st else st).
      assert (Hst : forall b, cnt st' b = if covers pt k' && contains dst b then 0 else cnt st b).
      { intros b. unfold st'. destruct (covers pt k'); cbn [andb]; auto. rewrite (cnt_filter (fun x => negb (contains dst x))). now destruct (contains dst b). }
      cbn [aget]. destruct (ek_eqb_spec k k') as [E|Hne].
      + rewrite <- E in *. destruct (negb _) eqn:Eb.
        * cbn [aget]. destruct (ek_eqb_spec k k); [|congruence]. apply Hst.
        * rewrite IH. assert (Hz : cnt st' a = 0).
          { apply negb_false_iff in Eb. destruct (pt_to pt k); [|discriminate]. destruct st'; [reflexivity|discriminate]. }
          rewrite Hst in Hz. destruct (covers pt k && contains dst a); auto.
          apply (aget_none ek_eqb ek_eqb_spec) in Hni. rewrite Hni. auto.
      + destruct (negb _); auto. cbn [aget]. destruct (ek_eqb_spec k k'); [congruence|]. apply IH.
  Qed.
  Lemma retain_keys dst pt m : (forall k, In k (akeys (retain_pass contains dst pt m)) -> In k (akeys m)) /\
    (stats_ok m -> stats_ok (retain_pass contains dst pt m)).
  Proof.
    unfold retain_pass, stats_ok, akeys. set (g := fun e : ekey * astats => (fst e, _)).
    assert (E : map fst (map g m) = map fst m) by (rewrite map_map; reflexivity). split.
    - intros k Hk. apply in_map_iff in Hk as (e & <- & Hi). apply filter_In in Hi as [Hi _]. rewrite <- E. now apply in_map.
    - intros [Hn Ho]. split; [apply filter_nodup; exact (eq_ind_r (fun l => NoDup l) Hn E)|].
      intros k st Hi. apply filter_In in Hi as [Hi _]. apply in_map_iff in Hi as ((k' & st') & Eg & Hi). unfold g in Eg. cbn [fst snd] in Eg.
      injection Eg as <- <-. destruct (Ho _ _ Hi) as [H1 H2]. destruct (covers pt k'); auto. split; [now apply filter_nodup|].
      intros a n Ha. apply filter_In in Ha as [Ha _]. eauto.
  Qed.
  Lemma agree_retain dst pt m lv b : NoDup (akeys m) -> agree m (fun k a => lv k a && negb (covers pt k && contains dst a)) b ->
    agree (retain_pass contains dst pt m) lv b.
  Proof.
    intros Hn [Hk He]. split.
    - intros k Hi. apply Hk. now apply retain_keys in Hi.
    - intros e Hi a. rewrite <- (He e Hi a). unfold lval. rewrite retain_get by auto.
      destruct (lv (ap_key e) a); cbn [andb]; auto. destruct (covers pt (ap_key e) && contains dst a); auto.
  Qed.

  Lemma log_ok_force b f : log_ok b -> forward (sb_force b) f -> log_ok (with_force b f).
  Proof. intros [H1 H2] Hf. split; auto. cbn [with_force sb_log sb_force]. intros e Hi. destruct (H2 e Hi) as [A B]. split; auto. intros d k Hc. apply Hf, B, Hc. Qed.
  Lemma received_force b f p a : received contains (with_force b f) p a = received contains b p a.
  Proof. reflexivity. Qed.

  Lemma handle_ok dst pt c b : In dst D -> pt_ok pt ->
    forward (sb_force b) (aset sh_eqb dst (true, pt) (sb_force b)) ->
    core (tx_staged c) c b -> match cu_tx c with Some x => staged_ok b (x_upd x) (x_staged x) | None => True end ->
    exists c', handle_update contains dst pt c = Some c' /\
      core (tx_staged c') c' (with_force b (aset sh_eqb dst (true, pt) (sb_force b))) /\ rsame (cu_res c) (cu_res c') /\
      cu_for c' = cu_for c /\
      cu_all c' = aset sh_eqb dst (true, pt) (cu_all c) /\
      match cu_tx c, cu_tx c' with
      | None, None => True
      | Some x, Some x' => staged_ok (with_force b (aset sh_eqb dst (true, pt) (sb_force b))) (x_upd x') (x_staged x') /\
                           cu_stats c' = cu_stats c /\ x_added x' = x_added x /\ x_newp x' = x_newp x /\ x_all x' = x_all x
      | _, _ => False
      end.
  Proof.
    intros Hd Hp Hfw Hc Hst. pose proof Hc as [K1 K2 K3 K4 K5 K6 K7 K8 K9 K10 K11 K12].
    set (f' := aset sh_eqb dst (true, pt) (sb_force b)) in *. set (b' := with_force b f').
    unfold handle_update. rewrite K1.
    set (mode := match cu_tx c with Some _ => true | None => false end). fold (tx_staged c).
    set (staged := tx_staged c) in *.
    destruct (pass_ok contains for_ dst pt mode (for_dst dst Hd) (cu_stats c) (cu_res c) staged (fun _ _ => 0) (live staged))
      as (res' & staged' & E & W & Sm & Q & R & Est & V); auto.
    - apply K6.
    - intros k st Hi. destruct (proj2 K6 k st Hi) as [A B]. split; auto. split; auto. rewrite K7. apply existsb_exists.
      apply (in_map fst) in Hi. apply (proj1 K8) in Hi. apply in_map_iff in Hi as (e & Ek & Hi). exists e. split; auto. cbn [fst] in Ek. rewrite Ek. apply N.eqb_refl.
    - intros p a. rewrite K11, (lsum_unprocessed (cu_stats c) (live staged) b); [lia|apply K6|apply K5|auto].
    - intros k st a Hi Hh Ha. destruct (live staged k a) eqn:El; auto. exfalso. apply live_split in El as (d & Hs & Hda).
      unfold staged, tx_staged, mode in *. destruct (cu_tx c) as [x|]; [|destruct Hs].
      destruct Hst as (_ & S1 & _). destruct (S1 _ _ Hs) as [Hdd _].
      rewrite (Hdisj d dst a Hdd Hd Hda Ha) in Hs. apply staged_has in Hs. unfold hit in Hh. rewrite Hs in Hh. now rewrite andb_false_r in Hh.
    - rewrite E. eexists; split; [reflexivity|]. cbn [cu_for cu_all cu_stats cu_res cu_tx].
      pose proof (agree_handle dst pt mode staged (cu_stats c) b Hd Hp K3 Hfw K8) as Ha. fold f' b' in Ha.
      assert (Hf' : force_ok D f') by now apply force_aset.
      assert (Hiv : forall p a, iv res' p a = unprocessed contains b' p a).
      { intros p a. rewrite V, N.add_0_l. apply (lsum_unprocessed (cu_stats c) (nlive dst pt mode staged) b'); [apply K6|apply K5|auto]. }
      assert (Hpart : forall p, amem N.eqb p res' = existsb (fun e => ek_part (ap_key e) =? p) (sb_log b)).
      { intros p. rewrite <- K7. unfold amem. destruct Sm as [Sk _].
        destruct (aget N.eqb p res') eqn:G1; destruct (aget N.eqb p (cu_res c)) eqn:G2; auto; exfalso.
        - apply (aget_none N.eqb N.eqb_spec) in G2. rewrite <- Sk in G2. apply (aget_none N.eqb N.eqb_spec) in G2. congruence.
        - apply (aget_none N.eqb N.eqb_spec) in G1. rewrite Sk in G1. apply (aget_none N.eqb N.eqb_spec) in G1. congruence. }
      assert (Hcov : forall d k, fcov (aset sh_eqb dst (true, pt) (cu_all c)) d k = fcov f' d k).
      { intros d k. unfold f'. rewrite !fcov_aset. destruct (sh_eqb d dst); auto. }
      assert (Hst' : mode = true -> forall k a, In k (akeys (cu_stats c)) -> live staged' k a = nlive dst pt mode staged k a).
      { intros Hm k a Hk. unfold nlive. unfold StatsCum.live. rewrite Est, Hm, stagedb_app, negb_orb. f_equal. f_equal.
        apply eq_true_iff_eq. unfold StatsCum.stagedb. rewrite existsb_exists, andb_true_iff. split.
        - intros ((d & k') & Hi & H). apply in_map_iff in Hi as ((k2 & st2) & Ei & Hi). cbn [fst] in Ei. injection Ei as <- <-. cbn [fst snd] in H.
          apply andb_true_iff in H as [H1 H2]. destruct (ek_eqb_spec k2 k); [subst k2|discriminate].
          apply filter_In in Hi as [_ Hi]. cbn [fst] in Hi. auto.
        - intros [H1 H2]. exists (dst, k). cbn [fst snd]. split; [|rewrite H2; destruct (ek_eqb_spec k k); auto].
          apply in_map_iff in Hk as ((k2 & st2) & Ek & Hi). cbn [fst] in Ek. subst k2. apply in_map_iff. exists (k, st2). split; auto.
          apply filter_In. split; auto. }
      split; [|split; [exact Sm|split; [auto|split; [reflexivity|]]]].
      + unfold tx_staged. cbn [cu_tx]. unfold staged, mode, tx_staged in *. destruct (cu_tx c) as [x|] eqn:Ex; cbn [x_staged];
          constructor; cbn [cu_for cu_all cu_stats cu_res sb_force sb_log sb_reads with_force]; auto.
        * now apply force_aset.
        * now apply log_ok_force.
        * destruct Ha as [A1 A2]. split; auto. intros e Hi a. rewrite <- (A2 e Hi a). unfold lval.
          destruct (aget ek_eqb (ap_key e) (cu_stats c)) as [st|] eqn:Eg.
          -- rewrite Hst'; auto. apply (aget_some_in ek_eqb ek_eqb_spec) in Eg. now apply (in_map fst) in Eg.
          -- unfold sval. rewrite Eg. destruct (live staged' (ap_key e) a), (nlive dst pt true (x_staged x) (ap_key e) a); auto.
        * intros p a Hca. rewrite R by auto. now apply K12.
        * now apply force_aset.
        * now apply log_ok_force.
        * now apply retain_keys.
        * apply agree_retain; [apply K6|]. destruct Ha as [A1 A2]. split; auto. intros e Hi a. rewrite <- (A2 e Hi a). unfold lval, nlive, hit.
          cbn [andb existsb negb]. now rewrite andb_true_r.
        * intros p a Hca. rewrite R by auto. now apply K12.
      + unfold mode, staged, tx_staged in *. destruct (cu_tx c) as [x|]; auto. cbn [x_added x_newp x_all x_upd x_staged].
        split; auto. destruct Hst as (S0 & S1 & S3). split; [now apply (aset_nodup sh_eqb sh_eqb_spec)|]. split.
        * intros d k Hi. rewrite Est in Hi. apply in_app_or in Hi as [Hi|Hi].
          -- destruct (S1 d k Hi) as (A & pt0 & A1 & A2). split; auto. rewrite (aget_aset sh_eqb sh_eqb_spec).
             destruct (sh_eqb_spec d dst) as [->|]; [|eauto]. exists pt. split; auto.
             specialize (Hfw dst k (S3 _ _ _ A1 A2)). unfold f' in Hfw. rewrite fcov_aset in Hfw. now rewrite sh_eqb_refl in Hfw.
          -- apply in_map_iff in Hi as ((k2 & st2) & Ei & Hi). cbn [fst] in Ei. injection Ei as <- <-. split; auto.
             exists pt. rewrite (aget_aset sh_eqb sh_eqb_spec), sh_eqb_refl. split; auto.
             apply filter_In in Hi as [_ Hi]. cbn [fst] in Hi. unfold hit in Hi. now apply andb_true_iff in Hi as [Hi _].
        * change (sb_force b') with f'. intros d pt0 k. rewrite (aget_aset sh_eqb sh_eqb_spec). destruct (sh_eqb_spec d dst) as [->|].
          -- intros Ei Hk. injection Ei as <-. unfold f'. rewrite fcov_aset. now rewrite sh_eqb_refl.
          -- intros Ei Hk. apply Hfw. eauto.
  Qed.
End Inv.
