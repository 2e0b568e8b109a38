(** Lemmas for StatsProps: CumulativeStatistics. *)
From Verif Require Import StatsSpec StatsProofs RouterProofs QueueKeysProofs QueueStoreProofs ProcProofs.
From Coq Require Import ZArith ZifyN ZifyBool Lia.
Local Open Scope N_scope.

Lemma qk_eqb_spec a b : reflect (a = b) (qk_eqb a b).
Proof.
  unfold qk_eqb. destruct a as [l h], b as [l' h']; cbn [qk_lt qk_hash].
  destruct (N.eqb_spec l l'), (N.eqb_spec h h'); cbn; constructor; congruence.
Qed.
Lemma ek_eqb_spec a b : reflect (a = b) (ek_eqb a b).
Proof.
  unfold ek_eqb, ek_src, ek_part, ek_max. destruct a as [[s p] k], b as [[s' p'] k']; cbn [fst snd].
  destruct (sh_eqb_spec s s'), (N.eqb_spec p p'), (qk_eqb_spec k k'); cbn; constructor; congruence.
Qed.

(** sums over two lists of keys *)
Lemma lsum_map {A B} (f : B -> N) (g : A -> B) l : lsum f (map g l) = lsum (fun x => f (g x)) l.
Proof. induction l as [|x l IH]; cbn [map]; rewrite ?lsum_cons; auto. now rewrite IH. Qed.
Lemma lsum_remove (F : ekey -> N) k l : NoDup l -> In k l -> lsum F l = F k + lsum F (remove (fun a b => match ek_eqb_spec a b with ReflectT _ e => left e | ReflectF _ e => right e end) k l).
Proof.
  set (dec := fun a b => _). induction l as [|x l IH]; intros Hn Hi; [destruct Hi|]. inversion Hn as [|? ? Hx Hn2]; subst.
  cbn [remove]. destruct (dec k x) as [e|e].
  - subst x. rewrite lsum_cons. rewrite notin_remove by auto. reflexivity.
  - destruct Hi as [->|Hi]; [congruence|]. rewrite !lsum_cons, (IH Hn2 Hi). lia.
Qed.
Lemma lsum_keys (F : ekey -> N) l : forall m, NoDup l -> NoDup m -> (forall k, In k m -> In k l) ->
  (forall k, In k l -> ~ In k m -> F k = 0) -> lsum F m = lsum F l.
Proof.
  induction l as [|k l IH]; intros m Hl Hm Hs Hz.
  - destruct m as [|x m]; auto. destruct (Hs x); cbn; auto.
  - inversion Hl as [|? ? Hk Hl2]; subst. rewrite lsum_cons.
    set (dec := fun a b : ekey => match ek_eqb_spec a b with ReflectT _ e => left e | ReflectF _ e => right e end).
    destruct (in_dec dec k m) as [Hi|Hi].
    + rewrite (lsum_remove F k m Hm Hi). fold dec. rewrite (IH (remove dec k m)); auto.
      * clear - Hm. induction m as [|x m IHm]; cbn [remove]; [constructor|]. inversion Hm; subst.
        destruct (dec k x); auto. constructor; auto. intros Hc. apply in_remove in Hc. tauto.
      * intros x Hx. apply in_remove in Hx as [Hx Hne]. destruct (Hs x Hx); [congruence|auto].
      * intros x Hx Hn. apply Hz; [cbn; auto|]. intros Hc. apply Hn. apply in_in_remove; auto. intros ->. auto.
    + rewrite (Hz k) by (cbn; auto). rewrite (IH m); auto.
      * intros x Hx. destruct (Hs x Hx); [subst; contradiction|auto].
      * intros x Hx. apply Hz. cbn; auto.
Qed.

Lemma nodup_map_in {A B} (f : A -> B) l x y : NoDup (map f l) -> In x l -> In y l -> f x = f y -> x = y.
Proof.
  induction l as [|z l IH]; cbn [map In]; [tauto|]. intros H Hx Hy E. inversion H as [|? ? Hn H2]; subst.
  destruct Hx as [->|Hx], Hy as [->|Hy]; auto.
  - exfalso. apply Hn. rewrite E. now apply in_map.
  - exfalso. apply Hn. rewrite <- E. now apply in_map.
Qed.

Section Cum.
  Variable contains : shard -> raddr -> bool.
  Local Notation done := (done contains).

  Lemma done_iff f k a : NoDup (akeys f) -> done f k a = true <-> exists d, contains d a = true /\ fcov f d k = true.
  Proof.
    intros Hn. unfold StatsSpec.done. rewrite existsb_exists. split.
    - intros (e & _ & H). apply andb_true_iff in H. exists (fst e). tauto.
    - intros (d & H1 & H2). pose proof H2 as H3. unfold fcov in H3. destruct (aget sh_eqb d f) as [v|] eqn:E; [|discriminate].
      apply (aget_some_in sh_eqb sh_eqb_spec) in E. exists (d, v). split; auto. cbn [fst]. now rewrite H1, H2.
  Qed.
  Lemma done_ext f g k a : NoDup (akeys f) -> NoDup (akeys g) -> (forall d k, fcov f d k = fcov g d k) -> done f k a = done g k a.
  Proof.
    intros Hf Hg E. apply eq_true_iff_eq. rewrite !done_iff by auto. split; intros (d & H1 & H2); exists d; rewrite ?E in *; auto; rewrite <- E; auto.
  Qed.
  Lemma done_mono f g k a : NoDup (akeys f) -> NoDup (akeys g) -> forward f g -> done f k a = true -> done g k a = true.
  Proof. intros Hf Hg E. rewrite !done_iff by auto. intros (d & H1 & H2). exists d. auto. Qed.
  Lemma fcov_aset f d v k d' : fcov (aset sh_eqb d v f) d' k = if sh_eqb d' d then covers (snd v) k else fcov f d' k.
  Proof. unfold fcov. rewrite (aget_aset sh_eqb sh_eqb_spec). destruct (sh_eqb d' d); auto. now destruct v. Qed.

  (** ** Statistics of a diff after apply *)
  Definition afilter (f : all_shards) (k : ekey) (st : astats) : astats :=
    fold_left (fun (st : astats) (e : shard * (bool * by_parts)) =>
                 if covers (snd (snd e)) k then filter (fun x : raddr * N => negb (contains (fst e) (fst x))) st else st) f st.
  Lemma afilter_ok f k : forall st, NoDup (akeys st) -> (forall a n, In (a, n) st -> 0 < n) ->
    NoDup (akeys (afilter f k st)) /\ (forall a n, In (a, n) (afilter f k st) -> 0 < n) /\
    forall a, cnt (afilter f k st) a =
      if existsb (fun e : shard * (bool * by_parts) => contains (fst e) a && covers (snd (snd e)) k) f then 0 else cnt st a.
  Proof.
    unfold afilter. induction f as [|[d v] f IH]; intros st Hn Hp; cbn [fold_left fst snd existsb]; auto.
    destruct (covers (snd v) k) eqn:Ec.
    - destruct (IH (filter (fun x => negb (contains d (fst x))) st)) as (H1 & H2 & H3).
      + now apply filter_nodup.
      + intros a n Hi. apply filter_In in Hi as [Hi _]. eauto.
      + split; auto. split; auto. intros a. rewrite H3. rewrite (cnt_filter (fun b => negb (contains d b))).
        destruct (contains d a); cbn [andb orb negb]; auto. now destruct (existsb _ f).
    - destruct (IH st Hn Hp) as (H1 & H2 & H3). split; auto. split; auto. intros a. rewrite H3. now rewrite andb_false_r.
  Qed.
  Lemma exists_done f k a : NoDup (akeys f) ->
    existsb (fun e : shard * (bool * by_parts) => contains (fst e) a && covers (snd (snd e)) k) f = done f k a.
  Proof.
    intros Hn. apply eq_true_iff_eq. rewrite done_iff by auto. rewrite existsb_exists. split.
    - intros ((d & b & pt) & Hi & H). cbn [fst snd] in H. apply andb_true_iff in H as [H1 H2]. exists d. split; auto.
      apply (aget_in sh_eqb sh_eqb_spec) in Hi; auto. unfold fcov. now rewrite Hi.
    - intros (d & H1 & H2). unfold fcov in H2. destruct (aget sh_eqb d f) as [[b pt]|] eqn:E; [|discriminate].
      apply (aget_some_in sh_eqb sh_eqb_spec) in E. exists (d, (b, pt)). split; auto. cbn [fst snd]. now rewrite H1, H2.
  Qed.

  (** ** Values in the result table *)
  Definition iv (res : amap N pstats) (p : N) (a : raddr) : N := match aget N.eqb p res with Some s => qv (fst s) a | None => 0 end.
  Definition rv (res : amap N pstats) (p : N) (a : raddr) : N := match aget N.eqb p res with Some s => qv (tr_stats (snd s)) a | None => 0 end.
  Definition pwf (for_ : shard) (s : pstats) : Prop := qwf (fst s) /\ twf contains for_ (snd s).
  Definition psame (s s' : pstats) : Prop := qsame (fst s) (fst s') /\ tsame (snd s) (snd s').
  Lemma psame_refl s : psame s s.
  Proof. repeat split; auto. Qed.
  Lemma psame_trans a b c : psame a b -> psame b c -> psame a c.
  Proof. intros [H1 [H2 H3]] [H4 [H5 H6]]. split; [eapply qsame_trans; eauto|]. split; [eapply qsame_trans; eauto|congruence]. Qed.

  (** ** The decrements for one diff *)
  Lemma dec_fold for_ dst st : (sh_eqb for_ dst = false -> forall a, contains dst a = true -> contains for_ a = false) ->
    forall s, NoDup (akeys st) -> (forall a n, In (a, n) st -> 0 < n) -> pwf for_ s ->
    (forall a, contains dst a = true -> cnt st a <= qv (fst s) a) ->
    (forall a, contains for_ a = false -> qv (tr_stats (snd s)) a = qv (fst s) a) ->
    exists s', fold_left (dec_one contains for_ dst) st (Some s) = Some s' /\ pwf for_ s' /\ psame s s' /\
      (forall b, qv (fst s') b = qv (fst s) b - (if contains dst b then cnt st b else 0)) /\
      (forall b, qv (tr_stats (snd s')) b = if contains for_ b then qv (tr_stats (snd s)) b else qv (fst s') b).
  Proof.
    intros Hd. induction st as [|[a n] st IH]; intros s Hn Hp Hw Hle Heq.
    - exists s. cbn [fold_left]. split; auto. split; auto. split; [apply psame_refl|]. split.
      + intros b. cbn. destruct (contains dst b); lia.
      + intros b. destruct (contains for_ b) eqn:E; auto.
    - unfold akeys in Hn. cbn [map fst] in Hn. inversion Hn as [|? ? Hni Hn2]; subst. cbn [fold_left]. unfold dec_one at 2. cbn [fst snd].
      assert (Hp2 : forall a n, In (a, n) st -> 0 < n) by (intros; eapply Hp; right; eauto).
      assert (H0 : 0 < n) by (apply (Hp a n); left; auto).
      destruct (contains dst a) eqn:Ec.
      + assert (Hna : n <= qv (fst s) a). { specialize (Hle a Ec). rewrite cnt_cons, (eqb_refl' ra_eqb ra_eqb_spec) in Hle. auto. }
        destruct Hw as [Hw1 Hw2]. destruct (qs_dec_ok a n (fst s) Hw1 H0 Hna) as (q' & -> & Q1 & Q2 & Q3).
        assert (Hst : forall b, qv q' b - (if contains dst b then cnt st b else 0) = qv (fst s) b - (if contains dst b then cnt ((a, n) :: st) b else 0)).
        { intros b. rewrite Q3, cnt_cons. destruct (ra_eqb_spec b a) as [E|]; auto. rewrite E. rewrite Ec, (cnt_notin a st) by auto. lia. }
        assert (Hle2 : forall b, contains dst b = true -> cnt st b <= qv q' b).
        { intros b Hb. rewrite Q3. specialize (Hle b Hb). rewrite cnt_cons in Hle. destruct (ra_eqb_spec b a) as [E|]; auto.
          rewrite E, (cnt_notin a st) by auto. lia. }
        destruct (sh_eqb for_ dst) eqn:Ef.
        * destruct (sh_eqb_spec for_ dst) as [->|]; [|discriminate].
          destruct (IH (q', snd s) Hn2 Hp2) as (s' & E & W & Sm & V1 & V2); cbn [fst snd]; auto.
          { split; auto. }
          { intros b Hb. rewrite Heq, Q3 by auto. destruct (ra_eqb_spec b a) as [E|]; auto. congruence. }
          exists s'. split; auto. split; auto. split; [eapply psame_trans; [|eauto]; split; auto; split; auto using qsame_refl|].
          split; [intros b; rewrite V1; cbn [fst]; apply Hst|]. intros b. now rewrite V2.
        * pose proof (Hd eq_refl a Ec) as Hfa.
          assert (Hna2 : n <= qv (tr_stats (snd s)) a) by (rewrite Heq; auto).
          destruct (tr_dec_ok contains for_ a n (snd s) Hw2 H0 Hna2) as (t' & -> & T1 & T2 & T3).
          destruct (IH (q', t') Hn2 Hp2) as (s' & E & W & Sm & V1 & V2); cbn [fst snd]; auto.
          { split; auto. }
          { intros b Hb. rewrite T3, Q3. destruct (ra_eqb b a); [now rewrite Heq|auto]. }
          exists s'. split; auto. split; auto. split; [eapply psame_trans; [|eauto]; split; auto|].
          split; [intros b; rewrite V1; cbn [fst]; apply Hst|]. intros b. rewrite V2. cbn [snd]. destruct (contains for_ b) eqn:Eb; auto.
          rewrite T3. destruct (ra_eqb_spec b a) as [E2|]; auto. congruence.
      + destruct (IH s Hn2 Hp2 Hw) as (s' & E & W & Sm & V1 & V2); auto.
        { intros b Hb. specialize (Hle b Hb). rewrite cnt_cons in Hle. destruct (ra_eqb_spec b a) as [E|]; auto.
          rewrite E, (cnt_notin a st) by auto. lia. }
        exists s'. split; auto. split; auto. split; auto. split; auto. intros b. rewrite V1, cnt_cons.
        destruct (ra_eqb_spec b a) as [E2|]; auto. rewrite E2. now rewrite Ec.
  Qed.

  (** ** The pass over all diffs *)
  (** contribution of one entry to (p, a), restricted to live accounts *)
  Definition ec (lv : ekey -> raddr -> bool) (p : N) (a : raddr) (e : ekey * astats) : N :=
    if (ek_part (fst e) =? p) && lv (fst e) a then cnt (snd e) a else 0.
  Definition stagedb (staged : list (shard * ekey)) (k : ekey) (a : raddr) : bool :=
    existsb (fun x : shard * ekey => ek_eqb (snd x) k && contains (fst x) a) staged.
  Definition live (staged : list (shard * ekey)) (k : ekey) (a : raddr) : bool := negb (stagedb staged k a).

  (** result tables that only differ in operations of the running transaction *)
  Definition rsame (r r' : amap N pstats) : Prop :=
    akeys r' = akeys r /\ Forall2 (fun e e' : N * pstats => fst e = fst e' /\ psame (snd e) (snd e')) r r'.
  Lemma rsame_refl r : rsame r r.
  Proof. split; auto. induction r; constructor; auto. split; auto using psame_refl. Qed.
  Lemma rsame_trans a b c : rsame a b -> rsame b c -> rsame a c.
  Proof.
    intros [H1 H2] [H3 H4]. split; [congruence|]. clear H1 H3. revert c H4. induction H2 as [|x y l l' [E1 E2] Hf IH]; intros c H4; inversion H4 as [|? z ? l'' [E3 E4] Hf2]; subst; constructor; auto.
    split; [congruence|]. eapply psame_trans; eauto.
  Qed.
  Lemma rsame_aset p s s' r : aget N.eqb p r = Some s -> psame s s' -> rsame r (aset N.eqb p s' r).
  Proof.
    intros H Hs. induction r as [|[q t] r IH]; cbn [aget aset] in *; [discriminate|].
    destruct (N.eqb_spec p q) as [->|].
    - injection H as ->. split; [reflexivity|]. constructor; [split; auto|]. apply rsame_refl.
    - destruct (IH H) as [E1 E2]. split; [cbn; now f_equal|]. constructor; auto. split; auto using psame_refl.
  Qed.

  Definition rwf (for_ : shard) (res : amap N pstats) : Prop := NoDup (akeys res) /\ forall p s, aget N.eqb p res = Some s -> pwf for_ s.
  (** accounts of other shards: the remaining count is the initial one *)
  Definition req (for_ : shard) (res : amap N pstats) : Prop := forall p a, contains for_ a = false -> rv res p a = iv res p a.

  Lemma amem_ekey m k : amem ek_eqb k m = true <-> In k (akeys (V := astats) m).
  Proof.
    unfold amem. destruct (aget ek_eqb k m) eqn:E.
    - split; auto. intros _. apply (aget_some_in ek_eqb ek_eqb_spec) in E. now apply (in_map fst) in E.
    - apply (aget_none ek_eqb ek_eqb_spec) in E. split; [discriminate|contradiction].
  Qed.

  Lemma stagedb_app s1 s2 k a : stagedb (s1 ++ s2) k a = stagedb s1 k a || stagedb s2 k a.
  Proof. apply existsb_app. Qed.

  (** one entry *)
  Lemma dec_entry_ok for_ dst k st res : (sh_eqb for_ dst = false -> forall a, contains dst a = true -> contains for_ a = false) ->
    NoDup (akeys st) -> (forall a n, In (a, n) st -> 0 < n) -> rwf for_ res -> req for_ res -> amem N.eqb (ek_part k) res = true ->
    (forall a, contains dst a = true -> cnt st a <= iv res (ek_part k) a) ->
    exists res', dec_entry contains for_ dst k st res = Some res' /\ rwf for_ res' /\ rsame res res' /\ req for_ res' /\
      (forall p a, iv res' p a = iv res p a - (if (ek_part k =? p) && contains dst a then cnt st a else 0)) /\
      (forall p a, contains for_ a = true -> rv res' p a = rv res p a).
  Proof.
    intros Hd Hn Hp [Hk Hw] Hq Hm Hle. unfold dec_entry. unfold amem in Hm. unfold iv in Hle.
    destruct (aget N.eqb (ek_part k) res) as [s|] eqn:E; [|discriminate].
    destruct (dec_fold for_ dst st Hd s Hn Hp (Hw _ _ E) Hle) as (s' & Ef & W & Sm & V1 & V2).
    { intros a Ha. specialize (Hq (ek_part k) a Ha). unfold rv, iv in Hq. now rewrite E in Hq. }
    rewrite Ef. eexists; split; [reflexivity|]. split; [split|].
    - now apply (aset_nodup N.eqb N.eqb_spec).
    - intros p t. rewrite (aget_aset N.eqb N.eqb_spec). destruct (N.eqb_spec p (ek_part k)); [intros Et; injection Et as <-; auto|apply Hw].
    - split; [eapply rsame_aset; eauto|]. split; [|split].
      + intros p a Ha. unfold rv, iv. rewrite (aget_aset N.eqb N.eqb_spec). destruct (N.eqb_spec p (ek_part k)) as [->|].
        * rewrite V2, Ha. auto.
        * apply Hq; auto.
      + intros p a. unfold iv. rewrite (aget_aset N.eqb N.eqb_spec). rewrite (N.eqb_sym (ek_part k) p).
        destruct (N.eqb_spec p (ek_part k)) as [->|]; cbn [andb]; [rewrite E; apply V1|]. destruct (aget N.eqb p res); lia.
      + intros p a Ha. unfold rv. rewrite (aget_aset N.eqb N.eqb_spec). destruct (N.eqb_spec p (ek_part k)) as [->|]; auto. rewrite E, V2, Ha. auto.
  Qed.

  (** the entries which the pass newly decrements *)
  Definition hit (dst : shard) (pt : by_parts) (mode : bool) (staged : list (shard * ekey)) (k : ekey) : bool :=
    covers pt k && negb (mode && existsb (fun x => sh_eqb (fst x) dst && ek_eqb (snd x) k) staged).
  Lemma hit_app dst pt mode staged k k' : k <> k' -> hit dst pt mode (staged ++ [(dst, k')]) k = hit dst pt mode staged k.
  Proof.
    intros Hne. unfold hit. rewrite existsb_app. cbn [existsb fst snd]. destruct (ek_eqb_spec k' k); [congruence|].
    now rewrite andb_false_r, !orb_false_r.
  Qed.
  Lemma pass_ok for_ dst pt mode : (sh_eqb for_ dst = false -> forall a, contains dst a = true -> contains for_ a = false) ->
    forall es res staged (extra : N -> raddr -> N) (lv : ekey -> raddr -> bool),
    NoDup (akeys es) -> (forall k st, In (k, st) es -> NoDup (akeys st) /\ (forall a n, In (a, n) st -> 0 < n) /\ amem N.eqb (ek_part k) res = true) ->
    rwf for_ res -> req for_ res ->
    (forall p a, iv res p a = extra p a + lsum (ec lv p a) es) ->
    (forall k st a, In (k, st) es -> hit dst pt mode staged k = true -> contains dst a = true -> lv k a = true) ->
    exists res' staged', fold_left (dec_pass_step contains for_ dst pt mode) es (Some (res, staged)) = Some (res', staged') /\
      rwf for_ res' /\ rsame res res' /\ req for_ res' /\
      (forall p a, contains for_ a = true -> rv res' p a = rv res p a) /\
      staged' = staged ++ (if mode then map (fun e => (dst, fst e)) (filter (fun e => hit dst pt mode staged (fst e)) es) else []) /\
      (forall p a, iv res' p a = extra p a + lsum (ec (fun k a => lv k a && negb (hit dst pt mode staged k && contains dst a)) p a) es).
  Proof.
    intros Hd. induction es as [|[k st] es IH]; intros res staged extra lv Hn He Hw Hq Hv Hl.
    - exists res, staged. cbn [fold_left filter map]. split; auto. split; auto. split; [apply rsame_refl|]. split; auto. split; auto.
      split; [destruct mode; now rewrite app_nil_r|]. intros p a. rewrite Hv. reflexivity.
    - unfold akeys in Hn. cbn [map fst] in Hn. inversion Hn as [|? ? Hni Hn2]; subst.
      destruct (He k st (or_introl eq_refl)) as (Hs1 & Hs2 & Hs3).
      assert (Hne : forall k2 st2, In (k2, st2) es -> k2 <> k). { intros k2 st2 Hi ->. apply Hni. now apply (in_map fst) in Hi. }
      cbn [fold_left]. unfold dec_pass_step at 2. cbn [fst snd].
      assert (Hc : hit dst pt mode staged k = true \/ hit dst pt mode staged k = false) by (destruct (hit _ _ _ _ _); auto).
      assert (Hcase : forall T (x y : T), (if covers pt k then if mode && existsb (fun x => sh_eqb (fst x) dst && ek_eqb (snd x) k) staged then x else y else x)
                      = if hit dst pt mode staged k then y else x).
      { intros T x y. unfold hit. destruct (covers pt k); cbn [andb]; auto. now destruct (mode && _). }
      rewrite Hcase. clear Hcase. destruct Hc as [Hc|Hc]; rewrite Hc.
      + destruct (dec_entry_ok for_ dst k st res Hd Hs1 Hs2 Hw Hq Hs3) as (res1 & E1 & W1 & Sm1 & Q1 & V1 & R1).
        { intros a Ha. rewrite Hv, lsum_cons. unfold ec at 1. cbn [fst snd]. rewrite N.eqb_refl. cbn [andb].
          rewrite (Hl k st a (or_introl eq_refl) Hc Ha). lia. }
        rewrite E1.
        destruct (IH res1 (if mode then staged ++ [(dst, k)] else staged)
                    (fun p a => extra p a + ec (fun k a => lv k a && negb (contains dst a)) p a (k, st)) lv) as (res' & staged' & E & W & Sm & Q & R & Est & V); auto.
        * intros k2 st2 Hi. destruct (He k2 st2 (or_intror Hi)) as (A1 & A2 & A3). split; auto. split; auto.
          unfold amem in *. destruct (aget N.eqb (ek_part k2) res1) eqn:Eg; auto. exfalso.
          apply (aget_none N.eqb N.eqb_spec) in Eg. destruct Sm1 as [Sk _]. rewrite Sk in Eg.
          apply (aget_none N.eqb N.eqb_spec) in Eg. now rewrite Eg in A3.
        * intros p a. rewrite V1, Hv, lsum_cons. unfold ec at 1 3. cbn [fst snd].
          destruct (N.eqb_spec (ek_part k) p); cbn [andb]; [|lia].
          destruct (contains dst a) eqn:Ea; [|rewrite andb_true_r; lia]. rewrite (Hl k st a (or_introl eq_refl) Hc Ea). cbn [andb negb]. lia.
        * intros k2 st2 a Hi Hh. apply (Hl k2 st2); [right; auto|]. destruct mode; auto. rewrite hit_app in Hh; eauto.
        * exists res', staged'. split; auto. split; auto. split; [eapply rsame_trans; eauto|]. split; auto.
          split; [intros; rewrite R, R1; auto|].
          assert (Hh : forall k2 st2, In (k2, st2) es -> hit dst pt mode (if mode then staged ++ [(dst, k)] else staged) k2 = hit dst pt mode staged k2).
          { intros k2 st2 Hi. destruct mode; auto. apply hit_app. eauto. }
          split.
          -- rewrite Est. destruct mode; [|reflexivity]. cbn [filter fst]. rewrite Hc. cbn [map fst]. rewrite <- app_assoc. cbn [app]. do 2 f_equal. f_equal.
             apply filter_ext_in. intros [k2 st2] Hi. cbn [fst]. eauto.
          -- intros p a. rewrite V, lsum_cons, <- N.add_assoc. f_equal. f_equal.
             ++ unfold ec. cbn [fst snd]. now rewrite Hc.
             ++ apply lsum_ext. intros [k2 st2] Hi. unfold ec. cbn [fst snd]. now rewrite (Hh k2 st2 Hi).
      + destruct (IH res staged (fun p a => extra p a + ec lv p a (k, st)) lv) as (res' & staged' & E & W & Sm & Q & R & Est & V); auto.
        * intros k2 st2 Hi. apply He. right; auto.
        * intros p a. rewrite Hv, lsum_cons. lia.
        * intros k2 st2 a Hi. apply (Hl k2 st2). right; auto.
        * exists res', staged'. split; auto. split; auto. split; auto. split; auto. split; auto. split.
          -- rewrite Est. cbn [filter fst]. rewrite Hc. auto.
          -- intros p a. rewrite V, lsum_cons, <- N.add_assoc. f_equal. f_equal. unfold ec. cbn [fst snd]. rewrite Hc. cbn [andb negb]. now rewrite andb_true_r.
  Qed.
End Cum.
