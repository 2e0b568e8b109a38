(** Lemmas for StatsProps: QueueStatistics and TrackedQueueStatistics. *)
From Verif Require Import StatsSpec RouterProofs QueueStoreProofs.
From Coq Require Import ZArith ZifyN ZifyBool Lia.
Local Open Scope N_scope.

(** ** Sums *)
Lemma lsum_ext {T} (f g : T -> N) l : (forall x, In x l -> f x = g x) -> lsum f l = lsum g l.
Proof. induction l as [|x l IH]; cbn [lsum fold_right]; intros H; [reflexivity|]. fold (lsum f l) (lsum g l).
  rewrite H, IH; cbn; auto. intros; apply H; cbn; auto. Qed.
Lemma lsum_app {T} (f : T -> N) l1 l2 : lsum f (l1 ++ l2) = lsum f l1 + lsum f l2.
Proof. induction l1 as [|x l IH]; cbn [app lsum fold_right]; [reflexivity|]. fold (lsum f (l ++ l2)) (lsum f l). lia. Qed.
Lemma lsum_cons {T} (f : T -> N) x l : lsum f (x :: l) = f x + lsum f l.
Proof. reflexivity. Qed.
Lemma lsum_zero {T} (f : T -> N) l : (forall x, In x l -> f x = 0) -> lsum f l = 0.
Proof. induction l as [|x l IH]; cbn [lsum fold_right]; intros H; [reflexivity|]. fold (lsum f l).
  rewrite H, IH; cbn; auto. intros; apply H; cbn; auto. Qed.
Lemma lsum_le {T} (f g : T -> N) l : (forall x, In x l -> f x <= g x) -> lsum f l <= lsum g l.
Proof. induction l as [|x l IH]; cbn [lsum fold_right]; intros H; [lia|]. fold (lsum f l) (lsum g l).
  assert (f x <= g x) by (apply H; cbn; auto). assert (lsum f l <= lsum g l) by (apply IH; intros; apply H; cbn; auto). lia. Qed.
Lemma lsum_in {T} (f : T -> N) l x : In x l -> f x <= lsum f l.
Proof. induction l as [|y l IH]; cbn [In]; [tauto|]. rewrite lsum_cons. intros [->|H]; [lia|]. specialize (IH H). lia. Qed.

(** ** Values of a table *)
Lemma cnt_cons a n st b : cnt ((a, n) :: st) b = if ra_eqb b a then n else cnt st b.
Proof. unfold cnt. cbn [aget]. now destruct (ra_eqb b a). Qed.
Lemma cnt_aset a n st b : cnt (aset ra_eqb a n st) b = if ra_eqb b a then n else cnt st b.
Proof. unfold cnt. rewrite (aget_aset ra_eqb ra_eqb_spec). now destruct (ra_eqb b a). Qed.
Lemma cnt_adel a st b : cnt (adel ra_eqb a st) b = if ra_eqb b a then 0 else cnt st b.
Proof. unfold cnt. rewrite (aget_adel ra_eqb ra_eqb_spec). now destruct (ra_eqb b a). Qed.
Lemma cnt_notin a st : ~ In a (akeys st) -> cnt st a = 0.
Proof. intros H. unfold cnt. apply (aget_none ra_eqb ra_eqb_spec) in H. now rewrite H. Qed.
Lemma aget_filter_key {V} (g : raddr -> bool) (st : amap raddr V) b :
  aget ra_eqb b (filter (fun x => g (fst x)) st) = if g b then aget ra_eqb b st else None.
Proof.
  induction st as [|[a n] st IH]; cbn [filter aget fst]; [now destruct (g b)|].
  destruct (g a) eqn:E; cbn [aget]; rewrite IH; destruct (ra_eqb_spec b a) as [->|]; try rewrite E; auto.
Qed.
Lemma cnt_filter (g : raddr -> bool) st b : cnt (filter (fun x => g (fst x)) st) b = if g b then cnt st b else 0.
Proof. unfold cnt. rewrite aget_filter_key. now destruct (g b). Qed.
Lemma filter_nodup {K V} (g : K * V -> bool) (m : list (K * V)) : NoDup (map fst m) -> NoDup (map fst (filter g m)).
Proof.
  induction m as [|[k v] m IH]; cbn [filter map fst]; intros H; [constructor|]. inversion H; subst.
  destruct (g (k, v)); cbn [map fst]; auto. constructor; auto. intros Hc. apply H2.
  apply in_map_iff in Hc as (e & <- & Hin). apply filter_In in Hin as [Hin _]. now apply in_map.
Qed.

(** ** Sum of the counts of the accounts accepted by [g] *)
Definition wsum (g : raddr -> bool) (st : astats) : N := lsum (fun e : raddr * N => if g (fst e) then snd e else 0) st.
Lemma wsum_cons g a n st : wsum g ((a, n) :: st) = (if g a then n else 0) + wsum g st.
Proof. reflexivity. Qed.
Lemma wsum_adel g a st : NoDup (akeys st) -> wsum g st = wsum g (adel ra_eqb a st) + (if g a then cnt st a else 0).
Proof.
  induction st as [|[b n] st IH]; intros H.
  - cbn. now destruct (g a).
  - unfold akeys in H. cbn [map fst] in H. inversion H as [|? ? Hn H2]; subst. specialize (IH H2).
    unfold adel in *. cbn [filter fst]. rewrite cnt_cons.
    destruct (ra_eqb_spec a b) as [->|Hne]; cbn [negb]; rewrite ?wsum_cons.
    + rewrite IH, (cnt_notin b st) by assumption. destruct (g b); lia.
    + lia.
Qed.
Lemma wsum_ext g l : forall m, NoDup (akeys l) -> NoDup (akeys m) -> (forall a, cnt l a = cnt m a) -> wsum g l = wsum g m.
Proof.
  induction l as [|[a n] l IH]; intros m Hl Hm He.
  - cbn. symmetry. apply lsum_zero. intros [a n] Hin. cbn. destruct (g a); auto.
    specialize (He a). apply (aget_in ra_eqb ra_eqb_spec) in Hin; auto. unfold cnt in He. rewrite Hin in He. cbn in He. auto.
  - rewrite wsum_cons. unfold akeys in Hl. cbn [map fst] in Hl. inversion Hl as [|? ? Hn H2]; subst.
    rewrite (wsum_adel g a m Hm). rewrite <- He, cnt_cons, (eqb_refl' ra_eqb ra_eqb_spec).
    rewrite (IH (adel ra_eqb a m)); [lia|auto|now apply adel_nodup|].
    intros b. rewrite cnt_adel. specialize (He b). rewrite cnt_cons in He.
    destruct (ra_eqb_spec b a) as [E|]; [|exact He]. rewrite E. now apply cnt_notin.
Qed.
Lemma wsum_aset g a n st : NoDup (akeys st) ->
  wsum g (aset ra_eqb a n st) + (if g a then cnt st a else 0) = wsum g st + (if g a then n else 0).
Proof.
  intros H. rewrite (wsum_adel g a st H).
  rewrite (wsum_adel g a (aset ra_eqb a n st)) by (now apply (aset_nodup ra_eqb ra_eqb_spec)).
  rewrite cnt_aset, (eqb_refl' ra_eqb ra_eqb_spec).
  rewrite (wsum_ext g (adel ra_eqb a (aset ra_eqb a n st)) (adel ra_eqb a st)); [destruct (g a); lia| | |].
  - apply adel_nodup. now apply (aset_nodup ra_eqb ra_eqb_spec).
  - now apply adel_nodup.
  - intros b. rewrite !cnt_adel, cnt_aset. now destruct (ra_eqb b a).
Qed.
Lemma wsum_ge g st a : NoDup (akeys st) -> g a = true -> cnt st a <= wsum g st.
Proof. intros H G. rewrite (wsum_adel g a st H), G. lia. Qed.

(** ** QueueStatistics *)
Definition qwf (q : qstats) : Prop :=
  NoDup (akeys (qs_base q)) /\ match qs_tx q with Some tx => NoDup (akeys tx) | None => True end.
Definition qv (q : qstats) (a : raddr) : N :=
  match qs_tx q with
  | Some tx => match aget ra_eqb a tx with Some v => v | None => cnt (qs_base q) a end
  | None => cnt (qs_base q) a
  end.
Lemma qs_get_qv q a : qs_get a q = if 0 <? qv q a then Some (qv q a) else None.
Proof.
  unfold qs_get, qv, cnt. destruct (qs_tx q) as [tx|]; [destruct (aget ra_eqb a tx); auto|]; destruct (aget ra_eqb a (qs_base q)); auto.
Qed.
(** the visible table, zero counts included *)
Definition eff (q : qstats) : astats :=
  match qs_tx q with
  | Some tx => tx ++ filter (fun e => negb (amem ra_eqb (fst e) tx)) (qs_base q)
  | None => qs_base q
  end.
Lemma aget_app a (l m : astats) : aget ra_eqb a (l ++ m) = match aget ra_eqb a l with Some v => Some v | None => aget ra_eqb a m end.
Proof. induction l as [|[b n] l IH]; cbn [app aget]; auto. destruct (ra_eqb a b); auto. Qed.
Lemma cnt_eff q a : cnt (eff q) a = qv q a.
Proof.
  unfold eff, qv. destruct (qs_tx q) as [tx|]; auto. unfold cnt at 1. rewrite aget_app.
  destruct (aget ra_eqb a tx) eqn:E; auto.
  rewrite (aget_filter_key (fun b => negb (amem ra_eqb b tx))). unfold amem. rewrite E. reflexivity.
Qed.
Lemma nodup_app_keys (l m : astats) : NoDup (akeys l) -> NoDup (akeys m) -> (forall a, In a (akeys l) -> ~ In a (akeys m)) -> NoDup (akeys (l ++ m)).
Proof.
  induction l as [|[a n] l IH]; cbn [app akeys map fst]; auto. intros Hl Hm Hd. unfold akeys in *. cbn [map fst] in *.
  inversion Hl; subst. constructor.
  - rewrite map_app, in_app_iff. intros [Hc|Hc]; [contradiction|]. apply (Hd a); cbn; auto.
  - apply IH; auto. intros b Hb. apply Hd. cbn; auto.
Qed.
Lemma eff_nodup q : qwf q -> NoDup (akeys (eff q)).
Proof.
  intros [Hb Ht]. unfold eff. destruct (qs_tx q) as [tx|]; auto. apply nodup_app_keys; auto.
  - now apply filter_nodup.
  - intros a Ha Hc. apply in_map_iff in Hc as (e & <- & Hin). apply filter_In in Hin as [_ Hn].
    destruct (aget_some_key ra_eqb ra_eqb_spec _ _ Ha) as [v E]. unfold amem in Hn. rewrite E in Hn. discriminate.
Qed.
Lemma qs_iter_eff q : qs_iter q = filter (fun e => 0 <? snd e) (eff q).
Proof.
  unfold qs_iter, eff. destruct (qs_tx q) as [tx|]; cbn [app].
  - rewrite filter_app. f_equal. induction (qs_base q) as [|e l IH]; cbn [filter]; auto.
    destruct (amem ra_eqb (fst e) tx); cbn [negb andb filter]; auto. destruct (0 <? snd e); rewrite IH; auto.
  - reflexivity.
Qed.
Lemma iter_nodup q : qwf q -> NoDup (akeys (qs_iter q)).
Proof. intros H. rewrite qs_iter_eff. apply filter_nodup, eff_nodup, H. Qed.
Lemma iter_spec q a n : qwf q -> In (a, n) (qs_iter q) <-> qv q a = n /\ 0 < n.
Proof.
  intros H. rewrite qs_iter_eff, filter_In, <- cnt_eff. cbn [snd]. pose proof (eff_nodup q H) as Hn.
  rewrite (aget_in ra_eqb ra_eqb_spec) by auto. unfold cnt. split.
  - intros [E P]. rewrite E. split; auto. lia.
  - intros [E P]. destruct (aget ra_eqb a (eff q)); [subst; split; auto; lia|lia].
Qed.
Lemma wsum_iter g q : wsum g (qs_iter q) = wsum g (eff q).
Proof.
  rewrite qs_iter_eff. induction (eff q) as [|[a n] l IH]; cbn [filter snd]; auto.
  destruct (N.ltb_spec 0 n); rewrite ?wsum_cons; [lia|]. assert (n = 0) by lia. subst. destruct (g a); lia.
Qed.
(** sums only depend on the values *)
Lemma wsum_eff g q q' : qwf q -> qwf q' -> (forall a, qv q a = qv q' a) -> wsum g (eff q) = wsum g (eff q').
Proof. intros H H' E. apply wsum_ext; [now apply eff_nodup|now apply eff_nodup|]. intros a. rewrite !cnt_eff. apply E. Qed.
Lemma wsum_eff_upd g q q' a n : qwf q -> qwf q' -> (forall b, qv q' b = if ra_eqb b a then n else qv q b) ->
  wsum g (eff q') + (if g a then qv q a else 0) = wsum g (eff q) + (if g a then n else 0).
Proof.
  intros H H' E. rewrite <- (cnt_eff q a), <- (wsum_aset g a n (eff q)) by now apply eff_nodup. f_equal.
  apply wsum_ext; [now apply eff_nodup|apply (aset_nodup ra_eqb ra_eqb_spec); now apply eff_nodup|].
  intros b. rewrite cnt_aset, !cnt_eff. apply E.
Qed.

(** what rollback and commit make of it *)
Definition qs_rb (q : qstats) : qstats := QST (qs_base q) None.
(** an operation of a transaction: the saved part is untouched *)
Definition qsame (q q' : qstats) : Prop := qs_in_tx q' = qs_in_tx q /\ (qs_in_tx q = true -> qs_base q' = qs_base q).
Lemma qsame_refl q : qsame q q.
Proof. split; auto. Qed.
Lemma qsame_trans a b c : qsame a b -> qsame b c -> qsame a c.
Proof. unfold qsame. intros [H1 H2] [H3 H4]. split; [congruence|]. intros H. rewrite H4, H2; congruence. Qed.

Lemma qs_inc_ok a n q : qwf q -> let q' := qs_inc a n q in
  qwf q' /\ qsame q q' /\ forall b, qv q' b = if ra_eqb b a then qv q a + n else qv q b.
Proof.
  intros [Hb Ht]. unfold qs_inc, qwf, qsame, qv, qs_in_tx. destruct (qs_tx q) as [tx|] eqn:Et; cbn [qs_base qs_tx].
  - split; [split; auto; now apply (aset_nodup ra_eqb ra_eqb_spec)|]. split; [split; auto|].
    intros b. rewrite (aget_aset ra_eqb ra_eqb_spec). destruct (ra_eqb_spec b a) as [->|]; [|reflexivity]. unfold cnt. now destruct (aget ra_eqb a tx).
  - split; [split; auto; now apply (aset_nodup ra_eqb ra_eqb_spec)|]. split; [split; [auto|discriminate]|].
    intros b. rewrite cnt_aset. destruct (ra_eqb_spec b a) as [->|]; auto. unfold cnt. destruct (aget ra_eqb a (qs_base q)); lia.
Qed.
Lemma qs_append_ok st : forall q, NoDup (akeys st) -> qwf q -> let q' := qs_append st q in
  qwf q' /\ qsame q q' /\ forall b, qv q' b = qv q b + cnt st b.
Proof.
  unfold qs_append. induction st as [|[a n] st IH]; intros q Hn Hq; cbn [fold_left fst snd].
  - split; auto. split; [apply qsame_refl|]. intros b. cbn. lia.
  - unfold akeys in Hn. cbn [map fst] in Hn. inversion Hn as [|? ? Hni Hn2]; subst.
    destruct (qs_inc_ok a n q Hq) as (H1 & H2 & H3). destruct (IH (qs_inc a n q) Hn2 H1) as (H4 & H5 & H6).
    split; auto. split; [eapply qsame_trans; eauto|]. intros b. rewrite H6, H3, cnt_cons.
    destruct (ra_eqb_spec b a) as [->|]; auto. rewrite (cnt_notin a st) by auto. lia.
Qed.
Lemma qs_dec_ok a n q : qwf q -> 0 < n -> n <= qv q a -> exists q', qs_dec a n q = Some q' /\
  qwf q' /\ qsame q q' /\ forall b, qv q' b = if ra_eqb b a then qv q a - n else qv q b.
Proof.
  intros [Hb Ht] Hn Hle. unfold qs_dec, qwf, qsame, qv, qs_in_tx in *. destruct (qs_tx q) as [tx|] eqn:Et; cbn [qs_base qs_tx].
  - unfold cnt in Hle. destruct (match aget ra_eqb a tx with Some c => Some c | None => aget ra_eqb a (qs_base q) end) as [c|] eqn:E.
    + assert (Hc : (match aget ra_eqb a tx with Some v => v | None => cnt (qs_base q) a end) = c).
      { unfold cnt. destruct (aget ra_eqb a tx); [congruence|]. rewrite E. reflexivity. }
      fold (cnt (qs_base q) a) in Hle. rewrite Hc in Hle. destruct (N.ltb_spec c n); [lia|]. eexists; split; [reflexivity|]. cbn [qs_base qs_tx].
      split; [split; auto; now apply (aset_nodup ra_eqb ra_eqb_spec)|]. split; [split; auto|].
      intros b. rewrite (aget_aset ra_eqb ra_eqb_spec). destruct (ra_eqb_spec b a) as [->|]; auto. now rewrite Hc.
    + destruct (aget ra_eqb a tx); [discriminate|]. rewrite E in Hle. lia.
  - unfold cnt in *. destruct (aget ra_eqb a (qs_base q)) as [c|] eqn:E; [|lia].
    destruct (N.ltb_spec c n); [lia|]. eexists; split; [reflexivity|]. cbn [qs_base qs_tx].
    split; [split; auto; destruct (c - n =? 0); [now apply adel_nodup|now apply (aset_nodup ra_eqb ra_eqb_spec)]|].
    split; [split; [auto|discriminate]|]. intros b. fold (cnt (qs_base q) b).
    destruct (N.eqb_spec (c - n) 0) as [E0|].
    + fold (cnt (adel ra_eqb a (qs_base q)) b). rewrite cnt_adel. now destruct (ra_eqb b a).
    + fold (cnt (aset ra_eqb a (c - n) (qs_base q)) b). rewrite cnt_aset. now destruct (ra_eqb b a).
Qed.
Lemma qs_dec_fail a n q : qv q a < n -> qs_dec a n q = None.
Proof.
  unfold qs_dec, qv, cnt. destruct (qs_tx q) as [tx|].
  - destruct (aget ra_eqb a tx) as [c|].
    + intros H. apply N.ltb_lt in H. now rewrite H.
    + destruct (aget ra_eqb a (qs_base q)) as [c|]; auto. intros H. apply N.ltb_lt in H. now rewrite H.
  - destruct (aget ra_eqb a (qs_base q)) as [c|]; auto. intros H. apply N.ltb_lt in H. now rewrite H.
Qed.
Lemma commit_fold tx : forall base, NoDup (akeys tx) -> NoDup (akeys base) ->
  let r := fold_left (fun (b : astats) (e : raddr * N) => if snd e =? 0 then adel ra_eqb (fst e) b else aset ra_eqb (fst e) (snd e) b) tx base in
  NoDup (akeys r) /\ forall b, cnt r b = match aget ra_eqb b tx with Some v => v | None => cnt base b end.
Proof.
  induction tx as [|[a n] tx IH]; intros base Hn Hb; cbn [fold_left fst snd]; [cbn; auto|].
  unfold akeys in Hn. cbn [map fst] in Hn. inversion Hn as [|? ? Hni Hn2]; subst.
  set (b1 := if n =? 0 then _ else _). assert (Hb1 : NoDup (akeys b1)).
  { unfold b1. destruct (n =? 0); [now apply adel_nodup|now apply (aset_nodup ra_eqb ra_eqb_spec)]. }
  destruct (IH b1 Hn2 Hb1) as [H1 H2]. split; auto. intros b. rewrite H2. cbn [aget].
  assert (Hc : cnt b1 b = if ra_eqb b a then n else cnt base b).
  { unfold b1. destruct (N.eqb_spec n 0) as [->|]; [rewrite cnt_adel|rewrite cnt_aset]; now destruct (ra_eqb b a). }
  rewrite Hc. destruct (ra_eqb_spec b a) as [E|]; [|reflexivity].
  apply (aget_none ra_eqb ra_eqb_spec) in Hni. rewrite E. now rewrite Hni.
Qed.
Definition qs_cm (q : qstats) : qstats := match qs_commit q with Some q' => q' | None => q end.
Lemma qs_commit_ok q : qwf q -> qs_in_tx q = true -> exists q', qs_commit q = Some q' /\ qwf q' /\ qs_in_tx q' = false /\ forall b, qv q' b = qv q b.
Proof.
  intros [Hb Ht] Hi. unfold qs_commit, qs_in_tx in *. destruct (qs_tx q) as [tx|] eqn:Et; [|discriminate].
  eexists; split; [reflexivity|]. destruct (commit_fold tx (qs_base q) Ht Hb) as [H1 H2]. split; [split; cbn [qs_base qs_tx]; auto|].
  split; auto. intros b. unfold qv. cbn [qs_base qs_tx]. rewrite Et. apply H2.
Qed.
Lemma qs_begin_ok q : qwf q -> qs_in_tx q = false -> exists q', qs_begin q = Some q' /\ qwf q' /\ qs_in_tx q' = true /\ qs_rb q' = q /\ forall b, qv q' b = qv q b.
Proof.
  intros [Hb Ht] Hi. unfold qs_begin, qs_in_tx in *. destruct q as [base [tx|]]; cbn [qs_tx] in *; [discriminate|].
  eexists; split; [reflexivity|]. split; [split; cbn [qs_base qs_tx]; auto; constructor|]. split; auto.
Qed.
Lemma qs_rb_ok q : qwf q -> qwf (qs_rb q) /\ qs_in_tx (qs_rb q) = false.
Proof. intros [Hb _]. repeat split; auto. Qed.

Section Tracked.
  Variable contains : shard -> raddr -> bool.

  (** ** TrackedQueueStatistics *)
  Definition twf (track : shard) (t : tracked) : Prop :=
    qwf (tr_stats t) /\ tr_total t = wsum (contains track) (eff (tr_stats t)).
  Definition tr_rb (t : tracked) : tracked := TR (qs_rb (tr_stats t)) (tr_snap t) (tr_snap t).
  Definition tsame (t t' : tracked) : Prop := qsame (tr_stats t) (tr_stats t') /\ tr_snap t' = tr_snap t.

  Lemma total_fold track st : forall n,
    fold_left (fun n (e : raddr * N) => if contains track (fst e) then n + snd e else n) st n = n + wsum (contains track) st.
  Proof.
    induction st as [|[a k] st IH]; intros n; cbn [fold_left fst snd]; [cbn; lia|]. rewrite IH, wsum_cons. destruct (contains track a); lia.
  Qed.
  Lemma wsum_eff_append track st : forall q, NoDup (akeys st) -> qwf q ->
    wsum (contains track) (eff (qs_append st q)) = wsum (contains track) (eff q) + wsum (contains track) st.
  Proof.
    unfold qs_append. induction st as [|[a n] st IH]; intros q Hn Hq; cbn [fold_left fst snd]; [cbn; lia|].
    unfold akeys in Hn. cbn [map fst] in Hn. inversion Hn as [|? ? Hni Hn2]; subst.
    destruct (qs_inc_ok a n q Hq) as (H1 & H2 & H3). rewrite (IH _ Hn2 H1), wsum_cons.
    pose proof (wsum_eff_upd (contains track) q _ a (qv q a + n) Hq H1 H3) as E. destruct (contains track a); lia.
  Qed.
  Lemma tr_append_ok track st t : NoDup (akeys st) -> twf track t -> let t' := tr_append contains track st t in
    twf track t' /\ tsame t t' /\ forall b, qv (tr_stats t') b = qv (tr_stats t) b + cnt st b.
  Proof.
    intros Hn [Hq Ht]. unfold tr_append. cbn [tr_stats]. destruct (qs_append_ok st (tr_stats t) Hn Hq) as (H1 & H2 & H3).
    split; [split; cbn [tr_stats tr_total]; auto|].
    - rewrite total_fold, Ht, wsum_eff_append; auto.
    - split; [split; auto|auto].
  Qed.
  Lemma tr_dec_ok track a n t : twf track t -> 0 < n -> n <= qv (tr_stats t) a -> exists t', tr_dec contains track a n t = Some t' /\
    twf track t' /\ tsame t t' /\ forall b, qv (tr_stats t') b = if ra_eqb b a then qv (tr_stats t) a - n else qv (tr_stats t) b.
  Proof.
    intros [Hq Ht] Hn Hle. unfold tr_dec. destruct (qs_dec_ok a n (tr_stats t) Hq Hn Hle) as (q' & -> & H1 & H2 & H3).
    pose proof (wsum_eff_upd (contains track) _ q' a _ Hq H1 H3) as E.
    destruct (contains track a) eqn:Ec.
    - pose proof (wsum_ge (contains track) (eff (tr_stats t)) a (eff_nodup _ Hq) Ec) as G. rewrite cnt_eff in G.
      destruct (N.ltb_spec (tr_total t) n); [lia|]. eexists; split; [reflexivity|]. cbn [tr_stats].
      split; [split; cbn [tr_stats tr_total]; auto; lia|]. split; [split; auto|auto].
    - eexists; split; [reflexivity|]. cbn [tr_stats]. split; [split; cbn [tr_stats tr_total]; auto; lia|]. split; [split; auto|auto].
  Qed.
  Lemma tr_dec_fail track a n t : qv (tr_stats t) a < n -> tr_dec contains track a n t = None.
  Proof. intros H. unfold tr_dec. now rewrite qs_dec_fail. Qed.
  Lemma tr_begin_ok track t : twf track t -> qs_in_tx (tr_stats t) = false -> exists t', tr_begin t = Some t' /\
    twf track t' /\ qs_in_tx (tr_stats t') = true /\ tr_snap t' = tr_total t /\ qs_base (tr_stats t') = qs_base (tr_stats t) /\
    tr_stats (tr_rb t') = tr_stats t /\ tr_total (tr_rb t') = tr_total t /\ forall b, qv (tr_stats t') b = qv (tr_stats t) b.
  Proof.
    intros [Hq Ht] Hi. unfold tr_begin. destruct (qs_begin_ok _ Hq Hi) as (q' & Eq & H1 & H2 & H3 & H4). rewrite Eq.
    eexists; split; [reflexivity|]. cbn [tr_stats tr_total tr_snap tr_rb].
    split; [split; cbn [tr_stats tr_total]; auto; rewrite Ht; apply wsum_eff; auto|]. split; auto. split; auto. split; [|split; auto].
    unfold qs_rb in H3. rewrite <- H3. reflexivity.
  Qed.
  Lemma tr_commit_ok track t : twf track t -> qs_in_tx (tr_stats t) = true -> exists t', tr_commit t = Some t' /\
    twf track t' /\ qs_in_tx (tr_stats t') = false /\ forall b, qv (tr_stats t') b = qv (tr_stats t) b.
  Proof.
    intros [Hq Ht] Hi. unfold tr_commit. destruct (qs_commit_ok _ Hq Hi) as (q' & Eq & H1 & H2 & H3). rewrite Eq.
    eexists; split; [reflexivity|]. cbn [tr_stats tr_total]. split; [split; cbn [tr_stats tr_total]; auto; rewrite Ht; apply wsum_eff; auto|]. split; auto.
  Qed.

  (** ** The run theorem for one tracked table *)
  Definition trel (track : shard) (t : tracked) (s : tspec) : Prop :=
    twf track t /\ (forall a, qv (tr_stats t) a = ts_cur s a) /\
    match ts_saved s with
    | None => qs_in_tx (tr_stats t) = false
    | Some f => qs_in_tx (tr_stats t) = true /\ twf track (tr_rb t) /\ forall a, qv (tr_stats (tr_rb t)) a = f a
    end.
  Lemma tsame_rb t t' : tsame t t' -> qs_in_tx (tr_stats t) = true -> tr_rb t' = tr_rb t.
  Proof. intros [[H1 H2] H3] H. unfold tr_rb, qs_rb. now rewrite H3, H2. Qed.
  Lemma trel_step track t s o : tsop_ok o -> trel track t s ->
    match ts_step s o with
    | Some s' => exists t', tr_step contains track t o = Some t' /\ trel track t' s'
    | None => tr_step contains track t o = None
    end.
  Proof.
    intros Ho (Hw & Hv & Hs). destruct o as [st|a n| | |]; cbn [ts_step tr_step tsop_ok] in *.
    - eexists; split; [reflexivity|]. destruct (tr_append_ok track st t Ho Hw) as (H1 & H2 & H3).
      split; auto. split; [intros a; rewrite H3, Hv; reflexivity|]. cbn [ts_saved ts_cur].
      destruct (ts_saved s) as [f|].
      + destruct Hs as (E1 & E2 & E3). rewrite (tsame_rb _ _ H2 E1). split; auto. destruct H2 as [[H2 _] _]. congruence.
      + destruct H2 as [[H2 _] _]. congruence.
    - rewrite <- Hv. destruct (N.ltb_spec (qv (tr_stats t) a) n).
      + now apply tr_dec_fail.
      + destruct (tr_dec_ok track a n t Hw Ho H) as (t' & E & H1 & H2 & H3). exists t'. split; auto.
        split; auto. split; [intros b; rewrite H3; cbn [ts_cur]; rewrite <- !Hv; destruct (ra_eqb_spec b a); subst; auto|]. cbn [ts_saved].
        destruct (ts_saved s) as [f|].
        * destruct Hs as (E1 & E2 & E3). rewrite (tsame_rb _ _ H2 E1). split; auto. destruct H2 as [[H2 _] _]. congruence.
        * destruct H2 as [[H2 _] _]. congruence.
    - destruct (ts_saved s) as [f|].
      + unfold tr_begin, qs_begin, qs_in_tx in *. destruct Hs as [Hs _]. destruct (qs_tx (tr_stats t)); [auto|discriminate].
      + destruct (tr_begin_ok track t Hw Hs) as (t' & E & H1 & H2 & H3 & H4 & H5 & H6 & H7). exists t'. split; auto.
        split; auto. split; [intros a; cbn [ts_cur]; now rewrite H7|]. cbn [ts_saved]. split; auto. split.
        * destruct Hw as [Hw1 Hw2]. split; [now rewrite H5|]. rewrite H5, H6. auto.
        * intros a. now rewrite H5.
    - destruct (ts_saved s) as [f|].
      + destruct Hs as (E1 & E2 & E3). destruct (tr_commit_ok track t Hw E1) as (t' & E & H1 & H2 & H3). exists t'. split; auto.
        split; auto. split; [intros a; cbn [ts_cur]; now rewrite H3|]. auto.
      + unfold tr_commit, qs_commit, qs_in_tx in *. destruct (qs_tx (tr_stats t)); [discriminate|auto].
    - destruct (ts_saved s) as [f|].
      + destruct Hs as (E1 & E2 & E3). unfold tr_rollback, qs_rollback, qs_in_tx in *.
        destruct (qs_tx (tr_stats t)); [|discriminate]. eexists; split; [reflexivity|]. split; [exact E2|]. split; auto. cbn [ts_saved]. reflexivity.
      + unfold tr_rollback, qs_rollback, qs_in_tx in *. destruct (qs_tx (tr_stats t)); [discriminate|auto].
  Qed.
  Lemma trel_run track os : forall t s, Forall tsop_ok os -> trel track t s ->
    match ts_run s os with
    | Some s' => exists t', tr_run contains track t os = Some t' /\ trel track t' s'
    | None => tr_run contains track t os = None
    end.
  Proof.
    induction os as [|o os IH]; intros t s Ho Hr; cbn [ts_run tr_run]; [eauto|]. inversion Ho; subst.
    pose proof (trel_step track t s o H1 Hr) as Hst. destruct (ts_step s o) as [s'|].
    - destruct Hst as (t' & -> & Hr'). apply IH; auto.
    - now rewrite Hst.
  Qed.
  Lemma trel_init track : trel track tr_new ts_init.
  Proof. repeat split; cbn; auto; constructor. Qed.
End Tracked.
