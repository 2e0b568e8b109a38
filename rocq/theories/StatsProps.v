(** C38, C39: message statistics of the collator. *)
From Verif Require Import StatsSpec StatsProofs StatsCum StatsInv StatsRun RouterProofs QueueKeysProofs QueueStoreProofs ProcProofs.
From Coq Require Import ZArith ZifyN ZifyBool Lia.
Local Open Scope N_scope.

(** ** C38. A tracked statistics table behaves as plain counters with one saved copy: for every sequence of appends,
    decrements, begin, commit and rollback it panics exactly when the specification does not allow the operation, and
    otherwise lookups, iteration and the tracked total show exactly the specified counters. *)
Theorem C38_tracked_statistics : forall (contains : shard -> raddr -> bool) (track : shard) (os : list tsop),
  Forall tsop_ok os ->
  match ts_run ts_init os with
  | None => tr_run contains track tr_new os = None
  | Some s =>
      exists t, tr_run contains track tr_new os = Some t /\
        (forall a, qs_get a (tr_stats t) = if 0 <? ts_cur s a then Some (ts_cur s a) else None) /\
        NoDup (akeys (qs_iter (tr_stats t))) /\
        (forall a n, In (a, n) (qs_iter (tr_stats t)) <-> ts_cur s a = n /\ 0 < n) /\
        tr_total t = lsum (fun e : raddr * N => if contains track (fst e) then snd e else 0) (qs_iter (tr_stats t))
  end.
Proof.
  intros contains track os Ho. pose proof (trel_run contains track os tr_new ts_init Ho (trel_init contains track)) as H.
  destruct (ts_run ts_init os) as [s|]; auto. destruct H as (t & E & (W & T) & V & _). exists t. split; auto.
  split; [intros a; rewrite qs_get_qv, V; auto|]. split; [now apply iter_nodup|]. split.
  - intros a n. rewrite iter_spec by auto. now rewrite V.
  - rewrite T. symmetry. apply wsum_iter.
Qed.
Print Assumptions C38_tracked_statistics.

(** ** C39 *)
Definition initial_count (c : cum) (p : N) (a : raddr) : N :=
  match aget N.eqb p (cu_res c) with Some s => match qs_get a (fst s) with Some n => n | None => 0 end | None => 0 end.
Definition remaining_count (c : cum) (p : N) (a : raddr) : N :=
  match aget N.eqb p (cu_res c) with Some s => match qs_get a (tr_stats (snd s)) with Some n => n | None => 0 end | None => 0 end.

Lemma get_qv q a : (match qs_get a q with Some n => n | None => 0 end) = qv q a.
Proof. rewrite qs_get_qv. destruct (N.ltb_spec 0 (qv q a)); lia. Qed.

Section AggSums.
  Lemma lsum_swap (P : list N) (log : list apdiff) (x : apdiff -> N) :
    NoDup P -> (forall e, In e log -> In (ek_part (ap_key e)) P) ->
    lsum (fun p => lsum (fun e => if ek_part (ap_key e) =? p then x e else 0) log) P = lsum x log.
  Proof.
    intros Hn. induction log as [|e log IH]; intros Hp.
    - cbn. apply lsum_zero. auto.
    - rewrite lsum_cons, <- IH by (intros; apply Hp; right; auto).
      assert (E : forall Q, NoDup Q -> lsum (fun p => lsum (fun e => if ek_part (ap_key e) =? p then x e else 0) (e :: log)) Q
        = (if existsb (N.eqb (ek_part (ap_key e))) Q then x e else 0) + lsum (fun p => lsum (fun e => if ek_part (ap_key e) =? p then x e else 0) log) Q).
      { induction Q as [|p Q IHQ]; intros HQ; [reflexivity|]. inversion HQ as [|? ? Hni HQ2]; subst. rewrite !lsum_cons, (IHQ HQ2). cbn [existsb].
        destruct (N.eqb_spec (ek_part (ap_key e)) p) as [Ep|]; cbn [orb]; [|lia].
        destruct (existsb (N.eqb (ek_part (ap_key e))) Q) eqn:Ex; [|lia]. exfalso. apply existsb_exists in Ex as (q & Hq & Eq). apply N.eqb_eq in Eq. congruence. }
      rewrite E by auto. assert (existsb (N.eqb (ek_part (ap_key e))) P = true) as ->; auto.
      apply existsb_exists. exists (ek_part (ap_key e)). split; [apply Hp; left; auto|apply N.eqb_refl].
  Qed.
End AggSums.

Theorem C39_cumulative_statistics : forall (contains : shard -> raddr -> bool) (D : list shard) (for_shard : shard) (all : all_shards),
  disjoint_shards contains D -> In for_shard D -> force_ok D all ->
  forall os r, ss_run contains D for_shard (ss_init all) os r ->
  match r with
  | None => srun contains (cu_new for_shard all) os = None
  | Some s =>
      exists c, srun contains (cu_new for_shard all) os = Some c /\
        (** per partition and account: initial and remaining statistics *)
        (forall p a, initial_count c p a = unprocessed contains (ss_now s) p a) /\
        (forall p a, remaining_count c p a = left_to_read contains for_shard (ss_now s) p a) /\
        (** the aggregate over all partitions *)
        (forall a, (match qs_get a (aggregated c) with Some n => n | None => 0 end) =
           lsum (fun e => if done contains (sb_force (ss_now s)) (ap_key e) a then 0 else cnt (ap_stats e) a) (sb_log (ss_now s))) /\
        (** the total left to read for the own shard *)
        remaining_total c = lsum (fun ps : N * pstats => lsum (fun e : raddr * N => if contains for_shard (fst e) then snd e else 0)
                                    (qs_iter (tr_stats (snd (snd ps))))) (cu_res c)
  end.
Proof.
  intros contains D for_ all Hd Hf Ha os r Hr.
  pose proof (rel_run contains D for_ Hd Hf _ _ _ Hr _ (rel_init contains D for_ all Ha)) as H.
  destruct r as [s|]; auto. destruct H as (c & E & Hc & _). exists c. split; auto.
  destruct Hc as [K1 K2 K3 K4 K5 K6 K7 K8 K9 K10 K11 K12].
  assert (Hi : forall p a, initial_count c p a = iv (cu_res c) p a).
  { intros p a. unfold initial_count, iv. destruct (aget N.eqb p (cu_res c)); auto. apply get_qv. }
  assert (Hm : forall p a, remaining_count c p a = rv (cu_res c) p a).
  { intros p a. unfold remaining_count, rv. destruct (aget N.eqb p (cu_res c)); auto. apply get_qv. }
  split; [intros p a; now rewrite Hi|]. split; [|split].
  - intros p a. rewrite Hm. unfold left_to_read. destruct (contains for_ a) eqn:Ec; [now apply K12|]. rewrite K10; auto.
  - intros a. rewrite get_qv. set (b := ss_now s) in *.
    assert (Hw : forall p t, In (p, t) (cu_res c) -> pwf contains for_ t).
    { intros p t Hin. apply (proj2 K9 p). apply aget_nodup_in; auto. apply K9. }
    assert (Hagg : forall (l : amap N pstats) q, (forall p t, In (p, t) l -> pwf contains for_ t) -> qwf q ->
              qv (fold_left (fun q (e : N * pstats) => qs_append (qs_iter (fst (snd e))) q) l q) a = qv q a + lsum (fun e : N * pstats => qv (fst (snd e)) a) l).
    { induction l as [|[p t] l IH]; intros q Hl Hq; cbn [fold_left]; [cbn; lia|]. cbn [fst snd].
      destruct (Hl p t (or_introl eq_refl)) as [W1 _].
      destruct (qs_append_ok (qs_iter (fst t)) q (iter_nodup _ W1) Hq) as (A1 & _ & A3).
      rewrite IH; [|intros; eapply Hl; right; eauto|auto]. rewrite A3, lsum_cons. cbn [fst snd].
      assert (Ec : cnt (qs_iter (fst t)) a = qv (fst t) a).
      { unfold cnt. destruct (aget ra_eqb a (qs_iter (fst t))) as [n|] eqn:Eg.
        - apply (aget_some_in ra_eqb ra_eqb_spec) in Eg. apply iter_spec in Eg; [|auto]. symmetry; apply Eg.
        - apply (aget_none ra_eqb ra_eqb_spec) in Eg. destruct (N.eq_dec (qv (fst t) a) 0) as [|Hne]; [congruence|]. exfalso. apply Eg.
          assert (Hin : In (a, qv (fst t) a) (qs_iter (fst t))) by (apply iter_spec; auto; split; auto; lia). now apply (in_map fst) in Hin. }
      rewrite Ec. lia. }
    assert (Hq : qv (aggregated c) a = lsum (fun e : N * pstats => qv (fst (snd e)) a) (cu_res c)).
    { unfold aggregated. destruct (cu_res c) as [|[p t] l] eqn:El; [reflexivity|]. rewrite Hagg; [reflexivity|intros; eapply Hw; right; eauto|].
      eapply Hw. left. reflexivity. }
    rewrite Hq. transitivity (lsum (fun p => unprocessed contains b p a) (akeys (cu_res c))).
    + unfold akeys. rewrite lsum_map. apply lsum_ext. intros [p t] Hin. cbn [fst snd]. rewrite <- K11. unfold iv.
      rewrite (aget_nodup_in (cu_res c) p t); auto. apply K9.
    + rewrite <- (lsum_swap (akeys (cu_res c)) (sb_log b) (fun e => if done contains (sb_force b) (ap_key e) a then 0 else cnt (ap_stats e) a)).
      * apply lsum_ext. intros p _. unfold unprocessed. apply lsum_ext. intros e _. destruct (ek_part (ap_key e) =? p); cbn [andb]; auto.
        now destruct (done contains (sb_force b) (ap_key e) a).
      * apply K9.
      * intros e Hin. assert (Hp : amem N.eqb (ek_part (ap_key e)) (cu_res c) = true).
        { rewrite K7. apply existsb_exists. exists e. split; auto. apply N.eqb_refl. }
        unfold amem in Hp. destruct (aget N.eqb (ek_part (ap_key e)) (cu_res c)) eqn:Eg; [|discriminate].
        apply (aget_some_in N.eqb N.eqb_spec) in Eg. now apply (in_map fst) in Eg.
  - unfold remaining_total.
    assert (G : forall (l : amap N pstats) n, (forall p t, In (p, t) l -> twf contains for_ (snd t)) ->
              fold_left (fun n (e : N * pstats) => n + tr_total (snd (snd e))) l n =
              n + lsum (fun ps : N * pstats => lsum (fun e : raddr * N => if contains for_ (fst e) then snd e else 0) (qs_iter (tr_stats (snd (snd ps))))) l).
    { induction l as [|[p t] l IH]; intros n Hl; cbn [fold_left]; [cbn; lia|]. cbn [snd]. rewrite IH by (intros; eapply Hl; right; eauto).
      rewrite lsum_cons. cbn [snd]. destruct (Hl p t (or_introl eq_refl)) as [W1 W2]. rewrite W2. pose proof (wsum_iter (contains for_) (tr_stats (snd t))) as Ew. unfold wsum in Ew at 1. rewrite Ew. lia. }
    rewrite G; [lia|]. intros p t Hin. apply (proj2 K9 p). apply aget_nodup_in; auto. apply K9.
Qed.
Print Assumptions C39_cumulative_statistics.

(** ** A concrete history meeting the hypotheses *)
Definition ex_contains (s : shard) (a : raddr) : bool := Z.eqb (sh_wc s) (ra_wc a).
Definition ex_sh : shard := SH 0 (2 ^ 63).
Definition ex_mc : shard := SH (-1) (2 ^ 63).
Definition ex_a : raddr := RA 0 7.
Definition ex_m : raddr := RA (-1) 9.
Definition ex_k1 : ekey := (ex_sh, 0, QK 10 0).
Definition ex_k2 : ekey := (ex_sh, 0, QK 20 0).
Definition ex_pt : by_parts := [(0, [(ex_sh, QK 10 0)])].
Definition ex_ops : list sop :=
  [SApply ex_k1 [(ex_a, 3); (ex_m, 2)]; SBegin; SApply ex_k2 [(ex_a, 1); (ex_m, 5)]; SHandle ex_mc ex_pt; SRead 0 ex_a 2; SCommit].

Lemma ex_disjoint : disjoint_shards ex_contains [ex_sh; ex_mc].
Proof.
  intros d1 d2 a H1 H2 C1 C2. unfold ex_contains in *. apply Z.eqb_eq in C1. apply Z.eqb_eq in C2.
  destruct H1 as [<-|[<-|[]]], H2 as [<-|[<-|[]]]; cbn in *; auto; congruence.
Qed.
Lemma forward_nil f : forward [] f.
Proof. intros d k H. discriminate. Qed.
Ltac ex_step := eapply SRcons; [cbn [sop_env]|vm_compute; reflexivity|].
Theorem C39_example : exists s c, ss_run ex_contains [ex_sh; ex_mc] ex_sh (ss_init []) ex_ops (Some s) /\
  srun ex_contains (cu_new ex_sh []) ex_ops = Some c /\
  initial_count c 0 ex_a = 4 /\ initial_count c 0 ex_m = 5 /\ remaining_count c 0 ex_a = 2 /\ remaining_count c 0 ex_m = 5 /\ remaining_total c = 2.
Proof.
  assert (H : exists s, ss_run ex_contains [ex_sh; ex_mc] ex_sh (ss_init []) ex_ops (Some s)).
  { eexists. unfold ex_ops. ex_step; [split; [intros []|]; split|].
    { constructor; [cbn; unfold ex_a, ex_m; intuition discriminate|]. constructor; [cbn; unfold ex_a, ex_m; intuition discriminate|constructor]. }
    { cbn. intros a n [E|[E|[]]]; injection E as <- <-; lia. }
    ex_step; [auto|]. ex_step; [split|].
    { cbn. intros [E|[]]. discriminate. }
    { split; [constructor; [cbn; unfold ex_a, ex_m; intuition discriminate|]; constructor; [cbn; unfold ex_a, ex_m; intuition discriminate|constructor]|]. cbn. intros a n [E|[E|[]]]; injection E as <- <-; lia. }
    ex_step; [split; [cbn; auto|split]|].
    { split; [repeat constructor; auto|]. intros p m [E|[]]. injection E as <- <-. repeat constructor. }
    { apply forward_nil. }
    ex_step; [split; [reflexivity|lia]|]. ex_step; [auto|]. apply SRnil. }
  destruct H as [s Hs]. exists s. eexists. split; [exact Hs|]. split; [vm_compute; reflexivity|]. vm_compute. auto.
Qed.

(** Finding: destination shards that overlap (a parent and its child, as around a split). Outside a transaction the second
    update finds nothing left to subtract; inside a transaction the same two updates subtract the same messages twice and
    the collator panics. *)
Definition ov_contains (s : shard) (a : raddr) : bool :=
  Z.eqb (sh_wc s) (ra_wc a) && ((sh_prefix s =? 2 ^ 63) || N.even (ra_acc a)).
Definition ov_child : shard := SH 0 (2 ^ 62).
Theorem C39_overlapping_shards_refuted :
  let ops tx := [SApply ex_k1 [(RA 0 8, 3)]] ++ tx ++ [SHandle ex_sh ex_pt; SHandle ov_child ex_pt] in
  srun ov_contains (cu_new ex_mc []) (ops []) <> None /\ srun ov_contains (cu_new ex_mc []) (ops [SBegin]) = None.
Proof. split; [vm_compute; discriminate|vm_compute; reflexivity]. Qed.
(** Finding: a diff with a zero count panics once the account's last message is processed. *)
Theorem C39_zero_count_refuted :
  srun ex_contains (cu_new ex_sh []) [SApply ex_k1 [(ex_m, 1)]; SApply (ex_sh, 0, QK 9 0) [(ex_m, 0)]; SHandle ex_mc ex_pt] = None.
Proof. vm_compute. reflexivity. Qed.
(** Finding: a processed position that moves back inside a transaction makes the later positions ineffective at commit: the
    diff stays in the table although its messages were subtracted, and subtracting them again panics. *)
Theorem C39_backward_position_refuted :
  srun ex_contains (cu_new ex_sh []) [SApply ex_k1 [(ex_m, 1)]; SBegin; SHandle ex_mc ex_pt; SHandle ex_mc []; SCommit; SHandle ex_mc ex_pt] = None.
Proof. vm_compute. reflexivity. Qed.
Print Assumptions C39_example.

(** A concrete history for C38: two tables, a transaction rolled back, a decrement *)
Example C38_example :
  let os := [TAppend [(ex_a, 3); (ex_m, 2)]; TBegin; TAppend [(ex_a, 5)]; TDec ex_m 2; TRollback; TDec ex_a 1] in
  Forall tsop_ok os /\ (exists s, ts_run ts_init os = Some s /\ ts_cur s ex_a = 2 /\ ts_cur s ex_m = 2) /\
  (exists t, tr_run ex_contains ex_sh tr_new os = Some t /\ tr_total t = 2) /\
  tr_run ex_contains ex_sh tr_new (os ++ [TDec ex_a 3]) = None.
Proof.
  cbv zeta. split; [|split; [|split]].
  - repeat constructor; cbn; unfold ex_a, ex_m; intuition discriminate.
  - eexists. split; [reflexivity|]. vm_compute. auto.
  - eexists. split; [vm_compute; reflexivity|]. reflexivity.
  - vm_compute. reflexivity.
Qed.
