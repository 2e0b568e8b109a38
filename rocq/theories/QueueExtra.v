(** Last applied seqno, statistics records, counts of DiffStatistics::from_diff. *)
From Verif Require Export QueueHistory.
From Coq Require Import ZifyBool ZifyNat ZifyN.
Local Open Scope N_scope.
Local Opaque enc_tailkey enc_infokey enc_mkey enc_statkey enc_ptrkey enc_shard be le lex.

(** *** last applied *)
Lemma infokey_in_range s s' n : sh_ok s -> sh_ok s' -> n < 2 ^ 32 ->
  in_range (enc_infokey (IK s 0)) (enc_infokey (IK s u32_max)) (enc_infokey (IK s' n)) = sh_eqb s s' && (n <? u32_max).
Proof.
  intros Hs Hs' Hn. Local Transparent enc_infokey. unfold enc_infokey. Local Opaque enc_infokey.
  cbn [ik_shard ik_seqno].
  rewrite prefix_range_excl by now rewrite !enc_shard_len.
  rewrite <- lex_shard_eqb by assumption.
  destruct (lex (enc_shard s) (enc_shard s')); cbn [andb]; auto.
  unfold in_range, lex_leb, lex_ltb. rewrite !lex_be by (rewrite p32; unfold u32_max; lia).
  destruct (N.compare_spec 0 n); destruct (N.compare_spec n u32_max); destruct (N.ltb_spec n u32_max); cbn; auto; lia.
Qed.

Lemma last_applied_some st s n : st_inv st -> sh_ok s -> last_applied s st = Some n <->
  (n < 2 ^ 32 /\ (exists d, info_at st s n = Some d) /\ forall n' d', n' < 2 ^ 32 -> info_at st s n' = Some d' -> n' <= n).
Proof.
  intros Hinv Hs. pose proof (inv_wf _ Hinv) as Hwf. unfold last_applied.
  destruct (kv_last (enc_infokey (IK s 0)) (enc_infokey (IK s u32_max)) (st_infos st)) as [[k v]|] eqn:El.
  - apply kv_last_some in El as (Hg & Hr & Hmax); [|apply Hwf].
    pose proof (inv_infok _ Hinv) as HF. rewrite Forall_forall in HF.
    pose proof (proj2 (kv_in_get _ _ _ (wf_infos _ Hwf)) Hg) as Hin.
    destruct (HF _ Hin) as (s' & n0 & Hs' & Hn0 & Ek & Hd & _). cbn [fst snd] in *. subst k.
    assert (Hn0' : n0 < 2 ^ 32) by (unfold u32_max in *; lia).
    rewrite infokey_in_range in Hr by auto. apply andb_true_iff in Hr as [Hr _].
    destruct (sh_eqb_spec s s'); [subst s'|discriminate].
    rewrite <- (app_nil_r (enc_infokey (IK s n0))). rewrite dec_enc_infokey by (split; auto). cbn [ik_seqno].
    assert (Hle : forall n' d', n' < 2 ^ 32 -> info_at st s n' = Some d' -> n' <= n0).
    { intros n' d' Hn' Ei. destruct (inv_info _ _ _ _ Hinv Hs Hn' Ei) as (B & _).
      specialize (Hmax _ _ Ei). rewrite infokey_in_range in Hmax by auto. rewrite sh_eqb_refl in Hmax.
      specialize (Hmax ltac:(cbn [andb]; lia)). rewrite lex_enc_infokey in Hmax by (split; auto). cbn [ik_shard ik_seqno] in Hmax.
      rewrite (proj2 (sh_cmp_eq _ _ Hs Hs) eq_refl) in Hmax. cbn [cmp_then] in Hmax.
      destruct (N.compare_spec n' n0); try lia; congruence. }
    split.
    + intros E; injection E as <-. split; auto. split; [exists v; exact Hg|exact Hle].
    + intros (Hn & (d & Ed) & Hall). f_equal. assert (n <= n0) by (eapply Hle; eauto).
      assert (n0 <= n) by (eapply Hall; eauto; exact Hg). lia.
  - split; [discriminate|]. intros (Hn & (d & Ed) & _). exfalso.
    destruct (inv_info _ _ _ _ Hinv Hs Hn Ed) as (B & _).
    pose proof (kv_last_none _ _ _ (wf_infos _ Hwf) El _ _ Ed) as Hr.
    rewrite infokey_in_range in Hr by auto. rewrite sh_eqb_refl in Hr. cbn [andb] in Hr. lia.
Qed.

Lemma last_applied_none st s : st_inv st -> sh_ok s -> last_applied s st = None ->
  forall n, n < 2 ^ 32 -> info_at st s n = None.
Proof.
  intros Hinv Hs E n Hn. destruct (info_at st s n) as [d|] eqn:Ed; auto. exfalso.
  pose proof (inv_wf _ Hinv) as Hwf. destruct (inv_info _ _ _ _ Hinv Hs Hn Ed) as (B & _).
  unfold last_applied in E.
  destruct (kv_last (enc_infokey (IK s 0)) (enc_infokey (IK s u32_max)) (st_infos st)) as [[k v]|] eqn:El.
  - apply kv_last_some in El as (Hg & Hr & Hmax); [|apply Hwf].
    pose proof (inv_infok _ Hinv) as HF. rewrite Forall_forall in HF.
    pose proof (proj2 (kv_in_get _ _ _ (wf_infos _ Hwf)) Hg) as Hin.
    destruct (HF _ Hin) as (s' & n0 & Hs' & Hn0 & Ek & Hd & _). cbn [fst snd] in *. subst k.
    rewrite <- (app_nil_r (enc_infokey (IK s' n0))) in E. rewrite dec_enc_infokey in E; [discriminate|].
    split; cbn; auto. unfold u32_max in *; lia.
  - pose proof (kv_last_none _ _ _ (wf_infos _ Hwf) El _ _ Ed) as Hr.
    rewrite infokey_in_range in Hr by auto. rewrite sh_eqb_refl in Hr. cbn [andb] in Hr. lia.
Qed.

(** *** statistics and deletion *)
Definition stat_hit (r : qrange) (s : shard) (p : N) (k : qkey) (d : raddr) : bool :=
  sh_eqb (qr_shard r) s && (qr_part r =? p) &&
  ((qk_ltb (qr_from r) k && qk_ltb k (qr_to r)) ||
   (qk_ltb (qr_from r) k && qk_leb k (qr_to r) && (0 <=? ra_wc d)%Z) ||
   (qk_leb (qr_from r) k && qk_ltb k (qr_to r) && (ra_wc d <? 0)%Z)).

Lemma ra_bcmp_min d : ra_ok d -> match ra_bcmp ra_min d with Gt => false | _ => true end = (ra_wc d <? 0)%Z.
Proof.
  intros [H1 H2]. unfold ra_bcmp, ra_min. cbn [ra_wc ra_acc].
  change (to_u 8 (-128)) with 128.
  assert (E : to_u 8 (ra_wc d) = if (ra_wc d <? 0)%Z then Z.to_N (ra_wc d + 256) else Z.to_N (ra_wc d)).
  { unfold to_u. change (2 ^ Z.of_N 8)%Z with 256%Z. destruct (Z.ltb_spec (ra_wc d) 0).
    - f_equal. symmetry. apply Z.mod_unique with (-1)%Z; lia.
    - f_equal. apply Z.mod_small. lia. }
  rewrite E. destruct (Z.ltb_spec (ra_wc d) 0).
  - destruct (N.compare_spec 128 (Z.to_N (ra_wc d + 256))); cbn; auto; [|lia].
    destruct (ra_acc d); auto.
  - destruct (N.compare_spec 128 (Z.to_N (ra_wc d))); cbn; auto; lia.
Qed.
Lemma ra_bcmp_max d : ra_ok d -> match ra_bcmp d ra_max with Gt => false | _ => true end = (0 <=? ra_wc d)%Z.
Proof.
  intros [H1 H2]. unfold ra_bcmp, ra_max. cbn [ra_wc ra_acc].
  change (to_u 8 127) with 127.
  assert (E : to_u 8 (ra_wc d) = if (ra_wc d <? 0)%Z then Z.to_N (ra_wc d + 256) else Z.to_N (ra_wc d)).
  { unfold to_u. change (2 ^ Z.of_N 8)%Z with 256%Z. destruct (Z.ltb_spec (ra_wc d) 0).
    - f_equal. symmetry. apply Z.mod_unique with (-1)%Z; lia.
    - f_equal. apply Z.mod_small. lia. }
  rewrite E. destruct (Z.ltb_spec (ra_wc d) 0).
  - destruct (N.compare_spec (Z.to_N (ra_wc d + 256)) 127); cbn; destruct (Z.leb_spec 0 (ra_wc d)); auto; lia.
  - destruct (N.compare_spec (Z.to_N (ra_wc d)) 127); cbn [cmp_then]; destruct (Z.leb_spec 0 (ra_wc d)); auto; try lia.
    unfold hash_max. destruct (N.compare_spec (ra_acc d) (2 ^ 256 - 1)); auto. lia.
Qed.

Lemma ra_min_ok : ra_ok ra_min. Proof. split; cbn; lia. Qed.
Lemma ra_max_ok : ra_ok ra_max. Proof. split; cbn; unfold hash_max; lia. Qed.

Lemma delete_one_stats snap st r st' s p k d : st_wf st -> range_ok r -> qk_ltb (qr_from r) (qr_to r) = true ->
  sk_ok (SK s p k d) -> delete_one snap (Some st) r = Some st' ->
  stat_at st' s p k d = if stat_hit r s p k d then None else stat_at st s p k d.
Proof.
  intros Hwf Hr Hlt Hk E. apply delete_one_inv in E as (mn & mx & _ & _ & Es & _).
  unfold stat_at. rewrite Es.
  pose proof Hr as (H1 & H2 & H3 & H4 & H5).
  assert (K1 : sk_ok (SK (qr_shard r) (qr_part r) (qr_from r) ra_min)) by (split; [|split; [|split]]; auto; apply ra_min_ok).
  assert (K2 : sk_ok (SK (qr_shard r) (qr_part r) (qr_to r) ra_max)) by (split; [|split; [|split]]; auto; apply ra_max_ok).
  rewrite del_incl_get.
  - rewrite statkey_range by auto.
    assert (Hd : ra_ok d) by apply Hk.
    unfold stat_hit.
    replace (match cmp_then (qk_cmp (qr_from r) k) (ra_bcmp ra_min d) with Gt => false | _ => true end)
      with (match qk_cmp (qr_from r) k with Lt => true | Gt => false | Eq => (ra_wc d <? 0)%Z end).
    2:{ destruct (qk_cmp (qr_from r) k); cbn [cmp_then]; auto. symmetry. now apply ra_bcmp_min. }
    replace (match cmp_then (qk_cmp k (qr_to r)) (ra_bcmp d ra_max) with Gt => false | _ => true end)
      with (match qk_cmp k (qr_to r) with Lt => true | Gt => false | Eq => (0 <=? ra_wc d)%Z end).
    2:{ destruct (qk_cmp k (qr_to r)); cbn [cmp_then]; auto. symmetry. now apply ra_bcmp_max. }
    rewrite (Z.leb_antisym (ra_wc d) 0). unfold qk_leb, qk_ltb.
    destruct (qk_cmp (qr_from r) k) eqn:E1, (qk_cmp k (qr_to r)) eqn:E2, (ra_wc d <? 0)%Z; cbn [negb andb orb];
      rewrite ?andb_false_r, ?andb_true_r; auto.
    (* from = k = to contradicts from < to *)
    all: apply qk_cmp_eq in E1, E2; subst; rewrite E2 in Hlt; unfold qk_ltb in Hlt; rewrite qk_cmp_refl in Hlt; discriminate.
  - apply Hwf.
  - rewrite lex_enc_statkey by auto. cbn [sk_shard sk_part sk_max sk_dest].
    rewrite (proj2 (sh_cmp_eq _ _ H1 H1) eq_refl), N.compare_refl. cbn [cmp_then].
    unfold qk_ltb in Hlt. destruct (qk_cmp (qr_from r) (qr_to r)); cbn; congruence.
Qed.

(** *** DiffStatistics::from_diff *)


Lemma from_diff_fold d s mn mx : from_diff d s mn mx =
  DS s mn mx (fst (fold_left (fd_step (qd_router d)) (qd_msgs d) ([], []))) (snd (fold_left (fd_step (qd_router d)) (qd_msgs d) ([], []))).
Proof.
  unfold from_diff. now destruct (fold_left _ _ _).
Qed.

Lemma eqb_reflect_N a b : reflect (a = b) (N.eqb a b). Proof. apply N.eqb_spec. Qed.

Lemma fd_fold rt l : forall stats counts p dst s,
  let r := fold_left (fd_step rt) l (stats, counts) in
  stat_get (fst r) p dst = stat_get stats p dst +
    N.of_nat (length (filter (fun e => (part_of rt (snd e) =? p) && ra_eqb (m_dst (snd e)) dst) l)) /\
  shc_get (snd r) s = shc_get counts s +
    N.of_nat (length (filter (fun e => sh_eqb (sh_full (ra_wc (m_dst (snd e)))) s) l)).
Proof.
  induction l as [|[k m] l IH]; intros stats counts p dst s; cbv zeta.
  - cbn. lia.
  - cbn [fold_left]. unfold fd_step at 2 4. cbn [snd].
    match goal with |- context [fold_left (fd_step rt) l (?a, ?b)] => specialize (IH a b p dst s) end.
    cbv zeta in IH. destruct IH as [IH1 IH2]. rewrite IH1, IH2. clear IH1 IH2. cbn [filter snd].
    fold (part_of rt m). split.
    + unfold stat_get. rewrite (aget_aset N.eqb eqb_reflect_N).
      rewrite (N.eqb_sym p). destruct (N.eqb_spec (part_of rt m) p) as [<-|]; cbn [andb]; auto.
      rewrite (aget_aset ra_eqb ra_eqb_spec).
      destruct (ra_eqb_spec (m_dst m) dst) as [<-|Hne].
      * destruct (ra_eqb_spec (m_dst m) (m_dst m)); [|congruence]. cbn [length].
        destruct (aget N.eqb (part_of rt m) stats) as [a|]; [destruct (aget ra_eqb (m_dst m) a)|]; cbn [aget]; lia.
      * destruct (ra_eqb_spec dst (m_dst m)); [congruence|].
        destruct (aget N.eqb (part_of rt m) stats); cbn [aget]; lia.
    + unfold shc_get. rewrite (aget_aset sh_eqb sh_eqb_spec).
      destruct (sh_eqb_spec (sh_full (ra_wc (m_dst m))) s) as [<-|Hne].
      * rewrite sh_eqb_refl. cbn [length]. destruct (aget sh_eqb _ counts); lia.
      * destruct (sh_eqb_spec s (sh_full (ra_wc (m_dst m)))); [congruence|]. lia.
Qed.

Lemma from_diff_counts d s mn mx p dst s' :
  stat_get (ds_stats (from_diff d s mn mx)) p dst = count_msgs d p dst /\
  shc_get (ds_counts (from_diff d s mn mx)) s' = count_wc d s'.
Proof.
  rewrite from_diff_fold. cbn [ds_stats ds_counts].
  destruct (fd_fold (qd_router d) (qd_msgs d) [] [] p dst s') as [A B]. cbv zeta in A, B.
  split; [eapply eq_trans; [exact A|]|eapply eq_trans; [exact B|]]; reflexivity.
Qed.

(** every stored entry is positive and maps have unique keys *)
Definition stats_good (st : amap N (amap raddr N)) : Prop :=
  NoDup (akeys st) /\ Forall (fun e => NoDup (akeys (snd e)) /\ Forall (fun f => 0 < snd f) (snd e)) st.

Lemma aset_forall {K V} (eqb : K -> K -> bool) (P : K * V -> Prop) k v m : Forall P m -> P (k, v) -> Forall P (aset eqb k v m).
Proof.
  induction m as [|[k' v'] m IH]; intros HF Hp; cbn [aset]; [constructor; auto|].
  inversion HF; subst. destruct (eqb k k'); constructor; auto.
Qed.

Lemma fd_good rt l : forall stats counts, stats_good stats -> stats_good (fst (fold_left (fd_step rt) l (stats, counts))).
Proof.
  induction l as [|[k m] l IH]; intros stats counts [H1 H2]; cbn [fold_left]; [split; auto|].
  unfold fd_step at 2. cbn [snd]. apply IH. split; [now apply (aset_nodup N.eqb eqb_reflect_N)|].
  apply aset_forall; auto. cbn [snd].
  assert (G : NoDup (akeys (match aget N.eqb (get_partition rt (Some (IStd (m_src m))) (IStd (m_dst m))) stats with Some a => a | None => [] end))
     /\ Forall (fun f : raddr * N => 0 < snd f) (match aget N.eqb (get_partition rt (Some (IStd (m_src m))) (IStd (m_dst m))) stats with Some a => a | None => [] end)).
  { destruct (aget N.eqb _ stats) as [a|] eqn:E; [|split; constructor].
    apply (aget_some_in N.eqb eqb_reflect_N) in E. rewrite Forall_forall in H2. now specialize (H2 _ E). }
  destruct G as [G1 G2]. split; [now apply (aset_nodup ra_eqb ra_eqb_spec)|].
  apply aset_forall; auto. cbn. lia.
Qed.

(** statistics records written by add_statistics *)
Lemma sk_eqb_lex s p k d s' p' k' d' : sk_ok (SK s p k d) -> sk_ok (SK s' p' k' d') ->
  lex (enc_statkey (SK s p k d)) (enc_statkey (SK s' p' k' d')) = Eq <-> (s = s' /\ p = p' /\ k = k' /\ d = d').
Proof.
  intros H1 H2. rewrite lex_eq. split.
  - intros E. apply enc_statkey_inj in E; auto. injection E; auto.
  - intros (-> & -> & -> & ->); auto.
Qed.

Lemma add_stats_inner s p mx (a : amap raddr N) : forall st, kv_sorted (st_stats st) ->
  sh_ok s -> p < 2 ^ 16 -> qk_ok mx -> NoDup (akeys a) -> Forall (fun f => ra_ok (fst f)) a ->
  let st' := fold_left (fun st (f : raddr * N) => insert_statistics (SK s p mx (fst f)) (snd f) st) a st in
  kv_sorted (st_stats st') /\
  forall s' p' k' d', sk_ok (SK s' p' k' d') -> stat_at st' s' p' k' d' =
    if sh_eqb s s' && (p =? p') && match qk_cmp mx k' with Eq => true | _ => false end then
      match aget ra_eqb d' a with Some c => Some (le 8 c) | None => stat_at st s' p' k' d' end
    else stat_at st s' p' k' d'.
Proof.
  induction a as [|[d c] a IH]; intros st Hso Hs Hp Hm Hnd HF; cbv zeta; cbn [fold_left].
  - split; auto. intros. cbn [aget]. now destruct (_ && _).
  - inversion Hnd as [|? ? Hni Hnd']; subst. inversion HF as [|? ? Hd HF']; subst. cbn [fst snd] in *.
    destruct (IH (insert_statistics (SK s p mx d) c st)) as [A B]; auto.
    { cbn. now apply kv_put_sorted. }
    cbv zeta in B. split; auto. intros s' p' k' d' Hk. rewrite B by auto. cbn [aget].
    assert (Hin : stat_at (insert_statistics (SK s p mx d) c st) s' p' k' d' =
       if sh_eqb s s' && (p =? p') && match qk_cmp mx k' with Eq => true | _ => false end && ra_eqb d' d
       then Some (le 8 c) else stat_at st s' p' k' d').
    { unfold stat_at. cbn [insert_statistics st_stats]. rewrite kv_get_put by auto.
      pose proof (sk_eqb_lex s' p' k' d' s p mx d Hk) as L.
      assert (Hk0 : sk_ok (SK s p mx d)) by (split; [|split; [|split]]; auto). specialize (L Hk0).
      destruct (sh_eqb_spec s s') as [<-|Hne]; cbn [andb].
      2:{ destruct (lex _ _) eqn:El; auto. destruct L as [L _]. destruct (L eq_refl) as (L1 & _). exfalso; auto. }
      destruct (N.eqb_spec p p') as [<-|Hne]; cbn [andb].
      2:{ destruct (lex _ _) eqn:El; auto. destruct L as [L _]. destruct (L eq_refl) as (_ & L1 & _). exfalso; auto. }
      destruct (qk_cmp mx k') eqn:Ec; cbn [andb].
      - apply qk_cmp_eq in Ec. subst k'. destruct (ra_eqb_spec d' d) as [->|Hne].
        + destruct L as [_ L]. now rewrite L by auto.
        + destruct (lex _ _) eqn:El; auto. destruct L as [L _]. destruct (L eq_refl) as (_ & _ & _ & L1). exfalso; auto.
      - destruct (lex _ _) eqn:El; auto. destruct L as [L _]. destruct (L eq_refl) as (_ & _ & L1 & _).
        rewrite L1, qk_cmp_refl in Ec. discriminate Ec.
      - destruct (lex _ _) eqn:El; auto. destruct L as [L _]. destruct (L eq_refl) as (_ & _ & L1 & _).
        rewrite L1, qk_cmp_refl in Ec. discriminate Ec. }
    rewrite Hin. destruct (sh_eqb s s' && (p =? p') && match qk_cmp mx k' with Eq => true | _ => false end); cbn [andb]; auto.
    destruct (ra_eqb_spec d' d) as [->|]; auto.
    replace (aget ra_eqb d a) with (@None N); auto. symmetry. now apply (aget_none ra_eqb ra_eqb_spec).
Qed.

Lemma add_stats_outer s mx (l : amap N (amap raddr N)) : forall st, kv_sorted (st_stats st) ->
  sh_ok s -> qk_ok mx -> NoDup (akeys l) ->
  Forall (fun e => fst e < 2 ^ 16 /\ NoDup (akeys (snd e)) /\ Forall (fun f => ra_ok (fst f)) (snd e)) l ->
  let st' := fold_left (fun st (e : N * amap raddr N) =>
     fold_left (fun st (f : raddr * N) => insert_statistics (SK s (fst e) mx (fst f)) (snd f) st) (snd e) st) l st in
  forall s' p' k' d', sk_ok (SK s' p' k' d') -> stat_at st' s' p' k' d' =
    if sh_eqb s s' && match qk_cmp mx k' with Eq => true | _ => false end then
      match aget N.eqb p' l with
      | Some a => match aget ra_eqb d' a with Some c => Some (le 8 c) | None => stat_at st s' p' k' d' end
      | None => stat_at st s' p' k' d' end
    else stat_at st s' p' k' d'.
Proof.
  induction l as [|[p a] l IH]; intros st Hso Hs Hm Hnd HF; cbv zeta; cbn [fold_left]; intros s' p' k' d' Hk.
  - cbn [aget]. now destruct (_ && _).
  - inversion Hnd as [|? ? Hni Hnd']; subst. inversion HF as [|? ? (Hp & Ha & Hr) HF']; subst. cbn [fst snd] in *.
    destruct (add_stats_inner s p mx a st Hso Hs Hp Hm Ha Hr) as [A B]. cbv zeta in A, B.
    cbv zeta in IH. rewrite IH by auto. rewrite B by auto. cbn [aget].
    destruct (sh_eqb s s'); cbn [andb]; auto.
    destruct (qk_cmp mx k'); rewrite ?andb_false_r; auto. rewrite andb_true_r.
    rewrite (N.eqb_sym p' p). destruct (N.eqb_spec p p') as [<-|]; auto.
    replace (aget N.eqb p l) with (@None (amap raddr N)); auto. symmetry. now apply (aget_none N.eqb eqb_reflect_N).
Qed.

(** *** statistics over several ranges *)
Lemma stat_del_keep snap st r st' s p k d : st_wf st -> range_ok r -> sk_ok (SK s p k d) ->
  delete_one snap (Some st) r = Some st' -> covers_msg p s k r = false ->
  stat_at st' s p k d = stat_at st s p k d.
Proof.
  intros Hwf Hr Hk E Hc. apply delete_one_inv in E as (mn & mx & _ & _ & Es & _).
  unfold stat_at. rewrite Es. pose proof Hr as (H1 & H2 & H3 & H4 & H5).
  assert (K1 : sk_ok (SK (qr_shard r) (qr_part r) (qr_from r) ra_min)) by (split; [|split; [|split]]; auto; apply ra_min_ok).
  assert (K2 : sk_ok (SK (qr_shard r) (qr_part r) (qr_to r) ra_max)) by (split; [|split; [|split]]; auto; apply ra_max_ok).
  unfold del_incl. rewrite kv_get_del by (apply kv_filter_sorted, Hwf).
  rewrite kv_get_del_range by apply Hwf.
  unfold covers_msg in Hc.
  assert (Hb : lex_leb (enc_statkey (SK (qr_shard r) (qr_part r) (qr_from r) ra_min)) (enc_statkey (SK s p k d)) &&
     lex_leb (enc_statkey (SK s p k d)) (enc_statkey (SK (qr_shard r) (qr_part r) (qr_to r) ra_max)) = false).
  { rewrite statkey_range by auto. destruct (sh_eqb (qr_shard r) s); cbn [andb]; auto.
    destruct (qr_part r =? p); cbn [andb] in *; auto.
    unfold in_keys, qk_leb in Hc.
    destruct (qk_cmp (qr_from r) k); cbn [cmp_then]; destruct (qk_cmp k (qr_to r)); cbn [cmp_then andb] in *; auto; try discriminate;
      now rewrite ?andb_false_r. }
  destruct (lex (enc_statkey (SK s p k d)) (enc_statkey (SK (qr_shard r) (qr_part r) (qr_to r) ra_max))) eqn:El.
  - exfalso. apply (sk_eqb_lex _ _ _ _ _ _ _ _ Hk K2) in El. destruct El as (-> & -> & -> & ->).
    rewrite N.eqb_refl, sh_eqb_refl in Hc. unfold in_keys in Hc. rewrite H5, qk_leb_refl in Hc. discriminate.
  - unfold in_range, lex_leb, lex_ltb in *. rewrite El in *. now rewrite Hb.
  - unfold in_range, lex_leb, lex_ltb in *. rewrite El in *. now rewrite andb_false_r.
Qed.

Lemma stat_del_gone snap st r st' s p k d : st_wf st -> range_ok r -> sk_ok (SK s p k d) ->
  delete_one snap (Some st) r = Some st' -> qr_shard r = s -> qr_part r = p ->
  qk_ltb (qr_from r) k = true -> qk_ltb k (qr_to r) = true ->
  stat_at st' s p k d = None.
Proof.
  intros Hwf Hr Hk E <- <- L1 L2. rewrite (delete_one_stats snap st r st') by (auto; qk).
  unfold stat_hit. now rewrite sh_eqb_refl, N.eqb_refl, L1, L2.
Qed.

Lemma stat_del_none snap st r st' s p k d : st_wf st -> sk_ok (SK s p k d) ->
  delete_one snap (Some st) r = Some st' -> stat_at st s p k d = None -> stat_at st' s p k d = None.
Proof.
  intros Hwf Hk E Hn. apply delete_one_inv in E as (mn & mx & _ & _ & Es & _).
  unfold stat_at in *. rewrite Es. unfold del_incl. rewrite kv_get_del by (apply kv_filter_sorted, Hwf).
  rewrite kv_get_del_range by apply Hwf. rewrite Hn. destruct (in_range _ _ _); now destruct (lex _ _).
Qed.

Lemma delete_stats_keep ranges s p k d : sk_ok (SK s p k d) -> forall snap st st', st_wf st -> Forall range_ok ranges ->
  fold_left (delete_one snap) ranges (Some st) = Some st' ->
  existsb (covers_msg p s k) ranges = false -> stat_at st' s p k d = stat_at st s p k d.
Proof.
  intros Hk snap. induction ranges as [|r ranges IH]; intros st st' Hwf HF; cbn [fold_left existsb].
  - congruence.
  - inversion HF; subst. destruct (delete_one snap (Some st) r) as [st1|] eqn:E; [|rewrite fold_delete_none; discriminate].
    intros E2 Hc. apply orb_false_iff in Hc as [C1 C2].
    rewrite (IH st1 st') by (auto; eapply delete_one_wf; eauto). eapply stat_del_keep; eauto.
Qed.
Lemma delete_stats_none ranges s p k d : sk_ok (SK s p k d) -> forall snap st st', st_wf st ->
  fold_left (delete_one snap) ranges (Some st) = Some st' -> stat_at st s p k d = None -> stat_at st' s p k d = None.
Proof.
  intros Hk snap. induction ranges as [|r ranges IH]; intros st st' Hwf; cbn [fold_left].
  - congruence.
  - destruct (delete_one snap (Some st) r) as [st1|] eqn:E; [|rewrite fold_delete_none; discriminate].
    intros E2 Hn. apply (IH st1); auto; [eapply delete_one_wf; eauto|]. eapply stat_del_none; eauto.
Qed.
Lemma delete_stats_gone ranges s p k d : sk_ok (SK s p k d) -> forall snap st st', st_wf st -> Forall range_ok ranges ->
  fold_left (delete_one snap) ranges (Some st) = Some st' ->
  (exists r, In r ranges /\ qr_shard r = s /\ qr_part r = p /\ qk_ltb (qr_from r) k = true /\ qk_ltb k (qr_to r) = true) ->
  stat_at st' s p k d = None.
Proof.
  intros Hk snap. induction ranges as [|r ranges IH]; intros st st' Hwf HF; cbn [fold_left].
  - intros _ (r & [] & _).
  - inversion HF; subst. destruct (delete_one snap (Some st) r) as [st1|] eqn:E; [|rewrite fold_delete_none; discriminate].
    intros E2 (r0 & [<-|Hr0] & Hrest).
    + destruct Hrest as (A & B & C & D).
      apply (delete_stats_none ranges s p k d Hk snap st1 st'); auto; [eapply delete_one_wf; eauto|].
      eapply (stat_del_gone snap st r); eauto.
    + apply (IH st1); auto; [eapply delete_one_wf; eauto|]. eauto.
Qed.

(** *** executable checks of the environment obligations, for concrete histories *)
Definition chain_okb (d : qdiff) (s : shard) (n : N) (ds : dstats) (st : store) : bool :=
  forallb (fun e => match dec_infokey (fst e) with
      | Some (ik, _) => negb (sh_eqb (ik_shard ik) s) ||
          ((ik_seqno ik <? n) && qk_ltb (di_max (snd e)) (ds_max ds) &&
           forallb (fun f => qk_ltb (di_max (snd e)) (fst f)) (qd_msgs d))
      | None => false end) (st_infos st) &&
  match ptr_at st s with
  | None => true
  | Some p => (negb (n <=? pv_seqno p) || qk_leb (ds_max ds) (pv_key p)) &&
              (negb (pv_seqno p <? n) || qk_ltb (pv_key p) (ds_max ds)) &&
              (negb (n =? pv_seqno p) || match qk_cmp (ds_max ds) (pv_key p) with Eq => true | _ => false end)
  end.

Lemma chain_okb_ok d s n ds st : st_wf st -> sh_ok s -> chain_okb d s n ds st = true -> chain_ok d s n ds st.
Proof.
  intros Hwf Hs H. apply andb_true_iff in H as [H1 H2]. split.
  - intros n' d' Hn' Ei. rewrite forallb_forall in H1.
    unfold info_at in Ei. apply kv_in_get in Ei; [|apply Hwf]. specialize (H1 _ Ei). cbn [fst snd] in H1.
    rewrite <- (app_nil_r (enc_infokey (IK s n'))) in H1. rewrite dec_enc_infokey in H1 by (split; auto).
    cbn [ik_shard ik_seqno] in H1. rewrite sh_eqb_refl in H1. cbn [negb orb] in H1.
    rewrite !andb_true_iff in H1. destruct H1 as [[A B] C]. split; [lia|]. split; auto.
    rewrite Forall_forall. rewrite forallb_forall in C. auto.
  - intros p Ep. rewrite Ep in H2. rewrite !andb_true_iff, !orb_true_iff in H2. destruct H2 as [[A B] C].
    split; [|split]; intros L.
    + destruct A as [A|A]; auto. lia.
    + destruct B as [B|B]; auto. lia.
    + destruct C as [C|C]; [lia|]. destruct (qk_cmp _ _) eqn:E; try discriminate. now apply qk_cmp_eq in E.
Qed.

Fixpoint osortedb {K V} (cmp : K -> K -> comparison) (m : omap K V) : bool :=
  match m with
  | [] => true
  | (k, _) :: r => forallb (fun e => match cmp k (fst e) with Lt => true | _ => false end) r && osortedb cmp r
  end.
Lemma osortedb_ok {K V} (cmp : K -> K -> comparison) (m : omap K V) : osortedb cmp m = true -> osorted cmp m.
Proof.
  induction m as [|[k v] m IH]; cbn [osortedb]; [constructor|]. rewrite andb_true_iff. intros [A B].
  constructor; auto. rewrite forallb_forall in A. rewrite Forall_forall. intros e He. specialize (A e He).
  destruct (cmp k (fst e)); congruence.
Qed.

Definition sh_okb (s : shard) : bool := ((- 2 ^ 31 <=? sh_wc s) && (sh_wc s <? 2 ^ 31))%Z && (sh_prefix s <? 2 ^ 64).
Definition qk_okb (k : qkey) : bool := (qk_lt k <? 2 ^ 64) && (qk_hash k <? 2 ^ 256).
Lemma sh_okb_ok s : sh_okb s = true -> sh_ok s.
Proof. unfold sh_okb, sh_ok. rewrite !andb_true_iff. intros [[A B] C]. split; [lia|]. apply N.ltb_lt. exact C. Qed.
Lemma qk_okb_ok k : qk_okb k = true -> qk_ok k.
Proof. unfold qk_okb, qk_ok. rewrite !andb_true_iff, !N.ltb_lt. auto. Qed.

Definition diff_okb (d : qdiff) (s : shard) (n : N) (ds : dstats) : bool :=
  sh_okb s && (0 <? n) && (n <? u32_max) && osortedb qk_cmp (qd_msgs d) &&
  forallb (fun e => qk_okb (fst e) && (part_of (qd_router d) (snd e) <? 2 ^ 16) && qk_leb (fst e) (ds_max ds)) (qd_msgs d) &&
  forallb (fun f => sh_okb (fst f) && qk_okb (snd f)) (qd_processed d) &&
  sh_eqb (ds_shard ds) s && qk_okb (ds_max ds) && qk_ltb (ds_max ds) qk_max.
Lemma diff_okb_ok d s n ds : diff_okb d s n ds = true -> diff_ok d s n ds.
Proof.
  unfold diff_okb. rewrite !andb_true_iff. intros ((((((((A & B) & C) & D) & E) & F) & G) & H) & I).
  rewrite forallb_forall in E, F. split.
  - now apply sh_okb_ok.
  - lia.
  - now apply osortedb_ok.
  - rewrite Forall_forall. intros e He. specialize (E e He). rewrite !andb_true_iff in E. split; [apply qk_okb_ok, E|].
    apply N.ltb_lt, E.
  - rewrite Forall_forall. intros e He. specialize (F e He). rewrite !andb_true_iff in F. split; [apply sh_okb_ok, F|apply qk_okb_ok, F].
  - destruct (sh_eqb_spec (ds_shard ds) s); [auto|discriminate].
  - split; auto. now apply qk_okb_ok.
  - rewrite Forall_forall. intros e He. specialize (E e He). rewrite !andb_true_iff in E. apply E.
Qed.

Definition op_envb (q : qstate) (o : qop) : bool :=
  match o with
  | OpApply d s n h ds c => diff_okb d s n ds && chain_okb d s n ds (q_st q)
  | OpCommit tops parts =>
      forallb (fun b => sh_okb (tb_shard b) && (tb_seqno b <? 2 ^ 32) &&
         match ptr_at (q_st q) (tb_shard b) with Some p => pv_seqno p <=? tb_seqno b | None => true end) tops &&
      forallb (fun p => p <? 2 ^ 16) parts
  | OpClear parts tops => forallb (fun p => p <? 2 ^ 16) parts && forallb sh_okb tops
  | _ => true
  end.
Lemma op_envb_ok q o : q_inv q -> op_envb q o = true -> op_env q o.
Proof.
  intros Hq. destruct o; cbn [op_envb op_env]; auto.
  - rewrite andb_true_iff. intros [A B]. apply diff_okb_ok in A. split; auto. intros _.
    apply chain_okb_ok; auto. apply (inv_wf _ (qi_st _ Hq)). apply (dk_s _ _ _ _ A).
  - rewrite andb_true_iff, !forallb_forall. intros [A B]. rewrite !Forall_forall. split; [|split].
    + intros b Hb. specialize (A b Hb). rewrite !andb_true_iff in A. split; [apply sh_okb_ok, A|apply N.ltb_lt, A].
    + intros p Hp. apply N.ltb_lt. auto.
    + intros _ b p Hb Ep. specialize (A b Hb). rewrite Ep in A. rewrite !andb_true_iff in A. lia.
  - rewrite andb_true_iff, !forallb_forall. intros [A B]. rewrite !Forall_forall. split.
    + intros p Hp. apply N.ltb_lt. auto.
    + intros s Hs. apply sh_okb_ok. auto.
Qed.

(** run a list of operations, checking the obligations *)
Fixpoint run_check (q : qstate) (tr : list (qstate * qop)) (ops : list qop) : option (qstate * list (qstate * qop)) :=
  match ops with
  | [] => Some (q, tr)
  | o :: r => if op_envb q o then run_check (qstep q o) ((q, o) :: tr) r else None
  end.
Lemma run_check_reach z ops : forall tr q q' tr', reach z tr q -> run_check q tr ops = Some (q', tr') -> reach z tr' q'.
Proof.
  induction ops as [|o ops IH]; intros tr q q' tr' Hr; cbn [run_check].
  - intros E; injection E as <- <-; auto.
  - destruct (op_envb q o) eqn:E; [|discriminate]. apply IH. constructor; auto.
    apply op_envb_ok; auto. eapply reach_inv; eauto.
Qed.

(** *** statistics records written with a diff *)
Definition stats_keys_ok (st : amap N (amap raddr N)) : Prop :=
  Forall (fun e => fst e < 2 ^ 16 /\ Forall (fun f => ra_ok (fst f)) (snd e)) st.
Lemma fd_keys_ok rt l : Forall (fun e => part_of rt (snd e) < 2 ^ 16 /\ ra_ok (m_dst (snd e))) l ->
  forall stats counts, stats_keys_ok stats -> stats_keys_ok (fst (fold_left (fd_step rt) l (stats, counts))).
Proof.
  induction 1 as [|[k m] l [Hp Hd] HF IH]; intros stats counts H; cbn [fold_left]; auto.
  unfold fd_step at 2. cbn [snd] in *. apply IH. fold (part_of rt m).
  apply aset_forall; auto. cbn [fst snd]. split; auto. apply aset_forall; auto.
  destruct (aget N.eqb (part_of rt m) stats) as [a|] eqn:E; [|constructor].
  apply (aget_some_in N.eqb eqb_reflect_N) in E. unfold stats_keys_ok in H. rewrite Forall_forall in H. now specialize (H _ E).
Qed.

Lemma write_diff_stats st d s n h mn mx : st_wf st -> diff_ok d s n (from_diff d s mn mx) ->
  Forall (fun e => ra_ok (m_dst (snd e))) (qd_msgs d) ->
  forall s' p k dst, sk_ok (SK s' p k dst) ->
  stat_at (write_diff s n (from_diff d s mn mx) h d st) s' p k dst =
    if sh_eqb s s' && match qk_cmp mx k with Eq => true | _ => false end && (0 <? count_msgs d p dst)
    then Some (le 8 (count_msgs d p dst)) else stat_at st s' p k dst.
Proof.
  intros Hwf Hd Hra s' p k dst Hk.
  pose proof (from_diff_fold d s mn mx) as Hfd.
  set (F := fold_left (fd_step (qd_router d)) (qd_msgs d) ([], [])) in *.
  assert (Hgood : stats_good (fst F)). { apply (fd_good (qd_router d) (qd_msgs d) [] []). split; constructor. }
  assert (Hkeys : stats_keys_ok (fst F)).
  { apply fd_keys_ok; [|constructor]. pose proof (dk_msgs _ _ _ _ Hd) as Hm. rewrite Forall_forall in *.
    intros e He. split; [apply Hm, He|apply Hra, He]. }
  destruct (from_diff_counts d s mn mx p dst s) as [Hcnt _].
  assert (E1 : ds_shard (from_diff d s mn mx) = s /\ ds_max (from_diff d s mn mx) = mx /\ ds_stats (from_diff d s mn mx) = fst F).
  { rewrite Hfd. auto. }
  destruct E1 as (E1 & E2 & E3).
  unfold write_diff, add_diff_info, add_diff_tail, insert_diff_info, insert_diff_tail.
  unfold stat_at at 1. cbn [st_stats].
  change (kv_get (enc_statkey (SK s' p k dst)) (st_stats ?x)) with (stat_at x s' p k dst).
  unfold add_statistics. rewrite E1, E2, E3.
  pose proof (add_messages_other s (qd_router d) (qd_msgs d) st) as (O1 & _).
  rewrite (add_stats_outer s mx (fst F)); auto.
  - assert (Eo : stat_at (add_messages s (qd_router d) (qd_msgs d) st) s' p k dst = stat_at st s' p k dst) by (unfold stat_at; now rewrite O1).
    rewrite Eo. destruct (sh_eqb s s' && match qk_cmp mx k with Eq => true | _ => false end); cbn [andb]; auto.
    rewrite E3 in Hcnt. unfold stat_get in Hcnt. rewrite <- Hcnt. clear Hcnt.
    destruct (aget N.eqb p (fst F)) as [a|] eqn:Ea; auto.
    destruct (aget ra_eqb dst a) as [c|] eqn:Ec; auto.
    apply (aget_some_in N.eqb eqb_reflect_N) in Ea. destruct Hgood as [_ Hg]. rewrite Forall_forall in Hg.
    specialize (Hg _ Ea). destruct Hg as [_ Hg]. cbn [snd] in Hg. rewrite Forall_forall in Hg.
    apply (aget_some_in ra_eqb ra_eqb_spec) in Ec. specialize (Hg _ Ec). cbn [snd] in Hg.
    destruct (N.ltb_spec 0 c); auto. lia.
  - rewrite O1. apply Hwf.
  - apply (dk_s _ _ _ _ Hd).
  - pose proof (dk_max _ _ _ _ Hd) as [Hm _]. now rewrite E2 in Hm.
  - apply Hgood.
  - destruct Hgood as [_ Hg]. rewrite Forall_forall in *. intros e He. destruct (Hg e He) as [G1 _].
    unfold stats_keys_ok in Hkeys. rewrite Forall_forall in Hkeys. destruct (Hkeys e He) as [K1 K2]. auto.
Qed.

(** *** the GC state only moves forward *)
Lemma gc_state_mono l : forall st gcs key a, aget ps_eqb key gcs = Some a ->
  exists b, aget ps_eqb key (snd (fold_left gc_one l (st, gcs))) = Some b /\ qk_leb a b = true.
Proof.
  induction l as [|[k0 b0] l IH]; intros st gcs key a E; cbn [fold_left].
  - exists a. split; auto. apply qk_leb_refl.
  - destruct (gc_one (st, gcs) (k0, b0)) as [st1 gcs1] eqn:Eg.
    assert (H : exists b, aget ps_eqb key gcs1 = Some b /\ qk_leb a b = true).
    { unfold gc_one in Eg. cbn [fst snd] in Eg.
      destruct (ps_eqb_spec key k0) as [->|Hne].
      - rewrite E in Eg. destruct (qk_ltb a b0) eqn:L; injection Eg as <- <-.
        + exists b0. rewrite (aget_aset ps_eqb ps_eqb_spec).
          destruct (ps_eqb_spec k0 k0); [|congruence]. split; auto. qk.
        + exists a. split; auto. apply qk_leb_refl.
      - exists a. split; [|apply qk_leb_refl].
        destruct (match aget ps_eqb k0 gcs with Some last => qk_ltb last b0 | None => true end); injection Eg as <- <-; auto.
        rewrite (aget_aset ps_eqb ps_eqb_spec). destruct (ps_eqb_spec key k0); [congruence|auto]. }
    destruct H as (b & Eb & Lb). destruct (IH st1 gcs1 key b Eb) as (b' & Eb' & Lb').
    exists b'. split; auto. eapply qk_leb_trans; eauto.
Qed.
