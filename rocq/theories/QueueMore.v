(** Further lemmas for the queue properties. *)
From Verif Require Import QueueStoreModel QueueStoreSpec QueueStoreProofs QueueStoreInv QueueStoreOps QueueStoreApply QueueStoreHist QueueHistory QueueExtra QueueKeysProofs.
From Coq Require Import ZifyBool ZifyN ZifyNat Lia.
Local Open Scope N_scope.
Local Opaque enc_tailkey enc_infokey enc_mkey enc_statkey enc_ptrkey enc_shard be le lex.

(** *** statistics removed by clear_uncommitted *)
Lemma clear_stats st parts tops st' s p k d : st_inv st -> Forall (fun p => p < 2 ^ 16) parts -> Forall sh_ok tops ->
  clear_uncommitted parts tops st = Some st' -> sk_ok (SK s p k d) ->
  (existsb (N.eqb p) parts && discarded st tops s k = false -> stat_at st' s p k d = stat_at st s p k d) /\
  (existsb (N.eqb p) parts && discarded st tops s k = true -> qk_ltb k qk_max = true ->
   (forall pt, ptr_at st s = Some pt -> k <> next_value (pv_key pt)) -> (ptr_at st s = None -> k <> qk_min) ->
   stat_at st' s p k d = None).
Proof.
  intros Hinv Hp Ht Hc Hk. unfold clear_uncommitted in Hc.
  destruct (read_ptrs_spec st (inv_wf _ Hinv)) as (ps & Er & Hnd & Hg & Hin). rewrite Er in Hc.
  pose proof (clear_ranges_ok st parts tops ps Hinv Hp Ht Er) as Hr.
  destruct Hk as (Hs & Hp16 & Hq & Hra). cbn [sk_shard sk_part sk_max sk_dest] in *.
  pose proof (clear_covers_msg st parts tops ps Hinv Hp Ht Er p s k Hs Hq) as Hcov.
  split.
  - intros E. rewrite <- Hcov in E. eapply delete_stats_keep; eauto. split; [auto|split; auto]. apply inv_wf; auto.
  - intros E Hmax Hnx Hmn. eapply delete_stats_gone; eauto. split; [auto|split; auto]. apply inv_wf; auto.
    rewrite <- Hcov in E. apply existsb_exists in E as (r & Hr1 & Hr2). exists r. split; auto.
    unfold covers_msg in Hr2. apply andb_prop in Hr2 as [Hr2 Hr3]. apply andb_prop in Hr2 as [Hr2 Hr4].
    apply N.eqb_eq in Hr2. assert (qr_shard r = s) as Hrs. { destruct (sh_eqb_spec (qr_shard r) s); congruence. }
    split; [exact Hrs|]. split; [exact Hr2|].
    assert (Hto : qr_to r = qk_max /\ ((exists pt, ptr_at st s = Some pt /\ qr_from r = next_value (pv_key pt)) \/ (ptr_at st s = None /\ qr_from r = qk_min))).
    { unfold clear_ranges in Hr1. apply in_app_or in Hr1 as [H|H]; apply in_flat_map in H as (e & He1 & He2).
      - apply in_map_iff in He2 as (p' & <- & _). cbn [qr_to qr_from qr_shard] in *. split; [reflexivity|]. left.
        destruct e as [s' pt]; cbn [fst snd] in *. subst s'. destruct (Hin _ _ He1) as (_ & _ & Hpt). eauto.
      - destruct (amem sh_eqb e ps) eqn:Em; [contradiction|].
        apply in_map_iff in He2 as (p' & <- & _). cbn [qr_to qr_from qr_shard] in *. split; [reflexivity|]. right.
        subst e. split; [|reflexivity]. rewrite <- Hg by auto. unfold amem in Em. destruct (aget sh_eqb s ps); congruence. }
    destruct Hto as [Hto Hfr]. rewrite Hto. split; [|exact Hmax].
    unfold in_keys in Hr3. apply andb_prop in Hr3 as [Hr3 _].
    assert (Hne : k <> qr_from r). { destruct Hfr as [(pt & H1 & ->)|[H1 ->]]; eauto. }
    clear - Hr3 Hne. qk.
Qed.

(** *** acceptance of a diff *)
Definition zone_sees (z : zone) (st : store) (s : shard) (d : dinfo) : Prop :=
  match z with
  | ZBoth => True
  | ZCommitted => exists p, ptr_at st s = Some p /\ qk_leb (di_max d) (pv_key p) = true
  | ZUncommitted => forall p, ptr_at st s = Some p -> qk_ltb (pv_key p) (di_max d) = true
  end.

Lemma get_diff_info_sees st s n z d : st_inv st -> sh_ok s -> info_at st s n = Some d -> zone_sees z st s d ->
  get_diff_info s n z st = Some (Some d).
Proof.
  intros Hinv Hs Hd Hz. unfold get_diff_info. unfold info_at in Hd. rewrite Hd.
  destruct (read_ptrs_spec st (inv_wf _ Hinv)) as (ps & Er & _ & Hg & _). rewrite Er, (Hg s Hs).
  destruct z; cbn [zone_sees] in Hz; auto.
  - destruct Hz as (p & -> & Hz). rewrite qk_ltb_leb, Hz. reflexivity.
  - destruct (ptr_at st s) as [p|]; auto. specialize (Hz p eq_refl). rewrite qk_ltb_leb in Hz.
    destruct (qk_leb (di_max d) (pv_key p)); [discriminate|reflexivity].
Qed.

Lemma apply_seq d s n h ds z st st' last ld : st_inv st -> sh_ok s -> apply_diff d s n h ds (Some z) st = Applied st' ->
  last < 2 ^ 32 -> info_at st s last = Some ld -> (forall n' d', n' < 2 ^ 32 -> info_at st s n' = Some d' -> n' <= last) ->
  zone_sees z st s ld -> n = last + 1.
Proof.
  intros Hinv Hs Ha Hl32 Hl Hmax Hz. unfold apply_diff in Ha.
  destruct (kv_get (enc_infokey (IK s n)) (st_infos st)); [destruct (_ =? _); discriminate|].
  assert (Hla : last_applied s st = Some last).
  { apply last_applied_some; auto. split; auto. split; [eauto|]. exact Hmax. }
  rewrite Hla, (get_diff_info_sees _ _ _ _ _ Hinv Hs Hl Hz) in Ha.
  destruct (inv_info _ _ _ _ Hinv Hs Hl32 Hl) as (_ & Hsq & _).
  rewrite Hsq in Ha. destruct (n <=? last) eqn:E1; [discriminate|]. destruct (n =? last + 1) eqn:E2; [|discriminate].
  now apply N.eqb_eq.
Qed.

(** *** persistence of a diff info *)
Lemma qstep_info z tr q o s n d : reach z tr q -> op_env q o -> sh_ok s -> n < 2 ^ 32 -> info_at (q_st q) s n = Some d ->
  info_at (q_st (qstep q o)) s n = Some d \/
  (exists parts tops, o = OpClear parts tops /\ discarded (q_st q) tops s (di_max d) = true /\ info_at (q_st (qstep q o)) s n = None) \/
  (o = OpGc /\ (exists p, scheduled tr p s (di_max d)) /\ info_at (q_st (qstep q o)) s n = None).
Proof.
  intros Hr He Hs Hn Hd. pose proof (reach_inv _ _ _ Hr) as Hq. destruct o as [dd s' n' h ds c|tops parts|parts tops| |]; cbn [qstep].
  - left. destruct (apply_diff dd s' n' h ds c (q_st q)) as [st'| |] eqn:Ea; auto. cbn [q_st].
    destruct (apply_store _ _ _ _ _ _ _ _ Ea) as (-> & Hnone & _).
    destruct He as [Hok _].
    destruct (write_diff_spec dd s' n' h ds (q_st q) (inv_wf _ (qi_st _ Hq)) Hok) as (_ & _ & _ & _ & Hi & _).
    rewrite Hi by auto. destruct (sh_eqb_spec s' s) as [->|]; cbn [andb]; auto.
    destruct (n =? n') eqn:E; auto. apply N.eqb_eq in E. subst. congruence.
  - left. destruct (commit_diff tops parts q) as [q'|] eqn:Ec; auto. destruct He as (Ht & Hp & _).
    destruct (commit_diff_spec _ _ _ _ Hq Ht Hp Ec) as (_ & _ & _ & _ & Hi & _). now rewrite Hi.
  - destruct He as [Hp Ht]. destruct (clear_spec (q_st q) parts tops (qi_st _ Hq) Hp Ht) as (st' & Ec & _ & _ & _ & _ & _ & Hi & Hnil).
    rewrite Ec. cbn [q_st]. destruct parts as [|p parts]. { left. rewrite Hnil; auto. }
    rewrite (Hi ltac:(discriminate)) by auto. rewrite Hd. destruct (discarded (q_st q) tops s (di_max d)) eqn:E; eauto.
    right; left. exists (p :: parts), tops. auto.
  - destruct (gc_task_spec q Hq) as (_ & _ & _ & Hi & _). destruct (Hi s n Hs Hn) as [H|(H & d' & p & b & Hd' & Hu & Hb)].
    + left. congruence.
    + right; right. split; auto. split; auto. exists p. assert (d' = d) by congruence. subst d'.
      eapply scheduled_le; eauto. eapply until_scheduled; eauto.
  - auto.
Qed.

Lemma info_persists z tr q ext q' s n d : reach z tr q -> continues z tr q ext q' -> sh_ok s -> n < 2 ^ 32 ->
  info_at (q_st q) s n = Some d ->
  info_at (q_st q') s n = Some d \/
  (exists q1 parts tops, In (q1, OpClear parts tops) ext /\ discarded (q_st q1) tops s (di_max d) = true) \/
  (exists q1 p, In (q1, OpGc) ext /\ scheduled (ext ++ tr) p s (di_max d)).
Proof.
  intros Hr Hc Hs Hn Hd. induction Hc as [|ext q1 o Hc IH He]; auto.
  destruct IH as [IH|[(q2 & parts & tops & H1 & H2)|(q2 & p & H1 & H2)]].
  - pose proof (continues_reach _ _ _ _ _ Hr Hc) as Hr1.
    destruct (qstep_info _ _ _ o s n d Hr1 He Hs Hn IH) as [H|[(parts & tops & -> & H & _)|(-> & (p & H) & _)]]; auto.
    + right; left. exists q1, parts, tops. split; [left; reflexivity|auto].
    + right; right. exists q1, p. split; [left; reflexivity|]. eapply scheduled_mono; [|exact H].
      intros e He'. right. exact He'.
  - right; left. exists q2, parts, tops. split; [right; auto|auto].
  - right; right. exists q2, p. split; [right; auto|]. eapply scheduled_mono; [|exact H2]. intros e He'. right. exact He'.
Qed.
