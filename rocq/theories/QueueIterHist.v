(** The rows of the messages table in every reachable state, and range scans over them. *)
From Verif Require Export QueueIterProofs QueueHistory.
From Coq Require Import ZifyBool ZifyN ZifyNat Lia Sorted.
Local Open Scope N_scope.
Local Opaque enc_mkey enc_qkey enc_shard be le lex de msg_header.

(** a row stored by the queue: some partition and shard, key of the message, header of its destination *)
Definition stored_row (e : row) : Prop :=
  (exists p s, good_row p s e) /\ qk_ltb (m_key (rm e)) qk_max = true.

(** messages of an applied diff are filed under their own key and have a standard destination *)
Definition keyed_op (o : qop) : Prop :=
  match o with
  | OpApply d _ _ _ _ _ => Forall (fun e => fst e = m_key (snd e) /\ ra_ok (m_dst (snd e))) (qd_msgs d)
  | _ => True
  end.

Lemma add_messages_rows s rt ms : sh_ok s -> forall st, Forall stored_row (st_msgs st) ->
  Forall (fun e : qkey * msg => qk_ok (fst e) /\ part_of rt (snd e) < 2 ^ 16 /\ qk_ltb (fst e) qk_max = true /\
                 fst e = m_key (snd e) /\ ra_ok (m_dst (snd e))) ms ->
  Forall stored_row (st_msgs (add_messages s rt ms st)).
Proof.
  intros Hs. induction ms as [|[k m] ms IH]; intros st Hst Hms; auto.
  inversion Hms as [|? ? (H1 & H2 & H3 & H4 & H5) Hms']; subst. cbn [fst snd] in *.
  unfold add_messages. cbn [fold_left fst snd]. apply IH; auto.
  unfold insert_message. cbn [st_msgs]. apply Forall_forall. intros e He.
  apply kv_put_in in He as [->|He]; [|rewrite Forall_forall in Hst; auto].
  split; [|cbn [rm snd]; rewrite <- H4; exact H3]. exists (part_of rt m), s. unfold good_row. cbn [rm fst snd].
  rewrite <- H4. split; [split; [exact H2|split; [exact Hs|exact H1]]|]. split; [exact H5|]. split; reflexivity.
Qed.

Lemma add_statistics_msgs ds st : st_msgs (add_statistics ds st) = st_msgs st.
Proof.
  unfold add_statistics. generalize (ds_stats ds) as l. intros l. revert st.
  induction l as [|[p a] l IH]; intros st; cbn [fold_left]; auto. rewrite IH. cbn [fst snd].
  clear IH l. revert st. induction a as [|f a IH]; intros st; cbn [fold_left]; auto. rewrite IH. reflexivity.
Qed.

Lemma delete_rows ranges snap : forall st st', fold_left (delete_one snap) ranges (Some st) = Some st' ->
  Forall stored_row (st_msgs st) -> Forall stored_row (st_msgs st').
Proof.
  induction ranges as [|r ranges IH]; intros st st'; cbn [fold_left]; [congruence|].
  destruct (delete_one snap (Some st) r) as [st1|] eqn:E; [|rewrite fold_delete_none; discriminate].
  intros Ef Hst. eapply IH; eauto. apply delete_one_inv in E as (mn & mx & _ & Em & _). rewrite Em.
  now apply del_incl_forall.
Qed.

Lemma gc_rows l : forall acc, Forall stored_row (st_msgs (fst acc)) -> Forall stored_row (st_msgs (fst (fold_left gc_one l acc))).
Proof.
  induction l as [|e l IH]; intros [st gcs] Ha; cbn [fold_left]; auto. apply IH.
  unfold gc_one. destruct (match aget ps_eqb (fst e) gcs with Some last => qk_ltb last (snd e) | None => true end); auto.
  destruct (delete _ st) as [st'|] eqn:E; auto. unfold delete in E. cbn [fst] in *. eapply delete_rows; eauto.
Qed.

Lemma reach_rows z tr q : reach z tr q -> Forall (fun x => keyed_op (snd x)) tr -> Forall stored_row (st_msgs (q_st q)).
Proof.
  induction 1 as [|tr q o Hr IH He]; intros Hk; [constructor|].
  inversion Hk as [|? ? Hk1 Hk2]; subst. specialize (IH Hk2). cbn [snd] in Hk1.
  destruct o as [d s n h ds c|tops parts|parts tops| |]; cbn [qstep op_env keyed_op] in *.
  - destruct He as [Hd _]. destruct (apply_diff d s n h ds c (q_st q)) as [st'| |] eqn:E; auto.
    destruct (apply_store _ _ _ _ _ _ _ _ E) as (-> & _). cbn [q_st].
    unfold write_diff, add_diff_info, insert_diff_info, add_diff_tail, insert_diff_tail. cbn [st_msgs].
    rewrite add_statistics_msgs. destruct Hd. apply add_messages_rows; auto.
    rewrite Forall_forall in *. intros e He. destruct (dk_msgs e He) as [? ?]. destruct (Hk1 e He) as [? ?].
    split; auto. split; auto. split; auto. destruct dk_max as [_ L]. pose proof (dk_le e He) as L2. cbn beta in L2.
    clear - L L2. qk.
  - unfold commit_diff. destruct (find _ tops) as [mc|]; auto. destruct (read_ptrs (q_st q)); auto.
    match goal with |- context [if ?b then _ else _] => destruct b end; auto.
    destruct (fold_left _ tops _) as [[nps gc]|]; auto.
  - destruct (clear_uncommitted parts tops (q_st q)) as [st|] eqn:E; auto. unfold clear_uncommitted in E.
    destruct (read_ptrs (q_st q)); [|discriminate]. eapply delete_rows; eauto.
  - unfold gc_task. pose proof (gc_rows (q_until q) (q_st q, q_gc q) IH) as G.
    destruct (fold_left gc_one (q_until q) (q_st q, q_gc q)) as [st gcs]. exact G.
  - exact IH.
Qed.

Lemma mkey_range_excl p s from to p' s' k : mk_ok (MK p s from) -> mk_ok (MK p s to) -> mk_ok (MK p' s' k) ->
  in_range (enc_mkey (MK p s from)) (enc_mkey (MK p s to)) (enc_mkey (MK p' s' k)) =
  (p =? p') && sh_eqb s s' && (qk_leb from k && qk_ltb k to).
Proof.
  intros (H1 & H2 & H3) (_ & _ & H4) (H5 & H6 & H7). cbn [mk_part mk_shard mk_key] in *.
  Local Transparent enc_mkey. unfold enc_mkey. cbn [mk_part mk_shard mk_key]. rewrite !app_assoc.
  rewrite prefix_range_excl by now rewrite !app_length, !enc_part_len, !enc_shard_len.
  rewrite <- lex_part_shard by assumption.
  destruct (lex (enc_part p ++ enc_shard s) (enc_part p' ++ enc_shard s')); cbn [andb]; auto.
  unfold in_range, lex_leb, lex_ltb. rewrite !lex_enc_qkey by assumption. reflexivity.
Qed.
Local Opaque enc_mkey.

(** the rows a shard iterator walks over *)
Lemma scan_in st part s from to e : Forall stored_row (st_msgs st) ->
  mk_ok (MK part s from) -> mk_ok (MK part s to) ->
  (In e (iter_messages st (MK part s from) (MK part s to)) <->
   In e (st_msgs st) /\ good_row part s e /\ qk_leb from (m_key (rm e)) = true /\ qk_ltb (m_key (rm e)) to = true).
Proof.
  intros Hst Hf Ht. unfold iter_messages, kv_scan. rewrite filter_In. rewrite Forall_forall in Hst. split.
  - intros [Hin Hr]. destruct (Hst e Hin) as [(p & s' & G) _]. destruct G as (G1 & G2 & G3 & G4).
    rewrite G3, mkey_range_excl in Hr by auto. rewrite !andb_true_iff in Hr. destruct Hr as [[E1 E2] [E3 E4]].
    apply N.eqb_eq in E1. destruct (sh_eqb_spec s s'); [|discriminate]. subst. repeat split; auto; apply G1 || apply G2 || idtac.
  - intros (Hin & G & L1 & L2). split; auto. destruct G as (G1 & G2 & G3 & G4).
    rewrite G3, mkey_range_excl by auto. rewrite N.eqb_refl, sh_eqb_refl, L1, L2. reflexivity.
Qed.

Lemma kv_sorted_SS {V} (m : list (bytes * V)) : kv_sorted m -> StronglySorted (fun a b => lex (fst a) (fst b) = Lt) m.
Proof. induction 1; constructor; auto. Qed.

Lemma scan_sorted st part s from to : kv_sorted (st_msgs st) -> Forall stored_row (st_msgs st) ->
  mk_ok (MK part s from) -> mk_ok (MK part s to) ->
  rows_sorted (iter_messages st (MK part s from) (MK part s to)).
Proof.
  intros Hs Hst Hf Ht.
  assert (Hg : forall e, In e (iter_messages st (MK part s from) (MK part s to)) -> good_row part s e).
  { intros e He. apply scan_in in He as (_ & He & _); auto. }
  assert (HS : kv_sorted (iter_messages st (MK part s from) (MK part s to))) by now apply kv_filter_sorted.
  apply kv_sorted_SS in HS. unfold rows_sorted. revert HS Hg.
  generalize (iter_messages st (MK part s from) (MK part s to)) as l. induction l as [|e l IH]; intros HS Hg; constructor.
  - inversion HS; subst. apply IH; auto. intros; apply Hg; right; auto.
  - inversion HS as [|? ? _ HF]; subst. rewrite Forall_forall in *. intros e' He'. specialize (HF e' He').
    destruct (Hg e (or_introl eq_refl)) as (G1 & _ & G3 & _). destruct (Hg e' (or_intror He')) as (G1' & _ & G3' & _).
    rewrite G3, G3', lex_enc_mkey in HF by auto. cbn [mk_part mk_shard mk_key] in HF.
    rewrite N.compare_refl in HF. cbn [cmp_then] in HF. 
    assert (Hsh : sh_ok s) by exact (proj1 (proj2 G1)). rewrite (proj2 (sh_cmp_eq s s Hsh Hsh) eq_refl) in HF.
    cbn [cmp_then] in HF. unfold qk_ltb. now rewrite HF.
Qed.
