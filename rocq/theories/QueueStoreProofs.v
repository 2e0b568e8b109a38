From Verif Require Export QueueStoreSpec QueueKeysProofs RouterProofs.
From Coq Require Import ZifyBool ZifyNat ZifyN.
Local Open Scope N_scope.

(** *** inclusive range deletes *)
Lemma del_incl_get {V} lo hi (m : kv V) k : kv_sorted m -> lex lo hi <> Gt ->
  kv_get k (del_incl lo hi m) = if lex_leb lo k && lex_leb k hi then None else kv_get k m.
Proof.
  intros Hs Hle. unfold del_incl. rewrite kv_get_del by (apply kv_filter_sorted; auto).
  rewrite kv_get_del_range by assumption. unfold in_range, lex_leb, lex_ltb.
  destruct (lex k hi) eqn:E; rewrite ?andb_true_r, ?andb_false_r; auto.
  apply lex_eq in E. subst. destruct (lex lo hi) eqn:E; auto. congruence.
Qed.

Lemma del_incl_sorted {V} lo hi (m : kv V) : kv_sorted m -> kv_sorted (del_incl lo hi m).
Proof. intros H. unfold del_incl, kv_del, kv_del_range. apply kv_filter_sorted, kv_filter_sorted, H. Qed.

Lemma prefix_range pre pre' x y z : length pre = length pre' ->
  lex_leb (pre ++ x) (pre' ++ y) && lex_leb (pre' ++ y) (pre ++ z) =
  match lex pre pre' with Eq => lex_leb x y && lex_leb y z | _ => false end.
Proof.
  intros H. unfold lex_leb. rewrite !lex_app by congruence. rewrite (lex_antisym pre pre').
  destruct (lex pre pre'); cbn [CompOpp cmp_then]; auto.
Qed.
Lemma prefix_range_excl pre pre' x y z : length pre = length pre' ->
  in_range (pre ++ x) (pre ++ z) (pre' ++ y) =
  match lex pre pre' with Eq => in_range x z y | _ => false end.
Proof.
  intros H. unfold in_range, lex_leb, lex_ltb. rewrite !lex_app by congruence. rewrite (lex_antisym pre pre').
  destruct (lex pre pre'); cbn [CompOpp cmp_then]; auto.
Qed.


Lemma qk_range_bytes from to k : qk_ok from -> qk_ok to -> qk_ok k ->
  lex_leb (enc_qkey from) (enc_qkey k) && lex_leb (enc_qkey k) (enc_qkey to) = in_keys from to k.
Proof.
  intros H1 H2 H3. unfold lex_leb, in_keys, qk_leb. now rewrite !lex_enc_qkey by assumption.
Qed.

Lemma lex_part_shard p s p' s' : p < 2 ^ 16 -> p' < 2 ^ 16 -> sh_ok s -> sh_ok s' ->
  match lex (enc_part p ++ enc_shard s) (enc_part p' ++ enc_shard s') with Eq => true | _ => false end
  = (p =? p') && sh_eqb s s'.
Proof.
  intros H1 H2 H3 H4. rewrite lex_app by now rewrite !enc_part_len.
  rewrite lex_enc_part, lex_enc_shard by assumption.
  destruct (N.compare_spec p p') as [->|E|E]; cbn [cmp_then].
  - rewrite N.eqb_refl. destruct (sh_cmp s s') eqn:Ec.
    + apply sh_cmp_eq in Ec; auto. subst. now rewrite sh_eqb_refl.
    + destruct (sh_eqb_spec s s'); auto. subst. rewrite (proj2 (sh_cmp_eq s' s' H4 H4) eq_refl) in Ec. discriminate.
    + destruct (sh_eqb_spec s s'); auto. subst. rewrite (proj2 (sh_cmp_eq s' s' H4 H4) eq_refl) in Ec. discriminate.
  - destruct (N.eqb_spec p p'); [lia|reflexivity].
  - destruct (N.eqb_spec p p'); [lia|reflexivity].
Qed.

Lemma lex_shard_eqb s s' : sh_ok s -> sh_ok s' ->
  match lex (enc_shard s) (enc_shard s') with Eq => true | _ => false end = sh_eqb s s'.
Proof.
  intros H3 H4. rewrite lex_enc_shard by assumption. destruct (sh_cmp s s') eqn:Ec.
  - apply sh_cmp_eq in Ec; auto. subst. now rewrite sh_eqb_refl.
  - destruct (sh_eqb_spec s s'); auto. subst. rewrite (proj2 (sh_cmp_eq s' s' H4 H4) eq_refl) in Ec. discriminate.
  - destruct (sh_eqb_spec s s'); auto. subst. rewrite (proj2 (sh_cmp_eq s' s' H4 H4) eq_refl) in Ec. discriminate.
Qed.

Lemma mkey_range p s from to p' s' k : mk_ok (MK p s from) -> mk_ok (MK p s to) -> mk_ok (MK p' s' k) ->
  lex_leb (enc_mkey (MK p s from)) (enc_mkey (MK p' s' k)) &&
  lex_leb (enc_mkey (MK p' s' k)) (enc_mkey (MK p s to)) =
  (p =? p') && sh_eqb s s' && in_keys from to k.
Proof.
  intros (H1 & H2 & H3) (_ & _ & H4) (H5 & H6 & H7). cbn [mk_part mk_shard mk_key] in *.
  unfold enc_mkey. cbn [mk_part mk_shard mk_key]. rewrite !app_assoc.
  rewrite prefix_range by now rewrite !app_length, !enc_part_len, !enc_shard_len.
  rewrite <- lex_part_shard by assumption.
  destruct (lex (enc_part p ++ enc_shard s) (enc_part p' ++ enc_shard s')); cbn [andb]; auto.
  now apply qk_range_bytes.
Qed.

Lemma tailkey_range s from to s' k : tk_ok (TK s from) -> tk_ok (TK s to) -> tk_ok (TK s' k) ->
  lex_leb (enc_tailkey (TK s from)) (enc_tailkey (TK s' k)) &&
  lex_leb (enc_tailkey (TK s' k)) (enc_tailkey (TK s to)) =
  sh_eqb s s' && in_keys from to k.
Proof.
  intros (H1 & H2) (_ & H4) (H5 & H6). cbn [tk_shard tk_max] in *.
  unfold enc_tailkey. cbn [tk_shard tk_max].
  rewrite prefix_range by now rewrite !enc_shard_len.
  rewrite <- lex_shard_eqb by assumption.
  destruct (lex (enc_shard s) (enc_shard s')); cbn [andb]; auto.
  now apply qk_range_bytes.
Qed.

Lemma infokey_range s a b s' n : ik_ok (IK s a) -> ik_ok (IK s b) -> ik_ok (IK s' n) ->
  lex_leb (enc_infokey (IK s a)) (enc_infokey (IK s' n)) &&
  lex_leb (enc_infokey (IK s' n)) (enc_infokey (IK s b)) =
  sh_eqb s s' && (a <=? n) && (n <=? b).
Proof.
  intros (H1 & H2) (_ & H4) (H5 & H6). cbn [ik_shard ik_seqno] in *.
  unfold enc_infokey. cbn [ik_shard ik_seqno].
  rewrite prefix_range by now rewrite !enc_shard_len.
  rewrite <- lex_shard_eqb by assumption.
  destruct (lex (enc_shard s) (enc_shard s')); cbn [andb]; auto.
  unfold lex_leb. rewrite !lex_be by (rewrite p32; assumption).
  destruct (N.compare_spec a n); destruct (N.compare_spec n b);
    destruct (N.leb_spec a n); destruct (N.leb_spec n b); cbn; auto; lia.
Qed.

Lemma statkey_range s p from d1 to d2 s' p' k d :
  sk_ok (SK s p from d1) -> sk_ok (SK s p to d2) -> sk_ok (SK s' p' k d) ->
  lex_leb (enc_statkey (SK s p from d1)) (enc_statkey (SK s' p' k d)) &&
  lex_leb (enc_statkey (SK s' p' k d)) (enc_statkey (SK s p to d2)) =
  sh_eqb s s' && (p =? p') &&
  (match cmp_then (qk_cmp from k) (ra_bcmp d1 d) with Gt => false | _ => true end &&
   match cmp_then (qk_cmp k to) (ra_bcmp d d2) with Gt => false | _ => true end).
Proof.
  intros (H1 & H2 & H3 & H4) (_ & _ & H5 & H6) (H7 & H8 & H9 & H10). cbn [sk_shard sk_part sk_max sk_dest] in *.
  unfold enc_statkey. cbn [sk_shard sk_part sk_max sk_dest].
  assert (E : forall x y z, lex_leb (enc_shard s ++ enc_part p ++ x) (enc_shard s' ++ enc_part p' ++ y) &&
     lex_leb (enc_shard s' ++ enc_part p' ++ y) (enc_shard s ++ enc_part p ++ z) =
     sh_eqb s s' && (p =? p') && (lex_leb x y && lex_leb y z)).
  { intros x y z. rewrite prefix_range by now rewrite !enc_shard_len.
    rewrite <- lex_shard_eqb by assumption.
    destruct (lex (enc_shard s) (enc_shard s')); cbn [andb]; auto.
    rewrite prefix_range by now rewrite !enc_part_len.
    rewrite lex_enc_part by assumption.
    destruct (N.compare_spec p p'); destruct (N.eqb_spec p p'); cbn [andb]; auto; lia. }
  rewrite E. f_equal. unfold lex_leb. rewrite !lex_app by now rewrite !enc_qkey_len.
  now rewrite !lex_enc_qkey, !lex_enc_raddr by assumption.
Qed.

(** *** Well-formed stores *)
Record st_wf (st : store) : Prop := {
  wf_msgs : kv_sorted (st_msgs st);
  wf_stats : kv_sorted (st_stats st);
  wf_tails : kv_sorted (st_tails st);
  wf_infos : kv_sorted (st_infos st);
  wf_ptrs : kv_sorted (st_ptrs st);
  wf_tailv : Forall (fun e => exists k n, tk_ok k /\ n < 2 ^ 32 /\ e = (enc_tailkey k, le 4 n)) (st_tails st);
  wf_ptrv : Forall (fun e => exists s p, sh_ok s /\ pv_ok p /\ e = (enc_ptrkey s, enc_ptrval p)) (st_ptrs st) }.

Lemma st_empty_wf : st_wf st_empty.
Proof. split; cbn; constructor. Qed.

Definition range_ok (r : qrange) : Prop :=
  sh_ok (qr_shard r) /\ qr_part r < 2 ^ 16 /\ qk_ok (qr_from r) /\ qk_ok (qr_to r) /\
  qk_leb (qr_from r) (qr_to r) = true.

Definition covers_msg (p : N) (s : shard) (k : qkey) (r : qrange) : bool :=
  (qr_part r =? p) && sh_eqb (qr_shard r) s && in_keys (qr_from r) (qr_to r) k.
Definition covers_tail (s : shard) (k : qkey) (r : qrange) : bool :=
  sh_eqb (qr_shard r) s && in_keys (qr_from r) (qr_to r) k.


(** collect_seqno on a well-formed tail table *)
Definition tail_seqno (v : bytes) : N := de_le (firstn 4 v).

Lemma tail_seqno_le n : n < 2 ^ 32 -> tail_seqno (le 4 n) = n.
Proof.
  intros H. unfold tail_seqno. rewrite firstn_all2 by (rewrite le_length; lia).
  apply de_le_le. now rewrite p32.
Qed.

Definition good_tail (e : bytes * bytes) : Prop :=
  exists k n, tk_ok k /\ n < 2 ^ 32 /\ e = (enc_tailkey k, le 4 n).

Lemma collect_fold l : forall mn mx, Forall good_tail l ->
  exists mn' mx', fold_left collect_step l (Some (mn, mx)) = Some (mn', mx') /\
   mn' <= mn /\ mx <= mx' /\
   (forall e, In e l -> mn' <= tail_seqno (snd e) <= mx') /\
   (mn' = mn \/ exists e, In e l /\ mn' = tail_seqno (snd e)) /\
   (mx' = mx \/ exists e, In e l /\ mx' = tail_seqno (snd e)).
Proof.
  induction l as [|e l IH]; intros mn mx Hg; cbn [fold_left].
  - exists mn, mx. repeat split; auto; try lia; destruct H.
  - inversion Hg as [|? ? (k & n & Hk & Hn & He) Hg']; subst.
    unfold collect_step at 2. cbn [snd]. rewrite le_length. cbn [Nat.ltb Nat.leb].
    change (de_le (firstn 4 (le 4 n))) with (tail_seqno (le 4 n)).
    rewrite tail_seqno_le by exact Hn.
    destruct (IH (if n <? mn then n else mn) (if mx <? n then n else mx) Hg') as
      (mn' & mx' & E & H1 & H2 & H3 & H4 & H5).
    exists mn', mx'. split; [exact E|].
    assert (A : mn' <= n /\ mn' <= mn) by (destruct (N.ltb_spec n mn); lia).
    assert (B : n <= mx' /\ mx <= mx') by (destruct (N.ltb_spec mx n); lia).
    repeat split; try lia.
    + destruct H as [<-|H]; [cbn [snd]; rewrite tail_seqno_le by exact Hn; lia|apply H3, H].
    + destruct H as [<-|H]; [cbn [snd]; rewrite tail_seqno_le by exact Hn; lia|apply H3, H].
    + destruct H4 as [->|(e & He & ->)].
      * destruct (N.ltb_spec n mn); auto. right. eexists; split; [left; reflexivity|].
        cbn [snd]. now rewrite tail_seqno_le.
      * right. exists e; split; [right; auto|auto].
    + destruct H5 as [->|(e & He & ->)].
      * destruct (N.ltb_spec mx n); auto. right. eexists; split; [left; reflexivity|].
        cbn [snd]. now rewrite tail_seqno_le.
      * right. exists e; split; [right; auto|auto].
Qed.

Lemma good_tails_filter f l : Forall good_tail l -> Forall good_tail (filter f l).
Proof.
  rewrite !Forall_forall. intros H e He. apply filter_In in He as [He _]. auto.
Qed.

Lemma delete_one_total snap st r : Forall good_tail (st_tails snap) ->
  exists st', delete_one snap (Some st) r = Some st'.
Proof.
  intros Hg. unfold delete_one. unfold collect_seqno.
  destruct (collect_fold (tails_in (enc_tailkey (TK (qr_shard r) (qr_from r)))
     (enc_tailkey (TK (qr_shard r) (qr_to r))) (st_tails snap)) u32_max 0) as (mn & mx & E & _).
  { apply good_tails_filter, Hg. }
  rewrite E. eauto.
Qed.

Lemma fold_delete_none snap ranges : fold_left (delete_one snap) ranges None = None.
Proof. induction ranges; cbn; auto. Qed.

Lemma delete_fold_total snap ranges : Forall good_tail (st_tails snap) ->
  forall st, exists st', fold_left (delete_one snap) ranges (Some st) = Some st'.
Proof.
  intros Hg. induction ranges as [|r ranges IH]; intros st; cbn [fold_left]; eauto.
  destruct (delete_one_total snap st r Hg) as [st1 E]. rewrite E. apply IH.
Qed.

(** structure of a single delete *)
Lemma delete_one_inv snap st r st' : delete_one snap (Some st) r = Some st' ->
  exists mn mx,
  collect_seqno (enc_tailkey (TK (qr_shard r) (qr_from r))) (enc_tailkey (TK (qr_shard r) (qr_to r))) (st_tails snap) = Some (mn, mx) /\
  st_msgs st' = del_incl (enc_mkey (MK (qr_part r) (qr_shard r) (qr_from r)))
                         (enc_mkey (MK (qr_part r) (qr_shard r) (qr_to r))) (st_msgs st) /\
  st_stats st' = del_incl (enc_statkey (SK (qr_shard r) (qr_part r) (qr_from r) ra_min))
                          (enc_statkey (SK (qr_shard r) (qr_part r) (qr_to r) ra_max)) (st_stats st) /\
  st_tails st' = del_incl (enc_tailkey (TK (qr_shard r) (qr_from r))) (enc_tailkey (TK (qr_shard r) (qr_to r))) (st_tails st) /\
  st_infos st' = (if negb (mn =? u32_max) && negb (mx =? 0)
                  then del_incl (enc_infokey (IK (qr_shard r) mn)) (enc_infokey (IK (qr_shard r) mx)) (st_infos st)
                  else st_infos st) /\
  st_ptrs st' = st_ptrs st /\ st_mc st' = st_mc st.
Proof.
  unfold delete_one. destruct (collect_seqno _ _ _) as [[mn mx]|]; [|discriminate].
  intros E; injection E as <-. exists mn, mx. cbn. repeat split.
Qed.

Lemma del_incl_forall {V} (P : bytes * V -> Prop) lo hi m : Forall P m -> Forall P (del_incl lo hi m).
Proof.
  intros H. unfold del_incl, kv_del, kv_del_range. rewrite Forall_forall in *. intros e He.
  apply filter_In in He as [He _]. apply filter_In in He as [He _]. auto.
Qed.

Lemma delete_one_wf snap st r st' : st_wf st -> delete_one snap (Some st) r = Some st' -> st_wf st'.
Proof.
  intros [H1 H2 H3 H4 H5 H6 H7] E.
  apply delete_one_inv in E as (mn & mx & _ & Em & Es & Et & Ei & Ep & _).
  split.
  - rewrite Em. now apply del_incl_sorted.
  - rewrite Es. now apply del_incl_sorted.
  - rewrite Et. now apply del_incl_sorted.
  - rewrite Ei. destruct (_ && _); auto. now apply del_incl_sorted.
  - now rewrite Ep.
  - rewrite Et. now apply del_incl_forall.
  - now rewrite Ep.
Qed.

Lemma delete_fold_wf snap ranges : forall st st', st_wf st ->
  fold_left (delete_one snap) ranges (Some st) = Some st' -> st_wf st'.
Proof.
  induction ranges as [|r ranges IH]; intros st st' Hwf; cbn [fold_left].
  - congruence.
  - destruct (delete_one snap (Some st) r) as [st1|] eqn:E; [|rewrite fold_delete_none; discriminate].
    apply IH. eapply delete_one_wf; eauto.
Qed.

Lemma delete_total ranges st : st_wf st -> exists st', delete ranges st = Some st' /\ st_wf st'.
Proof.
  intros H. destruct (delete_fold_total st ranges (wf_tailv _ H) st) as [st' E].
  exists st'. split; [exact E|]. eapply delete_fold_wf; eauto.
Qed.

Lemma range_mkey_le r : range_ok r ->
  lex (enc_mkey (MK (qr_part r) (qr_shard r) (qr_from r))) (enc_mkey (MK (qr_part r) (qr_shard r) (qr_to r))) <> Gt.
Proof.
  intros (H1 & H2 & H3 & H4 & H5).
  rewrite lex_enc_mkey by (repeat split; cbn; try apply H1; try apply H3; try apply H4; auto).
  cbn [mk_part mk_shard mk_key]. rewrite N.compare_refl.
  rewrite (proj2 (sh_cmp_eq _ _ H1 H1) eq_refl). cbn [cmp_then].
  unfold qk_leb in H5. destruct (qk_cmp _ _); congruence.
Qed.
Lemma range_tail_le r : range_ok r ->
  lex (enc_tailkey (TK (qr_shard r) (qr_from r))) (enc_tailkey (TK (qr_shard r) (qr_to r))) <> Gt.
Proof.
  intros (H1 & H2 & H3 & H4 & H5).
  rewrite lex_enc_tailkey by (repeat split; cbn; try apply H1; try apply H3; try apply H4; auto).
  cbn [tk_shard tk_max].
  rewrite (proj2 (sh_cmp_eq _ _ H1 H1) eq_refl). cbn [cmp_then].
  unfold qk_leb in H5. destruct (qk_cmp _ _); congruence.
Qed.

Lemma delete_one_msgs snap st r st' p s k : st_wf st -> range_ok r -> mk_ok (MK p s k) ->
  delete_one snap (Some st) r = Some st' ->
  msg_at st' p s k = if covers_msg p s k r then None else msg_at st p s k.
Proof.
  intros Hwf Hr Hk E. apply delete_one_inv in E as (mn & mx & _ & Em & _).
  unfold msg_at. rewrite Em.
  rewrite del_incl_get by (try apply Hwf; now apply range_mkey_le).
  pose proof Hr as (H1 & H2 & H3 & H4 & H5).
  rewrite mkey_range by (auto; repeat split; cbn; try apply H1; try apply H3; try apply H4; auto).
  reflexivity.
Qed.
Lemma delete_one_tails snap st r st' s k : st_wf st -> range_ok r -> tk_ok (TK s k) ->
  delete_one snap (Some st) r = Some st' ->
  tail_at st' s k = if covers_tail s k r then None else tail_at st s k.
Proof.
  intros Hwf Hr Hk E. apply delete_one_inv in E as (mn & mx & _ & _ & _ & Et & _).
  unfold tail_at. rewrite Et.
  rewrite del_incl_get by (try apply Hwf; now apply range_tail_le).
  pose proof Hr as (H1 & H2 & H3 & H4 & H5).
  rewrite tailkey_range by (auto; repeat split; cbn; try apply H1; try apply H3; try apply H4; auto).
  reflexivity.
Qed.

Lemma delete_fold_msgs snap ranges p s k : mk_ok (MK p s k) -> forall st st', st_wf st ->
  Forall range_ok ranges ->
  fold_left (delete_one snap) ranges (Some st) = Some st' ->
  msg_at st' p s k = if existsb (covers_msg p s k) ranges then None else msg_at st p s k.
Proof.
  intros Hk. induction ranges as [|r ranges IH]; intros st st' Hwf Hr; cbn [fold_left existsb].
  - intros E; injection E as <-; reflexivity.
  - inversion Hr as [|? ? Hr1 Hr2]; subst.
    destruct (delete_one snap (Some st) r) as [st1|] eqn:E; [|rewrite fold_delete_none; discriminate].
    intros E2. rewrite (IH st1 st') by (auto; eapply delete_one_wf; eauto).
    rewrite (delete_one_msgs snap st r st1) by auto.
    destruct (covers_msg p s k r); cbn [orb]; auto. destruct (existsb _ _); auto.
Qed.
Lemma delete_fold_tails snap ranges s k : tk_ok (TK s k) -> forall st st', st_wf st ->
  Forall range_ok ranges ->
  fold_left (delete_one snap) ranges (Some st) = Some st' ->
  tail_at st' s k = if existsb (covers_tail s k) ranges then None else tail_at st s k.
Proof.
  intros Hk. induction ranges as [|r ranges IH]; intros st st' Hwf Hr; cbn [fold_left existsb].
  - intros E; injection E as <-; reflexivity.
  - inversion Hr as [|? ? Hr1 Hr2]; subst.
    destruct (delete_one snap (Some st) r) as [st1|] eqn:E; [|rewrite fold_delete_none; discriminate].
    intros E2. rewrite (IH st1 st') by (auto; eapply delete_one_wf; eauto).
    rewrite (delete_one_tails snap st r st1) by auto.
    destruct (covers_tail s k r); cbn [orb]; auto. destruct (existsb _ _); auto.
Qed.

(** messages and pointers after [delete] *)
Lemma delete_msgs ranges st st' p s k : st_wf st -> Forall range_ok ranges -> mk_ok (MK p s k) ->
  delete ranges st = Some st' ->
  msg_at st' p s k = if existsb (covers_msg p s k) ranges then None else msg_at st p s k.
Proof. intros. eapply delete_fold_msgs; eauto. Qed.
Lemma delete_tails ranges st st' s k : st_wf st -> Forall range_ok ranges -> tk_ok (TK s k) ->
  delete ranges st = Some st' ->
  tail_at st' s k = if existsb (covers_tail s k) ranges then None else tail_at st s k.
Proof. intros. eapply delete_fold_tails; eauto. Qed.
Lemma delete_ptrs ranges : forall snap st st',
  fold_left (delete_one snap) ranges (Some st) = Some st' -> st_ptrs st' = st_ptrs st /\ st_mc st' = st_mc st.
Proof.
  induction ranges as [|r ranges IH]; intros snap st st'; cbn [fold_left].
  - intros E; injection E as <-; auto.
  - destruct (delete_one snap (Some st) r) as [st1|] eqn:E; [|rewrite fold_delete_none; discriminate].
    intros E2. apply IH in E2 as [E2 E3].
    apply delete_one_inv in E as (mn & mx & _ & _ & _ & _ & _ & Ep & Em). split; congruence.
Qed.
