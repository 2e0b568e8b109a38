(** Consistency invariant of the queue store and the effect of every operation on it. *)
From Verif Require Export QueueStoreProofs.
From Coq Require Import ZifyBool ZifyNat ZifyN.
Local Open Scope N_scope.

Global Arguments enc_infokey : simpl never.
Global Arguments enc_tailkey : simpl never.
Global Arguments enc_mkey : simpl never.
Global Arguments enc_statkey : simpl never.
Global Arguments enc_shard : simpl never.
Global Arguments enc_ptrkey : simpl never.
Global Arguments enc_ptrval : simpl never.
Global Arguments le : simpl never.

(** *** order arithmetic on queue keys *)
Lemma qk_leb_false a b : qk_leb a b = false <-> qk_lt b < qk_lt a \/ (qk_lt b = qk_lt a /\ qk_hash b < qk_hash a).
Proof. rewrite <- not_true_iff_false, qk_leb_iff. lia. Qed.
Lemma qk_ltb_false a b : qk_ltb a b = false <-> qk_lt b < qk_lt a \/ (qk_lt b = qk_lt a /\ qk_hash b <= qk_hash a).
Proof. rewrite <- not_true_iff_false, qk_ltb_iff. lia. Qed.
Lemma qk_eq_iff a b : a = b <-> qk_lt a = qk_lt b /\ qk_hash a = qk_hash b.
Proof. destruct a, b; cbn; split; [intros E; injection E; auto | intros [-> ->]; auto]. Qed.
Ltac qk := rewrite ?qk_ltb_iff, ?qk_leb_iff, ?qk_leb_false, ?qk_ltb_false, ?qk_eq_iff in *; try lia.
Lemma qk_leb_refl a : qk_leb a a = true. Proof. qk. Qed.
Lemma qk_leb_trans a b c : qk_leb a b = true -> qk_leb b c = true -> qk_leb a c = true.
Proof. intros; qk. Qed.
Lemma qk_ltb_leb a b : qk_ltb a b = negb (qk_leb b a).
Proof. destruct (qk_ltb a b) eqn:E, (qk_leb b a) eqn:F; auto; qk. Qed.

Record st_inv (st : store) : Prop := {
  inv_wf : st_wf st;
  inv_infok : Forall (fun e => exists s n, sh_ok s /\ 0 < n < u32_max /\ fst e = enc_infokey (IK s n)
                 /\ di_seqno (snd e) = n /\ qk_ok (di_max (snd e)) /\ qk_ltb (di_max (snd e)) qk_max = true
                 /\ Forall (fun f => sh_ok (fst f) /\ qk_ok (snd f)) (di_processed (snd e))) (st_infos st);
  inv_ptrlt : forall s p, sh_ok s -> ptr_at st s = Some p -> qk_ltb (pv_key p) qk_max = true;
  inv_it : forall s n d, sh_ok s -> n < 2 ^ 32 -> info_at st s n = Some d ->
      tail_at st s (di_max d) = Some (le 4 n);
  inv_ti : forall s k n, sh_ok s -> qk_ok k -> n < 2 ^ 32 -> tail_at st s k = Some (le 4 n) ->
      exists d, info_at st s n = Some d /\ di_max d = k;
  inv_mono : forall s n n' d d', sh_ok s -> n < 2 ^ 32 -> n' < 2 ^ 32 -> n < n' ->
      info_at st s n = Some d -> info_at st s n' = Some d' -> qk_ltb (di_max d) (di_max d') = true;
  inv_ptr : forall s p n d, sh_ok s -> n < 2 ^ 32 -> ptr_at st s = Some p -> info_at st s n = Some d ->
      (n <= pv_seqno p -> qk_leb (di_max d) (pv_key p) = true) /\
      (pv_seqno p < n -> qk_ltb (pv_key p) (di_max d) = true) /\
      (n = pv_seqno p -> di_max d = pv_key p) }.

Lemma inv_info st s n d : st_inv st -> sh_ok s -> n < 2 ^ 32 -> info_at st s n = Some d ->
  0 < n < u32_max /\ di_seqno d = n /\ qk_ok (di_max d) /\ qk_ltb (di_max d) qk_max = true /\
  Forall (fun f => sh_ok (fst f) /\ qk_ok (snd f)) (di_processed d).
Proof.
  intros H Hs Hn E. unfold info_at in E.
  apply kv_in_get in E; [|apply (inv_wf _ H)].
  pose proof (inv_infok _ H) as HF. rewrite Forall_forall in HF.
  destruct (HF _ E) as (s' & n' & Hs' & Hn' & Ek & Hd & Hk & Hm & Hp). cbn [fst snd] in *.
  apply enc_infokey_inj in Ek; [injection Ek as -> ->; auto|split; auto|split; cbn; auto; unfold u32_max in *; lia].
Qed.

Lemma st_empty_inv : st_inv st_empty.
Proof.
  split; try (now apply st_empty_wf); try constructor; unfold info_at, tail_at, ptr_at; cbn; discriminate.
Qed.

(** *** deletion of diff infos *)
Lemma collect_spec lo hi m : Forall good_tail m ->
  exists mn mx, collect_seqno lo hi m = Some (mn, mx) /\
   (forall e, In e (tails_in lo hi m) -> mn <= tail_seqno (snd e) <= mx) /\
   (mn = u32_max \/ exists e, In e (tails_in lo hi m) /\ mn = tail_seqno (snd e)) /\
   (mx = 0 \/ exists e, In e (tails_in lo hi m) /\ mx = tail_seqno (snd e)).
Proof.
  intros H. destruct (collect_fold (tails_in lo hi m) u32_max 0) as (mn & mx & E & _ & _ & A & B & C).
  { apply good_tails_filter, H. }
  exists mn, mx. split; [exact E|]. auto.
Qed.

Lemma tails_in_covers snap r k n : st_wf snap -> range_ok r ->
  In (k, n) (tails_in (enc_tailkey (TK (qr_shard r) (qr_from r)))
                      (enc_tailkey (TK (qr_shard r) (qr_to r))) (st_tails snap)) <->
  exists q v, qk_ok q /\ v < 2 ^ 32 /\ k = enc_tailkey (TK (qr_shard r) q) /\ n = le 4 v /\
    tail_at snap (qr_shard r) q = Some (le 4 v) /\ in_keys (qr_from r) (qr_to r) q = true.
Proof.
  intros Hwf (Hs & Hp & Hf & Ht & Hle). unfold tails_in. rewrite filter_In. cbn [fst]. split.
  - intros [Hin Hr]. pose proof (wf_tailv _ Hwf) as HF. rewrite Forall_forall in HF.
    destruct (HF _ Hin) as ([s q] & v & [Hks Hkq] & Hv & E). injection E as -> ->. cbn in Hks, Hkq.
    rewrite tailkey_range in Hr by (split; assumption).
    apply andb_true_iff in Hr as [Es Hr]. destruct (sh_eqb_spec (qr_shard r) s); [subst s|discriminate].
    exists q, v. repeat split; try apply Hkq; auto.
    unfold tail_at. apply kv_in_get; auto. apply Hwf.
  - intros (q & v & Hq & Hv & -> & -> & Ht' & Hr). split.
    + apply kv_in_get; [apply Hwf|]. exact Ht'.
    + rewrite tailkey_range by (split; assumption). now rewrite sh_eqb_refl, Hr.
Qed.

Lemma delete_one_infos snap st r st' s n : st_inv snap -> st_wf st -> range_ok r ->
  (forall s n d, sh_ok s -> n < 2 ^ 32 -> info_at st s n = Some d -> info_at snap s n = Some d) ->
  delete_one snap (Some st) r = Some st' -> sh_ok s -> n < 2 ^ 32 ->
  info_at st' s n = match info_at st s n with
                    | Some d => if covers_tail s (di_max d) r then None else Some d
                    | None => None end.
Proof.
  intros Hinv Hwf Hr Hsub E Hs Hn.
  apply delete_one_inv in E as (mn & mx & Ec & _ & _ & _ & Ei & _).
  pose proof (inv_wf _ Hinv) as Hsw.
  destruct (collect_spec (enc_tailkey (TK (qr_shard r) (qr_from r))) (enc_tailkey (TK (qr_shard r) (qr_to r)))
     (st_tails snap) (wf_tailv _ Hsw)) as (mn' & mx' & Ec' & Hall & Hmn & Hmx).
  rewrite Ec in Ec'. injection Ec' as <- <-.
  assert (Hmn' : mn = u32_max \/ exists d, mn < u32_max /\ info_at snap (qr_shard r) mn = Some d /\ in_keys (qr_from r) (qr_to r) (di_max d) = true).
  { destruct Hmn as [->|([k v] & Hin & ->)]; auto. right.
    apply tails_in_covers in Hin as (q & w & Hq & Hw & -> & -> & Ht & Hir); auto.
    cbn [snd]. rewrite tail_seqno_le by auto.
    destruct (inv_ti _ Hinv _ _ _ (proj1 Hr) Hq Hw Ht) as (d & Hd & <-).
    destruct (inv_info _ _ _ _ Hinv (proj1 Hr) Hw Hd) as (? & _). exists d; repeat split; auto; lia. }
  assert (Hmx' : mx = 0 \/ exists d, mx < u32_max /\ info_at snap (qr_shard r) mx = Some d /\ in_keys (qr_from r) (qr_to r) (di_max d) = true).
  { destruct Hmx as [->|([k v] & Hin & ->)]; auto. right.
    apply tails_in_covers in Hin as (q & w & Hq & Hw & -> & -> & Ht & Hir); auto.
    cbn [snd]. rewrite tail_seqno_le by auto.
    destruct (inv_ti _ Hinv _ _ _ (proj1 Hr) Hq Hw Ht) as (d & Hd & <-).
    destruct (inv_info _ _ _ _ Hinv (proj1 Hr) Hw Hd) as (? & _). exists d; repeat split; auto; lia. }
  assert (Hget : info_at st' s n =
    if negb (mn =? u32_max) && negb (mx =? 0) && (sh_eqb (qr_shard r) s && (mn <=? n) && (n <=? mx)) then None else info_at st s n).
  { unfold info_at. rewrite Ei.
    destruct (negb (mn =? u32_max) && negb (mx =? 0)) eqn:Eb; cbn [andb]; auto.
    apply andb_true_iff in Eb as [E1 E2].
    destruct Hmn' as [->|(d1 & B1 & I1 & _)]; [now rewrite N.eqb_refl in E1|].
    destruct Hmx' as [->|(d2 & B2 & I2 & _)]; [now rewrite N.eqb_refl in E2|].
    assert (mn < 2 ^ 32 /\ mx < 2 ^ 32) as [B1' B2'] by (unfold u32_max in *; lia).
    assert (Hle : mn <= mx).
    { destruct Hmx as [->|([k v] & Hin & ->)]; [now rewrite N.eqb_refl in E2|]. apply Hall, Hin. }
    rewrite del_incl_get.
    - rewrite infokey_range by (split; auto; apply Hr). reflexivity.
    - apply Hwf.
    - rewrite lex_enc_infokey by (split; auto; apply Hr). cbn [ik_shard ik_seqno].
      rewrite (proj2 (sh_cmp_eq _ _ (proj1 Hr) (proj1 Hr)) eq_refl). cbn [cmp_then].
      destruct (N.compare_spec mn mx); try congruence. lia. }
  rewrite Hget. destruct (info_at st s n) as [d|] eqn:Ed; [|match goal with |- (if ?b then _ else _) = _ => now destruct b end].
  pose proof (Hsub _ _ _ Hs Hn Ed) as Eds.
  destruct (inv_info _ _ _ _ Hinv Hs Hn Eds) as (Hb & _ & Hqd & _).
  unfold covers_tail. destruct (sh_eqb_spec (qr_shard r) s) as [Es|]; cbn [andb];
    [|now rewrite andb_false_r].
  subst s. destruct (in_keys (qr_from r) (qr_to r) (di_max d)) eqn:Ek.
  - pose proof (inv_it _ Hinv _ _ _ Hs Hn Eds) as Ht.
    assert (Hin : In (enc_tailkey (TK (qr_shard r) (di_max d)), le 4 n)
      (tails_in (enc_tailkey (TK (qr_shard r) (qr_from r)))
                      (enc_tailkey (TK (qr_shard r) (qr_to r))) (st_tails snap))).
    { apply tails_in_covers; auto. exists (di_max d), n. auto 10. }
    specialize (Hall _ Hin). cbn [snd] in Hall. rewrite tail_seqno_le in Hall by auto.
    replace (negb (mn =? u32_max) && negb (mx =? 0) && ((mn <=? n) && (n <=? mx))) with true by lia.
    reflexivity.
  - destruct (negb (mn =? u32_max) && negb (mx =? 0) && ((mn <=? n) && (n <=? mx))) eqn:Eb; auto.
    exfalso. destruct Hmn' as [->|(d1 & B1 & I1 & K1)]; [lia|]. destruct Hmx' as [->|(d2 & B2 & I2 & K2)]; [lia|].
    assert (mn < 2 ^ 32 /\ mx < 2 ^ 32) as [B1' B2'] by (unfold u32_max in *; lia).
    assert (Hm : forall a b da db, a <= b -> a < 2 ^ 32 -> b < 2 ^ 32 -> info_at snap (qr_shard r) a = Some da ->
       info_at snap (qr_shard r) b = Some db -> qk_leb (di_max da) (di_max db) = true).
    { intros a b da db Hab Ha Hb' Ea Eb'. destruct (N.eq_dec a b) as [->|].
      - rewrite Ea in Eb'. injection Eb' as ->. apply qk_leb_refl.
      - assert (Hlt : a < b) by lia. pose proof (inv_mono _ Hinv _ _ _ _ _ Hs Ha Hb' Hlt Ea Eb'). qk. }
    assert (A1 : qk_leb (di_max d1) (di_max d) = true) by (apply (Hm mn n); auto; lia).
    assert (A2 : qk_leb (di_max d) (di_max d2) = true) by (apply (Hm n mx); auto; lia).
    unfold in_keys in *. rewrite !andb_true_iff in *. rewrite andb_false_iff in Ek. qk.
Qed.

Definition cover_info (s : shard) (d : dinfo) (ranges : list qrange) : bool :=
  existsb (covers_tail s (di_max d)) ranges.

Lemma delete_fold_infos snap ranges s n : st_inv snap -> sh_ok s -> n < 2 ^ 32 -> forall st st', st_wf st ->
  Forall range_ok ranges ->
  (forall s n d, sh_ok s -> n < 2 ^ 32 -> info_at st s n = Some d -> info_at snap s n = Some d) ->
  fold_left (delete_one snap) ranges (Some st) = Some st' ->
  info_at st' s n = match info_at st s n with
                    | Some d => if cover_info s d ranges then None else Some d
                    | None => None end.
Proof.
  intros Hinv Hs Hn. induction ranges as [|r ranges IH]; intros st st' Hwf Hr Hsub; cbn [fold_left existsb].
  - intros E; injection E as <-. cbn. now destruct (info_at st s n).
  - inversion Hr as [|? ? Hr1 Hr2]; subst.
    destruct (delete_one snap (Some st) r) as [st1|] eqn:E; [|rewrite fold_delete_none; discriminate].
    intros E2. rewrite (IH st1 st'); auto.
    + rewrite (delete_one_infos snap st r st1) by auto.
      destruct (info_at st s n) as [d|]; auto. unfold cover_info. cbn [existsb].
      destruct (covers_tail s (di_max d) r); auto.
    + eapply delete_one_wf; eauto.
    + intros s' n' d Hs' Hn' Ed. rewrite (delete_one_infos snap st r st1) in Ed by auto.
      destruct (info_at st s' n') as [d'|] eqn:Ed'; [|discriminate].
      destruct (covers_tail _ _ _); [discriminate|]. injection Ed as <-. apply Hsub; auto.
Qed.

Lemma delete_infos ranges st st' s n : st_inv st -> Forall range_ok ranges -> sh_ok s -> n < 2 ^ 32 ->
  delete ranges st = Some st' ->
  info_at st' s n = match info_at st s n with
                    | Some d => if cover_info s d ranges then None else Some d
                    | None => None end.
Proof.
  intros Hinv Hr Hs Hn E. eapply delete_fold_infos; eauto. apply (inv_wf _ Hinv).
Qed.

Lemma delete_one_infos_sub snap st r st' : delete_one snap (Some st) r = Some st' ->
  forall e, In e (st_infos st') -> In e (st_infos st).
Proof.
  intros E e He. apply delete_one_inv in E as (mn & mx & _ & _ & _ & _ & Ei & _).
  rewrite Ei in He. destruct (_ && _); auto. unfold del_incl, kv_del, kv_del_range in He.
  apply filter_In in He as [He _]. now apply filter_In in He as [He _].
Qed.
Lemma delete_infos_sub snap ranges : forall st st', fold_left (delete_one snap) ranges (Some st) = Some st' ->
  forall e, In e (st_infos st') -> In e (st_infos st).
Proof.
  induction ranges as [|r ranges IH]; intros st st'; cbn [fold_left].
  - intros E; injection E as <-; auto.
  - destruct (delete_one snap (Some st) r) as [st1|] eqn:E; [|rewrite fold_delete_none; discriminate].
    intros E2 e He. eapply delete_one_infos_sub; eauto.
Qed.

Lemma ptr_at_same st st' s : st_ptrs st' = st_ptrs st -> ptr_at st' s = ptr_at st s.
Proof. unfold ptr_at. intros ->; auto. Qed.

Lemma delete_inv ranges st st' : st_inv st -> Forall range_ok ranges -> delete ranges st = Some st' -> st_inv st'.
Proof.
  intros Hinv Hr E. pose proof (inv_wf _ Hinv) as Hwf.
  assert (Hwf' : st_wf st') by (eapply delete_fold_wf; eauto).
  assert (Hi : forall s n d, sh_ok s -> n < 2 ^ 32 -> info_at st' s n = Some d ->
     info_at st s n = Some d /\ cover_info s d ranges = false).
  { intros s n d Hs Hn Ed. rewrite (delete_infos ranges st st') in Ed by auto.
    destruct (info_at st s n) as [d'|]; [|discriminate]. destruct (cover_info s d' ranges) eqn:Ec; [discriminate|].
    injection Ed as <-. auto. }
  assert (Ht : forall s k v, sh_ok s -> qk_ok k -> tail_at st' s k = Some v ->
     tail_at st s k = Some v /\ existsb (covers_tail s k) ranges = false).
  { intros s k v Hs Hk Ed. rewrite (delete_tails ranges st st') in Ed by (auto; split; auto).
    destruct (existsb _ _); [discriminate|auto]. }
  split; auto.
  - rewrite Forall_forall. intros e He. pose proof (inv_infok _ Hinv) as HF. rewrite Forall_forall in HF.
    apply HF. eapply delete_infos_sub; eauto.
  - intros s p Hs Ep. destruct (delete_ptrs ranges st st st' E) as [Eq _].
    rewrite (ptr_at_same st st') in Ep by auto. exact (inv_ptrlt _ Hinv _ _ Hs Ep).
  - intros s n d Hs Hn Ed. apply Hi in Ed as [Ed Ec]; auto.
    rewrite (delete_tails ranges st st'); auto.
    + unfold cover_info in Ec. rewrite Ec. eapply inv_it; eauto.
    + split; auto. eapply inv_info; eauto.
  - intros s k n Hs Hk Hn Et. apply Ht in Et as [Et Ec]; auto.
    destruct (inv_ti _ Hinv _ _ _ Hs Hk Hn Et) as (d & Ed & <-). exists d; split; auto.
    rewrite (delete_infos ranges st st') by auto. rewrite Ed. unfold cover_info. now rewrite Ec.
  - intros s n n' d d' Hs Hn Hn' Hlt Ed Ed'. apply Hi in Ed as [Ed _]; auto. apply Hi in Ed' as [Ed' _]; auto.
    exact (inv_mono _ Hinv _ _ _ _ _ Hs Hn Hn' Hlt Ed Ed').
  - intros s p n d Hs Hn Ep Ed. apply Hi in Ed as [Ed _]; auto.
    destruct (delete_ptrs ranges st st st' E) as [Eq _].
    rewrite (ptr_at_same st st') in Ep by auto. exact (inv_ptr _ Hinv _ _ _ _ Hs Hn Ep Ed).
Qed.
