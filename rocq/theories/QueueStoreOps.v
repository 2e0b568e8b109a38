(** Effect of the queue operations on lookups, and preservation of the invariant. *)
From Verif Require Export QueueStoreInv.
From Coq Require Import ZifyBool ZifyNat ZifyN.
Local Open Scope N_scope.

(** *** commit pointers *)
Lemma decode_ptrs_spec m : kv_sorted m ->
  Forall (fun e => exists s p, sh_ok s /\ pv_ok p /\ e = (enc_ptrkey s, enc_ptrval p)) m ->
  exists ps, decode_ptrs m = Some ps /\ NoDup (akeys ps) /\
   (forall s p, In (s, p) ps <-> sh_ok s /\ pv_ok p /\ In (enc_ptrkey s, enc_ptrval p) m).
Proof.
  induction 1 as [|k v m Hs IH Hlt]; intros HF.
  - exists []. cbn. repeat split; try constructor; tauto.
  - inversion HF as [|? ? (s & p & Hsok & Hpok & E) HF']; subst. injection E as -> ->.
    destruct (IH HF') as (ps & Ed & Hnd & Hin).
    exists ((s, p) :: ps). cbn [decode_ptrs].
    assert (E1 : dec_ptrkey (enc_ptrkey s) = Some (s, [])).
    { unfold dec_ptrkey, enc_ptrkey. rewrite <- (app_nil_r (enc_shard s)). now apply dec_enc_shard. }
    assert (E2 : exists r, dec_ptrval (enc_ptrval p) = Some (p, r)).
    { eexists. rewrite <- (app_nil_r (enc_ptrval p)). now apply dec_enc_ptrval. }
    destruct E2 as [r E2]. rewrite E1, E2, Ed. split; auto. split.
    + cbn. constructor; auto. intros Hi. apply in_map_iff in Hi as ([s' p'] & Es & Hi). cbn in Es. subst s'.
      apply Hin in Hi as (_ & _ & Hi). rewrite Forall_forall in Hlt. apply Hlt in Hi. cbn [fst] in Hi.
      now rewrite lex_refl in Hi.
    + intros s' p'. cbn [In]. rewrite Hin. split.
      * intros [E|]; [injection E as <- <-; auto|tauto].
      * intros (A & B & [E|C]); auto. pose proof (f_equal fst E) as E3. pose proof (f_equal snd E) as E4. cbn [fst snd] in E3, E4. left.
        apply enc_shard_inj in E3; auto. subst.
        assert (E5 : dec_ptrval (enc_ptrval p ++ []) = dec_ptrval (enc_ptrval p' ++ [])) by now rewrite E4.
        rewrite !dec_enc_ptrval in E5 by auto. congruence.
Qed.

Lemma read_ptrs_spec st : st_wf st -> exists ps, read_ptrs st = Some ps /\ NoDup (akeys ps) /\
  (forall s, sh_ok s -> aget sh_eqb s ps = ptr_at st s) /\
  (forall s p, In (s, p) ps -> sh_ok s /\ pv_ok p /\ ptr_at st s = Some p).
Proof.
  intros H. destruct (decode_ptrs_spec _ (wf_ptrs _ H) (wf_ptrv _ H)) as (ps & E & Hnd & Hin).
  assert (A : forall s p, In (s, p) ps -> sh_ok s /\ pv_ok p /\ ptr_at st s = Some p).
  { intros s p Hi. apply Hin in Hi as (A & B & C). repeat split; auto; try apply A; try apply B.
    unfold ptr_at. apply kv_in_get in C; [|apply H]. rewrite C.
    rewrite <- (app_nil_r (enc_ptrval p)). now rewrite dec_enc_ptrval. }
  exists ps. split; [exact E|]. split; [exact Hnd|]. split; [|exact A].
  intros s Hs. destruct (aget sh_eqb s ps) as [p|] eqn:Eg.
  - apply (aget_some_in sh_eqb sh_eqb_spec) in Eg. now apply A in Eg.
  - unfold ptr_at. destruct (kv_get (enc_ptrkey s) (st_ptrs st)) as [v|] eqn:Ek; auto.
    exfalso. apply (kv_in_get _ _ _ (wf_ptrs _ H)) in Ek.
    pose proof (wf_ptrv _ H) as HF. rewrite Forall_forall in HF.
    destruct (HF _ Ek) as (s' & p & Hs' & Hp & E'). pose proof (f_equal fst E') as E1. pose proof (f_equal snd E') as E2. cbn [fst snd] in E1, E2. subst v.
    apply enc_shard_inj in E1; auto. subst s'.
    apply (aget_none sh_eqb sh_eqb_spec) in Eg. apply Eg. unfold akeys. apply in_map_iff. exists (s, p).
    split; auto. apply Hin. auto.
Qed.

Lemma ptr_at_ok st s p : st_wf st -> sh_ok s -> ptr_at st s = Some p -> pv_ok p.
Proof.
  intros H Hs E. destruct (read_ptrs_spec st H) as (ps & _ & _ & Hg & Hi).
  rewrite <- Hg in E by auto. apply (aget_some_in sh_eqb sh_eqb_spec) in E. now apply Hi in E.
Qed.

(** *** clear_uncommitted *)

Lemma in_keys_max from k : qk_ok k -> in_keys from qk_max k = qk_leb from k.
Proof.
  intros [H1 H2]. unfold in_keys. replace (qk_leb k qk_max) with true; [apply andb_true_r|].
  symmetry. rewrite qk_leb_iff. cbn. unfold u64_max, hash_max. lia.
Qed.
Lemma in_keys_all k : qk_ok k -> in_keys qk_min qk_max k = true.
Proof. intros H. rewrite in_keys_max by auto. rewrite qk_leb_iff. cbn. lia. Qed.

Lemma next_leb a k : qk_ok k -> qk_ok a -> a <> qk_max -> qk_leb (next_value a) k = qk_ltb a k.
Proof.
  intros Hk Ha Hm. destruct (qk_ltb a k) eqn:E.
  - apply (next_value_least a k) in Hk.
    + unfold qk_leb. destruct (qk_cmp (next_value a) k); congruence.
    + unfold qk_ltb in E. destruct (qk_cmp a k); congruence.
  - pose proof (next_value_gt a Ha Hm) as Hg.
    destruct (qk_leb (next_value a) k) eqn:F; auto.
    assert (qk_ltb a (next_value a) = true) by (unfold qk_ltb; now rewrite Hg). qk.
Qed.

Lemma ltb_not_max a : qk_ltb a qk_max = true -> a <> qk_max.
Proof. intros H ->. now rewrite qk_ltb_iff in H; lia. Qed.

Lemma existsb_flat_map {A B} (f : A -> list B) g l : existsb g (flat_map f l) = existsb (fun a => existsb g (f a)) l.
Proof. induction l; cbn; auto. now rewrite existsb_app, IHl. Qed.
Lemma existsb_map {A B} (f : A -> B) g l : existsb g (map f l) = existsb (fun a => g (f a)) l.
Proof. induction l; cbn; auto. now rewrite IHl. Qed.

Section Clear.
  Context (st : store) (parts : list N) (tops : list shard) (ps : amap shard ptrval).
  Hypothesis Hinv : st_inv st.
  Hypothesis Hparts : Forall (fun p => p < 2 ^ 16) parts.
  Hypothesis Htops : Forall sh_ok tops.
  Hypothesis Hread : read_ptrs st = Some ps.

  Lemma clear_ps : NoDup (akeys ps) /\ (forall s, sh_ok s -> aget sh_eqb s ps = ptr_at st s) /\
    (forall s p, In (s, p) ps -> sh_ok s /\ pv_ok p /\ ptr_at st s = Some p).
  Proof.
    destruct (read_ptrs_spec st (inv_wf _ Hinv)) as (ps' & E & H). rewrite Hread in E. injection E as <-. exact H.
  Qed.

  Lemma clear_ranges_ok : Forall range_ok (clear_ranges parts ps tops).
  Proof.
    destruct clear_ps as (_ & _ & Hi). rewrite Forall_forall in *. intros r Hr.
    unfold clear_ranges in Hr. apply in_app_iff in Hr as [Hr|Hr]; apply in_flat_map in Hr as (x & Hx & Hr).
    - apply in_map_iff in Hr as (p & <- & Hp). destruct x as [s v]. apply Hi in Hx as (Hs & [Hv _] & _). cbn [fst snd].
      split; [exact Hs|]. split; [now apply Hparts|]. split; [now apply next_value_ok|].
      assert (M : qk_ok qk_max) by (split; reflexivity). split; [exact M|]. cbn [qr_from qr_to].
      destruct (next_value_ok _ Hv) as [A B]. rewrite qk_leb_iff. unfold qk_max, u64_max, hash_max. cbn [qk_lt qk_hash]. lia.
    - destruct (amem sh_eqb x ps); [destruct Hr|]. apply in_map_iff in Hr as (p & <- & Hp).
      split; [now apply Htops|]. split; [now apply Hparts|]. split; [split; reflexivity|]. split; [split; reflexivity|].
      reflexivity.
  Qed.

  Lemma clear_covers_tail s k : sh_ok s -> qk_ok k -> parts <> [] ->
    existsb (covers_tail s k) (clear_ranges parts ps tops) = discarded st tops s k.
  Proof.
    intros Hs Hk Hne. destruct clear_ps as (Hnd & Hg & Hi).
    unfold clear_ranges. rewrite existsb_app, !existsb_flat_map. unfold discarded.
    assert (Hconst : forall b : bool, existsb (fun _ : N => b) parts = b).
    { intros b. clear -Hne. destruct parts as [|x l]; [congruence|]. cbn. destruct b; auto. cbn.
      clear. induction l; cbn; auto. }
    assert (E1 : existsb (fun a : shard * ptrval => existsb (covers_tail s k)
        (map (fun p => QR (fst a) p (next_value (pv_key (snd a))) qk_max) parts)) ps =
      match ptr_at st s with Some p => qk_ltb (pv_key p) k | None => false end).
    { rewrite <- Hg by auto. clear -Hnd Hk Hi Hconst Hinv.
      induction ps as [|[s' v] ps' IH]; cbn [existsb aget]; auto.
      cbn [akeys map fst] in Hnd. inversion Hnd as [|? ? Hni Hnd']; subst.
      rewrite IH; auto; [|intros; apply Hi; now right].
      rewrite existsb_map. unfold covers_tail. cbn [qr_shard qr_from qr_to fst snd].
      rewrite Hconst. destruct (Hi s' v (or_introl eq_refl)) as (Hs' & [Hv _] & Hp).
      rewrite in_keys_max by auto.
      rewrite next_leb; auto; [|apply ltb_not_max; eapply inv_ptrlt; eauto].
      destruct (sh_eqb_spec s' s) as [->|Hn].
      - rewrite sh_eqb_refl. cbn [andb]. destruct (qk_ltb (pv_key v) k); auto.
        cbn [orb]. destruct (aget sh_eqb s ps') eqn:Eg; auto.
        exfalso. apply Hni. apply (aget_some_in sh_eqb sh_eqb_spec) in Eg. apply in_map_iff. now exists (s, p).
      - cbn [andb orb]. destruct (sh_eqb_spec s s'); [congruence|]. auto. }
    rewrite E1. clear E1.
    assert (E2 : existsb (fun s0 : shard => existsb (covers_tail s k)
        (if amem sh_eqb s0 ps then [] else map (fun p => QR s0 p qk_min qk_max) parts)) tops =
      match ptr_at st s with Some _ => false | None => existsb (sh_eqb s) tops end).
    { rewrite <- Hg by auto. clear -Hk Hs Hconst Htops.
      induction tops as [|t tops' IH]; cbn [existsb]; [now destruct (aget _ _ _)|].
      inversion Htops; subst. rewrite IH by auto. unfold amem.
      destruct (sh_eqb_spec s t) as [->|Hn].
      - destruct (aget sh_eqb t ps); cbn [existsb orb]; auto.
        rewrite existsb_map. unfold covers_tail. cbn [qr_shard qr_from qr_to].
        rewrite Hconst, sh_eqb_refl, in_keys_all by auto. reflexivity.
      - replace (existsb (covers_tail s k) _) with false; auto.
        destruct (aget sh_eqb t ps); auto. rewrite existsb_map. unfold covers_tail. cbn [qr_shard qr_from qr_to].
        rewrite Hconst. destruct (sh_eqb_spec t s); [congruence|]. reflexivity. }
    rewrite E2. destruct (ptr_at st s); cbn [orb]; auto. now rewrite orb_false_r.
  Qed.

  Lemma clear_covers_msg p s k : sh_ok s -> qk_ok k ->
    existsb (covers_msg p s k) (clear_ranges parts ps tops) = existsb (N.eqb p) parts && discarded st tops s k.
  Proof.
    intros Hs Hk. destruct (existsb (N.eqb p) parts) eqn:Ep.
    - assert (Hne : parts <> []) by (intros ->; discriminate).
      rewrite <- clear_covers_tail by auto. cbn [andb].
      apply eq_true_iff_eq. rewrite !existsb_exists. split.
      + intros (r & Hr & Hc). exists r. split; auto. unfold covers_msg in Hc. unfold covers_tail.
        rewrite !andb_true_iff in *. tauto.
      + intros (r & Hr & Hc). exists (QR (qr_shard r) p (qr_from r) (qr_to r)). split.
        * apply existsb_exists in Ep as (p' & Hp' & Epp). apply N.eqb_eq in Epp. subst p'.
          unfold clear_ranges in *. apply in_app_iff. apply in_app_iff in Hr as [Hr|Hr];
            apply in_flat_map in Hr as (x & Hx & Hr); [left|right]; apply in_flat_map; exists x; split; auto.
          -- apply in_map_iff in Hr as (p'' & <- & _). apply in_map_iff. exists p. cbn. auto.
          -- destruct (amem sh_eqb x ps); [destruct Hr|]. apply in_map_iff in Hr as (p'' & <- & _).
             apply in_map_iff. exists p. cbn. auto.
        * unfold covers_msg, covers_tail in *. cbn [qr_part qr_shard qr_from qr_to]. rewrite N.eqb_refl. exact Hc.
    - cbn [andb]. apply not_true_is_false. rewrite existsb_exists. intros (r & Hr & Hc).
      assert (Hin : In (qr_part r) parts).
      { unfold clear_ranges in Hr. apply in_app_iff in Hr as [Hr|Hr]; apply in_flat_map in Hr as (x & Hx & Hr).
        - apply in_map_iff in Hr as (p'' & <- & H). exact H.
        - destruct (amem sh_eqb x ps); [destruct Hr|]. apply in_map_iff in Hr as (p'' & <- & H). exact H. }
      unfold covers_msg in Hc. rewrite !andb_true_iff in Hc. destruct Hc as [[Hc _] _]. apply N.eqb_eq in Hc.
      rewrite Hc in Hin. apply not_true_iff_false in Ep. apply Ep. apply existsb_exists. exists p. split; auto. apply N.eqb_refl.
  Qed.
End Clear.

Lemma clear_spec st parts tops : st_inv st -> Forall (fun p => p < 2 ^ 16) parts -> Forall sh_ok tops ->
  exists st', clear_uncommitted parts tops st = Some st' /\ st_inv st' /\
   (forall s, ptr_at st' s = ptr_at st s) /\ st_mc st' = st_mc st /\
   (forall p s k, mk_ok (MK p s k) -> msg_at st' p s k =
      if existsb (N.eqb p) parts && discarded st tops s k then None else msg_at st p s k) /\
   (parts <> [] -> forall s k, sh_ok s -> qk_ok k -> tail_at st' s k =
      if discarded st tops s k then None else tail_at st s k) /\
   (parts <> [] -> forall s n, sh_ok s -> n < 2 ^ 32 -> info_at st' s n =
      match info_at st s n with
      | Some d => if discarded st tops s (di_max d) then None else Some d | None => None end) /\
   (parts = [] -> st' = st).
Proof.
  intros Hinv Hp Ht. unfold clear_uncommitted.
  destruct (read_ptrs_spec st (inv_wf _ Hinv)) as (ps & Er & _). rewrite Er.
  pose proof (clear_ranges_ok st parts tops ps Hinv Hp Ht Er) as Hr.
  destruct (delete_total (clear_ranges parts ps tops) st (inv_wf _ Hinv)) as (st' & Ed & _).
  exists st'. split; [exact Ed|]. split; [eapply delete_inv; eauto|].
  destruct (delete_ptrs _ _ _ _ Ed) as [Ep Em].
  split; [intros; now apply ptr_at_same|]. split; [exact Em|]. split; [|split; [|split]].
  - intros p s k Hk. rewrite (delete_msgs _ _ _ p s k (inv_wf _ Hinv) Hr Hk Ed).
    rewrite (clear_covers_msg st parts tops ps) by (auto; apply Hk). reflexivity.
  - intros Hne s k Hs Hk. rewrite (delete_tails _ _ _ s k (inv_wf _ Hinv) Hr (conj Hs Hk) Ed).
    now rewrite (clear_covers_tail st parts tops ps) by auto.
  - intros Hne s n Hs Hn. rewrite (delete_infos _ _ _ s n Hinv Hr Hs Hn Ed).
    destruct (info_at st s n) as [d|] eqn:Ei; auto.
    unfold cover_info. rewrite (clear_covers_tail st parts tops ps); auto.
    eapply inv_info; eauto.
  - intros ->. unfold delete in Ed.
    assert (E : clear_ranges [] ps tops = []).
    { unfold clear_ranges. cbn [map].
      replace (flat_map _ ps) with (@nil qrange) by (clear; induction ps; cbn; auto).
      cbn. clear. induction tops; cbn; auto. now destruct (amem sh_eqb a ps). }
    rewrite E in Ed. cbn in Ed. congruence.
Qed.
