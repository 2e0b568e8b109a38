(** Effect of writing a diff. *)
From Verif Require Export QueueStoreOps.
From Coq Require Import ZifyBool ZifyNat ZifyN.
Local Open Scope N_scope.
Local Opaque enc_tailkey enc_infokey enc_mkey enc_statkey enc_ptrkey enc_shard be le lex.

Lemma kv_put_in {V} k (v : V) m e : In e (kv_put k v m) -> e = (k, v) \/ In e m.
Proof.
  induction m as [|[k' v'] m IH]; cbn [kv_put In].
  - intros [<-|[]]; auto.
  - destruct (lex k k'); cbn [In]; intuition.
Qed.

Lemma qk_cmp_total : total_order qk_cmp.
Proof.
  split.
  - apply qk_cmp_eq.
  - apply qk_cmp_antisym.
  - intros a b c H1 H2. rewrite qk_cmp_lt in *. lia.
Qed.



Lemma lex_enc_mkey_eqb a b : mk_ok a -> mk_ok b ->
  match lex (enc_mkey a) (enc_mkey b) with Eq => true | _ => false end =
  (mk_part a =? mk_part b) && sh_eqb (mk_shard a) (mk_shard b) && match qk_cmp (mk_key a) (mk_key b) with Eq => true | _ => false end.
Proof.
  intros Ha Hb. destruct (lex (enc_mkey a) (enc_mkey b)) eqn:E.
  - apply lex_eq, enc_mkey_inj in E; auto. subst. now rewrite N.eqb_refl, sh_eqb_refl, qk_cmp_refl.
  - symmetry. apply not_true_is_false. intros H. rewrite !andb_true_iff in H. destruct H as [[H1 H2] H3].
    apply N.eqb_eq in H1. destruct (sh_eqb_spec (mk_shard a) (mk_shard b)); [|discriminate].
    destruct (qk_cmp (mk_key a) (mk_key b)) eqn:F; try discriminate. apply qk_cmp_eq in F.
    destruct a, b; cbn in *; subst. now rewrite lex_refl in E.
  - symmetry. apply not_true_is_false. intros H. rewrite !andb_true_iff in H. destruct H as [[H1 H2] H3].
    apply N.eqb_eq in H1. destruct (sh_eqb_spec (mk_shard a) (mk_shard b)); [|discriminate].
    destruct (qk_cmp (mk_key a) (mk_key b)) eqn:F; try discriminate. apply qk_cmp_eq in F.
    destruct a, b; cbn in *; subst. now rewrite lex_refl in E.
Qed.

(** everything except messages is untouched by add_messages *)
Lemma add_messages_other s rt ms : forall st,
  let st' := add_messages s rt ms st in
  st_stats st' = st_stats st /\ st_tails st' = st_tails st /\ st_infos st' = st_infos st /\
  st_ptrs st' = st_ptrs st /\ st_mc st' = st_mc st.
Proof.
  induction ms as [|e ms IH]; intros st; cbn; auto.
  unfold add_messages in *. cbn [fold_left]. cbv zeta in IH. destruct (IH (insert_message
     (MK (get_partition rt (Some (IStd (m_src (snd e)))) (IStd (m_dst (snd e)))) s (fst e)) (snd e) st))
   as (A & B & C & D & E). rewrite A, B, C, D, E. auto.
Qed.

Lemma add_messages_get s rt : sh_ok s -> forall ms st, osorted qk_cmp ms ->
  Forall (fun e => qk_ok (fst e) /\ part_of rt (snd e) < 2 ^ 16) ms -> kv_sorted (st_msgs st) ->
  kv_sorted (st_msgs (add_messages s rt ms st)) /\
  forall p s' k, mk_ok (MK p s' k) ->
  msg_at (add_messages s rt ms st) p s' k =
    match oget qk_cmp k ms with
    | Some m => if sh_eqb s s' && (part_of rt m =? p) then Some (msg_header (m_dst m), m) else msg_at st p s' k
    | None => msg_at st p s' k
    end.
Proof.
  intros Hs. induction ms as [|[k0 m0] ms IH]; intros st Hso HF Hkv.
  - cbn. auto.
  - inversion Hso as [|? ? ? Hso' Hlt]; subst. inversion HF as [|? ? [Hk0 Hp0] HF']; subst.
    unfold add_messages. cbn [fold_left fst snd] in *. fold (part_of rt m0).
    set (st1 := insert_message (MK (part_of rt m0) s k0) m0 st).
    change (fold_left _ ms st1) with (add_messages s rt ms st1).
    destruct (IH st1) as [A B]; auto.
    { subst st1. cbn. now apply kv_put_sorted. }
    split; auto. intros p s' k Hk. rewrite B by auto. clear B.
    assert (Hst1 : msg_at st1 p s' k = if sh_eqb s s' && (part_of rt m0 =? p) && match qk_cmp k k0 with Eq => true | _ => false end
              then Some (msg_header (m_dst m0), m0) else msg_at st p s' k).
    { unfold msg_at, st1. cbn [insert_message st_msgs]. rewrite kv_get_put by auto.
      pose proof (lex_enc_mkey_eqb (MK p s' k) (MK (part_of rt m0) s k0) Hk) as L.
      cbn [mk_part mk_shard mk_key] in L.
      replace (sh_eqb s s' && (part_of rt m0 =? p)) with ((p =? part_of rt m0) && sh_eqb s' s).
      - rewrite <- L by (split; auto). now destruct (lex _ _).
      - rewrite (N.eqb_sym p). rewrite andb_comm. f_equal.
        destruct (sh_eqb_spec s' s), (sh_eqb_spec s s'); auto; congruence. }
    cbn [oget]. destruct (qk_cmp k k0) eqn:Ec.
    + apply qk_cmp_eq in Ec. subst k0. rewrite oget_none_lt by auto.
      rewrite Hst1. now rewrite andb_true_r.
    + rewrite Hst1, andb_false_r.
      rewrite oget_none_lt; auto.
      rewrite Forall_forall in *. intros e He. specialize (Hlt e He).
      eapply (to_trans _ qk_cmp_total); eauto.
    + rewrite Hst1, andb_false_r. reflexivity.
Qed.

Lemma add_statistics_other ds : forall st,
  let st' := add_statistics ds st in
  st_msgs st' = st_msgs st /\ st_tails st' = st_tails st /\ st_infos st' = st_infos st /\
  st_ptrs st' = st_ptrs st /\ st_mc st' = st_mc st.
Proof.
  unfold add_statistics. generalize (ds_stats ds). intros l st. cbv zeta.
  revert st. induction l as [|[p a] l IH]; intros st; cbn [fold_left]; auto.
  set (st1 := fold_left _ (snd (p, a)) st).
  assert (H : st_msgs st1 = st_msgs st /\ st_tails st1 = st_tails st /\ st_infos st1 = st_infos st /\
     st_ptrs st1 = st_ptrs st /\ st_mc st1 = st_mc st).
  { subst st1. cbn [fst snd]. clear. revert st. induction a as [|f a IH]; intros st; cbn [fold_left]; auto.
    destruct (IH (insert_statistics (SK (ds_shard ds) p (ds_max ds) (fst f)) (snd f) st)) as (A & B & C & D & E).
    rewrite A, B, C, D, E. auto. }
  destruct (IH st1) as (A & B & C & D & E). destruct H as (A' & B' & C' & D' & E').
  rewrite A, B, C, D, E. auto.
Qed.

Lemma add_statistics_sorted ds : forall st, kv_sorted (st_stats st) -> kv_sorted (st_stats (add_statistics ds st)).
Proof.
  unfold add_statistics. generalize (ds_stats ds). intros l. induction l as [|[p a] l IH]; intros st H; cbn [fold_left]; auto.
  apply IH. cbn [fst snd]. clear IH l. revert st H. induction a as [|f a IH]; intros st H; cbn [fold_left]; auto.
  apply IH. cbn. now apply kv_put_sorted.
Qed.

Lemma lex_tail_eqb s k s' k' : sh_ok s -> qk_ok k -> sh_ok s' -> qk_ok k' ->
  lex (enc_tailkey (TK s' k')) (enc_tailkey (TK s k)) = Eq <-> s' = s /\ k' = k.
Proof.
  intros. rewrite lex_eq. split.
  - intros E. apply enc_tailkey_inj in E; [|split; auto|split; auto]. injection E; auto.
  - intros [-> ->]; auto.
Qed.
Lemma lex_info_eqb s n s' n' : sh_ok s -> n < 2 ^ 32 -> sh_ok s' -> n' < 2 ^ 32 ->
  lex (enc_infokey (IK s' n')) (enc_infokey (IK s n)) = Eq <-> s' = s /\ n' = n.
Proof.
  intros. rewrite lex_eq. split.
  - intros E. apply enc_infokey_inj in E; [|split; auto|split; auto]. injection E; auto.
  - intros [-> ->]; auto.
Qed.


Lemma write_diff_spec d s n h ds st : st_wf st -> diff_ok d s n ds ->
  let st' := write_diff s n ds h d st in
  st_wf st' /\ (forall s', ptr_at st' s' = ptr_at st s') /\
  (forall p s' k, mk_ok (MK p s' k) ->
     msg_at st' p s' k = match oget qk_cmp k (qd_msgs d) with
       | Some m => if sh_eqb s s' && (part_of (qd_router d) m =? p) then Some (msg_header (m_dst m), m) else msg_at st p s' k
       | None => msg_at st p s' k end) /\
  (forall s' k, sh_ok s' -> qk_ok k -> tail_at st' s' k =
     if sh_eqb s s' && match qk_cmp k (ds_max ds) with Eq => true | _ => false end then Some (le 4 n) else tail_at st s' k) /\
  (forall s' n', sh_ok s' -> n' < 2 ^ 32 -> info_at st' s' n' =
     if sh_eqb s s' && (n' =? n) then Some (written_info n ds h d) else info_at st s' n') /\
  st_infos st' = kv_put (enc_infokey (IK s n)) (written_info n ds h d) (st_infos st).
Proof.
  intros Hwf [Hs Hn Hso Hms Hpr Hsh [Hmx Hmx'] Hle]. cbv zeta.
  destruct (add_messages_get s (qd_router d) Hs (qd_msgs d) st Hso Hms (wf_msgs _ Hwf)) as [M1 M2].
  destruct (add_messages_other s (qd_router d) (qd_msgs d) st) as (O1 & O2 & O3 & O4 & O5).
  set (st1 := add_messages s (qd_router d) (qd_msgs d) st) in *.
  destruct (add_statistics_other ds st1) as (P1 & P2 & P3 & P4 & P5).
  pose proof (add_statistics_sorted ds st1) as P6.
  set (st2 := add_statistics ds st1) in *.
  assert (Hn32 : n < 2 ^ 32) by (unfold u32_max in Hn; lia).
  unfold write_diff. fold st1. fold st2.
  unfold add_diff_info, add_diff_tail, insert_diff_info, insert_diff_tail. cbn [st_msgs st_stats st_tails st_infos st_ptrs st_mc].
  split.
  { split; cbn [st_msgs st_stats st_tails st_infos st_ptrs st_mc].
    - now rewrite P1.
    - apply P6. rewrite O1. apply Hwf.
    - rewrite P2, O2. apply kv_put_sorted, Hwf.
    - rewrite P3, O3. apply kv_put_sorted, Hwf.
    - rewrite P4, O4. apply Hwf.
    - rewrite P2, O2. rewrite Forall_forall. intros e He.
      pose proof (wf_tailv _ Hwf) as HF. rewrite Forall_forall in HF.
      assert (Hd : e = (enc_tailkey (TK s (ds_max ds)), le 4 n) \/ In e (st_tails st)).
      { now apply kv_put_in. }
      destruct Hd as [->|Hd]; auto. exists (TK s (ds_max ds)), n. repeat split; try apply Hs; try apply Hmx; auto.
    - rewrite P4, O4. apply Hwf. }
  split. { intros s'. apply ptr_at_same. cbn. now rewrite P4, O4. }
  split. { intros p s' k Hk. rewrite <- M2 by auto. unfold msg_at. cbn [st_msgs]. now rewrite P1. }
  split.
  { intros s' k Hs' Hk. unfold tail_at. cbn [st_tails]. rewrite P2, O2. rewrite kv_get_put by apply Hwf.
    pose proof (lex_tail_eqb s (ds_max ds) s' k Hs Hmx Hs' Hk) as L.
    destruct (sh_eqb_spec s s') as [<-|Hne]; cbn [andb].
    - destruct (qk_cmp k (ds_max ds)) eqn:Ec.
      + apply qk_cmp_eq in Ec. destruct L as [_ L]. now rewrite L by auto.
      + destruct (lex _ _) eqn:El; auto. destruct L as [L _]. destruct (L eq_refl) as [_ L2]. rewrite L2, qk_cmp_refl in Ec. discriminate Ec.
      + destruct (lex _ _) eqn:El; auto. destruct L as [L _]. destruct (L eq_refl) as [_ L2]. rewrite L2, qk_cmp_refl in Ec. discriminate Ec.
    - destruct (lex _ _) eqn:El; auto. destruct L as [L _]. destruct (L eq_refl) as [L1 L2]. exfalso. clear -L1 L2 Hne. auto. }
  split.
  { intros s' n' Hs' Hn'. unfold info_at. cbn [st_infos]. rewrite P3, O3. rewrite kv_get_put by apply Hwf.
    pose proof (lex_info_eqb s n s' n' Hs Hn32 Hs' Hn') as L.
    destruct (sh_eqb_spec s s') as [<-|Hne]; cbn [andb].
    - destruct (N.eqb_spec n' n) as [->|Hne].
      + destruct L as [_ L]. now rewrite L by auto.
      + destruct (lex _ _) eqn:El; auto. destruct L as [L _]. destruct (L eq_refl) as [L1 L2]. exfalso. clear -L1 L2 Hne. auto.
    - destruct (lex _ _) eqn:El; auto. destruct L as [L _]. destruct (L eq_refl) as [L1 L2]. exfalso. clear -L1 L2 Hne. auto. }
  now rewrite P3, O3.
Qed.


Lemma write_diff_inv d s n h ds st : st_inv st -> diff_ok d s n ds -> chain_ok d s n ds st ->
  st_inv (write_diff s n ds h d st).
Proof.
  intros Hinv Hd Hc. pose proof (inv_wf _ Hinv) as Hwf.
  destruct (write_diff_spec d s n h ds st Hwf Hd) as (W1 & W2 & W3 & W4 & W5 & W6).
  destruct Hd as [Hs Hn Hso Hms Hpr Hsh [Hmx Hmx'] Hle].
  assert (Hn32 : n < 2 ^ 32) by (unfold u32_max in Hn; lia).
  set (st' := write_diff s n ds h d st) in *.
  split; auto.
  - rewrite W6. rewrite Forall_forall. intros e He. pose proof (inv_infok _ Hinv) as HF. rewrite Forall_forall in HF.
    assert (Hd : e = (enc_infokey (IK s n), written_info n ds h d) \/ In e (st_infos st)).
    { now apply kv_put_in. }
    destruct Hd as [->|Hd]; auto. exists s, n. cbn. auto 10.
  - intros s' p Hs' Ep. rewrite W2 in Ep. eapply inv_ptrlt; eauto.
  - intros s' n' d' Hs' Hn' Ed. rewrite W5 in Ed by auto.
    destruct (sh_eqb_spec s s') as [<-|]; cbn [andb] in Ed.
    + destruct (N.eqb_spec n' n) as [->|Hne].
      * injection Ed as <-. cbn [written_info di_max]. rewrite W4 by auto. now rewrite sh_eqb_refl, qk_cmp_refl.
      * pose proof (inv_it _ Hinv _ _ _ Hs' Hn' Ed) as Ht. destruct (inv_info _ _ _ _ Hinv Hs' Hn' Ed) as (_ & _ & Hq & _).
        destruct (co_info _ _ _ _ _ Hc _ _ Hn' Ed) as (_ & Hlt & _).
        rewrite W4 by auto. rewrite sh_eqb_refl. cbn [andb].
        unfold qk_ltb in Hlt. destruct (qk_cmp (di_max d') (ds_max ds)); try discriminate. exact Ht.
    + destruct (inv_info _ _ _ _ Hinv Hs' Hn' Ed) as (_ & _ & Hq & _). rewrite W4 by auto.
      destruct (sh_eqb_spec s s'); [congruence|]. cbn [andb]. eapply inv_it; eauto.
  - intros s' k n' Hs' Hk Hn' Et. rewrite W4 in Et by auto.
    destruct (sh_eqb_spec s s') as [<-|]; cbn [andb] in Et.
    + destruct (qk_cmp k (ds_max ds)) eqn:Ec.
      * apply qk_cmp_eq in Ec. subst k.
        assert (Enn : tail_seqno (le 4 n) = tail_seqno (le 4 n')) by congruence.
        rewrite !tail_seqno_le in Enn by auto. subst n'.
        exists (written_info n ds h d). split; auto. rewrite W5 by auto. now rewrite sh_eqb_refl, N.eqb_refl.
      * destruct (inv_ti _ Hinv _ _ _ Hs' Hk Hn' Et) as (d' & Ed' & Em). exists d'. split; auto.
        rewrite W5 by auto. destruct (co_info _ _ _ _ _ Hc _ _ Hn' Ed') as (Hlt & _).
        destruct (N.eqb_spec n' n); [lia|]. now rewrite andb_false_r.
      * destruct (inv_ti _ Hinv _ _ _ Hs' Hk Hn' Et) as (d' & Ed' & Em). exists d'. split; auto.
        rewrite W5 by auto. destruct (co_info _ _ _ _ _ Hc _ _ Hn' Ed') as (Hlt & _).
        destruct (N.eqb_spec n' n); [lia|]. now rewrite andb_false_r.
    + destruct (inv_ti _ Hinv _ _ _ Hs' Hk Hn' Et) as (d' & Ed' & Em). exists d'. split; auto.
      rewrite W5 by auto. destruct (sh_eqb_spec s s'); [congruence|]. auto.
  - intros s' a b da db Hs' Ha Hb Hlt Ea Eb. rewrite W5 in Ea, Eb by auto.
    destruct (sh_eqb_spec s s') as [<-|]; cbn [andb] in Ea, Eb.
    + destruct (N.eqb_spec a n) as [->|], (N.eqb_spec b n) as [->|].
      * lia.
      * destruct (co_info _ _ _ _ _ Hc _ _ Hb Eb) as (? & _). lia.
      * injection Eb as <-. cbn. now destruct (co_info _ _ _ _ _ Hc _ _ Ha Ea) as (_ & ? & _).
      * exact (inv_mono _ Hinv _ _ _ _ _ Hs Ha Hb Hlt Ea Eb).
    + exact (inv_mono _ Hinv _ _ _ _ _ Hs' Ha Hb Hlt Ea Eb).
  - intros s' p a da Hs' Ha Ep Ea. rewrite W2 in Ep. rewrite W5 in Ea by auto.
    destruct (sh_eqb_spec s s') as [<-|]; cbn [andb] in Ea.
    + destruct (N.eqb_spec a n) as [->|].
      * injection Ea as <-. cbn. exact (co_ptr _ _ _ _ _ Hc _ Ep).
      * exact (inv_ptr _ Hinv _ _ _ _ Hs Ha Ep Ea).
    + exact (inv_ptr _ Hinv _ _ _ _ Hs' Ha Ep Ea).
Qed.
