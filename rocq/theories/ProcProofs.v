From Verif Require Export ProcModel QueueKeysProofs QueueStoreInv QueueStoreApply.
From Coq Require Import ZArith ZifyN ZifyNat ZifyBool Lia.
Local Open Scope N_scope.
Local Opaque be le lex de enc_shard.

Lemma N_total : total_order N.compare.
Proof.
  split.
  - apply N.compare_eq_iff.
  - intros a b. apply N.compare_antisym.
  - intros a b c. rewrite !N.compare_lt_iff. lia.
Qed.
Lemma sh_total : total_order sh_ord.
Proof.
  unfold sh_ord, cmp_then. split.
  - intros [a1 a2] [b1 b2]; cbn. destruct (Z.compare_spec a1 b1); destruct (N.compare_spec a2 b2); split; intros E; try discriminate; try congruence; try (injection E; lia).
  - intros [a1 a2] [b1 b2]; cbn. rewrite (Z.compare_antisym a1 b1), (N.compare_antisym a2 b2). destruct (Z.compare a1 b1); reflexivity.
  - intros [a1 a2] [b1 b2] [c1 c2]; cbn.
    destruct (Z.compare_spec a1 b1); destruct (Z.compare_spec b1 c1); destruct (Z.compare_spec a1 c1); try discriminate; try lia; auto.
    rewrite !N.compare_lt_iff. lia.
Qed.

(** ** Dictionaries *)
Section Dict.
  Context {K V W : Type} (cmp : K -> K -> comparison) (T : total_order cmp).
  Context (ok : K -> Prop) (enc : K -> bytes) (dec : bytes -> option K).
  Context (f : V -> W) (g : W -> option V).
  Hypothesis Hdec : forall k, ok k -> dec (enc k) = Some k.

  Lemma enc_inj' k k' : ok k -> ok k' -> enc k = enc k' -> k = k'.
  Proof. intros H1 H2 E. apply (f_equal dec) in E. rewrite !Hdec in E by auto. congruence. Qed.

  Lemma to_dict_fold (m : omap K V) : forall d, kv_sorted d -> NoDup (map fst m) -> Forall (fun e => ok (fst e)) m ->
    kv_sorted (fold_left (fun d e => kv_put (enc (fst e)) (f (snd e)) d) m d) /\
    forall k w, (kv_get k (fold_left (fun d e => kv_put (enc (fst e)) (f (snd e)) d) m d) = Some w <->
       (exists a v, In (a, v) m /\ enc a = k /\ f v = w) \/ (kv_get k d = Some w /\ forall a v, In (a, v) m -> enc a <> k)).
  Proof.
    induction m as [|[a v] m IH]; intros d Hd Hn Ho; cbn [fold_left].
    - split; auto. intros k w. split; [intros E; right; split; auto; intros ? ? []|intros [(a & v & [] & _)|[E _]]; auto].
    - cbn in Hn. inversion Hn as [|? ? Hni Hn']; subst. inversion Ho as [|? ? Ha Ho']; subst. cbn [fst snd] in *.
      destruct (IH (kv_put (enc a) (f v) d) (kv_put_sorted _ _ _ Hd) Hn' Ho') as [I1 I2]. split; auto.
      intros k w. rewrite I2, kv_get_put by auto. split.
      + intros [(a' & v' & Hin & E1 & E2)|[E Hno]].
        * left. exists a', v'. split; [right|]; auto.
        * destruct (lex k (enc a)) eqn:Ec; try (right; split; auto; intros a' v' [[= <- <-]|Hin]; [intros <-; rewrite lex_refl in Ec; discriminate|eauto]).
          apply lex_eq in Ec. subst k. injection E as <-. left. exists a, v. split; [left|]; auto.
      + intros [(a' & v' & [[= <- <-]|Hin] & E1 & E2)|[E Hno]].
        * right. subst. rewrite lex_refl. split; auto. intros a' v' Hin Ec. apply Hni.
          rewrite Forall_forall in Ho'. apply enc_inj' in Ec; auto; [|exact (Ho' _ Hin)]. subst a'. now apply (in_map fst) in Hin.
        * left. eauto.
        * right. split; [|intros; eapply Hno; right; eauto].
          destruct (lex k (enc a)) eqn:Ec; auto. apply lex_eq in Ec. subst. exfalso. exact (Hno a v (or_introl eq_refl) eq_refl).
  Qed.

  Lemma to_dict_sorted m : osorted cmp m -> Forall (fun e => ok (fst e)) m -> kv_sorted (to_dict enc f m).
  Proof. intros Hs Ho. destruct (to_dict_fold m [] kvs_nil (osorted_nodup cmp T m Hs) Ho) as [H _]. exact H. Qed.
  Lemma to_dict_get m k w : osorted cmp m -> Forall (fun e => ok (fst e)) m ->
    (kv_get k (to_dict enc f m) = Some w <-> exists a v, In (a, v) m /\ enc a = k /\ f v = w).
  Proof.
    intros Hs Ho. destruct (to_dict_fold m [] (kvs_nil) (osorted_nodup cmp T m Hs) Ho) as [_ H]. unfold to_dict. rewrite H.
    split; [intros [?|[E _]]; [auto|discriminate]|auto].
  Qed.

  Lemma of_dict_none d : fold_left (of_dict_step cmp dec g) d None = None.
  Proof. induction d; cbn; auto. Qed.

  (** reading a dictionary: every entry must decode; keys distinct *)
  Lemma of_dict_fold (d : kv W) : forall m, osorted cmp m -> Forall (fun e => dec (fst e) <> None /\ g (snd e) <> None) d ->
    exists m', fold_left (of_dict_step cmp dec g) d (Some m) = Some m' /\ osorted cmp m' /\
    (NoDup (map (fun e => dec (fst e)) d) -> (forall e, In e d -> forall k, dec (fst e) = Some k -> oget cmp k m = None) ->
     forall k v, (oget cmp k m' = Some v <-> oget cmp k m = Some v \/ exists e, In e d /\ dec (fst e) = Some k /\ g (snd e) = Some v)).
  Proof.
    induction d as [|[b w] d IH]; intros m Hm Hd; cbn [fold_left].
    - exists m. split; auto. split; auto. intros _ _ k v. split; [auto|intros [?|(e & [] & _)]; auto].
    - inversion Hd as [|? ? [H1 H2] Hd']; subst. cbn [fst snd] in H1, H2. unfold of_dict_step at 2. cbn [fst snd].
      destruct (dec b) as [k0|] eqn:Ek; [|congruence]. destruct (g w) as [v0|] eqn:Ev; [|congruence].
      destruct (IH (oput cmp k0 v0 m) (oput_sorted cmp T k0 v0 m Hm) Hd') as (m' & E & Hs & Hg). exists m'. split; auto. split; auto.
      intros Hn Hno k v. cbn [map fst] in Hn. inversion Hn as [|? ? Hni Hn']; subst.
      rewrite Hg; auto.
      + rewrite oget_put by auto. split.
        * intros [E0|(e & Hin & E1 & E2)].
          -- destruct (cmp k k0) eqn:Ec; auto. apply (to_eq _ T) in Ec. subst k0. injection E0 as <-. right.
             exists (b, w). split; [left|]; auto.
          -- right. exists e. split; [right|]; auto.
        * intros [E0|(e & [<-|Hin] & E1 & E2)].
          -- destruct (cmp k k0) eqn:Ec; auto. apply (to_eq _ T) in Ec. subst k0.
             rewrite (Hno (b, w) (or_introl eq_refl) k Ek) in E0. discriminate.
          -- cbn [fst snd] in E1, E2. left. rewrite Ek in E1. injection E1 as <-. rewrite (proj2 (to_eq _ T k0 k0) eq_refl). congruence.
          -- right. eauto.
      + intros e Hin k1 E1. rewrite oget_put by auto. destruct (cmp k1 k0) eqn:Ec.
        * apply (to_eq _ T) in Ec. subst k1. exfalso. apply Hni. rewrite Ek. apply in_map_iff. exists e. split; auto.
        * apply (Hno e); auto. right; auto.
        * apply (Hno e); auto. right; auto.
  Qed.

  Lemma of_dict_fails (d : kv W) : forall m, (exists e, In e d /\ (dec (fst e) = None \/ g (snd e) = None)) ->
    fold_left (of_dict_step cmp dec g) d m = None.
  Proof.
    induction d as [|e d IH]; intros m (e' & Hin & Hf); [destruct Hin|]. cbn [fold_left].
    destruct Hin as [->|Hin]; [|apply IH; eauto].
    assert (E : of_dict_step cmp dec g m e' = None).
    { unfold of_dict_step. destruct m; auto. destruct (dec (fst e')) eqn:E1; auto. destruct (g (snd e')) eqn:E2; auto.
      destruct Hf; congruence. }
    rewrite E. apply of_dict_none.
  Qed.

  Lemma kv_nodup (d : kv W) : kv_sorted d -> NoDup (map fst d).
  Proof.
    induction 1 as [|k v m Hs IH Hf]; cbn; constructor; auto. intros Hc. apply in_map_iff in Hc as ([k' v'] & E & Hin). cbn in E. subst.
    rewrite Forall_forall in Hf. specialize (Hf _ Hin). cbn in Hf. rewrite lex_refl in Hf. discriminate.
  Qed.

  (** collator -> chain -> collator *)
  Lemma dict_roundtrip m : osorted cmp m -> Forall (fun e => ok (fst e) /\ g (f (snd e)) = Some (snd e)) m ->
    of_dict cmp dec g (to_dict enc f m) = Some m.
  Proof.
    intros Hs HF. assert (Ho : Forall (fun e => ok (fst e)) m) by (eapply Forall_impl; [|exact HF]; intros e [? _]; auto).
    rewrite Forall_forall in HF. pose proof (to_dict_sorted m Hs Ho) as HS.
    assert (Hin : forall e, In e (to_dict enc f m) -> exists a v, In (a, v) m /\ fst e = enc a /\ snd e = f v).
    { intros [k w] Hin. apply kv_in_get in Hin; auto. apply to_dict_get in Hin as (a & v & H1 & H2 & H3); auto. exists a, v. auto. }
    destruct (of_dict_fold (to_dict enc f m) [] (os_nil cmp)) as (m' & E & Hs' & Hg).
    { apply Forall_forall. intros e He. destruct (Hin e He) as (a & v & H1 & -> & ->). destruct (HF _ H1) as [H2 H3]. cbn [fst snd] in *.
      rewrite Hdec by auto. split; congruence. }
    refine (eq_trans E _). f_equal. apply (oext cmp T); auto. intros k.
    assert (Hn : NoDup (map (fun e : bytes * W => dec (fst e)) (to_dict enc f m))).
    { pose proof (kv_nodup _ HS) as N. clear - N Hin Hdec HF. induction (to_dict enc f m) as [|e d IH]; cbn in *; constructor.
      - inversion N as [|? ? Hni _]; subst. intros Hc. apply in_map_iff in Hc as (e' & E & He'). apply Hni.
        destruct (Hin e (or_introl eq_refl)) as (a & v & H1 & E1 & _). destruct (Hin e' (or_intror He')) as (a' & v' & H1' & E1' & _).
        rewrite E1, E1' in E. rewrite !Hdec in E by (apply (HF _ H1) || apply (HF _ H1')). injection E as ->.
        rewrite E1, <- E1'. now apply in_map.
      - inversion N; subst. apply IH; auto. }
    specialize (Hg Hn (fun _ _ _ _ => eq_refl)).
    destruct (oget cmp k m) as [v|] eqn:Ek.
    - apply Hg. right. apply (oin_get cmp T) in Ek; auto. exists (enc k, f v). destruct (HF _ Ek) as [H1 H2]. cbn [fst snd] in *. split; [|auto].
      apply kv_in_get; auto. apply to_dict_get; eauto.
    - destruct (oget cmp k m') as [v|] eqn:Ek'; auto. apply Hg in Ek' as [?|(e & He & E1 & E2)]; [discriminate|].
      destruct (Hin e He) as (a & v' & H1 & E3 & E4). rewrite E3, Hdec in E1 by apply (HF _ H1). injection E1 as ->.
      apply (oin_get cmp T) in H1; auto. congruence.
  Qed.

  (** chain -> collator -> chain; failure exactly on an undecodable entry *)
  Lemma dict_roundtrip_back d m : kv_sorted d ->
    (forall b k, dec b = Some k -> In b (map fst d) -> ok k /\ enc k = b) -> (forall e v, In e d -> g (snd e) = Some v -> f v = snd e) ->
    of_dict cmp dec g d = Some m -> to_dict enc f m = d /\ osorted cmp m /\
    Forall (fun e => ok (fst e) /\ exists w, In (enc (fst e), w) d /\ g w = Some (snd e)) m.
  Proof.
    intros HS Hk Hv E.
    assert (HF : Forall (fun e => dec (fst e) <> None /\ g (snd e) <> None) d).
    { apply Forall_forall. intros e He. split; intros Hc; unfold of_dict in E; rewrite of_dict_fails in E; try discriminate; eauto. }
    destruct (of_dict_fold d [] (os_nil cmp) HF) as (m' & E' & Hs & Hg). pose proof (eq_trans (eq_sym E') E) as E0. injection E0 as ->.
    assert (Hn : NoDup (map (fun e : bytes * W => dec (fst e)) d)).
    { pose proof (kv_nodup _ HS) as N. rewrite Forall_forall in HF. clear - N Hk HF. induction d as [|e d IH]; cbn in *; constructor.
      - inversion N as [|? ? Hni _]; subst. intros Hc. apply in_map_iff in Hc as (e' & E & He'). apply Hni.
        destruct (HF e (or_introl eq_refl)) as [H1 _]. destruct (dec (fst e)) as [k|] eqn:Ek; [|congruence].
        destruct (Hk (fst e) k) as [_ E1]; auto. destruct (Hk (fst e') k) as [_ E2]; auto; [right; now apply in_map|].
        rewrite <- E1, E2. now apply in_map.
      - inversion N; subst. apply IH; auto. }
    specialize (Hg Hn (fun _ _ _ _ => eq_refl)).
    assert (Hm : forall k v, In (k, v) m <-> exists e, In e d /\ dec (fst e) = Some k /\ g (snd e) = Some v).
    { intros k v. rewrite (oin_get cmp T) by auto. rewrite Hg. split; [intros [?|?]; [discriminate|auto]|auto]. }
    assert (Hok : Forall (fun e => ok (fst e)) m).
    { apply Forall_forall. intros [k v] Hin. apply Hm in Hin as (e & He & E1 & _). apply (Hk (fst e)); auto. now apply in_map. }
    split; [|split]; auto.
    - apply kv_ext; auto; [apply to_dict_sorted; auto|]. intros k.
      destruct (kv_get k d) as [w|] eqn:Ew.
      + apply kv_in_get in Ew; auto. rewrite Forall_forall in HF. destruct (HF _ Ew) as [H1 H2]. cbn [fst snd] in *.
        destruct (dec k) as [a|] eqn:Ea; [|congruence]. destruct (g w) as [v|] eqn:Ev; [|congruence].
        apply to_dict_get; auto. exists a, v. split; [apply Hm; exists (k, w); auto|]. split.
        * apply (Hk k); auto. apply in_map_iff. exists (k, w). auto.
        * exact (Hv (k, w) v Ew Ev).
      + destruct (kv_get k (to_dict enc f m)) as [w|] eqn:Et; auto. apply to_dict_get in Et as (a & v & Hin & Ea & Ev); auto.
        apply Hm in Hin as ([b w'] & He & E1 & E2). cbn [fst snd] in *.
        destruct (Hk b a) as [_ E3]; auto; [apply in_map_iff; exists (b, w'); auto|]. rewrite <- Ea, E3 in Ew.
        apply kv_in_get in He; auto. congruence.
    - apply Forall_forall. intros [k v] Hin. pose proof Hin as Hin'. apply Hm in Hin as ([b w] & He & E1 & E2). cbn [fst snd] in *.
      destruct (Hk b k) as [H1 H2]; auto; [apply in_map_iff; exists (b, w); auto|]. split; auto. exists w. rewrite H2. auto.
  Qed.
End Dict.

Lemma read_be_exact n x : x < 256 ^ N.of_nat n -> option_map fst (read_be n (be n x)) = Some x.
Proof. intros H. rewrite <- (app_nil_r (be n x)), read_be_be by auto. reflexivity. Qed.
Lemma dec_u16_enc k : k < 2 ^ 16 -> dec_u16 (enc_u16 k) = Some k. Proof. exact (read_be_exact 2 k). Qed.
Lemma dec_u32_enc k : k < 2 ^ 32 -> dec_u32 (enc_u32 k) = Some k. Proof. exact (read_be_exact 4 k). Qed.
Lemma read_be_inv n b k : bytes_ok b -> length b = n -> option_map fst (read_be n b) = Some k -> k < 256 ^ N.of_nat n /\ be n k = b.
Proof.
  intros Hb Hl. unfold read_be. destruct (take_n n b) as [[x r]|] eqn:E; [|discriminate]. cbn. intros [= <-].
  apply take_n_some in E as [-> Hx]. rewrite app_length in Hl. assert (r = []) by (destruct r; [auto|cbn in Hl; lia]). subst r.
  rewrite app_nil_r in *. split; [rewrite <- Hx; now apply de_bound|rewrite <- Hx; now apply be_de].
Qed.
Lemma dec_u16_inv b k : bytes_ok b -> length b = 2%nat -> dec_u16 b = Some k -> k < 2 ^ 16 /\ enc_u16 k = b.
Proof. exact (read_be_inv 2 b k). Qed.
Lemma dec_u32_inv b k : bytes_ok b -> length b = 4%nat -> dec_u32 b = Some k -> k < 2 ^ 32 /\ enc_u32 k = b.
Proof. exact (read_be_inv 4 b k). Qed.

Lemma dec_shard_key_enc valid s : sh_ok s -> valid s = true -> dec_shard_key valid (enc_shard s) = Some s.
Proof. intros Hs Hv. unfold dec_shard_key. rewrite <- (app_nil_r (enc_shard s)), dec_enc_shard by auto. now rewrite Hv. Qed.
Lemma dec_shard_key_inv valid b s : bytes_ok b -> length b = 12%nat -> dec_shard_key valid b = Some s ->
  (sh_ok s /\ valid s = true) /\ enc_shard s = b.
Proof.
  intros Hb Hl. unfold dec_shard_key, dec_shard. destruct (read_be 4 b) as [[w r]|] eqn:E; [|discriminate].
  destruct (read_be 8 r) as [[p r']|] eqn:E2; [|discriminate]. destruct (valid _) eqn:Ev; [|discriminate]. intros [= <-].
  apply read_be_some in E as (-> & Hw); auto. apply Forall_app in Hb as [_ Hb].
  apply read_be_some in E2 as (-> & Hp); auto.
  assert (r' = []). { rewrite !app_length, !be_length in Hl. destruct r'; [auto|cbn in Hl; lia]. } subst r'. rewrite app_nil_r.
  assert (Hw' : w < 2 ^ 32) by exact Hw. assert (Hp' : p < 2 ^ 64) by exact Hp.
  split; [split; [|auto]|].
  - split; cbn [sh_wc sh_prefix]; auto. pose proof (to_i_bound 32 w ltac:(lia) Hw') as B. exact B.
  - Local Transparent enc_shard. unfold enc_shard. cbn [sh_wc sh_prefix]. rewrite to_u_to_i by (lia || auto). reflexivity.
Qed.
Local Opaque enc_shard.
