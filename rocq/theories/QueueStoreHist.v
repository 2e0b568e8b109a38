(** Commit, garbage collection, and histories of queue operations. *)
From Verif Require Export QueueStoreApply.
From Coq Require Import ZifyBool ZifyNat ZifyN.
Local Open Scope N_scope.
Local Opaque enc_tailkey enc_infokey enc_mkey enc_statkey enc_ptrkey enc_shard be le lex.

(** *** commit_messages *)
Lemma commit_ptrs ps : forall st, st_wf st -> NoDup (akeys ps) ->
  Forall (fun e => sh_ok (fst e) /\ pv_ok (snd e)) ps ->
  st_wf (commit_messages ps st) /\
  forall s, sh_ok s -> ptr_at (commit_messages ps st) s =
    match aget sh_eqb s ps with Some v => Some v | None => ptr_at st s end.
Proof.
  induction ps as [|[s0 v0] ps IH]; intros st Hwf Hnd HF.
  - split; [|reflexivity]. destruct st; exact Hwf.
  - inversion Hnd as [|? ? Hni Hnd']; subst. inversion HF as [|? ? [Hs0 Hv0] HF']; subst. cbn [fst snd] in *.
    set (st1 := ST (st_msgs st) (st_stats st) (st_tails st) (st_infos st)
       (kv_put (enc_ptrkey s0) (enc_ptrval v0) (st_ptrs st)) (st_mc st)).
    change (commit_messages ((s0, v0) :: ps) st) with (commit_messages ps st1).
    assert (Hwf1 : st_wf st1).
    { destruct Hwf. split; auto; cbn [st_ptrs st1].
      - now apply kv_put_sorted.
      - rewrite Forall_forall in *. intros e He. apply kv_put_in in He as [->|He]; auto. exists s0, v0. auto. }
    destruct (IH st1 Hwf1 Hnd' HF') as [A B]. split; auto.
    intros s Hs. rewrite B by auto. cbn [aget].
    assert (Ep : ptr_at st1 s = if sh_eqb s s0 then Some v0 else ptr_at st s).
    { unfold ptr_at. cbn [st1 st_ptrs]. rewrite kv_get_put by apply Hwf.
      destruct (sh_eqb_spec s s0) as [->|Hne].
      - rewrite lex_refl. rewrite <- (app_nil_r (enc_ptrval v0)). now rewrite dec_enc_ptrval.
      - destruct (lex (enc_ptrkey s) (enc_ptrkey s0)) eqn:E; auto.
        apply lex_eq in E. apply enc_shard_inj in E; auto. congruence. }
    rewrite Ep. destruct (sh_eqb_spec s s0) as [->|Hne]; auto.
    replace (aget sh_eqb s0 ps) with (@None ptrval); auto.
    symmetry. now apply (aget_none sh_eqb sh_eqb_spec).
Qed.

Lemma commit_other ps st :
  st_msgs (commit_messages ps st) = st_msgs st /\ st_stats (commit_messages ps st) = st_stats st /\
  st_tails (commit_messages ps st) = st_tails st /\ st_infos (commit_messages ps st) = st_infos st.
Proof. cbn; auto. Qed.

(** *** the loop over the top blocks *)

Lemma merge_gc_spec pt : forall gc, NoDup (akeys gc) ->
  NoDup (akeys (merge_gc pt gc)) /\
  (forall s k, aget sh_eqb s (merge_gc pt gc) = Some k -> aget sh_eqb s gc = Some k \/ In (s, k) pt) /\
  (forall s k0, aget sh_eqb s gc = Some k0 -> exists k, aget sh_eqb s (merge_gc pt gc) = Some k /\ qk_leb k k0 = true) /\
  (forall s k0, In (s, k0) pt -> exists k, aget sh_eqb s (merge_gc pt gc) = Some k /\ qk_leb k k0 = true).
Proof.
  induction pt as [|[s0 k0] pt IH]; intros gc Hnd.
  - cbn. repeat split; auto. intros s k H; exists k; split; auto; apply qk_leb_refl. intros s k [].
  - unfold merge_gc. cbn [fold_left fst snd].
    set (gc1 := match aget sh_eqb s0 gc with
       | Some last => if qk_ltb k0 last then aset sh_eqb s0 k0 gc else gc
       | None => aset sh_eqb s0 k0 gc end).
    change (fold_left _ pt gc1) with (merge_gc pt gc1).
    assert (Hnd1 : NoDup (akeys gc1)).
    { subst gc1. destruct (aget sh_eqb s0 gc); [destruct (qk_ltb k0 q)|]; auto; now apply (aset_nodup sh_eqb sh_eqb_spec). }
    assert (H1 : forall s, aget sh_eqb s gc1 = if sh_eqb s s0 then
         Some (match aget sh_eqb s0 gc with Some last => if qk_ltb k0 last then k0 else last | None => k0 end) else aget sh_eqb s gc).
    { intros s. subst gc1. destruct (aget sh_eqb s0 gc) as [last|] eqn:E; [destruct (qk_ltb k0 last)|];
        rewrite ?(aget_aset sh_eqb sh_eqb_spec); auto; destruct (sh_eqb_spec s s0); subst; auto. }
    destruct (IH gc1 Hnd1) as (A & B & C & D). split; auto. split; [|split].
    + intros s k E. apply B in E as [E|E]; [|right; now right].
      rewrite H1 in E. destruct (sh_eqb_spec s s0) as [->|]; auto. injection E as <-.
      destruct (aget sh_eqb s0 gc) as [last|]; [destruct (qk_ltb k0 last)|]; auto; right; now left.
    + intros s k E. destruct (sh_eqb_spec s s0) as [->|Hne].
      * specialize (H1 s0). rewrite sh_eqb_refl, E in H1. destruct (C _ _ H1) as (k' & E' & L). exists k'. split; auto.
        destruct (qk_ltb k0 k) eqn:F; auto. qk.
      * apply C. rewrite H1. destruct (sh_eqb_spec s s0); [congruence|auto].
    + intros s k [E|E]; [|now apply D]. injection E as <- <-.
      specialize (H1 s0). rewrite sh_eqb_refl in H1. destruct (C _ _ H1) as (k' & E' & L). exists k'. split; auto.
      destruct (aget sh_eqb s0 gc) as [last|]; auto. destruct (qk_ltb k0 last) eqn:F; auto. qk.
Qed.

Lemma commit_none z st tops : fold_left (commit_step z st) tops None = None.
Proof. induction tops; auto. Qed.

Lemma commit_fold z st tops : forall ps gc nps ngc, NoDup (akeys ps) -> NoDup (akeys gc) ->
  fold_left (commit_step z st) tops (Some (ps, gc)) = Some (nps, ngc) ->
  NoDup (akeys nps) /\ NoDup (akeys ngc) /\
  (forall s v, aget sh_eqb s nps = Some v <-> aget sh_eqb s ps = Some v \/
     exists b d, In b tops /\ tb_shard b = s /\ found st b d /\ v = PV (di_max d) (di_seqno d)) /\
  (forall s k, aget sh_eqb s ngc = Some k -> aget sh_eqb s gc = Some k \/
     exists b d, In b tops /\ found st b d /\ In (s, k) (di_processed d)) /\
  (forall s k0, aget sh_eqb s gc = Some k0 -> exists k, aget sh_eqb s ngc = Some k /\ qk_leb k k0 = true) /\
  (forall b d s k0, In b tops -> found st b d -> In (s, k0) (di_processed d) ->
     exists k, aget sh_eqb s ngc = Some k /\ qk_leb k k0 = true) /\
  (forall b, In b tops -> tb_updated b = true -> z < tb_ref b -> exists d, found st b d).
Proof.
  induction tops as [|b tops IH]; intros ps gc nps ngc Hp Hg; cbn [fold_left].
  - intros E; injection E as <- <-. repeat split; auto.
    + intros [E|(b & d & [] & _)]; auto.
    + intros s k E; exists k; split; auto; apply qk_leb_refl.
    + intros b d s k [].
    + intros b [].
  - destruct (commit_step z st (Some (ps, gc)) b) as [[ps1 gc1]|] eqn:Es; [|rewrite commit_none; discriminate].
    intros E. unfold commit_step in Es.
    destruct (kv_get (enc_infokey (IK (tb_shard b) (tb_seqno b))) (st_infos st)) as [d|] eqn:Ed.
    + change (found st b d) in Ed.
      destruct (amem sh_eqb (tb_shard b) ps) eqn:Em; [discriminate|].
      unfold amem in Em. destruct (aget sh_eqb (tb_shard b) ps) eqn:Eg; [discriminate|].
      injection Es as <- <-.
      destruct (merge_gc_spec (di_processed d) gc Hg) as (G1 & G2 & G3 & G4).
      apply IH in E; auto; [|now apply (aset_nodup sh_eqb sh_eqb_spec)].
      destruct E as (A & B & C & D & F & G & H). split; auto. split; auto. split; [|split; [|split; [|split]]].
      * intros s v. rewrite C, (aget_aset sh_eqb sh_eqb_spec). destruct (sh_eqb_spec s (tb_shard b)) as [->|Hne]; split.
        -- intros [E|(b' & d' & Hb & Hs & Hf & ->)]; [injection E as <-|].
           ++ right. exists b, d. cbn; auto.
           ++ right. exists b', d'. cbn; auto.
        -- intros [E|(b' & d' & [<-|Hb] & Hs & Hf & ->)]; [congruence| |].
           ++ left. unfold found in *. congruence.
           ++ right. exists b', d'. auto.
        -- intros [E|(b' & d' & Hb & Hs & Hf & ->)]; auto. right. exists b', d'. cbn; auto.
        -- intros [E|(b' & d' & [<-|Hb] & Hs & Hf & ->)]; auto; [congruence|]. right. exists b', d'. auto.
      * intros s k E. apply D in E as [E|(b' & d' & Hb & E)].
        -- apply G2 in E as [E|E]; auto. right. exists b, d. cbn; auto.
        -- right. exists b', d'. cbn; intuition.
      * intros s k E. apply G3 in E as (k1 & E1 & L1). apply F in E1 as (k2 & E2 & L2). exists k2; split; auto.
        eapply qk_leb_trans; eauto.
      * intros b' d' s k0 [<-|Hb] Hf Hi; [|now apply (G b' d')].
        unfold found in *. rewrite Ed in Hf. injection Hf as <-.
        apply G4 in Hi as (k1 & E1 & L1). apply F in E1 as (k2 & E2 & L2). exists k2; split; auto.
        eapply qk_leb_trans; eauto.
      * intros b' [<-|Hb] Hu Hz; eauto.
    + destruct (tb_updated b && (z <? tb_ref b)) eqn:Eu; [discriminate|]. injection Es as <- <-.
      assert (Hnf : forall d, ~ found st b d) by (unfold found, info_at; intros d; rewrite Ed; discriminate).
      apply IH in E; auto.
      destruct E as (A & B & C & D & F & G & H). split; auto. split; auto. split; [|split; [|split; [|split]]]; auto.
      * intros s v. rewrite C. split; (intros [E|(b' & d' & Hb & E)]; auto; right; exists b', d').
        -- cbn; intuition.
        -- destruct Hb as [<-|Hb]; auto. exfalso. apply (Hnf d'). tauto.
      * intros s k E. apply D in E as [E|(b' & d' & Hb & E)]; auto. right. exists b', d'. cbn; intuition.
      * intros b' d' s k0 [<-|Hb] Hf; [now apply Hnf in Hf|]. eapply G; eauto.
      * intros b' [<-|Hb] Hu Hz; eauto. lia.
Qed.

Lemma ps_eqb_spec a b : reflect (a = b) (ps_eqb a b).
Proof.
  unfold ps_eqb. destruct a as [p s], b as [p' s']. cbn [fst snd].
  destruct (N.eqb_spec p p'), (sh_eqb_spec s s'); cbn [andb]; constructor; congruence.
Qed.

Lemma update_until_spec parts gc : forall u, NoDup (akeys u) -> NoDup (akeys gc) ->
  NoDup (akeys (update_until parts gc u)) /\
  forall p s, aget ps_eqb (p, s) (update_until parts gc u) =
    if existsb (N.eqb p) parts then
      match aget sh_eqb s gc with Some k => Some k | None => aget ps_eqb (p, s) u end
    else aget ps_eqb (p, s) u.
Proof.
  assert (Inner : forall (s0 : shard) (k0 : qkey) (u : amap (N * shard) qkey), NoDup (akeys u) ->
     let u' := fold_left (fun u p => aset ps_eqb (p, s0) k0 u) parts u in
     NoDup (akeys u') /\ forall p s, aget ps_eqb (p, s) u' =
       if existsb (N.eqb p) parts && sh_eqb s s0 then Some k0 else aget ps_eqb (p, s) u).
  { intros s0 k0. induction parts as [|p0 parts IH]; intros u Hu; cbn [fold_left existsb].
    - cbn. auto.
    - cbv zeta in *. destruct (IH (aset ps_eqb (p0, s0) k0 u)) as [A B].
      { now apply (aset_nodup ps_eqb ps_eqb_spec). }
      split; auto. intros p s. rewrite B, (aget_aset ps_eqb ps_eqb_spec). unfold ps_eqb. cbn [fst snd].
      destruct (p =? p0), (existsb (N.eqb p) parts), (sh_eqb s s0); auto. }
  induction gc as [|[s0 k0] gc IH]; intros u Hu Hg.
  - cbn. split; auto. intros. now destruct (existsb _ _).
  - inversion Hg as [|? ? Hni Hg']; subst. unfold update_until. cbn [fold_left fst snd].
    destruct (Inner s0 k0 u Hu) as [A B]. set (u1 := fold_left _ parts u) in *.
    change (fold_left _ gc u1) with (update_until parts gc u1).
    destruct (IH u1 A Hg') as [C D]. split; auto.
    intros p s. rewrite D, B. cbn [aget]. destruct (existsb (N.eqb p) parts); cbn [andb]; auto.
    destruct (sh_eqb_spec s s0) as [->|]; auto.
    replace (aget sh_eqb s0 gc) with (@None qkey); auto. symmetry. now apply (aget_none sh_eqb sh_eqb_spec).
Qed.

(** *** invariant of the whole queue state *)
Record q_inv (q : qstate) : Prop := {
  qi_st : st_inv (q_st q);
  qi_until : NoDup (akeys (q_until q));
  qi_ok : Forall (fun e => fst (fst e) < 2 ^ 16 /\ sh_ok (snd (fst e)) /\ qk_ok (snd e)) (q_until q) }.

Lemma q_init_inv z : q_inv (q_init z).
Proof. split; cbn; try constructor; try apply st_empty_inv. Qed.



Lemma st_inv_ptrs st nps : st_inv st -> NoDup (akeys nps) ->
  Forall (fun e => sh_ok (fst e)) nps ->
  (forall s v, sh_ok s -> aget sh_eqb s nps = Some v -> exists n d, n < 2 ^ 32 /\ info_at st s n = Some d /\ v = PV (di_max d) (di_seqno d)) ->
  st_inv (commit_messages nps st) /\
  forall s, sh_ok s -> ptr_at (commit_messages nps st) s =
    match aget sh_eqb s nps with Some v => Some v | None => ptr_at st s end.
Proof.
  intros Hinv Hnd Hok Hv. pose proof (inv_wf _ Hinv) as Hwf.
  assert (HF : Forall (fun e => sh_ok (fst e) /\ pv_ok (snd e)) nps).
  { rewrite Forall_forall in *. intros [s v] Hin. cbn. specialize (Hok _ Hin). cbn in Hok. split; auto.
    apply (aget_in sh_eqb sh_eqb_spec _ _ _ Hnd) in Hin. destruct (Hv _ _ Hok Hin) as (n & d & Hn & Hi & ->).
    destruct (inv_info _ _ _ _ Hinv Hok Hn Hi) as (A & B & C & _). split; cbn; auto. now rewrite B. }
  destruct (commit_ptrs nps st Hwf Hnd HF) as [W P]. split; auto.
  assert (Hp : forall s p, sh_ok s -> ptr_at (commit_messages nps st) s = Some p ->
     (exists n d, n < 2 ^ 32 /\ info_at st s n = Some d /\ p = PV (di_max d) (di_seqno d)) \/ ptr_at st s = Some p).
  { intros s p Hs E. rewrite P in E by auto. destruct (aget sh_eqb s nps) eqn:Eg; auto. injection E as <-. left. eauto. }
  split; auto.
  - exact (inv_infok _ Hinv).
  - intros s p Hs E. apply Hp in E as [(n & d & Hn & Hi & ->)|E]; auto.
    + cbn. eapply inv_info; eauto.
    + eapply inv_ptrlt; eauto.
  - exact (inv_it _ Hinv).
  - exact (inv_ti _ Hinv).
  - exact (inv_mono _ Hinv).
  - intros s p n d Hs Hn E Ei. change (info_at st s n = Some d) in Ei.
    apply Hp in E as [(n0 & d0 & Hn0 & Hi & ->)|E]; auto.
    + cbn. destruct (inv_info _ _ _ _ Hinv Hs Hn0 Hi) as (_ & -> & _).
      split; [|split]; intros L.
      * destruct (N.eq_dec n n0) as [->|]; [rewrite Hi in Ei; injection Ei as ->; apply qk_leb_refl|].
        assert (L' : n < n0) by lia. pose proof (inv_mono _ Hinv _ _ _ _ _ Hs Hn Hn0 L' Ei Hi). qk.
      * exact (inv_mono _ Hinv _ _ _ _ _ Hs Hn0 Hn L Hi Ei).
      * subst n0. congruence.
    + eapply inv_ptr; eauto.
Qed.

Lemma set_mc_inv b st : st_inv st -> st_inv (set_last_mc b st).
Proof. intros [[W1 W2 W3 W4 W5 W6 W7] A B C D E F]. split; auto. split; auto. Qed.

(** the complete effect of commit_diff *)
Lemma commit_diff_spec tops parts q q' : q_inv q -> Forall top_ok tops -> Forall (fun p => p < 2 ^ 16) parts ->
  commit_diff tops parts q = Ok q' ->
  q_inv q' /\ q_zero q' = q_zero q /\ q_gc q' = q_gc q /\
  (forall p s k, msg_at (q_st q') p s k = msg_at (q_st q) p s k) /\
  (forall s n, info_at (q_st q') s n = info_at (q_st q) s n) /\
  (mc_newer tops (q_st q) = false -> q' = q) /\
  (mc_newer tops (q_st q) = true ->
    (forall b, In b tops -> tb_updated b = true -> q_zero q < tb_ref b -> exists d, found (q_st q) b d) /\
    (forall s, sh_ok s -> forall v, ptr_at (q_st q') s = Some v <->
       (exists b d, In b tops /\ tb_shard b = s /\ found (q_st q) b d /\ v = PV (di_max d) (tb_seqno b)) \/
       ((forall b d, In b tops -> tb_shard b = s -> ~ found (q_st q) b d) /\ ptr_at (q_st q) s = Some v)) /\
    (forall p s k, aget ps_eqb (p, s) (q_until q') = Some k ->
       (In p parts /\ (exists b d, In b tops /\ found (q_st q) b d /\ In (s, k) (di_processed d)) /\
          (forall b d k', In b tops -> found (q_st q) b d -> In (s, k') (di_processed d) -> qk_leb k k' = true)) \/
       (aget ps_eqb (p, s) (q_until q) = Some k)) /\
    (forall p s, In p parts -> (exists b d k', In b tops /\ found (q_st q) b d /\ In (s, k') (di_processed d)) ->
       exists k, aget ps_eqb (p, s) (q_until q') = Some k /\
          (exists b d, In b tops /\ found (q_st q) b d /\ In (s, k) (di_processed d)) /\
          (forall b d k', In b tops -> found (q_st q) b d -> In (s, k') (di_processed d) -> qk_leb k k' = true))).
Proof.
  intros [Hinv Hu Hok] Ht Hp. unfold commit_diff, mc_newer, mc_of.
  destruct (find _ tops) as [mc|] eqn:Ef; [|discriminate].
  destruct (read_ptrs_spec (q_st q) (inv_wf _ Hinv)) as (ps & Er & Hnd & Hg & _). rewrite Er.
  assert (Hmc : top_ok mc). { apply find_some in Ef as [Ef _]. rewrite Forall_forall in Ht. auto. }
  rewrite Hg by apply Hmc.
  assert (Hskip : (match ptr_at (q_st q) (tb_shard mc) with Some p => pv_seqno p <? tb_seqno mc | None => true end) =
     negb (match ptr_at (q_st q) (tb_shard mc) with Some p => tb_seqno mc <=? pv_seqno p | None => false end)).
  { destruct (ptr_at _ _); auto. lia. }
  rewrite Hskip. destruct (match ptr_at (q_st q) (tb_shard mc) with Some p => tb_seqno mc <=? pv_seqno p | None => false end).
  { intros E; injection E as <-. cbn [negb]. split; [split; auto|]. do 4 (split; [auto; fail|]). split; [auto|discriminate]. }
  cbn [negb]. destruct (fold_left _ tops _) as [[nps gc]|] eqn:Efold; [|discriminate].
  intros E; injection E as <-.
  apply commit_fold in Efold; [|constructor|constructor].
  destruct Efold as (A & B & C & D & _ & G & H).
  rewrite Forall_forall in Ht.
  assert (Hfi : forall b d, In b tops -> found (q_st q) b d -> di_seqno d = tb_seqno b).
  { intros b d Hb Hf. destruct (Ht _ Hb) as [Hb1 Hb2]. now destruct (inv_info _ _ _ _ Hinv Hb1 Hb2 Hf) as (_ & -> & _). }
  assert (Hptr : st_inv (commit_messages nps (q_st q)) /\
     forall s, sh_ok s -> ptr_at (commit_messages nps (q_st q)) s = match aget sh_eqb s nps with Some v => Some v | None => ptr_at (q_st q) s end).
  { apply st_inv_ptrs; auto.
    - rewrite Forall_forall. intros [s v] Hin. cbn. apply (aget_in sh_eqb sh_eqb_spec _ _ _ A) in Hin.
      apply C in Hin as [Hin|(b & d & Hb & <- & _)]; [discriminate|]. now apply Ht.
    - intros s v Hs E. apply C in E as [E|(b & d & Hb & <- & Hf & ->)]; [discriminate|].
      exists (tb_seqno b), d. repeat split; auto. now apply Ht. }
  destruct Hptr as [Hinv' Hptr].
  destruct (update_until_spec parts gc (q_until q) Hu B) as [U1 U2].
  assert (Hgc : forall s k, aget sh_eqb s gc = Some k -> exists b d, In b tops /\ found (q_st q) b d /\ In (s, k) (di_processed d)).
  { intros s k E. apply D in E as [E|E]; [discriminate|auto]. }
  split.
  { split; auto.
    - now apply set_mc_inv.
    - cbn [q_until]. rewrite Forall_forall in *. intros [[p s] k] Hin. cbn [fst snd].
      apply (aget_in ps_eqb ps_eqb_spec _ _ _ U1) in Hin. rewrite U2 in Hin.
      assert (Old : aget ps_eqb (p, s) (q_until q) = Some k -> p < 2 ^ 16 /\ sh_ok s /\ qk_ok k).
      { intros E. apply (aget_some_in ps_eqb ps_eqb_spec) in E. now specialize (Hok _ E). }
      destruct (existsb (N.eqb p) parts) eqn:Ep; [|auto].
      destruct (aget sh_eqb s gc) as [k'|] eqn:Eg; [|auto]. injection Hin as ->.
      apply existsb_exists in Ep as (p' & Hp' & Epp). apply N.eqb_eq in Epp. subst p'.
      split; [auto|]. apply Hgc in Eg as (b & d & Hb & Hf & Hi). destruct (Ht _ Hb) as [Hb1 Hb2].
      destruct (inv_info _ _ _ _ Hinv Hb1 Hb2 Hf) as (_ & _ & _ & _ & HF). rewrite Forall_forall in HF.
      apply (HF _ Hi). }
  split; auto. split; auto. split; auto. split; auto. split; [discriminate|]. intros _.
  split; auto. split; [|split].
  - intros s Hs v. change (ptr_at (q_st (QS (set_last_mc (tb_shard mc, tb_seqno mc) (commit_messages nps (q_st q))) (update_until parts gc (q_until q)) (q_gc q) (q_zero q))) s)
      with (ptr_at (commit_messages nps (q_st q)) s). rewrite Hptr by auto.
    destruct (aget sh_eqb s nps) as [v'|] eqn:Eg.
    + pose proof Eg as Eg'. apply C in Eg as [E|(b & d & Hb & <- & Hf & ->)]; [discriminate|]. split.
      * intros E; injection E as <-. left. exists b, d. rewrite <- (Hfi b d) by auto. auto.
      * intros [(b' & d' & Hb' & Hs' & Hf' & ->)|[Hn _]]; [|exfalso; eapply Hn; eauto].
        rewrite <- (Hfi b' d') by auto.
        assert (E : aget sh_eqb (tb_shard b) nps = Some (PV (di_max d') (di_seqno d'))) by (apply C; right; eauto 10).
        congruence.
    + split.
      * intros E. right. split; auto. intros b d Hb Hs' Hf.
        assert (E' : aget sh_eqb s nps = Some (PV (di_max d) (di_seqno d))) by (apply C; right; eauto 10). congruence.
      * intros [(b' & d' & Hb' & Hs' & Hf' & ->)|[_ E]]; auto.
        assert (E' : aget sh_eqb s nps = Some (PV (di_max d') (di_seqno d'))) by (apply C; right; eauto 10). congruence.
  - intros p s k E. cbn [q_until] in E. rewrite U2 in E.
    destruct (existsb (N.eqb p) parts) eqn:Ep; auto. destruct (aget sh_eqb s gc) as [k'|] eqn:Eg; auto.
    injection E as ->. left. apply existsb_exists in Ep as (p' & Hp' & Epp). apply N.eqb_eq in Epp. subst p'.
    repeat split; auto. intros b d k' Hb Hf Hi. destruct (G _ _ _ _ Hb Hf Hi) as (k2 & E2 & L). congruence.
  - intros p s Hin (b0 & d0 & k0 & Hb0 & Hf0 & Hi0). destruct (G _ _ _ _ Hb0 Hf0 Hi0) as (k & Ek & L).
    exists k. cbn [q_until]. rewrite U2.
    replace (existsb (N.eqb p) parts) with true.
    2:{ symmetry. apply existsb_exists. exists p. split; auto. apply N.eqb_refl. }
    rewrite Ek. split; auto. split; auto.
    intros b d k' Hb Hf Hi. destruct (G _ _ _ _ Hb Hf Hi) as (k2 & E2 & L2). congruence.
Qed.

(** *** GC *)
Lemma gc_range_ok p s b : p < 2 ^ 16 -> sh_ok s -> qk_ok b -> range_ok (QR s p (QK 0 0) b).
Proof.
  intros. repeat split; cbn; try apply H0; try apply H1; auto. rewrite qk_leb_iff. cbn. lia.
Qed.

Lemma gc_fold l : forall st gcs, st_inv st ->
  Forall (fun e => fst (fst e) < 2 ^ 16 /\ sh_ok (snd (fst e)) /\ qk_ok (snd e)) l ->
  let st' := fst (fold_left gc_one l (st, gcs)) in
  st_inv st' /\ (forall s, ptr_at st' s = ptr_at st s) /\
  (forall p s k, mk_ok (MK p s k) -> msg_at st' p s k = msg_at st p s k \/
      (msg_at st' p s k = None /\ exists b, In ((p, s), b) l /\ qk_leb k b = true)) /\
  (forall s n d, sh_ok s -> n < 2 ^ 32 -> info_at st s n = Some d -> info_at st' s n = Some d \/
      (info_at st' s n = None /\ exists p b, In ((p, s), b) l /\ qk_leb (di_max d) b = true)) /\
  (forall s n, sh_ok s -> n < 2 ^ 32 -> info_at st s n = None -> info_at st' s n = None).
Proof.
  induction l as [|[[p0 s0] b0] l IH]; intros st gcs Hinv HF; cbv zeta.
  - cbn. split; auto.
  - inversion HF as [|? ? (Hp0 & Hs0 & Hb0) HF']; subst. cbn [fst snd] in *. cbn [fold_left].
    destruct (gc_one (st, gcs) ((p0, s0), b0)) as [st1 gcs1] eqn:Eg.
    assert (Hstep : st_inv st1 /\ (forall s, ptr_at st1 s = ptr_at st s) /\
      (forall p s k, mk_ok (MK p s k) -> msg_at st1 p s k = msg_at st p s k \/
         (msg_at st1 p s k = None /\ p = p0 /\ s = s0 /\ qk_leb k b0 = true)) /\
      (forall s n, sh_ok s -> n < 2 ^ 32 -> info_at st1 s n = info_at st s n \/
         (info_at st1 s n = None /\ s = s0 /\ exists d, info_at st s n = Some d /\ qk_leb (di_max d) b0 = true))).
    { unfold gc_one in Eg. cbn [fst snd] in Eg.
      destruct (match aget ps_eqb (p0, s0) gcs with Some last => qk_ltb last b0 | None => true end).
      - pose proof (gc_range_ok p0 s0 b0 Hp0 Hs0 Hb0) as Hr.
        destruct (delete_total [QR s0 p0 (QK 0 0) b0] st (inv_wf _ Hinv)) as (st2 & Ed & _).
        rewrite Ed in Eg. injection Eg as <- <-.
        assert (HR : Forall range_ok [QR s0 p0 (QK 0 0) b0]) by (constructor; auto).
        split; [eapply delete_inv; eauto|]. split; [|split].
        + intros s. apply ptr_at_same. eapply delete_ptrs; eauto.
        + intros p s k Hk. rewrite (delete_msgs _ _ _ p s k (inv_wf _ Hinv) HR Hk Ed).
          cbn [existsb]. rewrite orb_false_r. unfold covers_msg. cbn [qr_part qr_shard qr_from qr_to].
          destruct ((p0 =? p) && sh_eqb s0 s && in_keys (QK 0 0) b0 k) eqn:Ec; auto. right.
          rewrite !andb_true_iff in Ec. destruct Ec as [[E1 E2] E3]. apply N.eqb_eq in E1.
          destruct (sh_eqb_spec s0 s); [|discriminate]. unfold in_keys in E3. apply andb_true_iff in E3. intuition.
        + intros s n Hs Hn. rewrite (delete_infos _ _ _ s n Hinv HR Hs Hn Ed).
          destruct (info_at st s n) as [d|]; auto. unfold cover_info. cbn [existsb]. rewrite orb_false_r.
          unfold covers_tail. cbn [qr_shard qr_from qr_to].
          destruct (sh_eqb s0 s && in_keys (QK 0 0) b0 (di_max d)) eqn:Ec; auto. right.
          rewrite !andb_true_iff in Ec. destruct Ec as [E2 E3].
          destruct (sh_eqb_spec s0 s); [|discriminate]. unfold in_keys in E3. apply andb_true_iff in E3.
          split; auto. split; auto. exists d. intuition.
      - injection Eg as <- <-. split; auto. }
    destruct Hstep as (S1 & S2 & S3 & S4).
    destruct (IH st1 gcs1 S1 HF') as (A & B & C & D & F). cbv zeta in *.
    split; auto. split; [intros s; now rewrite B|]. split; [|split].
    + intros p s k Hk. destruct (C p s k Hk) as [->|(E & b & Hb & L)].
      * destruct (S3 p s k Hk) as [->|(E & -> & -> & L)]; auto. right. split; auto. exists b0. cbn; auto.
      * right. split; auto. exists b. cbn; auto.
    + intros s n d Hs Hn Ei. destruct (S4 s n Hs Hn) as [E|(E & -> & d' & Ed' & L)].
      * rewrite <- E in Ei. destruct (D _ _ _ Hs Hn Ei) as [?|(? & p & b & Hb & L)]; auto.
        right. split; auto. exists p, b. cbn; auto.
      * right. split; [now apply F|]. exists p0, b0. rewrite Ed' in Ei. injection Ei as <-. cbn; auto.
    + intros s n Hs Hn Ei. apply F; auto. destruct (S4 s n Hs Hn) as [E|(E & _)]; congruence.
Qed.

Lemma gc_task_spec q : q_inv q ->
  q_inv (gc_task q) /\ (forall s, ptr_at (q_st (gc_task q)) s = ptr_at (q_st q) s) /\
  (forall p s k, mk_ok (MK p s k) -> msg_at (q_st (gc_task q)) p s k = msg_at (q_st q) p s k \/
      (msg_at (q_st (gc_task q)) p s k = None /\ exists b, aget ps_eqb (p, s) (q_until q) = Some b /\ qk_leb k b = true)) /\
  (forall s n, sh_ok s -> n < 2 ^ 32 -> info_at (q_st (gc_task q)) s n = info_at (q_st q) s n \/
      (info_at (q_st (gc_task q)) s n = None /\ exists d p b, info_at (q_st q) s n = Some d /\
          aget ps_eqb (p, s) (q_until q) = Some b /\ qk_leb (di_max d) b = true)) /\
  q_until (gc_task q) = q_until q /\ q_zero (gc_task q) = q_zero q.
Proof.
  intros [Hinv Hu Hok]. unfold gc_task.
  destruct (fold_left gc_one (q_until q) (q_st q, q_gc q)) as [st' gcs'] eqn:E.
  pose proof (gc_fold (q_until q) (q_st q) (q_gc q) Hinv Hok) as G. rewrite E in G. cbn [fst] in G. cbv zeta in G.
  destruct G as (A & B & C & D & F). cbn [q_st q_until q_zero].
  split; [split; auto|]. split; auto. split; [|split; auto].
  - intros p s k Hk. destruct (C p s k Hk) as [?|(En & b & Hb & L)]; auto. right. split; auto. exists b. split; auto.
    now apply (aget_in ps_eqb ps_eqb_spec).
  - intros s n Hs Hn. destruct (info_at (q_st q) s n) as [d|] eqn:Ei.
    + destruct (D _ _ _ Hs Hn Ei) as [?|(En & p & b & Hb & L)]; auto. right. split; auto. exists d, p, b. split; auto. split; auto.
      now apply (aget_in ps_eqb ps_eqb_spec).
    + left. now apply F.
Qed.
