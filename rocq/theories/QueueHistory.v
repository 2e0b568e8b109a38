(** Histories of queue operations: reachable states, pointer monotonicity, survival of messages. *)
From Verif Require Export QueueStoreHist.
From Coq Require Import ZifyBool ZifyNat ZifyN.
Local Open Scope N_scope.
Local Opaque enc_tailkey enc_infokey enc_mkey enc_statkey enc_ptrkey enc_shard be le lex.

Lemma continues_reach z tr q ext q' : reach z tr q -> continues z tr q ext q' -> reach z (ext ++ tr) q'.
Proof. intros H. induction 1; cbn; auto. constructor; auto. Qed.

Lemma apply_store d s n h ds c st st' : apply_diff d s n h ds c st = Applied st' ->
  st' = write_diff s n ds h d st /\
  info_at st s n = None /\
  (forall ps, read_ptrs st = Some ps -> forall p mn m r, aget sh_eqb s ps = Some p -> qd_msgs d = (mn, m) :: r -> qk_ltb (pv_key p) mn = true) /\
  (exists ps, read_ptrs st = Some ps).
Proof.
  unfold apply_diff. fold (info_at st s n). destruct (info_at st s n) as [old|].
  { destruct (di_hash old =? h); discriminate. }
  match goal with |- context [match ?x with Some out => out | None => _ end] => destruct x as [out|] eqn:Eseq end.
  { intros ->. destruct c as [z|]; [|discriminate]. destruct (last_applied s st); [|discriminate].
    destruct (get_diff_info s n0 z st) as [[ld|]|]; try discriminate.
    destruct (n <=? di_seqno ld); [discriminate|]. destruct (negb _); discriminate. }
  destruct (read_ptrs st) as [ps|]; [|discriminate].
  intros E. split; [|split; [|split]]; auto; try (now exists ps).
  - destruct (match aget sh_eqb s ps with Some p => match qd_msgs d with [] => false | (mn, _) :: _ => qk_leb mn (pv_key p) end | None => false end);
      [discriminate|]. now injection E.
  - intros ps' Eps p mn m r Eg Em. injection Eps as <-. rewrite Eg, Em in E.
    rewrite qk_ltb_leb. destruct (qk_leb mn (pv_key p)); [discriminate|reflexivity].
Qed.

(** messages of an accepted diff are strictly above the commit pointer *)
Lemma apply_above d s n h ds c st st' p : st_wf st -> diff_ok d s n ds ->
  apply_diff d s n h ds c st = Applied st' -> ptr_at st s = Some p ->
  forall k m, oget qk_cmp k (qd_msgs d) = Some m -> qk_ltb (pv_key p) k = true.
Proof.
  intros Hwf Hd E Ep k m Hk. destruct (apply_store _ _ _ _ _ _ _ _ E) as (_ & _ & Hm & [ps Eps]).
  destruct (read_ptrs_spec st Hwf) as (ps' & Eps' & _ & Hg & _). rewrite Eps in Eps'. injection Eps' as <-.
  rewrite <- Hg in Ep by apply (dk_s _ _ _ _ Hd).
  destruct (qd_msgs d) as [|[mn m0] r] eqn:Em; [discriminate|].
  pose proof (Hm ps Eps p mn m0 r Ep eq_refl) as L.
  pose proof (dk_sorted _ _ _ _ Hd) as Hso. rewrite Em in Hso. inversion Hso as [|? ? ? Hso' Hlt]; subst.
  cbn [oget] in Hk. destruct (qk_cmp k mn) eqn:Ec.
  - apply qk_cmp_eq in Ec. now subst.
  - discriminate.
  - apply qk_cmp_gt in Ec. qk.
Qed.

Lemma qstep_inv q o : q_inv q -> op_env q o -> q_inv (qstep q o).
Proof.
  intros Hq He. destruct o as [d s n h ds c|tops parts|parts tops| |]; cbn [qstep op_env] in *.
  - destruct He as [Hd Hc]. destruct (apply_diff d s n h ds c (q_st q)) as [st'| |] eqn:E; auto.
    destruct (apply_store _ _ _ _ _ _ _ _ E) as (-> & _). destruct Hq as [A B C]. split; auto. cbn [q_st].
    apply write_diff_inv; eauto.
  - destruct He as (Ht & Hp & _). destruct (commit_diff tops parts q) as [q'|] eqn:E; auto.
    eapply commit_diff_spec; eauto.
  - destruct He as (Hp & Ht). destruct Hq as [A B C].
    destruct (clear_spec (q_st q) parts tops A Hp Ht) as (st' & E & Hi & _). rewrite E. split; auto.
  - now apply gc_task_spec.
  - destruct Hq as [A B C]. split; cbn; auto; constructor.
Qed.

Lemma reach_inv z tr q : reach z tr q -> q_inv q.
Proof. induction 1. apply q_init_inv. now apply qstep_inv. Qed.

(** pointers only move forward *)
Lemma qstep_ptr q o s p : q_inv q -> op_env q o -> sh_ok s -> ptr_at (q_st q) s = Some p ->
  exists p', ptr_at (q_st (qstep q o)) s = Some p' /\ qk_leb (pv_key p) (pv_key p') = true /\ pv_seqno p <= pv_seqno p'.
Proof.
  intros Hq He Hs Ep.
  assert (Same : forall st', (forall s, ptr_at st' s = ptr_at (q_st q) s) ->
     exists p', ptr_at st' s = Some p' /\ qk_leb (pv_key p) (pv_key p') = true /\ pv_seqno p <= pv_seqno p').
  { intros st' H. exists p. rewrite H. split; auto. split; [apply qk_leb_refl|lia]. }
  destruct o as [d s0 n h ds c|tops parts|parts tops| |]; cbn [qstep op_env] in *.
  - destruct He as [Hd Hc]. destruct (apply_diff d s0 n h ds c (q_st q)) as [st'| |] eqn:E; try (apply Same; auto; fail).
    destruct (apply_store _ _ _ _ _ _ _ _ E) as (-> & _). cbn [q_st]. apply Same.
    apply write_diff_spec; auto. apply (inv_wf _ (qi_st _ Hq)).
  - destruct He as (Ht & Hp & Hm). destruct (commit_diff tops parts q) as [q'|] eqn:E; [|apply Same; auto].
    destruct (commit_diff_spec _ _ _ _ Hq Ht Hp E) as (_ & _ & _ & _ & _ & Hold & Hnew).
    destruct (mc_newer tops (q_st q)) eqn:Emc; [|rewrite Hold by auto; apply Same; auto].
    destruct (Hnew eq_refl) as (_ & Hptr & _). specialize (Hptr s Hs). specialize (Hm eq_refl).
    destruct (ptr_at (q_st q') s) as [v|] eqn:Ev.
    + exists v. split; auto. destruct (proj1 (Hptr v) eq_refl) as [(b & d & Hb & <- & Hf & ->)|[_ E']].
      * rewrite Forall_forall in Ht. destruct (Ht _ Hb) as [_ Hn].
        specialize (Hm b p Hb Ep). cbn [pv_key pv_seqno]. split; auto.
        pose proof (inv_ptr _ (qi_st _ Hq) _ _ _ _ Hs Hn Ep Hf) as (P1 & P2 & P3).
        destruct (N.eq_dec (pv_seqno p) (tb_seqno b)).
        -- rewrite P3 by auto. apply qk_leb_refl.
        -- assert (L : pv_seqno p < tb_seqno b) by lia. apply P2 in L. qk.
      * rewrite Ep in E'. injection E' as <-. split; [apply qk_leb_refl|lia].
    + exfalso.
      assert (Hex : (forall b d, In b tops -> tb_shard b = s -> ~ found (q_st q) b d)).
      { intros b d Hb Hs' Hf. assert (None = Some (PV (di_max d) (tb_seqno b))) by (apply Hptr; left; eauto 10). discriminate. }
      assert (None = Some p) by (apply Hptr; right; auto). discriminate.
  - destruct He as (Hp & Ht). destruct Hq as [A B C].
    destruct (clear_spec (q_st q) parts tops A Hp Ht) as (st' & E & _ & Hpt & _). rewrite E. apply Same. auto.
  - apply Same. now apply gc_task_spec.
  - apply Same; auto.
Qed.

(** *** scheduling of deletions *)

Lemma scheduled_mono tr tr' p s k : (forall e, In e tr -> In e tr') -> scheduled tr p s k -> scheduled tr' p s k.
Proof. intros H (q & tops & parts & Hin & Hr). exists q, tops, parts. auto. Qed.
Lemma scheduled_le tr p s k b : qk_leb k b = true -> scheduled tr p s b -> scheduled tr p s k.
Proof.
  intros L (q & tops & parts & Hin & Hx & Hp & He & Hall). exists q, tops, parts. repeat split; auto.
  intros b0 d k' Hb Hf Hi. eapply qk_leb_trans; eauto.
Qed.

Lemma until_scheduled z tr q : reach z tr q -> forall p s b, aget ps_eqb (p, s) (q_until q) = Some b -> scheduled tr p s b.
Proof.
  induction 1 as [|tr q o Hr IH He]; intros p s b E; [discriminate|].
  pose proof (reach_inv _ _ _ Hr) as Hq.
  assert (Old : aget ps_eqb (p, s) (q_until q) = Some b -> scheduled ((q, o) :: tr) p s b).
  { intros E'. eapply scheduled_mono; [|apply IH; eauto]. cbn; auto. }
  destruct o as [d s0 n h ds c|tops parts|parts tops| |]; cbn [qstep op_env] in *.
  - destruct (apply_diff d s0 n h ds c (q_st q)) as [st'| |]; auto.
  - destruct He as (Ht & Hp & Hm). destruct (commit_diff tops parts q) as [q'|] eqn:Ec; auto.
    destruct (commit_diff_spec _ _ _ _ Hq Ht Hp Ec) as (_ & _ & _ & _ & _ & Hold & Hnew).
    destruct (mc_newer tops (q_st q)) eqn:Emc; [|rewrite Hold in E by auto; auto].
    destruct (Hnew eq_refl) as (_ & _ & Hu & _). destruct (Hu _ _ _ E) as [(Hin & (b0 & d & Hb & Hf & Hi) & Hall)|]; auto.
    exists q, tops, parts. cbn [In]. split; auto. split; [congruence|]. split; auto. split; eauto 10.
  - destruct He as (Hp & Ht). destruct (clear_spec (q_st q) parts tops (qi_st _ Hq) Hp Ht) as (st' & Ec & _). rewrite Ec in E. auto.
  - destruct (gc_task_spec q Hq) as (_ & _ & _ & _ & Eu & _). rewrite Eu in E. auto.
  - discriminate.
Qed.

(** a message at or below the commit pointer of its shard is left alone by every step, unless a GC
    step removes it after it was scheduled *)
Lemma qstep_committed z tr q o p s k v : reach z tr q -> op_env q o -> mk_ok (MK p s k) ->
  msg_at (q_st q) p s k = Some v ->
  (exists pt, ptr_at (q_st q) s = Some pt /\ qk_leb k (pv_key pt) = true) ->
  msg_at (q_st (qstep q o)) p s k = Some v \/
  (o = OpGc /\ msg_at (q_st (qstep q o)) p s k = None /\ scheduled tr p s k).
Proof.
  intros Hr He Hk Hm (pt & Ept & L). pose proof (reach_inv _ _ _ Hr) as Hq.
  assert (Hs : sh_ok s) by apply Hk.
  destruct o as [d s0 n h ds c|tops parts|parts tops| |]; cbn [qstep op_env] in *; auto.
  - left. destruct He as [Hd Hc]. destruct (apply_diff d s0 n h ds c (q_st q)) as [st'| |] eqn:E; auto.
    destruct (apply_store _ _ _ _ _ _ _ _ E) as (-> & _). cbn [q_st].
    destruct (write_diff_spec d s0 n h ds (q_st q) (inv_wf _ (qi_st _ Hq)) Hd) as (_ & _ & W & _).
    rewrite W by auto. destruct (oget qk_cmp k (qd_msgs d)) as [m|] eqn:Eo; auto.
    destruct (sh_eqb_spec s0 s) as [->|]; cbn [andb]; auto.
    pose proof (apply_above _ _ _ _ _ _ _ _ _ (inv_wf _ (qi_st _ Hq)) Hd E Ept k m Eo). qk.
  - left. destruct He as (Ht & Hp & _). destruct (commit_diff tops parts q) as [q'|] eqn:E; auto.
    destruct (commit_diff_spec _ _ _ _ Hq Ht Hp E) as (_ & _ & _ & M & _). now rewrite M.
  - left. destruct He as (Hp & Ht).
    destruct (clear_spec (q_st q) parts tops (qi_st _ Hq) Hp Ht) as (st' & E & _ & _ & _ & M & _). rewrite E. cbn [q_st].
    rewrite M by auto. unfold discarded. rewrite Ept.
    replace (qk_ltb (pv_key pt) k) with false; [now rewrite andb_false_r|].
    symmetry. rewrite qk_ltb_leb, L. reflexivity.
  - destruct (gc_task_spec q Hq) as (_ & _ & M & _). destruct (M p s k Hk) as [->|(En & b & Eb & Lb)]; auto.
    right. split; auto. split; auto. eapply scheduled_le; eauto. eapply until_scheduled; eauto.
Qed.

Lemma committed_survives z tr q ext q' p s k v : reach z tr q -> continues z tr q ext q' -> mk_ok (MK p s k) ->
  msg_at (q_st q) p s k = Some v ->
  (exists pt, ptr_at (q_st q) s = Some pt /\ qk_leb k (pv_key pt) = true) ->
  msg_at (q_st q') p s k = Some v \/ (exists qg, In (qg, OpGc) ext) /\ scheduled (ext ++ tr) p s k.
Proof.
  intros Hr Hc Hk Hm Hp.
  assert (G : (exists pt, ptr_at (q_st q') s = Some pt /\ qk_leb k (pv_key pt) = true) /\
   (msg_at (q_st q') p s k = Some v \/ (exists qg, In (qg, OpGc) ext) /\ scheduled (ext ++ tr) p s k)); [|apply G].
  induction Hc as [|ext q1 o Hc IH He]; auto.
  destruct IH as [(pt & Ept & L) IH]. pose proof (continues_reach _ _ _ _ _ Hr Hc) as Hr1. split.
  - destruct (qstep_ptr q1 o s pt (reach_inv _ _ _ Hr1) He (proj1 (proj2 Hk)) Ept) as (p' & E' & L' & _).
    exists p'. split; auto. eapply qk_leb_trans; eauto.
  - destruct IH as [IH|[(qg & Hg) Hs]].
    + destruct (qstep_committed z _ q1 o p s k v Hr1 He Hk IH) as [?|(-> & En & Hs)]; eauto.
      right. split; [exists q1; cbn; auto|]. eapply scheduled_mono; [|exact Hs]. cbn; auto.
    + right. split; [exists qg; cbn; auto|]. eapply scheduled_mono; [|exact Hs]. cbn; auto.
Qed.

Lemma ptr_monotone z tr q ext q' s p : reach z tr q -> continues z tr q ext q' -> sh_ok s ->
  ptr_at (q_st q) s = Some p ->
  exists p', ptr_at (q_st q') s = Some p' /\ qk_leb (pv_key p) (pv_key p') = true /\ pv_seqno p <= pv_seqno p'.
Proof.
  intros Hr Hc Hs Hp. induction Hc as [|ext q1 o Hc IH He].
  - exists p. split; auto. split; [apply qk_leb_refl|lia].
  - destruct IH as (p1 & E1 & L1 & N1). pose proof (continues_reach _ _ _ _ _ Hr Hc) as Hr1.
    destruct (qstep_ptr q1 o s p1 (reach_inv _ _ _ Hr1) He Hs E1) as (p' & E' & L' & N').
    exists p'. split; auto. split; [eapply qk_leb_trans; eauto|lia].
Qed.

(** *** a diff whose info record is present is present as a whole *)

Lemma diff_msg_ok d s n ds k m : diff_ok d s n ds -> oget qk_cmp k (qd_msgs d) = Some m ->
  mk_ok (MK (part_of (qd_router d) m) s k) /\ qk_leb k (ds_max ds) = true.
Proof.
  intros [Hs Hn Hso Hms Hpr Hsh Hmx Hle] E. apply (oin_get qk_cmp qk_cmp_total _ _ _ Hso) in E.
  rewrite Forall_forall in *. specialize (Hms _ E). specialize (Hle _ E). cbn in *. repeat split; try apply Hs; try apply Hms; auto.
Qed.

Lemma discarded_mono st tops s k k' : qk_leb k k' = true -> discarded st tops s k = true -> discarded st tops s k' = true.
Proof. unfold discarded. destruct (ptr_at st s); auto. intros; qk. Qed.

Lemma info_diff_present z tr q : reach z tr q -> forall s n di, sh_ok s -> n < 2 ^ 32 ->
  info_at (q_st q) s n = Some di -> diff_present tr q s n di.
Proof.
  induction 1 as [|tr q o Hr IH He]; intros s n di Hs Hn Ei; [discriminate|].
  pose proof (reach_inv _ _ _ Hr) as Hq. pose proof (inv_wf _ (qi_st _ Hq)) as Hwf.
  (* an old info whose messages are all still there (or scheduled) *)
  assert (Old : info_at (q_st q) s n = Some di ->
     (forall p k v, mk_ok (MK p s k) -> qk_leb k (di_max di) = true -> msg_at (q_st q) p s k = Some v ->
        msg_at (q_st (qstep q o)) p s k = Some v \/ scheduled ((q, o) :: tr) p s k) ->
     diff_present ((q, o) :: tr) (qstep q o) s n di).
  { intros Ei' Hkeep. destruct (IH _ _ _ Hs Hn Ei') as (q0 & d & h & ds & c & Hin & Hd & -> & Hm).
    exists q0, d, h, ds, c. cbn [In]. split; auto. split; auto. split; auto. intros k m Ek.
    destruct (diff_msg_ok _ _ _ _ _ _ Hd Ek) as [Hk Hle].
    destruct (Hm k m Ek) as [E|E].
    - apply (Hkeep _ _ _ Hk); auto.
    - right. eapply scheduled_mono; [|exact E]. cbn; auto. }
  destruct o as [d s0 n0 h ds c|tops parts|parts tops| |]; cbn [qstep op_env] in *.
  - destruct He as [Hd Hc]. destruct (apply_diff d s0 n0 h ds c (q_st q)) as [st'| |] eqn:E; auto.
    destruct (apply_store _ _ _ _ _ _ _ _ E) as (-> & _).
    destruct (write_diff_spec d s0 n0 h ds (q_st q) Hwf Hd) as (_ & _ & W & _ & I & _). cbn [q_st] in *.
    pose proof Ei as Ei2. rewrite I in Ei by auto.
    destruct (sh_eqb s0 s && (n =? n0)) eqn:Eb.
    + apply andb_true_iff in Eb as [E1 E2]. destruct (sh_eqb_spec s0 s) as [->|]; [|discriminate].
      apply N.eqb_eq in E2. subst n0. injection Ei as <-.
      exists q, d, h, ds, c. cbn [In]. split; auto. split; auto. split; auto.
      intros k m Ek. left. destruct (diff_msg_ok _ _ _ _ _ _ Hd Ek) as [Hk Hle].
      rewrite W by auto. now rewrite Ek, sh_eqb_refl, N.eqb_refl.
    + apply Old; auto. intros p k v Hk Hle Hm. left. rewrite W by auto.
      destruct (oget qk_cmp k (qd_msgs d)) as [m|] eqn:Ek; auto.
      destruct (sh_eqb_spec s0 s) as [->|]; cbn [andb]; auto.
      destruct (co_info _ _ _ _ _ (Hc (ex_intro _ _ eq_refl)) n di Hn Ei) as (_ & _ & HF).
      apply (oin_get qk_cmp qk_cmp_total _ _ _ (dk_sorted _ _ _ _ Hd)) in Ek.
      rewrite Forall_forall in HF. specialize (HF _ Ek). cbn [fst] in HF. qk.
  - destruct He as (Ht & Hp & _). destruct (commit_diff tops parts q) as [q'|] eqn:E; auto.
    destruct (commit_diff_spec _ _ _ _ Hq Ht Hp E) as (_ & _ & _ & M & I & _).
    rewrite I in Ei. apply Old; auto. intros p k v Hk Hle Hm. left. now rewrite M.
  - destruct He as (Hp & Ht).
    destruct (clear_spec (q_st q) parts tops (qi_st _ Hq) Hp Ht) as (st' & E & _ & _ & _ & M & _ & I & N0).
    rewrite E in *. cbn [q_st] in *.
    assert (Hd : parts = [] \/ parts <> []) by (destruct parts; [auto|right; discriminate]).
    destruct Hd as [Hd|Hd].
    + rewrite N0 in Ei by auto. apply Old; auto. intros p k v Hk Hle Hm. left. now rewrite N0.
    + rewrite I in Ei by auto. destruct (info_at (q_st q) s n) as [di'|]; [|discriminate].
      destruct (discarded (q_st q) tops s (di_max di')) eqn:Edis; [discriminate|]. injection Ei as ->.
      apply Old; auto. intros p k v Hk Hle Hm. left. rewrite M by auto.
      destruct (discarded (q_st q) tops s k) eqn:Edk; [|now rewrite andb_false_r].
      rewrite (discarded_mono _ _ _ _ _ Hle Edk) in Edis. discriminate.
  - destruct (gc_task_spec q Hq) as (_ & _ & M & I & _).
    destruct (I s n Hs Hn) as [E|[E _]]; [|congruence]. rewrite E in Ei.
    apply Old; auto. intros p k v Hk Hle Hm. destruct (M p s k Hk) as [->|(En & b & Eb & Lb)]; auto.
    right. eapply scheduled_mono; [|eapply scheduled_le; [exact Lb|eapply until_scheduled; eauto]]. cbn; auto.
  - apply Old; auto.
Qed.
