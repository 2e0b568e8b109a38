(** A produced point is valid for every node that holds its dependencies as valid points (C73). *)
From Verif Require Import VerModel VerSpec VerCheck VerBasic VerProper VerHist VerThms VerChain VerOrder.
From Verif Require Import ProdModel ProdSpec ProdBasics ProdProper PeerCountModel.
From Coq Require Import ZArith ZifyN ZifyNat ZifyBool.
Local Open Scope N_scope.

Lemma fine_dep_checks c i x b id dep : i_id dep = id -> dep_fine c i x b id dep -> Forall (fun o => o = None) (dep_checks c i x b id dep).
Proof.
  intros ID F. unfold dep_checks. repeat apply Forall_cons; [..|constructor].
  - destruct b; [apply (df_prev _ _ _ _ _ _ F); reflexivity|reflexivity].
  - apply why_none. pose proof (df_time _ _ _ _ _ _ F). lia.
  - apply why_none. pose proof (df_newer _ _ _ _ _ _ F STrigger) as Q. cbn [aid] in Q. lia.
  - apply why_none. pose proof (df_newer _ _ _ _ _ _ F SProof) as Q. cbn [aid] in Q. lia.
  - apply why_none. destruct (pid_eqb_spec id (x_pid x)) as [E|E]; [|reflexivity].
    pose proof (df_direct _ _ _ _ _ _ F SProof E) as Q. cbn [anchor_link] in Q. rewrite Q. reflexivity.
  - destruct (pid_eqb_spec id (x_tid x)) as [E|E]; [|reflexivity]. unfold trigger_bad.
    pose proof (df_direct _ _ _ _ _ _ F STrigger E) as Q. cbn [anchor_link] in Q. rewrite Q. cbn [is_self negb].
    apply why_none. exact (df_tbound _ _ _ _ _ _ F E).
  - destruct (pid_eqb_spec id (x_tth x)) as [E|E]; [|reflexivity].
    pose proof (df_path _ _ _ _ _ _ F STrigger E) as Q. cbn [aid] in Q. rewrite Q, pid_eqb_refl. cbn [negb].
    apply why_none. rewrite (df_pbound _ _ _ _ _ _ F E). apply andb_false_r.
  - apply why_none. destruct (pid_eqb_spec id (x_pth x)) as [E|E]; [|reflexivity].
    pose proof (df_path _ _ _ _ _ _ F SProof E) as Q. cbn [aid] in Q. rewrite Q, pid_eqb_refl. reflexivity.
  - apply why_none. destruct (pid_eqb_spec id (x_pth x)) as [E|E]; [|reflexivity].
    rewrite (df_atime _ _ _ _ _ _ F E), N.eqb_refl. reflexivity.
  - destruct (x_chain x) as [[to o]|] eqn:CH; [|reflexivity]. apply why_none.
    pose proof (df_chain_newer _ _ _ _ _ _ F to o CH). lia.
  - destruct (x_chain x) as [[to [th|]]|] eqn:CH; [| |reflexivity]; apply why_none.
    + destruct (pid_eqb_spec id th) as [E|E]; [|reflexivity]. rewrite (df_chain_path _ _ _ _ _ _ F to th CH E), pid_eqb_refl. reflexivity.
    + destruct (pid_eqb_spec id to) as [E|E]; [|reflexivity]. destruct (df_chain_prev _ _ _ _ _ _ F to CH E) as [Q _]. rewrite Q. reflexivity.
  - destruct (x_chain x) as [[to [th|]]|] eqn:CH; try reflexivity. apply why_none.
    destruct (pid_eqb_spec id to) as [E|E]; [|reflexivity]. destruct (df_chain_prev _ _ _ _ _ _ F to CH E) as [_ Q]. rewrite Q. reflexivity.
Qed.

Section Judge.
  Context (c : vconf) (peers : round -> list peer) (ldr : info -> bool) (h : list entry).
  Context (H : hist c peers ldr h) (IB : ids_bind h).

  (** facts a judge's history gives about a valid point without invalid ones below it *)
  Lemma bind a v k b w j : judged h a v -> info_of v = Some k -> judged h b w -> info_of w = Some j -> i_id k = i_id j -> k = j.
  Proof. intros J I J' I' E. exact (IB a b v w k j J J' I I' E). Qed.
  Lemma genesis_self a k s : judged h a (VdValid k) -> i_round k = c_genesis c -> anchor_link s k = ToSelf.
  Proof.
    intros J G. destruct (judged_verified c peers ldr h a _ k H J eq_refl) as [V _].
    destruct (verified_genesis _ _ _ V G) as (RL & _). apply genesis_links. exact RL.
  Qed.
  Lemma clean_path a k s : judged h a (VdValid k) -> clean h a -> exists z vz t, passed_path h a z /\ judged h z vz /\
    info_of vz = Some t /\ i_id t = dest s k /\ anchor_link s t = ToSelf /\ (s = SProof -> i_atime t = i_atime k).
  Proof.
    intros J CL. destruct (N.eq_dec (i_round k) (c_genesis c)) as [G|NG].
    - exists a, (VdValid k), k. pose proof (genesis_self a k s J G) as L. rewrite (dest_self _ _ L).
      repeat (split; [first [constructor | assumption | reflexivity]|]). auto.
    - destruct (anchor_path c peers ldr h s H a (VdValid k) k J (or_introl eq_refl) NG) as (z & vz & t & PP & JZ & IZ & _ & AT & C).
      destruct C as [[ID SF]|[rs ->]]; [|exfalso; eapply CL; eauto].
      exists z, vz, t. auto 8.
  Qed.
  Lemma target a k s b w t : judged h a (VdValid k) -> clean h a -> judged h b w -> info_of w = Some t -> i_id t = dest s k ->
    anchor_link s t = ToSelf /\ (s = SProof -> i_atime t = i_atime k).
  Proof.
    intros J CL JB IBW ID. destruct (clean_path a k s J CL) as (z & vz & t' & _ & JZ & IZ & ID' & SF & AT).
    assert (t = t') by (exact (bind b w t z vz t' JB IBW JZ IZ (eq_trans ID (eq_sym ID')))).  subst t'. auto.
  Qed.
  Lemma stages_close a k : judged h a (VdValid k) -> clean h a -> anchor_round STrigger k <= anchor_round SProof k + 1.
  Proof.
    intros J CL. destruct (clean_path a k STrigger J CL) as (z & vz & t & PP & JZ & IZ & ID & SF & _).
    destruct (anchors_grow c peers ldr h a z H PP (VdValid k) k vz t SProof J eq_refl JZ IZ) as [GR _].
    pose proof (dest_round c peers ldr h a (VdValid k) k STrigger H J eq_refl) as DR. rewrite <- ID in DR.
    assert (i_round t <= anchor_round SProof t + 1).
    { cbn [anchor_link] in SF. unfold anchor_round. cbn [anchor_link]. unfold anchor_trigger in SF. unfold anchor_proof.
      destruct (i_role t) as [? [?|?]|? [?|?]| | |]; try discriminate; cbn; lia. }
    unfold i_round in *. lia.
  Qed.
  Lemma target_bound a k b w t : judged h a (VdValid k) -> clean h a -> judged h b w -> info_of w = Some t ->
    i_id t = dest STrigger k -> anchor_round SProof k < anchor_round STrigger k -> dest SProof t = dest SProof k.
  Proof.
    intros J CL JB IBW ID LT. destruct (anchor_link STrigger k) eqn:L.
    - assert (t = k); [|congruence]. eapply (bind b w t a (VdValid k) k); auto. rewrite ID. apply dest_self. exact L.
    - assert (NG : i_round k <> c_genesis c) by (intros G; rewrite (genesis_self a k STrigger J G) in L; discriminate).
      destruct (judged_verified c peers ldr h a _ k H J eq_refl) as [V _]. destruct (verified_is_proper _ _ _ V NG) as (PR & _).
      assert (INH : inherited k = Some (dest SProof k) /\ p_round (dest SProof k) = anchor_round SProof k).
      { split; [|exact (dest_round c peers ldr h a (VdValid k) k SProof H J eq_refl)]. unfold inherited. cbn [anchor_link] in L. unfold anchor_trigger in L.
        destruct (i_role k) as [x y|x y| | |] eqn:RL; try discriminate.
        - assert (NS : anchor_link SProof k <> ToSelf) by (cbn [anchor_link]; unfold anchor_proof; rewrite RL; destruct x; discriminate).
          destruct (pr_link _ _ _ PR SProof NS) as (th & to & _ & _ & A & _). rewrite A. f_equal. symmetry. apply dest_id. exact A.
        - exfalso. assert (SF : anchor_link SProof k = ToSelf) by (cbn [anchor_link]; unfold anchor_proof; rewrite RL; reflexivity).
          unfold anchor_round at 1 in LT. rewrite SF in LT.
          assert (NS : anchor_link STrigger k <> ToSelf) by (cbn [anchor_link]; unfold anchor_trigger; rewrite RL; destruct y; discriminate).
          destruct (pr_link _ _ _ PR STrigger NS) as (th & to & _ & _ & _ & E & _ & LE & _ & L2). lia. }
      destruct INH as [INH RD].
      destruct (trigger_of_proof c peers ldr h H a (VdValid k) k (dest SProof k) J (or_introl eq_refl) NG INH ltac:(lia))
        as (z & vz & t' & PP & JZ & IZ & _ & C).
      destruct C as [(ID' & _ & E)|[rs ->]]; [|exfalso; eapply CL; eauto].
      assert (t = t') by (exact (bind b w t z vz t' JB IBW JZ IZ (eq_trans ID (eq_sym ID')))).  subst t'. exact E.
    - assert (NG : i_round k <> c_genesis c) by (intros G; rewrite (genesis_self a k STrigger J G) in L; discriminate).
      destruct (judged_verified c peers ldr h a _ k H J eq_refl) as [V _]. destruct (verified_is_proper _ _ _ V NG) as (PR & _).
      assert (INH : inherited k = Some (dest SProof k) /\ p_round (dest SProof k) = anchor_round SProof k).
      { split; [|exact (dest_round c peers ldr h a (VdValid k) k SProof H J eq_refl)]. unfold inherited. cbn [anchor_link] in L. unfold anchor_trigger in L.
        destruct (i_role k) as [x y|x y| | |] eqn:RL; try discriminate.
        - assert (NS : anchor_link SProof k <> ToSelf) by (cbn [anchor_link]; unfold anchor_proof; rewrite RL; destruct x; discriminate).
          destruct (pr_link _ _ _ PR SProof NS) as (th & to & _ & _ & A & _). rewrite A. f_equal. symmetry. apply dest_id. exact A.
        - exfalso. assert (SF : anchor_link SProof k = ToSelf) by (cbn [anchor_link]; unfold anchor_proof; rewrite RL; reflexivity).
          unfold anchor_round at 1 in LT. rewrite SF in LT.
          assert (NS : anchor_link STrigger k <> ToSelf) by (cbn [anchor_link]; unfold anchor_trigger; rewrite RL; destruct y; discriminate).
          destruct (pr_link _ _ _ PR STrigger NS) as (th & to & _ & _ & _ & E & _ & LE & _ & L2). lia. }
      destruct INH as [INH RD].
      destruct (trigger_of_proof c peers ldr h H a (VdValid k) k (dest SProof k) J (or_introl eq_refl) NG INH ltac:(lia))
        as (z & vz & t' & PP & JZ & IZ & _ & C).
      destruct C as [(ID' & _ & E)|[rs ->]]; [|exfalso; eapply CL; eauto].
      assert (t = t') by (exact (bind b w t z vz t' JB IBW JZ IZ (eq_trans ID (eq_sym ID')))).  subst t'. exact E.
  Qed.

  Context (last : option lastown) (me : peer) (hd : phead).
  Context (HO : head_ok c peers hd me) (MO : memory_ok c peers hd me last) (NR : no_rival hd me).
  Context (UV : forall k, used last me hd k -> exists a, judged h a (VdValid k) /\ clean h a).
  Notation r := (hd_round hd).
  Notation inc := (hd_reached hd).
  Notation wit := (witness_of last me hd).
  Context (p t : alink) (prev : option (info * lastown)) (i : info).
  Context (M : made c last me r (hd_leader hd) inc wit (hd_now hd) p t prev i).
  Context (V : basic_verify c peers i = VOk).

  Lemma used_bind k j : used last me hd k -> used last me hd j -> i_id k = i_id j -> k = j.
  Proof.
    intros U W E. destruct (UV k U) as (a & J & _), (UV j W) as (b & J' & _). exact (IB a b _ _ k j J J' eq_refl eq_refl E).
  Qed.
  Lemma used_round k : used last me hd k -> i_round k <= r - 1 /\ i_round k < r /\ forall s, anchor_round s k <= i_round k /\ p_round (dest s k) = anchor_round s k.
  Proof.
    intros U. destruct (used_point c peers last me hd HO k U) as (q & a & P & L & RQ & GQ).
    split; [lia|]. split; [lia|]. intros s. destruct (verified_dest c peers k q a s P) as (_ & D & _ & E & _). auto.
  Qed.
  Lemma made_round : i_round i = r.
  Proof. exact (md_round _ _ _ _ _ _ _ _ _ _ _ _ M). Qed.
  Lemma used_not_self k : used last me hd k -> i_id k <> i_id i.
  Proof. intros U E. destruct (used_round k U) as (_ & L & _). pose proof made_round as R. unfold i_round in *. rewrite E in L. lia. Qed.

  (** the two sources; the proof's is the newest *)
  Lemma sources : exists kp tp kt tt', src_ok inc wit kp tp /\ src_ok inc wit kt tt' /\ p = lnk SProof kp tp /\ t = lnk STrigger kt tt' /\
    (forall j, used last me hd j -> anchor_round STrigger j <= anchor_round STrigger kt) /\
    (forall j, used last me hd j -> anchor_round SProof j <= anchor_round SProof kp) /\
    (anchor_round SProof kp < anchor_round STrigger kt -> kp = kt /\ tp = tt').
  Proof.
    destruct (role_cases c peers last me hd HO p t prev i M) as (kp & tp & kt & tt' & A & B & C & D & E & F).
    exists kp, tp, kt, tt'. repeat (split; [assumption|]). destruct F as [[F1 F2]|(-> & -> & F)].
    - split; [exact F2|]. lia.
    - split; [|auto]. intros j U. specialize (F j U). destruct (UV kt (src_used last me hd _ _ A)) as (a & J & CL).
      pose proof (stages_close a kt J CL). lia.
  Qed.
  (** the two links *)
  Lemma forms s : anchor_link s i = ToSelf \/
    exists k th, src_ok inc wit k th /\ anchor_link s i = ldir s k th /\ forall j, used last me hd j -> anchor_round s j <= anchor_round s k.
  Proof.
    destruct sources as (kp & tp & kt & tt' & SP & ST & EP & ET & MT & MP & _).
    destruct (role_inv c peers last me hd HO MO p t prev i M) as [R|(k & l & PV & C)].
    - right. destruct s; [exists kt, tt'|exists kp, tp]; (split; [assumption|]); (split; [|assumption]);
        rewrite <- lnk_any; [rewrite <- ET|rewrite <- EP]; cbn [anchor_link]; unfold anchor_trigger, anchor_proof; rewrite R;
        [destruct t|destruct p]; reflexivity.
    - destruct (link_forms c peers last me hd HO MO p t prev i M s) as [[X _]|(k' & th' & S & X)]; [left; exact X|right].
      assert (TRG : i_role i = AnchorTrigger -> s = SProof /\ th' = ThInc me /\ anchor_link SProof k' = ToSelf).
      { intros R. destruct s; cbn [anchor_link] in X; unfold anchor_trigger, anchor_proof in X; rewrite R in X; unfold ldir in X.
        - destruct (is_self (anchor_link STrigger k')); discriminate.
        - destruct (is_self (anchor_link SProof k')) eqn:SF; [|discriminate]. rewrite (md_author _ _ _ _ _ _ _ _ _ _ _ _ M) in X.
          inversion X. apply self_true in SF. auto. }
      assert (TR2 : i_role i = AnchorTrigger -> forall j, used last me hd j -> anchor_round s j <= anchor_round s k').
      { intros R. destruct (TRG R) as (-> & -> & SF). intros j U. destruct (used_round j U) as (L & _ & B). destruct (B SProof) as [B1 _].
        destruct (src_point c peers r inc wit (gr c peers me hd HO) (inc_point c peers me hd HO) (wit_point c peers last me hd HO) k' _ S)
          as (q & P & [(Q & _)|(_ & Q & _)] & _); [|discriminate].
        unfold anchor_round at 2. rewrite SF, (pa_round _ _ _ _ _ P). lia. }
      destruct C as [(n & Q & _ & _ & R)|[(n & Q & R)|[(Q & PQ & _ & R)|[(Q & PQ & R)|(x & Q & PQ & FE & LD & R)]]]].
      + exfalso. destruct s; cbn [anchor_link] in X; unfold anchor_trigger, anchor_proof in X; rewrite R in X; unfold ldir in X;
          destruct (is_self _); discriminate.
      + exists k', th'. auto.
      + exfalso. destruct s; cbn [anchor_link] in X; unfold anchor_trigger, anchor_proof in X; rewrite R in X; unfold ldir in X;
          destruct (is_self _); discriminate.
      + exists k', th'. auto.
      + destruct s; [exists kt, tt'|].
        * split; [exact ST|]. split; [|exact MT]. rewrite <- lnk_any, <- ET. cbn [anchor_link]. unfold anchor_trigger. rewrite R. destruct t; reflexivity.
        * exfalso. cbn [anchor_link] in X; unfold anchor_proof in X; rewrite R in X; unfold ldir in X; destruct (is_self _); discriminate.
  Qed.
  (** the proof that bounds the trigger *)
  Lemma bound_inv x p0 : mk_ctx i = Some x -> x_bound x = Some p0 -> exists k, used last me hd k /\
    aid STrigger x = dest STrigger k /\ ath STrigger x = i_id k /\ p0 = dest SProof k /\ anchor_round SProof k < anchor_round STrigger k.
  Proof.
    intros MX XB. destruct (ctx_facts _ _ MX) as (_ & _ & _ & _ & TB & _). destruct (ctx_aid _ _ STrigger MX) as [IT TT]. rewrite XB in TB. unfold trigger_bound in TB.
    destruct sources as (kp & tp & kt & tt' & SP & ST & EP & ET & MT & MP & EQ).
    assert (IND : p0 = dest SProof kp -> p_round p0 < anchor_round STrigger i -> anchor_link STrigger i = ldir STrigger kt tt' ->
      exists k, used last me hd k /\ aid STrigger x = dest STrigger k /\ ath STrigger x = i_id k /\ p0 = dest SProof k /\ anchor_round SProof k < anchor_round STrigger k).
    { intros -> LT LK. destruct (ldir_link c peers last me hd HO p t prev i M STrigger kt tt' ST LK) as (A & B & C).
      destruct (used_round kp (src_used last me hd _ _ SP)) as (_ & _ & D). destruct (D SProof) as [_ D2]. rewrite D2, C in LT.
      destruct (EQ LT) as [-> ->]. exists kt. rewrite TT in A. rewrite IT in B. inversion A. inversion B.
      split; [exact (src_used last me hd _ _ ST)|]. auto. }
    assert (REG : i_role i = Regular p t -> anchor_link STrigger i = ldir STrigger kt tt').
    { intros R. rewrite <- lnk_any, <- ET. cbn [anchor_link]. unfold anchor_trigger. rewrite R. destruct t; reflexivity. }
    destruct (role_inv c peers last me hd HO MO p t prev i M) as [R|(k & l & PV & C)].
    - rewrite R in TB. destruct p as [th|x'] eqn:PE.
      + unfold lnk in EP. destruct (is_self (anchor_link SProof kp)) eqn:SF; [|discriminate]. inversion EP; subst th.
        destruct (src_through c peers last me hd HO _ t prev i M kp tp SP) as (TH & _). rewrite TH in TB.
        destruct (N.ltb_spec (p_round (i_id kp)) (anchor_round STrigger i)) as [L|L]; [|discriminate]. inversion TB; subst p0.
        apply IND; [apply self_true in SF; symmetry; apply dest_self; exact SF|exact L|apply REG; exact R].
      + unfold lnk in EP. destruct (is_self (anchor_link SProof kp)) eqn:SF; [discriminate|]. inversion EP; subst x'. cbn [il_to] in TB.
        destruct (N.ltb_spec (p_round (dest SProof kp)) (anchor_round STrigger i)) as [L|L]; [|discriminate]. inversion TB; subst p0.
        apply IND; [reflexivity|exact L|apply REG; exact R].
    - destruct C as [(n & Q & _ & _ & R)|[(n & Q & R)|[(Q & PQ & _ & R)|[(Q & PQ & R)|(y & Q & PQ & FE & LD & R)]]]];
        rewrite R in TB; try discriminate.
      rewrite PQ in EP. unfold lnk in EP. destruct (is_self (anchor_link SProof kp)) eqn:SF; [discriminate|]. inversion EP; subst y. cbn [il_to] in TB.
      destruct (N.ltb_spec (p_round (dest SProof kp)) (anchor_round STrigger i)) as [L|L]; [|discriminate]. inversion TB; subst p0.
      apply IND; [reflexivity|exact L|]. rewrite <- lnk_any, <- ET. cbn [anchor_link]. unfold anchor_trigger. rewrite R. destruct t; reflexivity.
  Qed.
  Lemma chain_inv x to o : mk_ctx i = Some x -> x_chain x = Some (to, o) ->
    (o = None /\ exists k l, prev = Some (k, l) /\ i_id k = to /\ anchor_proof k = ToSelf /\ sticky_bad c i k = false) \/
    (exists kp, o = Some (i_id kp) /\ used last me hd kp /\ to = dest SProof kp /\
      (forall j, used last me hd j -> anchor_round SProof j <= anchor_round SProof kp)).
  Proof.
    intros MX XC. destruct (ctx_facts _ _ MX) as (_ & _ & _ & _ & _ & CT). rewrite XC in CT. unfold chained_to_through, chained_proof in CT.
    destruct sources as (kp & tp & kt & tt' & SP & ST & EP & ET & MT & MP & _).
    destruct (role_inv c peers last me hd HO MO p t prev i M) as [R|(k & l & PV & C)]; [rewrite R in CT; discriminate|].
    destruct (prev_facts c peers last me hd HO MO p t prev i M k l PV) as (I & PA & LA & LO & DG & PD & EV & NE & EN & S3 & STK & SK).
    assert (PID : prev_id i = Some (i_id k)).
    { unfold prev_id. rewrite PD, made_round, (md_author _ _ _ _ _ _ _ _ _ _ _ _ M). f_equal.
      pose proof (pa_round _ _ _ _ _ PA) as A1. pose proof (pa_author _ _ _ _ _ PA) as A2.
      unfold i_round, i_author, i_digest in *. destruct (i_id k). cbn in *. congruence. }
    pose proof (ho_types _ _ _ _ HO) as [_ C255].
    destruct C as [(n & Q & L1 & L2 & R)|[(n & Q & R)|[(Q & PQ & L1 & R)|[(Q & PQ & R)|(y & Q & PQ & FE & LD & R)]]]];
      rewrite R in CT; try discriminate.
    - rewrite PID in CT. inversion CT; subst to o. left. split; [reflexivity|]. exists k, l. split; [exact PV|]. split; [reflexivity|]. split.
      + unfold sticky_anchors, chained_proof in Q. unfold anchor_proof. destruct (i_role k); try discriminate. reflexivity.
      + unfold sticky_bad. rewrite Q. unfold sticky_anchors, chained_proof. rewrite R.
        destruct (N.ltb_spec (n + 1) (c_sticky c)); [|lia]. destruct (N.ltb_spec n 255); [|lia]. rewrite N.eqb_refl. reflexivity.
    - rewrite PID in CT. inversion CT; subst to o. left. split; [reflexivity|]. exists k, l. split; [exact PV|]. split; [reflexivity|]. split.
      + rewrite EP in PQ. unfold lnk in PQ. destruct (is_self (anchor_link SProof kp)) eqn:SF; [|discriminate]. inversion PQ as [QT].
        apply self_true in SF. pose proof (src_get c peers last me hd HO kp tp SP) as G1.
        pose proof (src_get c peers last me hd HO k _ SK) as G2. rewrite QT in G1. cbn in G1, G2. rewrite G1 in G2. inversion G2; subst kp. exact SF.
      + unfold sticky_bad. rewrite Q. unfold sticky_anchors, chained_proof. rewrite R.
        destruct (N.ltb_spec 0 (c_sticky c)); [|lia]. reflexivity.
    - rewrite EP in PQ. unfold lnk in PQ. destruct (is_self (anchor_link SProof kp)) eqn:SF; [discriminate|]. inversion PQ; subst y. cbn [il_to il_path] in CT.
      destruct (src_through c peers last me hd HO p t prev i M kp tp SP) as (TH & _). rewrite TH in CT. inversion CT; subst to o.
      right. exists kp. split; [reflexivity|]. split; [exact (src_used last me hd _ _ SP)|]. auto.
  Qed.

  Lemma used_time k : used last me hd k -> i_time k <= tadd (i_time i) (c_skew c).
  Proof.
    intros U. destruct (time_facts c peers last me hd HO MO p t prev i M) as (z & _ & _ & _ & _ & NW & _).
    assert (S : i_time k <= hd_now hd + c_skew c).
    { apply (ho_skew _ _ _ _ HO). destruct U as [[q I]|[q I]]; [left; eauto|right].
      destruct (wit_in last me hd q k I) as (locs & A & B & _). eauto. }
    destruct (used_point c peers last me hd HO k U) as (q & a & P & _). pose proof (pa_time _ _ _ _ _ P) as TM.
    unfold tadd. lia.
  Qed.
  Lemma used_fine x k b : mk_ctx i = Some x -> used last me hd k ->
    (b = true -> prev_id i = Some (i_id k)) -> dep_fine c i x b (i_id k) k.
  Proof.
    intros MX U PB. destruct (UV k U) as (ak & JK & CK). destruct (used_round k U) as (RL1 & RL2 & RB).
    assert (SRC : forall s, aid s x = i_id i /\ ath s x = i_id i /\ anchor_link s i = ToSelf \/ exists ks th, used last me hd ks /\ src_ok inc wit ks th /\
      aid s x = dest s ks /\ ath s x = i_id ks /\ anchor_link s i = ldir s ks th /\ forall j, used last me hd j -> anchor_round s j <= anchor_round s ks).
    { intros s. destruct (ctx_aid _ _ s MX) as [IA TA]. destruct (forms s) as [X|(ks & th & S & X & MXM)].
      - left. unfold anchor_id, anchor_through in *. rewrite X in *. inversion IA. inversion TA. auto.
      - right. destruct (ldir_link c peers last me hd HO p t prev i M s ks th S X) as (A & B & C). rewrite TA in A. rewrite IA in B.
        inversion A. inversion B. exists ks, th. split; [exact (src_used last me hd _ _ S)|]. auto. }
    constructor.
    - intros BT. specialize (PB BT). unfold proof_bad.
      assert (PV : exists l, prev = Some (k, l)).
      { destruct (prev_case prev) as [(k' & l & PV)|PV].
        - destruct (prev_facts c peers last me hd HO MO p t prev i M k' l PV) as (I & PA & _ & _ & _ & PD & _).
          assert (k = k'); [|subst; eauto]. apply used_bind; [exact U|left; eauto|].
          unfold prev_id in PB. rewrite PD, made_round, (md_author _ _ _ _ _ _ _ _ _ _ _ _ M) in PB. inversion PB as [E].
          pose proof (pa_round _ _ _ _ _ PA) as A1. pose proof (pa_author _ _ _ _ _ PA) as A2.
          unfold i_round, i_author, i_digest in *. destruct (i_id k'). cbn in *. congruence.
        - destruct (no_prev_facts c peers last me hd HO p t prev i M PV) as (PD & _). unfold prev_id in PB. rewrite PD in PB. discriminate. }
      destruct PV as [l PV].
      destruct (prev_facts c peers last me hd HO MO p t prev i M k l PV) as (I & PA & LA & LO & DG & PD & EV & NE & EN & S3 & STK & SK).
      destruct (time_facts c peers last me hd HO MO p t prev i M) as (z & _ & _ & TP & _ & _ & _ & TS & _). pose proof (TP k l PV) as TL.
      destruct (is_self (anchor_proof k)) eqn:SFK; cbn [andb].
      + assert (TRS : anchor_trigger i = ToSelf).
        { apply self_true in SFK. destruct sources as (kp & tp & kt & tt' & SP & ST & EP & ET & MT & MP & _).
          destruct (role_inv c peers last me hd HO MO p t prev i M) as [R|(k' & l' & PV' & C)].
          - exfalso. (* the own proof is the only one of its round, so the point would be its trigger *)
            assert (KP : kp = k /\ tp = ThInc me).
            { assert (RK : anchor_round SProof k = r - 1) by (unfold anchor_round; cbn [anchor_link]; rewrite SFK; exact (pa_round _ _ _ _ _ PA)).
              pose proof (MP k U) as G1. destruct (used_round kp (src_used last me hd _ _ SP)) as (A1 & A2 & A3). destruct (A3 SProof) as [A4 _].
              destruct (src_point c peers r inc wit (gr c peers me hd HO) (inc_point c peers me hd HO) (wit_point c peers last me hd HO) kp tp SP)
                as (q & P & CASE & LQ & GQ). pose proof (gr c peers me hd HO) as [G00 G01]. rewrite (pa_round _ _ _ _ _ P) in A4, A1.
              destruct CASE as [(Q & TQ & IQ)|(Q & TQ & IQ)]; [|destruct (wit_point c peers last me hd HO _ _ IQ) as [_ GW]; lia].
              assert (AU : i_author kp = me) by (apply (NR k I SFK _ kp IQ); lia). rewrite AU in *. split; [|exact TQ].
              pose proof (src_get c peers last me hd HO kp tp SP) as X1. pose proof (src_get c peers last me hd HO k _ SK) as X2.
              rewrite TQ in X1. cbn in X1, X2. congruence. }
            destruct KP as [-> ->]. pose proof (md_role _ _ _ _ _ _ _ _ _ _ _ _ M) as MR. rewrite PV, STK, R in MR.
            unfold lnk in EP. cbn [anchor_link] in EP. rewrite SFK in EP. cbn [is_self] in EP. rewrite EP in MR. unfold pick_role in MR.
            destruct (sticky_anchors k); [destruct (_ <? c_sticky c); discriminate|]. cbn [is_trigger] in MR. rewrite N.eqb_refl in MR.
            destruct (0 <? c_sticky c); discriminate.
          - rewrite PV in PV'. inversion PV'; subst k' l'.
            destruct C as [(n & Q & _ & _ & R)|[(n & Q & R)|[(Q & PQ & _ & R)|[(Q & PQ & R)|(y & Q & PQ & FE & LD & R)]]]];
              unfold anchor_trigger; rewrite R; try reflexivity.
            exfalso. rewrite EP in PQ. unfold lnk in PQ. destruct (is_self (anchor_link SProof kp)) eqn:SF; [discriminate|]. inversion PQ; subst y. cbn [il_to] in FE.
            assert (RK : anchor_round SProof k = r - 1) by (unfold anchor_round; cbn [anchor_link]; rewrite SFK; exact (pa_round _ _ _ _ _ PA)).
            pose proof (MP k U) as G1. destruct (used_round kp (src_used last me hd _ _ SP)) as (A1 & A2 & A3). destruct (A3 SProof) as [A4 A5].
            rewrite A5 in FE. unfold far_enough in FE. destruct (c_sticky c =? 0); lia. }
        rewrite TRS. cbn [is_self negb]. destruct (N.leb_spec (i_time i) (i_time k)); [lia|].
        destruct (is_self (anchor_proof i)) eqn:SFI; [|reflexivity]. apply self_true in SFI. destruct (TS SFI) as (k' & l' & PV' & E).
        rewrite PV in PV'. inversion PV'; subst k' l'. rewrite E, N.eqb_refl. reflexivity.
      + destruct (N.leb_spec (i_time i) (i_time k)); [lia|].
        destruct (is_self (anchor_proof i)) eqn:SFI; [|reflexivity]. apply self_true in SFI. destruct (TS SFI) as (k' & l' & PV' & E).
        rewrite PV in PV'. inversion PV'; subst k' l'. rewrite E, N.eqb_refl. reflexivity.
    - exact (used_time k U).
    - intros s. destruct (RB s) as [B1 B2]. destruct (SRC s) as [(-> & _)|(ks & th & UK & _ & -> & _ & _ & MXM)].
      + pose proof made_round as R. unfold i_round in *. lia.
      + destruct (used_round ks UK) as (_ & _ & KB). destruct (KB s) as [_ K2]. rewrite K2. exact (MXM k U).
    - intros s E. destruct (SRC s) as [(A & _)|(ks & th & UK & _ & A & _)]; rewrite A in E.
      + exfalso. exact (used_not_self k U E).
      + destruct (UV ks UK) as (as' & JS & CS). exact (proj1 (target as' ks s ak (VdValid k) k JS CS JK eq_refl E)).
    - intros E. unfold bound_mismatch. destruct (x_bound x) as [p0|] eqn:XB; [|reflexivity].
      destruct (bound_inv x p0 MX XB) as (kt & UT & AT & TT & -> & LT). cbn [aid] in AT. rewrite AT in E.
      destruct (UV kt UT) as (as' & JS & CS). rewrite (target_bound as' kt ak (VdValid k) k JS CS JK eq_refl E LT), pid_eqb_refl. reflexivity.
    - intros s E. destruct (SRC s) as [(_ & A & _)|(ks & th & UK & _ & A1 & A & _)]; rewrite A in E.
      + exfalso. exact (used_not_self k U E).
      + rewrite (used_bind k ks U UK E). symmetry. exact A1.
    - intros E. unfold bound_mismatch. destruct (x_bound x) as [p0|] eqn:XB; [|reflexivity].
      destruct (bound_inv x p0 MX XB) as (kt & UT & AT & TT & -> & LT). cbn [ath] in TT. rewrite TT in E.
      rewrite (used_bind k kt U UT E), pid_eqb_refl. reflexivity.
    - intros E. destruct (SRC SProof) as [(_ & A & _)|(ks & th & UK & SK & A1 & A & X & _)]; cbn [ath] in A; rewrite A in E.
      + exfalso. exact (used_not_self k U E).
      + rewrite (used_bind k ks U UK E). destruct (time_facts c peers last me hd HO MO p t prev i M) as (z & _ & _ & _ & _ & _ & _ & _ & TH).
        symmetry. apply (TH ks th SK). cbn [anchor_link] in X. unfold ldir in X. destruct (is_self (anchor_link SProof ks)); [left; exact X|right; eauto].
    - intros to o XC. destruct (RB SProof) as [B1 B2]. rewrite B2.
      destruct (chain_inv x to o MX XC) as [(_ & k' & l & PV & <- & _)|(kp & _ & UP & -> & MP)].
      + destruct (prev_facts c peers last me hd HO MO p t prev i M k' l PV) as (_ & PA & _). pose proof (pa_round _ _ _ _ _ PA) as RP.
        unfold i_round in *. lia.
      + destruct (used_round kp UP) as (_ & _ & KB). destruct (KB SProof) as [_ K2]. rewrite K2. exact (MP k U).
    - intros to th XC E. destruct (chain_inv x to (Some th) MX XC) as [(Q & _)|(kp & Q & UP & -> & MP)]; [discriminate|].
      assert (Q' : th = i_id kp) by congruence. rewrite Q' in E. rewrite (used_bind k kp U UP E). reflexivity.
    - intros to XC E. destruct (chain_inv x to None MX XC) as [(_ & k' & l & PV & <- & SF & SB)|(kp & Q & _)]; [|discriminate].
      destruct (prev_facts c peers last me hd HO MO p t prev i M k' l PV) as (I & _).
      assert (k = k') by (apply used_bind; [exact U|left; eauto|exact E]). subst k'. auto.
  Qed.

  Lemma produced_link_ok leader : (leader = true <-> hd_leader hd = Some me) -> proof_link_ok c leader i = true.
  Proof.
    intros LD. unfold proof_link_ok. rewrite made_round.
    destruct (role_inv c peers last me hd HO MO p t prev i M) as [R|(k & l & PV & C)].
    - rewrite R. apply negb_true_iff. destruct leader eqn:LE; [|reflexivity]. cbn [andb].
      destruct (prev_case prev) as [(k & l & PV)|PV].
      + destruct (prev_facts c peers last me hd HO MO p t prev i M k l PV) as (I & PA & LA & LO & DG & PD & EV & NE & EN & S3 & STK & SK).
        pose proof (md_role _ _ _ _ _ _ _ _ _ _ _ _ M) as MR. rewrite PV, R in MR. rewrite (proj1 LD eq_refl), N.eqb_refl in MR.
        unfold pick_role in MR. destruct (lo_sticky l) as [n|]; [destruct (_ <? c_sticky c); discriminate|].
        destruct (is_trigger me p); [destruct (0 <? c_sticky c); discriminate|].
        destruct sources as (kp & tp & kt & tt' & SP & ST & EP & ET & MT & MP & _).
        assert (LK : anchor_link SProof i = ldir SProof kp tp).
        { rewrite <- lnk_any, <- EP. cbn [anchor_link]. unfold anchor_proof. rewrite R. destruct p; reflexivity. }
        destruct (ldir_link c peers last me hd HO p t prev i M SProof kp tp SP LK) as (_ & _ & AR). rewrite AR.
        assert (FE : far_enough c r (anchor_round SProof kp) = false); [|rewrite FE; apply andb_false_r].
        unfold lnk in EP. destruct (is_self (anchor_link SProof kp)) eqn:SF.
        * apply self_true in SF. unfold anchor_round. rewrite SF.
          destruct (src_point c peers r inc wit (gr c peers me hd HO) (inc_point c peers me hd HO) (wit_point c peers last me hd HO) kp tp SP)
                as (q & P & CASE & LQ & GQ). rewrite (pa_round _ _ _ _ _ P).
          pose proof (gr c peers me hd HO) as [G0 G1]. unfold far_enough. destruct CASE as [(-> & _)|(-> & _)]; destruct (c_sticky c =? 0); lia.
        * destruct (used_round kp (src_used last me hd _ _ SP)) as (_ & _ & KB). destruct (KB SProof) as [_ K2]. rewrite <- K2.
          subst p. cbn [andb] in MR. unfold proof_far in MR. cbn [il_to] in MR. unfold far_enough.
          destruct (if c_sticky c =? 0 then 2 <? r - p_round (dest SProof kp) else 3 <? r - p_round (dest SProof kp)) eqn:FQ; [discriminate|reflexivity].
      + destruct (no_prev_facts c peers last me hd HO p t prev i M PV) as (PD & _). rewrite PD. reflexivity.
    - destruct C as [(n & Q & _ & _ & R)|[(n & Q & R)|[(Q & PQ & _ & R)|[(Q & PQ & R)|(y & Q & PQ & FE & LE & R)]]]]; rewrite R; try reflexivity.
      rewrite FE, andb_true_r. apply LD. exact LE.
  Qed.
  (** the target of a link *)
  Lemma target_fine x b tg : mk_ctx i = Some x -> judged h b (VdValid tg) -> i_time tg <= i_time i + c_skew c -> i_time tg <= u64_max ->
    Forall (fun o => o = None) (indirect_checks c i x (i_id tg) tg).
  Proof.
    intros MX JT TL TU. unfold indirect_checks. repeat apply Forall_cons; [..|constructor].
    - apply why_none. unfold tadd. lia.
    - destruct (anchor_trigger i) as [|th|l] eqn:AT; try reflexivity. destruct (pid_eqb_spec (i_id tg) (il_to l)) as [E|E]; [|reflexivity].
      destruct (forms STrigger) as [X|(ks & th & S & X & MXM)]; cbn [anchor_link] in X; [congruence|].
      rewrite AT in X. unfold ldir in X. destruct (is_self (anchor_link STrigger ks)) eqn:SF; [discriminate|]. inversion X; subst l. cbn [il_to] in E.
      destruct (UV ks (src_used last me hd _ _ S)) as (as' & JS & CS).
      destruct (target as' ks STrigger b (VdValid tg) tg JS CS JT eq_refl E) as [TS _]. cbn [anchor_link] in TS.
      unfold trigger_bad. rewrite TS. cbn [is_self negb]. apply why_none.
      unfold bound_mismatch. destruct (x_bound x) as [p0|] eqn:XB; [|reflexivity].
      destruct (bound_inv x p0 MX XB) as (kt & UT & AI & TT & -> & LT).
      assert (LKT : anchor_link STrigger i = ldir STrigger ks th) by (cbn [anchor_link]; rewrite AT; unfold ldir; rewrite SF; reflexivity).
      destruct (ldir_link c peers last me hd HO p t prev i M STrigger ks th S LKT) as (A & B & _). destruct (ctx_aid _ _ STrigger MX) as [IA TA].
      rewrite TA in A. rewrite IA in B. assert (B' : dest STrigger ks = dest STrigger kt) by congruence.
      destruct (UV kt UT) as (at' & JKT & CKT). rewrite B' in E.
      rewrite (target_bound at' kt b (VdValid tg) tg JKT CKT JT eq_refl E LT), pid_eqb_refl. reflexivity.
    - destruct (anchor_proof i) as [|th|l] eqn:AT; try reflexivity. destruct (pid_eqb_spec (i_id tg) (il_to l)) as [E|E]; [|reflexivity].
      destruct (forms SProof) as [X|(ks & th & S & X & MXM)]; cbn [anchor_link] in X; [congruence|].
      rewrite AT in X. unfold ldir in X. destruct (is_self (anchor_link SProof ks)) eqn:SF; [discriminate|]. inversion X; subst l. cbn [il_to] in E.
      destruct (UV ks (src_used last me hd _ _ S)) as (as' & JS & CS).
      destruct (target as' ks SProof b (VdValid tg) tg JS CS JT eq_refl E) as [TS TT]. cbn [anchor_link] in TS.
      rewrite TS. cbn [is_self negb]. apply why_none.
      destruct (time_facts c peers last me hd HO MO p t prev i M) as (z & _ & _ & _ & _ & _ & _ & _ & TH).
      rewrite (TT eq_refl). rewrite (TH ks th S); [rewrite N.eqb_refl; reflexivity|]. right. eauto.
    - destruct (indirect_proof i) as [l|] eqn:IP; [|reflexivity]. apply why_none.
      destruct (pid_eqb_spec (i_id tg) (il_to l)) as [E|E]; [|reflexivity]. cbn [andb].
      unfold indirect_proof, chained_proof in IP.
      destruct (role_inv c peers last me hd HO MO p t prev i M) as [R|(k & lo & PV & C)]; [rewrite R in IP; discriminate|].
      destruct C as [(n & Q & _ & _ & R)|[(n & Q & R)|[(Q & PQ & _ & R)|[(Q & PQ & R)|(y & Q & PQ & FE & LE & R)]]]]; rewrite R in IP; try discriminate.
      inversion IP; subst y. destruct sources as (kp & tp & kt & tt' & SP & ST & EP & ET & MT & MP & _).
      rewrite EP in PQ. unfold lnk in PQ. destruct (is_self (anchor_link SProof kp)) eqn:SF; [discriminate|]. inversion PQ; subst l. cbn [il_to] in E.
      destruct (UV kp (src_used last me hd _ _ SP)) as (as' & JS & CS).
      destruct (target as' kp SProof b (VdValid tg) tg JS CS JT eq_refl E) as [TS _]. cbn [anchor_link] in TS. rewrite TS. reflexivity.
  Qed.
  (** dependencies of the point are the points that were used *)
  Lemma dep_used q : In q (dep_ids i) -> exists k, used last me hd k /\ i_id k = q.
  Proof.
    unfold dep_ids. rewrite made_round, (md_inc _ _ _ _ _ _ _ _ _ _ _ _ M), (md_wit _ _ _ _ _ _ _ _ _ _ _ _ M).
    assert (PE : forall z q' a k, point_at c peers q' a k -> z = mkPid q' (i_digest k) (i_author k) -> i_id k = z).
    { intros z q' a k P ->. pose proof (pa_round _ _ _ _ _ P). unfold i_round, i_digest, i_author in *. destruct (i_id k). cbn in *. congruence. }
    intros I. apply in_app_iff in I. destruct I as [I|I]; apply in_map_iff in I; destruct I as ([a d] & E & I);
      destruct (refs_in _ _ _ I) as (a' & k & IK & A & D); exists k; (split; [first [left; eauto; fail | right; eauto]|]); subst a d.
    - eapply PE; [exact (inc_point c peers me hd HO _ _ IK)|]. symmetry. exact E.
    - eapply PE; [exact (proj1 (wit_point c peers last me hd HO _ _ IK))|]. symmetry. exact E.
  Qed.
  Lemma made_valid ds is : Forall (sees h) ds ->
    (forall e, In e ds -> In (d_id (snd e)) (dep_ids i) /\ exists k, d_v (snd e) = VdValid k) ->
    (forall e, In e ds -> prev_id i = Some (d_id (snd e)) -> d_cert (snd e) = true) ->
    Forall (fun e => sees h (fst e)) is ->
    (forall e, In e is -> exists k, d_v (snd (fst e)) = VdValid k /\ i_time k <= i_time i + c_skew c /\ i_time k <= u64_max) ->
    i_round i <> c_genesis c -> info_ok i -> (ldr i = true <-> hd_leader hd = Some me) ->
    validate c (ldr i) i true true true (map (fun e => Some (snd e)) ds) (map (fun e : nat * dagpoint * through => (snd (fst e), snd e)) is) = Some RsValid.
  Proof.
    intros SD VD CD SI VI NG OK LD. pose proof (gr c peers me hd HO) as [G0 G1]. pose proof made_round as MR.
    destruct (ctx_some c peers i V OK NG) as [x MX]. unfold validate.
    destruct (N.ltb_spec (i_round i) (c_genesis c)) as [L|_]; [lia|]. apply N.eqb_neq in NG. rewrite NG. apply N.eqb_neq in NG.
    rewrite (produced_link_ok (ldr i) LD). cbn [negb andb]. rewrite MX.
    assert (JV : forall e k, sees h e -> d_v (snd e) = VdValid k -> exists b, judged h b (VdValid k)).
    { intros e k (en & N & Q) E. exists (fst e), en. split; [exact N|]. rewrite E in Q. destruct Q as [Q|Q]; [symmetry; exact Q|].
      destruct (e_v en); cbn in Q; try discriminate. inversion Q. reflexivity. }
    replace (map (fun e : nat * dagpoint => Some (snd e)) ds) with (map Some (map (fun e : nat * dagpoint => snd e) ds)) by (rewrite map_map; reflexivity).
    assert (PVR : forall d, is_prev_of i d = true -> prev_id i = Some (d_id d)).
    { intros d. unfold is_prev_of, at_prev_loc, prev_id. destruct (prev_digest i) as [pd|]; [|rewrite andb_false_r; discriminate].
      intros B. rewrite !andb_true_iff, !N.eqb_eq in B. destruct B as [[B1 B2] B3]. destruct (d_id d). cbn in *. congruence. }
    assert (DOK : Forall (dep_ok c i x) (map (fun e => snd e) ds)).
    { apply Forall_forall. intros d ID. apply in_map_iff in ID. destruct ID as (e & <- & IE). destruct (VD e IE) as [IDD [k DK]].
      destruct (JV e k (proj1 (Forall_forall _ _) SD e IE) DK) as [b JB].
      destruct (dep_used _ IDD) as (k' & U & EK). destruct (UV k' U) as (a & JA & _).
      assert (DI : d_id (snd e) = i_id k) by (unfold d_id; rewrite DK; reflexivity).
      assert (k' = k) by (apply (IB a b _ _ k' k JA JB eq_refl eq_refl); congruence). subst k'.
      apply (dok_dep c i x (snd e) k).
      - unfold is_other_b. destruct (at_prev_loc i (d_id (snd e))) eqn:AP; [|reflexivity]. cbn [andb]. apply negb_false_iff.
        rewrite DI in AP. unfold at_prev_loc in AP. rewrite andb_true_iff, !N.eqb_eq in AP. destruct AP as [P1 P2]. rewrite MR in P1.
        rewrite (md_author _ _ _ _ _ _ _ _ _ _ _ _ M) in P2.
        assert (IN : In (me, k) inc).
        { destruct U as [[q I]|[q I]].
          - pose proof (inc_author c peers me hd HO _ _ I) as A. unfold i_author in A. congruence.
          - exfalso. destruct (wit_point c peers last me hd HO _ _ I) as [P GW]. pose proof (pa_round _ _ _ _ _ P) as R2. unfold i_round in R2. lia. }
        rewrite DI. unfold prev_digest. rewrite (md_inc _ _ _ _ _ _ _ _ _ _ _ _ M), (md_author _ _ _ _ _ _ _ _ _ _ _ _ M).
        rewrite (refs_get inc me k (inc_author c peers me hd HO) (ho_reached_once _ _ _ _ HO) IN). apply N.eqb_refl.
      - rewrite DK. reflexivity.
      - rewrite DI. apply fine_dep_checks; [reflexivity|]. apply used_fine; [exact MX|exact U|].
        intros B. rewrite <- DI. apply PVR. exact B. }
    assert (PC : Forall (prev_cert i) (map (fun e => snd e) ds)).
    { apply Forall_forall. intros d ID. apply in_map_iff in ID. destruct ID as (e & <- & IE). intros B. apply (CD e IE). apply PVR. exact B. }
    destruct (check_deps_some c i x _ (None, None) PC) as [[rs vs] CE]. rewrite CE.
    destruct (check_deps_spec _ _ _ _ _ _ _ _ CE) as (RS & _ & FR).
    assert (RN : rs = None) by (apply RS; auto). subst rs.
    assert (VN : vs = None).
    { destruct vs as [o|]; [|reflexivity]. exfalso. destruct (FR o eq_refl) as [Q|(d & ID & DC)]; [discriminate|].
      apply in_map_iff in ID. destruct ID as (e & <- & IE). destruct (VD e IE) as [_ [k DK]].
      unfold dcause, cause in DC. rewrite DK in DC. destruct (is_other_b i (snd e)); discriminate. }
    subst vs.
    destruct (check_indirect c i x (map (fun e : nat * dagpoint * through => (snd (fst e), snd e)) is) (None, None)) as [ri vi] eqn:CI.
    destruct (check_indirect_spec _ _ _ _ _ _ _ _ CI) as (RI & _ & FI).
    assert (RIN : ri = None).
    { apply RI. split; [reflexivity|]. apply Forall_forall. intros d ID. apply in_map_iff in ID. destruct ID as (e & <- & IE).
      destruct (VI e IE) as (k & DK & TL & TU). exists k. cbn [fst]. rewrite DK. split; [reflexivity|].
      destruct (JV (fst e) k (proj1 (Forall_forall _ _) SI e IE) DK) as [b JB].
      assert (DI : d_id (snd (fst e)) = i_id k) by (unfold d_id; rewrite DK; reflexivity). rewrite DI.
      exact (target_fine x b k MX JB TL TU). }
    subst ri. destruct vi as [o|]; [|reflexivity]. exfalso.
    destruct (FI o eq_refl) as [Q|(d & ID & DC)]; [discriminate|].
    apply in_map_iff in ID. destruct ID as (e & <- & IE). destruct (VI e IE) as (k & DK & _).
    unfold cause in DC. cbn [fst] in DC. rewrite DK in DC. discriminate.
  Qed.
End Judge.
