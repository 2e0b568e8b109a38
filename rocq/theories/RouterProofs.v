From Verif Require Export RouterModel QueueKeysProofs.
From Coq Require Import ZifyBool ZifyNat ZifyN.
Local Open Scope N_scope.

Lemma ra_eqb_spec a b : reflect (a = b) (ra_eqb a b).
Proof.
  unfold ra_eqb. destruct a as [w1 p1], b as [w2 p2]; cbn [ra_wc ra_acc].
  destruct (Z.eqb_spec w1 w2); destruct (N.eqb_spec p1 p2); cbn; constructor; congruence.
Qed.

Lemma ra_cmp_total : total_order ra_cmp.
Proof.
  assert (E : forall a b, ra_cmp a b = Eq <-> a = b).
  { intros [w1 p1] [w2 p2]. unfold ra_cmp, cmp_then; cbn [ra_wc ra_acc].
    destruct (Z.compare_spec w1 w2); destruct (N.compare_spec p1 p2);
      split; intros E; try discriminate; subst; try reflexivity; injection E; lia. }
  split; auto.
  - intros a b. unfold ra_cmp. rewrite (Z.compare_antisym (ra_wc a)), (N.compare_antisym (ra_acc a)).
    destruct (ra_wc a ?= ra_wc b)%Z; reflexivity.
  - intros a b c. unfold ra_cmp, cmp_then.
    destruct (Z.compare_spec (ra_wc a) (ra_wc b)); destruct (Z.compare_spec (ra_wc b) (ra_wc c));
    destruct (Z.compare_spec (ra_wc a) (ra_wc c)); try discriminate; try lia; auto;
    rewrite !N.compare_lt_iff; lia.
Qed.

Lemma N_total : total_order N.compare.
Proof.
  split.
  - intros; apply N.compare_eq_iff.
  - intros; apply N.compare_antisym.
  - intros a b c; rewrite !N.compare_lt_iff; lia.
Qed.

Definition rt_ok (r : router) : Prop := NoDup (akeys (rt_src r)) /\ NoDup (akeys (rt_dst r)).

Lemma rt_ok_empty : rt_ok rt_empty.
Proof. split; constructor. Qed.

Lemma rstep_ok r o : rt_ok r -> rt_ok (rstep r o).
Proof.
  intros [H1 H2]. unfold rstep. destruct o as [a p|a p]; cbn.
  - unfold insert_src. destruct (p =? 0); [split; auto|]. destruct (from_int_addr a); [|split; auto].
    split; cbn; auto. apply aset_nodup; auto. apply ra_eqb_spec.
  - unfold insert_dst. destruct (p =? 0); [split; auto|]. destruct (from_int_addr a); [|split; auto].
    split; cbn; auto. apply aset_nodup; auto. apply ra_eqb_spec.
Qed.

(** *** lookups after a history *)
Definition assigned_src (ops : list rop) (a : raddr) (d : option N) : option N :=
  fold_left (fun acc o => match o with
     | RSrc (IStd a') p => if ra_eqb a a' && negb (p =? 0) then Some p else acc
     | _ => acc end) ops d.
Definition assigned_dst (ops : list rop) (a : raddr) (d : option N) : option N :=
  fold_left (fun acc o => match o with
     | RDst (IStd a') p => if ra_eqb a a' && negb (p =? 0) then Some p else acc
     | _ => acc end) ops d.

Lemma run_src ops r a :
  aget ra_eqb a (rt_src (fold_left rstep ops r)) = assigned_src ops a (aget ra_eqb a (rt_src r)).
Proof.
  revert r; induction ops as [|o ops IH]; intros r; [reflexivity|].
  cbn [fold_left]. rewrite IH. unfold assigned_src. cbn [fold_left]. f_equal.
  destruct o as [[a'|t] p|[a'|t] p]; unfold rstep; cbn [insert_src insert_dst from_int_addr].
  - unfold insert_src. destruct (p =? 0) eqn:Ep; cbn [from_int_addr negb]; rewrite ?andb_false_r; auto.
    cbn [rt_src]. rewrite aget_aset by apply ra_eqb_spec. now rewrite andb_true_r.
  - unfold insert_src. destruct (p =? 0); reflexivity.
  - unfold insert_dst. destruct (p =? 0); reflexivity.
  - unfold insert_dst. destruct (p =? 0); reflexivity.
Qed.

Lemma run_dst ops r a :
  aget ra_eqb a (rt_dst (fold_left rstep ops r)) = assigned_dst ops a (aget ra_eqb a (rt_dst r)).
Proof.
  revert r; induction ops as [|o ops IH]; intros r; [reflexivity|].
  cbn [fold_left]. rewrite IH. unfold assigned_dst. cbn [fold_left]. f_equal.
  destruct o as [[a'|t] p|[a'|t] p]; unfold rstep; cbn [insert_src insert_dst from_int_addr].
  - unfold insert_src. destruct (p =? 0); reflexivity.
  - unfold insert_src. destruct (p =? 0); reflexivity.
  - unfold insert_dst. destruct (p =? 0) eqn:Ep; cbn [from_int_addr negb]; rewrite ?andb_false_r; auto.
    cbn [rt_dst]. rewrite aget_aset by apply ra_eqb_spec. now rewrite andb_true_r.
  - unfold insert_dst. destruct (p =? 0); reflexivity.
Qed.

(** *** export *)
Definition in_parts (ps : rparts) (a : raddr) (p : N) : Prop :=
  exists s, oget N.compare p ps = Some s /\ oget ra_cmp a s = Some tt.

Definition parts_sorted (ps : rparts) : Prop :=
  osorted N.compare ps /\ Forall (fun e => osorted ra_cmp (snd e) /\ snd e <> []) ps.

Lemma oput_forall {K V} (cmp : K -> K -> comparison) (P : K * V -> Prop) k v m :
  Forall P m -> P (k, v) -> Forall P (oput cmp k v m).
Proof.
  intros H Hk. induction m as [|[k' v'] m IH]; cbn [oput]; [auto|].
  inversion H; subst. destruct (cmp k k'); auto.
Qed.
Lemma oput_not_nil {K V} (cmp : K -> K -> comparison) k (v:V) m : oput cmp k v m <> [].
Proof. destruct m as [|[k' v'] m]; cbn; [discriminate|]. destruct (cmp k k'); discriminate. Qed.

Lemma to_parts_gen m : forall res, parts_sorted res ->
  let out := fold_left (fun res '(a, p) =>
     let s := match oget N.compare p res with Some s => s | None => [] end in
     oput N.compare p (oput ra_cmp a tt s) res) m res in
  parts_sorted out /\
  forall a p, in_parts out a p <-> in_parts res a p \/ In (a, p) m.
Proof.
  induction m as [|[a0 p0] m IH]; intros res Hr; cbn [fold_left].
  - split; auto. intros; cbn; tauto.
  - set (s0 := match oget N.compare p0 res with Some s => s | None => [] end).
    assert (Hs0 : osorted ra_cmp s0).
    { unfold s0. destruct Hr as [Hr1 Hr2]. destruct (oget N.compare p0 res) eqn:E; [|constructor].
      apply (oin_get _ N_total) in E; auto. rewrite Forall_forall in Hr2. apply Hr2 in E. apply E. }
    assert (Hr' : parts_sorted (oput N.compare p0 (oput ra_cmp a0 tt s0) res)).
    { destruct Hr as [Hr1 Hr2]. split.
      - apply oput_sorted; auto. apply N_total.
      - apply oput_forall; auto. cbn. split; [apply oput_sorted; auto; apply ra_cmp_total|apply oput_not_nil]. }
    destruct (IH _ Hr') as [H1 H2]. split; [exact H1|].
    intros a p. eapply iff_trans; [apply H2|]. cbn [In].
    assert (Hstep : in_parts (oput N.compare p0 (oput ra_cmp a0 tt s0) res) a p <->
                    in_parts res a p \/ (a0, p0) = (a, p)).
    { unfold in_parts. rewrite oget_put by (apply N_total || apply Hr).
      destruct (p ?= p0) eqn:E.
      - apply N.compare_eq_iff in E. subst p. split.
        + intros (s & Es & Ea). injection Es as <-.
          rewrite oget_put in Ea by (apply ra_cmp_total || exact Hs0).
          destruct (ra_cmp a a0) eqn:Ec.
          * apply (to_eq _ ra_cmp_total) in Ec; subst. auto.
          * left. unfold s0 in Ea. destruct (oget N.compare p0 res) eqn:Eg; [eauto|discriminate].
          * left. unfold s0 in Ea. destruct (oget N.compare p0 res) eqn:Eg; [eauto|discriminate].
        + intros [(s & Es & Ea)|Ee].
          * eexists; split; [reflexivity|]. rewrite oget_put by (apply ra_cmp_total || exact Hs0).
            unfold s0. rewrite Es. destruct (ra_cmp a a0); auto.
          * injection Ee as <-. eexists; split; [reflexivity|].
            rewrite oget_put by (apply ra_cmp_total || exact Hs0).
            rewrite (ocmp_refl _ ra_cmp_total). reflexivity.
      - split; [tauto|]. intros [H|Ee]; auto. injection Ee as -> ->. rewrite N.compare_refl in E; discriminate.
      - split; [tauto|]. intros [H|Ee]; auto. injection Ee as -> ->. rewrite N.compare_refl in E; discriminate. }
    rewrite Hstep. tauto.
Qed.

Lemma to_parts_spec m : parts_sorted (to_parts m) /\
  forall a p, in_parts (to_parts m) a p <-> In (a, p) m.
Proof.
  destruct (to_parts_gen m []) as [H1 H2]; [split; constructor|].
  split; [exact H1|]. intros a p. eapply iff_trans; [apply H2|].
  split; [|auto]. intros [(s & E & _)|H]; [discriminate|auto].
Qed.

(** *** import *)
Lemma set_all_get p (accs : raset) : forall r a, osorted ra_cmp accs ->
  aget ra_eqb a (extend_part p accs r) =
  match oget ra_cmp a accs with Some _ => Some p | None => aget ra_eqb a r end.
Proof.
  unfold extend_part. induction accs as [|[a0 []] accs IH]; intros r a Hs; [reflexivity|].
  inversion Hs as [|? ? ? Hs' Hf]; subst. cbn [fold_left oget fst]. rewrite IH by assumption.
  rewrite aget_aset by apply ra_eqb_spec.
  destruct (ra_cmp a a0) eqn:E.
  - apply (to_eq _ ra_cmp_total) in E. subst.
    destruct (ra_eqb_spec a0 a0); [|congruence].
    now rewrite oget_none_lt.
  - rewrite oget_none_lt.
    + destruct (ra_eqb_spec a a0); auto. subst. rewrite (ocmp_refl _ ra_cmp_total) in E. discriminate.
    + eapply Forall_impl; [|exact Hf]. intros e He. eapply (to_trans _ ra_cmp_total); eauto.
  - destruct (oget ra_cmp a accs); auto.
    destruct (ra_eqb_spec a a0); auto. subst. rewrite (ocmp_refl _ ra_cmp_total) in E. discriminate.
Qed.

Lemma set_all_nodup p (accs : raset) : forall r, NoDup (akeys r) ->
  NoDup (akeys (extend_part p accs r)).
Proof.
  unfold extend_part. induction accs as [|[a0 u] accs IH]; intros r H; cbn [fold_left]; auto.
  apply IH, aset_nodup; auto. apply ra_eqb_spec.
Qed.

Lemma convert_gen ps : forall res st, Forall (fun e => osorted ra_cmp (snd e) /\ snd e <> []) ps ->
  NoDup (akeys res) ->
  NoDup (akeys (fst (fold_left (fun '(res, st) '(p, accs) =>
      (extend_part p accs res,
       stat_add p (N.of_nat (length accs)) st)) ps (res, st)))) /\
  forall a, (forall p q, (exists s, In (p, s) ps /\ oget ra_cmp a s = Some tt) ->
                    (exists s, In (q, s) ps /\ oget ra_cmp a s = Some tt) -> p = q) ->
  forall p, aget ra_eqb a (fst (fold_left (fun '(res, st) '(p, accs) =>
      (extend_part p accs res,
       stat_add p (N.of_nat (length accs)) st)) ps (res, st))) = Some p <->
   ((exists s, In (p, s) ps /\ oget ra_cmp a s = Some tt) \/
    (aget ra_eqb a res = Some p /\ ~ exists q s, In (q, s) ps /\ oget ra_cmp a s = Some tt)).
Proof.
  induction ps as [|[p0 s0] ps IH]; intros res st Hs Hn; cbn [fold_left fst].
  - split; auto. intros a _ p. split.
    + intros E. right. split; auto. intros (q & s & H & _). destruct H.
    + intros [(s & H & _)|[H _]]; [destruct H|auto].
  - inversion Hs as [|? ? [Hs0 _] Hs']; subst. cbn [snd] in Hs0.
    destruct (IH (extend_part p0 s0 res)
                 (stat_add p0 (N.of_nat (length s0)) st) Hs') as [N1 H1].
    { apply set_all_nodup; auto. }
    split; [exact N1|]. intros a Huniq p.
    rewrite H1.
    2:{ intros p1 q1 (s1 & I1 & G1) (s2 & I2 & G2). apply Huniq; [exists s1|exists s2]; cbn; auto. }
    rewrite set_all_get by assumption.
    split.
    + intros [(s & I & G)|[E Hno]].
      * left. exists s; cbn; auto.
      * destruct (oget ra_cmp a s0) as [[]|] eqn:E0.
        -- injection E as <-. left. exists s0; cbn; auto.
        -- right. split; auto. intros (q & s & [I|I] & G); [injection I as <- <-; congruence|].
           apply Hno; eauto.
    + intros [(s & [I|I] & G)|[E Hno]].
      * injection I as <- <-. rewrite G.
        destruct (existsb (fun e => match oget ra_cmp a (snd e) with Some _ => true | None => false end) ps) eqn:Ex.
        -- left. apply existsb_exists in Ex as ([q s] & I & G2). cbn in G2.
           destruct (oget ra_cmp a s) as [[]|] eqn:G3; [|discriminate].
           exists s. assert (p0 = q). { apply Huniq; [exists s0|exists s]; cbn; auto. }
           subst. auto.
        -- right. split; auto. intros (q & s & I & G2).
           assert (Ex' : existsb (fun e => match oget ra_cmp a (snd e) with Some _ => true | None => false end) ps = true).
           { apply existsb_exists. exists (q, s). cbn. rewrite G2. auto. }
           congruence.
      * left. exists s; auto.
      * right. destruct (oget ra_cmp a s0) as [[]|] eqn:E0.
        -- exfalso. apply Hno. exists p0, s0. cbn; auto.
        -- split; auto. intros (q & s & I & G). apply Hno. exists q, s. cbn; auto.
Qed.

Lemma convert_to_parts m st a : NoDup (akeys m) ->
  aget ra_eqb a (fst (convert (to_parts m) st)) = aget ra_eqb a m.
Proof.
  intros Hn. destruct (to_parts_spec m) as [[Hs1 Hs2] Hin].
  unfold convert. destruct (convert_gen (to_parts m) [] st Hs2) as [_ H]; [constructor|].
  assert (Hiff : forall p, (exists s, In (p, s) (to_parts m) /\ oget ra_cmp a s = Some tt) <-> aget ra_eqb a m = Some p).
  { intros p. rewrite <- (aget_in ra_eqb ra_eqb_spec) by exact Hn. rewrite <- Hin. unfold in_parts.
    split; intros (s & H1 & H2); exists s; split; auto; apply (oin_get _ N_total); auto. }
  specialize (H a). destruct (aget ra_eqb a m) as [p|] eqn:E.
  - apply H; [|left; now apply Hiff]. intros p1 q1 H1 H2. apply Hiff in H1, H2. congruence.
  - match goal with |- ?x = None => destruct x as [p|] eqn:E2; auto end.
    apply H in E2.
    + destruct E2 as [E2|[E2 _]]; [apply Hiff in E2|]; discriminate.
    + intros p1 q1 H1 H2. apply Hiff in H1, H2. congruence.
Qed.

Lemma export_import r : rt_ok r -> forall s d,
  get_partition (with_partitions (to_router_partitions_src r) (to_router_partitions_dst r)) s d
  = get_partition r s d.
Proof.
  intros [H1 H2] s d.
  unfold with_partitions, to_router_partitions_src, to_router_partitions_dst.
  destruct (convert (to_parts (rt_src r)) []) as [s' st1] eqn:E1.
  destruct (convert (to_parts (rt_dst r)) st1) as [d' st2] eqn:E2.
  assert (G1 : forall a, aget ra_eqb a s' = aget ra_eqb a (rt_src r)).
  { intros a. rewrite <- (convert_to_parts (rt_src r) [] a H1), E1. reflexivity. }
  assert (G2 : forall a, aget ra_eqb a d' = aget ra_eqb a (rt_dst r)).
  { intros a. rewrite <- (convert_to_parts (rt_dst r) st1 a H2), E2. reflexivity. }
  unfold get_partition; cbn [rt_src rt_dst].
  destruct (from_int_addr d) as [da|]; rewrite ?G2; destruct s as [s0|]; auto;
    destruct (from_int_addr s0); rewrite ?G1; reflexivity.
Qed.

Lemma run_ok ops r : rt_ok r -> rt_ok (fold_left rstep ops r).
Proof. revert r; induction ops as [|o ops IH]; intros r H; cbn [fold_left]; auto. apply IH, rstep_ok, H. Qed.

Lemma assigned_src_nz ops a d p : (forall q, d = Some q -> q <> 0) -> assigned_src ops a d = Some p -> p <> 0.
Proof.
  revert d; induction ops as [|o ops IH]; intros d Hd; cbn [assigned_src fold_left]; [apply Hd|].
  apply IH. destruct o as [[a'|t] q|[a'|t] q]; auto.
  destruct (ra_eqb a a'); destruct (N.eqb_spec q 0); cbn; auto. intros q' E; injection E as <-; auto.
Qed.
Lemma assigned_dst_nz ops a d p : (forall q, d = Some q -> q <> 0) -> assigned_dst ops a d = Some p -> p <> 0.
Proof.
  revert d; induction ops as [|o ops IH]; intros d Hd; cbn [assigned_dst fold_left]; [apply Hd|].
  apply IH. destruct o as [[a'|t] q|[a'|t] q]; auto.
  destruct (ra_eqb a a'); destruct (N.eqb_spec q 0); cbn; auto. intros q' E; injection E as <-; auto.
Qed.

(** *** per-partition address counters *)
Definition count_in (p : N) (m : amap raddr N) : N :=
  N.of_nat (length (filter (fun e => snd e =? p) m)).
Definition stat_of (p : N) (m : amap N N) : N := match aget N.eqb p m with Some c => c | None => 0 end.
Definition stats_exact (r : router) : Prop :=
  forall p, stat_of p (rt_stats r) = count_in p (rt_src r) + count_in p (rt_dst r).

Lemma count_fresh a p q m : aget ra_eqb a m = None ->
  count_in q (aset ra_eqb a p m) = count_in q m + (if p =? q then 1 else 0).
Proof.
  unfold count_in. induction m as [|[a' p'] m IH]; cbn [aget aset filter snd].
  - intros _. destruct (p =? q); reflexivity.
  - destruct (ra_eqb a a') eqn:E; [discriminate|]. intros H. specialize (IH H).
    cbn [filter snd]. destruct (p' =? q); cbn [length]; lia.
Qed.
Lemma count_same a p q m : aget ra_eqb a m = Some p ->
  count_in q (aset ra_eqb a p m) = count_in q m.
Proof.
  unfold count_in. induction m as [|[a' p'] m IH]; cbn [aget aset filter snd]; [discriminate|].
  destruct (ra_eqb_spec a a') as [->|Hn].
  - intros E; injection E as ->. reflexivity.
  - intros H. specialize (IH H). cbn [filter snd]. destruct (p' =? q); cbn [length]; lia.
Qed.
Lemma stat_add_get k d m q : stat_of q (stat_add k d m) = stat_of q m + (if k =? q then d else 0).
Proof.
  unfold stat_of, stat_add. rewrite aget_aset by apply N.eqb_spec.
  destruct (N.eqb_spec q k) as [->|H].
  - rewrite N.eqb_refl. destruct (aget N.eqb k m); lia.
  - destruct (N.eqb_spec k q); [congruence|]. lia.
Qed.

(** an insertion that does not move an already registered address to another partition *)
Definition not_moving (r : router) (o : rop) : Prop :=
  match o with
  | RSrc (IStd a) p => forall q, aget ra_eqb a (rt_src r) = Some q -> q = p
  | RDst (IStd a) p => forall q, aget ra_eqb a (rt_dst r) = Some q -> q = p
  | _ => True
  end.
Fixpoint never_moving (r : router) (ops : list rop) : Prop :=
  match ops with [] => True | o :: ops => not_moving r o /\ never_moving (rstep r o) ops end.

Lemma rstep_stats r o : not_moving r o -> stats_exact r -> stats_exact (rstep r o).
Proof.
  intros Hm Hs q. unfold rstep.
  destruct o as [[a|t] p|[a|t] p]; cbn [not_moving] in Hm;
    unfold insert_src, insert_dst; destruct (p =? 0); try apply Hs; cbn [from_int_addr];
    try apply Hs; cbn [rt_src rt_dst rt_stats].
  - destruct (aget ra_eqb a (rt_src r)) as [p'|] eqn:E.
    + rewrite (Hm p' eq_refl) in E. rewrite count_same by exact E. apply Hs.
    + rewrite stat_add_get, count_fresh by exact E. rewrite (Hs q). destruct (p =? q); lia.
  - destruct (aget ra_eqb a (rt_dst r)) as [p'|] eqn:E.
    + rewrite (Hm p' eq_refl) in E. rewrite count_same by exact E. apply Hs.
    + rewrite stat_add_get, count_fresh by exact E. rewrite (Hs q). destruct (p =? q); lia.
Qed.

Lemma run_stats ops r : never_moving r ops -> stats_exact r -> stats_exact (fold_left rstep ops r).
Proof.
  revert r; induction ops as [|o ops IH]; intros r; cbn [never_moving fold_left]; auto.
  intros [H1 H2] Hs. apply IH; auto. now apply rstep_stats.
Qed.
