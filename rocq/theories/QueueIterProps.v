(** C11: reading the queue through the merge iterator. *)
From Verif Require Import QueueIterHist QueueExtra.
From Coq Require Import ZifyBool ZifyN ZifyNat Lia Sorted.
Local Open Scope N_scope.
Local Opaque enc_mkey enc_qkey enc_shard be le lex de msg_header.

(** ** Specification *)
(** (lt, hash) order *)
Definition key_lt (a b : qkey) : Prop := qk_lt a < qk_lt b \/ (qk_lt a = qk_lt b /\ qk_hash a < qk_hash b).
Definition key_le' (a b : qkey) : Prop := a = b \/ key_lt a b.
(** [k] lies in the bounded range *)
Definition in_bounds (b : brange) (k : qkey) : Prop :=
  match br_from b with Incl f => key_le' f k | Excl f => key_lt f k end /\
  match br_to b with Incl t => key_le' k t | Excl t => key_lt k t end.
(** the shard with prefix (2j+1) * 2^t owns the addresses whose first 64 bits lie in [2j * 2^t, (2j+2) * 2^t) *)
Definition owns (r : shard) (a : raddr) : Prop :=
  sh_wc r = ra_wc a /\ exists j t, sh_prefix r = (2 * j + 1) * 2 ^ t /\ 2 * j * 2 ^ t <= ra_acc a / 2 ^ 192 < (2 * j + 2) * 2 ^ t.
(** the messages a reader of partition [part] for shard [recv] is entitled to *)
Definition addressed (st : store) (part : N) (ranges : list brange) (recv : shard) (s : shard) (m : msg) : Prop :=
  (exists b, In b ranges /\ br_shard b = s /\ in_bounds b (m_key m)) /\
  (exists h, msg_at st part s (m_key m) = Some (h, m)) /\ owns recv (m_dst m).
(** a bound is an ordinary key: a "past the end of QueueKey::MAX" bound cannot be expressed by the code *)
Definition bound_ok (from : bool) (b : bound) : Prop :=
  match b with
  | Incl k => qk_ok k /\ (from = false -> k <> QK (2 ^ 64 - 1) (2 ^ 256 - 1))
  | Excl k => qk_ok k /\ (from = true -> k <> QK (2 ^ 64 - 1) (2 ^ 256 - 1))
  end.
Definition ranges_ok (ranges : list brange) : Prop :=
  Forall (fun b => sh_ok (br_shard b) /\ bound_ok true (br_from b) /\ bound_ok false (br_to b)) ranges /\
  NoDup (map br_shard ranges).
(** history in which every diff files its messages under their own keys *)
Definition keyed (tr : list (qstate * qop)) : Prop := Forall (fun x => keyed_op (snd x)) tr.

(** ** Proofs *)
Lemma key_lt_iff a b : key_lt a b <-> qk_ltb a b = true.
Proof. unfold key_lt. now rewrite qk_ltb_iff. Qed.
Lemma key_le_iff a b : key_le' a b <-> qk_leb a b = true.
Proof. unfold key_le', key_lt. rewrite qk_leb_iff, qk_eq_iff. lia. Qed.

Lemma ctz_spec p : exists j, Npos p = (2 * j + 1) * 2 ^ ctz p.
Proof.
  induction p as [p IH|p IH|].
  - exists (Npos p). cbn [ctz]. change (2 ^ 0) with 1. lia.
  - destruct IH as (j & E). exists j. cbn [ctz]. rewrite N.pow_succ_r', N.mul_assoc.
    replace ((2 * j + 1) * 2) with (2 * (2 * j + 1)) by lia. rewrite <- N.mul_assoc, <- E. lia.
  - exists 0. reflexivity.
Qed.
Lemma odd_pow_unique t : forall t' j j', (2 * j + 1) * 2 ^ t = (2 * j' + 1) * 2 ^ t' -> t = t' /\ j = j'.
Proof.
  induction t as [|t IH] using N.peano_ind; intros t' j j' E; destruct t' as [|t'] using N.peano_ind.
  - change (2 ^ 0) with 1 in E. lia.
  - rewrite N.pow_succ_r' in E. change (2 ^ 0) with 1 in E. exfalso.
    assert (2 * j + 1 = 2 * ((2 * j' + 1) * 2 ^ t')) by lia. lia.
  - rewrite N.pow_succ_r' in E. change (2 ^ 0) with 1 in E. exfalso.
    assert (2 * j' + 1 = 2 * ((2 * j + 1) * 2 ^ t)) by lia. lia.
  - rewrite !N.pow_succ_r' in E. destruct (IH t' j j') as [-> ->]; [lia|auto].
Qed.

Lemma acc_owns recv m : acc recv m = true <-> owns recv (m_dst m).
Proof.
  unfold acc, contains_address, owns, ra_prefix. destruct (sh_prefix recv) as [|p].
  - split; [discriminate|]. intros (_ & j & t & E & _). exfalso. pose proof (N.pow_nonzero 2 t). lia.
  - destruct (ctz_spec p) as (j & E). rewrite andb_true_iff, Z.eqb_eq, N.eqb_eq.
    generalize (ra_acc (m_dst m) / 2 ^ 192). intros a. rewrite !N.shiftr_div_pow2. rewrite N.add_1_r, N.pow_succ_r'.
    generalize dependent (ctz p). intros T E. assert (P : 0 < 2 ^ T) by (pose proof (N.pow_nonzero 2 T); lia).
    assert (Ej : N.pos p / (2 * 2 ^ T) = j).
    { symmetry. apply N.div_unique with (2 ^ T); [lia|]. rewrite E. lia. }
    rewrite Ej. split.
    + intros [Hw Ha]. split; auto. exists j, T. split; auto.
      pose proof (N.div_mod a (2 * 2 ^ T)) as D. rewrite <- Ha in D.
      pose proof (N.mod_lt a (2 * 2 ^ T)) as L. clear - D L P. revert D L P. generalize (2 ^ T). intros x. generalize (a mod (2 * x)). intros r D L P.
      assert (NZ : 2 * x <> 0) by (clear - P; lia). specialize (D NZ). specialize (L NZ). clear NZ. lia.
    + intros (Hw & j' & t' & E' & B). split; auto. rewrite E in E'. apply odd_pow_unique in E' as [<- <-].
      revert B P. generalize (2 ^ T). clear. intros x B P. apply N.div_unique with (a - 2 * j * x); lia.
Qed.

Lemma to_range_ok b : sh_ok (br_shard b) -> bound_ok true (br_from b) -> bound_ok false (br_to b) ->
  qk_ok (sr_from (to_range b)) /\ qk_ok (sr_to (to_range b)) /\
  forall k, qk_ok k -> (qk_leb (sr_from (to_range b)) k = true /\ qk_ltb k (sr_to (to_range b)) = true <-> in_bounds b k).
Proof.
  intros _ Hf Ht. unfold to_range, in_bounds. cbn [sr_from sr_to].
  assert (NL : forall k k', qk_ok k -> k <> QK (2 ^ 64 - 1) (2 ^ 256 - 1) -> qk_ok k' ->
     (qk_leb (next_value k) k' = true <-> key_lt k k') /\ (qk_ltb k' (next_value k) = true <-> key_le' k' k)).
  { intros k k' Hk Hne Hk'. pose proof (next_value_gt k Hk Hne) as G. apply qk_cmp_lt in G.
    assert (LL : qk_ltb k k' = true -> qk_leb (next_value k) k' = true).
    { intros L. unfold qk_ltb in L. destruct (qk_cmp k k') eqn:E; try discriminate.
      pose proof (next_value_least k k' Hk' E) as N. unfold qk_leb. destruct (qk_cmp (next_value k) k'); congruence. }
    split; [rewrite key_lt_iff|rewrite key_le_iff]; split; auto.
    - rewrite qk_leb_iff, qk_ltb_iff. lia.
    - intros L. destruct (qk_leb k' k) eqn:E; auto. apply qk_leb_false in E.
      assert (L2 : qk_ltb k k' = true) by (apply qk_ltb_iff; lia). apply LL in L2. rewrite qk_leb_iff in L2. rewrite qk_ltb_iff in L. lia.
    - rewrite qk_leb_iff, qk_ltb_iff. lia. }
  split; [|split].
  - destruct (br_from b); cbn in Hf; [apply Hf|apply next_value_ok, Hf].
  - destruct (br_to b); cbn in Ht; [apply next_value_ok, Ht|apply Ht].
  - intros k Hk. destruct (br_from b) as [f|f], (br_to b) as [t|t]; cbn in Hf, Ht; destruct Hf as [Hf1 Hf2], Ht as [Ht1 Ht2];
      rewrite ?(fun H => proj1 (NL f k Hf1 (Hf2 eq_refl) H)), ?(fun H => proj2 (NL t k Ht1 (Ht2 eq_refl) H)) by auto;
      rewrite <- ?key_le_iff, <- ?key_lt_iff; reflexivity.
Qed.

Section Reader.
  Variables (z : N) (tr : list (qstate * qop)) (q : qstate) (part : N) (ranges : list brange) (recv : shard) (it : sit).
  Hypothesis Hreach : reach z tr q.
  Hypothesis Hkeyed : keyed tr.
  Hypothesis Hpart : part < 2 ^ 16.
  Hypothesis Hranges : ranges_ok ranges.
  Hypothesis Hit : iterator (q_st q) part (map to_range ranges) = Some it.
  Let src := it_iters it.

  Lemma rows_ok : Forall stored_row (st_msgs (q_st q)).
  Proof. exact (reach_rows z tr q Hreach Hkeyed). Qed.
  Lemma msgs_sorted : kv_sorted (st_msgs (q_st q)).
  Proof. apply wf_msgs, inv_wf, qi_st, (reach_inv _ _ _ Hreach). Qed.

  Lemma it_eq : it = SIT (map (fun r => (sr_shard r, iter_messages (q_st q) (MK part (sr_shard r) (sr_from r))
                                                           (MK part (sr_shard r) (sr_to r)))) (map to_range ranges)) [] [] [].
  Proof. unfold iterator in Hit. destruct (has_dup _); [discriminate|]. congruence. Qed.

  Lemma src_in s L : In (s, L) src <-> exists b, In b ranges /\ br_shard b = s /\
    L = iter_messages (q_st q) (MK part s (sr_from (to_range b))) (MK part s (sr_to (to_range b))).
  Proof.
    unfold src. rewrite it_eq. cbn [it_iters]. rewrite map_map, in_map_iff. split.
    - intros (b & E & Hb). injection E as <- <-. exists b. auto.
    - intros (b & Hb & <- & ->). exists b. auto.
  Qed.
  Lemma src_keys : map fst src = map br_shard ranges.
  Proof. unfold src. rewrite it_eq. cbn [it_iters]. rewrite !map_map. reflexivity. Qed.

  Lemma range_at b : In b ranges -> sh_ok (br_shard b) /\ mk_ok (MK part (br_shard b) (sr_from (to_range b))) /\
    mk_ok (MK part (br_shard b) (sr_to (to_range b))) /\
    forall k, qk_ok k -> (qk_leb (sr_from (to_range b)) k = true /\ qk_ltb k (sr_to (to_range b)) = true <-> in_bounds b k).
  Proof.
    intros Hb. destruct Hranges as [HF _]. rewrite Forall_forall in HF. destruct (HF b Hb) as (H1 & H2 & H3).
    destruct (to_range_ok b H1 H2 H3) as (K1 & K2 & K3). split; auto. split; [split; [auto|split; auto]|]. split; [split; [auto|split; auto]|]. exact K3.
  Qed.

  Lemma src_nodup : NoDup (map fst src). Proof. rewrite src_keys. apply Hranges. Qed.

  Definition rows_of (s : shard) : list row := match aget sh_eqb s src with Some l => l | None => [] end.
  Lemma rows_of_in s L : In (s, L) src -> rows_of s = L.
  Proof. intros H. unfold rows_of. apply (aget_in sh_eqb sh_eqb_spec) in H; [|apply src_nodup]. now rewrite H. Qed.

  Lemma rows_good s : In s (map fst src) -> Forall (good_row part s) (rows_of s).
  Proof.
    intros Hs. apply in_map_iff in Hs as ([s' L] & E & HL). cbn in E. subst s'. rewrite (rows_of_in _ _ HL).
    apply src_in in HL as (b & Hb & <- & ->). destruct (range_at b Hb) as (_ & H1 & H2 & _).
    apply Forall_forall. intros e He. apply scan_in in He as (_ & G & _); auto. apply rows_ok.
  Qed.

  Lemma src_rows_sorted s L : In (s, L) src -> rows_sorted L.
  Proof.
    intros HL. apply src_in in HL as (b & Hb & <- & ->). destruct (range_at b Hb) as (_ & H1 & H2 & _).
    apply scan_sorted; auto; [apply msgs_sorted|apply rows_ok].
  Qed.

  Lemma inv_init : inv recv part src (it_iters it) it [] (fun _ => []) (fun _ => None) rows_of.
  Proof.
    assert (E : it_heap it = [] /\ it_inq it = [] /\ it_pos it = []) by (rewrite it_eq; auto).
    destruct E as (E1 & E2 & E3). split; rewrite ?E1, ?E2, ?E3.
    - apply rows_good.
    - intros s L HL. cbn. symmetry. now apply rows_of_in.
    - apply src_nodup.
    - intros s l Hl. split; [now apply (in_map fst) in Hl|]. symmetry. now apply rows_of_in.
    - intros s Hs Hn. contradiction.
    - constructor.
    - intros s m. split; [intros []|intros (_ & e & E & _); discriminate].
    - intros s. split; [intros []|intros (m & [])].
    - discriminate.
    - intros s. cbn. now destruct (existsb _ _).
    - reflexivity.
    - intros x [].
    - constructor.
    - intros x s e [].
  Qed.

  Lemma run_inv out st : it_run recv it out st -> exists A H B, inv recv part src (it_iters st) st out A H B.
  Proof.
    induction 1 as [|out st1 x st2 Hr IH Hn].
    - eexists _, _, _. apply inv_init.
    - destruct IH as (A & H & B & Hi). eapply next_inv; eauto. exact src_rows_sorted.
  Qed.

  (** the rows of a shard are exactly the addressed messages and the skipped ones *)
  Lemma addressed_rows s m : addressed (q_st q) part ranges recv s m <->
    exists L e, In (s, L) src /\ In e L /\ rm e = m /\ acc recv m = true.
  Proof.
    unfold addressed. split.
    - intros ((b & Hb & Hs & Hbo) & (h & Hm) & Ho). subst s. unfold msg_at in Hm.
      apply kv_in_get in Hm; [|apply msgs_sorted]. destruct (range_at b Hb) as (S1 & S2 & S3 & S4).
      pose proof rows_ok as HF. rewrite Forall_forall in HF. destruct (HF _ Hm) as [(p' & s' & G) _].
      pose proof G as (G1 & G2 & G3 & G4). cbn [rm snd fst] in G1, G2, G3, G4.
      assert (Hqk : qk_ok (m_key m)) by apply G1.
      eexists _, (enc_mkey (MK part (br_shard b) (m_key m)), (h, m)). split; [apply src_in; exists b; split; [exact Hb|]; split; [reflexivity|reflexivity]|].
      split; [|split; [reflexivity|now apply acc_owns]].
      apply scan_in; auto; [apply rows_ok|]. split; auto.
      apply enc_mkey_inj in G3; [|split; [exact Hpart|split; [exact S1|exact Hqk]]|exact G1].
      injection G3 as <- <-. split; auto. cbn [rm snd]. apply S4; auto.
    - intros (L & e & HL & He & Em & Ha). apply src_in in HL as (b & Hb & <- & ->).
      destruct (range_at b Hb) as (S1 & S2 & S3 & S4). apply scan_in in He as (Hin & G & L1 & L2); auto; [|apply rows_ok].
      destruct G as (G1 & G2 & G3 & G4). rewrite Em in *. split; [|split].
      + exists b. split; auto. split; auto. apply S4; auto. apply G1.
      + exists (fst (snd e)). unfold msg_at. apply kv_in_get; [apply msgs_sorted|]. rewrite <- G3, <- Em. unfold rm.
        destruct e as [k [h m']]. exact Hin.
      + now apply acc_owns.
  Qed.

  Lemma in_of_shard s m out : In m (of_shard s out) <-> In (s, m) out.
  Proof.
    unfold of_shard. rewrite in_map_iff. split.
    - intros ([s' m'] & E & Hin). apply filter_In in Hin as [Hin E']. cbn in *. destruct (sh_eqb_spec s' s); [subst; auto|discriminate].
    - intros Hin. exists (s, m). split; auto. apply filter_In. split; auto. cbn. apply sh_eqb_refl.
  Qed.

  Lemma key_in_src s : In s (map fst src) -> exists L, In (s, L) src.
  Proof. intros H. apply in_map_iff in H as ([s' L] & E & HL). cbn in E. subst. eauto. Qed.

  (** state of a run, in terms of per-shard row lists *)
  Lemma run_split out st : it_run recv it out st -> exists A C : shard -> list row,
    (forall s L, In (s, L) src -> L = A s ++ C s) /\
    (forall s m, In (s, m) out <-> In s (map fst src) /\ exists e, In e (A s) /\ rm e = m /\ acc recv m = true) /\
    (forall s, In s (map fst src) -> aget sh_eqb s (it_pos st) = lastk (map rm (A s)) None) /\
    (forall x s e, In x out -> In s (map fst src) -> In e (C s) -> acc recv (rm e) = true -> qk_leb (m_key (snd x)) (m_key (rm e)) = true) /\
    (forall s, ~ In s (map fst src) -> aget sh_eqb s (it_pos st) = None) /\
    StronglySorted key_le out /\
    (forall s, In s (map fst src) -> of_shard s out = filter (acc recv) (map rm (A s))).
  Proof.
    intros Hr. destruct (run_inv _ _ Hr) as (A & H & B & Hi).
    destruct Hi as [G1 G2 G3 G4 G5 G6 G7 G8 G9 G10 G11 G12 G13 G14].
    exists A, (fun s => optl (H s) ++ B s). split; auto. split; [|split; [|split; [|split; [|split]]]]; auto.
    - intros s m. split.
      + intros Hin. pose proof (G12 _ Hin) as Hs. cbn in Hs. split; auto. apply in_of_shard in Hin. rewrite G11 in Hin by auto.
        apply filter_In in Hin as [Hin Ha]. apply in_map_iff in Hin as (e & E & He). eauto.
      + intros (Hs & e & He & E & Ha). apply in_of_shard. rewrite G11 by auto. apply filter_In. split; auto.
        rewrite <- E. now apply in_map.
    - intros s Hs. rewrite G10. now rewrite (proj2 (existsb_sh s (map fst src)) Hs).
    - intros s Hs. rewrite G10. destruct (existsb (sh_eqb s) (map fst src)) eqn:E; auto. exfalso. apply Hs. now apply existsb_sh.
  Qed.

  Lemma out_nodup out st : it_run recv it out st -> NoDup out.
  Proof.
    intros Hr. destruct (run_split _ _ Hr) as (A & C & S1 & S2 & _ & _ & _ & _ & S7).
    assert (Hn : forall s, In s (map fst src) -> NoDup (of_shard s out)).
    { intros s Hs. rewrite S7 by auto. apply NoDup_filter. destruct (key_in_src s Hs) as (L & HL).
      pose proof (src_rows_sorted _ _ HL) as HS. rewrite (S1 _ _ HL) in HS. apply SS_app in HS as (HS & _ & _).
      clear - HS. induction HS as [|e l HS IH HF]; cbn; constructor; auto. intros Hc. apply in_map_iff in Hc as (e' & E & He').
      rewrite Forall_forall in HF. specialize (HF _ He'). rewrite E in HF. cbn beta in HF. rewrite qk_ltb_iff in HF. lia. }
    assert (Hk : forall x, In x out -> In (fst x) (map fst src)). { intros [s m] Hx. apply S2 in Hx as [Hs _]. exact Hs. }
    clear - Hn Hk. induction out as [|[s m] out IH]; constructor.
    - intros Hc. pose proof (Hn s (Hk _ (or_introl eq_refl))) as N. unfold of_shard in N. cbn [filter fst] in N.
      rewrite sh_eqb_refl in N. cbn in N. inversion N as [|? ? Hni _]; subst. apply Hni. apply in_of_shard. exact Hc.
    - apply IH.
      + intros s' Hs'. pose proof (Hn s' Hs') as N. unfold of_shard in N. cbn [filter fst] in N.
        destruct (sh_eqb s s'); cbn in N; [now inversion N|exact N].
      + intros x Hx. apply Hk. right; auto.
  Qed.
End Reader.

Lemma SS_key_le out : StronglySorted key_le out -> StronglySorted (fun x y => key_le' (m_key (snd x)) (m_key (snd y))) out.
Proof.
  induction 1 as [|x l H IH HF]; constructor; auto. eapply Forall_impl; [|exact HF]. intros y Hy. now apply key_le_iff.
Qed.

Lemma lastk_last l d : lastk (map rm l) d = match rev l with [] => d | e :: _ => Some (m_key (rm e)) end.
Proof.
  induction l as [|x l IH] using rev_ind; cbn; auto. rewrite map_app, lastk_app, rev_app_distr. reflexivity.
Qed.

(** ** C11 *)
(** Once the iterator reports the end, it has returned exactly the addressed messages, each once, in ascending order. *)
Theorem C11_drain : forall z tr q part ranges recv it out st st',
  reach z tr q -> keyed tr -> part < 2 ^ 16 -> ranges_ok ranges ->
  iterator (q_st q) part (map to_range ranges) = Some it ->
  it_run recv it out st -> it_next recv st None st' ->
  StronglySorted (fun x y => key_le' (m_key (snd x)) (m_key (snd y))) out /\ NoDup out /\
  forall s m, In (s, m) out <-> addressed (q_st q) part ranges recv s m.
Proof.
  intros z tr q part ranges recv it out st st' Hr Hk Hp Hrg Hit Hrun Hnone.
  destruct (run_split z tr q part ranges recv it Hr Hk Hp Hrg Hit _ _ Hrun) as (A & C & S1 & S2 & S3 & S4 & S5 & S6 & S7).
  split; [now apply SS_key_le|]. split; [eapply out_nodup; eauto|].
  destruct (run_inv z tr q part ranges recv it Hr Hk Hp Hrg Hit _ _ Hrun) as (A0 & H0 & B0 & Hi).
  destruct (next_none_inv _ _ _ _ _ _ _ _ _ Hi Hnone) as (A1 & Hi1).
  intros s m. rewrite (addressed_rows z tr q part ranges recv it Hr Hk Hp Hrg Hit). split.
  - intros Hin. apply S2 in Hin as (Hs & e & He & E & Ha). destruct (key_in_src _ _ Hs) as (L & HL).
    exists L, e. split; auto. split; auto. rewrite (S1 _ _ HL). apply in_app_iff; auto.
  - intros (L & e & HL & He & E & Ha). assert (Hs : In s (map fst (it_iters it))) by now apply (in_map fst) in HL.
    apply in_of_shard. rewrite (i_out _ _ _ _ _ _ _ _ _ Hi1 s Hs). apply filter_In. split; auto.
    rewrite (i_src _ _ _ _ _ _ _ _ _ Hi1 _ _ HL), !app_nil_r in He. rewrite <- E. now apply in_map.
Qed.
Print Assumptions C11_drain.

(** At every moment: what has been returned is ascending and without repetition, nothing still to come precedes it, and the
    reported position of a shard is the last key read from it - every returned message of the shard is at or below the
    position, every addressed message at or below the position has been returned. *)
Theorem C11_position : forall z tr q part ranges recv it out st,
  reach z tr q -> keyed tr -> part < 2 ^ 16 -> ranges_ok ranges ->
  iterator (q_st q) part (map to_range ranges) = Some it -> it_run recv it out st ->
  NoDup out /\ StronglySorted (fun x y => key_le' (m_key (snd x)) (m_key (snd y))) out /\
  (forall s m, In (s, m) out -> addressed (q_st q) part ranges recv s m) /\
  (forall x s m, In x out -> addressed (q_st q) part ranges recv s m -> ~ In (s, m) out -> key_le' (m_key (snd x)) (m_key m)) /\
  (forall s m, addressed (q_st q) part ranges recv s m ->
     (In (s, m) out <-> exists k, aget sh_eqb s (it_pos st) = Some k /\ key_le' (m_key m) k)) /\
  (forall s k, aget sh_eqb s (it_pos st) = Some k ->
     (exists b, In b ranges /\ br_shard b = s /\ in_bounds b k) /\ exists h m, msg_at (q_st q) part s k = Some (h, m) /\ m_key m = k).
Proof.
  intros z tr q part ranges recv it out st Hr Hk Hp Hrg Hit Hrun.
  destruct (run_split z tr q part ranges recv it Hr Hk Hp Hrg Hit _ _ Hrun) as (A & C & S1 & S2 & S3 & S4 & S5 & S6 & S7).
  pose proof (addressed_rows z tr q part ranges recv it Hr Hk Hp Hrg Hit) as AD.
  assert (POS : forall s m, addressed (q_st q) part ranges recv s m ->
     (In (s, m) out <-> exists k, aget sh_eqb s (it_pos st) = Some k /\ key_le' (m_key m) k)).
  { intros s m Had. apply AD in Had as (L & e & HL & He & E & Ha).
    assert (Hs : In s (map fst (it_iters it))) by now apply (in_map fst) in HL.
    pose proof (src_rows_sorted z tr q part ranges it Hr Hk Hp Hrg Hit _ _ HL) as HS. rewrite (S1 _ _ HL) in HS, He.
    rewrite S3 by auto. rewrite lastk_last. split.
    - intros Hin. apply S2 in Hin as (_ & e1 & He1 & E1 & _).
      destruct (rev (A s)) as [|y l] eqn:Er.
      + apply (f_equal (@rev row)) in Er. rewrite rev_involutive in Er. rewrite Er in He1. destruct He1.
      + exists (m_key (rm y)). split; auto. apply (f_equal (@rev row)) in Er. rewrite rev_involutive in Er. cbn in Er.
        rewrite Er in HS, He1. apply SS_app in HS as (HS & _ & _). apply SS_app in HS as (_ & _ & HS).
        apply in_app_iff in He1 as [He1|[<-|[]]]; [|left; now rewrite E1].
        specialize (HS e1 y He1 (or_introl eq_refl)). cbn beta in HS. rewrite E1 in HS. right. now apply key_lt_iff.
    - intros (k & Ek & Hle). apply S2. split; auto. apply in_app_iff in He as [He|He]; [eauto|]. exfalso.
      destruct (rev (A s)) as [|y l] eqn:Er; [discriminate|]. injection Ek as <-.
      assert (Hy : In y (A s)). { apply in_rev. rewrite Er. left; auto. }
      apply SS_app in HS as (_ & _ & HS). specialize (HS y e Hy He). cbn beta in HS. rewrite E in HS.
      apply key_le_iff in Hle. rewrite qk_leb_iff in Hle. rewrite qk_ltb_iff in HS. lia. }
  split; [eapply out_nodup; eauto|]. split; [now apply SS_key_le|]. split; [|split; [|split; [exact POS|]]].
  - intros s m Hin. apply AD. apply S2 in Hin as (Hs & e & He & E & Ha). destruct (key_in_src _ _ Hs) as (L & HL).
    exists L, e. split; auto. split; auto. rewrite (S1 _ _ HL). apply in_app_iff; auto.
  - intros x s m Hx Had Hno. apply AD in Had as (L & e & HL & He & E & Ha).
    assert (Hs : In s (map fst (it_iters it))) by now apply (in_map fst) in HL.
    rewrite (S1 _ _ HL) in He. apply in_app_iff in He as [He|He].
    + exfalso. apply Hno, S2. split; eauto.
    + rewrite <- E. apply key_le_iff. apply (S4 x s e); auto. now rewrite E.
  - intros s k Ek. destruct (in_dec (fun a b => reflect_dec _ _ (sh_eqb_spec a b)) s (map fst (it_iters it))) as [Hs|Hs];
      [|rewrite S5 in Ek by auto; discriminate].
    rewrite S3, lastk_last in Ek by auto. destruct (rev (A s)) as [|y l] eqn:Er; [discriminate|]. injection Ek as <-.
    assert (Hy : In y (A s)). { apply in_rev. rewrite Er. left; auto. }
    destruct (key_in_src _ _ Hs) as (L & HL). assert (HyL : In y L). { rewrite (S1 _ _ HL). apply in_app_iff; auto. }
    apply (src_in q part ranges it Hit) in HL as (b & Hb & <- & ->).
    destruct (range_at part ranges Hp Hrg b Hb) as (T1 & T2 & T3 & T4).
    apply scan_in in HyL as (Hin & G & L1 & L2); auto; [|exact (rows_ok z tr q Hr Hk)]. destruct G as (G1 & G2 & G3 & G4).
    split; [exists b; split; auto; split; auto; apply T4; auto; apply G1|].
    exists (fst (snd y)), (rm y). split; auto. unfold msg_at. apply kv_in_get; [exact (msgs_sorted z tr q Hr)|].
    rewrite <- G3. destruct y as [k0 [h m0]]. exact Hin.
Qed.
Print Assumptions C11_position.

(** Reading never fails and always ends: every call succeeds, and at most as many messages are returned as are stored. *)
Theorem C11_total : forall z tr q part ranges recv it out st,
  reach z tr q -> keyed tr -> part < 2 ^ 16 -> ranges_ok ranges ->
  iterator (q_st q) part (map to_range ranges) = Some it -> it_run recv it out st ->
  ~ it_fails recv st /\ (exists r st', it_next recv st r st') /\ (length out <= length (st_msgs (q_st q)))%nat.
Proof.
  intros z tr q part ranges recv it out st Hr Hk Hp Hrg Hit Hrun.
  destruct (run_inv z tr q part ranges recv it Hr Hk Hp Hrg Hit _ _ Hrun) as (A0 & H0 & B0 & Hi).
  destruct (next_total _ _ _ _ _ _ _ _ Hi) as [T1 T2]. split; [exact T1|]. split; [exact T2|].
  destruct (C11_position z tr q part ranges recv it out st Hr Hk Hp Hrg Hit Hrun) as (ND & _ & AD & _).
  set (f := fun x : shard * msg => (enc_mkey (MK part (fst x) (m_key (snd x))), snd x)).
  set (g := fun e : row => (fst e, snd (snd e))).
  assert (Hin : forall x, In x out -> In (f x) (map g (st_msgs (q_st q))) /\ mk_ok (MK part (fst x) (m_key (snd x)))).
  { intros [s m] Hx. destruct (AD s m Hx) as ((b & Hb & Hs & _) & (h & Hm) & _). unfold msg_at in Hm.
    apply kv_in_get in Hm; [|exact (msgs_sorted z tr q Hr)]. split.
    - apply in_map_iff. exists (enc_mkey (MK part s (m_key m)), (h, m)). split; auto.
    - pose proof (rows_ok z tr q Hr Hk) as HF. rewrite Forall_forall in HF. destruct (HF _ Hm) as [(p' & s' & G) _].
      destruct G as (G1 & _). cbn in G1. cbn [fst snd]. split; auto. split; [|apply G1]. cbn.
      rewrite <- Hs. exact (proj1 (range_at part ranges Hp Hrg b Hb)). }
  rewrite <- (map_length f out), <- (map_length g (st_msgs _)). apply NoDup_incl_length.
  - clear - ND Hin. induction ND as [|x l Hni ND IH]; cbn; constructor.
    + intros Hc. apply in_map_iff in Hc as (y & E & Hy). apply Hni. unfold f in E. apply pair_equal_spec in E as [E1 E2].
      apply enc_mkey_inj in E1; [|apply (Hin y (or_intror Hy))|apply (Hin x (or_introl eq_refl))].
      apply (f_equal mk_shard) in E1. cbn [mk_shard] in E1. destruct x as [s m], y as [s' m']. cbn [fst snd] in E1, E2. subst. exact Hy.
    + apply IH. intros y Hy. apply Hin. right; auto.
  - intros y Hy. apply in_map_iff in Hy as (x & <- & Hx). apply Hin, Hx.
Qed.
Print Assumptions C11_total.

(** a repeated source shard is refused, distinct shards are not *)
Theorem C11_duplicate_shard : forall st part ranges,
  iterator st part ranges = None <-> ~ NoDup (map sr_shard ranges).
Proof.
  intros st part ranges. unfold iterator.
  assert (H : forall l, has_dup l = false <-> NoDup l).
  { induction l as [|s l IH]; cbn; [split; [constructor|auto]|]. rewrite orb_false_iff, IH. split.
    - intros [H1 H2]. constructor; auto. intros Hc. apply existsb_sh in Hc. congruence.
    - intros Hn. inversion Hn as [|? ? H1 H2]; subst. split; auto. destruct (existsb (sh_eqb s) l) eqn:E; auto.
      exfalso. now apply H1, existsb_sh. }
  destruct (has_dup (map sr_shard ranges)) eqn:E.
  - split; auto. intros _ Hn. apply H in Hn. congruence.
  - split; [discriminate|]. intros Hn. exfalso. now apply Hn, H.
Qed.
Print Assumptions C11_duplicate_shard.

(** A reader that stops and later reads on from the reported positions sees every addressed message exactly once, in order. *)
Definition read_on (pos : amap shard qkey) (b : brange) : brange :=
  match aget sh_eqb (br_shard b) pos with Some k => BR (br_shard b) (Excl k) (br_to b) | None => b end.

Theorem C11_resume : forall z tr q part ranges recv it out st it2 out2 st2 st3,
  reach z tr q -> keyed tr -> part < 2 ^ 16 -> ranges_ok ranges ->
  iterator (q_st q) part (map to_range ranges) = Some it -> it_run recv it out st ->
  iterator (q_st q) part (map to_range (map (read_on (it_pos st)) ranges)) = Some it2 ->
  it_run recv it2 out2 st2 -> it_next recv st2 None st3 ->
  StronglySorted (fun x y => key_le' (m_key (snd x)) (m_key (snd y))) (out ++ out2) /\ NoDup (out ++ out2) /\
  forall s m, In (s, m) (out ++ out2) <-> addressed (q_st q) part ranges recv s m.
Proof.
  intros z tr q part ranges recv it out st it2 out2 st2 st3 Hr Hk Hp Hrg Hit Hrun Hit2 Hrun2 Hn.
  destruct (C11_position z tr q part ranges recv it out st Hr Hk Hp Hrg Hit Hrun) as (ND & SO & AD & LE & POS & PV).
  assert (Hsh : map br_shard (map (read_on (it_pos st)) ranges) = map br_shard ranges).
  { rewrite map_map. apply map_ext. intros b. unfold read_on. now destruct (aget _ _ _). }
  assert (Hrg2 : ranges_ok (map (read_on (it_pos st)) ranges)).
  { destruct Hrg as [HF HN]. split; [|rewrite Hsh; exact HN]. rewrite Forall_map. rewrite Forall_forall in *. intros b Hb.
    destruct (HF b Hb) as (B1 & B2 & B3). unfold read_on. destruct (aget sh_eqb (br_shard b) (it_pos st)) as [k|] eqn:Ek; auto.
    cbn [br_shard br_from br_to]. split; auto. split; auto. cbn.
    destruct (PV _ _ Ek) as (_ & h & m & Hm & Ekm). unfold msg_at in Hm. apply kv_in_get in Hm; [|exact (msgs_sorted z tr q Hr)].
    pose proof (rows_ok z tr q Hr Hk) as HF2. rewrite Forall_forall in HF2. destruct (HF2 _ Hm) as [(p' & s' & G) L].
    destruct G as (G1 & _). cbn in G1, L. rewrite Ekm in *. split; [apply G1|]. intros _ ->. rewrite qk_ltb_iff in L.
    cbn [qk_lt qk_hash] in L. unfold qk_max, u64_max, hash_max in L. cbn [qk_lt qk_hash] in L. clear - L. lia. }
  destruct (C11_drain z tr q part _ recv it2 out2 st2 st3 Hr Hk Hp Hrg2 Hit2 Hrun2 Hn) as (SO2 & ND2 & AD2).
  assert (NEW : forall s m, In (s, m) out2 <-> addressed (q_st q) part ranges recv s m /\ ~ In (s, m) out).
  { assert (U : forall b b' s, In b ranges -> In b' ranges -> br_shard b = s -> br_shard b' = s -> b = b').
    { intros b b' s Hb Hb' E E'. destruct Hrg as [_ HN]. clear - HN Hb Hb' E E'.
      induction ranges as [|c l IH]; [destruct Hb|]. cbn in HN. inversion HN as [|? ? HN1 HN2]; subst.
      destruct Hb as [->|Hb], Hb' as [->|Hb']; auto.
      - exfalso. apply HN1. rewrite <- E'. now apply in_map.
      - exfalso. apply HN1. rewrite E'. now apply in_map. }
    intros s m. rewrite AD2. split.
    - intros ((b2 & Hb2 & Hs & Hbo) & Hm & Ho). apply in_map_iff in Hb2 as (b & E & Hb). subst b2.
      assert (Hsb : br_shard b = s). { unfold read_on in Hs. destruct (aget _ _ _) in Hs; auto. }
      unfold read_on in Hbo. destruct (aget sh_eqb (br_shard b) (it_pos st)) as [k|] eqn:Ek.
      + destruct Hbo as [Hf Ht]. cbn [br_from br_to] in Hf, Ht.
        assert (Had : addressed (q_st q) part ranges recv s m).
        { split; [|auto]. exists b. split; auto. split; auto. split; auto.
          destruct (PV _ _ Ek) as ((b' & Hb' & Es & (Hf' & _)) & _).
          rewrite (U b' b (br_shard b) Hb' Hb Es eq_refl) in Hf'. destruct (br_from b) as [f|f].
          - right. rewrite key_le_iff, qk_leb_iff in Hf'. unfold key_lt in *. lia.
          - unfold key_lt in *. lia. }
        split; auto. intros Hin. apply (POS s m Had) in Hin as (k' & Ek' & Hle). rewrite Hsb in Ek. rewrite Ek in Ek'. injection Ek' as <-.
        rewrite key_le_iff, qk_leb_iff in Hle. unfold key_lt in Hf. lia.
      + assert (Had : addressed (q_st q) part ranges recv s m).
        { split; [|auto]. exists b. auto. }
        split; auto. intros Hin. apply (POS s m Had) in Hin as (k' & Ek' & Hle). rewrite Hsb in Ek. congruence.
    - intros (Had & Hno). pose proof Had as ((b & Hb & Hs & Hbo) & Hm & Ho). split; [|auto].
      exists (read_on (it_pos st) b). split; [now apply in_map|]. unfold read_on.
      destruct (aget sh_eqb (br_shard b) (it_pos st)) as [k|] eqn:Ek; [|auto]. split; [exact Hs|].
      split; cbn [br_from br_to]; [|apply Hbo]. apply key_lt_iff. rewrite qk_ltb_leb.
      destruct (qk_leb (m_key m) k) eqn:E; auto. exfalso. apply Hno, POS; auto. exists k. rewrite <- Hs. split; auto. now apply key_le_iff. }
  split; [|split].
  - assert (G : forall x y, In x out -> In y out2 -> key_le' (m_key (snd x)) (m_key (snd y))).
    { intros x [s m] Hx Hy. apply NEW in Hy as [Had Hno]. apply (LE x s m Hx Had Hno). }
    clear - SO SO2 G. induction SO as [|x l SO IH HF]; cbn; auto. constructor.
    + apply IH. intros; apply G; auto. right; auto.
    + apply Forall_app. split; auto. apply Forall_forall. intros y Hy. apply G; auto. left; auto.
  - assert (G : forall x, In x out -> ~ In x out2). { intros [s m] Hx Hy. apply NEW in Hy as [_ Hno]. auto. }
    clear - ND ND2 G. induction ND as [|x l Hni ND IH]; cbn; auto. constructor.
    + rewrite in_app_iff. intros [?|?]; [auto|]. apply (G x); auto. left; auto.
    + apply IH. intros y Hy. apply G. right; auto.
  - intros s m. rewrite in_app_iff, NEW. split.
    + intros [Hin|[Had _]]; auto.
    + intros Had. destruct (in_dec (fun a b : shard * msg => ltac:(repeat decide equality) : {a = b} + {a <> b}) (s, m) out); auto.
Qed.
Print Assumptions C11_resume.

(** ** A concrete reader *)
(** one deterministic way to execute [next]: hash map in stored order, first minimal heap entry *)
Fixpoint pop_min (l : list (shard * msg)) : option ((shard * msg) * list (shard * msg)) :=
  match l with
  | [] => None
  | x :: r => match pop_min r with
              | None => Some (x, [])
              | Some (y, rest) => if qk_leb (m_key (snd x)) (m_key (snd y)) then Some (x, r) else Some (y, x :: rest)
              end
  end.
Lemma pop_min_spec l : match pop_min l with
  | None => l = []
  | Some (y, rest) => Permutation l (y :: rest) /\ Forall (fun z => qk_leb (m_key (snd y)) (m_key (snd z)) = true) rest
  end.
Proof.
  induction l as [|x l IH]; cbn; auto. destruct (pop_min l) as [[y rest]|].
  - destruct IH as [P F]. destruct (qk_leb (m_key (snd x)) (m_key (snd y))) eqn:E.
    + split; auto. rewrite P. constructor; auto. eapply Forall_impl; [|exact F]. cbn. intros z Hz. qk.
    + split; [rewrite P; apply perm_swap|]. constructor; auto. qk.
  - subst. split; auto.
Qed.
Definition run_next (recv : shard) (st : sit) : option (option (shard * msg) * sit) :=
  match refill recv (it_iters st) (SIT [] (it_heap st) (it_inq st) (it_pos st)) with
  | None => None
  | Some st1 =>
      match pop_min (it_heap st1) with
      | None => Some (None, st1)
      | Some ((s, m), rest) => Some (Some (s, m),
          SIT (it_iters st1) rest (filter (fun x => negb (sh_eqb s x)) (it_inq st1)) (aset sh_eqb s (m_key m) (it_pos st1)))
      end
  end.
Lemma run_next_ok recv st r st' : run_next recv st = Some (r, st') -> it_next recv st r st'.
Proof.
  unfold run_next. destruct (refill _ _ _) as [st1|] eqn:E; [|discriminate]. pose proof (pop_min_spec (it_heap st1)) as P.
  destruct (pop_min (it_heap st1)) as [[[s m] rest]|]; intros [= <- <-].
  - destruct P. eapply next_some; eauto.
  - eapply next_none; eauto.
Qed.
Fixpoint run_n (n : nat) (recv : shard) (st : sit) (out : list (shard * msg)) : option (list (shard * msg) * sit) :=
  match n with
  | O => Some (out, st)
  | S n => match run_next recv st with Some (Some x, st') => run_n n recv st' (out ++ [x]) | _ => None end
  end.
Lemma run_n_ok n recv it : forall st out out' st', it_run recv it out st -> run_n n recv st out = Some (out', st') -> it_run recv it out' st'.
Proof.
  induction n as [|n IH]; intros st out out' st' Hr; cbn.
  - intros [= <- <-]; auto.
  - destruct (run_next recv st) as [[[x|] st1]|] eqn:E; try discriminate. apply IH. econstructor; eauto. now apply run_next_ok.
Qed.

Definition exA : shard := SH 0 (2 ^ 63).
Definition exM : shard := SH (-1) (2 ^ 63).
Definition ex0 (i : N) : raddr := RA 0 (i * 2 ^ 248).
Definition exm (k : N) (d : raddr) : qkey * msg := (QK k k, MSG (QK k k) (RA (-1) 5) d k).
Definition exdA : qdiff := QD [exm 5 (ex0 16); exm 7 (ex0 200); exm 20 (ex0 17); exm 30 (RA (-1) 3)] [] rt_empty.
Definition exdM : qdiff := QD [exm 6 (ex0 1); exm 12 (RA (-1) 4); exm 25 (ex0 2)] [] rt_empty.
Definition exops := [OpApply exdA exA 1 101 (from_diff exdA exA (QK 5 5) (QK 30 30)) (Some ZBoth);
                     OpApply exdM exM 1 102 (from_diff exdM exM (QK 6 6) (QK 25 25)) (Some ZBoth)].
Definition exranges := [BR exA (Incl (QK 5 5)) (Incl (QK 30 30)); BR exM (Excl (QK 5 5)) (Excl (QK 25 25))].
(** the left half of workchain 0 *)
Definition exrecv : shard := SH 0 (2 ^ 62).
Example C11_example : exists tr q it out st st', reach 0 tr q /\ keyed tr /\ ranges_ok exranges /\
  iterator (q_st q) 0 (map to_range exranges) = Some it /\ it_run exrecv it out st /\ it_next exrecv st None st' /\
  map (fun x => (sh_wc (fst x), qk_lt (m_key (snd x)))) out = [(0%Z, 5); ((-1)%Z, 6); (0%Z, 20)].
Proof.
  destruct (run_check (q_init 0) [] exops) as [[q tr]|] eqn:E; [|vm_compute in E; discriminate].
  exists tr, q. pose proof (run_check_reach 0 exops [] (q_init 0) q tr (reach_init 0) E) as R.
  vm_compute in E. injection E as <- <-.
  match goal with |- context [iterator ?a ?b ?c] => destruct (iterator a b c) as [it|] eqn:Ei; [|vm_compute in Ei; discriminate] end.
  destruct (run_n 3 exrecv it []) as [[out st]|] eqn:En.
  2: { vm_compute in Ei. injection Ei as <-. vm_compute in En. discriminate. }
  pose proof (run_n_ok 3 exrecv it it [] out st (run_nil _ _) En) as Hrun.
  destruct (run_next exrecv st) as [[[x|] st']|] eqn:Ex.
  1, 3: vm_compute in Ei; injection Ei as <-; vm_compute in En; injection En as <- <-; vm_compute in Ex; discriminate.
  exists it, out, st, st'. split; [exact R|]. split; [|split; [|split; [reflexivity|split; [exact Hrun|split; [now apply run_next_ok|]]]]].
  - repeat constructor; cbn; lia.
  - split.
    + repeat constructor; cbn; try lia; try (intros _ [= ? ?]); try discriminate.
    + repeat constructor; cbn; intuition discriminate.
  - vm_compute in Ei. injection Ei as <-. vm_compute in En. injection En as <- <-. reflexivity.
Qed.
