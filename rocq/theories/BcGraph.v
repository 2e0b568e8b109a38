(** C70: taking a master block out of the cache takes exactly the shard blocks that belong to it. *)
From Verif Require Export BcOwn.
From Coq Require Import ZArith ZifyN ZifyNat ZifyBool Lia.

Lemma key_dec (a b : key) : {a = b} + {a <> b}.
Proof. decide equality; apply N.eq_dec. Qed.

Definition look (shs : list (N * group sdata)) (s n : N) : option entry :=
  match aget N.eqb s shs with Some g => bget n (g_blocks g) | None => None end.

Lemma count_prevs_bdel n m e : srt m -> bget n m = Some e ->
  (count_prevs (bdel n m) + length (e_prevs e) = count_prevs m)%nat.
Proof.
  induction 1 as [|n1 e1 m Hs IH Hf]; [discriminate|]. intros E.
  assert (Hb : bget n ((n1, e1) :: m) = match N.compare n n1 with Eq => Some e1 | Lt => None | Gt => bget n m end)
    by reflexivity.
  rewrite Hb in E. unfold bdel, odel. cbn [filter fst].
  fold (odel N.compare n m). fold (bdel n m).
  destruct (N.compare_spec n n1) as [C|C|C]; [|discriminate|].
  - injection E as <-. subst n1. rewrite N.compare_refl. cbn [negb count_prevs].
    assert (Hd : bdel n m = m).
    { unfold bdel, odel. clear -Hf. induction m as [|[n2 e2] m IH]; [reflexivity|].
      inversion Hf as [|? ? F1 F2]; subst. cbn [fst] in F1. cbn [filter fst].
      change (n < n2) in F1. assert (C : N.compare n2 n = Gt) by (apply N.compare_gt_iff; exact F1).
      rewrite C. cbn [negb]. f_equal. now apply IH. }
    rewrite Hd. lia.
  - assert (C2 : N.compare n1 n = Lt) by (apply N.compare_lt_iff; exact C). rewrite C2.
    cbn [negb count_prevs]. rewrite <- (IH E). lia.
Qed.

Lemma count_links_aset s g g' shs : aget N.eqb s shs = Some g ->
  (count_links (aset N.eqb s g' shs) + count_prevs (g_blocks g) =
   count_links shs + count_prevs (g_blocks g'))%nat.
Proof.
  induction shs as [|[s1 g1] shs IH]; [discriminate|]. cbn [aget aset].
  destruct (N.eqb s s1); intros E.
  - injection E as <-. cbn [count_links]. lia.
  - cbn [count_links]. specialize (IH E). lia.
Qed.

Section Loop.
  Context (shs0 : list (N * group sdata)) (mc : N) (tops0 : list bid).
  Hypothesis keyed : forall s n e, look shs0 s n = Some e -> key_of (e_id e) = (s, n).

  Inductive vis : bid -> Prop :=
  | vis_top id : In id tops0 -> vis id
  | vis_prev id e p : vis id -> look shs0 (b_shard id) (b_seqno id) = Some e -> e_ref e = mc ->
      In p (e_prevs e) -> vis p.

  Record J (q : list bid) (shs : list (N * group sdata)) (acc : list entry) (V : list bid) : Prop := {
    j_srt : forall s g, aget N.eqb s shs = Some g -> srt (g_blocks g);
    j_in : forall s n, In (s, n) (map key_of V) -> look shs s n = None;
    j_out : forall s n, ~ In (s, n) (map key_of V) -> look shs s n = look shs0 s n;
    j_acc : forall e, In e acc <-> exists id, In id V /\ look shs0 (b_shard id) (b_seqno id) = Some e /\ e_ref e = mc;
    j_nodup : NoDup (map (fun e => key_of (e_id e)) acc);
    j_vis : forall id, In id V \/ In id q -> vis id;
    j_tops : forall id, In id tops0 -> In id V \/ In id q;
    j_prevs : forall e p, In e acc -> In p (e_prevs e) -> In p V \/ In p q;
    j_from : forall id, In id q -> In id tops0 \/ exists e, In e acc /\ In id (e_prevs e);
    j_just : forall a1 e a2, acc = a1 ++ e :: a2 ->
      exists id, key_of id = key_of (e_id e) /\
        (In id tops0 \/ exists e2, In e2 a1 /\ In id (e_prevs e2)) }.

  Lemma snoc_split (A : Type) (a1 : list A) e a2 l x : l ++ [x] = a1 ++ e :: a2 ->
    (a2 = [] /\ e = x /\ a1 = l) \/ exists a3, a2 = a3 ++ [x] /\ l = a1 ++ e :: a3.
  Proof.
    destruct (@exists_last _ (e :: a2)) as (b & y & Eb); [discriminate|].
    intros E. rewrite Eb, app_assoc in E. apply app_inj_tail in E as [E1 E2]. subst y.
    destruct b as [|z b].
    - cbn in Eb. injection Eb as -> ->. left. split; [reflexivity|]. split; [reflexivity|].
      now rewrite E1, app_nil_r.
    - cbn in Eb. injection Eb as -> ->. right. exists b. split; [reflexivity|exact E1].
  Qed.

  (** one iteration *)
  Lemma j_skip id q shs acc V : J (id :: q) shs acc V ->
    look shs (b_shard id) (b_seqno id) = None -> J q shs acc (id :: V).
  Proof.
    intros H En. destruct H as [H1 H2 H3 H4 H5 H6 H7 H8 H9 H10].
    assert (Hno : forall e, look shs0 (b_shard id) (b_seqno id) = Some e ->
      In (key_of id) (map key_of V)).
    { intros e Ee. destruct (in_dec key_dec (key_of id) (map key_of V)) as [Hi|Hi]; [exact Hi|].
      exfalso. unfold key_of in Hi. rewrite (H3 _ _ Hi) in En. congruence. }
    constructor.
    - exact H1.
    - intros s n [Q|Hin]; [|now apply H2]. unfold key_of in Q. injection Q as <- <-. exact En.
    - intros s n Hn. apply H3. intros Hin. apply Hn. now right.
    - intros e. rewrite H4. split.
      + intros (i & A & B). exists i. split; [now right|exact B].
      + intros (i & [<-|A] & B & C); [|exists i; auto].
        apply Hno in B as Hk. apply in_map_iff in Hk as (i2 & Q & Hi2). exists i2.
        split; [exact Hi2|]. unfold key_of in Q. injection Q as Q1 Q2. rewrite Q1, Q2. auto.
    - exact H5.
    - intros i [[<-|A]|A]; apply H6; [right; now left|now left|right; now right].
    - intros i A. destruct (H7 i A) as [B|[<-|B]]; [left; now right|left; now left|now right].
    - intros e p A B. destruct (H8 e p A B) as [C|[<-|C]]; [left; now right|left; now left|now right].
    - intros i A. apply H9. now right.
    - exact H10.
  Qed.

  Lemma look_aset_del shs s g n g' s' n' : aget N.eqb s shs = Some g -> srt (g_blocks g) ->
    g_blocks g' = bdel n (g_blocks g) ->
    look (aset N.eqb s g' shs) s' n' = if (N.eqb s' s && N.eqb n' n)%bool then None else look shs s' n'.
  Proof.
    intros Eg Hs Eb. unfold look. rewrite sget_aset. destruct (N.eqb_spec s' s) as [Q|Q]; [|reflexivity].
    subst s'. rewrite Eg, Eb, bget_bdel by exact Hs. reflexivity.
  Qed.

  Lemma j_take id q shs acc V g g' e : J (id :: q) shs acc V ->
    aget N.eqb (b_shard id) shs = Some g -> bget (b_seqno id) (g_blocks g) = Some e ->
    g_blocks g' = bdel (b_seqno id) (g_blocks g) ->
    J (if e_ref e =? mc then q ++ e_prevs e else q) (aset N.eqb (b_shard id) g' shs)
      (if e_ref e =? mc then acc ++ [e] else acc) (id :: V).
  Proof.
    intros H Eg Ee Eb. destruct H as [H1 H2 H3 H4 H5 H6 H7 H8 H9 H10].
    assert (El : look shs (b_shard id) (b_seqno id) = Some e) by (unfold look; rewrite Eg; exact Ee).
    assert (HnV : ~ In (key_of id) (map key_of V)).
    { intros Hi. unfold key_of in Hi. rewrite (H2 _ _ Hi) in El. discriminate. }
    assert (E0 : look shs0 (b_shard id) (b_seqno id) = Some e).
    { rewrite <- H3; [exact El|exact HnV]. }
    assert (Hkey : key_of (e_id e) = key_of id) by (apply keyed; exact E0).
    assert (Hvis : vis id) by (apply H6; right; now left).
    pose proof (fun s' n' => look_aset_del shs (b_shard id) g (b_seqno id) g' s' n' Eg (H1 _ _ Eg) Eb) as Hl.
    assert (Hacc_new : forall e2, In e2 (if e_ref e =? mc then acc ++ [e] else acc) <->
      In e2 acc \/ (e2 = e /\ e_ref e = mc)).
    { intros e2. destruct (N.eqb_spec (e_ref e) mc) as [Q|Q].
      - rewrite in_app_iff. cbn. split; [intros [A|[A|[]]]; auto|]. intros [A|[A _]]; auto.
      - split; [auto|]. intros [A|[_ A]]; [exact A|contradiction]. }
    constructor.
    - intros s g2 E. rewrite sget_aset in E. destruct (N.eqb s (b_shard id)).
      + injection E as <-. rewrite Eb. apply bdel_sorted, (H1 _ _ Eg).
      + apply (H1 _ _ E).
    - intros s n [Q|Hin].
      + rewrite Hl. unfold key_of in Q. injection Q as <- <-. now rewrite !N.eqb_refl.
      + rewrite Hl. destruct (_ && _); [reflexivity|now apply H2].
    - intros s n Hn. rewrite Hl.
      destruct (N.eqb_spec s (b_shard id)) as [Q1|Q1]; [destruct (N.eqb_spec n (b_seqno id)) as [Q2|Q2]|]; cbn [andb].
      + exfalso. apply Hn. left. subst. reflexivity.
      + apply H3. intros Hin. apply Hn. now right.
      + apply H3. intros Hin. apply Hn. now right.
    - intros e2. rewrite Hacc_new, H4. split.
      + intros [(i & A & B)|[-> A]]; [exists i; split; [now right|exact B]|].
        exists id. split; [now left|]. auto.
      + intros (i & [<-|A] & B & C); [right|left; exists i; auto].
        assert (e2 = e) by congruence. subst. auto.
    - destruct (N.eqb_spec (e_ref e) mc) as [Q|Q]; [|exact H5].
      rewrite map_app. cbn [map].
      apply NoDup_rev in H5. rewrite <- map_rev in H5.
      rewrite <- (rev_involutive (map (fun e2 => key_of (e_id e2)) acc ++ [key_of (e_id e)])).
      apply NoDup_rev. rewrite rev_app_distr. cbn [rev app]. constructor.
      + rewrite <- in_rev. intros Hin. apply in_map_iff in Hin as (e2 & Q2 & Hin2).
        apply H4 in Hin2 as (i & A & B & C). apply HnV. rewrite <- Hkey, <- Q2.
        rewrite (keyed _ _ _ B). apply in_map_iff. exists i. auto.
      + rewrite <- map_rev. exact H5.
    - intros i A. destruct (N.eqb_spec (e_ref e) mc) as [Q|Q].
      + destruct A as [[<-|A]|A]; [exact Hvis|apply H6; now left|].
        apply in_app_iff in A as [A|A]; [apply H6; right; now right|].
        eapply vis_prev; eassumption.
      + destruct A as [[<-|A]|A]; [exact Hvis|apply H6; now left|apply H6; right; now right].
    - intros i A. destruct (H7 i A) as [B|[<-|B]]; [left; now right|left; now left|right].
      destruct (e_ref e =? mc); [apply in_app_iff; now left|exact B].
    - intros e2 p A B. apply Hacc_new in A as [A|[-> A]].
      + destruct (H8 e2 p A B) as [C|[<-|C]]; [left; now right|left; now left|right].
        destruct (e_ref e =? mc); [apply in_app_iff; now left|exact C].
      + right. rewrite A, N.eqb_refl. apply in_app_iff. now right.
    - intros i A. destruct (N.eqb_spec (e_ref e) mc) as [Q|Q].
      + apply in_app_iff in A as [A|A].
        * destruct (H9 i (or_intror A)) as [B|(e2 & B1 & B2)]; [now left|right].
          exists e2. split; [apply in_app_iff; now left|exact B2].
        * right. exists e. split; [apply in_app_iff; right; now left|exact A].
      + destruct (H9 i (or_intror A)) as [B|(e2 & B1 & B2)]; [now left|right]. exists e2. auto.
    - intros a1 e2 a2 E. destruct (e_ref e =? mc); [|now apply (H10 a1 e2 a2)].
      apply snoc_split in E as [(-> & -> & ->)|(a3 & -> & E)]; [|now apply (H10 a1 e2 a3)].
      exists id. split; [symmetry; exact Hkey|].
      destruct (H9 id (or_introl eq_refl)) as [B|B]; [now left|now right].
  Qed.

  Lemma loop_end fuel : forall q shs acc V, J q shs acc V ->
    (length q + count_links shs <= fuel)%nat ->
    exists V', J [] (fst (extract_loop fuel mc q shs acc)) (snd (extract_loop fuel mc q shs acc)) V'.
  Proof.
    induction fuel as [|fuel IH]; intros q shs acc V HJ Hf.
    - destruct q; [|cbn in Hf; lia]. exists V. exact HJ.
    - cbn [extract_loop]. destruct q as [|id q]; [exists V; exact HJ|]. cbn [length] in Hf.
      destruct (aget N.eqb (b_shard id) shs) as [g|] eqn:Eg.
      + destruct (bget (b_seqno id) (g_blocks g)) as [e|] eqn:Ee.
        * cbn zeta. set (g1 := with_blocks g (bdel (b_seqno id) (g_blocks g))).
          set (g2 := fst (refresh_synced (b_seqno (e_id e)) g1)).
          pose proof (count_prevs_bdel _ _ _ (j_srt _ _ _ _ HJ _ _ Eg) Ee) as Hc.
          assert (B1 : g_blocks g1 = bdel (b_seqno id) (g_blocks g)) by reflexivity.
          assert (B2 : g_blocks g2 = bdel (b_seqno id) (g_blocks g)).
          { unfold g2. destruct (refresh_spec _ (b_seqno (e_id e)) g1) as (Rb & _). rewrite Rb. exact B1. }
          pose proof (j_take id q shs acc V g g1 e HJ Eg Ee B1) as J1.
          pose proof (j_take id q shs acc V g g2 e HJ Eg Ee B2) as J2.
          pose proof (count_links_aset _ _ g1 _ Eg) as L1.
          pose proof (count_links_aset _ _ g2 _ Eg) as L2.
          rewrite B1 in L1. rewrite B2 in L2.
          destruct (e_ref e =? mc).
          -- apply (IH _ _ _ _ J2). rewrite app_length. lia.
          -- apply (IH _ _ _ _ J1). lia.
        * apply (IH _ _ _ (id :: V)); [|lia]. apply j_skip; [exact HJ|]. unfold look. now rewrite Eg.
      + apply (IH _ _ _ (id :: V)); [|lia]. apply j_skip; [exact HJ|]. unfold look. now rewrite Eg.
  Qed.

  Lemma j_start : (forall s g, aget N.eqb s shs0 = Some g -> srt (g_blocks g)) -> J tops0 shs0 [] [].
  Proof.
    intros H. constructor.
    - exact H.
    - intros s n [].
    - reflexivity.
    - intros e. split; [intros []|intros (i & [] & _)].
    - constructor.
    - intros id [[]|A]. now constructor.
    - intros id A. now right.
    - intros e p [].
    - intros id A. now left.
    - intros a1 e a2 E. destruct a1; discriminate.
  Qed.

  Lemma loop_final q_end shs acc V : J [] shs acc V -> q_end = @nil bid ->
    (forall id, vis id <-> In id V) .
  Proof.
    intros H _ id. destruct H as [H1 H2 H3 H4 H5 H6 H7 H8 H9 H10]. split.
    - induction 1 as [id A|id e p Hv IH El Er Hp].
      + destruct (H7 id A) as [B|[]]. exact B.
      + assert (Ha : In e acc) by (apply H4; exists id; auto).
        destruct (H8 e p Ha Hp) as [B|[]]. exact B.
    - intros A. apply H6. now left.
  Qed.
End Loop.

(** what [extract_subgraph] returns and leaves *)
Lemma extract_subgraph_spec k m : kinv k ->
  let k' := fst (extract_subgraph k m) in let out := snd (extract_subgraph k m) in
  (forall e, In e out <-> belongs k m e) /\
  NoDup (map (fun e => key_of (e_id e)) out) /\
  (forall s n, is_mc s = false -> (exists id, visits k m id /\ key_of id = (s, n)) -> block_at k' s n = None) /\
  (forall s n, is_mc s = false -> ~ (exists id, visits k m id /\ key_of id = (s, n)) -> block_at k' s n = block_at k s n) /\
  (forall a1 e a2, out = a1 ++ e :: a2 ->
     exists id, key_of id = key_of (e_id e) /\
       ((exists t, In t (e_tops m) /\ t_updated t = true /\ k_zs k < t_ref t /\ t_id t = id) \/
        exists e2, In e2 a2 /\ In id (e_prevs e2))) /\
  (forall s n, (exists id, visits k m id /\ key_of id = (s, n)) \/
     ~ exists id, visits k m id /\ key_of id = (s, n)).
Proof.
  intros Hk. destruct Hk as (H1 & H2 & H3 & H4). cbn zeta. unfold extract_subgraph.
  set (q := map t_id (filter (included_top (k_zs k)) (e_tops m))). set (mc := b_seqno (e_id m)).
  assert (Hq : forall id, In id q <-> exists t, In t (e_tops m) /\ t_updated t = true /\ k_zs k < t_ref t /\ t_id t = id).
  { intros id. unfold q. rewrite in_map_iff. split.
    - intros (t & Et & Hin). apply filter_In in Hin as [Hin Hi]. unfold included_top in Hi.
      apply andb_true_iff in Hi as [Hi1 Hi2]. apply N.ltb_lt in Hi2. exists t. auto.
    - intros (t & A & B & C & D). exists t. split; [exact D|]. apply filter_In. split; [exact A|].
      unfold included_top. rewrite B. cbn. now apply N.ltb_lt. }
  assert (Hlook : forall s n, is_mc s = false -> look (k_shards k) s n = block_at k s n).
  { intros s n Hs. unfold look, block_at. now rewrite Hs. }
  assert (Hlmc : forall s n e, look (k_shards k) s n = Some e -> is_mc s = false).
  { intros s n e E. unfold look in E. destruct (aget N.eqb s (k_shards k)) as [g|] eqn:Eg; [|discriminate].
    now apply (H4 _ _ Eg). }
  assert (Hkeyed : forall s n e, look (k_shards k) s n = Some e -> key_of (e_id e) = (s, n)).
  { intros s n e E. unfold look in E. destruct (aget N.eqb s (k_shards k)) as [g|] eqn:Eg; [|discriminate].
    destruct (H4 _ _ Eg) as [_ [_ Hg]]. now apply Hg. }
  assert (Hvis : forall id, vis (k_shards k) mc q id <-> visits k m id).
  { intros id. split.
    - induction 1 as [id A|id e p Hv IH El Er Hp].
      + apply Hq in A as (t & A & B & C & <-). now apply visits_top.
      + pose proof (Hlmc _ _ _ El) as Hm. rewrite Hlook in El by exact Hm.
        eapply visits_prev; eassumption.
    - induction 1 as [t A B C|id e p Hv IH Hm El Er Hp].
      + apply vis_top. apply Hq. exists t. auto.
      + rewrite <- Hlook in El by exact Hm. eapply vis_prev; eassumption. }
  destruct (loop_end (k_shards k) mc q Hkeyed (extract_fuel q (k_shards k)) q (k_shards k) [] [])
    as [V HJ].
  { apply j_start. intros s g E. apply (H4 _ _ E). }
  { unfold extract_fuel. apply le_n. }
  pose proof (loop_final (k_shards k) mc q [] _ _ _ HJ eq_refl) as HV.
  destruct (extract_loop _ _ _ _ _) as [shs acc]. cbn [fst snd] in *.
  assert (HV2 : forall s n, (exists id, visits k m id /\ key_of id = (s, n)) <-> In (s, n) (map key_of V)).
  { intros s n. rewrite in_map_iff. split.
    - intros (id & A & B). exists id. split; [exact B|]. apply HV, Hvis, A.
    - intros (id & A & B). exists id. split; [|exact A]. apply Hvis, HV, B. }
  destruct HJ as [J1 J2 J3 J4 J5 J6 J7 J8 J9 J10].
  split; [|split; [|split; [|split; [|split]]]].
  - intros e. rewrite <- in_rev, J4. unfold belongs. split.
    + intros (id & A & B & C). pose proof (Hlmc _ _ _ B) as Hm. exists id.
      split; [apply Hvis, HV, A|]. split; [exact Hm|]. rewrite <- Hlook by exact Hm. auto.
    + intros (id & A & Hm & B & C). exists id. split; [apply HV, Hvis, A|]. rewrite Hlook by exact Hm. auto.
  - rewrite map_rev. apply NoDup_rev, J5.
  - intros s n Hm Hex. apply HV2 in Hex. unfold block_at. rewrite Hm. cbn [k_shards]. now apply (J2 s n).
  - intros s n Hm Hex. unfold block_at. rewrite Hm. cbn [k_shards]. apply (J3 s n). intros Hin. apply Hex, HV2, Hin.
  - intros a1 e a2 E. assert (E' : acc = rev a2 ++ e :: rev a1).
    { rewrite <- (rev_involutive acc), E, rev_app_distr. cbn [rev]. now rewrite <- app_assoc. }
    destruct (J10 _ _ _ E') as (id & A & [B|(e2 & B1 & B2)]).
    + exists id. split; [exact A|]. left. now apply Hq.
    + exists id. split; [exact A|]. right. exists e2. split; [now apply in_rev|exact B2].
  - intros s n. destruct (in_dec key_dec (s, n) (map key_of V)) as [Hi|Hi].
    + left. now apply HV2.
    + right. intros Hex. apply Hi, HV2, Hex.
Qed.

(** the extracted shard blocks are below the known height of their chain *)
Lemma loop_heights fuel : forall mc q shs acc e,
  (forall s g, aget N.eqb s shs = Some g -> ginv s g) ->
  (In e acc -> exists g y, aget N.eqb (b_shard (e_id e)) shs = Some g /\ g_synced g = Some y /\ b_seqno (e_id e) <= y) ->
  In e (snd (extract_loop fuel mc q shs acc)) ->
  exists g y, aget N.eqb (b_shard (e_id e)) (fst (extract_loop fuel mc q shs acc)) = Some g /\
    g_synced g = Some y /\ b_seqno (e_id e) <= y.
Proof.
  induction fuel as [|fuel IH]; intros mc q shs acc e Hg Ha Hin; [cbn in *; auto|].
  cbn [extract_loop] in *. destruct q as [|id q]; [cbn in *; auto|].
  destruct (aget N.eqb (b_shard id) shs) as [g|] eqn:Eg; [|now apply IH].
  destruct (bget (b_seqno id) (g_blocks g)) as [e1|] eqn:Ee; [|now apply IH]. cbn zeta in *.
  set (g1 := with_blocks g (bdel (b_seqno id) (g_blocks g))) in *.
  assert (Hg1 : ginv (b_shard id) g1).
  { apply (ginv_sub _ _ _ g); [now apply Hg|apply bdel_sorted, (Hg _ _ Eg)|apply hle_refl|].
    intros n e2. apply bdel_sub, (Hg _ _ Eg). }
  destruct (e_ref e1 =? mc).
  - set (g2 := fst (refresh_synced (b_seqno (e_id e1)) g1)) in *.
    destruct (refresh_spec _ (b_seqno (e_id e1)) g1) as (_ & _ & _ & Rh & Ry & _).
    apply IH; [| |exact Hin].
    + intros s gg E. rewrite sget_aset in E. destruct (N.eqb_spec s (b_shard id)) as [Q|Q]; [|now apply Hg].
      injection E as <-. subst s. now apply ginv_refresh.
    + intros Hi. rewrite sget_aset. apply in_app_iff in Hi as [Hi|[<-|[]]].
      * destruct (Ha Hi) as (gg & y & A & B & C).
        destruct (N.eqb_spec (b_shard (e_id e)) (b_shard id)) as [Q|Q]; [|exists gg, y; auto].
        rewrite Q in A. assert (gg = g) by congruence. subst gg.
        destruct (Rh y B) as (y' & B' & C'). exists g2, y'. split; [reflexivity|]. split; [exact B'|lia].
      * destruct (Hg _ _ Eg) as [_ Hi]. destruct (Hi _ _ Ee) as (Hk & _). unfold key_of in Hk.
        assert (Q : b_shard (e_id e1) = b_shard id) by congruence. rewrite Q, N.eqb_refl.
        destruct Ry as (y & A & B). exists g2, y. auto.
  - apply IH; [| |exact Hin].
    + intros s gg E. rewrite sget_aset in E. destruct (N.eqb_spec s (b_shard id)) as [Q|Q]; [|now apply Hg].
      injection E as <-. subst s. exact Hg1.
    + intros Hi. rewrite sget_aset. destruct (Ha Hi) as (gg & y & A & B & C).
      destruct (N.eqb_spec (b_shard (e_id e)) (b_shard id)) as [Q|Q]; [|exists gg, y; auto].
      rewrite Q in A. assert (gg = g) by congruence. subst gg. exists g1, y. auto.
Qed.
