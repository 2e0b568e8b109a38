(** * MBufAdd: the sum of two groups (C59), concrete runs, and the index that keeps stale slots *)

From Coq Require Import List NArith ZArith Bool PeanoNat Permutation Lia.
From Verif Require Import AMap MBufModel MBufSpec MBufBasics MBufInv MBufSlots MBufLoops MBufStep2 MBufIndex MBufFill MBufTx MBufThms.
Import ListNotations.

Fixpoint numbered (next : nat) (l : amap nat slot) : amap nat slot :=
  match l with [] => [] | (_, s) :: t => (next, s) :: numbered (S next) t end.

Lemma numbered_get l : forall next id s, sget id (numbered next l) = Some s <->
  exists i k, id = next + i /\ nth_error l i = Some (k, s).
Proof.
  induction l as [|[k0 s0] l IH]; intros next id s; cbn [numbered aget].
  - split; [discriminate|]. intros (i & k & _ & H). destruct i; discriminate.
  - destruct (Nateqs id next) as [->|Hn].
    + split.
      * intros [= <-]. exists 0, k0. split; [lia|reflexivity].
      * intros (i & k & Hi & Hk). assert (i = 0) as -> by lia. cbn in Hk. congruence.
    + rewrite IH. split; intros (i & k & Hi & Hk).
      * exists (S i), k. split; [lia|assumption].
      * destruct i as [|i]; [lia|]. exists i, k. split; [lia|assumption].
Qed.
Lemma numbered_keys l : forall next, akeys (numbered next l) = seq next (length l).
Proof.
  unfold akeys. induction l as [|[k s] l IH]; intros next; cbn [numbered map fst length seq]; [reflexivity|]. now rewrite IH.
Qed.

Lemma sset_new (m : amap nat slot) a v : ~ In a (akeys m) -> sset a v m = m ++ [(a, v)].
Proof.
  induction m as [|[k u] m IH]; cbn [aset akeys map fst In app]; intros H; [reflexivity|].
  destruct (Nateqs a k) as [->|Hn]; [destruct H; now left|]. rewrite IH; [reflexivity|tauto].
Qed.

Lemma add_slots_spec l : forall next g, (forall id, In id (akeys (g_slots g)) -> id < next) ->
  let g' := add_slots next l g in
  g_slots g' = g_slots g ++ numbered next l /\ g_msgs g' = g_msgs g /\ g_int g' = g_int g /\ g_ext g' = g_ext g /\
  g_last g' = match l with [] => g_last g | _ => Some (next + length l - 1) end /\
  (forall j k, In j (nth k (g_index g') []) <-> In j (nth k (g_index g) []) \/
     exists i q s, nth_error l i = Some (q, s) /\ j = next + i /\ k = s_count s).
Proof.
  induction l as [|[q s] l IH]; intros next g LT; cbn [add_slots numbered].
  - rewrite app_nil_r. repeat (split; [reflexivity|]). intros j k. split; [now left|].
    intros [H|(i & q & s & H & _)]; [assumption|destruct i; discriminate].
  - set (g1 := mkG (g_msgs g) (sset next s (g_slots g)) (Some next) (bucket_add (s_count s) next (g_index g)) (g_int g) (g_ext g)).
    assert (NI : ~ In next (akeys (g_slots g))) by (intros H; apply LT in H; lia).
    destruct (IH (S next) g1) as (P1 & P2 & P3 & P4 & P5 & P6).
    { intros id Hid. cbn [g1 g_slots] in Hid. apply (akeys_aset_in Nat.eqb Nateqs) in Hid as [->|Hid]; [lia|]. apply LT in Hid. lia. }
    split; [|split; [assumption|split; [assumption|split; [assumption|split]]]].
    + rewrite P1. cbn [g1 g_slots]. rewrite (sset_new _ _ _ NI), <- app_assoc. reflexivity.
    + rewrite P5. cbn [length]. destruct l; [cbn [g1 g_last length]; f_equal; lia|]. f_equal. cbn [length]. lia.
    + intros j k. rewrite P6. cbn [g1 g_index]. rewrite bucket_add_in. split.
      * intros [[H|[-> ->]]|(i & q' & s' & H1 & H2 & H3)].
        -- now left.
        -- right. exists 0, q, s. split; [reflexivity|]. split; [lia|reflexivity].
        -- right. exists (S i), q', s'. split; [assumption|]. split; [lia|assumption].
      * intros [H|([|i] & q' & s' & H1 & H2 & H3)].
        -- left. now left.
        -- cbn in H1. injection H1 as -> ->. left. right. split; [assumption|lia].
        -- right. exists i, q', s'. split; [assumption|]. split; [lia|assumption].
Qed.

Lemma add_accounts_spec l : forall m, NoDup (akeys l) ->
  (forall a, In a (akeys l) -> ~ In a (akeys m)) -> add_accounts l m = Some (m ++ l).
Proof.
  induction l as [|[a v] l IH]; intros m ND DJ; cbn [add_accounts]; [now rewrite app_nil_r|].
  cbn [akeys map fst] in ND, DJ. inversion ND as [|? ? NI ND']; subst.
  assert (NA : ~ In a (akeys m)) by (apply DJ; now left).
  destruct (mhas a m) eqn:H; [apply mhas_in in H; contradiction|].
  assert (mset a v m = m ++ [(a, v)]) as ->.
  { clear -NA. induction m as [|[k u] m IH]; cbn [aset akeys map fst In app] in *; [reflexivity|].
    destruct (Neqs a k) as [->|Hn]; [destruct NA; now left|]. rewrite IH; [reflexivity|tauto]. }
  rewrite IH; [now rewrite <- app_assoc|assumption|].
  intros k Hk. unfold akeys. rewrite map_app, in_app_iff. cbn [map fst In].
  intros [H1|[<-|[]]]; [exact (DJ k (or_intror Hk) H1)|contradiction].
Qed.
Lemma add_accounts_none l : forall m, (exists a, In a (akeys l) /\ In a (akeys m)) -> add_accounts l m = None.
Proof.
  induction l as [|[k v] l IH]; intros m (a & Ha & Hm); [destruct Ha|]. cbn [add_accounts].
  destruct (mhas k m) eqn:H; [reflexivity|]. destruct Ha as [Ha|Ha].
  - cbn in Ha. subst k. apply mhas_in in Hm. congruence.
  - apply IH. exists a. split; [assumption|]. apply (akeys_aset_in N.eqb Neqs). now right.
Qed.

Lemma get_app {A} (m1 m2 : amap N A) a : mget a (m1 ++ m2) = match mget a m1 with Some v => Some v | None => mget a m2 end.
Proof. induction m1 as [|[k v] m1 IH]; cbn [app aget]; [reflexivity|]. destruct (N.eqb a k); [reflexivity|apply IH]. Qed.
Lemma sgetapp {A} (m1 m2 : amap nat A) a : sget a (m1 ++ m2) = match sget a m1 with Some v => Some v | None => sget a m2 end.
Proof. induction m1 as [|[k v] m1 IH]; cbn [app aget]; [reflexivity|]. destruct (Nat.eqb a k); [reflexivity|apply IH]. Qed.

Lemma nth_error_get (m : amap nat slot) i k s : NoDup (akeys m) -> nth_error m i = Some (k, s) -> sget k m = Some s.
Proof. intros ND H. apply nth_error_In in H. now apply (aget_in Nat.eqb Nateqs _ _ _ ND). Qed.
Lemma get_nth_error (m : amap nat slot) k s : sget k m = Some s -> exists i, nth_error m i = Some (k, s).
Proof. intros H. apply (aget_some_in Nat.eqb Nateqs) in H. now apply In_nth_error. Qed.
Lemma nth_key_inj (m : amap nat slot) i j k s t : NoDup (akeys m) -> nth_error m i = Some (k, s) -> nth_error m j = Some (k, t) -> i = j.
Proof.
  intros ND H1 H2. unfold akeys in ND. rewrite NoDup_nth_error in ND. apply ND.
  - rewrite map_length. apply nth_error_Some. congruence.
  - rewrite (map_nth_error fst _ _ H1), (map_nth_error fst _ _ H2). reflexivity.
Qed.

Lemma collected_in V g a : wf_group V g -> (In a (akeys (g_msgs g)) <-> collected a g <> []).
Proof.
  intros WG. rewrite mget_in. unfold collected, of_acc. split.
  - intros (v & E). rewrite E. now apply (wg_acc _ _ WG) in E.
  - destruct (mget a (g_msgs g)) as [v|]; [eauto|congruence].
Qed.

(** The sum of two groups, as [check_skip_account] prepares them: no account is in both. Every
    account keeps its messages, no slot grows, and the result is well formed. *)
Theorem add_ok V g h : wf_group V g -> wf_group V h ->
  (forall a, collected a g <> [] -> collected a h = []) ->
  exists s, g_add g h = Some s /\ wf_group V s /\
    (forall a, collected a s = collected a g ++ collected a h) /\
    length (g_slots s) = length (g_slots g) + length (g_slots h).
Proof.
  intros WG WH DJ.
  assert (DJ' : forall a, In a (akeys (g_msgs h)) -> ~ In a (akeys (g_msgs g))).
  { intros a Ha Hg. apply (collected_in V _ _ WH) in Ha. apply (collected_in V _ _ WG) in Hg. exact (Ha (DJ a Hg)). }
  unfold g_add. set (n0 := match g_last g with Some l => S l | None => 0 end).
  assert (LT : forall id, In id (akeys (g_slots g)) -> id < n0).
  { intros id Hid. destruct (wg_last _ _ WG _ Hid) as (l & El & Hl). unfold n0. rewrite El. lia. }
  destruct (add_slots_spec (g_slots h) n0 g LT) as (P1 & P2 & P3 & P4 & P5 & P6).
  set (g1 := add_slots n0 (g_slots h) g) in *.
  rewrite P2, (add_accounts_spec _ _ (wg_keys _ _ WH) DJ').
  eexists. split; [reflexivity|].
  assert (COL : forall a, of_acc a (g_msgs g ++ g_msgs h) = collected a g ++ collected a h).
  { intros a. unfold of_acc. rewrite get_app. unfold collected, of_acc. destruct (mget a (g_msgs g)) as [v|] eqn:E; [|reflexivity].
    assert (In a (akeys (g_msgs g))) as Hg by (apply mget_in; eauto).
    assert (mget a (g_msgs h) = None) as ->; [|now rewrite app_nil_r].
    apply (aget_none N.eqb Neqs). intros Hh. exact (DJ' a Hh Hg). }
  assert (CG : forall a, In a (akeys (g_msgs g)) -> of_acc a (g_msgs g ++ g_msgs h) = collected a g).
  { intros a Ha. rewrite COL. apply (collected_in V _ _ WG) in Ha. rewrite (DJ a Ha). apply app_nil_r. }
  assert (CH : forall a, In a (akeys (g_msgs h)) -> of_acc a (g_msgs g ++ g_msgs h) = collected a h).
  { intros a Ha. rewrite COL. assert (collected a g = []) as ->; [|reflexivity].
    destruct (collected a g) eqn:E; [reflexivity|]. apply (collected_in V _ _ WH) in Ha. destruct Ha. apply DJ. congruence. }
  assert (SG : forall id s, sget id (g_slots g1) = Some s <->
             sget id (g_slots g) = Some s \/ exists i k, id = n0 + i /\ nth_error (g_slots h) i = Some (k, s)).
  { intros id s. rewrite P1, sgetapp. destruct (sget id (g_slots g)) as [v|] eqn:E.
    - split; [now left|]. intros [H|(i & k & -> & _)]; [assumption|].
      assert (In (n0 + i) (akeys (g_slots g))) as Hin by (apply sget_in; eauto). apply LT in Hin. lia.
    - rewrite numbered_get. split; [now right|]. intros [H|H]; [discriminate|assumption]. }
  assert (HS : forall i k s, nth_error (g_slots h) i = Some (k, s) -> sget k (g_slots h) = Some s)
    by (intros i k s; apply nth_error_get, (wg_slots _ _ WH)).
  split; [|split; [exact COL|cbn [g_slots]; rewrite P1, app_length, <- (akeys_len (numbered n0 (g_slots h))), numbered_keys, seq_length; reflexivity]].
  constructor; unfold collected; cbn [g_msgs g_slots g_last g_index g_int g_ext].
  - unfold akeys. rewrite map_app.
    pose proof (wg_keys _ _ WG) as N1. pose proof (wg_keys _ _ WH) as N2. unfold akeys in *.
    clear -N1 N2 DJ'. induction (g_msgs g) as [|[k v] m IH]; [assumption|]. cbn [map fst app] in *.
    inversion N1 as [|? ? NI ND]; subst. constructor.
    + rewrite in_app_iff. intros [H|H]; [contradiction|]. apply (DJ' k H). now left.
    + apply IH; [|assumption]. intros a Ha Hm. apply (DJ' a Ha). now right.
  - intros a l. rewrite get_app. destruct (mget a (g_msgs g)) as [v|] eqn:E.
    + intros [= <-]. now apply (wg_acc _ _ WG) in E.
    + apply (wg_acc _ _ WH).
  - rewrite P1. unfold akeys. rewrite map_app. fold (akeys (g_slots g)) (akeys (numbered n0 (g_slots h))).
    rewrite numbered_keys. pose proof (wg_slots _ _ WG) as N1. clear -N1 LT.
    induction (akeys (g_slots g)) as [|k m IH]; [apply seq_NoDup|]. cbn [app]. inversion N1 as [|? ? NI ND]; subst. constructor.
    + rewrite in_app_iff, in_seq. intros [H|H]; [contradiction|]. specialize (LT k (or_introl eq_refl)). lia.
    + apply IH; [|assumption]. intros id Hid. apply LT. now right.
  - intros id s Es. apply SG in Es as [Es|(i & k & -> & Es)].
    + destruct (wg_slot _ _ WG _ _ Es) as (H1 & H2 & H3 & H4). split; [assumption|].
      assert (IA : forall a, In a (s_accs s) -> In a (akeys (g_msgs g))) by (intros a Ha; apply (wg_in _ _ WG); eauto).
      split; [rewrite H2; apply sum_over_ext; intros a Ha; now rewrite CG by auto|].
      split; [rewrite H3; apply sum_over_ext; intros a Ha; now rewrite CG by auto|assumption].
    + apply HS in Es. destruct (wg_slot _ _ WH _ _ Es) as (H1 & H2 & H3 & H4). split; [assumption|].
      assert (IA : forall a, In a (s_accs s) -> In a (akeys (g_msgs h))) by (intros a Ha; apply (wg_in _ _ WH); eauto).
      split; [rewrite H2; apply sum_over_ext; intros a Ha; now rewrite CH by auto|].
      split; [rewrite H3; apply sum_over_ext; intros a Ha; now rewrite CH by auto|assumption].
  - intros a. unfold akeys. rewrite map_app, in_app_iff. fold (akeys (g_msgs g)) (akeys (g_msgs h)).
    rewrite (wg_in _ _ WG), (wg_in _ _ WH). split.
    + intros [(id & s & Es & Ha)|(id & s & Es & Ha)].
      * exists id, s. split; [apply SG; now left|assumption].
      * destruct (get_nth_error _ _ _ Es) as (i & Hi). exists (n0 + i), s. split; [|assumption]. apply SG. right. eauto.
    + intros (id & s & Es & Ha). apply SG in Es as [Es|(i & k & -> & Es)]; [left; eauto|right].
      apply HS in Es. eauto.
  - intros a i j s t Ei Ej Hs Ht. apply SG in Ei as [Ei|(i' & k & -> & Ei)]; apply SG in Ej as [Ej|(j' & k' & -> & Ej)].
    + exact (wg_once _ _ WG a _ _ _ _ Ei Ej Hs Ht).
    + exfalso. apply HS in Ej. apply (DJ' a); [apply (wg_in _ _ WH)|apply (wg_in _ _ WG)]; eauto.
    + exfalso. apply HS in Ei. apply (DJ' a); [apply (wg_in _ _ WH)|apply (wg_in _ _ WG)]; eauto.
    + pose proof (HS _ _ _ Ei) as Gi. pose proof (HS _ _ _ Ej) as Gj.
      pose proof (wg_once _ _ WH a _ _ _ _ Gi Gj Hs Ht) as E. subst k'.
      now rewrite (nth_key_inj _ _ _ _ _ _ (wg_slots _ _ WH) Ei Ej).
  - rewrite P3, (wg_int _ _ WG), (wg_int _ _ WH). unfold all_msgs. rewrite map_app, concat_app, nint_app. lia.
  - rewrite P4, (wg_ext _ _ WG), (wg_ext _ _ WH). unfold all_msgs. rewrite map_app, concat_app, next_app. lia.
  - intros id Hid. rewrite P5. apply sget_in in Hid as (s & Es). apply SG in Es as [Es|(i & k & -> & Es)].
    + assert (Hid : In id (akeys (g_slots g))) by (apply sget_in; eauto). destruct (wg_last _ _ WG _ Hid) as (l & El & Hl).
      destruct (g_slots h) as [|x t]; [eauto|]. eexists. split; [reflexivity|]. apply LT in Hid. lia.
    + assert (i < length (g_slots h)) by (apply nth_error_Some; congruence).
      destruct (g_slots h) as [|x t]; [destruct i; discriminate|]. eexists. split; [reflexivity|]. lia.
  - intros id s Es. apply P6. apply SG in Es as [Es|(i & k & -> & Es)]; [left; now apply (wg_index _ _ WG)|right; exists i, k, s; auto].
  - intros id n Hin. apply P6 in Hin as [Hin|(i & q & s & Hs & -> & _)]; apply sget_in.
    + apply (wg_index_ids _ _ WG) in Hin. apply sget_in in Hin as (v & Hv). exists v. apply SG. now left.
    + exists s. apply SG. right. eauto.
Qed.

(** The sum panics exactly when an account is in both groups. *)
Theorem add_panics V g h : wf_group V g -> wf_group V h ->
  (g_add g h = None <-> exists a, collected a g <> [] /\ collected a h <> []).
Proof.
  intros WG WH. split.
  - intros E. destruct (existsb (fun a => mhas a (g_msgs h)) (akeys (g_msgs g))) eqn:Ex.
    + apply existsb_exists in Ex as (a & Ha & Hb). apply mhas_in in Hb. exists a.
      split; [now apply (collected_in V _ _ WG)|now apply (collected_in V _ _ WH)].
    + exfalso. destruct (add_ok V g h WG WH) as (s & Es & _); [|congruence].
      intros a Ha. apply (collected_in V _ _ WG) in Ha. destruct (collected a h) eqn:Ec; [reflexivity|exfalso].
      apply Bool.not_true_iff_false in Ex. apply Ex. apply existsb_exists. exists a. split; [assumption|].
      apply mhas_in. apply (collected_in V _ _ WH). congruence.
  - intros (a & Ha & Hb). unfold g_add.
    set (n0 := match g_last g with Some l => S l | None => 0 end).
    assert (E : forall l n g, g_msgs (add_slots n l g) = g_msgs g).
    { clear. induction l as [|[q s] l IH]; intros n g; cbn [add_slots]; [reflexivity|]. now rewrite IH. }
    rewrite E, add_accounts_none; [reflexivity|]. exists a.
    split; [now apply (collected_in V _ _ WH)|now apply (collected_in V _ _ WG)].
Qed.
