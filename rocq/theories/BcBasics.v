(** Structural invariant of the blocks cache. *)
From Verif Require Export BcSpec.
From Coq Require Import ZArith ZifyN ZifyNat ZifyBool Lia.

Lemma Nto : total_order N.compare.
Proof.
  constructor.
  - apply N.compare_eq_iff.
  - intros a b. apply N.compare_antisym.
  - intros a b c H1 H2. apply N.compare_lt_iff in H1. apply N.compare_lt_iff in H2. apply N.compare_lt_iff. eapply N.lt_trans; eassumption.
Qed.

Lemma cmp_eqb (A : Type) (x y : A) a b :
  match N.compare a b with Eq => x | _ => y end = if N.eqb a b then x else y.
Proof.
  destruct (N.eqb_spec a b) as [E|E].
  - subst. now rewrite N.compare_refl.
  - destruct (N.compare a b) eqn:C; auto. apply N.compare_eq_iff in C. contradiction.
Qed.

Notation srt m := (osorted N.compare m).

Lemma bget_bput n e m n' : srt m -> bget n' (bput n e m) = if N.eqb n' n then Some e else bget n' m.
Proof. intros H. unfold bget, bput. rewrite (oget_put _ Nto) by assumption. apply cmp_eqb. Qed.
Lemma bget_bdel n m n' : srt m -> bget n' (bdel n m) = if N.eqb n' n then None else bget n' m.
Proof. intros H. unfold bget, bdel. rewrite (oget_del _ Nto) by assumption. apply cmp_eqb. Qed.
Lemma bget_filter f m n : srt m ->
  bget n (filter f m) = match bget n m with Some e => if f (n, e) then Some e else None | None => None end.
Proof. intros H. unfold bget. now rewrite (oget_filter _ Nto) by assumption. Qed.
Lemma bget_in n e m : srt m -> (In (n, e) m <-> bget n m = Some e).
Proof. intros H. unfold bget. now apply (oin_get _ Nto). Qed.
Lemma bput_sorted n e m : srt m -> srt (bput n e m).
Proof. apply (oput_sorted _ Nto). Qed.
Lemma bdel_sorted n m : srt m -> srt (bdel n m).
Proof. intros H. unfold bdel, odel. apply ofilter_sorted. assumption. Qed.

Lemma sget_aset (V : Type) s (g : V) m s' :
  aget N.eqb s' (aset N.eqb s g m) = if N.eqb s' s then Some g else aget N.eqb s' m.
Proof. apply (aget_aset _ N.eqb_spec). Qed.
Lemma snodup_aset (V : Type) s (g : V) m : NoDup (akeys m) -> NoDup (akeys (aset N.eqb s g m)).
Proof. apply (aset_nodup _ N.eqb_spec). Qed.

Lemma sget_map (V W : Type) (f : V -> W) (m : list (N * V)) s :
  aget N.eqb s (map (fun p => (fst p, f (snd p))) m) =
  match aget N.eqb s m with Some g => Some (f g) | None => None end.
Proof.
  induction m as [|[s' g] m IH]; cbn [map aget fst snd]; [reflexivity|].
  destruct (N.eqb s s'); auto.
Qed.
Lemma akeys_map (V W : Type) (f : V -> W) (m : list (N * V)) :
  akeys (map (fun p => (fst p, f (snd p))) m) = akeys m.
Proof. unfold akeys. rewrite map_map. apply map_ext. reflexivity. Qed.

(** status [Synced] and the received flag go together *)
Definition stat_ok (e : entry) : Prop :=
  match e_data e with DCollated c _ st rcv => rcv = status_eqb st StSynced /\ c_id c = e_id e
  | DReceived _ _ => True end.

Definition ginv {T} (s : N) (g : group T) : Prop :=
  srt (g_blocks g) /\
  forall n e, bget n (g_blocks g) = Some e ->
    key_of (e_id e) = (s, n) /\
    (applied e = true -> exists y, g_synced g = Some y /\ n <= y) /\ stat_ok e.

Definition linv (m : mdata) : Prop :=
  srt (m_last m) /\ forall n b, In (n, b) (m_last m) -> key_of b = (0, n).

Definition kinv (k : cache) : Prop :=
  ginv 0 (k_masters k) /\ linv (g_data (k_masters k)) /\ NoDup (akeys (k_shards k)) /\
  forall s g, aget N.eqb s (k_shards k) = Some g -> is_mc s = false /\ ginv s g.

Lemma bid_eqb_spec a b : reflect (a = b) (bid_eqb a b).
Proof.
  destruct a as [s n h], b as [s' n' h']. unfold bid_eqb. cbn.
  destruct (N.eqb_spec s s'), (N.eqb_spec n n'), (N.eqb_spec h h'); cbn; constructor; congruence.
Qed.
Lemma status_eqb_spec a b : reflect (a = b) (status_eqb a b).
Proof. destruct a, b; cbn; constructor; congruence. Qed.

(** the synced height never decreases *)
Definition hle (a b : option N) : Prop :=
  forall y, a = Some y -> exists y', b = Some y' /\ y <= y'.
Lemma hle_refl a : hle a a.
Proof. intros y E. exists y. split; [exact E|lia]. Qed.
Lemma hle_trans a b c : hle a b -> hle b c -> hle a c.
Proof.
  intros H1 H2 y E. destruct (H1 _ E) as (y1 & E1 & L1). destruct (H2 _ E1) as (y2 & E2 & L2).
  exists y2. split; [exact E2|lia].
Qed.

Lemma ginv_empty_s s : ginv s empty_s.
Proof. split; [constructor|]. cbn. discriminate. Qed.

Lemma refresh_spec T n (g : group T) :
  let g' := fst (refresh_synced n g) in
  g_blocks g' = g_blocks g /\ g_data g' = g_data g /\ g_gc g' = g_gc g /\
  hle (g_synced g) (g_synced g') /\
  (exists y, g_synced g' = Some y /\ n <= y) /\
  (snd (refresh_synced n g) = true <-> exists y, g_synced g = Some y /\ n <= y) /\
  (snd (refresh_synced n g) = true -> g' = g) /\
  (snd (refresh_synced n g) = false -> g_synced g' = Some n).
Proof.
  unfold refresh_synced. destruct (g_synced g) as [y|] eqn:Es.
  - destruct (N.leb_spec n y) as [L|L]; cbn.
    + rewrite Es. refine (conj eq_refl (conj eq_refl (conj eq_refl (conj (hle_refl _) _)))).
      split; [exists y; auto|]. split; [split; [intros _; exists y; auto|reflexivity]|].
      split; [reflexivity|discriminate].
    + refine (conj eq_refl (conj eq_refl (conj eq_refl (conj _ _)))).
      * intros y' E. injection E as <-. exists n. split; [reflexivity|lia].
      * split; [exists n; split; [reflexivity|lia]|]. split; [|split; [discriminate|reflexivity]].
        split; [discriminate|]. intros (y' & E & L'). injection E as <-. lia.
  - cbn. refine (conj eq_refl (conj eq_refl (conj eq_refl (conj _ _)))).
    + intros y E. discriminate.
    + split; [exists n; split; [reflexivity|lia]|]. split; [|split; [discriminate|reflexivity]].
      split; [discriminate|]. intros (y' & E & L'). discriminate.
Qed.

(** a group whose blocks are among the old ones (with the same flags) stays well formed *)
Lemma ginv_sub T U s (g : group T) (g' : group U) : ginv s g -> srt (g_blocks g') ->
  hle (g_synced g) (g_synced g') ->
  (forall n e, bget n (g_blocks g') = Some e -> bget n (g_blocks g) = Some e) -> ginv s g'.
Proof.
  intros [Hs Hg] Hs' Hh Hsub. split; [exact Hs'|]. intros n e E.
  destruct (Hg n e (Hsub _ _ E)) as (H1 & H2 & H3). split; [exact H1|]. split; [|exact H3].
  intros Ha. destruct (H2 Ha) as (y & Ey & Ly). destruct (Hh _ Ey) as (y' & Ey' & Ly').
  exists y'. split; [exact Ey'|lia].
Qed.

Lemma ginv_refresh T s n (g : group T) : ginv s g -> ginv s (fst (refresh_synced n g)).
Proof.
  intros H. destruct (refresh_spec T n g) as (Eb & _ & _ & Hh & _).
  apply (ginv_sub T T s g); auto; [rewrite Eb; apply H|]. intros m e. now rewrite Eb.
Qed.

Lemma ginv_put T s (g g' : group T) n e : ginv s g ->
  g_blocks g' = bput n e (g_blocks g) -> hle (g_synced g) (g_synced g') ->
  key_of (e_id e) = (s, n) -> (applied e = true -> exists y, g_synced g' = Some y /\ n <= y) ->
  stat_ok e -> ginv s g'.
Proof.
  intros [Hs Hg] Eb Hh Hk Ha Ho. split; [rewrite Eb; now apply bput_sorted|].
  intros m e' E. rewrite Eb, bget_bput in E by assumption.
  destruct (N.eqb_spec m n) as [Em|Em].
  - injection E as <-. subst m. auto.
  - destruct (Hg m e' E) as (H1 & H2 & H3). split; [exact H1|]. split; [|exact H3].
    intros Hap. destruct (H2 Hap) as (y & Ey & Ly). destruct (Hh _ Ey) as (y' & Ey' & Ly').
    exists y'. split; [exact Ey'|lia].
Qed.

Lemma ginv_filter T s (g g' : group T) f : ginv s g ->
  g_blocks g' = filter f (g_blocks g) -> g_synced g' = g_synced g -> ginv s g'.
Proof.
  intros H Eb Es. apply (ginv_sub T T s g); auto.
  - rewrite Eb. apply ofilter_sorted, H.
  - rewrite Es. apply hle_refl.
  - intros n e. rewrite Eb, bget_filter by apply H.
    destruct (bget n (g_blocks g)); [|discriminate]. destruct (f _); [auto|discriminate].
Qed.

Lemma ginv_same T U s (g : group T) (g' : group U) : ginv s g ->
  g_blocks g' = g_blocks g -> g_synced g' = g_synced g -> ginv s g'.
Proof.
  intros H Eb Es. apply (ginv_sub T U s g); auto.
  - rewrite Eb. apply H.
  - rewrite Es. apply hle_refl.
  - intros n e. now rewrite Eb.
Qed.

(** the effect of storing a collated candidate on a group *)
Lemma store_collated_spec T (on : cand -> T -> T) s (g : group T) c tops a g' b : ginv s g ->
  s = b_shard (c_id c) ->
  store_collated_group on g c tops a = Some (g', b) ->
  ginv s g' /\ g_synced g' = g_synced g /\ g_gc g' = g_gc g /\
  g_data g' = (if snd b then g_data g else on c (g_data g)) /\
  let n := b_seqno (c_id c) in
  (snd b = true -> g' = g) /\
  (snd b = true <-> exists e, bget n (g_blocks g) = Some e /\ e_id e <> c_id c) /\
  (fst b = true <-> exists e, bget n (g_blocks g) = Some e /\ e_id e = c_id c) /\
  (snd b = false -> exists e', bget n (g_blocks g') = Some e' /\ e_id e' = c_id c /\
     (fst b = true -> applied e' = true) /\ (fst b = false -> e' = from_collated c tops a)) /\
  (forall n', n' <> n -> bget n' (g_blocks g') = bget n' (g_blocks g)) /\
  (forall e, bget n (g_blocks g) = Some e -> is_received e = true).
Proof.
  intros Hg Es E. unfold store_collated_group in E. set (n := b_seqno (c_id c)) in *.
  destruct Hg as [Hs Hi].
  destruct (bget n (g_blocks g)) as [e|] eqn:En.
  - destruct (Hi _ _ En) as (Hk & Hap & Hok).
    destruct (e_data e) as [c0 sg st rv|col info] eqn:Ed; [discriminate|].
    destruct (bid_eqb_spec (e_id e) (c_id c)) as [Eid|Eid].
    + injection E as <- <-.
      match goal with |- ginv _ ?G /\ _ => assert (HG : ginv s G) end.
      { eapply (ginv_put T s g); [split; [exact Hs|exact Hi]|reflexivity|cbn; apply hle_refl|..]; cbn.
        - exact Hk.
        - intros _. apply Hap. unfold applied. now rewrite Ed.
        - exact I. }
      split; [exact HG|]. cbn [g_synced g_gc g_data g_blocks fst snd].
      refine (conj eq_refl (conj eq_refl (conj eq_refl _))). cbn zeta.
      split; [discriminate|]. split.
      { split; [discriminate|]. intros (e2 & E2 & N2). congruence. }
      split. { split; [|reflexivity]. intros _. exists e. auto. }
      split. { intros _. rewrite bget_bput by exact Hs. rewrite N.eqb_refl.
               eexists. split; [reflexivity|]. split; [exact Eid|]. split; [reflexivity|discriminate]. }
      split. { intros n' Hn. rewrite bget_bput by exact Hs.
               apply N.eqb_neq in Hn. now rewrite Hn. }
      intros e2 E2. assert (Q : e2 = e) by congruence. rewrite Q. unfold is_received. now rewrite Ed.
    + injection E as <- <-. cbn [fst snd].
      split; [split; [exact Hs|exact Hi]|]. refine (conj eq_refl (conj eq_refl (conj eq_refl _))).
      cbn zeta. split; [reflexivity|]. split. { split; [|reflexivity]. intros _. exists e. auto. }
      split. { split; [discriminate|]. intros (e2 & E2 & N2). congruence. }
      split; [discriminate|]. split; [reflexivity|].
      intros e2 E2. assert (Q : e2 = e) by congruence. rewrite Q. unfold is_received. now rewrite Ed.
  - injection E as <- <-.
    match goal with |- ginv _ ?G /\ _ => assert (HG : ginv s G) end.
    { eapply (ginv_put T s g); [split; [exact Hs|exact Hi]|reflexivity|cbn; apply hle_refl|..]; cbn.
      - unfold key_of. now rewrite Es.
      - discriminate.
      - auto. }
    split; [exact HG|]. cbn [g_synced g_gc g_data g_blocks fst snd].
    refine (conj eq_refl (conj eq_refl (conj eq_refl _))). cbn zeta.
    split; [discriminate|]. split.
    { split; [discriminate|]. intros (e2 & E2 & N2). congruence. }
    split. { split; [discriminate|]. intros (e2 & E2 & N2). congruence. }
    split. { intros _. rewrite bget_bput by exact Hs. rewrite N.eqb_refl.
             eexists. split; [reflexivity|]. split; [reflexivity|]. split; [discriminate|reflexivity]. }
    split. { intros n' Hn. rewrite bget_bput by exact Hs.
             apply N.eqb_neq in Hn. now rewrite Hn. }
    intros e2 E2. congruence.
Qed.

Lemma store_collated_err T (on : cand -> T -> T) (g : group T) c tops a :
  store_collated_group on g c tops a = None <->
  exists e, bget (b_seqno (c_id c)) (g_blocks g) = Some e /\ is_received e = false.
Proof.
  unfold store_collated_group, is_received.
  destruct (bget (b_seqno (c_id c)) (g_blocks g)) as [e|] eqn:En.
  - destruct (e_data e) eqn:Ed.
    + split; [|reflexivity]. intros _. exists e. now rewrite Ed.
    + split.
      * destruct (bid_eqb (e_id e) (c_id c)); discriminate.
      * intros (e2 & E2 & N2). injection E2 as <-. rewrite Ed in N2. discriminate.
  - split; [discriminate|]. intros (e2 & E2 & N2). discriminate.
Qed.

(** the effect of storing a received block that is newer than the known height *)
Lemma store_received_spec T (on : bid -> T -> T) s (g0 g : group T) r : ginv s g0 ->
  s = b_shard (r_id r) -> g = fst (refresh_synced (b_seqno (r_id r)) g0) ->
  snd (refresh_synced (b_seqno (r_id r)) g0) = false ->
  exists g' b, store_received_group on g r = Some (g', b) /\
  ginv s g' /\ g_synced g' = Some (b_seqno (r_id r)) /\ g_gc g' = g_gc g0 /\
  g_data g' = on (r_id r) (g_data g0) /\
  let n := b_seqno (r_id r) in
  (snd b = true <-> exists e, bget n (g_blocks g0) = Some e /\ e_id e <> r_id r) /\
  (fst b = true <-> exists e, bget n (g_blocks g0) = Some e /\ e_id e = r_id r) /\
  (exists e', bget n (g_blocks g') = Some e' /\ e_id e' = r_id r /\ applied e' = true) /\
  (forall n', n' <> n -> bget n' (g_blocks g') = bget n' (g_blocks g0)) /\
  (forall e, bget n (g_blocks g0) = Some e -> applied e = false).
Proof.
  intros Hg0 Es Eg Hnew. set (n := b_seqno (r_id r)) in *.
  destruct (refresh_spec T n g0) as (Rb & Rd & Rg & Rh & Ry & Rt & _ & Rs).
  pose proof (ginv_refresh T s n g0 Hg0) as Hg.
  rewrite <- Eg in Rb, Rd, Rg, Rh, Rs, Hg. specialize (Rs Hnew).
  assert (Hnap : forall e, bget n (g_blocks g0) = Some e -> applied e = false).
  { intros e E. destruct (applied e) eqn:Ea; [|reflexivity]. exfalso.
    destruct Hg0 as [_ Hi]. destruct (Hi _ _ E) as (_ & Hap & _).
    destruct Rt as [_ Rt]. rewrite (Rt (Hap Ea)) in Hnew. discriminate. }
  destruct Hg as [Hs Hi]. rewrite <- Rb, <- Rd, <- Rg in *.
  unfold store_received_group. fold n.
  destruct (bget n (g_blocks g)) as [e|] eqn:En.
  - destruct (Hi _ _ En) as (Hk & Hap & Hok).
    pose proof (Hnap _ eq_refl) as Hna. unfold applied in Hna.
    destruct (e_data e) as [c0 sg st rv|col info] eqn:Ed; [|discriminate]. subst rv.
    destruct (bid_eqb_spec (e_id e) (r_id r)) as [Eid|Eid].
    + eexists _, _. split; [reflexivity|].
      match goal with |- ginv _ ?G /\ _ => assert (HG : ginv s G) end.
      { eapply (ginv_put T s g); [split; [exact Hs|exact Hi]|reflexivity|cbn; apply hle_refl|..]; cbn.
        - exact Hk.
        - intros _. exists n. split; [exact Rs|lia].
        - unfold stat_ok in Hok |- *. rewrite Ed in Hok. cbn. destruct Hok. auto. }
      split; [exact HG|]. cbn [g_synced g_gc g_data g_blocks fst snd].
      refine (conj Rs (conj eq_refl (conj _ _))); [now rewrite Eid|]. cbn zeta.
      split. { split; [discriminate|]. intros (e2 & E2 & N2). congruence. }
      split. { split; [|reflexivity]. intros _. exists e. auto. }
      split. { rewrite bget_bput by exact Hs. rewrite N.eqb_refl.
               eexists. split; [reflexivity|]. split; [exact Eid|reflexivity]. }
      split. { intros n' Hn. rewrite bget_bput by exact Hs.
               apply N.eqb_neq in Hn. now rewrite Hn. }
      intros e2 E2. apply Hnap. congruence.
    + eexists _, _. split; [reflexivity|].
      match goal with |- ginv _ ?G /\ _ => assert (HG : ginv s G) end.
      { eapply (ginv_put T s g); [split; [exact Hs|exact Hi]|reflexivity|cbn; apply hle_refl|..]; cbn.
        - unfold key_of. now rewrite Es.
        - intros _. exists n. split; [exact Rs|lia].
        - exact I. }
      split; [exact HG|]. cbn [g_synced g_gc g_data g_blocks fst snd].
      refine (conj Rs (conj eq_refl (conj eq_refl _))). cbn zeta.
      split. { split; [|reflexivity]. intros _. exists e. auto. }
      split. { split; [discriminate|]. intros (e2 & E2 & N2). congruence. }
      split. { rewrite bget_bput by exact Hs. rewrite N.eqb_refl.
               eexists. split; [reflexivity|]. split; reflexivity. }
      split. { intros n' Hn. rewrite bget_bput by exact Hs.
               apply N.eqb_neq in Hn. now rewrite Hn. }
      intros e2 E2. apply Hnap. congruence.
  - eexists _, _. split; [reflexivity|].
    match goal with |- ginv _ ?G /\ _ => assert (HG : ginv s G) end.
    { eapply (ginv_put T s g); [split; [exact Hs|exact Hi]|reflexivity|cbn; apply hle_refl|..]; cbn.
      - unfold key_of. now rewrite Es.
      - intros _. exists n. split; [exact Rs|lia].
      - exact I. }
    split; [exact HG|]. cbn [g_synced g_gc g_data g_blocks fst snd].
    refine (conj Rs (conj eq_refl (conj eq_refl _))). cbn zeta.
    split. { split; [discriminate|]. intros (e2 & E2 & N2). congruence. }
    split. { split; [discriminate|]. intros (e2 & E2 & N2). congruence. }
    split. { rewrite bget_bput by exact Hs. rewrite N.eqb_refl.
             eexists. split; [reflexivity|]. split; reflexivity. }
    split. { intros n' Hn. rewrite bget_bput by exact Hs.
             apply N.eqb_neq in Hn. now rewrite Hn. }
    intros e2 E2. congruence.
Qed.
