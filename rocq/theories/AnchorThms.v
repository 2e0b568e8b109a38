(** * AnchorThms: C54, the anchors cache of the collator *)

From Coq Require Import List NArith Bool Sorted Lia ZArith ZifyN ZifyNat ZifyBool.
From Verif Require Import AnchorModel AnchorSpec AnchorProofs AnchorInv AnchorInit.
Import ListNotations.
Open Scope N_scope.

(** ** The importing loop ends *)

Definition left_after (M : list anchor) (prev : N) : nat :=
  length (filter (fun a => prev <? a_id a) M).

Lemma left_less : forall M prev a, In a M -> prev < a_id a ->
  (left_after M (a_id a) < left_after M prev)%nat.
Proof.
  intros M prev a H L. unfold left_after.
  assert (G : forall l, (length (filter (fun x => (a_id a <? a_id x)%N) l) <=
                         length (filter (fun x => (prev <? a_id x)%N) l))%nat).
  { induction l as [|y t IHl]; [reflexivity|]. cbn.
    destruct (N.ltb_spec (a_id a) (a_id y)), (N.ltb_spec prev (a_id y)); cbn; lia. }
  induction M as [|x t IH]; [destruct H|]. cbn.
  destruct H as [->|H].
  - rewrite N.ltb_irrefl. apply N.ltb_lt in L. rewrite L. cbn. specialize (G t). lia.
  - specialize (IH H). destruct (N.ltb_spec (a_id a) (a_id x)), (N.ltb_spec prev (a_id x)); cbn; lia.
Qed.

Lemma left_all : forall M prev, (left_after M prev <= length M)%nat.
Proof. intros M prev. unfold left_after. induction M; cbn; [lia|]. destruct (prev <? a_id a); cbn; lia. Qed.

Lemma loop_total : forall fuel M okf calls p off B cur prev ct nxt c infos count,
  ss M -> (left_after M prev < fuel)%nat ->
  res_out (import_loop fuel M okf calls p off B cur prev ct nxt c infos count) <> INoFuel.
Proof.
  induction fuel as [|f IH]; intros M okf calls p off B cur prev ct nxt c infos count S L; [lia|].
  cbn [import_loop].
  destruct nxt as [b|];
    (destruct (B <=? ct); [discriminate|]; destruct (okf calls); [|discriminate];
     destruct (next_in M prev) as [a|] eqn:E; [|discriminate];
     destruct (next_in_spec M prev a S E) as (A1 & A2 & _);
     apply IH; [exact S|]; pose proof (left_less M prev a A1 A2); lia).
Qed.

Lemma loop_succeeds : forall fuel M okf calls p off B cur prev ct nxt c infos count z,
  ss M -> (left_after M prev < fuel)%nat -> (forall n, okf n = true) ->
  In z M -> B <= a_ct z -> (ct < B -> prev < a_id z) ->
  res_out (import_loop fuel M okf calls p off B cur prev ct nxt c infos count) = IOk.
Proof.
  induction fuel as [|f IH]; intros M okf calls p off B cur prev ct nxt c infos count z S L OK Hz Bz Pz; [lia|].
  cbn [import_loop].
  assert (X : forall cc ii kk, res_out
    (if B <=? ct then (IOk, cc, ii, kk)
     else if okf calls then
        match next_in M prev with
        | Some a => import_loop f M okf (Datatypes.S calls) p off B cur (a_id a) (a_ct a) (Some a) cc ii kk
        | None => (IFailed, cc, ii, kk)
        end
     else (IFailed, cc, ii, kk)) = IOk).
  { intros cc ii kk. destruct (N.leb_spec B ct) as [LB|LB]; [reflexivity|]. rewrite OK.
    destruct (next_in M prev) as [a|] eqn:E.
    - destruct (next_in_spec M prev a S E) as (A1 & A2 & A3).
      apply (IH M okf _ p off B cur _ _ _ cc ii kk z); auto.
      + pose proof (left_less M prev a A1 A2). lia.
      + intros LA. apply (ss_in M a z S A1 Hz). lia.
    - pose proof (next_in_none M prev E z Hz). specialize (Pz LB). lia. }
  destruct nxt as [b|]; apply X.
Qed.

Lemma init_total : forall fuel M okf p off B cur c, chain M -> (length M < fuel)%nat ->
  res_out (import_init fuel M okf p off B cur c) <> INoFuel.
Proof.
  intros fuel M okf p off B cur c [S _] L. unfold import_init.
  destruct (scan_cache _ _ _ _ _) as [sa sp sl si]. cbn [s_all s_p s_last s_infos].
  assert (T : forall prev, (left_after M prev < fuel)%nat) by (intros q; pose proof (left_all M q); lia).
  destruct sa; [discriminate|]. destruct sl as [a|]; [now apply loop_total|].
  destruct (okf O); [|discriminate]. destruct (by_id M p); [now apply loop_total|discriminate].
Qed.

(** ** Reachable caches *)

Lemma good_next : forall M c k, chain M -> good M c -> good M (fst (import_next M k c)).
Proof.
  intros M c k CH (lo & V & HE). destruct (ok_next M lo c k CH V HE) as (A & _ & B). now exists lo.
Qed.

Lemma pop_hist_nil : forall c, ac_hist (fst (pop_front c)) = [] -> ac_hist c = [].
Proof.
  intros c. unfold pop_front. destruct (ac_cache c); [auto|]. cbn. apply drop_before_nil.
Qed.

Lemma good_pop : forall M c, chain M -> good M c -> good M (fst (pop_front c)).
Proof.
  intros M c CH (lo & V & HE). destruct (pop_front c) as [c' [[k a]|]] eqn:E.
  - destruct (ok_pop M lo _ c c' k a CH V E) as (A & L & W & _ & LO). exists (a_id a + 1). cbn [fst].
    unfold ok. rewrite L. split; [exact A|]. intros Z. exfalso.
    assert (H0 : ac_hist c = []) by (apply (pop_hist_nil c); rewrite E; exact Z).
    destruct V as [_ _ _ _ V5 _ _ _]. specialize (V5 a). rewrite W in V5.
    specialize (V5 (or_introl eq_refl)). apply sufmin_in in V5. rewrite H0 in V5. destruct V5.
  - unfold pop_front in E. destruct (ac_cache c); [|discriminate]. injection E as <-. now exists lo.
Qed.

Lemma good_ops : forall M ops c, chain M -> good M c -> good M (fst (run_plain ops c)).
Proof.
  intros M ops. induction ops as [|[|ct] r IH]; intros c CH G; [exact G| |]; cbn [run_plain].
  - pose proof (good_pop M c CH G) as P. destruct (pop_front c) as [c1 res]. cbn [fst] in P.
    specialize (IH c1 CH P). destruct (run_plain r c1). exact IH.
  - apply IH; [exact CH|]. now apply good_above.
Qed.

Lemma reach_good : forall M c, chain M -> reach M c -> good M c.
Proof.
  intros M c CH R. induction R.
  - now apply good_empty.
  - now apply good_next.
  - now apply good_pop.
  - now apply good_above.
  - pose proof (init_total fuel M ok p off B cur c CH H) as T.
    destruct (init_spec fuel M ok p off B cur c CH IHR) as ([X|X] & _); [contradiction|exact X].
  - exists (a_id g + 1). split; [|discriminate].
    unfold AnchorInv.ok. rewrite last_id_info. cbn [info_of i_id].
    replace (info_of g 0) with (inf g) by (unfold inf; now rewrite H0).
    apply (inv_add_info M (a_id g + 1) (a_id g)); auto; [|lia| |lia].
    + apply inv_empty. intros m _ _ D. lia.
    + intros b _ _ _ D. lia.
  - now apply good_clear.
  - destruct done.
    + destruct (tx_commit_plain ops c) as [-> _]. now apply good_ops.
    + rewrite tx_abandon. exact IHR.
Qed.

(** ** Flows *)

Definition fi (M : list anchor) (lo0 : N) (out : list anchor) (d : acache) : Prop :=
  exists lo, ok M lo d /\ ac_hist d <> [] /\ lo0 <= lo /\ ss out /\
    (forall a, In a out <-> In a M /\ 0 < a_our a /\ lo0 <= a_id a < lo).

Lemma fi_pop : forall M lo0 out d d' k a, chain M -> fi M lo0 out d -> pop_front d = (d', Some (k, a)) ->
  fi M lo0 (out ++ [a]) d'.
Proof.
  intros M lo0 out d d' k a CH (lo & V & HN & LO & S & E) P.
  destruct (ok_pop M lo _ d d' k a CH V P) as (A & L & W & _ & La).
  assert (HA : In a M /\ 0 < a_our a /\ lo <= a_id a <= last_id d).
  { destruct V as [_ _ V3 _ _ _ _ _]. apply V3. rewrite W. now left. }
  exists (a_id a + 1). split; [unfold ok; rewrite L; exact A|]. split.
  { intros Z. apply HN, (pop_hist_nil d). rewrite P. exact Z. }
  split; [lia|]. split.
  - apply ss_app; [exact S|repeat constructor|]. intros b x Hb [<-|[]]. apply E in Hb.
    split; [lia|]. apply (ss_in M b a (proj1 CH)); [apply Hb|apply HA|lia].
  - intros b. rewrite in_app_iff, E. cbn [In]. split.
    + intros [(X & Y & Z)|[<-|[]]]; repeat split; try tauto; lia.
    + intros (X & Y & Z). destruct (N.lt_ge_cases (a_id b) lo) as [G|G]; [left; repeat split; auto; lia|].
      right. left. destruct V as [_ V2 V3 _ _ _ _ _].
      assert (Hb : In b (waiting d)) by (apply V3; repeat split; auto; lia).
      rewrite W in Hb, V2. destruct Hb as [->|Hb]; [reflexivity|].
      inversion V2 as [|? ? _ F]; subst. rewrite Forall_forall in F. destruct (F b Hb). lia.
Qed.

Lemma fi_above : forall M lo0 out d ct, chain M -> fi M lo0 out d -> covered ct d ->
  fi M lo0 out (fst (remove_above ct d)).
Proof.
  intros M lo0 out d ct CH (lo & V & HN & X) C. destruct (ok_above M lo d ct CH V) as (A & _ & _).
  exists lo. split; [apply A, C|]. split; [|exact X]. intros Z. apply HN, (above_hist_nil ct d Z).
Qed.

Lemma fi_ops : forall M lo0 ops out d, chain M -> fi M lo0 out d -> covered_ops ops d ->
  fi M lo0 (out ++ snd (run_plain ops d)) (fst (run_plain ops d)).
Proof.
  intros M lo0 ops. induction ops as [|[|ct] r IH]; intros out d CH F C; cbn [run_plain covered_ops] in *.
  - cbn. now rewrite app_nil_r.
  - destruct (pop_front d) as [d' [[k a]|]] eqn:E; cbn [fst] in C.
    + pose proof (fi_pop M lo0 out d d' k a CH F E) as F'. specialize (IH _ d' CH F' C).
      destruct (run_plain r d') as [d2 o2]. cbn [fst snd] in *. rewrite <- app_assoc in IH. exact IH.
    + unfold pop_front in E. destruct (ac_cache d); [|discriminate]. injection E as <-.
      specialize (IH _ d CH F C). destruct (run_plain r d) as [d2 o2]. exact IH.
  - destruct C as [C1 C2]. apply IH; auto. now apply fi_above.
Qed.

Lemma fi_flow : forall M lo0 c out d, chain M -> fi M lo0 [] c -> flow M c out d -> fi M lo0 out d.
Proof.
  intros M lo0 c out d CH F0 FL. induction FL.
  - exact F0.
  - destruct IHFL as (lo & V & HN & X).
    destruct (ok_next M lo d ok CH V ltac:(intros Z; contradiction)) as (A & _ & _).
    exists lo. split; [exact A|]. split; [|exact X]. unfold import_next. destruct ok; [|exact HN].
    destruct (next_in M (last_id d)) as [z|]; [|exact HN]. cbn [fst]. rewrite add_hist.
    now destruct (ac_hist d).
  - exact (fi_pop M lo0 out d d' k a CH IHFL H).
  - now apply fi_above.
  - destruct (tx_commit_plain ops d) as [-> ->]. now apply fi_ops.
  - rewrite tx_abandon. exact IHFL.
Qed.

Lemma fi_window : forall M lo0 out d, chain M -> fi M lo0 out d ->
  ss (out ++ waiting d) /\
  (forall a, In a (out ++ waiting d) <-> In a M /\ 0 < a_our a /\ lo0 <= a_id a <= last_id d).
Proof.
  intros M lo0 out d CH (lo & V & HN & LO & S & E). pose proof V as V'.
  destruct V as [_ V2 V3 _ _ _ _ _]. split.
  - apply ss_app; [exact S|exact V2|]. intros a b Ha Hb. apply E in Ha. apply V3 in Hb.
    split; [lia|]. apply (ss_in M a b (proj1 CH)); [apply Ha|apply Hb|lia].
  - intros a. rewrite in_app_iff, E, V3. split.
    + intros [(X & Y & Z)|(X & Y & Z)]; (repeat split; auto; [lia|]); [|lia].
      destruct (N.le_gt_cases (a_id a) (last_id d)) as [G|G]; [exact G|].
      pose proof (ok_gap M lo d a CH V' ltac:(intros W; contradiction) X Y G). lia.
    + intros (X & Y & Z). destruct (N.lt_ge_cases (a_id a) lo); [left|right]; repeat split; auto; lia.
Qed.

(** ** C54 *)

(** A transaction that is dropped without a commit, or rolled back at any point, leaves the cache
    exactly as it was, whatever was done in it. *)
Theorem tx_restores : forall ops c,
  tx_drop (fst (run_tx ops (tx_new c))) = c /\
  tx_drop (tx_rollback (fst (run_tx ops (tx_new c)))) = c /\
  tx_drop (tx_commit (tx_rollback (fst (run_tx ops (tx_new c))))) = c.
Proof. intros ops c. split; [apply tx_abandon|]. apply (tx_rollback_any ops c). Qed.

(** A committed transaction leaves the cache the same calls would have left, and handed out the
    same anchors. *)
Theorem tx_commits : forall ops c,
  tx_drop (tx_commit (fst (run_tx ops (tx_new c)))) = fst (run_plain ops c) /\
  snd (run_tx ops (tx_new c)) = snd (run_plain ops c).
Proof. exact tx_commit_plain. Qed.

(** The author taken for a block before the collation starts (the read-only lookup) is the last
    imported anchor the collation itself will see after it cuts the cache. *)
Theorem lookup_is_cut : forall ct c, last_info_at_ct ct c = snd (remove_above ct c).
Proof. exact at_ct_is_cut. Qed.

(** In every reachable cache the externals flag says whether an anchor waits, the anchors wait in
    the mempool's order, each is the mempool's anchor and has externals for this shard. *)
Theorem cache_faithful : forall M c, chain M -> reach M c ->
  ac_pend c = nonempty (waiting c) /\
  StronglySorted (fun a b => a_id a < a_id b /\ a_ct a < a_ct b) (waiting c) /\
  (forall a, In a (waiting c) -> In a M /\ 0 < a_our a) /\
  (forall x, In x (ac_cache c) -> c_key x = a_id (c_anchor x) /\ c_our x = a_our (c_anchor x)) /\
  (forall i, In i (ac_hist c) -> exists a, In a M /\ i = info_of a (a_our a)).
Proof.
  intros M c CH R. destruct (reach_good M c CH R) as (lo & [V1 V2 V3 V4 V5 V6 V7 V8] & _).
  split; [|split; [exact V2|split; [|split; [|exact V4]]]].
  - rewrite V6. unfold waiting. now destruct (ac_cache c).
  - intros a Ha. apply V3 in Ha. tauto.
  - intros x Hx. rewrite V1 in Hx. apply in_map_iff in Hx. destruct Hx as (a & <- & _). now split.
Qed.

(** Whether externals wait up to an anchor: exactly when an anchor not above it waits. *)
Theorem pending_in_range_exact : forall M c n, chain M -> reach M c ->
  (pending_in_range n c = true <-> exists a, In a (waiting c) /\ a_id a <= n).
Proof.
  intros M c n CH R. destruct (cache_faithful M c CH R) as (_ & _ & P & K & _).
  unfold pending_in_range, waiting in *. rewrite existsb_exists. split.
  - intros (x & Hx & E). apply andb_true_iff in E as [E _]. exists (c_anchor x).
    split; [now apply in_map|]. destruct (K x Hx) as [<- _]. now apply N.leb_le.
  - intros (a & Ha & L). pose proof (P a Ha) as [_ O]. apply in_map_iff in Ha as (x & <- & Hx).
    exists x. split; [exact Hx|]. destruct (K x Hx) as [-> ->]. apply andb_true_iff.
    split; [now apply N.leb_le|now apply N.ltb_lt].
Qed.

(** Popping takes the oldest waiting anchor and keeps the last imported one; cutting at [ct]
    drops the anchors younger than [ct], no other. *)
Theorem pop_takes_oldest : forall M c c' k a, chain M -> reach M c ->
  pop_front c = (c', Some (k, a)) ->
  waiting c = a :: waiting c' /\ k = a_id a /\ last_info c' = last_info c.
Proof.
  intros M c c' k a CH R E. destruct (reach_good M c CH R) as (lo & V & _).
  destruct (ok_pop M lo _ c c' k a CH V E) as (_ & _ & W & K & _). split; [exact W|]. split; [exact K|].
  unfold pop_front in E. destruct (ac_cache c); [discriminate|]. injection E as <- _ _.
  unfold last_info. cbn [ac_hist]. apply drop_before_last.
Qed.

Theorem cut_drops_younger : forall M c ct, chain M -> reach M c ->
  waiting (fst (remove_above ct c)) = filter (fun a => a_ct a <=? ct) (waiting c) /\
  (covered ct c -> exists i, last_info (fst (remove_above ct c)) = Some i /\ i_ct i <= ct).
Proof.
  intros M c ct CH R. destruct (reach_good M c CH R) as (lo & V & _).
  destruct (cut_spec M lo _ c ct CH V) as (_ & S & E & _). split.
  - apply ss_ext; [exact S|apply ss_filter; apply V|]. intros a. rewrite E, filter_In.
    split; intros [A B]; (split; [exact A|lia]).
  - intros C. now apply (ok_above M lo c ct CH V).
Qed.

(** The initial import: once it reports success, the last imported anchor is the first one of the
    mempool at or after [processed_to] that reaches the last block's time. *)
Theorem init_last : forall fuel M okf p off B cur c, chain M -> reach M c -> (length M < fuel)%nat ->
  let r := import_init fuel M okf p off B cur c in
  res_out r = IOk ->
  exists a, find (fun a => (p <=? a_id a) && (B <=? a_ct a)) M = Some a /\
    last_info (res_state r) = Some (info_of a (a_our a)).
Proof.
  intros fuel M okf p off B cur c CH R L r OKR.
  destruct (init_spec fuel M okf p off B cur c CH (reach_good M c CH R)) as (_ & X).
  destruct (X OKR) as (lo & _ & _ & _ & _ & a & Ha & LI & Pa & Ba & Low). exists a. split; [|exact LI].
  clear - CH Ha Pa Ba Low. destruct CH as [S _]. induction S as [|x t S IH F]; [destruct Ha|].
  cbn [find]. destruct Ha as [->|Ha].
  - apply N.leb_le in Pa. apply N.leb_le in Ba. now rewrite Pa, Ba.
  - rewrite Forall_forall in F. destruct (F a Ha) as [L1 L2].
    replace ((p <=? a_id x) && (B <=? a_ct x)) with false.
    + apply IH; auto. intros m Hm. apply Low. now right.
    + symmetry. apply andb_false_iff. destruct (N.leb_spec p (a_id x)); [right|now left].
      apply N.leb_gt. apply Low; [now left|lia].
Qed.

(** After a successful initial import, in any collation flow, the anchors handed out for good and
    those still waiting are, past [processed_to], exactly the mempool's anchors with externals for
    this shard up to the last imported one: in the mempool's order, each once, none skipped.
    [processed_to] itself is among them unless it was read in full. *)
Theorem externals_stream : forall fuel M okf p off B cur c out d,
  chain M -> reach M c -> (length M < fuel)%nat ->
  res_out (import_init fuel M okf p off B cur c) = IOk ->
  flow M (res_state (import_init fuel M okf p off B cur c)) out d ->
  filter (fun a => p <? a_id a) (out ++ waiting d) = ours M p (last_id d) /\
  (forall a, In a M -> a_id a = p -> 0 < a_our a -> a_all a <> off -> p <= last_id d ->
     In a (out ++ waiting d)) /\
  NoDup (map a_id (out ++ waiting d)).
Proof.
  intros fuel M okf p off B cur c out d CH R L OKR FL.
  destruct (init_spec fuel M okf p off B cur c CH (reach_good M c CH R)) as (_ & X).
  destruct (X OKR) as (lo & V & HN & LO & LF & _).
  assert (F0 : fi M lo [] (res_state (import_init fuel M okf p off B cur c))).
  { exists lo. split; [exact V|]. split; [exact HN|]. split; [lia|]. split; [constructor|].
    intros a. split; [intros []|]. intros (_ & _ & D). lia. }
  pose proof (fi_flow M lo _ out d CH F0 FL) as F.
  destruct (fi_window M lo out d CH F) as [S E]. split; [|split].
  - apply ss_ext; [now apply ss_filter|apply ss_filter, CH|]. intros a. unfold ours.
    rewrite !filter_In, E. split.
    + intros ((A & B' & C) & D). split; [exact A|]. lia.
    + intros (A & B'). repeat split; auto; lia.
  - intros a Ha Ea Oa Na Lp. apply E. repeat split; auto; try lia.
    destruct (N.eq_dec lo (p + 1)) as [Q|Q]; [|lia]. destruct (LF Q) as (b & Hb & Eb & Ob).
    destruct (ss_in M a b (proj1 CH) Ha Hb) as (_ & Y & _). rewrite Y in Na by lia. contradiction.
  - clear - S. induction S as [|x t S IH F]; [constructor|]. cbn [map]. constructor; [|exact IH].
    intros HI. apply in_map_iff in HI. destruct HI as (y & Ey & Hy).
    rewrite Forall_forall in F. destruct (F y Hy). lia.
Qed.

(** The import ends; when the mempool answers and has both [processed_to] and an anchor reaching
    the last block's time, it succeeds, whatever the cache held. *)
Theorem init_ends : forall fuel M okf p off B cur c, chain M -> (length M < fuel)%nat ->
  res_out (import_init fuel M okf p off B cur c) <> INoFuel.
Proof. exact init_total. Qed.

Theorem init_succeeds : forall fuel M p off B cur c okf, chain M -> reach M c -> (length M < fuel)%nat ->
  (forall n, okf n = true) ->
  (exists a, In a M /\ a_id a = p) -> (exists z, In z M /\ p <= a_id z /\ B <= a_ct z) ->
  res_out (import_init fuel M okf p off B cur c) = IOk.
Proof.
  intros fuel M p off B cur c okf CH R L OK (a & Ha & Ea) (z & Hz & Pz & Bz).
  pose proof (reach_good M c CH R) as G0. pose proof (good_above M c B CH G0) as G1.
  unfold import_init. set (c1 := fst (remove_above B c)) in *.
  destruct G1 as (lo1 & [V1 V2 V3 _ _ _ _ _] & _). rewrite V1. change (mkScan false false None []) with s0.
  pose proof (scan_spec p off B (waiting c1) V2) as SP. cbv zeta in SP.
  destruct (scan_cache p off B (map entry (waiting c1)) s0) as [sa sp sl si].
  cbn [s_all s_p s_last s_infos] in *.
  assert (T : forall prev, (left_after M prev < fuel)%nat) by (intros q; pose proof (left_all M q); lia).
  destruct sa; [reflexivity|].
  assert (BI : forall cc, res_out (match by_id M p with
     | Some a => import_loop fuel M okf 1 p off B cur (a_id a) (a_ct a) (Some a) cc si 0
     | None => (IFailed, cc, si, 0) end) = IOk).
  { intros cc. destruct (by_id M p) as [b|] eqn:E.
    - destruct (by_id_spec _ _ _ E) as [Hb Eb].
      apply (loop_succeeds _ _ _ _ _ _ _ _ _ _ _ _ _ _ z (proj1 CH)); auto.
      intros LB. apply (ss_in M b z (proj1 CH) Hb Hz). lia.
    - pose proof (find_none _ _ E a Ha) as Y. cbn in Y. lia. }
  destruct SP as [(_ & -> & _ & SL)|(-> & -> & _)].
  - destruct sl as [b|].
    + destruct SL as (Hb & _). apply V3 in Hb. destruct Hb as [Hb _].
      apply (loop_succeeds _ _ _ _ _ _ _ _ _ _ _ _ _ _ z (proj1 CH)); auto.
      intros LB. apply (ss_in M b z (proj1 CH) Hb Hz). lia.
    + rewrite OK. apply BI.
  - rewrite OK. apply BI.
Qed.

(** ** A concrete run *)

Definition exM : list anchor :=
  [mkA 10 100 2 1 7; mkA 14 130 0 0 8; mkA 18 160 3 2 9; mkA 22 200 1 1 7].

Theorem exM_chain : chain exM.
Proof. split; repeat constructor. Qed.

Definition exR := Eval vm_compute in import_init 10 exM (fun _ => true) 10 0 150 0 ac_empty.

Theorem anchors_init_example : import_init 10 exM (fun _ => true) 10 0 150 0 ac_empty = exR /\
  res_out exR = IOk /\ waiting (res_state exR) = [mkA 10 100 2 1 7; mkA 18 160 3 2 9] /\
  last_id (res_state exR) = 18.
Proof. repeat split. Qed.

(** A flow: an abandoned attempt, a committed one, the next anchor. *)
Theorem anchors_flow_example : exists out d, flow exM (res_state exR) out d /\
  out = [mkA 10 100 2 1 7; mkA 18 160 3 2 9] /\ waiting d = [mkA 22 200 1 1 7] /\ last_id d = 22.
Proof.
  eexists. eexists. split.
  - eapply F_commit with (ops := [TPop; TAbove 200; TPop]).
    + eapply F_next with (ok := true). eapply F_abandon with (ops := [TPop; TAbove 120]). apply F_start.
    + vm_compute. split; [|exact I]. exists (mkI 18 160 3 2 9). split; [|discriminate].
      repeat (first [left; reflexivity|right]).
  - vm_compute. repeat split.
Qed.

(** ** What does not hold *)

(** Cutting below the only remembered import keeps that import as the last one although its
    anchor is dropped: the next import then skips it, and its externals are lost. *)
Theorem uncovered_cut_loses : exists M c ct, chain M /\ reach M c /\
  let d := fst (import_next M true (fst (remove_above ct c))) in
  exists a, In a M /\ 0 < a_our a /\ In a (waiting c) /\ ~ In a (waiting d) /\ a_id a < last_id d.
Proof.
  exists exM, (fst (import_next exM true ac_empty)), 50. split; [exact exM_chain|]. split.
  - apply R_next, R_empty.
  - exists (mkA 10 100 2 1 7). vm_compute. repeat split; auto; intros [H|[]]; discriminate.
Qed.

(** The count of anchors above the shard's last import, from which the work units are reduced,
    depends on what this node happened to have cached: the same call on the same chain. *)
Theorem import_count_depends_on_cache : exists M p off B cur c1 c2,
  chain M /\ reach M c1 /\ reach M c2 /\
  let r1 := import_init 10 M (fun _ => true) p off B cur c1 in
  let r2 := import_init 10 M (fun _ => true) p off B cur c2 in
  res_out r1 = IOk /\ res_out r2 = IOk /\ waiting (res_state r1) = waiting (res_state r2) /\
  last_info (res_state r1) = last_info (res_state r2) /\ snd r1 <> snd r2.
Proof.
  exists exM, 10, 0, 160, 110, ac_empty, (res_state exR).
  split; [exact exM_chain|]. split; [apply R_empty|]. split.
  - change (res_state exR) with (snd (fst (fst (import_init 10 exM (fun _ => true) 10 0 150 0 ac_empty)))).
    apply R_init; [apply R_empty|vm_compute; repeat constructor].
  - vm_compute. repeat split. discriminate.
Qed.
