(** * AnchorInit: the initial import *)

From Coq Require Import List NArith Bool Sorted Lia ZArith ZifyN ZifyNat ZifyBool.
From Verif Require Import AnchorModel AnchorSpec AnchorProofs AnchorInv.
Import ListNotations.
Open Scope N_scope.

(** ** The scan of the cache *)

Lemma scan_skip : forall p off B l1 l2 s, (forall a, In a l1 -> a_id a < p) ->
  scan_cache p off B (map entry (l1 ++ l2)) s = scan_cache p off B (map entry l2) s.
Proof.
  intros p off B l1 l2 s. induction l1 as [|x t IH]; intros F; [reflexivity|].
  cbn [app map scan_cache entry c_anchor].
  assert (E : p <=? a_id x = false) by (specialize (F x (or_introl eq_refl)); lia).
  rewrite E. apply IH. intros a Ha. apply F. now right.
Qed.

Lemma scan_after : forall p off B l s, (forall a, In a l -> p < a_id a) -> s_p s = true ->
  s_p (scan_cache p off B (map entry l) s) = true /\
  s_last (scan_cache p off B (map entry l) s) =
    match last_opt l with Some a => Some a | None => s_last s end /\
  s_all (scan_cache p off B (map entry l) s) = s_all s || existsb (fun a => a_ct a =? B) l.
Proof.
  intros p off B l. induction l as [|x t IH]; intros s F P.
  - cbn. now rewrite orb_false_r.
  - cbn [map scan_cache entry c_anchor].
    assert (E : p <=? a_id x = true) by (specialize (F x (or_introl eq_refl)); lia).
    assert (E2 : a_id x =? p = false) by (specialize (F x (or_introl eq_refl)); lia).
    rewrite E, E2, P. cbn [andb negb].
    set (s1 := mkScan _ _ _ _).
    destruct (IH s1) as (I1 & I2 & I3); [intros a Ha; apply F; now right|reflexivity|].
    split; [exact I1|]. split.
    + rewrite I2. cbn [s_last s1]. unfold last_opt. cbn [rev].
      destruct (rev t) as [|y r] eqn:R; [reflexivity|]. reflexivity.
    + rewrite I3. unfold s1. cbn [s_all existsb].
      destruct (a_ct x =? B), (s_all s); reflexivity.
Qed.

Lemma ss_split : forall (w : list anchor) p, ss w ->
  exists w1 w2, w = w1 ++ w2 /\ (forall a, In a w1 -> a_id a < p) /\
    (forall a, In a w2 -> p <= a_id a).
Proof.
  intros w p S. induction S as [|x t S (w1 & w2 & E & A & B) F].
  - exists [], []. split; [reflexivity|]. split; intros a [].
  - destruct (N.lt_ge_cases (a_id x) p) as [L|L].
    + exists (x :: w1), w2. split; [now rewrite E|]. split; [|exact B].
      intros a [<-|Ha]; auto.
    + exists [], (x :: t). split; [reflexivity|]. split; [intros a []|].
      rewrite Forall_forall in F. intros a [<-|Ha]; [exact L|]. destruct (F a Ha). lia.
Qed.

Definition s0 : scan := mkScan false false None [].

Lemma last_opt_max : forall w a, ss w -> last_opt w = Some a ->
  In a w /\ forall b, In b w -> a_id b <= a_id a.
Proof.
  intros w a S E. destruct (last_opt_some _ _ E) as (q & ->). split; [apply in_or_app; right; now left|].
  apply ss_app_inv in S. destruct S as (_ & _ & X). intros b Hb. apply in_app_or in Hb.
  destruct Hb as [Hb|[<-|[]]]; [|lia]. destruct (X b a Hb (or_introl eq_refl)). lia.
Qed.

Lemma scan_spec : forall p off B w, ss w ->
  let s := scan_cache p off B (map entry w) s0 in
  ((exists x, In x w /\ a_id x = p) /\ s_p s = true /\
     (s_all s = true -> exists b, In b w /\ p <= a_id b /\ a_ct b = B) /\
     match s_last s with
     | Some a => In a w /\ p <= a_id a /\ (forall b, In b w -> a_id b <= a_id a) /\
                 (s_all s = false -> a_ct a <> B)
     | None => (forall b, In b w -> a_id b <= p) /\ (exists x, In x w /\ a_id x = p /\ a_all x = off) /\
               s_all s = false
     end)
  \/ (s_p s = false /\ s_last s = None /\ s_all s = false).
Proof.
  intros p off B w S. destruct (ss_split w p S) as (w1 & w2 & -> & A & G).
  rewrite scan_skip by exact A. apply ss_app_inv in S. destruct S as (S1 & S2 & S3).
  destruct w2 as [|x t]; [right; now cbn|].
  cbn [map scan_cache entry c_anchor].
  pose proof (G x (or_introl eq_refl)) as Gx.
  assert (E : p <=? a_id x = true) by lia. rewrite E.
  inversion S2 as [|? ? S2' F]; subst. rewrite Forall_forall in F.
  destruct (N.eqb_spec (a_id x) p) as [Ep|Ep]; cbn [andb].
  2:{ right. cbn. now repeat split. }
  left.
  assert (T : forall a, In a t -> p < a_id a) by (intros a Ha; destruct (F a Ha); lia).
  assert (IX : In x (w1 ++ x :: t)) by (apply in_or_app; right; now left).
  assert (IT : forall a, In a t -> In a (w1 ++ x :: t)) by (intros a Ha; apply in_or_app; right; now right).
  assert (EXT : forall s_, existsb (fun a => a_ct a =? B) t = s_ -> s_ = true ->
     exists b, In b t /\ a_ct b = B).
  { intros s_ <- EX. apply existsb_exists in EX. destruct EX as (b & Hb & Eb). exists b. split; [exact Hb|lia]. }
  assert (LT : forall a, last_opt t = Some a -> In a (w1 ++ x :: t) /\ p <= a_id a /\
     (forall b, In b (w1 ++ x :: t) -> a_id b <= a_id a)).
  { intros a La. destruct (last_opt_max t a S2' La) as [Ia Ma]. split; [auto|].
    split; [specialize (T a Ia); lia|]. intros b Hb. apply in_app_or in Hb.
    destruct Hb as [Hb|[<-|Hb]]; [specialize (A b Hb)| |]; [specialize (T a Ia); lia|specialize (T a Ia); lia|auto]. }
  split; [exists x; auto|].
  destruct (N.eqb_spec (a_all x) off) as [Eo|Eo]; cbn [andb].
  - destruct (scan_after p off B t (mkScan (s_all s0) true (s_last s0) (s_infos s0)) T eq_refl) as (I1 & I2 & I3).
    cbn [s_all s_last s0 s_infos] in *. rewrite I1, I2, I3. cbn [orb].
    split; [reflexivity|]. split.
    + intros EX. destruct (EXT _ eq_refl EX) as (b & Hb & Eb). exists b. split; [auto|].
      specialize (T b Hb). split; [lia|exact Eb].
    + destruct (last_opt t) as [a|] eqn:La.
      * destruct (LT a eq_refl) as (L1 & L2 & L3). repeat split; auto. intros EX EB.
        enough (existsb (fun a => a_ct a =? B) t = true) by congruence.
        apply existsb_exists. exists a. split; [|lia]. apply (last_opt_max t a S2' La).
      * apply last_opt_none in La. subst t. split; [|split; [exists x; auto|reflexivity]].
        intros b Hb. apply in_app_or in Hb. destruct Hb as [Hb|[<-|[]]]; [specialize (A b Hb)|]; lia.
  - cbn [s_p negb].
    match goal with |- context [scan_cache p off B (map entry t) ?s1] =>
      destruct (scan_after p off B t s1 T eq_refl) as (I1 & I2 & I3) end.
    rewrite I1, I2, I3. cbn [s_all s_last s0].
    split; [reflexivity|]. split.
    + intros EX. apply orb_true_iff in EX. destruct EX as [EX|EX].
      * exists x. split; [auto|]. split; [lia|]. destruct (N.eqb_spec (a_ct x) B); [assumption|discriminate].
      * destruct (EXT _ eq_refl EX) as (b & Hb & Eb). exists b. split; [auto|].
        specialize (T b Hb). split; [lia|exact Eb].
    + destruct (last_opt t) as [a|] eqn:La.
      * destruct (LT a eq_refl) as (L1 & L2 & L3). repeat split; auto. intros EX EB.
        apply orb_false_iff in EX. destruct EX as [_ EX].
        enough (existsb (fun a => a_ct a =? B) t = true) by congruence.
        apply existsb_exists. exists a. split; [|lia]. apply (last_opt_max t a S2' La).
      * apply last_opt_none in La. subst t. split; [exact IX|]. split; [exact Gx|]. split.
        -- intros b Hb. apply in_app_or in Hb. destruct Hb as [Hb|[<-|[]]]; [specialize (A b Hb)|]; lia.
        -- cbn [existsb]. rewrite orb_false_r. intros EX EB. rewrite EB, N.eqb_refl in EX. discriminate.
Qed.

(** ** The importing loop *)

Record mid (M : list anchor) (p B lo : N) (a : anchor) (c : acache) : Prop := {
  m_in : In a M;
  m_p : p <= a_id a;
  m_inv : inv M lo (a_id a) c;
  m_des : forall x m, In x (ac_hist c) -> In m M -> 0 < a_our m -> a_ct a < a_ct m <= i_ct x -> False;
  m_ne : ac_hist c <> [];
  m_lo : lo <= a_id a + 1;
  m_low : forall m, In m M -> p <= a_id m < a_id a -> a_ct m < B }.

Definition done (M : list anchor) (p B : N) (c : acache) : Prop :=
  exists a, In a M /\ last_info c = Some (inf a) /\ p <= a_id a /\ B <= a_ct a /\
    forall m, In m M -> p <= a_id m < a_id a -> a_ct m < B.

Lemma add_hist : forall a c, ac_hist (add a (a_our a) c) = ac_hist c ++ [inf a].
Proof. intros a c. unfold add, inf. now destruct (0 <? a_our a). Qed.

Lemma mid_next : forall M p off B lo a0 a c, chain M -> mid M p B lo a0 c -> a_ct a0 < B ->
  next_in M (a_id a0) = Some a ->
  mid M p B lo a (add_loaded p off a c) /\ last_info (add_loaded p off a c) = Some (inf a).
Proof.
  intros M p off B lo a0 a c CH [A1 A2 A3 A4 A5 A6 A7] L E.
  destruct (next_in_spec M _ a (proj1 CH) E) as (B1 & B2 & B3).
  unfold add_loaded. replace (a_id a =? p) with false by lia. cbn [andb].
  pose proof (proj1 (proj1 (ss_in M a0 a (proj1 CH) A1 B1)) B2) as CT.
  split.
  - split; auto.
    + lia.
    + apply (inv_add M lo (a_id a0)); auto; [lia| | |lia].
      * intros b Hb Ob Lb D. specialize (B3 b Hb). lia.
      * intros x m Hx Hm Om D. apply (A4 x m Hx Hm Om). lia.
    + rewrite add_hist. intros x m Hx Hm Om D. apply in_app_or in Hx.
      destruct Hx as [Hx|[<-|[]]]; [apply (A4 x m Hx Hm Om); lia|cbn in D; lia].
    + rewrite add_hist. now destruct (ac_hist c).
    + lia.
    + intros m Hm D. destruct (N.lt_ge_cases (a_id a0) (a_id m)) as [G|G].
      * specialize (B3 m Hm G). lia.
      * destruct (N.eq_dec (a_id m) (a_id a0)) as [Q|Q]; [|apply A7; auto; lia].
        destruct (ss_in M m a0 (proj1 CH) Hm A1) as (_ & X & _). rewrite (X Q). exact L.
  - unfold last_info. rewrite add_hist. apply last_opt_app.
Qed.

Lemma mid_ok : forall M p B lo a c, mid M p B lo a c -> last_info c = Some (inf a) -> ok M lo c.
Proof.
  intros M p B lo a c MD E. unfold ok, last_id. rewrite E. exact (m_inv _ _ _ _ _ _ MD).
Qed.

Lemma loop_spec : forall fuel M okf calls p off B cur a nxt c infos count lo,
  chain M ->
  match nxt with
  | Some b => b = a /\ mid M p B lo a (add_loaded p off a c) /\
              last_info (add_loaded p off a c) = Some (inf a)
  | None => mid M p B lo a c /\ ok M lo c /\ a_ct a < B
  end -> 
  let r := import_loop fuel M okf calls p off B cur (a_id a) (a_ct a) nxt c infos count in
  (res_out r = INoFuel \/ ok M lo (res_state r)) /\
  (res_out r = IOk -> ac_hist (res_state r) <> [] /\ done M p B (res_state r)) /\
  (res_out r = IFailed -> ac_hist (res_state r) <> []).
Proof.
  induction fuel as [|f IH]; intros M okf calls p off B cur a nxt c infos count lo CH H r.
  - subst r. cbn. split; [now left|]. split; discriminate.
  - subst r. cbn [import_loop].
    set (cc := match nxt with Some a => add_loaded p off a c | None => c end).
    set (ii := match nxt with Some a => infos ++ [Imported (info_of a (a_our a))] | None => infos end).
    replace (match nxt with
        | Some a => (add_loaded p off a c, infos ++ [Imported (info_of a (a_our a))])
        | None => (c, infos) end) with (cc, ii) by (destruct nxt; reflexivity).
    assert (X : mid M p B lo a cc /\ ok M lo cc /\ (B <= a_ct a -> last_info cc = Some (inf a))).
    { subst cc. destruct nxt as [b|].
      - destruct H as (-> & H1 & H2). split; [exact H1|]. split; [exact (mid_ok _ _ _ _ _ _ H1 H2)|auto].
      - destruct H as (H1 & H2 & H3). split; [exact H1|]. split; [exact H2|lia]. }
    destruct X as (X1 & X2 & X3). pose proof (m_ne _ _ _ _ _ _ X1) as XN.
    destruct (N.leb_spec B (a_ct a)) as [LB|LB].
    + cbn [res_out res_state fst snd]. split; [now right|]. split; [intros _|easy].
      split; [exact XN|]. exists a. destruct X1. repeat split; auto.
    + destruct (okf calls).
      2:{ cbn [res_out res_state fst snd]. split; [now right|]. split; [easy|auto]. }
      destruct (next_in M (a_id a)) as [b|] eqn:E.
      2:{ cbn [res_out res_state fst snd]. split; [now right|]. split; [easy|auto]. }
      apply (IH M okf _ p off B cur b (Some b) cc ii); [exact CH|]. split; [reflexivity|].
      apply (mid_next M p off B lo a b cc CH X1 LB E).
Qed.

Lemma by_id_spec : forall M p a, by_id M p = Some a -> In a M /\ a_id a = p.
Proof. intros M p a E. apply find_some in E. destruct E as [A B]. split; [exact A|lia]. Qed.

(** With no waiting anchor above [a], the window may be taken to end at [a]. *)
Lemma mid_of_ok : forall M p B lo c a, chain M -> ok M lo c -> In a M -> p <= a_id a ->
  (exists x, In x (waiting c) /\ a_id x <= a_id a) ->
  (forall b, In b (waiting c) -> a_id b <= a_id a) ->
  a_id a <= last_id c ->
  (forall m, In m M -> p <= a_id m < a_id a -> a_ct m < B) -> mid M p B lo a c.
Proof.
  intros M p B lo c a CH V Ha Lp (x0 & Hx0 & Lx0) Mx La Low. pose proof V as V0.
  destruct V as [V1 V2 V3 V4 V5 V6 V7 V8].
  assert (LO : lo <= a_id a) by (apply V3 in Hx0; lia).
  split; auto.
  - split; auto. intros b. rewrite V3. split; intros (A & B' & C); repeat split; auto; try lia.
    apply Mx. apply V3. auto.
  - intros x m Hx Hm Om D.
    pose proof (proj2 (proj1 (ss_in M a m (proj1 CH) Ha Hm)) (proj1 D)) as Lm.
    destruct (N.le_gt_cases (a_id m) (last_id c)) as [G|G].
    + specialize (Mx m). rewrite V3 in Mx. specialize (Mx (conj Hm (conj Om (conj (N.le_trans _ _ _ LO (N.lt_le_incl _ _ Lm)) G)))). lia.
    + destruct (last_info c) as [l|] eqn:EL.
      * destruct (last_id_in _ _ EL) as [E Hl]. rewrite E in G. destruct (V4 l Hl) as (la & Hla & El).
        apply (desc_last M _ l x V7 EL Hx m Hm Om). subst l. cbn [i_id i_ct inf info_of] in *.
        apply (ss_in M la m (proj1 CH) Hla Hm) in G. lia.
      * apply last_opt_none in EL. rewrite EL in Hx. destruct Hx.
  - intros Z. apply V5 in Hx0. apply sufmin_in in Hx0. rewrite Z in Hx0. destruct Hx0.
  - lia.
Qed.

(** Reachable caches satisfy the invariant for some window. *)
Definition good (M : list anchor) (c : acache) : Prop :=
  exists lo, ok M lo c /\ (ac_hist c = [] -> lo = 0).

Lemma good_above : forall M c ct, chain M -> good M c -> good M (fst (remove_above ct c)).
Proof.
  intros M c ct CH (lo & V & HE). destruct (ok_above M lo c ct CH V) as (A & (lo' & B & _) & _).
  destruct (ac_hist (fst (remove_above ct c))) as [|f h] eqn:E.
  - exists lo. split; [|intros _; apply HE, (above_hist_nil ct c E)].
    (* no history: the cache is empty *)
    assert (H0 := above_hist_nil ct c E). rewrite (HE H0) in *.
    assert (W : waiting (fst (remove_above ct c)) = []).
    { destruct (waiting (fst (remove_above ct c))) as [|a t] eqn:W; [reflexivity|].
      destruct B as [_ _ _ _ V5 _]. assert (Ha : In a (waiting (fst (remove_above ct c)))) by (rewrite W; now left).
      apply V5, sufmin_in in Ha. rewrite E in Ha. destruct Ha. }
    destruct B as [V1 V2 V3 V4 V5 V6 V7 V8].
    assert (LI : last_id (fst (remove_above ct c)) = 0).
    { unfold last_id, last_info. now rewrite E. }
    split; auto; [|rewrite E; exact I]. intros a. rewrite W, LI. split; [intros []|]. intros (P & Q & R).
    destruct CH as [_ PO]. rewrite Forall_forall in PO. specialize (PO a P). lia.
  - exists lo'. split; [exact B|]. rewrite E. discriminate.
Qed.

Lemma good_empty : forall M, chain M -> good M ac_empty.
Proof. intros M CH. exists 0. split; [now apply ok_empty|auto]. Qed.

Lemma good_clear : forall M c, chain M -> good M (clear c).
Proof. intros M c CH. exact (good_empty M CH). Qed.

(** The initial import. *)
Lemma init_spec : forall fuel M okf p off B cur c, chain M -> good M c ->
  let r := import_init fuel M okf p off B cur c in
  (res_out r = INoFuel \/ good M (res_state r)) /\
  (res_out r = IOk ->
     exists lo, ok M lo (res_state r) /\ ac_hist (res_state r) <> [] /\ lo <= p + 1 /\
       (lo = p + 1 -> exists a, In a M /\ a_id a = p /\ a_all a = off) /\
       done M p B (res_state r)).
Proof.
  intros fuel M okf p off B cur c CH G0.
  pose proof (good_above M c B CH G0) as G1. destruct G0 as (lo0 & V0 & HE0).
  destruct (ok_above M lo0 c B CH V0) as (OA & _ & OC).
  intros r. subst r. unfold import_init. set (c1 := fst (remove_above B c)) in *.
  assert (EC : ac_cache c1 = map entry (waiting c1) /\ ss (waiting c1)).
  { destruct G1 as (lo1 & [V1 V2 _ _ _ _] & _). auto. }
  destruct EC as [EC SC]. rewrite EC. change (mkScan false false None []) with s0.
  pose proof (scan_spec p off B (waiting c1) SC) as SP. cbv zeta in SP.
  destruct (scan_cache p off B (map entry (waiting c1)) s0) as [sa sp sl si].
  cbn [s_all s_p s_last s_infos] in *.
  assert (CT : forall a, In a (waiting c1) -> a_ct a <= B).
  { intros a Ha. destruct (cut_spec M lo0 _ c B CH V0) as (_ & _ & X & _). apply X in Ha. apply Ha. }
  destruct SP as [((x & Hx & Ex) & -> & SA & SL)|(-> & -> & ->)].
  - (* processed_to is in the cache *)
    assert (NE : waiting c1 <> []) by (intros Z; rewrite Z in Hx; destruct Hx).
    specialize (OC NE). specialize (OA OC). destruct OA as (V1 & li & LI & LB).
    assert (HN : ac_hist c1 <> []).
    { destruct V1 as [_ _ _ _ V5 _]. specialize (V5 x Hx). apply sufmin_in in V5. intros Z. rewrite Z in V5. destruct V5. }
    assert (LOp : lo0 <= p). { destruct V1 as [_ _ V3 _ _ _ _ _]. apply V3 in Hx. lia. }
    assert (INM : forall a, In a (waiting c1) -> In a M /\ a_id a <= last_id c1).
    { intros a Ha. destruct V1 as [_ _ V3 _ _ _ _ _]. apply V3 in Ha. split; [apply Ha|lia]. }
    destruct sa.
    + (* everything from the cache *)
      cbn [res_out res_state fst snd]. split; [now right|]. intros _. exists lo0.
      split; [exact V1|]. split; [exact HN|]. split; [lia|]. split; [intros Z; exfalso; lia|].
      destruct (SA eq_refl) as (b & Hb & Lb & Eb). exists b.
      assert (li = inf b).
      { destruct V1 as [_ _ _ V4 V5 _ _ _]. destruct (last_id_in _ _ LI) as [_ Hl].
        destruct (V4 li Hl) as (la & Hla & ->). pose proof (sufmin_last _ _ _ (V5 b Hb) LI) as X.
        cbn [inf info_of i_ct] in *. destruct (ss_in M la b (proj1 CH) Hla (proj1 (INM b Hb))) as (_ & _ & Y).
        rewrite Y by lia. reflexivity. }
      subst li. split; [apply INM, Hb|]. split; [exact LI|]. split; [exact Lb|]. split; [lia|].
      intros m Hm D. rewrite <- Eb. apply (ss_in M m b (proj1 CH) Hm (proj1 (INM b Hb))). lia.
    + destruct sl as [a|].
      * (* continue after the last cached anchor *)
        destruct SL as (Sa & Sp & Smax & Snb). specialize (Snb eq_refl).
        assert (La : a_ct a < B) by (specialize (CT a Sa); lia).
        assert (MD : mid M p B lo0 a c1).
        { apply mid_of_ok; auto; try apply (INM a Sa).
          - exists x. split; [exact Hx|apply Smax, Hx].
          - intros m Hm D. assert (a_ct m < a_ct a); [|lia].
            apply (ss_in M m a (proj1 CH) Hm (proj1 (INM a Sa))). lia. }
        destruct (loop_spec fuel M okf 0 p off B cur a None c1 si 0 lo0 CH (conj MD (conj V1 La)))
          as (L1 & L2 & L3).
        split.
        -- destruct L1 as [L1|L1]; [now left|].
           destruct (res_out (import_loop fuel M okf 0 p off B cur (a_id a) (a_ct a) None c1 si 0)) eqn:RO;
             [right; exists lo0; split; [exact L1|intros Z; destruct (L2 eq_refl) as [X _]; contradiction]
             |right; exists lo0; split; [exact L1|intros Z; destruct (L3 eq_refl Z)]|now left].
        -- intros RO. specialize (L2 RO). destruct L1 as [L1|L1]; [congruence|].
           exists lo0. split; [exact L1|]. split; [apply L2|]. split; [lia|].
           split; [intros Z; exfalso; lia|apply L2].
      * (* processed_to is fully read and nothing follows it *)
        destruct SL as (Smax & (y & Hy & Ey & Eo) & _).
        destruct (okf O).
        2:{ cbn [res_out res_state fst snd]. split; [now right|discriminate]. }
        destruct (by_id M p) as [a|] eqn:BI.
        2:{ cbn [res_out res_state fst snd]. split; [now right|discriminate]. }
        destruct (by_id_spec _ _ _ BI) as [Ha Ea].
        assert (y = a).
        { destruct (ss_in M y a (proj1 CH) (proj1 (INM y Hy)) Ha) as (_ & X & _). apply X. congruence. }
        subst y.
        assert (MD0 : mid M p B lo0 a c1).
        { apply mid_of_ok.
          - exact CH.
          - exact V1.
          - exact Ha.
          - lia.
          - exists a. split; [exact Hy|lia].
          - intros b Hb. rewrite Ea. auto.
          - apply (INM a Hy).
          - intros m Hm D. exfalso. lia. }
        assert (AL : add_loaded p off a c1 = add_info (inf a) c1).
        { unfold add_loaded. rewrite Ea, N.eqb_refl, Eo, N.eqb_refl. reflexivity. }
        assert (MD : mid M p B lo0 a (add_loaded p off a c1) /\ last_info (add_loaded p off a c1) = Some (inf a)).
        { rewrite AL. split; [|unfold last_info; cbn [add_info ac_hist]; apply last_opt_app].
          destruct MD0 as [B1 B2 B3 B4 B5 B6 B7]. split; auto.
          - apply (inv_add_info M lo0 (a_id a)); auto; [lia|].
            intros b _ _ _ D. lia.
          - cbn [add_info ac_hist]. intros z m Hz Hm Om D. apply in_app_or in Hz.
            destruct Hz as [Hz|[<-|[]]]; [apply (B4 z m Hz Hm Om D)|cbn in D; lia].
          - cbn [add_info ac_hist]. now destruct (ac_hist c1). }
        destruct (loop_spec fuel M okf 1 p off B cur a (Some a) c1 si 0 lo0 CH (conj eq_refl MD))
          as (L1 & L2 & L3).
        split.
        -- destruct L1 as [L1|L1]; [now left|].
           destruct (res_out (import_loop fuel M okf 1 p off B cur (a_id a) (a_ct a) (Some a) c1 si 0)) eqn:RO;
             [right; exists lo0; split; [exact L1|intros Z; destruct (L2 eq_refl) as [X _]; contradiction]
             |right; exists lo0; split; [exact L1|intros Z; destruct (L3 eq_refl Z)]|now left].
        -- intros RO. specialize (L2 RO). destruct L1 as [L1|L1]; [congruence|].
           exists lo0. split; [exact L1|]. split; [apply L2|]. split; [lia|].
           split; [intros Z; exfalso; lia|apply L2].
  - (* the cache is refilled *)
    destruct (okf O).
    2:{ cbn [res_out res_state fst snd]. split; [right; now apply good_clear|discriminate]. }
    destruct (by_id M p) as [a|] eqn:BI.
    2:{ cbn [res_out res_state fst snd]. split; [right; now apply good_clear|discriminate]. }
    destruct (by_id_spec _ _ _ BI) as [Ha Ea].
    assert (PO : forall m, In m M -> 0 < a_id m).
    { intros m Hm. destruct CH as [_ PO]. rewrite Forall_forall in PO. auto. }
    assert (exists lo, lo <= p + 1 /\ (lo = p + 1 -> a_all a = off) /\
      mid M p B lo a (add_loaded p off a (clear c1)) /\
      last_info (add_loaded p off a (clear c1)) = Some (inf a)) as (lo & LO & LF & MD).
    { unfold add_loaded. rewrite Ea, N.eqb_refl. cbn [andb].
      destruct (N.eqb_spec (a_all a) off) as [Eo|Eo].
      - exists (p + 1). split; [lia|]. split; [auto|].
        change (info_of a (a_our a)) with (inf a). change (clear c1) with ac_empty.
        split; [|reflexivity].
        split; auto; [lia| | | |lia|].
        + apply (inv_add_info M (p + 1) p); auto.
          * apply inv_empty. intros m _ _ D. lia.
          * lia.
          * intros b _ _ _ D. lia.
          * intros _. lia.
        + cbn. intros z m [<-|[]] Hm Om D. cbn in D. lia.
        + discriminate.
        + intros m Hm D. exfalso. lia.
      - exists p. split; [lia|]. split; [intros Z; exfalso; lia|]. change (clear c1) with ac_empty.
        split; [|unfold last_info; rewrite add_hist; reflexivity].
        split; auto; [lia| | | |lia|].
        + apply (inv_add M p 0); auto.
          * apply inv_empty. intros m Hm _ D. specialize (PO m Hm). lia.
          * lia.
          * intros b _ _ L D. lia.
          * intros _. lia.
        + rewrite add_hist. cbn. intros z m [<-|[]] Hm Om D. cbn in D. lia.
        + rewrite add_hist. discriminate.
        + intros m Hm D. exfalso. lia. }
    destruct (loop_spec fuel M okf 1 p off B cur a (Some a) (clear c1) si 0 lo CH (conj eq_refl MD))
      as (L1 & L2 & L3).
    split.
    + destruct L1 as [L1|L1]; [now left|].
      destruct (res_out (import_loop fuel M okf 1 p off B cur (a_id a) (a_ct a) (Some a) (clear c1) si 0)) eqn:RO;
        [right; exists lo; split; [exact L1|intros Z; destruct (L2 eq_refl) as [X _]; contradiction]
        |right; exists lo; split; [exact L1|intros Z; destruct (L3 eq_refl Z)]|now left].
    + intros RO. specialize (L2 RO). destruct L1 as [L1|L1]; [congruence|].
      exists lo. split; [exact L1|]. split; [apply L2|]. split; [exact LO|].
      split; [intros Z; exists a; auto|apply L2].
Qed.
