(** * MBufStep2: the second step of [fill_message_group] and the accounts left over *)

From Coq Require Import List NArith ZArith Bool PeanoNat Permutation Lia.
From Verif Require Import AMap MBufModel MBufSpec MBufBasics MBufInv MBufSlots MBufLoops.
Import ListNotations.

Section Step2.
Variable fl : filt.
Variable chk : N -> bool.
Variable V : nat.
Variable skipped : list N.
Variable o : option buffer.
Variable b0 : buffer.
Variable g0 : group.
Notation ref := (refused skipped chk).
Notation INV := (INV fl chk V skipped o b0 g0).
Notation CX := (CX V).
Notation FIN := (FIN chk V skipped).
Notation VIS := (VIS chk skipped).
Notation CLN := (CLN fl g0).
Notation NEW k := (~ In k (akeys (g_slots g0))).

(** Nothing but the slot changes; it does not shrink. *)
Definition STEP (id : nat) (f f' : fstate) : Prop :=
  INV f' /\ ADV f f' /\ LOC id f f' /\ s_count (slot_of id f) <= s_count (slot_of id f').
Lemma step_refl id f : INV f -> STEP id f f.
Proof. intros IV. split; [assumption|]. split; [apply adv_refl|]. split; [intros k _; reflexivity|lia]. Qed.
Lemma step_trans id f g h : STEP id f g -> STEP id g h -> STEP id f h.
Proof.
  intros (_ & A1 & L1 & C1) (I2 & A2 & L2 & C2). split; [assumption|]. split; [exact (adv_trans _ _ _ A1 A2)|].
  split; [exact (loc_trans _ _ _ _ L1 L2)|lia].
Qed.
Lemma step_try_skip id a f : INV f -> STEP id f (try_skip fl a f).
Proof.
  intros IV. split; [now apply inv_try_skip|]. split; [apply adv_try_skip|]. split; [apply loc_try_skip|].
  destruct (try_skip_fields fl a f) as (E1 & _). unfold slot_of. rewrite E1. lia.
Qed.
Lemma step_check id a f sk f' : INV f -> check_skip chk a f = (sk, f') -> STEP id f f'.
Proof.
  intros IV E. destruct (inv_check _ _ _ _ _ _ _ _ _ _ _ IV E) as (I1 & _ & _ & S1 & M1 & B1).
  split; [assumption|]. split; [apply adv_eq; auto; now apply (check_last _ _ _ _ _ E)|].
  split; [intros k _; now rewrite S1|]. unfold slot_of. rewrite S1. lia.
Qed.
Lemma step_move a cx f : INV f -> CX cx f -> ~ ref a -> fits a cx f ->
  STEP (c_id cx) f (fst (move fl a cx f)).
Proof.
  intros IV HC NR FT. destruct (inv_move fl chk V skipped o b0 g0 a cx f IV HC NR FT) as (I2 & _ & _).
  destruct (move_effects fl chk V skipped o b0 g0 a cx f IV HC) as (A & L & _ & _ & C & _).
  split; [assumption|]. split; [assumption|]. split; assumption.
Qed.

Lemma own_spec accs : forall cx f, INV f -> CX cx f ->
  (forall a, In a accs -> In a (s_accs (slot_of (c_id cx) f))) ->
  let f' := fst (own fl chk accs cx f) in let cx' := snd (own fl chk accs cx f) in
  STEP (c_id cx) f f' /\ CX cx' f' /\ c_id cx' = c_id cx /\
  (forall k, In k (s_accs (slot_of (c_id cx) f')) <-> In k (s_accs (slot_of (c_id cx) f))) /\
  (c_cap cx = 0 -> c_cap cx' = 0) /\
  (c_cap cx' = 0 \/ forall a, In a accs -> ref a \/ waiting a (f_buf f') = []).
Proof.
  induction accs as [|a t IH]; intros cx f IV HC SUB; cbn [own].
  - cbn [fst snd]. split; [now apply step_refl|]. split; [assumption|]. split; [reflexivity|]. split; [reflexivity|].
    split; [auto|]. right. intros a [].
  - destruct (check_skip chk a f) as [sk f1] eqn:Ec.
    destruct (inv_check _ _ _ _ _ _ _ _ _ _ _ IV Ec) as (I1 & C1 & R & S1 & M1 & B1).
    specialize (C1 cx HC). pose proof (step_check (c_id cx) _ _ _ _ IV Ec) as ST1.
    assert (SO : slot_of (c_id cx) f1 = slot_of (c_id cx) f) by (unfold slot_of; now rewrite S1).
    destruct sk.
    + assert (Ra : ref a) by (now apply R).
      destruct (try_skip_fields fl a f1) as (E1 & _).
      assert (SO2 : slot_of (c_id cx) (try_skip fl a f1) = slot_of (c_id cx) f) by (unfold slot_of; now rewrite E1, S1).
      pose proof (step_trans _ _ _ _ ST1 (step_try_skip (c_id cx) a f1 I1)) as ST2.
      destruct (IH cx (try_skip fl a f1) (proj1 ST2) (cx_try_skip fl V cx a f1 C1)) as (P1 & P2 & P3 & P4 & P5 & P6).
      { intros k Hk. rewrite SO2. apply SUB. now right. }
      split; [exact (step_trans _ _ _ _ ST2 P1)|]. split; [assumption|]. split; [assumption|].
      split; [intros k; rewrite P4, SO2; reflexivity|]. split; [assumption|].
      destruct P6 as [P6|P6]; [now left|]. right. intros k [<-|Hk]; [now left|now apply P6].
    + assert (NR : ~ ref a) by (intros X; apply R in X; discriminate).
      assert (HIN : In a (s_accs (slot_of (c_id cx) f1))) by (rewrite SO; apply SUB; now left).
      assert (FT : fits a cx f1).
      { right. exists (slot_of (c_id cx) f1). split; [|assumption]. apply (cx_slot V cx f1 C1). }
      pose proof (step_move a cx f1 I1 C1 NR FT) as ST2.
      destruct (inv_move fl chk V skipped o b0 g0 a cx f1 I1 C1 NR FT) as (I2 & C2 & Eid).
      destruct (move_effects fl chk V skipped o b0 g0 a cx f1 I1 C1) as (A2 & L2 & DR & DZ & _ & AC & _).
      destruct (move_accs fl a cx f1) as [MA _].
      { exact (ci_ne _ _ _ _ _ _ _ (proj1 I1) a). }
      destruct (move fl a cx f1) as [f2 cx2]. cbn [fst snd] in *.
      assert (SA : forall k, In k (s_accs (slot_of (c_id cx) f2)) <-> In k (s_accs (slot_of (c_id cx) f))).
      { intros k. rewrite <- SO. split; [|apply MA]. intros Hk. destruct (AC k Hk) as [|Ek]; [assumption|now rewrite Ek]. }
      pose proof (step_trans _ _ _ _ ST1 ST2) as ST.
      destruct (Nateqs (c_cap cx2) 0) as [Hz|Hz]; cbn [fst snd].
      * split; [assumption|]. split; [assumption|]. split; [assumption|]. split; [assumption|]. split; [auto|now left].
      * destruct (IH cx2 f2 I2 C2) as (P1 & P2 & P3 & P4 & P5 & P6).
        { intros k Hk. rewrite Eid. apply SA, SUB. now right. }
        rewrite Eid in *. split; [exact (step_trans _ _ _ _ ST P1)|]. split; [assumption|]. split; [assumption|].
        split; [intros k; rewrite P4; apply SA|]. split; [intros Z; apply P5, DZ, Z|].
        destruct P6 as [P6|P6]; [now left|]. right. intros k [<-|Hk]; [|now apply P6].
        right. apply (adv_w _ _ (proj1 (proj2 P1))). destruct (Nat.eq_dec (c_cap cx) 0) as [Z|Z]; [destruct (Hz (DZ Z))|].
        destruct (DR Z) as [[W|W] _]; [assumption|contradiction].
Qed.

Lemma others_spec rest : forall cx f, INV f -> CX cx f -> FIN f (c_id cx) -> c_cap cx <> 0 -> VIS rest f ->
  let rest' := fst (others fl chk rest cx f) in let f' := snd (others fl chk rest cx f) in
  STEP (c_id cx) f f' /\ FIN f' (c_id cx) /\ VIS rest' f' /\ (exists p, rest = p ++ rest') /\
  (rest' = [] \/ s_count (slot_of (c_id cx) f') = V).
Proof.
  induction rest as [|a t IH]; intros cx f IV HC F CAP Vs; cbn [others].
  - cbn [fst snd]. split; [now apply step_refl|]. split; [assumption|]. split; [assumption|]. split; [now exists []|now left].
  - assert (VS : forall f1, VIS (a :: t) f1 -> ref a \/ In a (akeys (f_msgs f1)) \/ waiting a (f_buf f1) = [] -> VIS t f1).
    { intros f1 V1 H k W. destruct (V1 k W) as [R|[[->|R]|R]]; auto. destruct H as [H|[H|H]]; auto. contradiction. }
    assert (PASS : forall f1, STEP (c_id cx) f f1 -> CX cx f1 -> FIN f1 (c_id cx) -> VIS t f1 ->
      let rest' := fst (others fl chk t cx f1) in let f' := snd (others fl chk t cx f1) in
      STEP (c_id cx) f f' /\ FIN f' (c_id cx) /\ VIS rest' f' /\ (exists p, a :: t = p ++ rest') /\
      (rest' = [] \/ s_count (slot_of (c_id cx) f') = V)).
    { intros f1 ST C1 F1 V1. destruct (IH cx f1 (proj1 ST) C1 F1 CAP V1) as (P1 & P2 & P3 & (p & P4) & P5).
      split; [exact (step_trans _ _ _ _ ST P1)|]. split; [assumption|]. split; [assumption|].
      split; [exists (a :: p); cbn [app]; now rewrite <- P4|assumption]. }
    assert (TS : forall f1, STEP (c_id cx) f f1 -> CX cx f1 -> FIN f1 (c_id cx) -> VIS t f1 ->
      STEP (c_id cx) f (try_skip fl a f1) /\ CX cx (try_skip fl a f1) /\ FIN (try_skip fl a f1) (c_id cx) /\ VIS t (try_skip fl a f1)).
    { intros f1 ST C1 F1 V1. destruct (try_skip_fields fl a f1) as (E1 & _).
      split; [exact (step_trans _ _ _ _ ST (step_try_skip _ a f1 (proj1 ST)))|]. split; [now apply cx_try_skip|].
      split; [apply (fin_keep chk V skipped f1); [apply adv_try_skip|now rewrite E1|assumption]|].
      apply (vis_keep chk skipped t f1); [apply adv_try_skip|assumption]. }
    destruct (mhas a (f_msgs f)) eqn:Hm.
    + apply mhas_in in Hm.
      destruct (TS f (step_refl _ f IV) HC F (VS f Vs (or_intror (or_introl Hm)))) as (T1 & T2 & T3 & T4).
      exact (PASS _ T1 T2 T3 T4).
    + assert (NIN : ~ In a (akeys (f_msgs f))) by (intros Hin; apply mhas_in in Hin; congruence).
      destruct (check_skip chk a f) as [sk f1] eqn:Ec.
      destruct (inv_check _ _ _ _ _ _ _ _ _ _ _ IV Ec) as (I1 & C1 & R & S1 & M1 & B1).
      specialize (C1 cx HC). pose proof (step_check (c_id cx) _ _ _ _ IV Ec) as ST1.
      pose proof (proj1 (proj2 ST1)) as A1.
      assert (F1 : FIN f1 (c_id cx)) by (apply (fin_keep chk V skipped f); [assumption|now rewrite S1|assumption]).
      pose proof (vis_keep chk skipped _ _ _ A1 Vs) as V1.
      destruct sk.
      * assert (Ra : ref a) by (now apply R).
        destruct (TS f1 ST1 C1 F1 (VS f1 V1 (or_introl Ra))) as (T1 & T2 & T3 & T4). exact (PASS _ T1 T2 T3 T4).
      * assert (NR : ~ ref a) by (intros X; apply R in X; discriminate).
        assert (FT : fits a cx f1) by (left; now rewrite M1).
        pose proof (step_move a cx f1 I1 C1 NR FT) as ST2.
        destruct (inv_move fl chk V skipped o b0 g0 a cx f1 I1 C1 NR FT) as (I2 & C2 & Eid).
        destruct (move_effects fl chk V skipped o b0 g0 a cx f1 I1 C1) as (A2 & L2 & DR & _).
        assert (F2 : FIN (fst (move fl a cx f1)) (c_id cx)).
        { apply (fin_move fl chk V skipped o b0 g0); auto. intros k Hk.
          destruct (cx_slot V _ _ C1) as [Hc Hs]. destruct (F1 _ Hs) as [X|X]; [lia|]. destruct (X k Hk); auto. }
        destruct (DR CAP) as [_ D2].
        destruct (move fl a cx f1) as [f2 cx2]. cbn [fst snd] in *.
        destruct (cx_slot V _ _ C2) as [Hc2 Hs2]. rewrite Eid in *.
        assert (V2 : VIS t f2).
        { intros k W. destruct (N.eq_dec k a) as [->|Hn].
          - right. right. now apply D2.
          - destruct (vis_keep chk skipped _ _ _ A2 V1 k W) as [X|[[X|X]|X]]; auto. congruence. }
        pose proof (step_trans _ _ _ _ ST1 ST2) as ST.
        destruct (Nateqs (c_cap cx2) 0) as [Hz|Hz]; cbn [fst snd].
        -- split; [assumption|]. split; [assumption|]. split; [assumption|]. split; [now exists [a]|right; lia].
        -- destruct (IH cx2 f2 I2 C2) as (P1 & P2 & P3 & (p & P4) & P5); auto; [now rewrite Eid|].
           rewrite Eid in *. split; [exact (step_trans _ _ _ _ ST P1)|]. split; [assumption|]. split; [assumption|].
           split; [exists (a :: p); cbn [app]; now rewrite <- P4|assumption].
Qed.

Lemma others_clean rest : forall cx f, INV f -> CX cx f -> c_cap cx <> 0 -> CLN rest f ->
  CLN (fst (others fl chk rest cx f)) (snd (others fl chk rest cx f)).
Proof.
  induction rest as [|a t IH]; intros cx f IV HC CAP CL; cbn [others]; [assumption|].
  destruct (mhas a (f_msgs f)) eqn:Hm.
  - apply IH; [now apply inv_try_skip|now apply cx_try_skip|assumption|now apply cln_try_skip].
  - assert (NIN : ~ In a (akeys (f_msgs f))) by (intros Hin; apply mhas_in in Hin; congruence).
    destruct (check_skip chk a f) as [sk f1] eqn:Ec.
    destruct (inv_check _ _ _ _ _ _ _ _ _ _ _ IV Ec) as (I1 & C1 & R & S1 & M1 & B1). specialize (C1 cx HC).
    pose proof (cln_check fl chk V skipped o b0 g0 _ _ _ _ _ IV Ec CL) as CL1. destruct sk.
    + apply IH; [now apply inv_try_skip|now apply cx_try_skip|assumption|now apply cln_try_skip].
    + assert (NR : ~ ref a) by (intros X; apply R in X; discriminate).
      assert (FIT : fits a cx f1) by (left; now rewrite M1).
      destruct (inv_move fl chk V skipped o b0 g0 a cx f1 I1 C1 NR FIT) as (I2 & C2 & Eid).
      pose proof (cln_move fl chk V skipped o b0 g0 a cx t f1 I1 C1 CAP CL1) as CL2.
      destruct (move fl a cx f1) as [f2 cx2]. cbn [fst snd] in *.
      destruct (Nateqs (c_cap cx2) 0) as [Hz|Hz]; cbn [fst snd]; [assumption|]. now apply IH.
Qed.

(** A slot with nothing more to do while accounts remain. *)
Definition FULL (rest : list N) (f : fstate) (k : nat) : Prop :=
  FIN f k /\ (s_count (slot_of k f) = V \/ rest = []).

Lemma memb_in x l : memb x l = true <-> In x l.
Proof.
  induction l as [|y l IH]; cbn [memb In]; [split; [discriminate|contradiction]|].
  rewrite orb_true_iff, Nat.eqb_eq, IH. intuition congruence.
Qed.

Lemma slot_le f k s : INV f -> sget k (f_slots f) = Some s -> s_count s <= V.
Proof. intros [_ S] E. apply (si_slot _ _ _ S) in E. tauto. Qed.

Lemma step2_spec ids : forall used rest f (D : nat -> Prop),
  (forall k, In k ids -> In k (akeys (g_slots g0))) -> (forall k, In k used -> NEW k) ->
  INV f -> VIS rest f -> CLN rest f -> (forall k, D k -> FULL rest f k) ->
  exists rest' f', step2 fl chk V ids used rest f = Some (rest', f') /\
    INV f' /\ VIS rest' f' /\ ADV f f' /\ (exists p, rest = p ++ rest') /\
    (forall k, D k \/ In k ids -> FULL rest' f' k) /\
    (forall k, s_count (slot_of k f) <= s_count (slot_of k f')) /\ CLN rest' f'.
Proof.
  induction ids as [|id t IH]; intros used rest f D HI HU IV Vs CL HD; cbn [step2].
  - exists rest, f. split; [reflexivity|]. split; [assumption|]. split; [assumption|]. split; [apply adv_refl|].
    split; [now exists []|]. split; [|split; [lia|assumption]]. intros k [Hk|[]]. now apply HD.
  - assert (Hg : In id (akeys (g_slots g0))) by (apply HI; now left).
    assert (memb id used = false) as ->.
    { apply Bool.not_true_iff_false. intros H. apply memb_in in H. exact (HU _ H Hg). }
    pose proof (si_grow _ _ _ (proj2 IV) _ Hg) as Hin. apply sget_in in Hin as (s & Es). rewrite Es.
    pose proof (slot_le _ _ _ IV Es) as Hle.
    unfold enter. destruct (Nat.ltb_spec V (s_count s)) as [H|_]; [lia|].
    set (cx := mkCx id (s_int s) (s_ext s) (V - s_count s)).
    assert (HC : CX cx f).
    { exists s. unfold cx; cbn [c_id c_cap c_oi c_oe]. split; [assumption|]. split; [lia|auto]. }
    assert (Eso : slot_of id f = s) by (now apply slot_of_some).
    destruct (own_spec (s_accs s) cx f IV HC) as (P1 & P2 & P3 & P4 & P5 & P6).
    { intros a Ha. unfold cx; cbn [c_id]. now rewrite Eso. }
    destruct (own fl chk (s_accs s) cx f) as [f1 cx1]. cbn [fst snd] in *.
    unfold cx in P1, P3, P4; cbn [c_id] in P1, P3, P4. rewrite Eso in P4.
    destruct P1 as (I1 & A1 & L1 & M1).
    destruct (cx_slot V _ _ P2) as [Hc1 Hs1]. rewrite P3 in *.
    assert (MO : forall k f', LOC id f f' -> s_count (slot_of id f) <= s_count (slot_of id f') ->
                   s_count (slot_of k f) <= s_count (slot_of k f')).
    { intros k f' L M. destruct (Nat.eq_dec k id) as [->|Hn]; [assumption|]. unfold slot_of. rewrite (L k Hn). lia. }
    assert (HD' : forall rest' f', INV f' -> ADV f f' -> LOC id f f' -> s_count (slot_of id f) <= s_count (slot_of id f') ->
              (exists p, rest = p ++ rest') -> FULL rest' f' id ->
              forall k, D k \/ k = id -> FULL rest' f' k).
    { intros rest' f' I' A' L' M' (p & Ep) FI k Hk. destruct (Nat.eq_dec k id) as [->|Hn]; [assumption|].
      destruct Hk as [Hk|Hk]; [|contradiction]. destruct (HD k Hk) as [F1 F2].
      split; [apply (fin_keep chk V skipped f); [assumption|now apply L'|assumption]|].
      destruct F2 as [F2|F2]; [left|right].
      - unfold slot_of in *. now rewrite (L' k Hn).
      - subst rest. destruct p; [now cbn in F2|discriminate]. }
    assert (CONT : forall rest' f', INV f' -> VIS rest' f' -> CLN rest' f' -> ADV f f' -> LOC id f f' ->
              s_count (slot_of id f) <= s_count (slot_of id f') -> (exists p, rest = p ++ rest') -> FULL rest' f' id ->
      exists rest2 f2, step2 fl chk V t used rest' f' = Some (rest2, f2) /\
        INV f2 /\ VIS rest2 f2 /\ ADV f f2 /\ (exists p, rest = p ++ rest2) /\
        (forall k, D k \/ In k (id :: t) -> FULL rest2 f2 k) /\
        (forall k, s_count (slot_of k f) <= s_count (slot_of k f2)) /\ CLN rest2 f2).
    { intros rest' f' I' V' CL' A' L' M' EP FI.
      destruct (IH used rest' f' (fun k => D k \/ k = id) (fun k Hk => HI k (or_intror Hk)) HU I' V' CL' (HD' _ _ I' A' L' M' EP FI))
        as (rest2 & f2 & E2 & I2 & V2 & A2 & (p2 & Ep2) & F2 & C2 & CL2).
      exists rest2, f2. split; [assumption|]. split; [assumption|]. split; [assumption|]. split; [exact (adv_trans _ _ _ A' A2)|].
      split; [destruct EP as (p & Ep); exists (p ++ p2); now rewrite <- app_assoc, <- Ep2|]. split.
      - intros k [Hk|[Hk|Hk]]; apply F2; auto.
      - split; [|assumption]. intros k. etransitivity; [exact (MO k f' L' M')|apply C2]. }
    destruct (Nateqs (c_cap cx1) 0) as [Hz|Hz].
    + apply CONT; auto.
      * exact (vis_keep chk skipped _ _ _ A1 Vs).
      * exact (cln_keep fl g0 _ _ _ A1 CL).
      * now exists [].
      * split; [|left; lia]. intros s1 Es1. left. rewrite (slot_of_some _ _ _ Es1) in Hc1. lia.
    + destruct P6 as [P6|P6]; [contradiction|].
      assert (F1 : FIN f1 (c_id cx1)).
      { rewrite P3. intros s1 Es1. right. intros a Ha. apply P6. apply P4. now rewrite (slot_of_some _ _ _ Es1). }
      destruct (others_spec rest cx1 f1 I1 P2 F1 Hz (vis_keep chk skipped _ _ _ A1 Vs)) as ((I2 & A2 & L2 & M2) & F2 & V2 & EP & FU).
      pose proof (others_clean rest cx1 f1 I1 P2 Hz (cln_keep fl g0 _ _ _ A1 CL)) as CL2.
      destruct (others fl chk rest cx1 f1) as [rest2 f2]. cbn [fst snd] in *. rewrite P3 in *.
      apply CONT; auto.
      * exact (adv_trans _ _ _ A1 A2).
      * exact (loc_trans _ _ _ _ L1 L2).
      * lia.
      * split; [assumption|tauto].
Qed.

(** Expired messages of the accounts left over. *)
Lemma skip_rest_spec rest : forall f, INV f ->
  INV (skip_rest fl rest f) /\ ADV f (skip_rest fl rest f) /\ f_slots (skip_rest fl rest f) = f_slots f.
Proof.
  induction rest as [|a t IH]; intros f IV; cbn [skip_rest]; [split; [assumption|split; [apply adv_refl|reflexivity]]|].
  destruct (IH (try_skip fl a f) (inv_try_skip _ _ _ _ _ _ _ a f IV)) as (I1 & A1 & E1).
  split; [assumption|]. split; [exact (adv_trans _ _ _ (adv_try_skip fl a f) A1)|].
  rewrite E1. apply (try_skip_fields fl a f).
Qed.
Lemma skip_rest_clean rest : forall f, CLN rest f -> CLN [] (skip_rest fl rest f).
Proof.
  induction rest as [|a t IH]; intros f CL; cbn [skip_rest]; [assumption|]. apply IH. now apply cln_try_skip.
Qed.

End Step2.
