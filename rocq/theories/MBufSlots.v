(** * MBufSlots: the slots while a group is filled, and the loops *)

From Coq Require Import List NArith ZArith Bool PeanoNat Permutation Lia.
From Verif Require Import AMap MBufModel MBufSpec MBufBasics MBufInv.
Import ListNotations.

Lemma sum_over_ext f g l : (forall a, In a l -> f a = g a) -> sum_over f l = sum_over g l.
Proof.
  induction l as [|a l IH]; intros H; [reflexivity|]. cbn [sum_over].
  rewrite (H a (or_introl eq_refl)), IH; [reflexivity|]. intros k Hk. apply H. now right.
Qed.
Lemma sum_over_app f l k : sum_over f (l ++ k) = sum_over f l + sum_over f k.
Proof. induction l as [|a l IH]; cbn [sum_over app]; lia. Qed.
Lemma sum_over_upd f g l a d : NoDup l -> In a l -> (forall k, k <> a -> g k = f k) -> g a = f a + d ->
  sum_over g l = sum_over f l + d.
Proof.
  intros ND IN K E. induction l as [|x l IH]; [destruct IN|]. cbn [sum_over].
  inversion ND as [|? ? Hx ND']; subst. destruct IN as [->|IN].
  - rewrite E. rewrite (sum_over_ext g f l); [lia|]. intros k Hk. apply K. intros ->. contradiction.
  - rewrite (IH ND' IN). rewrite (K x); [lia|]. intros ->. contradiction.
Qed.

Lemma sget_in {A} k (m : amap nat A) : In k (akeys m) <-> exists v, sget k m = Some v.
Proof.
  split; [apply (aget_some_key Nat.eqb Nateqs)|]. intros (v & E).
  destruct (in_dec Nat.eq_dec k (akeys m)) as [H|H]; [assumption|].
  apply (aget_none Nat.eqb Nateqs) in H. congruence.
Qed.
Lemma mget_in {A} k (m : amap N A) : In k (akeys m) <-> exists v, mget k m = Some v.
Proof.
  split; [apply (aget_some_key N.eqb Neqs)|]. intros (v & E).
  destruct (in_dec N.eq_dec k (akeys m)) as [H|H]; [assumption|].
  apply (aget_none N.eqb Neqs) in H. congruence.
Qed.
Lemma mhas_in {A} k (m : amap N A) : mhas k m = true <-> In k (akeys m).
Proof. unfold amem. rewrite mget_in. destruct (mget k m); split; intros; try discriminate; eauto. now destruct H. Qed.

Lemma nodup_snoc {A} (l : list A) x : NoDup l -> ~ In x l -> NoDup (l ++ [x]).
Proof.
  intros ND NI. induction ND as [|y l H ND IH]; cbn; [repeat constructor; auto|].
  constructor.
  - intros Hin. apply in_app_or in Hin as [Hin|[<-|[]]]; [contradiction|]. apply NI. now left.
  - apply IH. intros H1. apply NI. now right.
Qed.

(** ** Updates *)
Lemma sget_upd_insert id u m k : sget k m = None \/ k <> id ->
  sget k (upd_insert id u m) = if Nat.eqb k id then Some u else sget k m.
Proof.
  induction m as [|[i v] m IH]; intros H; cbn [upd_insert aget] in *.
  - reflexivity.
  - destruct (Nat.ltb id i) eqn:L; cbn [aget]; [reflexivity|].
    destruct (Nateqs k i) as [->|Hn].
    + destruct H as [H|H]; [discriminate|]. destruct (Nateqs i id); [contradiction|reflexivity].
    + apply IH. exact H.
Qed.
Lemma akeys_upd_insert id u m k : In k (akeys (upd_insert id u m)) <-> k = id \/ In k (akeys m).
Proof.
  induction m as [|[i v] m IH]; cbn [upd_insert akeys map fst In]; [intuition congruence|].
  destruct (Nat.ltb id i); cbn [akeys map fst In]; unfold akeys in *; [intuition congruence|]. rewrite IH. intuition congruence.
Qed.
Lemma nodup_upd_insert id u m : NoDup (akeys m) -> ~ In id (akeys m) -> NoDup (akeys (upd_insert id u m)).
Proof.
  induction m as [|[i v] m IH]; cbn [upd_insert akeys map fst]; intros ND NI.
  - repeat constructor; auto.
  - destruct (Nat.ltb id i).
    + cbn [akeys map fst]. constructor; assumption.
    + cbn [map fst]. inversion ND as [|? ? H1 H2]; subst. constructor.
      * intros H. apply akeys_upd_insert in H as [->|H]; [apply NI; now left|contradiction].
      * apply IH; [assumption|]. intros H. apply NI. now right.
Qed.

Lemma upd_note_get id oi oe ni ne m k :
  sget k (upd_note id oi oe ni ne m) =
  if Nat.eqb k id
  then Some (match sget id m with Some u => mkU (u_oi u) (u_oe u) ni ne | None => mkU oi oe ni ne end)
  else sget k m.
Proof.
  unfold upd_note. destruct (sget id m) as [u|] eqn:E.
  - apply (aget_aset Nat.eqb Nateqs).
  - rewrite sget_upd_insert; [reflexivity|]. destruct (Nateqs k id); subst; auto.
Qed.
Lemma upd_note_nd id oi oe ni ne m : NoDup (akeys m) -> NoDup (akeys (upd_note id oi oe ni ne m)).
Proof.
  unfold upd_note. destruct (sget id m) eqn:E; intros ND.
  - now apply (aset_nodup Nat.eqb Nateqs).
  - apply nodup_upd_insert; [assumption|]. now apply (aget_none Nat.eqb Nateqs).
Qed.

(** What the updates add up to. *)
Fixpoint usum (h : upd -> Z) (m : amap nat upd) : Z :=
  match m with [] => 0 | (_, u) :: t => h u + usum h t end.
Definition d_int (u : upd) : Z := (Z.of_nat (u_ni u) - Z.of_nat (u_oi u))%Z.
Definition d_ext (u : upd) : Z := (Z.of_nat (u_ne u) - Z.of_nat (u_oe u))%Z.

Lemma usum_insert h id u m : usum h (upd_insert id u m) = (h u + usum h m)%Z.
Proof. induction m as [|[k v] m IH]; cbn [upd_insert usum]; [reflexivity|]. destruct (Nat.ltb id k); cbn [usum]; lia. Qed.
Lemma usum_set h id u v m : sget id m = Some v -> usum h (sset id u m) = (usum h m - h v + h u)%Z.
Proof.
  induction m as [|[k w] m IH]; cbn [aget aset]; [discriminate|].
  destruct (Nateqs id k) as [->|Hn]; intros E; cbn [usum]; [injection E as ->; lia|]. rewrite (IH E). lia.
Qed.

Section Slots.
Variable fl : filt.
Variable chk : N -> bool.
Variable V : nat.
Variable skipped : list N.
Variable o : option buffer.
Variable b0 : buffer.
Variable g0 : group.

Notation ref := (refused skipped chk).
Notation CI := (CINV fl chk skipped o b0 g0).

Definition slot_g (id : nat) : slot := match sget id (g_slots g0) with Some s => s | None => slot0 end.

Record SINV (f : fstate) : Prop := {
  si_nd : NoDup (akeys (f_slots f));
  si_slot : forall id s, sget id (f_slots f) = Some s ->
            NoDup (s_accs s) /\
            s_int s = sum_over (fun a => nint (of_acc a (f_msgs f))) (s_accs s) /\
            s_ext s = sum_over (fun a => next (of_acc a (f_msgs f))) (s_accs s) /\
            s_count s <= V;
  si_in : forall a, In a (akeys (f_msgs f)) <->
                    exists id s, sget id (f_slots f) = Some s /\ In a (s_accs s);
  si_once : forall a i j s t, sget i (f_slots f) = Some s -> sget j (f_slots f) = Some t ->
            In a (s_accs s) -> In a (s_accs t) -> i = j;
  si_last : forall id, In id (akeys (f_slots f)) -> exists l, f_last f = Some l /\ id <= l;
  si_grow : forall id, In id (akeys (g_slots g0)) -> In id (akeys (f_slots f));
  si_upd_nd : NoDup (akeys (f_upds f));
  si_upd : forall id u, sget id (f_upds f) = Some u ->
           exists s, sget id (f_slots f) = Some s /\ u_ni u = s_int s /\ u_ne u = s_ext s /\
             u_oi u = s_int (slot_g id) /\ u_oe u = s_ext (slot_g id) /\ u_oi u + u_oe u < u_ni u + u_ne u;
  si_same : forall id, sget id (f_upds f) = None ->
            sget id (f_slots f) = sget id (g_slots g0) \/
            (sget id (f_slots f) = Some slot0 /\ sget id (g_slots g0) = None);
  si_sum : usum d_int (f_upds f) = Z.of_nat (length (f_keys f)) /\
           usum d_ext (f_upds f) = (Z.of_nat (f_count f) - Z.of_nat (length (f_keys f)))%Z }.

Definition INV (f : fstate) : Prop := CI f /\ SINV f.

(** A slot being filled. *)
Definition CX (cx : ctx) (f : fstate) : Prop :=
  exists s, sget (c_id cx) (f_slots f) = Some s /\ s_count s + c_cap cx = V /\
    (sget (c_id cx) (f_upds f) = None -> c_oi cx = s_int s /\ c_oe cx = s_ext s).

Lemma sinv_ext f f' : SINV f -> f_slots f' = f_slots f -> f_upds f' = f_upds f -> f_last f' = f_last f ->
  f_msgs f' = f_msgs f -> f_keys f' = f_keys f -> f_count f' = f_count f -> SINV f'.
Proof.
  intros [X1 X2 X3 X4 X5 X6 X7 X8 X9 X10] E1 E2 E3 E4 E5 E6.
  constructor; rewrite ?E1, ?E2, ?E3, ?E4, ?E5, ?E6; assumption.
Qed.
Lemma cx_ext cx f f' : CX cx f -> f_slots f' = f_slots f -> f_upds f' = f_upds f -> CX cx f'.
Proof. intros H E1 E2. unfold CX. now rewrite E1, E2. Qed.

Lemma try_skip_fields a f : f_slots (try_skip fl a f) = f_slots f /\ f_upds (try_skip fl a f) = f_upds f /\
  f_last (try_skip fl a f) = f_last f /\ f_msgs (try_skip fl a f) = f_msgs f /\ f_skip (try_skip fl a f) = f_skip f /\
  f_keys (try_skip fl a f) = f_keys f /\ f_count (try_skip fl a f) = f_count f.
Proof. destruct (try_skip_cases fl a f); repeat split. Qed.

Lemma inv_try_skip a f : INV f -> INV (try_skip fl a f).
Proof.
  intros [C S]. split; [now apply cinv_try_skip|].
  destruct (try_skip_fields a f) as (E1 & E2 & E3 & E4 & E5 & E6 & E7). now apply (sinv_ext f).
Qed.
Lemma cx_try_skip cx a f : CX cx f -> CX cx (try_skip fl a f).
Proof. intros H. destruct (try_skip_fields a f) as (E1 & E2 & _). now apply (cx_ext cx f). Qed.

Lemma inv_check a f sk f' : INV f -> check_skip chk a f = (sk, f') ->
  INV f' /\ (forall cx, CX cx f -> CX cx f') /\ (sk = true <-> ref a) /\
  f_slots f' = f_slots f /\ f_msgs f' = f_msgs f /\ f_buf f' = f_buf f.
Proof.
  intros [C S] E. destruct (check_skip_spec _ _ _ _ _ _ _ _ _ _ C E) as (C' & E1 & E2 & E3 & E4 & E5 & R & E6 & E7).
  split; [split; [assumption|now apply (sinv_ext f)]|]. split; [intros cx H; now apply (cx_ext cx f)|].
  split; [assumption|]. auto.
Qed.

Definition fits (a : N) (cx : ctx) (f : fstate) : Prop :=
  ~ In a (akeys (f_msgs f)) \/ exists s, sget (c_id cx) (f_slots f) = Some s /\ In a (s_accs s).

Lemma inv_move a cx f : INV f -> CX cx f -> ~ ref a -> fits a cx f ->
  INV (fst (move fl a cx f)) /\ CX (snd (move fl a cx f)) (fst (move fl a cx f)) /\
  c_id (snd (move fl a cx f)) = c_id cx.
Proof.
  intros [C S] (s0 & Es0 & Hcap & Hold) NR FIT.
  pose proof (cinv_move fl chk skipped o b0 g0 a cx f C NR) as C'.
  pose proof (move_cases fl a cx f (ci_ne _ _ _ _ _ _ _ C a)) as MV.
  remember (fst (move fl a cx f)) as f' eqn:Ef. remember (snd (move fl a cx f)) as cx' eqn:Ecx. clear Ef Ecx.
  destruct MV as [E|l E Hz|l E Hc Hk|l p r c s E El Ec Hne Hle Hlt Es].
  - split; [now split|]. split; [|reflexivity]. exists s0. auto.
  - split; [split; [assumption|now apply (sinv_ext f)]|]. split; [|reflexivity]. exists s0. auto.
  - split; [split; [assumption|now apply (sinv_ext f)]|]. split; [|reflexivity]. exists s0. auto.
  - assert (Hs0 : slot_of (c_id cx) f = s0) by (unfold slot_of; now rewrite Es0).
    rewrite Hs0 in Es.
    destruct S as [X1 X2 X3 X4 X5 X6 X7 X8 X9 X10].
    destruct (X2 _ _ Es0) as (ND0 & I0 & E0 & L0).
    assert (Hcnt : s_count s = s_count s0 + length c).
    { subst s. unfold s_count. cbn [s_int s_ext]. pose proof (int_ext_len c). lia. }
    assert (Hlc : 1 <= length c) by (destruct c; [congruence|cbn; lia]).
    set (m' := mset a (of_acc a (f_msgs f) ++ c) (f_msgs f)) in *.
    assert (OA : forall k, of_acc k m' = if N.eqb k a then of_acc a (f_msgs f) ++ c else of_acc k (f_msgs f))
      by (intros k; apply of_acc_set).
    (* where [a] is *)
    assert (AT : (of_acc a (f_msgs f) = [] /\ ~ In a (akeys (f_msgs f)) /\ s_accs s = s_accs s0 ++ [a]) \/
                 (of_acc a (f_msgs f) <> [] /\ In a (s_accs s0) /\ s_accs s = s_accs s0)).
    { destruct FIT as [F|(s1 & Es1 & F)].
      - left. assert (of_acc a (f_msgs f) = []) as En
          by (unfold of_acc; apply (aget_none N.eqb Neqs) in F; now rewrite F).
        split; [assumption|]. split; [assumption|]. subst s. cbn [s_accs]. now rewrite En.
      - right. assert (s1 = s0) as -> by congruence.
        assert (of_acc a (f_msgs f) <> []) as Hn.
        { assert (In a (akeys (f_msgs f))) as Hin by (apply X3; eauto).
          apply mget_in in Hin as (v & Ev). unfold of_acc. rewrite Ev. exact (ci_ne _ _ _ _ _ _ _ C a v Ev). }
        split; [assumption|]. split; [assumption|]. subst s. cbn [s_accs].
        destruct (of_acc a (f_msgs f)); [congruence|reflexivity]. }
    assert (OTH : forall id t, id <> c_id cx -> sget id (f_slots f) = Some t -> ~ In a (s_accs t)).
    { intros id t Hn Et Hin. destruct AT as [(_ & NI & _)|(_ & Hin0 & _)].
      - apply NI. apply X3. eauto.
      - apply Hn. eapply X4; eassumption. }
    split; [split; [assumption|]|split; [|reflexivity]].
    + constructor; cbn [f_slots f_msgs f_upds f_last].
      * now apply (aset_nodup Nat.eqb Nateqs).
      * intros id t. rewrite (aget_aset Nat.eqb Nateqs). destruct (Nateqs id (c_id cx)) as [->|Hn].
        -- intros [= <-]. fold m'.
           split; [|split; [|split]].
           ++ destruct AT as [(_ & NI & ->)|(_ & _ & ->)]; [|assumption].
              apply nodup_snoc; [assumption|]. intros Hk. apply NI, X3. eauto.
           ++ replace (s_int s) with (s_int s0 + nint c) by (subst s; reflexivity).
              destruct AT as [(En & NI & ->)|(Hn & Hin & ->)].
              ** rewrite sum_over_app. cbn [sum_over]. rewrite OA, N.eqb_refl, En. cbn [app].
                 rewrite I0. rewrite (sum_over_ext (fun x => nint (of_acc x m')) (fun x => nint (of_acc x (f_msgs f)))); [lia|].
                 intros k Hk. rewrite OA. destruct (Neqs k a) as [->|]; [|reflexivity]. destruct NI. apply X3. eauto.
              ** rewrite I0. symmetry. apply (sum_over_upd _ _ _ a); auto.
                 --- intros k Hk. rewrite OA. destruct (Neqs k a); [contradiction|reflexivity].
                 --- rewrite OA, N.eqb_refl. apply nint_app.
           ++ replace (s_ext s) with (s_ext s0 + next c) by (subst s; reflexivity).
              destruct AT as [(En & NI & ->)|(Hn & Hin & ->)].
              ** rewrite sum_over_app. cbn [sum_over]. rewrite OA, N.eqb_refl, En. cbn [app].
                 rewrite E0. rewrite (sum_over_ext (fun x => next (of_acc x m')) (fun x => next (of_acc x (f_msgs f)))); [lia|].
                 intros k Hk. rewrite OA. destruct (Neqs k a) as [->|]; [|reflexivity]. destruct NI. apply X3. eauto.
              ** rewrite E0. symmetry. apply (sum_over_upd _ _ _ a); auto.
                 --- intros k Hk. rewrite OA. destruct (Neqs k a); [contradiction|reflexivity].
                 --- rewrite OA, N.eqb_refl. apply next_app.
           ++ lia.
        -- intros Et. destruct (X2 _ _ Et) as (T1 & T2 & T3 & T4). pose proof (OTH id t Hn Et) as NI.
           split; [assumption|]. fold m'. split; [|split; [|assumption]].
           ++ rewrite T2. apply sum_over_ext. intros k Hk. rewrite OA. destruct (Neqs k a) as [->|]; [contradiction|reflexivity].
           ++ rewrite T3. apply sum_over_ext. intros k Hk. rewrite OA. destruct (Neqs k a) as [->|]; [contradiction|reflexivity].
      * intros k. unfold m'. rewrite (akeys_aset_in N.eqb Neqs). split.
        -- intros [->|Hk].
           ++ exists (c_id cx), s. rewrite (aget_aset Nat.eqb Nateqs), Nat.eqb_refl. split; [reflexivity|].
              destruct AT as [(_ & _ & ->)|(_ & Hin & ->)]; [apply in_or_app; right; now left|assumption].
           ++ apply X3 in Hk as (id & t & Et & Hk). destruct (Nateqs id (c_id cx)) as [->|Hn].
              ** exists (c_id cx), s. rewrite (aget_aset Nat.eqb Nateqs), Nat.eqb_refl. split; [reflexivity|].
                 assert (t = s0) as -> by congruence.
                 destruct AT as [(_ & _ & ->)|(_ & Hin & ->)]; [apply in_or_app; now left|assumption].
              ** exists id, t. rewrite (aget_aset Nat.eqb Nateqs). destruct (Nateqs id (c_id cx)); [contradiction|]. auto.
        -- intros (id & t & Et & Hk). rewrite (aget_aset Nat.eqb Nateqs) in Et. destruct (Nateqs id (c_id cx)) as [->|Hn].
           ++ injection Et as <-. destruct AT as [(_ & _ & Ea)|(_ & Hin & Ea)]; rewrite Ea in Hk.
              ** apply in_app_or in Hk as [Hk|[<-|[]]]; [right; apply X3; eauto|now left].
              ** right. apply X3. eauto.
           ++ right. apply X3. eauto.
      * intros k i j t u. rewrite !(aget_aset Nat.eqb Nateqs).
        assert (SUB : forall k, In k (s_accs s) -> k = a \/ In k (s_accs s0)).
        { intros q Hq. destruct AT as [(_ & _ & Ea)|(_ & _ & Ea)]; rewrite Ea in Hq; [|now right].
          apply in_app_or in Hq as [Hq|[<-|[]]]; [now right|now left]. }
        destruct (Nateqs i (c_id cx)) as [->|Hi], (Nateqs j (c_id cx)) as [->|Hj]; auto.
        -- intros [= <-] Eu Hk1 Hk2. destruct (SUB _ Hk1) as [->|Hk]; [destruct (OTH j u Hj Eu Hk2)|].
           exact (X4 k _ _ _ _ Es0 Eu Hk Hk2).
        -- intros Et [= <-] Hk1 Hk2. destruct (SUB _ Hk2) as [->|Hk]; [destruct (OTH i t Hi Et Hk1)|].
           exact (X4 k _ _ _ _ Et Es0 Hk1 Hk).
        -- apply X4.
      * intros id Hid. apply X5. apply (akeys_aset_in Nat.eqb Nateqs) in Hid as [->|Hid]; [|assumption].
        apply sget_in. eauto.
      * intros id Hid. apply (akeys_aset_in Nat.eqb Nateqs). right. now apply X6.
      * now apply upd_note_nd.
      * intros id u. rewrite upd_note_get, (aget_aset Nat.eqb Nateqs). destruct (Nateqs id (c_id cx)) as [->|Hn]; [|apply X8].
        intros [= <-]. exists s. split; [reflexivity|]. destruct (sget (c_id cx) (f_upds f)) as [u|] eqn:Eu; cbn [u_oi u_oe u_ni u_ne].
        -- split; [reflexivity|]. split; [reflexivity|]. destruct (X8 _ _ Eu) as (s1 & Es1 & U1 & U2 & U3 & U4 & U5).
           assert (s1 = s0) as -> by congruence. split; [assumption|]. split; [assumption|].
           unfold s_count in Hcnt. lia.
        -- split; [reflexivity|]. split; [reflexivity|]. destruct (Hold eq_refl) as [O1 O2]. rewrite O1, O2.
           assert (slot_g (c_id cx) = s0) as Eg.
           { unfold slot_g. destruct (X9 _ Eu) as [H|[H1 H2]].
             - now rewrite <- H, Es0.
             - rewrite H2. congruence. }
           rewrite Eg. split; [reflexivity|]. split; [reflexivity|]. unfold s_count in Hcnt. lia.
      * intros id. rewrite upd_note_get, (aget_aset Nat.eqb Nateqs). destruct (Nateqs id (c_id cx)) as [->|Hn]; [discriminate|apply X9].
      * cbn [f_keys f_count]. rewrite app_length, map_length. fold (nint c). pose proof (int_ext_len c) as HL.
        assert (HI : Z.of_nat (s_int s) = (Z.of_nat (s_int s0) + Z.of_nat (nint c))%Z) by (subst s; cbn [s_int]; lia).
        assert (HE : Z.of_nat (s_ext s) = (Z.of_nat (s_ext s0) + Z.of_nat (next c))%Z) by (subst s; cbn [s_ext]; lia).
        unfold upd_note. destruct (sget (c_id cx) (f_upds f)) as [u|] eqn:Eu.
        -- destruct (X8 _ _ Eu) as (s1 & Es1 & U1 & U2 & _). assert (s1 = s0) as -> by congruence.
           rewrite !(usum_set _ _ _ u) by assumption. unfold d_int at 2 3, d_ext at 2 3. cbn [u_ni u_ne u_oi u_oe].
           destruct X10 as [S1 S2]. rewrite S1, S2. split; lia.
        -- destruct (Hold eq_refl) as [O1 O2]. rewrite !usum_insert. unfold d_int at 1, d_ext at 1. cbn [u_ni u_ne u_oi u_oe].
           destruct X10 as [S1 S2]. rewrite S1, S2. split; lia.
    + exists s. cbn [f_slots f_upds c_id c_oi c_oe c_cap]. rewrite (aget_aset Nat.eqb Nateqs), Nat.eqb_refl.
      split; [reflexivity|]. split; [lia|]. rewrite upd_note_get, Nat.eqb_refl. discriminate.
Qed.

End Slots.
