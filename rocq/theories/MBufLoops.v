(** * MBufLoops: the loops of [fill_message_group] *)

From Coq Require Import List NArith ZArith Bool PeanoNat Permutation Lia.
From Verif Require Import AMap MBufModel MBufSpec MBufBasics MBufInv MBufSlots.
Import ListNotations.

Lemma skeys_set_same {A} (m : amap nat A) a v w : sget a m = Some w -> akeys (sset a v m) = akeys m.
Proof.
  unfold akeys. induction m as [|[k u] m IH]; cbn [aget aset map fst]; [discriminate|].
  destruct (Nateqs a k) as [->|Hn]; intros E; [reflexivity|]. cbn [map fst]. now rewrite IH.
Qed.
Lemma sset_same {A} (m : amap nat A) a v : sget a m = Some v -> sset a v m = m.
Proof.
  induction m as [|[k u] m IH]; cbn [aget aset]; [discriminate|].
  destruct (Nateqs a k) as [->|Hn]; intros E; [congruence|]. now rewrite IH.
Qed.
Lemma skeys_set_new {A} (m : amap nat A) a v : ~ In a (akeys m) -> akeys (sset a v m) = akeys m ++ [a].
Proof.
  unfold akeys. induction m as [|[k u] m IH]; cbn [aset map fst app In]; intros H; [reflexivity|].
  destruct (Nateqs a k) as [->|Hn]; [destruct H; now left|]. cbn [map fst]. rewrite IH; [reflexivity|tauto].
Qed.

(** A move does not take accounts out of its slot. *)
Lemma move_accs fl a cx f : (forall l, mget a (f_msgs f) = Some l -> l <> []) ->
  (forall k, In k (s_accs (slot_of (c_id cx) f)) -> In k (s_accs (slot_of (c_id cx) (fst (move fl a cx f))))) /\
  f_last (fst (move fl a cx f)) = f_last f.
Proof.
  intros H. pose proof (move_cases fl a cx f H) as MV.
  remember (fst (move fl a cx f)) as f' eqn:Ef. remember (snd (move fl a cx f)) as cx' eqn:Ecx. clear Ef Ecx.
  destruct MV as [E|l E Hz|l E Hc Hk|l p r c s E El Ec Hne Hle Hlt Es]; split; auto.
  intros k Hk. unfold slot_of at 1. cbn [f_slots]. rewrite (aget_aset Nat.eqb Nateqs), Nat.eqb_refl. rewrite Es. cbn [s_accs].
  destruct (is_nil _); [apply in_or_app; now left|assumption].
Qed.

Section Loops.
Variable fl : filt.
Variable chk : N -> bool.
Variable V : nat.
Variable skipped : list N.
Variable o : option buffer.
Variable b0 : buffer.
Variable g0 : group.
Notation ref := (refused skipped chk).
Notation INV := (INV fl chk V skipped o b0 g0).
Notation CX := (CX V).

(** What only moves one way. *)
Record ADV (f f' : fstate) : Prop := {
  adv_w : forall k, waiting k (f_buf f) = [] -> waiting k (f_buf f') = [];
  adv_g : forall k, In k (akeys (f_msgs f)) -> In k (akeys (f_msgs f'));
  adv_s : akeys (f_slots f') = akeys (f_slots f);
  adv_l : f_last f' = f_last f;
  adv_i : forall k m, In m (waiting k (f_buf f')) -> In m (waiting k (f_buf f));
  adv_n : forall k, length (of_acc k (f_msgs f)) <= length (of_acc k (f_msgs f')) }.
Definition LOC (id : nat) (f f' : fstate) : Prop :=
  forall k, k <> id -> sget k (f_slots f') = sget k (f_slots f).

Lemma adv_refl f : ADV f f.
Proof. now constructor. Qed.
Lemma adv_trans f g h : ADV f g -> ADV g h -> ADV f h.
Proof.
  intros [A1 A2 A3 A4 A5 A6] [B1 B2 B3 B4 B5 B6]. constructor; [auto|auto|congruence|congruence|auto|].
  intros k. specialize (A6 k). specialize (B6 k). lia.
Qed.
Lemma loc_trans id f g h : LOC id f g -> LOC id g h -> LOC id f h.
Proof. intros A B k Hk. rewrite (B k Hk). now apply A. Qed.

(** The slot is full, or there is nothing more for it. *)
Definition FIN (f : fstate) (id : nat) : Prop :=
  forall s, sget id (f_slots f) = Some s ->
    s_count s = V \/ forall a, In a (s_accs s) -> ref a \/ waiting a (f_buf f) = [].
(** Every waiting account is refused, still to come, or in the group. *)
Definition VIS (rest : list N) (f : fstate) : Prop :=
  forall a, waiting a (f_buf f) <> [] -> ref a \/ In a rest \/ In a (akeys (f_msgs f)).

Lemma fin_keep f f' id : ADV f f' -> sget id (f_slots f') = sget id (f_slots f) -> FIN f id -> FIN f' id.
Proof.
  intros A E F s Es. rewrite E in Es. destruct (F s Es) as [H|H]; [now left|]. right.
  intros a Ha. destruct (H a Ha) as [R|W]; [now left|]. right. now apply (adv_w _ _ A).
Qed.
Lemma vis_keep rest f f' : ADV f f' -> VIS rest f -> VIS rest f'.
Proof.
  intros A Vs a W. destruct (Vs a) as [R|[R|R]]; auto.
  - intros E. apply W. now apply (adv_w _ _ A).
  - right. right. now apply (adv_g _ _ A).
Qed.

Lemma adv_try_skip a f : ADV f (try_skip fl a f).
Proof.
  destruct (try_skip_fields fl a f) as (E1 & E2 & E3 & E4 & _).
  constructor; [|now rewrite E4|now rewrite E1|assumption| |now rewrite E4].
  - intros k. destruct (try_skip_cases fl a f) as [|l E]; [auto|]. cbn [f_buf].
    unfold set_account. rewrite save_msgs, waiting_set. destruct (Neqs k a) as [->|]; [|auto].
    unfold waiting, of_acc. rewrite E. intros ->. reflexivity.
  - intros k m. destruct (try_skip_cases fl a f) as [|l E]; [auto|]. cbn [f_buf].
    unfold set_account. rewrite save_msgs, waiting_set. destruct (Neqs k a) as [->|]; [|auto].
    unfold waiting, of_acc. rewrite E. intros H. now apply filter_In in H.
Qed.
Lemma loc_try_skip id a f : LOC id f (try_skip fl a f).
Proof. destruct (try_skip_fields fl a f) as (E1 & _). intros k _. now rewrite E1. Qed.
Lemma adv_eq f f' : f_slots f' = f_slots f -> f_msgs f' = f_msgs f -> f_buf f' = f_buf f -> f_last f' = f_last f -> ADV f f'.
Proof. intros E1 E2 E3 E4. constructor; rewrite ?E1, ?E2, ?E3, ?E4; auto. Qed.
Lemma check_last a f sk f' : check_skip chk a f = (sk, f') -> f_last f' = f_last f.
Proof.
  unfold check_skip. destruct (existsb _ _); [now intros [= _ <-]|]. destruct (chk a); now intros [= _ <-].
Qed.

Lemma move_effects a cx f : INV f -> CX cx f ->
  let f' := fst (move fl a cx f) in let cx' := snd (move fl a cx f) in
  ADV f f' /\ LOC (c_id cx) f f' /\
  (c_cap cx <> 0 -> (waiting a (f_buf f') = [] \/ c_cap cx' = 0) /\
                    (waiting a (f_buf f') <> [] -> In a (akeys (f_msgs f')))) /\
  (c_cap cx = 0 -> c_cap cx' = 0) /\
  s_count (slot_of (c_id cx) f) <= s_count (slot_of (c_id cx) f') /\
  (forall k, In k (s_accs (slot_of (c_id cx) f')) -> In k (s_accs (slot_of (c_id cx) f)) \/ k = a) /\
  (cx' = cx \/ s_count (slot_of (c_id cx) f) < s_count (slot_of (c_id cx) f')).
Proof.
  intros [C S] (s0 & Es0 & Hcap & _) f' cx'.
  pose proof (move_cases fl a cx f (ci_ne _ _ _ _ _ _ _ C a)) as MV. fold f' cx' in MV. clearbody f' cx'.
  assert (Hs0 : slot_of (c_id cx) f = s0) by (unfold slot_of; now rewrite Es0).
  destruct MV as [E|l E Hz|l E Hc Hk|l p r c s E El Ec Hne Hle Hlt Es].
  - assert (W : waiting a (f_buf f) = []) by (unfold waiting, of_acc; now rewrite E).
    split; [apply adv_refl|]. split; [intros k _; reflexivity|]. split; [intros _; split; [now left|contradiction]|].
    split; [auto|]. split; [lia|]. split; [auto|now left].
  - split; [now constructor|]. split; [intros k _; reflexivity|]. split.
    + intros Hc. destruct Hz as [->|]; [|contradiction]. assert (W : waiting a (f_buf f) = []) by (unfold waiting, of_acc; now rewrite E).
      change (waiting a (f_buf (set_buf (save a [] (f_buf f)) f))) with (waiting a (f_buf f)).
      split; [now left|]. intros X. contradiction.
    + split; [auto|]. change (slot_of (c_id cx) (set_buf (save a l (f_buf f)) f)) with (slot_of (c_id cx) f).
      split; [lia|]. split; [auto|now left].
  - assert (W : forall k, waiting k (set_account a [] (length (expired fl l)) 0 (save a l (f_buf f))) =
                          if N.eqb k a then [] else waiting k (f_buf f)).
    { intros k. unfold set_account. now rewrite save_msgs, waiting_set. }
    split; [|split; [intros k _; reflexivity|]].
    + constructor; cbn [f_buf f_msgs f_slots f_last]; auto; [intros k Hk0|intros k m]; rewrite W; destruct (N.eqb k a); auto. intros [].
    + cbn [f_buf f_msgs f_slots]. rewrite W, N.eqb_refl. split; [intros _; split; [now left|congruence]|].
      split; [auto|]. unfold slot_of. cbn [f_slots]. rewrite Es0. split; [lia|]. split; [auto|now left].
  - assert (W : forall k, waiting k (set_account a r (length (expired fl p) + next c) (nint c) (save a l (f_buf f))) =
                          if N.eqb k a then r else waiting k (f_buf f)).
    { intros k. unfold set_account. now rewrite save_msgs, waiting_set. }
    split; [|split].
    + constructor; cbn [f_buf f_msgs f_slots f_last].
      * intros k Hk0. rewrite W. destruct (Neqs k a) as [->|]; [|assumption].
        rewrite (waiting_get _ _ _ E) in Hk0. subst l. apply app_eq_nil in Hk0. tauto.
      * intros k Hk. apply (akeys_aset_in N.eqb Neqs). now right.
      * now apply (skeys_set_same _ _ _ s0).
      * reflexivity.
      * intros k m. rewrite W. destruct (Neqs k a) as [->|]; [|auto]. rewrite (waiting_get _ _ _ E). subst l.
        intros Hm. apply in_or_app. now right.
      * intros k. rewrite of_acc_set. destruct (Neqs k a) as [->|]; [|lia]. rewrite app_length. lia.
    + intros k Hk. cbn [f_slots]. rewrite (aget_aset Nat.eqb Nateqs). destruct (Nateqs k (c_id cx)); [contradiction|reflexivity].
    + cbn [f_buf f_msgs f_slots c_cap]. rewrite W, N.eqb_refl.
      assert (Hlc : 1 <= length c) by (destruct c; [congruence|cbn; lia]).
      split; [intros Hc; split|].
      * destruct (Nat.eq_dec (length c) (c_cap cx)); [right; lia|left; apply Hlt; lia].
      * intros _. apply (akeys_aset_in N.eqb Neqs). now left.
      * split; [intros Hc; lia|]. rewrite Hs0 in *. unfold slot_of. cbn [f_slots].
        rewrite (aget_aset Nat.eqb Nateqs), Nat.eqb_refl. rewrite Es. unfold s_count. cbn [s_int s_ext s_accs].
        split; [lia|]. split.
        -- intros k Hk. destruct (is_nil (of_acc a (f_msgs f))); [|now left].
           apply in_app_or in Hk as [Hk|[<-|[]]]; [now left|now right].
        -- right. pose proof (int_ext_len c). lia.
Qed.

Lemma cx_slot cx f : CX cx f -> s_count (slot_of (c_id cx) f) + c_cap cx = V /\
  sget (c_id cx) (f_slots f) = Some (slot_of (c_id cx) f).
Proof. intros (s & Es & H & _). unfold slot_of. rewrite Es. auto. Qed.

(** After a move into a slot that had room, the slot is full or has no more to take. *)
Lemma fin_move a cx f : INV f -> CX cx f -> ~ ref a -> fits a cx f -> c_cap cx <> 0 ->
  (forall k, In k (s_accs (slot_of (c_id cx) f)) -> ref k \/ waiting k (f_buf f) = [] \/ k = a) ->
  FIN (fst (move fl a cx f)) (c_id cx).
Proof.
  intros IV HC NR FIT CAP D s Es.
  destruct (inv_move fl chk V skipped o b0 g0 a cx f IV HC NR FIT) as (_ & HC' & Eid).
  destruct (move_effects a cx f IV HC) as (A & L & DR & _ & _ & AC & _). destruct (DR CAP) as [[W|Z] _].
  - right. intros k Hk. assert (slot_of (c_id cx) (fst (move fl a cx f)) = s) as Esl by (unfold slot_of; now rewrite Es).
    rewrite Esl in AC. destruct (AC k Hk) as [Hk0|Ek].
    + destruct (D k Hk0) as [R|[W0|Ek]]; [now left|right; now apply (adv_w _ _ A)|right; now rewrite Ek].
    + right. now rewrite Ek.
  - left. destruct HC' as (s1 & Es1 & Hc & _). rewrite Eid in Es1. assert (s1 = s) as -> by congruence. lia.
Qed.

(** ** Expired messages *)

(** No expired message waits for the account, or the account got a message. *)
Definition CLEAN (a : N) (f : fstate) : Prop :=
  (forall m, In m (waiting a (f_buf f)) -> should_skip fl m = false) \/
  length (collected a g0) < length (of_acc a (f_msgs f)).
Definition CLN (rest : list N) (f : fstate) : Prop := forall a, In a rest \/ CLEAN a f.

Lemma clean_keep a f f' : ADV f f' -> CLEAN a f -> CLEAN a f'.
Proof.
  intros A [H|H]; [left|right].
  - intros m Hm. apply H. now apply (adv_i _ _ A).
  - pose proof (adv_n _ _ A a). lia.
Qed.
Lemma cln_keep rest f f' : ADV f f' -> CLN rest f -> CLN rest f'.
Proof. intros A C a. destruct (C a) as [H|H]; [now left|right; now apply (clean_keep a f)]. Qed.
Lemma cln_tail a rest f : CLN (a :: rest) f -> CLEAN a f -> CLN rest f.
Proof. intros C H k. destruct (C k) as [[<-|Hk]|Hk]; auto. Qed.

Lemma clean_try_skip a f : CLEAN a (try_skip fl a f).
Proof.
  left. intros m. unfold try_skip. destruct (can_skip fl) eqn:Ec.
  - destruct (mget a (b_msgs (f_buf f))) as [l|] eqn:E.
    + cbn [f_buf]. unfold set_account. rewrite save_msgs, waiting_set, N.eqb_refl.
      intros H. apply filter_In in H as [_ H]. now apply negb_true_iff in H.
    + unfold waiting, of_acc. rewrite E. intros [].
  - intros _. destruct fl; [reflexivity|discriminate].
Qed.
Lemma cln_try_skip a rest f : CLN (a :: rest) f -> CLN rest (try_skip fl a f).
Proof. intros C. apply (cln_tail a); [apply (cln_keep _ f); [apply adv_try_skip|assumption]|apply clean_try_skip]. Qed.

Lemma clean_move a cx f : INV f -> c_cap cx <> 0 -> CLEAN a (fst (move fl a cx f)).
Proof.
  intros [C S] CAP. pose proof (move_cases fl a cx f (ci_ne _ _ _ _ _ _ _ C a)) as MV.
  destruct (ci_acc _ _ _ _ _ _ _ C a) as (p0 & r0 & _ & HG & _).
  remember (fst (move fl a cx f)) as f' eqn:Ef. remember (snd (move fl a cx f)) as cx' eqn:Ecx. clear Ef Ecx.
  destruct MV as [E|l E Hz|l E Hc Hk|l p r c s E El Ec Hne Hle Hlt Es].
  - left. intros m. unfold waiting, of_acc. rewrite E. intros [].
  - left. destruct Hz as [->|]; [|contradiction]. intros m.
    change (waiting a (f_buf (set_buf (save a [] (f_buf f)) f))) with (waiting a (f_buf f)).
    rewrite (waiting_get _ _ _ E). intros [].
  - left. intros m. cbn [f_buf]. unfold set_account. rewrite save_msgs, waiting_set, N.eqb_refl. intros [].
  - right. cbn [f_msgs]. rewrite of_acc_set, N.eqb_refl, app_length.
    assert (1 <= length c) by (destruct c; [congruence|cbn; lia]). rewrite HG, app_length. lia.
Qed.
Lemma cln_move a cx rest f : INV f -> CX cx f -> c_cap cx <> 0 -> CLN (a :: rest) f -> CLN rest (fst (move fl a cx f)).
Proof.
  intros IV HC CAP C. destruct (move_effects a cx f IV HC) as (A & _).
  apply (cln_tail a); [now apply (cln_keep _ f)|now apply clean_move].
Qed.
Lemma cln_check a rest f sk f' : INV f -> check_skip chk a f = (sk, f') -> CLN rest f -> CLN rest f'.
Proof.
  intros IV E. destruct (inv_check _ _ _ _ _ _ _ _ _ _ _ IV E) as (_ & _ & _ & S1 & M1 & B1).
  apply cln_keep, adv_eq; auto. now apply (check_last _ _ _ _ E).
Qed.

Lemma walk1_clean rest : forall cx f rest' f' push,
  INV f -> CX cx f -> c_cap cx <> 0 -> 1 <= V -> CLN rest f ->
  walk1 fl chk rest cx f = (rest', f', push) -> CLN rest' f'.
Proof.
  induction rest as [|a rest IH]; intros cx f rest' f' push IV HC CAP HV CL E; cbn [walk1] in E.
  - injection E as <- <- <-. assumption.
  - destruct (mhas a (f_msgs f)) eqn:Hm.
    + refine (IH cx _ _ _ _ _ _ CAP HV _ E); [now apply inv_try_skip|now apply cx_try_skip|now apply cln_try_skip].
    + assert (NIN : ~ In a (akeys (f_msgs f))) by (intros Hin; apply mhas_in in Hin; congruence).
      destruct (check_skip chk a f) as [sk f1] eqn:Ec.
      destruct (inv_check _ _ _ _ _ _ _ _ _ _ _ IV Ec) as (I1 & C1 & R & S1 & M1 & B1). specialize (C1 cx HC).
      pose proof (cln_check _ _ _ _ _ IV Ec CL) as CL1. destruct sk.
      * refine (IH cx _ _ _ _ _ _ CAP HV _ E); [now apply inv_try_skip|now apply cx_try_skip|now apply cln_try_skip].
      * assert (NR : ~ ref a) by (intros X; apply R in X; discriminate).
        assert (FIT : fits a cx f1) by (left; now rewrite M1).
        destruct (inv_move fl chk V skipped o b0 g0 a cx f1 I1 C1 NR FIT) as (I2 & C2 & Eid).
        pose proof (cln_move a cx rest f1 I1 C1 CAP CL1) as CL2.
        destruct (move fl a cx f1) as [f2 cx2]. cbn [fst snd] in *.
        destruct (cx_slot _ _ C2) as [Hc2 _].
        destruct (Nat.ltb_spec 0 (s_count (slot_of (c_id cx2) f2))) as [Hz|Hz].
        -- now injection E as <- <- <-.
        -- refine (IH cx2 f2 _ _ _ I2 C2 _ HV CL2 E). lia.
Qed.

(** ** The first step *)
Lemma walk1_spec rest : forall cx f rest' f' push,
  INV f -> CX cx f -> FIN f (c_id cx) -> c_cap cx <> 0 -> 1 <= V -> VIS rest f ->
  walk1 fl chk rest cx f = (rest', f', push) ->
  INV f' /\ ADV f f' /\ LOC (c_id cx) f f' /\ FIN f' (c_id cx) /\ VIS rest' f' /\
  length rest' <= length rest /\ (rest <> [] -> length rest' < length rest) /\ (rest = [] -> push = false) /\
  (exists p, rest = p ++ rest') /\
  s_count (slot_of (c_id cx) f) <= s_count (slot_of (c_id cx) f') <= V /\
  (push = false -> rest' = [] \/ s_count (slot_of (c_id cx) f') = V) /\
  (push = true -> s_count (slot_of (c_id cx) f') < V) /\
  (s_count (slot_of (c_id cx) f') = 0 -> rest' = []).
Proof.
  induction rest as [|a rest IH]; intros cx f rest' f' push IV HC F CAP HV Vs E; cbn [walk1] in E.
  - injection E as <- <- <-. destruct (cx_slot _ _ HC) as [Hc _].
    split; [assumption|]. split; [apply adv_refl|]. split; [intros k _; reflexivity|]. split; [assumption|]. split; [assumption|].
    split; [lia|]. split; [congruence|]. split; [reflexivity|]. split; [now exists []|]. split; [lia|]. split; [now left|]. split; [discriminate|reflexivity].
  - (* the step that passes over [a] *)
    assert (PASS : forall f1, INV f1 -> CX cx f1 -> ADV f f1 -> LOC (c_id cx) f f1 -> FIN f1 (c_id cx) -> VIS rest f1 ->
              s_count (slot_of (c_id cx) f) <= s_count (slot_of (c_id cx) f1) ->
              walk1 fl chk rest cx f1 = (rest', f', push) ->
      INV f' /\ ADV f f' /\ LOC (c_id cx) f f' /\ FIN f' (c_id cx) /\ VIS rest' f' /\
      length rest' <= length (a :: rest) /\ (a :: rest <> [] -> length rest' < length (a :: rest)) /\
      (a :: rest = [] -> push = false) /\ (exists p, a :: rest = p ++ rest') /\
      s_count (slot_of (c_id cx) f) <= s_count (slot_of (c_id cx) f') <= V /\
      (push = false -> rest' = [] \/ s_count (slot_of (c_id cx) f') = V) /\
      (push = true -> s_count (slot_of (c_id cx) f') < V) /\
      (s_count (slot_of (c_id cx) f') = 0 -> rest' = [])).
    { intros f1 I1 C1 A1 L1 F1 V1 M1 E1.
      destruct (IH cx f1 rest' f' push I1 C1 F1 CAP HV V1 E1) as (P1 & P2 & P3 & P4 & P5 & P6 & P7 & P8 & (p & P9) & P10 & P11 & P12 & P13).
      split; [assumption|]. split; [exact (adv_trans _ _ _ A1 P2)|]. split; [exact (loc_trans _ _ _ _ L1 P3)|].
      split; [assumption|]. split; [assumption|]. cbn [length]. split; [lia|]. split; [lia|]. split; [discriminate|].
      split; [exists (a :: p); now rewrite P9|]. split; [lia|]. auto. }
    assert (VS : forall f1, VIS (a :: rest) f1 -> ref a \/ In a (akeys (f_msgs f1)) \/ waiting a (f_buf f1) = [] -> VIS rest f1).
    { intros f1 V1 H k W. destruct (V1 k W) as [R|[[->|R]|R]]; auto. destruct H as [H|[H|H]]; auto. contradiction. }
    assert (TS : forall f1, INV f1 -> CX cx f1 -> ADV f f1 -> LOC (c_id cx) f f1 -> FIN f1 (c_id cx) -> VIS rest f1 ->
              s_count (slot_of (c_id cx) f1) = s_count (slot_of (c_id cx) f) ->
              let f2 := try_skip fl a f1 in
              INV f2 /\ CX cx f2 /\ ADV f f2 /\ LOC (c_id cx) f f2 /\ FIN f2 (c_id cx) /\ VIS rest f2 /\
              s_count (slot_of (c_id cx) f) <= s_count (slot_of (c_id cx) f2)).
    { intros f1 I1 C1 A1 L1 F1 V1 M1 f2. destruct (try_skip_fields fl a f1) as (E1 & _).
      split; [now apply inv_try_skip|]. split; [now apply cx_try_skip|]. split; [exact (adv_trans _ _ _ A1 (adv_try_skip a f1))|].
      split; [exact (loc_trans _ _ _ _ L1 (loc_try_skip _ a f1))|].
      split; [apply (fin_keep f1); [apply adv_try_skip|unfold f2; now rewrite E1|assumption]|].
      split; [apply (vis_keep rest f1); [apply adv_try_skip|assumption]|].
      unfold f2, slot_of. rewrite E1. unfold slot_of in M1. rewrite M1. lia. }
    destruct (mhas a (f_msgs f)) eqn:Hm.
    + apply mhas_in in Hm.
      destruct (TS f IV HC (adv_refl f) (fun k _ => eq_refl) F (VS f Vs (or_intror (or_introl Hm))) eq_refl) as (T1 & T2 & T3 & T4 & T5 & T6 & T7).
      exact (PASS _ T1 T2 T3 T4 T5 T6 T7 E).
    + assert (NIN : ~ In a (akeys (f_msgs f))) by (intros Hin; apply mhas_in in Hin; congruence).
      destruct (check_skip chk a f) as [sk f1] eqn:Ec.
      destruct (inv_check _ _ _ _ _ _ _ _ _ _ _ IV Ec) as (I1 & C1 & R & S1 & M1 & B1).
      specialize (C1 cx HC). pose proof (check_last _ _ _ _ Ec) as L1.
      assert (A1 : ADV f f1) by (now apply adv_eq).
      assert (LO1 : LOC (c_id cx) f f1) by (intros k _; now rewrite S1).
      assert (F1 : FIN f1 (c_id cx)) by (apply (fin_keep f); [assumption|now rewrite S1|assumption]).
      pose proof (vis_keep _ _ _ A1 Vs) as V1.
      assert (SC : s_count (slot_of (c_id cx) f1) = s_count (slot_of (c_id cx) f)) by (unfold slot_of; now rewrite S1).
      destruct sk.
      * assert (Ra : ref a) by (now apply R).
        destruct (TS f1 I1 C1 A1 LO1 F1 (VS f1 V1 (or_introl Ra)) SC) as (T1 & T2 & T3 & T4 & T5 & T6 & T7).
        exact (PASS _ T1 T2 T3 T4 T5 T6 T7 E).
      * assert (NR : ~ ref a) by (intros X; apply R in X; discriminate).
        assert (FIT : fits a cx f1) by (left; now rewrite M1).
        destruct (inv_move fl chk V skipped o b0 g0 a cx f1 I1 C1 NR FIT) as (I2 & C2 & Eid).
        destruct (move_effects a cx f1 I1 C1) as (A2 & L2 & DR & _ & MO & _ & CXE).
        assert (F2 : FIN (fst (move fl a cx f1)) (c_id cx)).
        { apply fin_move; auto. intros k Hk.
          destruct (cx_slot _ _ C1) as [Hc Hs]. destruct (F1 _ Hs) as [X|X]; [lia|]. destruct (X k Hk); auto. }
        destruct (DR CAP) as [_ D2].
        destruct (move fl a cx f1) as [f2 cx2]. cbn [fst snd] in *.
        destruct (cx_slot _ _ C2) as [Hc2 Hs2]. rewrite Eid in *.
        assert (V2 : VIS rest f2).
        { intros k W. destruct (N.eq_dec k a) as [->|Hn].
          - right. right. now apply D2.
          - destruct (vis_keep _ _ _ A2 V1 k W) as [X|[[X|X]|X]]; auto. congruence. }
        destruct (Nat.ltb 0 (s_count (slot_of (c_id cx) f2))) eqn:Hz.
        -- injection E as <- <- <-. apply Nat.ltb_lt in Hz.
           split; [assumption|]. split; [exact (adv_trans _ _ _ A1 A2)|]. split; [exact (loc_trans _ _ _ _ LO1 L2)|].
           split; [assumption|]. split; [assumption|]. cbn [length]. split; [lia|]. split; [lia|]. split; [discriminate|].
           split; [now exists [a]|]. split; [lia|].
           split; [intros Hp; apply Nat.ltb_ge in Hp; right; lia|]. split; [intros Hp; apply Nat.ltb_lt in Hp; lia|]. lia.
        -- apply Nat.ltb_ge in Hz.
           assert (cx2 = cx) as ->. (destruct CXE; [assumption|lia]).
           apply (PASS f2); auto.
           ++ exact (adv_trans _ _ _ A1 A2).
           ++ exact (loc_trans _ _ _ _ LO1 L2).
           ++ lia.
Qed.

(** ** New slots, and empty ones that go *)
Notation NEW k := (~ In k (akeys (g_slots g0))).

Lemma slot_of_some id f s : sget id (f_slots f) = Some s -> slot_of id f = s.
Proof. unfold slot_of. now intros ->. Qed.
Lemma slot_of_none id f : ~ In id (akeys (f_slots f)) -> slot_of id f = slot0.
Proof. intros H. apply (aget_none Nat.eqb Nateqs) in H. unfold slot_of. now rewrite H. Qed.

Lemma inv_new id f : INV f -> NEW id -> ~ In id (akeys (f_slots f)) ->
  INV (set_last (max_last (f_last f) id) (set_slots (sset id slot0 (f_slots f)) f)).
Proof.
  intros [C S] NG NI. split; [now apply cinv_slots|].
  pose proof (proj2 (aget_none Nat.eqb Nateqs id (f_slots f)) NI) as Hid.
  destruct S as [X1 X2 X3 X4 X5 X6 X7 X8 X9 X10].
  constructor; cbn [set_last set_slots f_slots f_msgs f_upds f_last].
  - now apply (aset_nodup Nat.eqb Nateqs).
  - intros k s. rewrite (aget_aset Nat.eqb Nateqs). destruct (Nateqs k id) as [->|Hn]; [|apply X2].
    intros [= <-]. cbn. repeat split; [constructor|lia].
  - intros a. rewrite X3. split; intros (k & s & Es & Ha).
    + exists k, s. rewrite (aget_aset Nat.eqb Nateqs). destruct (Nateqs k id) as [->|Hn]; [congruence|auto].
    + rewrite (aget_aset Nat.eqb Nateqs) in Es. destruct (Nateqs k id) as [->|Hn]; [|eauto].
      injection Es as <-. destruct Ha.
  - intros a i j s t. rewrite !(aget_aset Nat.eqb Nateqs).
    destruct (Nateqs i id) as [->|Hi]; [intros [= <-] _ []|].
    destruct (Nateqs j id) as [->|Hj]; [intros _ [= <-] _ []|]. apply X4.
  - intros k Hk. apply (akeys_aset_in Nat.eqb Nateqs) in Hk. unfold max_last.
    destruct (f_last f) as [l|] eqn:El.
    + exists (Nat.max l id). split; [reflexivity|]. destruct Hk as [->|Hk]; [lia|].
      destruct (X5 _ Hk) as (l' & E & Hl). injection E as <-. lia.
    + exists id. split; [reflexivity|]. destruct Hk as [->|Hk]; [lia|].
      destruct (X5 _ Hk) as (l' & E & Hl). discriminate.
  - intros k Hk. apply (akeys_aset_in Nat.eqb Nateqs). right. now apply X6.
  - assumption.
  - intros k u Hu. destruct (X8 _ _ Hu) as (s & Es & H). exists s. split; [|exact H].
    rewrite (aget_aset Nat.eqb Nateqs). destruct (Nateqs k id) as [->|Hn]; [congruence|assumption].
  - intros k Hu. rewrite (aget_aset Nat.eqb Nateqs). destruct (Nateqs k id) as [->|Hn]; [|now apply X9].
    right. split; [reflexivity|]. now apply (aget_none Nat.eqb Nateqs).
  - exact X10.
Qed.

Lemma count_zero_accs f id s : INV f -> sget id (f_slots f) = Some s -> s_count s = 0 -> s_accs s = [].
Proof.
  intros [C S] E Z. destruct (si_slot _ _ _ S _ _ E) as (_ & HI & HE & _).
  destruct (s_accs s) as [|a t] eqn:Ea; [reflexivity|exfalso].
  assert (In a (akeys (f_msgs f))) as Hin by (apply (si_in _ _ _ S); exists id, s; rewrite Ea; split; [assumption|now left]).
  apply mget_in in Hin as (v & Ev). pose proof (ci_ne _ _ _ _ _ _ _ C a v Ev) as Hne.
  cbn [sum_over] in HI, HE. unfold of_acc at 1 in HI. unfold of_acc at 1 in HE. rewrite Ev in HI, HE.
  pose proof (int_ext_len v). unfold s_count in Z. destruct v; [congruence|]. cbn [length] in *. lia.
Qed.

Lemma inv_remove id f : INV f -> NEW id -> s_count (slot_of id f) = 0 ->
  INV (set_slots (sdel id (f_slots f)) f).
Proof.
  intros IV NG Z. pose proof IV as [C S]. split; [now apply cinv_slots1|].
  assert (EM : forall s, sget id (f_slots f) = Some s -> s_accs s = []).
  { intros s Es. apply (count_zero_accs f id); auto. now rewrite (slot_of_some _ _ _ Es) in Z. }
  destruct S as [X1 X2 X3 X4 X5 X6 X7 X8 X9 X10].
  assert (G : forall k, sget k (sdel id (f_slots f)) = if Nat.eqb k id then None else sget k (f_slots f))
    by (intros k; apply (aget_adel Nat.eqb Nateqs)).
  assert (GS : forall k s, sget k (sdel id (f_slots f)) = Some s -> k <> id /\ sget k (f_slots f) = Some s).
  { intros k s. rewrite G. destruct (Nateqs k id); [discriminate|auto]. }
  constructor; cbn [set_slots f_slots f_msgs f_upds f_last].
  - apply (adel_nodup Nat.eqb). assumption.
  - intros k s Es. apply GS in Es as [_ Es]. now apply X2 in Es.
  - intros a. rewrite X3. split; intros (k & s & Es & Ha).
    + exists k, s. rewrite G. destruct (Nateqs k id) as [->|Hn]; [|auto]. rewrite (EM _ Es) in Ha. destruct Ha.
    + apply GS in Es as [_ Es]. eauto.
  - intros a i j s t Ei Ej. apply GS in Ei as [_ Ei]. apply GS in Ej as [_ Ej]. now apply X4.
  - intros k Hk. apply X5. apply sget_in in Hk as (v & Hv). apply GS in Hv as [_ Hv]. apply sget_in. eauto.
  - intros k Hk. pose proof (X6 _ Hk) as Hk'. apply sget_in in Hk' as (v & Hv). apply sget_in. exists v. rewrite G.
    destruct (Nateqs k id) as [->|Hn]; [contradiction|assumption].
  - assumption.
  - intros k u Hu. destruct (X8 _ _ Hu) as (s & Es & U1 & U2 & U3 & U4 & U5). exists s. split; [|auto].
    rewrite G. destruct (Nateqs k id) as [->|Hn]; [|assumption]. rewrite (slot_of_some _ _ _ Es) in Z. unfold s_count in Z. lia.
  - intros k Hu. rewrite G. destruct (Nateqs k id) as [->|Hn]; [|now apply X9].
    left. symmetry. now apply (aget_none Nat.eqb Nateqs).
  - exact X10.
Qed.

Definition MON (f f' : fstate) : Prop :=
  (forall k, waiting k (f_buf f) = [] -> waiting k (f_buf f') = []) /\
  (forall k, In k (akeys (f_msgs f)) -> In k (akeys (f_msgs f'))) /\
  (forall k, In k (akeys (g_slots g0)) -> sget k (f_slots f') = sget k (f_slots f)).
Lemma mon_trans f g h : MON f g -> MON g h -> MON f h.
Proof.
  intros (A1 & A2 & A3) (B1 & B2 & B3). split; [auto|]. split; [auto|]. intros k Hk. rewrite B3, A3; auto.
Qed.

Record S1P (SC id rem : nat) (nf : list nat) (rest : list N) (f : fstate) : Prop := {
  p_inv : INV f;
  p_vis : VIS rest f;
  p_cln : CLN rest f;
  p_new : NEW id;
  p_fin : forall k, NEW k -> FIN f k;
  p_cnt : forall k s, NEW k -> k <> id -> sget k (f_slots f) = Some s ->
          1 <= s_count s /\ (s_count s = V \/ In k nf \/ rest = []);
  p_nd : NoDup (id :: nf);
  p_nf : forall k, In k nf -> NEW k /\ exists s, sget k (f_slots f) = Some s /\ 1 <= s_count s < V;
  p_mode : ((forall k, In k (akeys (f_slots f)) -> k < id) /\ S (length (f_slots f) + rem) = SC) \/
           (rem = 0 /\ length (f_slots f) = SC /\ exists s, sget id (f_slots f) = Some s /\ 1 <= s_count s < V) }.

Record S1Q (SC : nat) (used : list nat) (f : fstate) (used' : list nat) (rest' : list N) (f' : fstate) : Prop := {
  q_inv : INV f';
  q_vis : VIS rest' f';
  q_cln : CLN rest' f';
  q_fin : forall k, NEW k -> FIN f' k;
  q_cnt : forall k s, NEW k -> sget k (f_slots f') = Some s -> 1 <= s_count s /\ (s_count s = V \/ rest' = []);
  q_len : length (f_slots f') <= SC;
  q_len1 : rest' = [] \/ length (f_slots f') = SC;
  q_used : forall k, In k used' -> In k used \/ NEW k;
  q_mon : MON f f' }.

Lemma akeys_len {A} (m : amap nat A) : length (akeys m) = length m.
Proof. unfold akeys. apply map_length. Qed.

Lemma akeys_sdel_snoc {A} (m : amap nat A) id l : ~ In id l -> akeys m = l ++ [id] -> akeys (sdel id m) = l.
Proof.
  unfold akeys, adel. revert l. induction m as [|[k v] m IH]; intros l NI E; cbn [map fst filter] in *; [now destruct l|].
  destruct l as [|x l]; cbn [app] in E.
  - injection E as -> E. rewrite Nat.eqb_refl. cbn [negb]. destruct m; [reflexivity|discriminate].
  - injection E as -> E. destruct (Nateqs id x) as [->|Hn]; [destruct NI; now left|]. cbn [negb map fst].
    rewrite (IH l); auto. intros H. apply NI. now right.
Qed.

Lemma step1_spec SC fuel : forall id rem nf used rest f,
  1 <= V -> S1P SC id rem nf rest f -> 2 * length rest + length nf < fuel ->
  exists used' rest' f', step1 fl chk V fuel id rem nf used rest f = Some (used', rest', f') /\
    S1Q SC used f used' rest' f' /\ exists p, rest = p ++ rest'.
Proof.
  induction fuel as [|fuel IH]; intros id rem nf used rest f HV P Hf; [lia|].
  destruct P as [IV Vs CL NG F CN ND NF MO]. cbn [step1].
  set (s := slot_of id f).
  set (f1 := set_last (max_last (f_last f) id) (set_slots (sset id s (f_slots f)) f)).
  (* entering the slot *)
  assert (EN : INV f1 /\ sget id (f_slots f1) = Some s /\ s_count s < V /\
               (forall k, k <> id -> sget k (f_slots f1) = sget k (f_slots f)) /\
               (sget id (f_upds f) = None \/ In id (akeys (f_slots f)))).
  { destruct MO as [(LT & _)|(_ & _ & s1 & Es1 & Hc)].
    - assert (NI : ~ In id (akeys (f_slots f))) by (intros H; apply LT in H; lia).
      assert (s = slot0) as Es by (now apply slot_of_none). unfold f1. rewrite Es.
      split; [now apply inv_new|]. cbn [set_last set_slots f_slots].
      split; [now rewrite (aget_aset Nat.eqb Nateqs), Nat.eqb_refl|]. split; [cbn; lia|].
      split.
      + intros k Hk. rewrite (aget_aset Nat.eqb Nateqs). destruct (Nateqs k id); [contradiction|reflexivity].
      + left. destruct (sget id (f_upds f)) as [u|] eqn:Eu; [|reflexivity].
        destruct (si_upd _ _ _ (proj2 IV) _ _ Eu) as (t & Et & _). destruct NI. apply sget_in. eauto.
    - assert (s = s1) as Es by (now apply slot_of_some). unfold f1. rewrite Es. rewrite (sset_same _ _ _ Es1).
      assert (In id (akeys (f_slots f))) as HI by (apply sget_in; eauto).
      destruct (si_last _ _ _ (proj2 IV) id HI) as (l & El & Hl).
      split; [|split; [exact Es1|split; [lia|split; [reflexivity|now right]]]].
      destruct IV as [C S]. split; [now apply cinv_slots|]. apply (sinv_ext V g0 f); try reflexivity; [assumption|].
      cbn [set_last f_last]. rewrite El. cbn [max_last]. f_equal. lia. }
  destruct EN as (I1 & Es1 & Hsv & L1 & _).
  unfold enter. destruct (Nat.ltb_spec V (s_count s)) as [H|_]; [lia|].
  set (cx := mkCx id (s_int s) (s_ext s) (V - s_count s)).
  assert (HC : CX cx f1).
  { exists s. cbn [c_id c_cap c_oi c_oe]. split; [assumption|]. unfold cx; cbn [c_id c_cap c_oi c_oe]. split; [lia|auto]. }
  assert (F1 : forall k, NEW k -> FIN f1 k).
  { intros k Hk t Et. destruct (Nat.eq_dec k id) as [->|Hn].
    - assert (t = s) as -> by congruence. destruct (sget id (f_slots f)) as [t0|] eqn:Et0.
      + assert (s = t0) as E0 by (now apply slot_of_some). rewrite E0 in *. exact (F id Hk t0 Et0).
      + right. unfold s, slot_of. rewrite Et0. intros a [].
    - rewrite L1 in Et by assumption. exact (F k Hk t Et). }
  assert (VS1 : VIS rest f1) by exact Vs.
  destruct (walk1 fl chk rest cx f1) as [[rest2 f2] push] eqn:Ew.
  destruct (walk1_spec rest cx f1 rest2 f2 push I1 HC (F1 id NG) ltac:(cbn [c_cap cx]; lia) HV VS1 Ew)
    as (I2 & A2 & LO2 & F2 & V2 & LE2 & LT2 & PN & (pp & Ep) & SCN & P1 & P2 & P3).
  assert (CL2 : CLN rest2 f2).
  { apply (walk1_clean rest cx f1 rest2 f2 push I1 HC); [cbn [c_cap cx]; lia|assumption|exact CL|exact Ew]. }
  cbn [c_id cx] in *.
  assert (K1 : akeys (f_slots f2) = akeys (f_slots f1)) by (apply (adv_s _ _ A2)).
  assert (Es2 : sget id (f_slots f2) = Some (slot_of id f2)).
  { assert (In id (akeys (f_slots f2))) as H by (rewrite K1; apply sget_in; eauto).
    apply sget_in in H as (v & Hv). now rewrite (slot_of_some _ _ _ Hv). }
  assert (SC1 : slot_of id f1 = s) by (now apply slot_of_some). rewrite SC1 in SCN.
  assert (LN : length (f_slots f1) = length (f_slots f) \/
               (akeys (f_slots f1) = akeys (f_slots f) ++ [id] /\ ~ In id (akeys (f_slots f)))).
  { destruct (in_dec Nat.eq_dec id (akeys (f_slots f))) as [Hi|Hi].
    - left. apply sget_in in Hi as (v & Hv). unfold f1, s. cbn [set_last set_slots f_slots].
      rewrite (slot_of_some _ _ _ Hv), (sset_same _ _ _ Hv). reflexivity.
    - right. split; [|assumption]. unfold f1. cbn [set_last set_slots f_slots]. now apply skeys_set_new. }
  assert (M12 : MON f f2).
  { split; [exact (adv_w _ _ A2)|]. split; [exact (adv_g _ _ A2)|].
    intros k Hk. assert (k <> id) as Hn by (intros ->; contradiction).
    rewrite (LO2 k Hn). now apply L1. }
  assert (FF2 : forall k, NEW k -> FIN f2 k).
  { intros k Hk. destruct (Nat.eq_dec k id) as [->|Hn]; [assumption|].
    apply (fin_keep f1); [assumption|now apply LO2|now apply F1]. }
  assert (SG : forall k, k <> id -> sget k (f_slots f2) = sget k (f_slots f)).
  { intros k Hk. rewrite (LO2 k Hk). now apply L1. }
  assert (R0 : rest = [] -> rest2 = []) by (intros ->; now destruct rest2).
  destruct (Nateqs (s_count (slot_of id f2)) 0) as [Hz|Hz].
  - (* the slot stays empty and goes *)
    exists used, rest2, (set_slots (sdel id (f_slots f2)) f2).
    specialize (P3 Hz). subst rest2. split; [reflexivity|]. split; [|exists pp; assumption].
    assert (GD : forall k, sget k (sdel id (f_slots f2)) = if Nat.eqb k id then None else sget k (f_slots f2))
      by (intros k; apply (aget_adel Nat.eqb Nateqs)).
    constructor.
    + now apply inv_remove.
    + exact V2.
    + exact CL2.
    + intros k Hk t. cbn [set_slots f_slots f_buf]. rewrite GD. destruct (Nateqs k id); [discriminate|]. apply FF2. assumption.
    + intros k t Hk. cbn [set_slots f_slots]. rewrite GD. destruct (Nateqs k id) as [|Hn]; [discriminate|].
      rewrite (SG k Hn). intros Et. split; [apply (CN k t Hk Hn Et)|now right].
    + cbn [set_slots f_slots]. destruct MO as [(LT & E)|(_ & _ & t & Et & Hc)].
      * destruct LN as [HL|[HL NI]].
        { exfalso. assert (NI : ~ In id (akeys (f_slots f))) by (intros H; apply LT in H; lia).
          rewrite <- !akeys_len in HL. unfold f1 in HL. cbn [set_last set_slots f_slots] in HL.
          rewrite (skeys_set_new _ _ _ NI), app_length in HL. cbn in HL. lia. }
        rewrite <- akeys_len. rewrite (akeys_sdel_snoc _ id (akeys (f_slots f))); [rewrite akeys_len; lia|assumption|congruence].
      * exfalso. unfold s in SCN. rewrite (slot_of_some _ _ _ Et) in SCN. lia.
    + now left.
    + auto.
    + destruct M12 as (B1 & B2 & B3). split; [assumption|]. split; [assumption|].
      intros k Hk. cbn [set_slots f_slots]. rewrite GD. destruct (Nateqs k id) as [->|]; [contradiction|auto].
  - assert (C2 : forall k t, NEW k -> sget k (f_slots f2) = Some t ->
              1 <= s_count t /\ (s_count t = V \/ In k (if push then nf ++ [id] else nf) \/ rest2 = [])).
    { intros k t Hk Et. destruct (Nat.eq_dec k id) as [->|Hn].
      - rewrite (slot_of_some _ _ _ Et) in *. split; [lia|]. destruct push.
        + right. left. apply in_or_app. right. now left.
        + destruct (P1 eq_refl); auto.
      - rewrite (SG k Hn) in Et. destruct (CN k t Hk Hn Et) as [H1 [H2|[H2|H2]]]; (split; [assumption|]); auto.
        right. left. destruct push; [apply in_or_app; now left|assumption]. }
    assert (NF2 : forall k, In k (if push then nf ++ [id] else nf) -> NEW k /\ exists t, sget k (f_slots f2) = Some t /\ 1 <= s_count t < V).
    { intros k Hk. assert (In k nf \/ (push = true /\ k = id)) as [H|[H ->]].
      { destruct push; [|now left]. apply in_app_or in Hk as [Hk|[<-|[]]]; auto. }
      - destruct (NF k H) as (N1 & t & Et & Hc). split; [assumption|]. exists t. rewrite SG; [auto|].
        intros ->. inversion ND; contradiction.
      - split; [assumption|]. exists (slot_of id f2). split; [assumption|]. specialize (P2 H). lia. }
    assert (ND2 : NoDup (if push then nf ++ [id] else nf)).
    { inversion ND; subst. destruct push; [now apply nodup_snoc|assumption]. }
    assert (FU : rest = [] /\ push = false \/ 2 * length rest2 + length (if push then nf ++ [id] else nf) < 2 * length rest + length nf).
    { destruct rest as [|x rest]; [left; split; [reflexivity|now apply PN]|right].
      assert (length rest2 < length (x :: rest)) by (apply LT2; discriminate).
      destruct push; rewrite ?app_length; cbn [length] in *; lia. }
    assert (LEN2 : length (f_slots f2) = length (f_slots f1)) by (rewrite <- !akeys_len; now rewrite K1).
    set (nf2 := if push then nf ++ [id] else nf) in *.
    destruct rem as [|rem].
    + assert (LSC : length (f_slots f2) = SC).
      { rewrite LEN2. destruct LN as [HL|[HL NI]].
        - rewrite HL. destruct MO as [(LT & E)|(_ & E & _)]; [|assumption]. exfalso.
          assert (NI : ~ In id (akeys (f_slots f))) by (intros H; apply LT in H; lia).
          rewrite <- !akeys_len in HL. unfold f1 in HL. cbn [set_last set_slots f_slots] in HL.
          rewrite (skeys_set_new _ _ _ NI), app_length in HL. cbn in HL. lia.
        - rewrite <- akeys_len, HL, app_length, akeys_len. cbn [length]. destruct MO as [(LT & E)|(_ & E & t & Et & _)]; [lia|].
          destruct NI. apply sget_in. eauto. }
      destruct nf2 as [|n nf3] eqn:En.
      * exists (id :: used), rest2, f2. split; [reflexivity|]. split; [|exists pp; assumption].
        constructor; auto.
        -- intros k t Hk Et. destruct (C2 k t Hk Et) as [H1 [H2|[[]|H2]]]; auto.
        -- rewrite LSC. reflexivity.
        -- intros k [<-|Hk]; auto.
      * assert (P' : S1P SC n 0 nf3 rest2 f2).
        { constructor; auto.
          - apply (NF2 n). now left.
          - intros k t Hk Hn Et. destruct (C2 k t Hk Et) as [H1 [H2|[[H2|H2]|H2]]]; auto; congruence.
          - intros k Hk. apply NF2. now right.
          - right. split; [reflexivity|]. split; [assumption|]. apply (NF2 n). now left. }
        destruct (IH n 0 nf3 (id :: used) rest2 f2 HV P') as (u' & r' & f' & E & Q & (p2 & E2)).
        { cbn [length] in FU. destruct FU as [[-> ->]|FU]; [|lia]. rewrite (R0 eq_refl).
          assert (length nf = S (length nf3)) by (unfold nf2 in En; rewrite En; reflexivity). cbn [length] in *. lia. }
        exists u', r', f'. split; [exact E|]. split; [|exists (pp ++ p2); now rewrite <- app_assoc, <- E2].
        destruct Q as [Q1 Q2 Qc Q3 Q4 Q5 Q6 Q7 Q8]. constructor; auto.
        -- intros k Hk. destruct (Q7 k Hk) as [[<-|H]|H]; auto.
        -- now apply (mon_trans _ f2).
    + destruct MO as [(LT & E)|(E & _)]; [|discriminate].
      assert (NI : ~ In id (akeys (f_slots f))) by (intros H; apply LT in H; lia).
      assert (KN : akeys (f_slots f2) = akeys (f_slots f) ++ [id]).
      { rewrite K1. unfold f1. cbn [set_last set_slots f_slots]. now apply skeys_set_new. }
      assert (KL : forall k, In k (akeys (f_slots f2)) -> k < S id).
      { intros k. rewrite KN. intros Hk. apply in_app_or in Hk as [Hk|[<-|[]]]; [apply LT in Hk|]; lia. }
      assert (P' : S1P SC (S id) rem nf2 rest2 f2).
      { constructor; auto.
        - intros H. apply (si_grow _ _ _ (proj2 I2)) in H. apply KL in H. lia.
        - constructor; [|assumption]. intros H. destruct (NF2 _ H) as (_ & t & Et & _).
          assert (In (S id) (akeys (f_slots f2))) as HH by (apply sget_in; eauto). apply KL in HH. lia.
        - left. split; [assumption|]. rewrite <- (akeys_len (f_slots f2)), KN, app_length, akeys_len. cbn. lia. }
      destruct (IH (S id) rem nf2 (id :: used) rest2 f2 HV P') as (u' & r' & f' & E' & Q & (p2 & E2)).
      { destruct FU as [[-> ->]|FU]; [|lia]. rewrite (R0 eq_refl).
        (* an empty rest leaves the slot empty *)
        exfalso. cbn [walk1] in Ew. injection Ew as _ <-. rewrite SC1 in Hz. apply Hz.
        unfold s. rewrite (slot_of_none _ _ NI). reflexivity. }
      exists u', r', f'. split; [exact E'|]. split; [|exists (pp ++ p2); now rewrite <- app_assoc, <- E2].
      destruct Q as [Q1 Q2 Qc Q3 Q4 Q5 Q6 Q7 Q8]. constructor; auto.
      * intros k Hk. destruct (Q7 k Hk) as [[<-|H]|H]; auto.
      * now apply (mon_trans _ f2).
Qed.
End Loops.
