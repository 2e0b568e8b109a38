(** C90: what the toleration of events means. *)
From Verif Require Import MoModel.
From Coq Require Import List NArith Bool Arith Lia ZifyN ZifyNat ZifyBool.
Import ListNotations.
Local Open Scope N_scope.

(** *** The specification *)
(** the latest moment of a list of keys *)
Definition latest (l : list key) : N := fold_left (fun m k => N.max m (k_time k)) l 0.
(** the events of the window which ends at the latest one *)
Definition in_window (win : N) (l : list key) : list key :=
  filter (fun x => latest l - win <=? k_time x) l.

Lemma key_eqb_spec a b : reflect (a = b) (key_eqb a b).
Proof.
  destruct a as [t q], b as [t' q']. unfold key_eqb; cbn.
  destruct (N.eqb_spec t t'), (N.eqb_spec q q'); cbn; constructor; congruence.
Qed.
Definition klt (a b : key) : Prop := key_leb b a = false.
Lemma klt_trans a b c : klt a b -> klt b c -> klt a c.
Proof. unfold klt, key_leb. lia. Qed.
Lemma klt_total a b : a <> b -> klt a b \/ klt b a.
Proof.
  destruct a as [t q], b as [t' q']. unfold klt, key_leb; cbn. intros H.
  destruct (N.eq_dec t t') as [->|], (N.eq_dec q q') as [->|]; try congruence; lia.
Qed.
Lemma klt_irr a : ~ klt a a.
Proof. unfold klt, key_leb. lia. Qed.
Lemma klt_time a b : klt a b -> k_time a <= k_time b.
Proof. unfold klt, key_leb. lia. Qed.

Lemma latest_snoc l k : latest (l ++ [k]) = N.max (latest l) (k_time k).
Proof. unfold latest. now rewrite fold_left_app. Qed.
Lemma latest_ge l x : In x l -> k_time x <= latest l.
Proof.
  induction l as [|y l IH] using rev_ind; [contradiction|]. rewrite latest_snoc, in_app_iff. cbn. intros [H|[->|[]]]; [|lia].
  specialize (IH H). lia.
Qed.

Lemma min_key_gen l : forall k, let m := min_key k l in (m = k \/ In m l) /\ forall x, x = k \/ In x l -> x = m \/ klt m x.
Proof.
  unfold min_key. induction l as [|y l IH]; intros k; cbn.
  - split; [auto|]. intros x [->|[]]. auto.
  - destruct (IH (if key_leb k y then k else y)) as [A B]. set (m := fold_left _ l _) in *. clearbody m.
    destruct (key_leb k y) eqn:K.
    + split; [destruct A; auto|]. intros x [->|[->|H]]; auto.
      destruct (B k) as [<-|B1]; auto.
      * destruct (key_eqb_spec x k) as [|NE]; [auto|]. destruct (klt_total x k NE) as [L|L]; [|auto].
        unfold klt in L. congruence.
      * destruct (key_eqb_spec x k) as [->|NE]; [auto|]. destruct (klt_total x k NE) as [L|L].
        -- unfold klt in L. congruence.
        -- right. eapply klt_trans; eauto.
    + split; [destruct A; auto|]. intros x [->|[->|H]]; auto.
      destruct (B y) as [<-|B1]; auto. right. eapply klt_trans; eauto.
Qed.
Lemma min_key_in k l : In k l -> In (min_key k l) l /\ forall x, In x l -> x = min_key k l \/ klt (min_key k l) x.
Proof.
  intros H. destruct (min_key_gen l k) as [[->|A] B]; split; auto.
Qed.

Lemma nodup_filter {A} (f : A -> bool) l : NoDup l -> NoDup (filter f l).
Proof. induction 1; cbn; [constructor|]. destruct (f x); [|assumption]. constructor; [|assumption]. rewrite filter_In. tauto. Qed.
Lemma filter_le {A} (f : A -> bool) l : (length (filter f l) <= length l)%nat.
Proof. induction l; cbn; [lia|]. destruct (f a); cbn; lia. Qed.
Lemma filter_all {A} (f : A -> bool) l : (length l <= length (filter f l))%nat -> filter f l = l.
Proof.
  induction l; cbn; [reflexivity|]. pose proof (filter_le f l). destruct (f a); cbn; intros H1; [|lia].
  rewrite IHl; [reflexivity|lia].
Qed.
Lemma remove_len l m : NoDup l -> In m l -> S (length (filter (fun x => negb (key_eqb x m)) l)) = length l.
Proof.
  induction l as [|y l IH]; [contradiction|]. intros D [->|H]; inversion D; subst; cbn.
  - destruct (key_eqb_spec m m); [cbn|congruence]. f_equal.
    assert (X : filter (fun x => negb (key_eqb x m)) l = l); [|now rewrite X].
    clear -H1. induction l as [|z l IH]; cbn; [reflexivity|]. destruct (key_eqb_spec z m) as [->|]; cbn.
    + exfalso. apply H1. now left.
    + rewrite IH; [reflexivity|]. intros K. apply H1. now right.
  - destruct (key_eqb_spec y m) as [->|]; [contradiction|]. cbn. now rewrite IH.
Qed.

(** The events kept are the newest of the window, as many as are tolerated. *)
Definition kept (win : N) (cnt : nat) (l : list key) (h : hist) : Prop :=
  (h_last h = match l with [] => None | _ => Some (latest l) end) /\
  NoDup (h_tol h) /\ incl (h_tol h) (in_window win l) /\ (length (h_tol h) <= cnt)%nat /\
  forall x, In x (in_window win l) -> ~ In x (h_tol h) -> length (h_tol h) = cnt /\ forall y, In y (h_tol h) -> klt x y.

Lemma kept_empty win cnt : kept win cnt [] h_empty.
Proof. unfold kept, in_window; cbn. repeat apply conj; auto; try constructor; try lia; try (intros x []); contradiction. Qed.

Lemma in_window_spec win l x : In x (in_window win l) <-> In x l /\ latest l - win <= k_time x.
Proof. unfold in_window. rewrite filter_In, N.leb_le. tauto. Qed.

Lemma kept_step win cnt c l k h : c_tol c = Some (win, cnt) -> NoDup (l ++ [k]) -> kept win cnt l h ->
  let '(h', u) := maybe_ban_until c k h in
  kept win cnt (l ++ [k]) h' /\
  u = if (latest (l ++ [k]) - win <=? k_time k) && (cnt <? length (in_window win (l ++ [k])))%nat
      then Some (latest (l ++ [k]) + c_dur c) else None.
Proof.
  intros EC ND (HL & HN & HI & HC & HT). unfold maybe_ban_until. rewrite EC.
  assert (LAST : match h_last h with None => k_time k | Some m => N.max m (k_time k) end = latest (l ++ [k])).
  { rewrite HL, latest_snoc. destruct l; [cbn; lia|reflexivity]. }
  rewrite LAST. set (L := latest (l ++ [k])) in *.
  assert (LG : latest l <= L) by (subst L; rewrite latest_snoc; lia).
  assert (HLast : Some L = match l ++ [k] with [] => None | _ => Some (latest (l ++ [k])) end) by (destruct l; reflexivity).
  assert (NK : ~ In k l). { apply NoDup_remove_2 in ND. now rewrite app_nil_r in ND. }
  assert (NL : NoDup l). { apply NoDup_remove_1 in ND. now rewrite app_nil_r in ND. }
  assert (NT : ~ In k (h_tol h)). { intros H. apply HI, in_window_spec in H. tauto. }
  destruct (N.leb_spec (L - win) (k_time k)) as [FK|OLD]; cbn [andb].
  - set (fresh := fun x => L - win <=? k_time x).
    assert (EK : existsb (key_eqb k) (h_tol h) = false).
    { destruct (existsb (key_eqb k) (h_tol h)) eqn:E; [|reflexivity]. apply existsb_exists in E as (y & Y & E).
      destruct (key_eqb_spec k y); [subst; contradiction|discriminate]. }
    rewrite EK. cbn [filter]. replace (fresh k) with true by (symmetry; apply N.leb_le; exact FK).
    set (t := filter fresh (h_tol h)).
    assert (IW : forall x, In x (in_window win (l ++ [k])) <-> x = k \/ (In x (in_window win l) /\ fresh x = true)).
    { intros x. rewrite !in_window_spec, in_app_iff. fold L. unfold fresh. rewrite N.leb_le. cbn. split.
      - intros [[H|[->|[]]] H2]; [right|now left]. repeat split; auto. lia.
      - intros [->|[[H1 H2] H3]]; auto. }
    assert (NW : NoDup (in_window win (l ++ [k]))) by now apply nodup_filter.
    assert (NDT : NoDup (k :: t)).
    { constructor; [|now apply nodup_filter]. unfold t. rewrite filter_In. tauto. }
    assert (SUB : incl (k :: t) (in_window win (l ++ [k]))).
    { intros x [<-|H]; apply IW; [now left|]. unfold t in H. apply filter_In in H as [H1 H2]. right. auto. }
    assert (LE : (length t <= length (h_tol h))%nat) by apply filter_le.
    (* what is in the window and not kept *)
    assert (OUT : forall x, In x (in_window win (l ++ [k])) -> ~ In x (k :: t) ->
              t = h_tol h /\ length t = cnt /\ forall y, In y t -> klt x y).
    { intros x X NX. apply IW in X as [->|[X1 X2]]; [exfalso; apply NX; now left|].
      assert (X3 : ~ In x (h_tol h)). { intros H. apply NX. right. apply filter_In. auto. }
      destruct (HT x X1 X3) as [C1 C2].
      assert (ET : t = h_tol h).
      { apply filter_all. assert (A : forall y, In y (h_tol h) -> fresh y = true).
        { intros y Y. specialize (C2 y Y). apply klt_time in C2. unfold fresh in *. apply N.leb_le in X2. apply N.leb_le. lia. }
        clear -A. induction (h_tol h) as [|y r IH]; cbn; [lia|]. rewrite (A y (or_introl eq_refl)). cbn.
        apply le_n_S, IH. intros z Z. apply A. now right. }
      rewrite ET. auto. }
    assert (CNT : (cnt <? length (k :: t))%nat = (cnt <? length (in_window win (l ++ [k])))%nat).
    { pose proof (NoDup_incl_length NDT SUB) as B1.
      destruct (Nat.ltb_spec cnt (length (k :: t))), (Nat.ltb_spec cnt (length (in_window win (l ++ [k])))); try reflexivity; [lia|].
      exfalso. assert (B2 : incl (in_window win (l ++ [k])) (k :: t)).
      { intros x X. destruct (in_dec (fun a b => reflect_dec _ _ (key_eqb_spec a b)) x (k :: t)) as [|NX]; [assumption|].
        destruct (OUT x X NX) as (_ & C & _). cbn in H. lia. }
      pose proof (NoDup_incl_length NW B2). lia. }
    destruct (cnt <? length (k :: t))%nat eqn:EC2; rewrite <- CNT.
    + split; [|reflexivity]. apply Nat.ltb_lt in EC2. cbn in EC2.
      assert (LT : length t = cnt) by lia. assert (ET : t = h_tol h).
      { apply filter_all. fold t. lia. }
      destruct (min_key_in k (k :: t) (or_introl eq_refl)) as [M1 M2]. set (m := min_key k (k :: t)) in *.
      pose proof (remove_len _ _ NDT M1) as RL. cbn [length] in RL. rewrite LT in RL.
      set (t' := filter (fun x => negb (key_eqb x m)) (k :: t)) in *.
      assert (IT : forall x, In x t' <-> In x (k :: t) /\ x <> m).
      { intros x. unfold t'. rewrite filter_In, negb_true_iff. destruct (key_eqb_spec x m); split; intros [? ?]; split; congruence. }
      unfold kept. cbn [h_last h_tol]. repeat apply conj.
      * exact HLast.
      * now apply nodup_filter.
      * intros x X. apply IT in X. now apply SUB.
      * lia.
      * intros x X NX. split; [lia|]. intros y Y. apply IT in Y as [Y1 Y2].
        assert (MY : klt m y) by (destruct (M2 y Y1) as [|]; [contradiction|assumption]).
        destruct (key_eqb_spec x m) as [->|NM]; [assumption|].
        assert (NX2 : ~ In x (k :: t)) by (intros H; apply NX, IT; auto).
        destruct (OUT x X NX2) as (_ & _ & OL).
        destruct M1 as [MK|MT].
        -- destruct Y1 as [<-|Y1]; [congruence|]. now apply OL.
        -- eapply klt_trans; [apply OL; exact MT|exact MY].
    + split; [|reflexivity]. apply Nat.ltb_ge in EC2. unfold kept. cbn [h_last h_tol]. repeat apply conj; auto.
      intros x X NX. destruct (OUT x X NX) as (_ & C & _). cbn in EC2. lia.
  - split; [|reflexivity].
    assert (LM : L = N.max (latest l) (k_time k)) by apply latest_snoc.
    assert (LE : L = latest l) by lia.
    assert (IW : forall x, In x (in_window win (l ++ [k])) <-> In x (in_window win l)).
    { intros x. rewrite !in_window_spec, in_app_iff. fold L. rewrite LE. cbn. split; [|tauto].
      intros [[H|[->|[]]] H2]; [auto|]. lia. }
    unfold kept. cbn [h_last h_tol]. repeat apply conj; auto.
    + intros x X. apply IW. now apply HI.
    + intros x X. apply HT. now apply IW.
Qed.

(** what becomes of a history of events *)
Definition replay (c : conf_value) (l : list key) : hist := fold_left (fun h k => fst (maybe_ban_until c k h)) l h_empty.

Lemma replay_kept win cnt c l : c_tol c = Some (win, cnt) -> NoDup l -> kept win cnt l (replay c l).
Proof.
  intros EC. induction l as [|k l IH] using rev_ind; intros ND; [apply kept_empty|].
  unfold replay. rewrite fold_left_app. cbn. fold (replay c l).
  assert (NL : NoDup l). { apply NoDup_remove_1 in ND. now rewrite app_nil_r in ND. }
  pose proof (kept_step win cnt c l k (replay c l) EC ND (IH NL)) as H.
  destruct (maybe_ban_until c k (replay c l)) as [h u]. apply H.
Qed.
(** An event leads to a ban exactly if it is not older than the window which ends at the latest event, and the
    events of that window, it included, are more than are tolerated; the ban lasts from the latest event.
    The order in which the events arrive does not matter. *)
Theorem ban_iff_too_many : forall c win cnt l k, c_tol c = Some (win, cnt) -> NoDup (l ++ [k]) ->
  snd (maybe_ban_until c k (replay c l)) =
    if (latest (l ++ [k]) - win <=? k_time k) && (cnt <? length (in_window win (l ++ [k])))%nat
    then Some (latest (l ++ [k]) + c_dur c) else None.
Proof.
  intros c win cnt l k EC ND. assert (NL : NoDup l). { apply NoDup_remove_1 in ND. now rewrite app_nil_r in ND. }
  pose proof (kept_step win cnt c l k _ EC ND (replay_kept win cnt c l EC NL)) as H.
  destruct (maybe_ban_until c k (replay c l)) as [h u]. apply H.
Qed.
Lemma replay_last c l : h_last (replay c l) = match l with [] => None | _ => Some (latest l) end.
Proof.
  induction l as [|k l IH] using rev_ind; [reflexivity|].
  unfold replay. rewrite fold_left_app. cbn [fold_left]. fold (replay c l).
  assert (X : match h_last (replay c l) with None => k_time k | Some m => N.max m (k_time k) end = latest (l ++ [k])).
  { rewrite IH, latest_snoc. destruct l; [cbn; lia|reflexivity]. }
  assert (Y : h_last (fst (maybe_ban_until c k (replay c l))) = Some (latest (l ++ [k]))).
  { unfold maybe_ban_until. rewrite X. destruct (c_tol c) as [[win cnt]|]; [|reflexivity].
    destruct (_ <=? _); [|reflexivity]. now destruct (_ <? _)%nat. }
  rewrite Y. now destruct l.
Qed.
(** Without toleration every event leads to a ban. *)
Theorem ban_at_once : forall c l k, c_tol c = None ->
  snd (maybe_ban_until c k (replay c l)) = Some (latest (l ++ [k]) + c_dur c).
Proof.
  intros c l k E. unfold maybe_ban_until. rewrite E. cbn. rewrite replay_last, latest_snoc. destruct l; [cbn|reflexivity].
  f_equal. lia.
Qed.
(** No more keys are held than are tolerated, so the assertion on entry never fails. *)
Theorem held_keys_bounded : forall c win cnt l, c_tol c = Some (win, cnt) -> NoDup l ->
  (length (h_tol (replay c l)) <= cnt)%nat.
Proof. intros c win cnt l E N. now destruct (replay_kept win cnt c l E N) as (_ & _ & _ & H & _). Qed.
(** Events older than every window from now on may be forgotten: the answer to a later event is the same. *)
Theorem old_events_may_be_forgotten : forall c win cnt l k since, c_tol c = Some (win, cnt) -> NoDup (l ++ [k]) ->
  since + win <= k_time k ->
  snd (maybe_ban_until c k (replay c (filter (fun x => since <=? k_time x) l))) = snd (maybe_ban_until c k (replay c l)).
Proof.
  intros c win cnt l k since E ND S. set (l' := filter _ l).
  assert (ND' : NoDup (l' ++ [k])).
  { replace (l' ++ [k]) with (filter (fun x => since <=? k_time x) (l ++ [k])); [now apply nodup_filter|].
    rewrite filter_app. cbn. destruct (N.leb_spec since (k_time k)); [reflexivity|lia]. }
  rewrite (ban_iff_too_many c win cnt l k E ND), (ban_iff_too_many c win cnt l' k E ND').
  assert (LL : latest (l' ++ [k]) = latest (l ++ [k])).
  { rewrite !latest_snoc. subst l'. clear - S. induction l as [|x l IH] using rev_ind; [reflexivity|].
    rewrite filter_app, latest_snoc. cbn. destruct (N.leb_spec since (k_time x)).
    - rewrite latest_snoc. lia.
    - rewrite app_nil_r. lia. }
  rewrite LL. replace (in_window win (l' ++ [k])) with (in_window win (l ++ [k])); [reflexivity|].
  unfold in_window. rewrite LL. set (L := latest (l ++ [k])).
  assert (k_time k <= L) by (apply latest_ge, in_or_app; right; now left). clearbody L.
  rewrite !filter_app. f_equal. subst l'. clear ND ND' LL.
  induction l as [|x l IH]; cbn; [reflexivity|].
  destruct (N.leb_spec (L - win) (k_time x)), (N.leb_spec since (k_time x)); cbn; rewrite ?IH; try reflexivity; try lia.
  - destruct (N.leb_spec (L - win) (k_time x)); [reflexivity|lia].
  - destruct (N.leb_spec (L - win) (k_time x)); [lia|reflexivity].
Qed.
