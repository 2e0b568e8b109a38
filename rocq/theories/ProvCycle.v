(** * The cycle combinator: proofs (C49). *)
From Coq Require Import List NArith Bool Lia ZArith ZifyN ZifyBool.
From Verif Require Import ProvModel ProvSpec.
Import ListNotations.
Open Scope N_scope.

Definition fprev (f : kfut) : N := match f with KNew p | KAsk p _ => p | KGot n _ => n - 1 end.

Definition kprev (e : kev) : N :=
  match e with KEAsk p _ | KENone p _ => p | KEGot n _ => n - 1 | KEBlock m _ | KEClean m => m end.

Record kinv (s : kst) : Prop := MkKinv {
  ki_tr : ktr_ok (ks_tr s);
  ki_le : forall e, In e (ks_tr s) -> kprev e <= fprev (ks_fut s);
  ki_pos : forall n x, gave (ks_tr s) n x -> 0 < n;
  ki_uniq : forall n x y, gave (ks_tr s) n x -> gave (ks_tr s) n y -> x = y;
  ki_at : k_at (ks_s s) = pmax \/
          (k_at (ks_s s) = fprev (ks_fut s) + 1 /\ none_for (ks_tr s) (fprev (ks_fut s))) \/
          (k_at (ks_s s) = fprev (ks_fut s) /\ ks_work s = Some (fprev (ks_fut s)) /\
           none_for (ks_tr s) (fprev (ks_fut s) - 1) /\ ~ none_for (ks_tr s) (fprev (ks_fut s)));
  ki_fut : match ks_fut s with
           | KNew p => ~ none_for (ks_tr s) p /\ (forall x, ~ In (KEAsk p x) (ks_tr s)) /\
                       (forall x, ~ gave (ks_tr s) (p + 1) x) /\
                       (forall y, gave (ks_tr s) p y -> k_choose (ks_s s) p = y)
           | KAsk p x => k_choose (ks_s s) (p + 1) = x /\
                         (forall y, ~ gave (ks_tr s) (p + 1) y) /\
                         exists a b, ks_tr s = a ++ KEAsk p x :: b /\ forall q y, ~ In (KEAsk q y) a
           | KGot n x => 0 < n /\ k_choose (ks_s s) n = x /\ gave (ks_tr s) n x
           end;
  ki_work : forall m, ks_work s = Some m ->
            m = fprev (ks_fut s) /\ exists y, gave (ks_tr s) m y /\
            ((k_at (ks_s s) = m /\ flip (k_cur (ks_s s)) = y) \/
             (k_at (ks_s s) = pmax /\ k_cur (ks_s s) = y) \/
             (k_at (ks_s s) = m + 1 /\ k_cur (ks_s s) = y) \/
             (none_for (ks_tr s) m /\ none_for (ks_tr s) (m - 1))) }.

Lemma choose_max c n : k_choose (MkK c pmax) n = c.
Proof. unfold k_choose. cbn [k_at k_cur]. rewrite N.eqb_refl. reflexivity. Qed.
Lemma choose_le c a n : a <> pmax -> a <= n -> k_choose (MkK c a) n = flip c.
Proof. intros A B. unfold k_choose. cbn [k_at k_cur]. replace (a =? pmax) with false by lia. replace (a <=? n) with true by lia. reflexivity. Qed.
Lemma choose_gt c a n : n < a -> k_choose (MkK c a) n = c.
Proof. intros A. unfold k_choose. cbn [k_at k_cur]. replace (a <=? n) with false by lia. rewrite andb_false_r. reflexivity. Qed.

Lemma none_cons e l p : (forall q x, e <> KENone q x) -> none_for (e :: l) p <-> none_for l p.
Proof.
  intros H. unfold none_for. split; intros (x&Hx).
  - destruct Hx as [Hx|Hx]; [destruct (H _ _ Hx)|eauto].
  - exists x. right. exact Hx.
Qed.

Lemma kinv0 z : kinv (kst0 z).
Proof.
  constructor; cbn; auto.
  - intros e [].
  - intros n x [].
  - intros n x y [].
  - split; [intros (x&[])|]. split; [intros x []|]. split; [intros x []|intros y []].
  - intros m E. discriminate E.
Qed.


Ltac kn := try (rewrite !none_cons by (intros ? ? X; discriminate X)).
Ltac kf := cbn [ks_s ks_fut ks_work ks_tr k_cur k_at fprev kprev] in *.

Lemma at_small p at_ : p + 1 < pmax ->
  at_ = pmax \/ at_ <= p + 1 -> (at_ =? pmax) = true /\ at_ = pmax \/ (at_ =? pmax) = false /\ at_ <= p + 1.
Proof. intros A [->|B]; [left|right]; lia. Qed.

Lemma kinv_poll s s' : fprev (ks_fut s') + 1 < pmax -> kinv s -> kstep s KPoll = Some s' -> kinv s'.
Proof.
  intros Hb I E. destruct I as [Itr Ile Ipos Iu Iat If Iw].
  destruct s as [[c at_] f w tr]. kf. cbn [kstep ks_fut ks_work ks_s ks_tr] in E.
  destruct f as [p|p x|n x]; try discriminate E.
  injection E as <-. kf. destruct If as (F1&F2&F3&F4).
  assert (Hat : k_choose (MkK c at_) (p + 1) = k_choose (MkK c at_) p).
  { destruct Iat as [->|[(_&X)|(->&_)]]; [rewrite !choose_max; reflexivity|contradiction|].
    rewrite !choose_le by lia. reflexivity. }
  constructor; kf.
  - split; [|exact Itr]. split; [intros _ y Hy; apply F4, Hy|intros X; contradiction].
  - intros e [<-|He]; [cbn; lia|exact (Ile e He)].
  - intros k y [Hk|Hk]; [discriminate Hk|exact (Ipos _ _ Hk)].
  - intros k y1 y2 [H1|H1] [H2|H2]; try discriminate; exact (Iu _ _ _ H1 H2).
  - kn. exact Iat.
  - split; [exact Hat|]. split; [intros y [Hy|Hy]; [discriminate Hy|exact (F3 _ Hy)]|].
    exists [], tr. split; [reflexivity|intros q y []].
  - intros m0 Em. destruct (Iw _ Em) as (Y1&y&Y2&Y3). split; [exact Y1|]. exists y.
    split; [right; exact Y2|]. kn. exact Y3.
Qed.

Lemma kinv_some s s' : fprev (ks_fut s') + 1 < pmax -> kinv s -> kstep s KSome = Some s' -> kinv s'.
Proof.
  intros Hb I E. destruct I as [Itr Ile Ipos Iu Iat If Iw].
  destruct s as [[c at_] f w tr]. kf. cbn [kstep ks_fut ks_work ks_s ks_tr] in E.
  destruct f as [p|p x|n x]; try discriminate E.
  injection E as <-. kf. destruct If as (F1&F2&F3).
  replace (p + 1 - 1) with p in * by lia.
  constructor; kf; replace (p + 1 - 1) with p in * by lia.
  - split; [|exact Itr]. destruct F3 as (a&b&Ha&Hn). exists p, a, b. auto.
  - intros e [<-|He]; [cbn; lia|exact (Ile e He)].
  - intros k y [Hk|Hk]; [injection Hk as <- _; lia|exact (Ipos _ _ Hk)].
  - intros k y1 y2 [H1|H1] [H2|H2].
    + congruence.
    + injection H1 as <- _. destruct (F2 _ H2).
    + injection H2 as <- _. destruct (F2 _ H1).
    + exact (Iu _ _ _ H1 H2).
  - kn. exact Iat.
  - split; [lia|]. split; [exact F1|left; reflexivity].
  - intros m0 Em. destruct (Iw _ Em) as (Y1&y&Y2&Y3). split; [exact Y1|]. exists y.
    split; [right; exact Y2|]. kn. exact Y3.
Qed.

Lemma psat1_small p : p + 1 < pmax -> psat1 p = p + 1.
Proof. intros H. unfold psat1. replace (p <? pmax) with true by lia. reflexivity. Qed.

Lemma flip_flip x : flip (flip x) = x.
Proof. destruct x; reflexivity. Qed.

Lemma none2 l p x y q : none_for (KEAsk p x :: KENone p y :: l) q <-> q = p \/ none_for l q.
Proof.
  rewrite none_cons by (intros ? ? X; discriminate X). unfold none_for. split.
  - intros (z&[Hz|Hz]); [injection Hz as -> _; auto|eauto].
  - intros [->|(z&Hz)]; [exists y; left; reflexivity|exists z; right; exact Hz].
Qed.

Lemma kinv_none s s' : fprev (ks_fut s') + 1 < pmax -> kinv s -> kstep s KNone = Some s' -> kinv s'.
Proof.
  intros Hb I E. destruct I as [Itr Ile Ipos Iu Iat If Iw].
  destruct s as [[c at_] f w tr]. kf. cbn [kstep ks_fut ks_work ks_s ks_tr] in E.
  destruct f as [p|p x|n x]; try discriminate E.
  destruct (k_toggle (MkK c at_) (psat1 p)) as [st y] eqn:Ek.
  injection E as <-. kf. destruct If as (F1&F2&F3).
  rewrite (psat1_small p Hb) in Ek. unfold k_toggle in Ek. cbn [k_at k_cur] in Ek.
  assert (Hx : y = flip x /\ k_choose st (p + 1) = y /\ k_cur st = c /\
               (at_ = pmax /\ k_at st = p + 1 \/ at_ <> pmax /\ k_at st = pmax)).
  { destruct (at_ =? pmax) eqn:Em; injection Ek as <- <-; cbn [k_at k_cur].
    - apply N.eqb_eq in Em. subst at_. rewrite choose_max in F1. subst x.
      split; [reflexivity|]. rewrite choose_le by lia. auto.
    - apply N.eqb_neq in Em. rewrite choose_max. split; [|auto].
      rewrite choose_le in F1; [|exact Em|destruct Iat as [?|[(?&_)|(?&_)]]; lia]. subst x. symmetry. apply flip_flip. }
  destruct Hx as (Hy&Hc&Hcur&Hat).
  constructor; kf.
  - split; [|split; [exact F3|exact Itr]]. split.
    + intros Hn. exfalso. apply Hn. exists x. left. reflexivity.
    + intros _. exists tr. rewrite Hy, flip_flip. reflexivity.
  - intros e [<-|[<-|He]]; [cbn; lia|cbn; lia|exact (Ile e He)].
  - intros k z [Hk|[Hk|Hk]]; [discriminate Hk|discriminate Hk|exact (Ipos _ _ Hk)].
  - intros k y1 y2 [H1|[H1|H1]] [H2|[H2|H2]]; try discriminate; exact (Iu _ _ _ H1 H2).
  - destruct Hat as [(_&->)|(_&->)]; [|left; reflexivity]. right. left. split; [reflexivity|]. apply none2. left. reflexivity.
  - split; [exact Hc|]. split; [intros z [Hz|[Hz|Hz]]; [discriminate Hz|discriminate Hz|exact (F2 _ Hz)]|].
    exists [], (KENone p x :: tr). split; [reflexivity|intros q z []].
  - intros m0 Em. destruct (Iw _ Em) as (Y1&z&Y2&Y3). split; [exact Y1|]. exists z.
    split; [right; right; exact Y2|]. subst m0. rewrite Hcur. rewrite !none2. destruct Y3 as [(A&B)|[(A&B)|[(A&B)|(A&B)]]].
    + right. right. right. split; [left; reflexivity|]. right.
      destruct Iat as [Z|[(Z&_)|(_&_&Z&_)]]; [lia|lia|exact Z].
    + destruct Hat as [(_&->)|(Z&_)]; [|contradiction]. right. right. left. auto.
    + destruct Hat as [(Z&_)|(_&->)]; [lia|]. right. left. auto.
    + right. right. right. auto.
Qed.

Lemma kinv_take s s' : fprev (ks_fut s') + 1 < pmax -> kinv s -> kstep s KTake = Some s' -> kinv s'.
Proof.
  intros Hb I E. destruct I as [Itr Ile Ipos Iu Iat If Iw].
  destruct s as [[c at_] f w tr]. kf. cbn [kstep ks_fut ks_work ks_s ks_tr] in E.
  destruct f as [p|p x|n x]; try discriminate E. destruct w as [m|]; [discriminate E|].
  injection E as <-. kf. destruct If as (F1&F2&F3).
  assert (Nn : forall k, n <= k -> ~ none_for tr k) by (intros k Hk (z&Hz); specialize (Ile _ Hz); cbn in Ile; lia).
  constructor; kf; auto.
  - intros e He. specialize (Ile e He). lia.
  - destruct Iat as [Z|[(Z&Z1)|(_&Z&_)]]; [auto| |discriminate Z].
    right. right. split; [lia|]. split; [reflexivity|]. split; [exact Z1|apply Nn; lia].
  - split; [apply Nn; lia|]. split; [intros z Hz; specialize (Ile _ Hz); cbn in Ile; lia|].
    split; [intros z Hz; specialize (Ile _ Hz); cbn in Ile; lia|].
    intros y Hy. rewrite F2. exact (Iu _ _ _ F3 Hy).
  - intros m0 Em. injection Em as <-. split; [reflexivity|]. exists x. split; [exact F3|].
    destruct Iat as [Z|[(Z&Z1)|(_&Z&_)]]; [| |discriminate Z].
    + right. left. subst at_. rewrite choose_max in F2. auto.
    + left. rewrite choose_le in F2 by lia. split; [lia|exact F2].
Qed.

Lemma kinv_block s s' : fprev (ks_fut s') + 1 < pmax -> kinv s -> kstep s KBlock = Some s' -> kinv s'.
Proof.
  intros Hb I E. destruct I as [Itr Ile Ipos Iu Iat If Iw].
  destruct s as [[c at_] f w tr]. kf. cbn [kstep ks_fut ks_work ks_s ks_tr] in E.
  destruct w as [m|]; [|discriminate E].
  assert (E' : Some (MkKs (MkK c at_) f (Some m) (KEBlock m (k_choose (MkK c at_) m) :: tr)) = Some s') by (destruct f; exact E).
  clear E. injection E' as <-. kf.
  destruct (Iw _ eq_refl) as (Y1&y&Y2&Y3).
  constructor; kf.
  - split; [|exact Itr]. exists y. split; [exact Y2|].
    intros Hn. destruct Y3 as [(A&B)|[(A&B)|[(A&B)|(A&B)]]].
    + rewrite choose_le by lia. exact B.
    + subst at_. rewrite choose_max. exact B.
    + rewrite choose_gt by lia. exact B.
    + destruct Hn; contradiction.
  - intros e [<-|He]; [cbn; lia|exact (Ile e He)].
  - intros k z [Hk|Hk]; [discriminate Hk|exact (Ipos _ _ Hk)].
  - intros k y1 y2 [H1|H1] [H2|H2]; try discriminate; exact (Iu _ _ _ H1 H2).
  - kn. exact Iat.
  - destruct f as [p|p x|n x].
    + destruct If as (F1&F2&F3&F4). split; [kn; exact F1|]. split; [intros z [Hz|Hz]; [discriminate Hz|exact (F2 _ Hz)]|].
      split; [intros z [Hz|Hz]; [discriminate Hz|exact (F3 _ Hz)]|intros z [Hz|Hz]; [discriminate Hz|exact (F4 _ Hz)]].
    + destruct If as (F1&F2&a&b&F3&F4). split; [exact F1|].
      split; [intros z [Hz|Hz]; [discriminate Hz|exact (F2 _ Hz)]|].
      eexists (_ :: a), b. split; [rewrite F3; reflexivity|]. intros q z [Hz|Hz]; [discriminate Hz|exact (F4 _ _ Hz)].
    + destruct If as (F1&F2&F3). split; [exact F1|]. split; [exact F2|right; exact F3].
  - intros m0 Em. destruct (Iw _ Em) as (Z1&z&Z2&Z3). split; [exact Z1|]. exists z.
    split; [right; exact Z2|]. kn. exact Z3.
Qed.

Lemma kinv_clean s s' : fprev (ks_fut s') + 1 < pmax -> kinv s -> kstep s KClean = Some s' -> kinv s'.
Proof.
  intros Hb I E. destruct I as [Itr Ile Ipos Iu Iat If Iw].
  destruct s as [[c at_] f w tr]. kf. cbn [kstep ks_fut ks_work ks_s ks_tr] in E.
  destruct w as [m|]; [|discriminate E].
  assert (E' : Some (MkKs (k_apply (MkK c at_) m) f None (KEClean m :: tr)) = Some s') by (destruct f; exact E).
  clear E. injection E' as <-. kf.
  destruct (Iw _ eq_refl) as (Y1&y&Y2&Y3).
  assert (Hk : forall k, m <= k -> k_choose (k_apply (MkK c at_) m) k = k_choose (MkK c at_) k).
  { intros k Hk. unfold k_apply. cbn [k_at k_cur]. destruct (negb (at_ =? pmax) && (at_ <=? m)) eqn:Em; [|reflexivity].
    apply andb_true_iff in Em. destruct Em as [E1 E2]. rewrite choose_max, choose_le by lia. reflexivity. }
  assert (Hat : k_at (k_apply (MkK c at_) m) = pmax \/
                k_at (k_apply (MkK c at_) m) = m + 1 /\ none_for tr m).
  { unfold k_apply. cbn [k_at k_cur]. destruct (negb (at_ =? pmax) && (at_ <=? m)) eqn:Em; [left; reflexivity|].
    cbn [k_at]. destruct Iat as [Z|[(Z&Z1)|(Z&_)]]; [auto|right; subst m; auto|].
    exfalso. apply andb_false_iff in Em. destruct Em as [E1|E1]; [apply negb_false_iff in E1|]; lia. }
  constructor; kf.
  - split; [|exact Itr]. exists y. exact Y2.
  - intros e [<-|He]; [cbn; lia|exact (Ile e He)].
  - intros k z [Hz|Hz]; [discriminate Hz|exact (Ipos _ _ Hz)].
  - intros k y1 y2 [H1|H1] [H2|H2]; try discriminate; exact (Iu _ _ _ H1 H2).
  - kn. rewrite <- Y1. destruct Hat as [Z|(Z&Z1)]; auto.
  - destruct f as [p|p x|n x]; kf.
    + destruct If as (F1&F2&F3&F4). split; [kn; exact F1|]. split; [intros z [Hz|Hz]; [discriminate Hz|exact (F2 _ Hz)]|].
      split; [intros z [Hz|Hz]; [discriminate Hz|exact (F3 _ Hz)]|intros z [Hz|Hz]; [discriminate Hz|]].
      rewrite Hk by lia. exact (F4 _ Hz).
    + destruct If as (F1&F2&a&b&F3&F4). split; [rewrite Hk by lia; exact F1|].
      split; [intros z [Hz|Hz]; [discriminate Hz|exact (F2 _ Hz)]|].
      eexists (_ :: a), b. split; [rewrite F3; reflexivity|]. intros q z [Hz|Hz]; [discriminate Hz|exact (F4 _ _ Hz)].
    + destruct If as (F1&F2&F3). split; [exact F1|]. split; [rewrite Hk by lia; exact F2|right; exact F3].
  - intros m0 Em. discriminate Em.
Qed.

Lemma kfut_mono s a s' : kinv s -> kstep s a = Some s' -> fprev (ks_fut s) <= fprev (ks_fut s').
Proof.
  intros I E. assert (If := ki_fut _ I). destruct s as [st f w tr]. kf.
  destruct a, f as [p|p x|n x]; cbn [kstep ks_fut ks_work ks_s ks_tr] in E;
    try destruct w as [m|]; try discriminate E;
    try destruct (k_toggle st (psat1 p)); injection E as <-; kf; try lia.
Qed.

Lemma kreach_inv z s : kreach z s -> fprev (ks_fut s) + 1 < pmax -> kinv s.
Proof.
  intros R. induction R as [|s a s' R IH E]; intros Hb; [apply kinv0|].
  assert (I : kinv s).
  { apply IH. destruct s as [st f w tr]. destruct a, f as [p|p x|n x]; cbn [kstep ks_fut ks_work ks_s ks_tr] in E;
      try destruct w as [m|]; try discriminate E;
      try destruct (k_toggle st (psat1 p)); injection E as <-; kf; lia. }
  destruct a.
  - eapply kinv_poll; eauto.
  - eapply kinv_some; eauto.
  - eapply kinv_none; eauto.
  - eapply kinv_take; eauto.
  - eapply kinv_block; eauto.
  - eapply kinv_clean; eauto.
Qed.

(** ** C49 *)
(** Shard blocks of masterchain block [m] are asked from the side that gave
    [m], unless both the request that produced [m] and the request for the
    block after [m] were answered None at least once. *)
Theorem cycle_same_provider z s l2 m x l1 : kreach z s -> fprev (ks_fut s) + 1 < pmax ->
  ks_tr s = l2 ++ KEBlock m x :: l1 ->
  exists y, gave l1 m y /\ (~ none_for l1 m \/ ~ none_for l1 (m - 1) -> x = y).
Proof. intros R B E. exact (ktr_ok_split _ (ki_tr _ (kreach_inv _ _ R B)) _ _ _ E). Qed.

(** The first request for a block goes to the side that gave the block before. *)
Theorem cycle_sticky z s l2 p x l1 : kreach z s -> fprev (ks_fut s) + 1 < pmax ->
  ks_tr s = l2 ++ KEAsk p x :: l1 -> ~ none_for l1 p -> forall y, gave l1 p y -> x = y.
Proof. intros R B E. exact (proj1 (ktr_ok_split _ (ki_tr _ (kreach_inv _ _ R B)) _ _ _ E)). Qed.

(** Each further request for the same block follows a None at once and goes to
    the other side: the sides are asked in turn and the call never gives up. *)
Theorem cycle_alternate z s l2 p x l1 : kreach z s -> fprev (ks_fut s) + 1 < pmax ->
  ks_tr s = l2 ++ KEAsk p x :: l1 -> none_for l1 p -> exists r, l1 = KENone p (flip x) :: r.
Proof. intros R B E. exact (proj2 (ktr_ok_split _ (ki_tr _ (kreach_inv _ _ R B)) _ _ _ E)). Qed.

(** A block comes from the side asked last. *)
Theorem cycle_answer z s l2 n x l1 : kreach z s -> fprev (ks_fut s) + 1 < pmax ->
  ks_tr s = l2 ++ KEGot n x :: l1 ->
  exists p a b, n = p + 1 /\ l1 = a ++ KEAsk p x :: b /\ forall q y, ~ In (KEAsk q y) a.
Proof. intros R B E. exact (ktr_ok_split _ (ki_tr _ (kreach_inv _ _ R B)) _ _ _ E). Qed.

Lemma kexec_reach z s l s' : kreach z s -> kexec s l = Some s' -> kreach z s'.
Proof.
  revert s. induction l as [|a l IH]; cbn; intros s R E; [injection E as <-; exact R|].
  destruct (kstep s a) as [s1|] eqn:E1; [|discriminate]. eapply IH; [|exact E]. eapply kreach1; eauto.
Qed.

(** The documented claim "shard blocks are fetched from the same provider as
    their master block" does not hold without the condition: block 1 comes from
    the right side after a None of the left one, the right side has no block 2
    yet, and the shard blocks of block 1 are then asked from the left side. *)
Theorem cycle_same_provider_refuted : exists s, kreach 0 s /\ fprev (ks_fut s) + 1 < pmax /\
  gave (ks_tr s) 1 SR /\ In (KEBlock 1 SL) (ks_tr s).
Proof.
  destruct (kexec (kst0 0) [KPoll; KNone; KSome; KTake; KPoll; KNone; KBlock]) as [s|] eqn:E; [|discriminate E].
  exists s. split; [eapply kexec_reach; [apply kreach0|exact E]|].
  vm_compute in E. injection E as <-. cbn. unfold gave, pmax. cbn. split; [lia|]. tauto.
Qed.

Definition xkrun : list klab :=
  [KPoll; KNone; KSome; KTake; KBlock; KPoll; KSome; KClean; KTake; KPoll; KNone; KBlock;
   KSome; KClean; KTake; KBlock; KPoll; KClean].
Definition xkfin : kst := Eval vm_compute in match kexec (kst0 0) xkrun with Some s => s | None => kst0 0 end.
Lemma xkrun_eq : kexec (kst0 0) xkrun = Some xkfin.
Proof. vm_cast_no_check (eq_refl (Some xkfin)). Qed.

(** A run that uses both sides, applies a switch and asks shard blocks. *)
Lemma cycle_nonvacuous : exists s, kreach 0 s /\ fprev (ks_fut s) + 1 < pmax /\
  gave (ks_tr s) 1 SR /\ gave (ks_tr s) 2 SR /\ gave (ks_tr s) 3 SL /\
  In (KEBlock 1 SR) (ks_tr s) /\ In (KEBlock 3 SL) (ks_tr s) /\ none_for (ks_tr s) 2 /\ k_cur (ks_s s) = SL.
Proof.
  exists xkfin. split; [exact (kexec_reach _ _ _ _ (kreach0 _) xkrun_eq)|].
  unfold xkfin. cbn [ks_fut fprev ks_tr ks_s k_cur]. unfold gave, none_for, pmax. split; [lia|].
  repeat (split; [cbn; tauto|]). split; [|reflexivity]. exists SR. cbn. tauto.
Qed.
