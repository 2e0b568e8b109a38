(** * StatProofs: the merge, field by field *)

From Coq Require Import List NArith Bool Lia.
From Coq Require Import ZArith ZifyN ZifyNat ZifyBool.
From Verif Require Import Bytes StatModel StatSpec.
Import ListNotations.
Open Scope N_scope.

Fixpoint orl {A} (f : A -> N) (l : list A) : N := match l with [] => 0 | a :: t => N.lor (f a) (orl f t) end.
Fixpoint maxl {A} (f : A -> N) (l : list A) : N := match l with [] => 0 | a :: t => N.max (f a) (maxl f t) end.

Lemma orl_app {A} : forall (f : A -> N) l m, orl f (l ++ m) = N.lor (orl f l) (orl f m).
Proof. intros f l m. induction l as [|x l IH]; cbn; [reflexivity|]. now rewrite IH, N.lor_assoc. Qed.
Lemma maxl_app {A} : forall (f : A -> N) l m, maxl f (l ++ m) = N.max (maxl f l) (maxl f m).
Proof. intros f l m. induction l as [|x l IH]; cbn [app maxl]; [lia|]. rewrite IH. lia. Qed.

Lemma maxl_ge {A} : forall (f : A -> N) l x, In x l -> f x <= maxl f l.
Proof. intros f l x. induction l as [|y l IH]; [intros []|]. intros [->|H]; cbn [maxl]; [lia|]. specialize (IH H). lia. Qed.
Lemma maxl_le {A} : forall (f : A -> N) l b, (forall x, In x l -> f x <= b) -> maxl f l <= b.
Proof.
  intros f l b. induction l as [|y l IH]; intros H; cbn; [lia|]. assert (f y <= b) by (apply H; now left).
  assert (maxl f l <= b) by (apply IH; intros x Hx; apply H; now right). lia.
Qed.
Lemma maxl_in {A} : forall (f : A -> N) l, l <> [] -> exists x, In x l /\ f x = maxl f l.
Proof.
  intros f l. induction l as [|y l IH]; intros H; [contradiction|]. cbn. destruct l as [|z l].
  - exists y. split; [now left|]. cbn. lia.
  - destruct IH as (x & Hx & E); [discriminate|]. destruct (N.max_spec (f y) (maxl f (z :: l))) as [[_ M]|[_ M]]; rewrite M.
    + exists x. split; [now right|exact E].
    + exists y. split; [now left|reflexivity].
Qed.

Lemma orl_bit {A} : forall (f : A -> N) l n, N.testbit (orl f l) n = existsb (fun a => N.testbit (f a) n) l.
Proof. intros f l n. induction l as [|x l IH]; cbn [orl existsb]; [exact (N.bits_0 n)|]. now rewrite N.lor_spec, IH. Qed.

Lemma orl_members {A} : forall (f : A -> N) l m, (forall x, In x l <-> In x m) -> orl f l = orl f m.
Proof.
  intros f l m H. apply N.bits_inj. intros n. rewrite !orl_bit. apply eq_true_iff_eq. rewrite !existsb_exists.
  split; intros (x & Hx & E); exists x; (split; [now apply H|exact E]).
Qed.
Lemma maxl_members {A} : forall (f : A -> N) l m, (forall x, In x l <-> In x m) -> maxl f l = maxl f m.
Proof.
  intros f l m H. apply N.le_antisymm; apply maxl_le; intros x Hx; apply maxl_ge; now apply H.
Qed.

Lemma orl_absorb {A} : forall (f : A -> N) l x, In x l -> N.lor (f x) (orl f l) = orl f l.
Proof.
  intros f l x H. apply N.bits_inj. intros n. rewrite N.lor_spec, orl_bit.
  destruct (existsb (fun a => N.testbit (f a) n) l) eqn:E; [apply orb_true_r|]. rewrite orb_false_r.
  destruct (N.testbit (f x) n) eqn:B; [|reflexivity]. rewrite <- E. symmetry. apply existsb_exists. now exists x.
Qed.

Lemma orl_lt {A} : forall (f : A -> N) l, (forall x, In x l -> f x < 256) -> orl f l < 256.
Proof.
  intros f l. induction l as [|x l IH]; intros H; cbn; [reflexivity|].
  assert (A1 : f x < 256) by (apply H; now left). assert (A2 : orl f l < 256) by (apply IH; intros y Hy; apply H; now right).
  destruct (N.eq_dec (N.lor (f x) (orl f l)) 0) as [->|NZ]; [lia|].
  apply N.log2_lt_pow2 with (b := 8); [lia|]. rewrite N.log2_lor. apply N.max_lub_lt.
  - destruct (N.eq_dec (f x) 0) as [->|]; [reflexivity|]. apply N.log2_lt_pow2; [lia|exact A1].
  - destruct (N.eq_dec (orl f l) 0) as [->|]; [reflexivity|]. apply N.log2_lt_pow2; [lia|exact A2].
Qed.

(** ** Readable records *)

Lemma readable_cases : forall a, readable a = true ->
  (exists f n r, a = 128 :: f :: n :: r /\ length r = 8%nat) \/
  (exists f n r, a = 64 :: f :: n :: r /\ length r = 128%nat) \/
  (exists f n r, a = 32 :: f :: n :: r /\ length r = 8%nat) \/
  (exists f, a = [8; f]) \/ (exists f, a = [4; f]) \/ (exists f, a = [2; f]) \/
  (exists f r, a = 1 :: f :: r /\ length r = 36%nat) \/ (exists f, a = [0; f]).
Proof.
  intros a H. unfold readable in H. destruct (type_len (ty a)) as [n|] eqn:T; [|discriminate].
  apply andb_true_iff in H. destruct H as [H1 H2]. apply Nat.leb_le in H1. apply Nat.eqb_eq in H2.
  destruct a as [|t [|f r]]; cbn [length] in H1; try lia. unfold ty in T. cbn [nth] in T.
  assert (TT : t = 128 \/ t = 64 \/ t = 32 \/ t = 8 \/ t = 4 \/ t = 2 \/ t = 1 \/ t = 0).
  { unfold type_len in T. destruct t as [|t]; [tauto|].
    do 8 (destruct t as [t|t|]; try discriminate; try tauto). }
  assert (S3 : (length r >= 1)%nat -> exists x u, r = x :: u /\ length r = S (length u)).
  { destruct r as [|x u]; cbn [length]; intros; [lia|]. exists x, u. auto. }
  assert (S0 : length r = 0%nat -> r = []) by (destruct r; [reflexivity|discriminate]).
  destruct TT as [->|[->|[->|[->|[->|[->|[->| ->]]]]]]]; cbn in T; injection T as <-; cbn [length] in H2.
  - left. destruct S3 as (x & u & -> & L); [lia|]. exists f, x, u. split; [reflexivity|]. cbn [length] in H2. lia.
  - right. left. destruct S3 as (x & u & -> & L); [lia|]. exists f, x, u. split; [reflexivity|]. cbn [length] in H2. lia.
  - right. right. left. destruct S3 as (x & u & -> & L); [lia|]. exists f, x, u. split; [reflexivity|]. cbn [length] in H2. lia.
  - do 3 right. left. rewrite S0 by lia. eauto.
  - do 4 right. left. rewrite S0 by lia. eauto.
  - do 5 right. left. rewrite S0 by lia. eauto.
  - do 6 right. left. exists f, r. split; [reflexivity|lia].
  - do 7 right. rewrite S0 by lia. eauto.
Qed.

Definition an (a : bytes) : N := if committable a then nth 2 a 0 else 0.
Definition cp (a : bytes) : N := if committable a then de (crange a) else 0.

(** The committable kinds outrank the others. *)
Lemma committable_rank : forall a, readable a = true -> committable a = (32 <=? ty a).
Proof.
  intros a H. apply readable_cases in H.
  destruct H as [(f & n & r & -> & _)|[(f & n & r & -> & _)|[(f & n & r & -> & _)|[(f & ->)|[(f & ->)|[(f & ->)|[(f & r & -> & _)|(f & ->)]]]]]]]; reflexivity.
Qed.

Lemma committable_shape : forall a, readable a = true -> committable a = true ->
  exists t f n r, a = t :: f :: n :: r /\ (8 <= length r)%nat.
Proof.
  intros a H C. apply readable_cases in H.
  destruct H as [(f & n & r & -> & L)|[(f & n & r & -> & L)|[(f & n & r & -> & L)|[(f & ->)|[(f & ->)|[(f & ->)|[(f & r & -> & _)|(f & ->)]]]]]]];
    try discriminate; eexists; eexists; eexists; eexists; (split; [reflexivity|lia]).
Qed.

Lemma readable_shape : forall a, readable a = true -> exists t f r, a = t :: f :: r.
Proof.
  intros a H. apply readable_cases in H.
  destruct H as [(f & n & r & -> & L)|[(f & n & r & -> & L)|[(f & n & r & -> & L)|[(f & ->)|[(f & ->)|[(f & ->)|[(f & r & -> & _)|(f & ->)]]]]]]]; eauto.
Qed.

Lemma crange_length : forall a, readable a = true -> committable a = true -> length (crange a) = 8%nat.
Proof.
  intros a H C. destruct (committable_shape a H C) as (t & f & n & r & -> & L). unfold crange. cbn [skipn].
  rewrite firstn_length. lia.
Qed.

Lemma bytes_ok_firstn : forall n l, bytes_ok l -> bytes_ok (firstn n l).
Proof.
  intros n l. revert n. induction l as [|x l IH]; intros n H; destruct n; cbn; try constructor.
  - now inversion H.
  - apply IH. now inversion H.
Qed.
Lemma bytes_ok_skipn : forall n l, bytes_ok l -> bytes_ok (skipn n l).
Proof.
  intros n l. revert n. induction l as [|x l IH]; intros n H; destruct n; cbn; try assumption. apply IH. now inversion H.
Qed.
Lemma crange_ok : forall a, bytes_ok a -> bytes_ok (crange a).
Proof. intros a H. apply bytes_ok_firstn. now apply bytes_ok_skipn. Qed.

Lemma lex_de : forall a b, bytes_ok a -> bytes_ok b -> length a = length b -> lex a b = (de a ?= de b).
Proof.
  intros a b A B L. rewrite <- (lex_be (length a)); [|now apply de_bound|rewrite L; now apply de_bound].
  rewrite (be_de a A). rewrite L. now rewrite (be_de b B).
Qed.

Lemma lex_ltb_de : forall a b, bytes_ok a -> bytes_ok b -> length a = length b -> lex_ltb a b = (de a <? de b).
Proof. intros a b A B L. unfold lex_ltb, N.ltb. now rewrite lex_de. Qed.

Lemma de_inj : forall a b, bytes_ok a -> bytes_ok b -> length a = length b -> de a = de b -> a = b.
Proof. intros a b A B L E. apply lex_eq. rewrite lex_de by assumption. rewrite E. apply N.compare_refl. Qed.

(** ** The accumulators *)

Lemma fold_second : forall l acc, fold_left (fun acc a => N.lor acc (fl a)) l acc = N.lor acc (orl fl l).
Proof. induction l as [|a l IH]; intros acc; cbn; [now rewrite N.lor_0_r|]. now rewrite IH, N.lor_assoc. Qed.

Lemma fold_anchor : forall l acc,
  fold_left (fun acc a => if committable a then N.lor acc (nth 2 a 0) else acc) l acc = N.lor acc (orl an l).
Proof.
  induction l as [|a l IH]; intros acc; cbn; [now rewrite N.lor_0_r|]. rewrite IH. change (an a) with (if committable a then nth 2 a 0 else 0).
  destruct (committable a); [now rewrite N.lor_assoc|reflexivity].
Qed.

Lemma fold_part : forall l acc, (forall a, In a l -> readable a = true /\ bytes_ok a) -> bytes_ok acc -> length acc = 8%nat ->
  let p := fold_left (fun acc a => if committable a && lex_ltb acc (crange a) then crange a else acc) l acc in
  bytes_ok p /\ length p = 8%nat /\ de p = N.max (de acc) (maxl cp l).
Proof.
  induction l as [|a l IH]; intros acc H B L; cbn [fold_left maxl].
  - split; [exact B|]. split; [exact L|]. cbn. lia.
  - destruct (H a (or_introl eq_refl)) as [R BA]. change (cp a) with (if committable a then de (crange a) else 0). destruct (committable a) eqn:C; cbn [andb].
    + pose proof (crange_length a R C) as LC. pose proof (crange_ok a BA) as BC.
      rewrite lex_ltb_de by (auto; congruence).
      destruct (N.ltb_spec (de acc) (de (crange a))).
      * destruct (IH (crange a)) as (I1 & I2 & I3); [intros x Hx; apply H; now right|exact BC|exact LC|].
        split; [exact I1|]. split; [exact I2|]. rewrite I3. lia.
      * destruct (IH acc) as (I1 & I2 & I3); [intros x Hx; apply H; now right|exact B|exact L|].
        split; [exact I1|]. split; [exact I2|]. rewrite I3. lia.
    + destruct (IH acc) as (I1 & I2 & I3); [intros x Hx; apply H; now right|exact B|exact L|].
      split; [exact I1|]. split; [exact I2|]. rewrite I3. lia.
Qed.

(** ** The greatest *)

Lemma max2_in : forall a b, max2 a b = a \/ max2 a b = b.
Proof. intros a b. unfold max2. destruct (lex_ltb b a); auto. Qed.
Lemma lex_le_trans : forall a b c, lex a b <> Gt -> lex b c <> Gt -> lex a c <> Gt.
Proof.
  intros a b c H1 H2. destruct (lex a b) eqn:E1; [apply lex_eq in E1; now subst| |contradiction].
  destruct (lex b c) eqn:E2; [apply lex_eq in E2; subst; congruence| |contradiction].
  rewrite (lex_trans_lt _ _ _ E1 E2). discriminate.
Qed.
Lemma max2_ge : forall a b, lex a (max2 a b) <> Gt /\ lex b (max2 a b) <> Gt.
Proof.
  intros a b. unfold max2, lex_ltb. pose proof (lex_antisym b a) as AS. destruct (lex b a) eqn:E; cbn in AS; rewrite ?lex_refl, ?AS, ?E; split; discriminate.
Qed.

Lemma max_bytes_spec : forall l a, max_bytes l = Some a -> In a l /\ forall b, In b l -> lex b a <> Gt.
Proof.
  intros [|x l] a E; [discriminate|]. cbn in E. injection E as <-.
  assert (G : forall l x, (In (fold_left max2 l x) (x :: l)) /\ lex x (fold_left max2 l x) <> Gt /\
     forall b, In b l -> lex b (fold_left max2 l x) <> Gt).
  { clear. induction l as [|y l IH]; intros x; cbn [fold_left].
    - split; [now left|]. split; [rewrite lex_refl; discriminate|intros b []].
    - destruct (IH (max2 x y)) as (I1 & I2 & I3). destruct (max2_ge x y) as [M1 M2]. split; [|split].
      + destruct I1 as [I1|I1]; [|right; now right]. destruct (max2_in x y) as [->| ->] in I1; rewrite <- I1; [now left|right; now left].
      + exact (lex_le_trans _ _ _ M1 I2).
      + intros b [<-|Hb]; [exact (lex_le_trans _ _ _ M2 I2)|auto]. }
  destruct (G l x) as (G1 & G2 & G3). split; [exact G1|]. intros b [<-|Hb]; auto.
Qed.

Lemma max_bytes_none : forall l, max_bytes l = None -> l = [].
Proof. intros [|x l]; [reflexivity|discriminate]. Qed.

Lemma max_bytes_members : forall l m, (forall x, In x l <-> In x m) -> max_bytes l = max_bytes m.
Proof.
  intros l m H. destruct (max_bytes l) as [a|] eqn:A, (max_bytes m) as [b|] eqn:B; [| | |reflexivity].
  - apply max_bytes_spec in A. apply max_bytes_spec in B. destruct A as [A1 A2], B as [B1 B2].
    f_equal. apply lex_eq. pose proof (A2 b (proj2 (H b) B1)) as X. pose proof (B2 a (proj1 (H a) A1)) as Y.
    rewrite lex_antisym in X. destruct (lex a b); [reflexivity|contradiction|contradiction].
  - apply max_bytes_none in B. subst. apply max_bytes_spec in A. destruct A as [A _]. apply H in A. destruct A.
  - apply max_bytes_none in A. subst. apply max_bytes_spec in B. destruct B as [B _]. apply H in B. destruct B.
Qed.

Lemma lex_head : forall a b, lex a b <> Gt -> ty a <= ty b.
Proof.
  intros [|x a] [|y b] H; unfold ty; cbn [nth]; try lia; [cbn in H; contradiction|]. cbn in H.
  destruct (N.compare_spec x y); [lia|lia|contradiction].
Qed.

(** ** The merged record *)

Record merged (ok : list bytes) (r : bytes) : Prop := {
  m_read : readable r = true;
  m_ok : bytes_ok r;
  m_ty : ty r = maxl ty ok;
  m_fl : fl r = orl fl ok;
  m_an : an r = orl an ok;
  m_cp : cp r = maxl cp ok;
  m_src : exists a, In a ok /\ ty a = ty r /\ skipn 11 a = skipn 11 r /\ (committable r = false -> skipn 2 a = skipn 2 r) }.

Lemma app_tail : forall (c x : bytes), length c = 8%nat -> firstn 8 (c ++ x) = c /\ skipn 8 (c ++ x) = x.
Proof.
  intros c x L. split.
  - rewrite firstn_app, L. rewrite <- L at 1. rewrite firstn_all. cbn. now rewrite app_nil_r.
  - rewrite skipn_app, L. rewrite <- L at 1. rewrite skipn_all. reflexivity.
Qed.

Lemma skipn_skipn' {A} : forall x y (l : list A), skipn x (skipn y l) = skipn (x + y) l.
Proof.
  intros x y. revert x. induction y as [|y IH]; intros x l; [now rewrite Nat.add_0_r|].
  rewrite Nat.add_succ_r. destruct l as [|z l]; [now rewrite !skipn_nil|]. cbn. apply IH.
Qed.

Lemma merge_bytes_spec : forall l r, (forall a, In a l -> bytes_ok a) -> merge_bytes l = Some r -> merged (filter readable l) r.
Proof.
  intros l r B E. unfold merge_bytes in E. set (ok := filter readable l) in *.
  assert (OK : forall a, In a ok -> readable a = true /\ bytes_ok a).
  { intros a Ha. unfold ok in Ha. apply filter_In in Ha. split; [tauto|]. apply B. tauto. }
  rewrite fold_second, fold_anchor, !N.lor_0_l in E.
  pose proof (fold_part ok (repeat 0 8) OK) as FP.
  set (part := fold_left (fun acc a => if committable a && lex_ltb acc (crange a) then crange a else acc) ok (repeat 0 8)) in *.
  destruct FP as (P1 & P2 & P3); [repeat constructor; lia|reflexivity|]. cbn zeta in P1, P2, P3. fold part in P1, P2, P3.
  change (de (repeat 0 8)) with 0 in P3. rewrite N.max_0_l in P3.
  destruct (max_bytes ok) as [a|] eqn:M; [|discriminate]. injection E as <-.
  destruct (max_bytes_spec _ _ M) as [MI MG].
  destruct (OK a MI) as [RA BA].
  assert (TM : ty a = maxl ty ok).
  { apply N.le_antisymm; [now apply maxl_ge|]. apply maxl_le. intros x Hx. apply lex_head. now apply MG. }
  assert (FLT : orl fl ok < 256).
  { apply orl_lt. intros x Hx. destruct (OK x Hx) as [RX BX]. destruct (readable_shape x RX) as (t & f & u & ->).
    unfold fl. cbn. inversion BX as [|? ? _ BX']; subst. now inversion BX'. }
  assert (ANT : orl an ok < 256).
  { apply orl_lt. intros x Hx. destruct (OK x Hx) as [RX BX]. unfold an. destruct (committable x) eqn:C; [|lia].
    destruct (committable_shape x RX C) as (t & f & n & u & -> & _). cbn.
    inversion BX as [|? ? _ BX']; subst. inversion BX' as [|? ? _ BX'']; subst. now inversion BX''. }
  destruct (committable a) eqn:CA.
  - destruct (committable_shape a RA CA) as (t & f & n & u & EA & LU). subst a.
    assert (FA : N.lor f (orl fl ok) = orl fl ok) by (apply (orl_absorb fl ok _ MI)).
    assert (NA : N.lor n (orl an ok) = orl an ok).
    { pose proof (orl_absorb an ok _ MI) as X. unfold an at 1 in X. rewrite CA in X. exact X. }
    cbn [set1 set_commit]. rewrite FA, NA.
    set (r := t :: orl fl ok :: orl an ok :: part ++ skipn 8 u).
    assert (TR : ty r = t) by reflexivity.
    assert (CR : committable r = true) by exact CA.
    assert (LEN : length r = length (t :: f :: n :: u)).
    { unfold r. cbn [length]. rewrite app_length, skipn_length, P2. lia. }
    assert (RR : readable r = true).
    { unfold readable in *. rewrite LEN. exact RA. }
    assert (CRR : crange r = part) by (unfold crange, r; cbn [skipn]; now apply app_tail).
    pose proof (Forall_inv BA) as Bt. pose proof (Forall_inv_tail (Forall_inv_tail (Forall_inv_tail BA))) as Bu.
    split; auto.
    + unfold r. repeat (constructor; [assumption|]). apply Forall_app. split; [exact P1|]. now apply bytes_ok_skipn.
    + unfold an at 1. rewrite CR. reflexivity.
    + unfold cp at 1. rewrite CR, CRR. exact P3.
    + exists (t :: f :: n :: u). split; [exact MI|]. split; [reflexivity|]. split; [|congruence].
      change (skipn 8 u = skipn 8 (part ++ skipn 8 u)). destruct (app_tail part (skipn 8 u) P2) as [_ X]. exact (eq_sym X).
  - assert (NC : forall x, In x ok -> committable x = false).
    { intros x Hx. destruct (OK x Hx) as [RX _]. rewrite (committable_rank x RX). rewrite (committable_rank a RA) in CA.
      pose proof (lex_head x a (MG x Hx)). lia. }
    destruct (readable_shape a RA) as (t & f & u & EA). subst a.
    assert (FA : N.lor f (orl fl ok) = orl fl ok) by (apply (orl_absorb fl ok _ MI)).
    cbn [set1]. rewrite FA. set (r := t :: orl fl ok :: u).
    assert (CR : committable r = false) by exact CA.
    pose proof (Forall_inv BA) as Bt. pose proof (Forall_inv_tail (Forall_inv_tail BA)) as Bu.
    split; auto.
    + unfold r. constructor; [assumption|]. constructor; assumption.
    + unfold an at 1. rewrite CR. symmetry. clear - NC. induction ok as [|x ok IH]; [reflexivity|]. cbn.
      unfold an at 1. rewrite (NC x) by now left. rewrite N.lor_0_l. apply IH. intros y Hy. apply NC. now right.
    + unfold cp at 1. rewrite CR. symmetry. clear - NC. induction ok as [|x ok IH]; [reflexivity|]. cbn.
      unfold cp at 1. rewrite (NC x) by now left. rewrite N.max_0_l. apply IH. intros y Hy. apply NC. now right.
    + exists (t :: f :: u). split; [exact MI|]. split; [reflexivity|]. split; [reflexivity|reflexivity].
Qed.

Lemma merge_bytes_some : forall l, (exists r, merge_bytes l = Some r) <-> exists a, In a l /\ readable a = true.
Proof.
  intros l. unfold merge_bytes. split.
  - intros (r & E). destruct (max_bytes (filter readable l)) as [a|] eqn:M; [|discriminate].
    apply max_bytes_spec in M. destruct M as [M _]. apply filter_In in M. eauto.
  - intros (a & H & R). destruct (max_bytes (filter readable l)) as [x|] eqn:M; [eauto|].
    apply max_bytes_none in M. assert (X : In a (filter readable l)) by (now apply filter_In). rewrite M in X. destruct X.
Qed.

(** ** What is read *)

Lemma decode_view : forall a b, readable a = true -> readable b = true -> bytes_ok a -> bytes_ok b ->
  ty a = ty b -> fl a = fl b -> an a = an b -> cp a = cp b ->
  option_map strip (decode a) = option_map strip (decode b).
Proof.
  intros a b RA RB BA BB T F A C. unfold decode. rewrite RA, RB, T, F.
  assert (CC : committable a = committable b) by (unfold committable; now rewrite T).
  assert (X : committable b = true -> nth 2 a 0 = nth 2 b 0 /\ crange a = crange b).
  { intros Y. unfold an in A. unfold cp in C. rewrite CC, Y in A, C. split; [exact A|].
    apply de_inj; [now apply crange_ok|now apply crange_ok| |exact C].
    rewrite !crange_length; auto. congruence. }
  clear A C. pose proof RB as RB'. apply readable_cases in RB'.
  destruct RB' as [(f & n & r & -> & _)|[(f & n & r & -> & _)|[(f & n & r & -> & _)|[(f & ->)|[(f & ->)|[(f & ->)|[(f & r & -> & _)|(f & ->)]]]]]]];
    try reflexivity; destruct (X eq_refl) as [-> ->]; reflexivity.
Qed.
