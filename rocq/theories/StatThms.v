(** * StatThms: the stored status of a point does not depend on how its records were joined *)

From Coq Require Import List NArith Bool Lia Permutation.
From Coq Require Import ZArith ZifyN ZifyNat ZifyBool.
From Verif Require Import Bytes StatModel StatSpec StatProofs SignModel.
Import ListNotations.
Open Scope N_scope.

(** ** Round trip *)

Lemma skipn3 {A} : forall (x y z : A) l, skipn 3 (x :: y :: z :: l) = l.
Proof. reflexivity. Qed.

Lemma de4_bound : forall n, u32 n -> n < 256 ^ N.of_nat 4.
Proof. intros n H. exact H. Qed.

Lemma commit_length : forall c, length (commit_bytes c) = 8%nat.
Proof. intros [[r s]|]; unfold commit_bytes; rewrite app_length, !be_length; reflexivity. Qed.
Lemma commit_ok : forall c, bytes_ok (commit_bytes c).
Proof. intros [[r s]|]; unfold commit_bytes; apply Forall_app; split; apply be_ok. Qed.

Lemma read_commit_bytes : forall c, commit_wf c -> read_commit (commit_bytes c) = c.
Proof.
  intros [[r s]|] W.
  - destruct W as (R0 & R & S). unfold read_commit, commit_bytes.
    assert (X : firstn 4 (be 4 r ++ be 4 s) = be 4 r /\ skipn 4 (be 4 r ++ be 4 s) = be 4 s) by (split; reflexivity).
    destruct X as [-> ->]. rewrite !de_be by now apply de4_bound. destruct (N.eqb_spec r 0); [lia|reflexivity].
  - reflexivity.
Qed.

Lemma crange_cons : forall t f n c x, length c = 8%nat -> crange (t :: f :: n :: c ++ x) = c.
Proof. intros t f n c x L. unfold crange. rewrite skipn3. now apply app_tail. Qed.

Lemma encode_readable : forall s, wf s -> readable (encode s) = true.
Proof.
  intros s W. unfold readable. destruct s; cbn [encode ty nth type_len]; cbn in W; unfold ty; cbn [nth type_len length];
    rewrite ?app_length, ?commit_length; try reflexivity.
  - destruct W as (_ & _ & -> & _). reflexivity.
  - destruct W as (-> & _). reflexivity.
Qed.

Lemma encode_ok : forall s, wf s -> bytes_ok (encode s).
Proof.
  intros s W.
  assert (BB : forall a b x y, bit a x < 256 -> bit b y < 256 -> N.lor (bit a x) (bit b y) < 256).
  { intros a b x y X Y. pose proof (orl_lt (fun z : N => z) [bit a x; bit b y]) as Z. cbn [orl] in Z. rewrite N.lor_0_r in Z.
    apply Z. intros z [<-|[<-|[]]]; assumption. }
  assert (B1 : forall b, bit b bit_proof < 256 /\ bit b bit_first < 256 /\ bit b bit_dag < 256 /\ bit b bit_final < 256).
  { intros []; repeat split. }
  assert (BQ : forall a b, N.lor (bit a bit_first) (bit b bit_proof) < 256 /\ N.lor (bit b bit_proof) (bit a bit_dag) < 256 /\
                N.lor (bit b bit_proof) (bit a bit_final) < 256).
  { intros a b. destruct (B1 a) as (? & ? & ? & ?), (B1 b) as (? & ? & ? & ?). repeat split; apply BB; assumption. }
  destruct s as [f p a c|p d a c r|p a c|p d|p f|p|p au|p]; cbn [encode]; cbn in W; unfold u8 in W.
  - constructor; [reflexivity|]. constructor; [apply BQ|]. constructor; [tauto|]. apply commit_ok.
  - constructor; [reflexivity|]. constructor; [apply BQ|]. constructor; [tauto|]. apply Forall_app. split; [apply commit_ok|]. tauto.
  - constructor; [reflexivity|]. constructor; [apply B1|]. constructor; [tauto|]. apply commit_ok.
  - constructor; [reflexivity|]. constructor; [apply BQ|]. constructor.
  - constructor; [reflexivity|]. constructor; [apply BQ|]. constructor.
  - constructor; [reflexivity|]. constructor; [apply B1|]. constructor.
  - constructor; [reflexivity|]. constructor; [apply B1|]. tauto.
  - constructor; [reflexivity|]. constructor; [apply B1|]. constructor.
Qed.

(** What is written is read back. *)
Theorem status_roundtrip : forall s, wf s -> decode (encode s) = Some s.
Proof.
  intros s W. unfold decode. rewrite (encode_readable s W).
  assert (X : forall t f n c, crange (t :: f :: n :: commit_bytes c) = commit_bytes c).
  { intros t f n c. rewrite <- (app_nil_r (commit_bytes c)) at 1. apply crange_cons, commit_length. }
  destruct s as [f p a c|p d a c r|p a c|p d|p f|p|p au|p]; cbn [encode]; unfold ty, fl; cbn [nth].
  - rewrite X, read_commit_bytes by (cbn in W; tauto). destruct f, p; reflexivity.
  - rewrite crange_cons by apply commit_length. rewrite read_commit_bytes by (cbn in W; tauto).
    change (skipn 11 (64 :: N.lor (bit p bit_proof) (bit d bit_dag) :: a :: commit_bytes c ++ r)) with (skipn 8 (commit_bytes c ++ r)).
    rewrite (proj2 (app_tail _ r (commit_length c))). destruct p, d; reflexivity.
  - rewrite X, read_commit_bytes by (cbn in W; tauto). destruct p; reflexivity.
  - destruct p, d; reflexivity.
  - destruct p, f; reflexivity.
  - destruct p; reflexivity.
  - destruct p; reflexivity.
  - destruct p; reflexivity.
Qed.

(** ** Order and repetition *)

(** The result depends only on which records were written, not on their order or number. *)
Theorem merge_order : forall l m, (forall a, In a l -> bytes_ok a) -> (forall a, In a l <-> In a m) ->
  merge_bytes l = merge_bytes m.
Proof.
  intros l m B H.
  assert (BM : forall a, In a m -> bytes_ok a) by (intros a Ha; apply B; now apply H).
  assert (F : forall a, In a (filter readable l) <-> In a (filter readable m)) by (intros a; rewrite !filter_In, H; tauto).
  unfold merge_bytes. rewrite !fold_second, !fold_anchor.
  assert (OL : forall a, In a (filter readable l) -> readable a = true /\ bytes_ok a).
  { intros a Ha. apply filter_In in Ha. split; [tauto|]. apply B. tauto. }
  assert (OM : forall a, In a (filter readable m) -> readable a = true /\ bytes_ok a).
  { intros a Ha. apply filter_In in Ha. split; [tauto|]. apply BM. tauto. }
  assert (Z : bytes_ok (repeat 0 8)) by (repeat constructor; lia).
  destruct (fold_part _ _ OL Z eq_refl) as (P1 & P2 & P3). destruct (fold_part _ _ OM Z eq_refl) as (Q1 & Q2 & Q3).
  cbn zeta in *.
  rewrite (de_inj _ _ P1 Q1); [|congruence|rewrite P3, Q3; now rewrite (maxl_members cp _ _ F)].
  rewrite (max_bytes_members _ _ F), (orl_members fl _ _ F), (orl_members an _ _ F). reflexivity.
Qed.

Theorem merge_permutation : forall l m, (forall a, In a l -> bytes_ok a) -> Permutation l m -> merge_bytes l = merge_bytes m.
Proof.
  intros l m B P. apply merge_order; [exact B|]. intros a. split; intros H.
  - exact (Permutation_in _ P H).
  - exact (Permutation_in _ (Permutation_sym P) H).
Qed.

(** Unreadable records are ignored; when none is readable there is no result. *)
Theorem merge_ignores_unreadable : forall l, merge_bytes l = merge_bytes (filter readable l) /\
  ((exists r, merge_bytes l = Some r) <-> exists a, In a l /\ readable a = true).
Proof.
  intros l. split; [|apply merge_bytes_some]. unfold merge_bytes.
  assert (X : forall m : list bytes, filter readable (filter readable m) = filter readable m).
  { induction m as [|a m IH]; [reflexivity|]. cbn [filter]. destruct (readable a) eqn:R; [cbn [filter]; rewrite R, IH; reflexivity|exact IH]. }
  now rewrite X.
Qed.

(** ** Groups *)

Lemma merged_view : forall l m r q, (forall a, In a l -> bytes_ok a) -> (forall a, In a m -> bytes_ok a) ->
  merge_bytes l = Some r -> merge_bytes m = Some q ->
  maxl ty (filter readable l) = maxl ty (filter readable m) ->
  orl fl (filter readable l) = orl fl (filter readable m) ->
  orl an (filter readable l) = orl an (filter readable m) ->
  maxl cp (filter readable l) = maxl cp (filter readable m) ->
  option_map strip (decode r) = option_map strip (decode q).
Proof.
  intros l m r q BL BM EL EM T F A C. destruct (merge_bytes_spec l r BL EL). destruct (merge_bytes_spec m q BM EM).
  apply decode_view; auto; congruence.
Qed.

Lemma compact_step : forall a mid b r, (forall x, In x (a ++ mid ++ b) -> bytes_ok x) -> merge_bytes mid = Some r ->
  (forall x, In x (a ++ [r] ++ b) -> bytes_ok x) /\
  option_map strip (stored (a ++ mid ++ b)) = option_map strip (stored (a ++ [r] ++ b)).
Proof.
  intros a mid b r B E.
  assert (BM : forall x, In x mid -> bytes_ok x) by (intros x Hx; apply B; apply in_or_app; right; apply in_or_app; now left).
  destruct (merge_bytes_spec mid r BM E) as [MR MO MT MF MA MC _].
  assert (B' : forall x, In x (a ++ [r] ++ b) -> bytes_ok x).
  { intros x Hx. apply in_app_or in Hx. destruct Hx as [Hx|[<-|Hx]]; [|exact MO|]; apply B; apply in_or_app; [now left|].
    right. apply in_or_app. now right. }
  split; [exact B'|].
  assert (S1 : exists x, merge_bytes (a ++ mid ++ b) = Some x).
  { apply merge_bytes_some. destruct (proj1 (merge_bytes_some mid)) as (x & Hx & R); [eauto|]. exists x. split; [|exact R].
    apply in_or_app; right; apply in_or_app; now left. }
  assert (S2 : exists x, merge_bytes (a ++ [r] ++ b) = Some x).
  { apply merge_bytes_some. exists r. split; [|exact MR]. apply in_or_app. right. now left. }
  destruct S1 as (x & E1), S2 as (y & E2). unfold stored. rewrite E1, E2.
  apply (merged_view _ _ _ _ B B' E1 E2); rewrite !filter_app; cbn [filter]; rewrite MR;
    rewrite ?maxl_app, ?orl_app; cbn [maxl orl].
  - rewrite MT. lia.
  - rewrite MF, N.lor_0_r. reflexivity.
  - rewrite MA, N.lor_0_r. reflexivity.
  - rewrite MC. lia.
Qed.

(** Whatever the database has joined, in whatever groups, the node reads the same status: kind,
    flags, anchor flags and commit. *)
Theorem compaction_invisible : forall l m, (forall a, In a l -> bytes_ok a) -> compact l m ->
  option_map strip (stored m) = option_map strip (stored l).
Proof.
  intros l m B C.
  assert (G : (forall a, In a m -> bytes_ok a) /\ option_map strip (stored m) = option_map strip (stored l)).
  { induction C as [l|l a mid b r C IH E]; [auto|]. destruct (IH B) as [IB IS].
    destruct (compact_step a mid b r IB E) as [X Y]. split; [exact X|congruence]. }
  exact (proj2 G).
Qed.

(** ** What the joined status is *)

Lemma has_lor : forall a b m, has (N.lor a b) m = has a m || has b m.
Proof.
  intros a b m. unfold has. rewrite N.land_lor_distr_l. destruct (N.eqb_spec (N.land a m) 0) as [E|E].
  - rewrite E, N.lor_0_l. reflexivity.
  - cbn. destruct (N.eqb_spec (N.lor (N.land a m) (N.land b m)) 0) as [X|X]; [|reflexivity].
    apply N.lor_eq_0_iff in X. tauto.
Qed.
Lemma has_orl {A} : forall (f : A -> N) l m, has (orl f l) m = existsb (fun a => has (f a) m) l.
Proof. intros f l m. induction l as [|x l IH]; [reflexivity|]. cbn [orl existsb]. now rewrite has_lor, IH. Qed.

Lemma filter_encode : forall ss, Forall wf ss -> filter readable (map encode ss) = map encode ss.
Proof.
  induction ss as [|s ss IH]; intros W; [reflexivity|]. inversion W; subst. cbn [map filter].
  rewrite encode_readable by assumption. now rewrite IH.
Qed.

Definition ty_of (s : status) : N := ty (encode s).
Lemma ty_prio : forall a b, (ty_of a <= ty_of b <-> prio a <= prio b) /\ (ty_of a = ty_of b <-> prio a = prio b).
Proof. intros [] []; unfold ty_of, ty; cbn; lia. Qed.

Lemma fl_encode : forall s,
  has (fl (encode s)) bit_proof = proof_of s /\ has (fl (encode s)) bit_first = first_of s /\
  has (fl (encode s)) bit_dag = dag_of s /\ has (fl (encode s)) bit_final = final_of s.
Proof. intros s. destruct s; repeat match goal with b : bool |- _ => destruct b end; repeat split; reflexivity. Qed.

Lemma an_encode : forall s, an (encode s) = anchor_of s.
Proof. intros []; reflexivity. Qed.

Definition cnum (c : option (N * N)) : N := match c with Some (r, s) => r * 2 ^ 32 + s | None => 0 end.

Lemma de_commit : forall c, commit_wf c -> de (commit_bytes c) = cnum c.
Proof.
  intros [[r s]|] W; [|reflexivity]. destruct W as (_ & R & S). unfold commit_bytes, cnum.
  unfold de. rewrite fold_left_app. rewrite (de_acc (be 4 s)). rewrite be_length. fold (de (be 4 r)).
  rewrite !de_be by now apply de4_bound. reflexivity.
Qed.

Lemma cp_encode : forall s, wf s -> cp (encode s) = cnum (commit_of s).
Proof.
  intros s W. assert (X : forall t f n c, crange (t :: f :: n :: commit_bytes c) = commit_bytes c).
  { intros t f n c. rewrite <- (app_nil_r (commit_bytes c)) at 1. apply crange_cons, commit_length. }
  destruct s as [f p a c|p d a c r|p a c|p d|p f|p|p au|p]; cbn [encode commit_of]; unfold cp; cbn [committable ty nth N.land]; try reflexivity.
  - change (de (crange (128 :: N.lor (bit f bit_first) (bit p bit_proof) :: a :: commit_bytes c)) = cnum c).
    rewrite X. apply de_commit. cbn in W. tauto.
  - change (de (crange (64 :: N.lor (bit p bit_proof) (bit d bit_dag) :: a :: commit_bytes c ++ r)) = cnum c).
    rewrite crange_cons by apply commit_length. apply de_commit. cbn in W. tauto.
  - change (de (crange (32 :: bit p bit_proof :: a :: commit_bytes c)) = cnum c).
    rewrite X. apply de_commit. cbn in W. tauto.
Qed.

Lemma cnum_le : forall a b, commit_wf a -> commit_wf b -> cnum a <= cnum b -> commit_le a b.
Proof.
  intros [[r s]|] [[r' s']|] A B H; cbn in *; unfold u32 in *; try exact I.
  - destruct A as (A0 & A1 & A2), B as (B0 & B1 & B2). change (2 ^ 32) with 4294967296 in *.
    destruct (N.lt_trichotomy r r') as [L|[L|L]]; [now left| |]; [right; subst; lia|exfalso; lia].
  - destruct A as (A0 & A1 & A2). change (2 ^ 32) with 4294967296 in *. lia.
Qed.

Lemma maxl_map {A B} : forall (g : B -> N) (h : A -> B) l, maxl g (map h l) = maxl (fun x => g (h x)) l.
Proof. intros g h l. induction l as [|x l IH]; [reflexivity|]. cbn [map maxl]. now rewrite IH. Qed.
Lemma orl_map {A B} : forall (g : B -> N) (h : A -> B) l, orl g (map h l) = orl (fun x => g (h x)) l.
Proof. intros g h l. induction l as [|x l IH]; [reflexivity|]. cbn [map orl]. now rewrite IH. Qed.
Lemma existsb_ext_in' {A} : forall (f g : A -> bool) l, (forall x, In x l -> f x = g x) -> existsb f l = existsb g l.
Proof. intros f g l. induction l as [|x l IH]; intros H; [reflexivity|]. cbn. rewrite H by (now left). rewrite IH; [reflexivity|]. intros y Hy. apply H. now right. Qed.
Lemma maxl_ext_in {A} : forall (f g : A -> N) l, (forall x, In x l -> f x = g x) -> maxl f l = maxl g l.
Proof. intros f g l. induction l as [|x l IH]; intros H; [reflexivity|]. cbn [maxl]. rewrite H by (now left). rewrite IH; [reflexivity|]. intros y Hy. apply H. now right. Qed.

(** The joined status of records the node has written. *)
Theorem merged_status : forall ss, Forall wf ss -> ss <> [] ->
  exists s, stored (map encode ss) = Some s /\
    (exists x, In x ss /\ prio x = prio s) /\ (forall x, In x ss -> prio x <= prio s) /\
    proof_of s = existsb proof_of ss /\
    first_of s = existsb first_of ss /\
    dag_of s = match s with STrans _ _ _ _ _ | SInvalid _ _ => existsb dag_of ss | _ => false end /\
    final_of s = match s with SIll _ _ => existsb final_of ss | _ => false end /\
    anchor_of s = fold_right (fun x acc => N.lor (anchor_of x) acc) 0 ss /\
    (commit_of s = None \/ exists x, In x ss /\ commit_of x = commit_of s) /\
    (forall x, In x ss -> commit_le (commit_of x) (commit_of s)) /\
    (forall r, root_of s = Some r -> exists x, In x ss /\ root_of x = Some r) /\
    (forall a, author_of s = Some a -> exists x, In x ss /\ author_of x = Some a).
Proof.
  intros ss W NE. rewrite Forall_forall in W.
  assert (B : forall a, In a (map encode ss) -> bytes_ok a).
  { intros a Ha. apply in_map_iff in Ha. destruct Ha as (s & <- & Hs). now apply encode_ok, W. }
  assert (EX : exists r, merge_bytes (map encode ss) = Some r).
  { apply merge_bytes_some. destruct ss as [|s t]; [contradiction|]. exists (encode s). split; [now left|]. apply encode_readable, W. now left. }
  destruct EX as (r & E). destruct (merge_bytes_spec _ _ B E) as [MR MO MT MF MA MC MS].
  rewrite filter_encode in MT, MF, MA, MC, MS by (now apply Forall_forall).
  rewrite maxl_map in MT, MC. rewrite orl_map in MF, MA.
  rewrite (maxl_ext_in _ (fun x => cnum (commit_of x))) in MC by (intros x Hx; now apply cp_encode, W).
  assert (MA' : an r = fold_right (fun x acc => N.lor (anchor_of x) acc) 0 ss).
  { rewrite MA. clear. induction ss as [|x l IH]; [reflexivity|]. cbn [orl fold_right]. now rewrite an_encode, IH. }
  assert (HP : has (fl r) bit_proof = existsb proof_of ss).
  { rewrite MF, has_orl. apply existsb_ext_in'. intros x _. apply fl_encode. }
  assert (HF : has (fl r) bit_first = existsb first_of ss).
  { rewrite MF, has_orl. apply existsb_ext_in'. intros x _. apply fl_encode. }
  assert (HD : has (fl r) bit_dag = existsb dag_of ss).
  { rewrite MF, has_orl. apply existsb_ext_in'. intros x _. apply fl_encode. }
  assert (HN : has (fl r) bit_final = existsb final_of ss).
  { rewrite MF, has_orl. apply existsb_ext_in'. intros x _. apply fl_encode. }
  assert (TG : forall x, In x ss -> ty_of x <= ty r) by (intros x Hx; rewrite MT; exact (maxl_ge (fun x => ty (encode x)) ss x Hx)).
  assert (NF : ty r <> 128 -> existsb first_of ss = false).
  { intros X. destruct (existsb first_of ss) eqn:Y; [|reflexivity]. apply existsb_exists in Y. destruct Y as (x & Hx & Y).
    destruct x; try discriminate. specialize (TG _ Hx). unfold ty_of, ty in TG. cbn in TG.
    apply readable_cases in MR. exfalso.
    destruct MR as [(f & n & u & -> & _)|[(f & n & u & -> & _)|[(f & n & u & -> & _)|[(f & ->)|[(f & ->)|[(f & ->)|[(f & u & -> & _)|(f & ->)]]]]]]];
      unfold ty in *; cbn in *; try lia. }
  (* the commit part *)
  assert (CM : committable r = true -> forall c, c = read_commit (crange r) ->
     (c = None \/ exists x, In x ss /\ commit_of x = c) /\ forall x, In x ss -> commit_le (commit_of x) c).
  { intros CR c ->. unfold cp in MC. rewrite CR in MC.
    destruct (maxl_in (fun x => cnum (commit_of x)) ss NE) as (x & Hx & EX). cbn beta in EX.
    assert (WC : forall y, In y ss -> commit_wf (commit_of y)).
    { intros y Hy. specialize (W y Hy). destruct y; cbn in *; tauto. }
    assert (RC : crange r = commit_bytes (commit_of x)).
    { apply de_inj; [now apply crange_ok|apply commit_ok|rewrite crange_length, commit_length by assumption; reflexivity|].
      rewrite de_commit by now apply WC. congruence. }
    rewrite RC, read_commit_bytes by now apply WC. split; [right; eauto|]. intros y Hy. apply cnum_le; auto.
    rewrite EX. exact (maxl_ge (fun x => cnum (commit_of x)) ss y Hy). }
  assert (CN : committable r = false -> forall x, In x ss -> commit_of x = None).
  { intros CR x Hx. rewrite (committable_rank r MR) in CR. specialize (TG x Hx).
    destruct x; try reflexivity; unfold ty_of, ty at 1 in TG; cbn in TG; lia. }
  destruct MS as (a & Ha & TA & RA & RN). apply in_map_iff in Ha. destruct Ha as (x0 & <- & H0).
  assert (PRIO : forall s, ty_of s = ty r -> (exists x, In x ss /\ prio x = prio s) /\ (forall x, In x ss -> prio x <= prio s)).
  { intros s Es. split.
    - exists x0. split; [exact H0|]. apply ty_prio. unfold ty_of at 1. congruence.
    - intros x Hx. apply ty_prio. rewrite Es. now apply TG. }
  unfold stored. rewrite E. unfold decode. rewrite MR. rewrite HP, HF, HD, HN.
  pose proof MR as MR'. apply readable_cases in MR'.
  destruct MR' as [(f & n & u & -> & L)|[(f & n & u & -> & L)|[(f & n & u & -> & L)|[(f & ->)|[(f & ->)|[(f & ->)|[(f & u & -> & L)|(f & ->)]]]]]]].
  - eexists. split; [reflexivity|]. destruct (CM eq_refl _ eq_refl) as [C1 C2].
    destruct (PRIO (SValid (existsb first_of ss) (existsb proof_of ss) n (read_commit (crange (128 :: f :: n :: u)))) eq_refl) as [Q1 Q2].
    split; [exact Q1|]. split; [exact Q2|]. do 4 (split; [reflexivity|]). split; [exact MA'|].
    split; [exact C1|]. split; [exact C2|]. split; discriminate.
  - eexists. split; [reflexivity|]. destruct (CM eq_refl _ eq_refl) as [C1 C2].
    destruct (PRIO (STrans (existsb proof_of ss) (existsb dag_of ss) n (read_commit (crange (64 :: f :: n :: u))) (skipn 8 u)) eq_refl) as [Q1 Q2].
    split; [exact Q1|]. split; [exact Q2|]. split; [reflexivity|]. split; [symmetry; apply NF; discriminate|].
    do 2 (split; [reflexivity|]). split; [exact MA'|].
    split; [exact C1|]. split; [exact C2|]. split; [|discriminate].
    intros q Hq. injection Hq as <-. exists x0. split; [exact H0|].
    destruct x0 as [| p d a0 c rt | | | | | |]; try (discriminate TA). cbn [root_of]. f_equal.
    change (skipn 8 (commit_bytes c ++ rt) = skipn 8 u) in RA. change (rt = skipn 8 u). rewrite <- RA. symmetry. apply app_tail, commit_length.
  - eexists. split; [reflexivity|]. destruct (CM eq_refl _ eq_refl) as [C1 C2].
    destruct (PRIO (SComm (existsb proof_of ss) n (read_commit (crange (32 :: f :: n :: u)))) eq_refl) as [Q1 Q2].
    split; [exact Q1|]. split; [exact Q2|]. split; [reflexivity|]. split; [symmetry; apply NF; discriminate|].
    do 2 (split; [reflexivity|]). split; [exact MA'|].
    split; [exact C1|]. split; [exact C2|]. split; discriminate.
  - eexists. split; [reflexivity|].
    destruct (PRIO (SInvalid (existsb proof_of ss) (existsb dag_of ss)) eq_refl) as [Q1 Q2].
    split; [exact Q1|]. split; [exact Q2|]. split; [reflexivity|]. split; [symmetry; apply NF; discriminate|].
    do 2 (split; [reflexivity|]). split; [exact MA'|].
    split; [now left|]. split; [intros x Hx; rewrite (CN eq_refl x Hx); exact I|]. split; discriminate.
  - eexists. split; [reflexivity|].
    destruct (PRIO (SIll (existsb proof_of ss) (existsb final_of ss)) eq_refl) as [Q1 Q2].
    split; [exact Q1|]. split; [exact Q2|]. split; [reflexivity|]. split; [symmetry; apply NF; discriminate|].
    do 2 (split; [reflexivity|]). split; [exact MA'|].
    split; [now left|]. split; [intros x Hx; rewrite (CN eq_refl x Hx); exact I|]. split; discriminate.
  - eexists. split; [reflexivity|].
    destruct (PRIO (SFound (existsb proof_of ss)) eq_refl) as [Q1 Q2].
    split; [exact Q1|]. split; [exact Q2|]. split; [reflexivity|]. split; [symmetry; apply NF; discriminate|].
    do 2 (split; [reflexivity|]). split; [exact MA'|].
    split; [now left|]. split; [intros x Hx; rewrite (CN eq_refl x Hx); exact I|]. split; discriminate.
  - eexists. split; [reflexivity|].
    destruct (PRIO (SNotFound (existsb proof_of ss) u) eq_refl) as [Q1 Q2].
    split; [exact Q1|]. split; [exact Q2|]. split; [reflexivity|]. split; [symmetry; apply NF; discriminate|].
    do 2 (split; [reflexivity|]). split; [exact MA'|].
    split; [now left|]. split; [intros x Hx; rewrite (CN eq_refl x Hx); exact I|]. split; [discriminate|].
    intros q Hq. injection Hq as <-. exists x0. split; [exact H0|]. specialize (RN eq_refl).
    destruct x0 as [| | | | | | p au|]; try (discriminate TA). cbn [author_of]. f_equal. exact RN.
  - eexists. split; [reflexivity|].
    destruct (PRIO (SProven (existsb proof_of ss)) eq_refl) as [Q1 Q2].
    split; [exact Q1|]. split; [exact Q2|]. split; [reflexivity|]. split; [symmetry; apply NF; discriminate|].
    do 2 (split; [reflexivity|]). split; [exact MA'|].
    split; [now left|]. split; [intros x Hx; rewrite (CN eq_refl x Hx); exact I|]. split; discriminate.
Qed.

(** ** The part the location depends on *)

(** The flags as [StatusFlags] shows them. *)
Definition kind_of (t : N) : skind :=
  match t with
  | 128 => KValid | 64 => KTransInvalid | 32 => KCommittable | 8 => KInvalid | 4 => KIllFormed
  | 2 => KFound | 1 => KNotFound | _ => KProven
  end.
Definition abs (a : bytes) : srec :=
  mkR (kind_of (ty a)) (has (fl a) bit_first) (has (fl a) bit_proof) (has (fl a) bit_final).

Lemma kind_rank : forall a, readable a = true -> rank (kind_of (ty a)) = ty a.
Proof.
  intros a H. apply readable_cases in H.
  destruct H as [(f & n & r & -> & _)|[(f & n & r & -> & _)|[(f & n & r & -> & _)|[(f & ->)|[(f & ->)|[(f & ->)|[(f & r & -> & _)|(f & ->)]]]]]]]; reflexivity.
Qed.

(** Joining two records is what SignModel takes it to be. *)
Theorem merge_is_rmerge : forall a b, readable a = true -> readable b = true -> bytes_ok a -> bytes_ok b ->
  exists r, merge_bytes [a; b] = Some r /\ abs r = rmerge (abs a) (abs b).
Proof.
  intros a b RA RB BA BB.
  assert (EX : exists r, merge_bytes [a; b] = Some r) by (apply merge_bytes_some; exists a; split; [now left|exact RA]).
  destruct EX as (r & E). exists r. split; [exact E|].
  assert (B : forall x, In x [a; b] -> bytes_ok x) by (intros x [<-|[<-|[]]]; assumption).
  destruct (merge_bytes_spec _ _ B E) as [MR MO MT MF MA MC _]. cbn [filter] in *. rewrite RA, RB in *. cbn [maxl orl] in MT, MF.
  rewrite N.lor_0_r in MF. unfold abs, rmerge. cbn [r_kind r_first r_proof r_final]. rewrite MF, !has_lor. f_equal.
  rewrite (kind_rank a RA), (kind_rank b RB), MT. destruct (N.ltb_spec (ty a) (ty b)); f_equal; lia.
Qed.

(** ** What does depend on the groups *)

Definition long (x : N) : bytes := repeat x 120.

(** The root cause of a transitively invalid point: which one survives depends on how the
    database has joined the records. *)
Theorem root_cause_refuted : exists l m, (forall s, In s l -> wf s) /\ compact (map encode l) m /\
  stored (map encode l) <> stored m.
Proof.
  set (A := STrans true false 0 None (long 1)). set (C := STrans false true 0 None (long 3)). set (D := STrans true false 0 None (long 2)).
  exists [A; C; D].
  assert (W : forall s, In s [A; C; D] -> wf s).
  { intros s [<-|[<-|[<-|[]]]]; (split; [reflexivity|]); (split; [exact I|]); (split; [reflexivity|]);
      apply Forall_forall; intros x Hx; apply repeat_spec in Hx; subst; reflexivity. }
  destruct (merge_bytes (map encode [A; C])) as [r|] eqn:E; [|vm_compute in E; discriminate].
  exists ([] ++ [r] ++ map encode [D]). split; [exact W|]. split.
  - apply (C_join (map encode [A; C; D]) [] (map encode [A; C]) (map encode [D]) r); [|exact E]. apply C_refl.
  - assert (E' : merge_bytes (map encode [A; C]) = Some r) by exact E. clear E.
    vm_compute in E'. injection E' as <-. vm_compute. discriminate.
Qed.

(** ** A case *)

(** Found, then valid and first, certified by the next point, committed: joined in two groups. *)
Example status_case : exists r, compact (map encode [SFound false; SValid true false 0 None; SProven true; SComm false 128 (Some (7, 2))])
     [r] /\ decode r = Some (SValid true true 128 (Some (7, 2))).
Proof.
  set (l := map encode [SFound false; SValid true false 0 None; SProven true; SComm false 128 (Some (7, 2))]).
  destruct (merge_bytes (skipn 2 l)) as [r1|] eqn:E1; [|vm_compute in E1; discriminate].
  destruct (merge_bytes (firstn 2 l ++ [r1])) as [r|] eqn:E2.
  2:{ exfalso. assert (X : merge_bytes (skipn 2 l) = Some r1) by exact E1. vm_compute in X. injection X as <-. vm_compute in E2. discriminate. }
  exists r. split.
  - apply (C_join l [] (firstn 2 l ++ [r1]) [] r); [|exact E2].
    apply (C_join l (firstn 2 l) (skipn 2 l) [] r1); [|exact E1]. apply C_refl.
  - vm_compute in E1. injection E1 as <-. vm_compute in E2. injection E2 as <-. vm_compute. reflexivity.
Qed.
