(** * AnchorInv: the invariant of the anchors cache *)

From Coq Require Import List NArith Bool Sorted Lia ZArith ZifyN ZifyNat ZifyBool.
From Verif Require Import AnchorModel AnchorSpec AnchorProofs.
Import ListNotations.
Open Scope N_scope.

Definition alt (a b : anchor) : Prop := a_id a < a_id b /\ a_ct a < a_ct b.
Notation ss := (StronglySorted alt).

Lemma ss_in : forall M a b, ss M -> In a M -> In b M ->
  (a_id a < a_id b <-> a_ct a < a_ct b) /\ (a_id a = a_id b -> a = b) /\
  (a_ct a = a_ct b -> a = b).
Proof.
  intros M a b S. induction S as [|x t S IH F]; [intros []|].
  rewrite Forall_forall in F. intros [->|Ha] [->|Hb].
  - split; [lia|]. auto.
  - destruct (F b Hb). split; [lia|]. split; intros E; exfalso; lia.
  - destruct (F a Ha). split; [lia|]. split; intros E; exfalso; lia.
  - auto.
Qed.

Lemma ss_id_le : forall M a b, ss M -> In a M -> In b M -> (a_id a <= a_id b <-> a_ct a <= a_ct b).
Proof.
  intros M a b S Ha Hb. destruct (ss_in M b a S Hb Ha) as (E & _ & _). lia.
Qed.

Lemma ss_app : forall l1 l2, ss l1 -> ss l2 -> (forall a b, In a l1 -> In b l2 -> alt a b) ->
  ss (l1 ++ l2).
Proof.
  induction l1 as [|x t IH]; intros l2 S1 S2 X; [exact S2|]. cbn [app].
  inversion S1; subst. constructor.
  - apply IH; auto. intros a b Ha Hb. apply X; cbn; auto.
  - apply Forall_app. split; [assumption|]. apply Forall_forall. intros b Hb. apply X; cbn; auto.
Qed.

Lemma ss_app_inv : forall l1 l2, ss (l1 ++ l2) -> ss l1 /\ ss l2 /\
  (forall a b, In a l1 -> In b l2 -> alt a b).
Proof.
  induction l1 as [|x t IH]; intros l2 S.
  - split; [constructor|]. split; [exact S|]. intros a b [].
  - cbn [app] in S. inversion S as [|? ? S' F]; subst. destruct (IH _ S') as (A & B & C).
    apply Forall_app in F. destruct F as [F1 F2]. split; [constructor; assumption|].
    split; [assumption|]. intros a b [->|Ha] Hb; [|auto].
    rewrite Forall_forall in F2. auto.
Qed.

Lemma ss_filter : forall f M, ss M -> ss (filter f M).
Proof.
  intros f M S. induction S as [|x t S IH F]; [constructor|]. cbn. destruct (f x); [|exact IH].
  constructor; [exact IH|]. rewrite Forall_forall in *. intros y Hy. apply filter_In in Hy. apply F, Hy.
Qed.

(** Sorted lists with the same members are equal. *)
Lemma ss_ext : forall l1 l2, ss l1 -> ss l2 -> (forall a, In a l1 <-> In a l2) -> l1 = l2.
Proof.
  induction l1 as [|x t IH]; intros l2 S1 S2 E.
  - destruct l2 as [|y r]; [reflexivity|]. destruct (proj2 (E y)). now left.
  - destruct l2 as [|y r]; [destruct (proj1 (E x)); now left|].
    inversion S1 as [|? ? S1' F1]; inversion S2 as [|? ? S2' F2]; subst.
    rewrite Forall_forall in F1, F2.
    assert (x = y).
    { destruct (proj1 (E x) (or_introl eq_refl)) as [->|Hx]; [reflexivity|].
      destruct (proj2 (E y) (or_introl eq_refl)) as [->|Hy]; [reflexivity|].
      destruct (F1 y Hy), (F2 x Hx). lia. }
    subst y. f_equal. apply IH; [assumption|assumption|].
    intros a. split; intros Ha.
    + destruct (proj1 (E a) (or_intror Ha)) as [->|]; [|assumption]. destruct (F1 a Ha); lia.
    + destruct (proj2 (E a) (or_intror Ha)) as [->|]; [|assumption]. destruct (F2 a Ha); lia.
Qed.

(** ** The invariant *)

Definition inf (a : anchor) : info := info_of a (a_our a).
Definition entry (a : anchor) : cached := mkC (a_id a) a (a_our a).

(** [a] was imported, and nothing younger than it is older in the history. *)
Definition sufmin (h : list info) (a : anchor) : Prop :=
  exists h1 h2, h = h1 ++ inf a :: h2 /\ Forall (fun i => a_ct a <= i_ct i) h2.

(** When an older anchor was imported again after a younger one, no anchor of this shard lies
    between them. *)
Definition desc (M : list anchor) (h : list info) : Prop :=
  forall h1 x h2 y h3, h = h1 ++ x :: h2 ++ y :: h3 -> i_ct y < i_ct x ->
  forall m, In m M -> 0 < a_our m -> i_ct y < a_ct m <= i_ct x -> False.

Definition front (lo : N) (h : list info) : Prop :=
  match h with [] => True | f :: _ => lo <= i_id f + 1 end.

Record inv (M : list anchor) (lo hi : N) (c : acache) : Prop := {
  v_entry : ac_cache c = map entry (waiting c);
  v_sorted : ss (waiting c);
  v_mem : forall a, In a (waiting c) <-> In a M /\ 0 < a_our a /\ lo <= a_id a <= hi;
  v_hist : forall i, In i (ac_hist c) -> exists a, In a M /\ i = inf a;
  v_suf : forall a, In a (waiting c) -> sufmin (ac_hist c) a;
  v_pend : ac_pend c = nonempty (ac_cache c);
  v_desc : desc M (ac_hist c);
  v_front : front lo (ac_hist c) }.

Definition ok (M : list anchor) (lo : N) (c : acache) : Prop := inv M lo (last_id c) c.

Lemma desc_infix : forall M p h s, desc M (p ++ h ++ s) -> desc M h.
Proof.
  intros M p h s D h1 x h2 y h3 E. apply (D (p ++ h1) x h2 y (h3 ++ s)). rewrite E.
  repeat (rewrite <- app_assoc; cbn [app]). reflexivity.
Qed.

Lemma desc_app : forall M h y, desc M h ->
  (forall x m, In x h -> In m M -> 0 < a_our m -> i_ct y < a_ct m <= i_ct x -> False) ->
  desc M (h ++ [y]).
Proof.
  intros M h y D G h1 x h2 y' h3 E L.
  destruct (rev h3) as [|z r] eqn:R.
  - apply (f_equal (@rev _)) in R. rewrite rev_involutive in R. cbn in R. subst h3.
    replace (h1 ++ x :: h2 ++ [y']) with ((h1 ++ x :: h2) ++ [y']) in E
      by (rewrite <- app_assoc; reflexivity).
    apply app_inj_tail in E. destruct E as [-> ->].
    intros m Hm Om Lm. apply (G x m); auto. apply in_or_app. right. now left.
  - apply (f_equal (@rev _)) in R. rewrite rev_involutive in R. cbn in R. subst h3.
    replace (h1 ++ x :: h2 ++ y' :: rev r ++ [z]) with ((h1 ++ x :: h2 ++ y' :: rev r) ++ [z]) in E
      by (repeat (rewrite <- app_assoc; cbn [app]); reflexivity).
    apply app_inj_tail in E. destruct E as [-> ->].
    apply (D h1 x h2 y' (rev r) eq_refl L).
Qed.

(** With the last imported anchor as the second. *)
Lemma desc_last : forall M h l x, desc M h -> last_opt h = Some l -> In x h ->
  forall m, In m M -> 0 < a_our m -> i_ct l < a_ct m <= i_ct x -> False.
Proof.
  intros M h l x D E Hx m Hm Om L. destruct (last_opt_some _ _ E) as (p & ->).
  apply in_app_or in Hx. destruct Hx as [Hx|[<-|[]]]; [|lia].
  apply in_split in Hx. destruct Hx as (h1 & h2 & ->).
  apply (D h1 x h2 l []) with m; auto; [|lia]. rewrite <- app_assoc. reflexivity.
Qed.

Lemma front_app : forall lo h y, front lo h -> (h = [] -> lo <= i_id y + 1) -> front lo (h ++ [y]).
Proof. intros lo [|x h] y F G; cbn; auto. Qed.

Lemma sufmin_in : forall h a, sufmin h a -> In (inf a) h.
Proof. intros h a (h1 & h2 & -> & _). apply in_or_app. right. now left. Qed.

Lemma sufmin_app : forall h a i, sufmin h a -> a_ct a <= i_ct i -> sufmin (h ++ [i]) a.
Proof.
  intros h a i (h1 & h2 & -> & F) L. exists h1, (h2 ++ [i]). split.
  - rewrite <- app_assoc. reflexivity.
  - apply Forall_app. split; auto.
Qed.

Lemma sufmin_new : forall h a, sufmin (h ++ [inf a]) a.
Proof. intros h a. exists h, []. auto. Qed.

Lemma sufmin_last : forall h a i, sufmin h a -> last_opt h = Some i -> a_ct a <= i_ct i.
Proof.
  intros h a i (h1 & h2 & -> & F) L.
  rewrite last_opt_app2 in L by discriminate.
  destruct (rev h2) as [|x r] eqn:E.
  - apply (f_equal (@rev _)) in E. rewrite rev_involutive in E. subst h2. injection L as <-.
    cbn. lia.
  - apply (f_equal (@rev _)) in E. rewrite rev_involutive in E. cbn in E. subst h2.
    change (inf a :: rev r ++ [x]) with ((inf a :: rev r) ++ [x]) in L. rewrite last_opt_app in L.
    injection L as <-. apply Forall_app in F. destruct F as [_ F]. inversion F; subst. assumption.
Qed.

Lemma inv_empty : forall M lo hi, (forall a, In a M -> 0 < a_our a -> lo <= a_id a <= hi -> False) ->
  inv M lo hi ac_empty.
Proof.
  intros M lo hi X. split; cbn; try easy; [constructor| |].
  2:{ intros h1 x h2 y h3 E. destruct h1; discriminate. }
  intros a. split; [intros []|]. intros (A & B & C). exact (X a A B C).
Qed.

Lemma ok_empty : forall M lo, chain M -> ok M lo ac_empty.
Proof.
  intros M lo [_ P]. apply inv_empty. cbn. intros a A _ C. rewrite Forall_forall in P.
  specialize (P a A). lia.
Qed.

Lemma last_id_in : forall c i, last_info c = Some i -> last_id c = i_id i /\ In i (ac_hist c).
Proof.
  intros c i E. unfold last_id. rewrite E. split; [reflexivity|].
  destruct (last_opt_some _ _ E) as (p & ->). apply in_or_app. right. now left.
Qed.

(** Adding the next anchor. *)
Lemma waiting_add : forall c a, 0 < a_our a ->
  waiting (add a (a_our a) c) = waiting c ++ [a] /\
  ac_hist (add a (a_our a) c) = ac_hist c ++ [inf a].
Proof.
  intros c a P. unfold add. apply N.ltb_lt in P. rewrite P. unfold waiting. cbn.
  now rewrite map_app.
Qed.

Lemma add_zero : forall c a, a_our a = 0 -> add a (a_our a) c = add_info (inf a) c.
Proof. intros c a Z. unfold add, inf. rewrite Z. reflexivity. Qed.

Lemma last_id_info : forall c i, last_id (add_info i c) = i_id i.
Proof. intros c i. unfold last_id, last_info, add_info. cbn [ac_hist]. now rewrite last_opt_app. Qed.

Lemma last_id_add : forall c a, last_id (add a (a_our a) c) = a_id a.
Proof.
  intros c a. unfold last_id, last_info. destruct (N.eq_dec (a_our a) 0) as [Z|Z].
  - rewrite add_zero by exact Z. unfold add_info. cbn [ac_hist]. now rewrite last_opt_app.
  - destruct (waiting_add c a ltac:(lia)) as [_ ->]. now rewrite last_opt_app.
Qed.

Lemma inv_add_info : forall M lo hi c a, chain M -> inv M lo hi c -> In a M -> hi <= a_id a ->
  (forall b, In b M -> 0 < a_our b -> lo <= a_id b -> hi < a_id b <= a_id a -> False) ->
  (forall x m, In x (ac_hist c) -> In m M -> 0 < a_our m -> a_ct a < a_ct m <= i_ct x -> False) ->
  (ac_hist c = [] -> lo <= a_id a + 1) ->
  inv M lo (a_id a) (add_info (inf a) c).
Proof.
  intros M lo hi c a [S _] V Ha L G GD GF. destruct V as [V1 V2 V3 V4 V5 V6 V7 V8].
  split; unfold add_info, waiting in *; cbn [ac_cache ac_hist ac_pend] in *; auto.
  - intros b. rewrite V3. split; intros (A & B & C); repeat split; try tauto; try lia.
    destruct (N.le_gt_cases (a_id b) hi); [assumption|]. exfalso. apply (G b); auto; lia.
  - intros i Hi. apply in_app_or in Hi. destruct Hi as [Hi|[<-|[]]]; [auto|]. now exists a.
  - intros b Hb. apply sufmin_app; [auto|]. cbn. apply V3 in Hb. destruct Hb as (A & B & C).
    apply (ss_id_le M b a S A Ha). lia.
  - apply desc_app; auto.
  - apply front_app; auto.
Qed.

Lemma inv_add : forall M lo hi c a, chain M -> inv M lo hi c -> In a M -> hi < a_id a ->
  (0 < a_our a -> lo <= a_id a) ->
  (forall b, In b M -> 0 < a_our b -> lo <= a_id b -> hi < a_id b < a_id a -> False) ->
  (forall x m, In x (ac_hist c) -> In m M -> 0 < a_our m -> a_ct a < a_ct m <= i_ct x -> False) ->
  (ac_hist c = [] -> lo <= a_id a + 1) ->
  inv M lo (a_id a) (add a (a_our a) c).
Proof.
  intros M lo hi c a CH V Ha L LO G GD GF. destruct (N.eq_dec (a_our a) 0) as [Z|Z].
  - rewrite add_zero by exact Z. apply (inv_add_info M lo hi c a CH V Ha); auto; [lia|].
    intros b A B C D. destruct (N.eq_dec (a_id b) (a_id a)) as [E|E].
    + destruct CH as [S _]. destruct (ss_in M b a S A Ha) as (_ & X & _). rewrite (X E) in *. lia.
    + apply (G b); auto; lia.
  - assert (P : 0 < a_our a) by lia. destruct CH as [S _].
    specialize (LO P).
    destruct V as [V1 V2 V3 V4 V5 V6 V7 V8]. destruct (waiting_add c a P) as [W H].
    assert (LT : forall b, In b (waiting c) -> alt b a).
    { intros b Hb. apply V3 in Hb. destruct Hb as (A & B & C).
      split; [lia|]. apply (ss_in M b a S A Ha). lia. }
    split.
    + unfold add. apply N.ltb_lt in P. rewrite P. unfold waiting. cbn [ac_cache add_info].
      rewrite !map_app. cbn [map c_anchor]. rewrite V1 at 1. reflexivity.
    + rewrite W. apply ss_app; [exact V2|repeat constructor|].
      intros b x Hb [<-|[]]. auto.
    + intros b. rewrite W, in_app_iff, V3. cbn [In]. split.
      * intros [(A & B & C)|[<-|[]]]; repeat split; auto; lia.
      * intros (A & B & C). destruct (N.le_gt_cases (a_id b) hi); [left; repeat split; auto; lia|].
        right. left. destruct (N.eq_dec (a_id b) (a_id a)) as [E|E].
        -- symmetry. destruct (ss_in M b a S A Ha) as (_ & X & _). exact (X E).
        -- exfalso. apply (G b); auto; lia.
    + intros i. rewrite H, in_app_iff. intros [Hi|[<-|[]]]; [auto|]. now exists a.
    + intros b. rewrite W, H, in_app_iff. intros [Hb|[<-|[]]]; [|apply sufmin_new].
      apply sufmin_app; [auto|]. destruct (LT b Hb). cbn. lia.
    + unfold add. apply N.ltb_lt in P. rewrite P. cbn. now destruct (ac_cache c).
    + rewrite H. apply desc_app; auto.
    + rewrite H. apply front_app; auto.
Qed.

Lemma next_in_spec : forall M prev a, ss M -> next_in M prev = Some a ->
  In a M /\ prev < a_id a /\ (forall b, In b M -> prev < a_id b -> a_id a <= a_id b).
Proof.
  intros M prev a S. unfold next_in. induction S as [|x t S IH F]; [discriminate|].
  cbn [find]. destruct (N.ltb_spec prev (a_id x)) as [L|L].
  - intros [= <-]. split; [now left|]. split; [exact L|]. intros b [<-|Hb] _; [lia|].
    rewrite Forall_forall in F. destruct (F b Hb). lia.
  - intros E. destruct (IH E) as (A & B & C). split; [now right|]. split; [exact B|].
    intros b [<-|Hb] Lb; [lia|auto].
Qed.

Lemma next_in_none : forall M prev, next_in M prev = None -> forall b, In b M -> a_id b <= prev.
Proof.
  intros M prev E b Hb. unfold next_in in E. pose proof (find_none _ _ E b Hb) as X. cbn in X. lia.
Qed.

(** Nothing of this shard is left between the last import and the start of the window. *)
Lemma ok_gap : forall M lo c m, chain M -> ok M lo c -> (ac_hist c = [] -> lo = 0) ->
  In m M -> 0 < a_our m -> last_id c < a_id m -> lo <= a_id m.
Proof.
  intros M lo c m [S _] V HE Hm Om L. destruct V as [_ _ _ V4 _ _ V7 V8].
  destruct (last_info c) as [l|] eqn:EL.
  - destruct (last_id_in _ _ EL) as [E Hl]. rewrite E in L.
    destruct (ac_hist c) as [|f h] eqn:EH; [destruct Hl|]. cbn [front] in V8.
    destruct (N.le_gt_cases lo (a_id m)) as [X|X]; [exact X|]. exfalso.
    destruct (V4 l Hl) as (la & Hla & El). destruct (V4 f (or_introl eq_refl)) as (fa & Hfa & Ef).
    unfold last_info in EL. rewrite EH in EL.
    apply (desc_last M (f :: h) l f V7 EL (or_introl eq_refl) m Hm Om).
    subst l f. cbn [i_id i_ct inf info_of] in *.
    split; [apply (ss_in M la m S Hla Hm); exact L|]. apply (ss_id_le M m fa S Hm Hfa). lia.
  - rewrite HE; [lia|]. apply last_opt_none, EL.
Qed.

Lemma ok_next : forall M lo c k, chain M -> ok M lo c -> (ac_hist c = [] -> lo = 0) ->
  ok M lo (fst (import_next M k c)) /\ last_id c <= last_id (fst (import_next M k c)) /\
  (ac_hist (fst (import_next M k c)) = [] -> lo = 0).
Proof.
  intros M lo c k CH V HE. unfold import_next. destruct k; [|split; [exact V|cbn; split; [lia|exact HE]]].
  destruct (next_in M (last_id c)) as [a|] eqn:E; [|split; [exact V|cbn; split; [lia|exact HE]]].
  destruct (next_in_spec M _ a (proj1 CH) E) as (A & B & C). cbn [fst].
  unfold ok. rewrite last_id_add. split; [|split; [lia|]].
  - apply (inv_add M lo (last_id c)); auto.
    + intros P. apply (ok_gap M lo c a); auto.
    + intros b Hb Ob Lb D. specialize (C b Hb). lia.
    + intros x m Hx Hm Om L. pose proof (v_hist _ _ _ _ V) as V4. pose proof (v_desc _ _ _ _ V) as V7.
      destruct (last_info c) as [l|] eqn:EL.
      * destruct (last_id_in _ _ EL) as [E2 Hl]. destruct (V4 l Hl) as (la & Hla & El).
        apply (desc_last M _ l x V7 EL Hx m Hm Om). rewrite E2 in B. subst l.
        cbn [i_id i_ct inf info_of] in *. apply (ss_in M la a (proj1 CH) Hla A) in B. lia.
      * apply last_opt_none in EL. rewrite EL in Hx. destruct Hx.
    + intros Z. rewrite (HE Z). lia.
  - intros Z. exfalso. unfold add in Z. destruct (0 <? a_our a); cbn in Z;
      destruct (ac_hist c); discriminate.
Qed.

(** Popping the front. *)
Lemma ok_pop : forall M lo hi c c' k a, chain M -> inv M lo hi c -> pop_front c = (c', Some (k, a)) ->
  inv M (a_id a + 1) hi c' /\ last_id c' = last_id c /\ waiting c = a :: waiting c' /\ k = a_id a /\
  lo <= a_id a.
Proof.
  intros M lo hi c c' k a [S _] V E. unfold pop_front in E.
  destruct V as [V1 V2 V3 V4 V5 V6 V7 V8]. unfold waiting in *.
  destruct c as [[|x t] h p]; cbn [ac_cache ac_hist ac_pend] in *; [discriminate|].
  injection E as <- <- <-. cbn [ac_cache ac_hist ac_pend map] in *.
  injection V1 as X T. apply (f_equal c_key) in X. cbn [c_key entry] in X.
  revert X V2 V3 V5. generalize (c_anchor x) as a. intros a X V2 V3 V5. inversion V2 as [|? ? V2' F]; subst. rewrite Forall_forall in F.
  assert (HA : In a M /\ 0 < a_our a /\ lo <= a_id a <= hi) by (apply V3; now left).
  split; [|split; [|split; [reflexivity|split; [exact X|lia]]]].
  - split; cbn [ac_cache ac_hist ac_pend]; unfold waiting; cbn [ac_cache].
    + exact T.
    + exact V2'.
    + intros b. split.
      * intros Hb. destruct (F b Hb). destruct (proj1 (V3 b) (or_intror Hb)) as (A & B & C).
        repeat split; auto; lia.
      * intros (A & B & C). destruct (proj2 (V3 b)) as [<-|Hb]; [repeat split; auto; lia|lia|exact Hb].
    + intros i Hi. destruct (drop_before_split (a_ct a) h) as (pre & E & _).
      apply V4. rewrite E. apply in_or_app. now right.
    + intros b Hb. destruct (F b Hb) as [_ Lb]. destruct (V5 b (or_intror Hb)) as (h1 & h2 & E & G).
      destruct (drop_before_split (a_ct a) h) as (pre & E2 & P). rewrite Forall_forall in P.
      rewrite E in E2.
      assert (exists h1', drop_before (a_ct a) h = h1' ++ inf b :: h2) as (h1' & E3).
      { rewrite <- E in *. clear - E2 P Lb E. subst h. revert E2 P.
        generalize (drop_before (a_ct a) (h1 ++ inf b :: h2)). revert h1.
        induction pre as [|y pre IH]; intros h1 d E2 P.
        - cbn in E2. exists h1. now rewrite E2.
        - destruct h1 as [|z h1]; cbn in E2; injection E2 as Y E2.
          + specialize (P y (or_introl eq_refl)). subst y. cbn in P. lia.
          + apply (IH h1 d E2). intros i Hi. apply P. now right. }
      exists h1', h2. split; [exact E3|exact G].
    + reflexivity.
    + destruct (drop_before_split (a_ct a) h) as (pre & E & _). rewrite E in V7.
      apply (desc_infix M pre _ []). now rewrite app_nil_r.
    + destruct (V5 a (or_introl eq_refl)) as (h1 & h2 & E & G).
      assert (FR : forall f q, drop_before (a_ct a) h = f :: q -> a_ct a <= i_ct f).
      { subst h. clear - G. induction h1 as [|y h1 IH]; intros f q D.
        - cbn [app] in D. destruct h2 as [|z h2]; cbn in D.
          + injection D as <- _. cbn. lia.
          + rewrite N.ltb_irrefl in D. injection D as <- _. cbn. lia.
        - cbn [app] in D. destruct (h1 ++ inf a :: h2) as [|z w] eqn:W; [destruct h1; discriminate|].
          change (drop_before (a_ct a) (y :: z :: w)) with
            (if i_ct y <? a_ct a then drop_before (a_ct a) (z :: w) else y :: z :: w) in D.
          destruct (N.ltb_spec (i_ct y) (a_ct a)).
          + apply (IH f q D).
          + injection D as <- _. assumption. }
      destruct (drop_before (a_ct a) h) as [|f q] eqn:D; [exact I|]. cbn [front].
      specialize (FR f q eq_refl).
      assert (Hf : In f h).
      { destruct (drop_before_split (a_ct a) h) as (pre & E2 & _). rewrite E2, D.
        apply in_or_app. right. now left. }
      destruct (V4 f Hf) as (fa & Hfa & ->). cbn [i_ct i_id inf info_of] in *.
      destruct HA as (HA & _). apply (ss_id_le M a fa S HA Hfa) in FR. lia.
  - unfold last_id, last_info. cbn [ac_hist]. now rewrite drop_before_last.
Qed.

(** Cutting the tail. *)
Lemma cut_spec : forall M lo hi c ct, chain M -> inv M lo hi c ->
  ac_cache (fst (remove_above ct c)) = map entry (waiting (fst (remove_above ct c))) /\
  ss (waiting (fst (remove_above ct c))) /\
  (forall a, In a (waiting (fst (remove_above ct c))) <-> In a (waiting c) /\ a_ct a <= ct) /\
  ac_pend (fst (remove_above ct c)) = nonempty (ac_cache (fst (remove_above ct c))).
Proof.
  intros M lo hi c ct [S _] V. unfold remove_above, waiting. cbn [fst ac_cache ac_pend].
  destruct V as [V1 V2 V3 V4 V5 V6 _ _]. unfold waiting in *.
  destruct (cut_rev_split ct (rev (ac_cache c))) as (suf & E & F & G).
  set (k := rev (cut_rev ct (rev (ac_cache c)))) in *.
  assert (EC : ac_cache c = k ++ rev suf).
  { unfold k. rewrite <- rev_app_distr, <- E. now rewrite rev_involutive. }
  assert (GK : forall x, In x k -> a_ct (c_anchor x) <= ct).
  { rewrite EC, map_app in V2. apply ss_app_inv in V2. destruct V2 as (V2 & _ & _).
    unfold k in *. destruct (cut_rev ct (rev (ac_cache c))) as [|y r]; [intros x []|].
    cbn [rev] in *. intros x Hx. apply in_app_or in Hx. destruct Hx as [Hx|[<-|[]]]; [|exact G].
    rewrite map_app in V2. apply ss_app_inv in V2. destruct V2 as (_ & _ & X).
    destruct (X (c_anchor x) (c_anchor y)); [now apply in_map|cbn; auto|]. lia. }
  rewrite EC, !map_app in V1.
  assert (V1' : k = map entry (map c_anchor k) /\ rev suf = map entry (map c_anchor (rev suf))).
  { assert (L : length k = length (map entry (map c_anchor k))) by (now rewrite !map_length).
    revert V1 L. generalize (map entry (map c_anchor k)), (map entry (map c_anchor (rev suf))).
    generalize (rev suf). clear. induction k as [|x t IH]; intros u l1 l2 E L.
    - destruct l1; [now split|discriminate].
    - destruct l1 as [|y l1]; [discriminate|]. cbn in E, L. injection E as -> E. injection L as L.
      destruct (IH _ _ _ E L) as [-> ->]. now split. }
  split; [apply V1'|]. split.
  - rewrite EC, map_app in V2. now apply ss_app_inv in V2.
  - split.
    + intros a. split.
      * intros Ha. split; [rewrite EC, map_app; apply in_or_app; now left|].
        apply in_map_iff in Ha. destruct Ha as (x & <- & Hx). auto.
      * intros [Ha Hct]. rewrite EC, map_app in Ha. apply in_app_or in Ha.
        destruct Ha as [Ha|Ha]; [exact Ha|]. exfalso.
        apply in_map_iff in Ha. destruct Ha as (x & <- & Hx). apply in_rev in Hx.
        rewrite Forall_forall in F. specialize (F x Hx). lia.
    + destruct (Nat.ltb_spec (length k) (length (ac_cache c))) as [L|L]; [reflexivity|].
      rewrite V6. rewrite EC, app_length in *. destruct (rev suf) as [|y r]; [now rewrite app_nil_r|].
      cbn [length] in L. lia.
Qed.

Lemma ok_above : forall M lo c ct, chain M -> ok M lo c ->
  (covered ct c -> ok M lo (fst (remove_above ct c)) /\ 
     exists i, last_info (fst (remove_above ct c)) = Some i /\ i_ct i <= ct) /\
  (exists lo', ok M lo' (fst (remove_above ct c)) /\
     (waiting (fst (remove_above ct c)) <> [] -> lo' = lo)) /\
  (waiting (fst (remove_above ct c)) <> [] -> covered ct c).
Proof.
  intros M lo c ct CH V. unfold ok in V.
  destruct (cut_spec M lo _ c ct CH V) as (C1 & C2 & C3 & C4).
  set (c' := fst (remove_above ct c)) in *.
  assert (HH : ac_hist c' = drop_above ct (ac_hist c)) by reflexivity.
  destruct (drop_above_split ct (ac_hist c)) as (suf & EH & FH). rewrite <- HH in EH.
  rewrite Forall_forall in FH.
  destruct V as [V1 V2 V3 V4 V5 V6 V7 V8]. pose proof (proj1 CH) as S.
  assert (V7' : desc M (ac_hist c')) by (rewrite EH in V7; exact (desc_infix M [] _ _ V7)).
  assert (V8' : front lo (ac_hist c')).
  { rewrite EH in V8. destruct (ac_hist c'); [exact I|exact V8]. }
  assert (V4' : forall i, In i (ac_hist c') -> exists a, In a M /\ i = inf a).
  { intros i Hi. apply V4. rewrite EH. apply in_or_app. now left. }
  assert (V5' : forall a, In a (waiting c') -> sufmin (ac_hist c') a).
  { intros a Ha. apply C3 in Ha. destruct Ha as [Ha Lct].
    destruct (V5 a Ha) as (h1 & h2 & E & F). rewrite E in EH.
    assert (exists h2', ac_hist c' = h1 ++ inf a :: h2' /\ incl h2' h2) as (h2' & E' & I').
    { clear - EH FH Lct. revert EH. generalize (ac_hist c'). induction h1 as [|y h1 IH]; intros d EH.
      - destruct d as [|z d]; cbn in EH.
        + exfalso. assert (In (inf a) suf) by (rewrite <- EH; now left).
          specialize (FH _ H). cbn in FH. lia.
        + injection EH as <- ->. exists d. split; [reflexivity|]. intros i Hi. apply in_or_app. now left.
      - destruct d as [|z d]; cbn in EH.
        + exfalso. assert (In (inf a) suf).
          { rewrite <- EH. right. apply in_or_app. right. now left. }
          specialize (FH _ H). cbn in FH. lia.
        + injection EH as <- EH. destruct (IH d EH) as (h2' & -> & I'). exists h2'. split; auto. }
    exists h1, h2'. split; [exact E'|]. rewrite Forall_forall in *. auto. }
  assert (COV : covered ct c -> ok M lo c' /\ exists i, last_info c' = Some i /\ i_ct i <= ct).
  { intros CV. destruct (drop_above_covered ct (ac_hist c) CV) as (p & l & EL & LL).
    assert (LI : last_info c' = Some l) by (unfold last_info; rewrite HH, EL; apply last_opt_app).
    split; [|exists l; auto].
    unfold ok. destruct (last_id_in _ _ LI) as [-> Hl].
    destruct (V4' l Hl) as (la & Hla & El). subst l. cbn [i_id inf info_of i_ct] in *.
    split; auto. intros a. rewrite C3, V3. split.
    - intros ((A & B & C) & D). repeat split; auto; [lia|].
      assert (Ha : In a (waiting c')) by (apply C3; split; [apply V3; auto|exact D]).
      pose proof (sufmin_last _ _ _ (V5' a Ha) LI) as X. cbn in X.
      apply (ss_id_le M a la S A Hla). exact X.
    - intros (A & B & C). assert (L : a_ct a <= a_ct la) by (apply (ss_id_le M a la S A Hla); lia).
      split; [|lia]. repeat split; auto; [lia|].
      (* id la <= last_id c *)
      enough (a_id la <= last_id c) by lia.
      unfold last_id. destruct (last_info c) as [m|] eqn:EM.
      + destruct (last_id_in _ _ EM) as [_ Hm]. destruct (V4 m Hm) as (ma & Hma & ->).
        cbn [i_id inf info_of]. apply (ss_id_le M la ma S Hla Hma).
        destruct suf as [|z suf].
        * rewrite app_nil_r in EH. unfold last_info in EM, LI. rewrite EH in EM.
          rewrite EM in LI. injection LI as E1 E2 _ _ _. lia.
        * unfold last_info in EM. rewrite EH in EM. rewrite last_opt_app2 in EM by discriminate.
          destruct (last_opt_some _ _ EM) as (q & Q).
          assert (In (inf ma) (z :: suf)) by (rewrite Q; apply in_or_app; right; now left).
          specialize (FH _ H). cbn in FH. lia.
      + apply last_opt_none in EM. rewrite EM in EH.
        destruct (ac_hist c'); [destruct Hl|discriminate]. }
  assert (NE : waiting c' <> [] -> covered ct c).
  { intros N. destruct (waiting c') as [|a t] eqn:W; [easy|].
    assert (Ha : In a (waiting c) /\ a_ct a <= ct) by (apply C3; now left).
    exists (inf a). split; [apply sufmin_in, V5, Ha|]. cbn. apply Ha. }
  split; [exact COV|]. split; [|exact NE].
  destruct (existsb (fun i => i_ct i <=? ct) (ac_hist c)) eqn:EX.
  - apply existsb_exists in EX. destruct EX as (i & Hi & Li).
    exists lo. split; [|reflexivity]. apply COV. exists i. split; [exact Hi|lia].
  - assert (NC : ~ covered ct c).
    { intros (i & Hi & Li). assert (existsb (fun i => i_ct i <=? ct) (ac_hist c) = true); [|congruence].
      apply existsb_exists. exists i. split; [exact Hi|lia]. }
    assert (W : waiting c' = []).
    { destruct (waiting c') eqn:W; [reflexivity|]. destruct NC. apply NE. discriminate. }
    exists (last_id c' + 1). split; [|rewrite W; easy]. unfold ok. split; auto.
    + intros b. rewrite W. split; [intros []|]. intros (_ & _ & X). lia.
    + destruct (ac_hist c') as [|f h] eqn:EF; [exact I|]. cbn [front].
      destruct (drop_above_rev_split ct (rev (ac_hist c))) as (sf & ES & FS & G).
      unfold drop_above in HH. destruct (drop_above_rev ct (rev (ac_hist c))) as [|x t]; [discriminate|].
      destruct G as [G|G].
      * destruct NC. exists x. split; [|exact G]. apply in_rev. rewrite ES. apply in_or_app. right. now left.
      * subst t. cbn in HH. injection HH as -> ->. unfold last_id, last_info. rewrite EF. cbn. lia.
Qed.

Lemma above_hist_nil : forall ct c, ac_hist (fst (remove_above ct c)) = [] -> ac_hist c = [].
Proof.
  intros ct c E. cbn in E. unfold drop_above in E.
  destruct (drop_above_rev_split ct (rev (ac_hist c))) as (suf & ES & _ & G).
  destruct (drop_above_rev ct (rev (ac_hist c))) as [|x t].
  - apply (f_equal (@rev _)) in G. now rewrite rev_involutive in G.
  - cbn in E. destruct (rev t); discriminate.
Qed.
