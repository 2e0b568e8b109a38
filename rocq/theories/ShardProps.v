(** C29: the shard split plan.

    Specification: a shard denotes the set of accounts whose address starts with its path;
    [below a b]: [b] is [a] or one of its descendants. [apply_actions] executes a plan on a list of
    shards, failing when it splits or merges a shard that is not there. [tiles s l]: [l] is a
    subdivision of [s] obtained by halving. *)
From Coq Require Import List Bool ZArith Lia Permutation Wf_nat.
From Verif Require Import ShardModel.
Import ListNotations.

Definition below (a b : shard) : Prop := wc a = wc b /\ exists t, path b = path a ++ t.
Definition sbelow (a b : shard) : Prop := wc a = wc b /\ exists x t, path b = path a ++ x :: t.
Definition comparable (a b : shard) : Prop := below a b \/ below b a.
Definition antichain (l : list shard) : Prop := ForallOrdPairs (fun a b => ~ comparable a b) l.
Definition valid (s : shard) : Prop := length (path s) <= max_split_depth.

Inductive tiles : shard -> list shard -> Prop :=
| tiles_leaf s : tiles s [s]
| tiles_node s a b c : tiles (child s false) a -> tiles (child s true) b ->
    Permutation c (a ++ b) -> tiles s c.

(** executing a plan *)
Definition sdec (a b : shard) : {a = b} + {a <> b}.
Proof. decide equality; [apply (list_eq_dec Bool.bool_dec)|apply Z.eq_dec]. Defined.
Definition parent (s : shard) : option shard :=
  match path s with [] => None | _ => Some (MkShard (wc s) (removelast (path s))) end.
Definition rm1 (s : shard) (l : list shard) : option (list shard) :=
  if in_dec sdec s l then Some (remove sdec s l) else None.
Definition apply1 (a : action) (l : list shard) : option (list shard) :=
  match a with
  | Add s => if in_dec sdec s l then None else Some (s :: l)
  | Split s => match rm1 s l with Some l => Some (child s false :: child s true :: l) | None => None end
  | Merge a b =>
      match parent a, rm1 a l with
      | Some p, Some l1 =>
          match rm1 b l1 with
          | Some l2 => if sdec b (child p (negb (last (path a) false))) then Some (p :: l2) else None
          | None => None end
      | _, _ => None
      end
  end.
Fixpoint apply_actions (acts : list action) (l : list shard) : option (list shard) :=
  match acts with
  | [] => Some l
  | a :: r => match apply1 a l with Some l => apply_actions r l | None => None end
  end.

(** ** basic facts *)
Lemma list_bool_eqb_spec a : forall b, list_bool_eqb a b = true <-> a = b.
Proof.
  induction a as [|x a IH]; intros [|y b]; cbn; try (split; congruence).
  rewrite andb_true_iff, IH, Bool.eqb_true_iff. split; [intros []|intros E; inversion E]; subst; auto.
Qed.
Lemma shard_eqb_spec a b : shard_eqb a b = true <-> a = b.
Proof.
  unfold shard_eqb. rewrite andb_true_iff, Z.eqb_eq, list_bool_eqb_spec. destruct a, b; cbn.
  split; [intros []|intros E; inversion E]; subst; auto.
Qed.
Lemma proper_prefix_spec a : forall b, proper_prefix a b = true <-> exists x t, b = a ++ x :: t.
Proof.
  induction a as [|x a IH]; intros [|y b]; cbn.
  - split; [discriminate|]. intros [x [t E]]. discriminate.
  - split; [eauto|reflexivity].
  - split; [discriminate|]. intros [z [t E]]. discriminate.
  - rewrite andb_true_iff, IH, Bool.eqb_true_iff. split.
    + intros [-> [z [t ->]]]. eauto.
    + intros [z [t E]]. inversion E; subst. eauto.
Qed.
Lemma is_ancestor_spec a b : is_ancestor_of a b = true <-> sbelow a b.
Proof. unfold is_ancestor_of, sbelow. rewrite andb_true_iff, Z.eqb_eq, proper_prefix_spec. reflexivity. Qed.

Lemma app_same_l {X} (a t : list X) : a = a ++ t -> t = [].
Proof. intros E. apply (f_equal (@length X)) in E. rewrite app_length in E. destruct t; [reflexivity|]. cbn in E. lia. Qed.
Lemma below_refl a : below a a. Proof. split; [reflexivity|]. exists []. rewrite app_nil_r. reflexivity. Qed.
Lemma sbelow_below a b : sbelow a b -> below a b.
Proof. intros [E [x [t H]]]. split; [exact E|]. eauto. Qed.
Lemma below_trans a b c : below a b -> below b c -> below a c.
Proof. intros [E [t H]] [E2 [t2 H2]]. split; [congruence|]. exists (t ++ t2). rewrite H2, H, app_assoc. reflexivity. Qed.
Lemma below_sbelow_trans a b c : below a b -> sbelow b c -> sbelow a c.
Proof.
  intros [E [t H]] [E2 [x [t2 H2]]]. split; [congruence|]. rewrite H2, H, <- app_assoc.
  destruct t as [|y t]; cbn; eauto.
Qed.
Lemma sbelow_below_trans a b c : sbelow a b -> below b c -> sbelow a c.
Proof.
  intros [E [x [t H]]] [E2 [t2 H2]]. split; [congruence|]. exists x, (t ++ t2). rewrite H2, H, <- app_assoc. reflexivity.
Qed.
Lemma sbelow_irrefl a : ~ sbelow a a.
Proof. intros [_ [x [t H]]]. apply app_same_l in H. discriminate. Qed.
Lemma sbelow_asym a b : sbelow a b -> ~ below b a.
Proof. intros H H2. apply (sbelow_irrefl a). eapply sbelow_below_trans; eassumption. Qed.
Lemma shard_ext a b : wc a = wc b -> path a = path b -> a = b.
Proof. destruct a, b; cbn; intros; subst; reflexivity. Qed.
Lemma below_cases a b : below a b -> a = b \/ sbelow a b.
Proof.
  intros [E [[|x t] H]].
  - left. apply shard_ext; [exact E|]. rewrite H, app_nil_r. reflexivity.
  - right. split; eauto.
Qed.
(** two ancestors of one shard are comparable *)
Lemma ancestors_comparable a b c : below a c -> below b c -> comparable a b.
Proof.
  intros [E1 [t1 H1]] [E2 [t2 H2]]. rewrite H1 in H2. clear H1.
  assert (G : forall (p q : list bool) t1 t2, p ++ t1 = q ++ t2 -> (exists u, q = p ++ u) \/ (exists u, p = q ++ u)).
  { clear. induction p as [|x p IH]; intros [|y q] t1 t2 H; cbn in *; eauto.
    inversion H; subst. destruct (IH q t1 t2 H2) as [[u ->]|[u ->]]; eauto. }
  destruct (G _ _ _ _ H2) as [[u G1]|[u G1]]; [left|right]; split; try congruence; eauto.
Qed.
Lemma child_below s b : sbelow s (child s b).
Proof. split; [reflexivity|]. exists b, []. reflexivity. Qed.
Lemma below_child s t : sbelow s t -> exists b, below (child s b) t.
Proof.
  intros [E [x [t' H]]]. exists x. split; [exact E|]. exists t'. cbn. rewrite H, <- app_assoc. reflexivity.
Qed.
Lemma child_inj s s' b b' : child s b = child s' b' -> s = s' /\ b = b'.
Proof.
  unfold child. intros E. inversion E as [[E1 E2]]. apply app_inj_tail in E2. destruct E2. split; [|assumption].
  apply shard_ext; assumption.
Qed.
Lemma children_incomparable s : ~ comparable (child s false) (child s true).
Proof.
  intros [[_ [t H]]|[_ [t H]]]; cbn in H; rewrite <- app_assoc in H; apply app_inv_head in H; discriminate.
Qed.
Lemma child_not_below s b b' t : below (child s b) t -> below (child s b') t -> b = b'.
Proof.
  intros [_ [u H]] [_ [v G]]. rewrite H in G. cbn in G. rewrite <- !app_assoc in G. apply app_inv_head in G.
  inversion G. reflexivity.
Qed.
Lemma below_le a b : below a b -> length (path a) <= length (path b).
Proof. intros [_ [t H]]. rewrite H, app_length. lia. Qed.
Lemma sbelow_lt a b : sbelow a b -> length (path a) < length (path b).
Proof. intros [_ [x [t H]]]. rewrite H, app_length. cbn. lia. Qed.

(** between [s] and one of its strict descendants there is nothing but [s] and what is below the
    children *)
Lemma below_split s0 s : below s0 s <-> s = s0 \/ below (child s0 false) s \/ below (child s0 true) s.
Proof.
  split.
  - intros H. destruct (below_cases _ _ H) as [->|H2]; [auto|]. destruct (below_child _ _ H2) as [[] B]; auto.
  - intros [->|[H|H]]; [apply below_refl| |]; (eapply below_trans; [apply sbelow_below, child_below|exact H]).
Qed.

(** ** the scan *)
Lemma scan_spec f act tos :
  let '(o, ch, rest) := scan f act tos in
  (forall t, In t ch <-> In t tos /\ sbelow f t) /\
  (forall t, In t rest <-> In t tos /\ t <> f /\ ~ sbelow f t /\ ~ sbelow t f) /\
  (exists k, o = concat (repeat (opt_list act) k) /\ (In f tos -> k <> 0)).
Proof.
  induction tos as [|t tos IH]; cbn.
  - split; [tauto|]. split; [tauto|]. exists 0. split; [reflexivity|]. tauto.
  - destruct (scan f act tos) as [[o ch] rest]. destruct IH as [H1 [H2 [k [H3 H4]]]].
    destruct (shard_eqb f t) eqn:E1.
    { apply shard_eqb_spec in E1. subst t. split; [|split].
      - intros t. rewrite H1. split; [tauto|]. intros [[<-|I] S]; [destruct (sbelow_irrefl _ S)|tauto].
      - intros t. rewrite H2. split; [tauto|]. intros [[<-|I] R]; [destruct R; congruence|tauto].
      - exists (S k). subst o. split; [reflexivity|]. lia. }
    assert (N : f <> t) by (intros ->; rewrite (proj2 (shard_eqb_spec t t) eq_refl) in E1; discriminate).
    destruct (is_ancestor_of f t) eqn:E2.
    { apply is_ancestor_spec in E2. split; [|split].
      - intros t'. cbn. rewrite H1. split; [intros [<-|[I S]]; auto|]. intros [[<-|I] S]; auto.
      - intros t'. rewrite H2. split; [intros [I R]; auto|]. intros [[<-|I] R]; [tauto|auto].
      - exists k. split; [exact H3|]. intros [->|I]; [congruence|auto]. }
    assert (N2 : ~ sbelow f t) by (rewrite <- is_ancestor_spec, E2; discriminate).
    destruct (is_ancestor_of t f) eqn:E3.
    { apply is_ancestor_spec in E3. split; [|split].
      - intros t'. rewrite H1. split; [intros [I S]; auto|]. intros [[<-|I] S]; [tauto|auto].
      - intros t'. rewrite H2. split; [intros [I R]; auto|]. intros [[<-|I] R]; [tauto|auto].
      - exists k. split; [exact H3|]. intros [->|I]; [congruence|auto]. }
    assert (N3 : ~ sbelow t f) by (rewrite <- is_ancestor_spec, E3; discriminate).
    split; [|split].
    + intros t'. rewrite H1. split; [intros [I S]; auto|]. intros [[<-|I] S]; [tauto|auto].
    + intros t'. cbn. rewrite H2. split; [|intros [[<-|I] R]; auto].
      intros [<-|[I R]]; [|auto]. split; [auto|]. split; [congruence|auto].
    + exists k. split; [exact H3|]. intros [->|I]; [congruence|auto].
Qed.

Lemma loop_more fuel : forall q rest out r, loop fuel q rest out = Some r -> loop (S fuel) q rest out = Some r.
Proof.
  induction fuel as [|fuel IH]; intros q rest out r H; [discriminate|].
  destruct q as [|[f sub act|ch act] q]; [exact H| |].
  - cbn [loop] in H |- *. destruct (scan f act _) as [[o ch] rest']. destruct (isnil ch); apply IH, H.
  - cbn [loop] in H |- *. destruct act; [apply IH, H| |apply IH, H].
    destruct (split s) as [[l r']|]; [apply IH, H|exact H].
Qed.
Lemma loop_mono n m q rest out r : n <= m -> loop n q rest out = Some r -> loop m q rest out = Some r.
Proof. induction 1; [auto|]. intros. apply loop_more. auto. Qed.

(** ** the queue as items *)
Record item := MkItem { it_pair : bool; it_ch : list shard; it_s : shard }.
Definition conc (i : item) : list pstep :=
  if it_pair i
  then [CheckAction (child (it_s i) false) (Some (it_ch i)) (Some (Split (it_s i)));
        CheckAction (child (it_s i) true) None (Some (Split (it_s i)))]
  else [DoAction (it_ch i) (Split (it_s i))].
Definition item_ok (i : item) : Prop :=
  it_ch i <> [] /\ forall t, In t (it_ch i) -> sbelow (it_s i) t /\ valid t.
Definition want (items : list item) (s : shard) : Prop :=
  exists i, In i items /\ below (it_s i) s /\ exists t, In t (it_ch i) /\ sbelow s t.
Definition roots (items : list item) : list shard := map it_s items.

Inductive rep : list shard -> list action -> Prop :=
| rep_nil : rep [] []
| rep_cons s ds k o : rep ds o -> rep (s :: ds) (repeat (Split s) (S k) ++ o).

Definition plan (items : list item) (ds : list shard) : Prop :=
  (forall s, In s ds <-> want items s) /\ NoDup ds /\
  (forall pre s post, ds = pre ++ s :: post ->
     In s (roots items) \/ exists p b, s = child p b /\ In p pre).

Fixpoint sum (l : list nat) : nat := match l with [] => 0 | x :: r => x + sum r end.
Definition mt (s : shard) (ch : list shard) : nat := sum (map (fun t => 3 * (length (path t) - length (path s))) ch).
Definition m1 (i : item) : nat := mt (it_s i) (it_ch i) + if it_pair i then 0 else 1.
Definition measure (items : list item) : nat := sum (map m1 items).
Lemma measure_app a b : measure (a ++ b) = measure a + measure b.
Proof. unfold measure. rewrite map_app. generalize (map m1 b). intros l. induction (map m1 a) as [|x r IH]; [reflexivity|]. cbn [app sum]. lia. Qed.

Lemma concat_repeat_single {X} (a : X) k : concat (repeat [a] k) = repeat a k.
Proof. induction k; cbn; congruence. Qed.

Lemma foP_app {X} (R : X -> X -> Prop) (a b : list X) :
  ForallOrdPairs R (a ++ b) <-> ForallOrdPairs R a /\ ForallOrdPairs R b /\ (forall x y, In x a -> In y b -> R x y).
Proof.
  induction a as [|x a IH]; cbn.
  - split; [|tauto]. intros H. split; [constructor|]. tauto.
  - split.
    + intros H. inversion H; subst. apply IH in H3. destruct H3 as [H3 [H4 H5]].
      rewrite Forall_app in H2. destruct H2 as [H2 H6]. split; [constructor; assumption|]. split; [exact H4|].
      intros u v [->|I] J; [|auto]. rewrite Forall_forall in H6. auto.
    + intros [H1 [H2 H3]]. inversion H1; subst. constructor.
      * apply Forall_app. split; [assumption|]. apply Forall_forall. intros y J. apply H3; auto.
      * apply IH. split; [assumption|]. split; [assumption|]. auto.
Qed.

Lemma scan_measure f act tos :
  let '(o, ch, rest) := scan f act tos in
  forall w, sum (map w ch) + sum (map w rest) <= sum (map w tos).
Proof.
  induction tos as [|t tos IH]; cbn [scan]; [cbn; lia|].
  destruct (scan f act tos) as [[o ch] rest].
  destruct (shard_eqb f t); [intros w; specialize (IH w); cbn [map sum]; lia|].
  destruct (is_ancestor_of f t); [intros w; specialize (IH w); cbn [map sum]; lia|].
  destruct (is_ancestor_of t f); intros w; specialize (IH w); cbn [map sum]; lia.
Qed.

Lemma mt_child s b ch : (forall t, In t ch -> sbelow (child s b) t) ->
  mt (child s b) ch + 3 * length ch <= sum (map (fun t => 3 * (length (path t) - length (path s))) ch).
Proof.
  unfold mt. induction ch as [|t ch IH]; intros H; cbn; [lia|].
  specialize (IH (fun t I => H t (or_intror I))).
  pose proof (sbelow_lt _ _ (H t (or_introl eq_refl))) as L. cbn [child path] in L. rewrite app_length in L. cbn in L.
  cbn [child path]. rewrite app_length. cbn [length]. cbn in IH. rewrite app_length in IH. cbn in IH. lia.
Qed.

Definition mk_do (ch : list shard) (s : shard) : list item := if isnil ch then [] else [MkItem false ch s].
Lemma isnil_spec {X} (l : list X) : isnil l = true <-> l = [].
Proof. destruct l; cbn; split; congruence. Qed.

Lemma loop_items n : forall items rest out,
  measure items < n -> Forall item_ok items -> antichain (roots items) ->
  exists fuel ds o, loop fuel (flat_map conc items) rest out = Some (Some (out ++ o)) /\
    rep ds o /\ plan items ds.
Proof.
  induction n as [n IH] using lt_wf_ind. intros items rest out M OK AC.
  destruct items as [|i items].
  { exists 1, [], []. rewrite app_nil_r. split; [reflexivity|]. split; [constructor|].
    split; [|split; [constructor|]].
    - intros s. split; [intros []|]. intros [i [[] _]].
    - intros [|x pre] s post E; discriminate. }
  inversion OK as [|? ? OK1 OK2]; subst. destruct i as [[] ch s].
  - (* a pair of checks *)
    destruct OK1 as [NE CH]. cbn [it_ch it_s] in NE, CH.
    pose proof (scan_spec (child s false) (Some (Split s)) ch) as S1.
    pose proof (scan_measure (child s false) (Some (Split s)) ch) as M1.
    destruct (scan (child s false) (Some (Split s)) ch) as [[o1 c1] r1] eqn:E1.
    destruct S1 as [A1 [B1 [k1 [O1 K1]]]].
    pose proof (scan_spec (child s true) (Some (Split s)) r1) as S2.
    pose proof (scan_measure (child s true) (Some (Split s)) r1) as M2.
    destruct (scan (child s true) (Some (Split s)) r1) as [[o2 c2] r2] eqn:E2.
    destruct S2 as [A2 [B2 [k2 [O2 K2]]]].
    cbn [opt_list] in O1, O2. rewrite concat_repeat_single in O1, O2.
    (* membership in the right part *)
    assert (R1 : forall t, In t ch -> below (child s true) t -> In t r1).
    { intros t I Bt. apply B1. split; [exact I|]. split; [|split].
      - intros ->. apply (children_incomparable s). right. exact Bt.
      - intros C. apply sbelow_below in C. pose proof (child_not_below _ _ _ _ Bt C). discriminate.
      - intros C. apply (children_incomparable s). right. eapply below_trans; [exact Bt|]. apply sbelow_below, C. }
    assert (A2' : forall t, In t c2 <-> In t ch /\ sbelow (child s true) t).
    { intros t. rewrite A2. split.
      - intros [I S]. apply B1 in I. tauto.
      - intros [I S]. split; [|exact S]. apply R1; [exact I|apply sbelow_below, S]. }
    set (items' := items ++ mk_do c1 (child s false) ++ mk_do c2 (child s true)).
    assert (Hm : measure items' < measure (MkItem true ch s :: items)).
    { unfold items'. rewrite !measure_app. change (MkItem true ch s :: items) with ([MkItem true ch s] ++ items).
      rewrite measure_app. unfold measure at 4. cbn [map sum m1 it_pair it_ch it_s].
      unfold m1. cbn [it_pair it_ch it_s]. unfold mt at 1.
      set (w := fun t : shard => 3 * (length (path t) - length (path s))) in *.
      assert (Q1 : mt (child s false) c1 + 3 * length c1 <= sum (map w c1)).
      { apply mt_child. intros t I. apply A1, I. }
      assert (Q2 : mt (child s true) c2 + 3 * length c2 <= sum (map w c2)).
      { apply mt_child. intros t I. apply A2, I. }
      specialize (M1 w). specialize (M2 w).
      assert (P : 0 < sum (map w ch)).
      { destruct ch as [|t ch]; [congruence|]. destruct (CH t (or_introl eq_refl)) as [L _].
        apply sbelow_lt in L. cbn. unfold w at 1. lia. }
      assert (D1 : measure (mk_do c1 (child s false)) <= mt (child s false) c1 + length c1).
      { unfold mk_do. destruct c1; cbn [isnil]; unfold measure, m1; cbn [map sum it_pair it_ch it_s length]; lia. }
      assert (D2 : measure (mk_do c2 (child s true)) <= mt (child s true) c2 + length c2).
      { unfold mk_do. destruct c2; cbn [isnil]; unfold measure, m1; cbn [map sum it_pair it_ch it_s length]; lia. }
      assert (Z1 : length c1 = 0 -> mt (child s false) c1 = 0) by (destruct c1; [reflexivity|discriminate]).
      assert (Z2 : length c2 = 0 -> mt (child s true) c2 = 0) by (destruct c2; [reflexivity|discriminate]).
      clear -D1 D2 Q1 Q2 M1 M2 P Z1 Z2. lia. }
    assert (OK' : Forall item_ok items').
    { unfold items'. rewrite !Forall_app. split; [exact OK2|]. split.
      - unfold mk_do. destruct (isnil c1) eqn:N; [constructor|]. constructor; [|constructor]. split; cbn.
        + intros C. apply isnil_spec in C. congruence.
        + intros t I. apply A1 in I. split; [tauto|]. apply CH. tauto.
      - unfold mk_do. destruct (isnil c2) eqn:N; [constructor|]. constructor; [|constructor]. split; cbn.
        + intros C. apply isnil_spec in C. congruence.
        + intros t I. apply A2' in I. split; [tauto|]. apply CH. tauto. }
    assert (RI : forall x, In x (roots items') -> In x (roots items) \/ exists b, x = child s b).
    { intros x. unfold items', roots. rewrite !map_app, !in_app_iff. unfold mk_do.
      intros [I|[I|I]]; [auto| |].
      - destruct (isnil c1); cbn in I; [tauto|]. destruct I as [<-|[]]. eauto.
      - destruct (isnil c2); cbn in I; [tauto|]. destruct I as [<-|[]]. eauto. }
    unfold antichain, roots in AC. cbn [map it_s] in AC. inversion AC as [|? ? AC1 AC2]; subst.
    rewrite Forall_forall in AC1.
    assert (AC' : antichain (roots items')).
    { unfold antichain, items', roots. rewrite !map_app. apply foP_app. split; [exact AC2|]. split.
      - unfold mk_do. destruct (isnil c1), (isnil c2); cbn; repeat constructor.
        apply children_incomparable.
      - intros x y I J C. apply (AC1 x I). rewrite in_app_iff in J.
        assert (exists b, y = child s b) as [b ->].
        { unfold mk_do in J. destruct J as [J|J].
          - destruct (isnil c1); cbn in J; [tauto|]. destruct J as [<-|[]]. eauto.
          - destruct (isnil c2); cbn in J; [tauto|]. destruct J as [<-|[]]. eauto. }
        destruct C as [C|C].
        + eapply ancestors_comparable; [apply sbelow_below, (child_below s b)|exact C].
        + left. eapply below_trans; [apply sbelow_below, (child_below s b)|exact C]. }
    assert (SN : ~ want items' s).
    { intros [i [I [Bi _]]]. assert (I' : In (it_s i) (roots items')) by (apply in_map, I).
      destruct (RI _ I') as [J|[b E]].
      - apply (AC1 _ J). right. exact Bi.
      - rewrite E in Bi. apply (sbelow_asym s (child s b)); [apply child_below|exact Bi]. }
    assert (W : forall x, want (MkItem true ch s :: items) x <-> x = s \/ want items' x).
    { intros x. split.
      - intros [i [[<-|I] [Bx [t [It St]]]]].
        + cbn [it_s it_ch] in *. apply below_split in Bx. destruct Bx as [->|[Bx|Bx]]; [auto| |]; right.
          * exists (MkItem false c1 (child s false)). split.
            { unfold items'. rewrite !in_app_iff. right; left. unfold mk_do.
              assert (In t c1) as I1. { apply A1. split; [exact It|]. eapply below_sbelow_trans; eassumption. }
              destruct c1; [destruct I1|]. left. reflexivity. }
            cbn. split; [exact Bx|]. exists t. split; [|exact St]. apply A1. split; [exact It|].
            eapply below_sbelow_trans; eassumption.
          * exists (MkItem false c2 (child s true)). split.
            { unfold items'. rewrite !in_app_iff. right; right. unfold mk_do.
              assert (In t c2) as I1. { apply A2'. split; [exact It|]. eapply below_sbelow_trans; eassumption. }
              destruct c2; [destruct I1|]. left. reflexivity. }
            cbn. split; [exact Bx|]. exists t. split; [|exact St]. apply A2'. split; [exact It|].
            eapply below_sbelow_trans; eassumption.
        + right. exists i. split; [|eauto]. unfold items'. apply in_app_iff. auto.
      - intros [->|[i [I [Bx [t [It St]]]]]].
        + exists (MkItem true ch s). split; [left; reflexivity|]. cbn. split; [apply below_refl|].
          destruct ch as [|t ch]; [congruence|]. exists t. split; [left; reflexivity|]. apply CH. left; reflexivity.
        + unfold items' in I. rewrite !in_app_iff in I. destruct I as [I|[I|I]].
          * exists i. split; [right; exact I|]. eauto.
          * unfold mk_do in I. destruct (isnil c1); cbn in I; [tauto|]. destruct I as [<-|[]]. cbn in *.
            exists (MkItem true ch s). split; [left; reflexivity|]. cbn. split.
            -- eapply below_trans; [apply sbelow_below, child_below|exact Bx].
            -- exists t. split; [apply A1, It|exact St].
          * unfold mk_do in I. destruct (isnil c2); cbn in I; [tauto|]. destruct I as [<-|[]]. cbn in *.
            exists (MkItem true ch s). split; [left; reflexivity|]. cbn. split.
            -- eapply below_trans; [apply sbelow_below, child_below|exact Bx].
            -- exists t. split; [apply A2', It|exact St]. }
    set (oo := repeat (Split s) k1 ++ (if isnil c1 then [] else [Split s]) ++ repeat (Split s) k2 ++ (if isnil c2 then [] else [Split s])).
    assert (OO : exists k, oo = repeat (Split s) (S k)).
    { assert (G : exists k, oo = repeat (Split s) k /\ k <> 0).
      { unfold oo.
        exists (k1 + ((if isnil c1 then 0 else 1) + (k2 + (if isnil c2 then 0 else 1)))). split.
        - rewrite !repeat_app. destruct (isnil c1), (isnil c2); reflexivity.
        - destruct ch as [|t ch]; [congruence|]. destruct (CH t (or_introl eq_refl)) as [St _].
          destruct (below_child _ _ St) as [b Bt]. destruct (below_cases _ _ Bt) as [E|St2].
          + destruct b.
            * assert (k2 <> 0); [apply K2; rewrite E; apply R1; [left; reflexivity|exact Bt]|lia].
            * assert (k1 <> 0); [apply K1; rewrite E; left; reflexivity|lia].
          + destruct b.
            * assert (In t c2) by (apply A2'; split; [left; reflexivity|exact St2]).
              destruct c2; [tauto|]. cbn [isnil]. lia.
            * assert (In t c1) by (apply A1; split; [left; reflexivity|exact St2]).
              destruct c1; [tauto|]. cbn [isnil]. lia. }
      destruct G as [[|k] [G1 G2]]; [congruence|]. eauto. }
    destruct OO as [k OO].
    destruct (IH (measure (MkItem true ch s :: items)) M items' r2 (out ++ oo) Hm OK' AC') as [fuel [ds [o [L [RP PL]]]]].
    exists (S (S fuel)), (s :: ds), (oo ++ o). split; [|split].
    + cbn [flat_map conc it_pair it_ch it_s app]. cbn [loop]. rewrite E1.
      assert (FM : flat_map conc items' = flat_map conc items ++ (if isnil c1 then [] else [DoAction c1 (Split (child s false))])
                ++ (if isnil c2 then [] else [DoAction c2 (Split (child s true))])).
      { unfold items'. rewrite !flat_map_app. unfold mk_do. destruct (isnil c1), (isnil c2); reflexivity. }
      rewrite FM in L. unfold oo in L |- *. cbn [opt_list].
      destruct (isnil c1); cbn [app] in L |- *; rewrite E2; destruct (isnil c2); cbn [app opt_list] in L |- *;
        rewrite ?app_nil_r in *; rewrite <- ?app_assoc in *; cbn [app] in *; rewrite <- ?app_assoc in *; exact L.
    + rewrite OO. constructor. exact RP.
    + destruct PL as [P1 [P2 P3]]. split; [|split].
      * intros x. rewrite W, <- P1. cbn. intuition congruence.
      * constructor; [|exact P2]. rewrite P1. exact SN.
      * intros [|y pre] x post E; cbn in E; inversion E; subst.
        { left. left. reflexivity. }
        destruct (P3 pre x post eq_refl) as [I|[p [b [E2' I]]]].
        { destruct (RI _ I) as [J|[b ->]].
          - left. right. exact J.
          - right. exists y, b. split; [reflexivity|left; reflexivity]. }
        right. exists p, b. split; [exact E2'|right; exact I].
  - (* do *)
    pose proof OK1 as [NE CH]. cbn [it_ch it_s] in NE, CH.
    assert (Hs : Nat.ltb (length (path s)) max_split_depth = true).
    { apply Nat.ltb_lt. destruct ch as [|t ch]; [congruence|]. destruct (CH t (or_introl eq_refl)) as [L V].
      apply sbelow_lt in L. unfold valid in V. lia. }
    set (items' := items ++ [MkItem true ch s]).
    assert (Hm : measure items' < measure (MkItem false ch s :: items)).
    { unfold items'. rewrite measure_app. unfold measure. cbn [map sum m1 it_pair it_ch it_s].
      unfold m1. cbn [it_pair it_ch it_s]. lia. }
    assert (OK' : Forall item_ok items').
    { unfold items'. apply Forall_app. split; [exact OK2|]. constructor; [exact OK1|constructor]. }
    unfold antichain, roots in AC. cbn [map it_s] in AC. inversion AC as [|? ? AC1 AC2]; subst.
    assert (AC' : antichain (roots items')).
    { unfold antichain, items', roots. rewrite map_app. apply foP_app. split; [exact AC2|]. split.
      - repeat constructor.
      - rewrite Forall_forall in AC1. intros x y I [<-|[]] C. apply (AC1 x I). destruct C; [right|left]; assumption. }
    destruct (IH (measure (MkItem false ch s :: items)) M items' rest out Hm OK' AC') as [fuel [ds [o [L [RP PL]]]]].
    exists (S fuel), ds, o. split; [|split; [exact RP|]].
    + cbn [flat_map conc it_pair it_ch it_s app loop]. unfold split. rewrite Hs.
      unfold items' in L. rewrite flat_map_app in L. cbn [flat_map conc it_pair it_ch it_s app] in L. exact L.
    + destruct PL as [P1 [P2 P3]]. split; [|split; [exact P2|]].
      * intros x. rewrite P1. unfold items', want. split; intros [i [I Hi]].
        -- apply in_app_iff in I. destruct I as [I|[<-|[]]].
           ++ exists i. split; [right; exact I|exact Hi].
           ++ eexists. split; [left; reflexivity|exact Hi].
        -- destruct I as [<-|I].
           ++ eexists. split; [apply in_app_iff; right; left; reflexivity|exact Hi].
           ++ exists i. split; [apply in_app_iff; left; exact I|exact Hi].
      * intros pre x post E. destruct (P3 pre x post E) as [I|I]; [left|right; exact I].
        unfold items', roots in I. rewrite map_app, in_app_iff in I. cbn in I. cbn. tauto.
Qed.

(** ** the initial checks *)
Fixpoint init_items (froms rest : list shard) : list item * list shard :=
  match froms with
  | [] => ([], rest)
  | f :: froms =>
      let '(_, ch, rest') := scan f None rest in
      let '(its, r) := init_items froms rest' in
      (mk_do ch f ++ its, r)
  end.
Definition chk (s : shard) : pstep := CheckAction s None None.

Lemma loop_initial froms : forall items rest out fuel,
  loop (length froms + fuel) (map chk froms ++ flat_map conc items) rest out =
  loop fuel (flat_map conc (items ++ fst (init_items froms rest))) (snd (init_items froms rest)) out.
Proof.
  induction froms as [|f froms IH]; intros items rest out fuel.
  - cbn [init_items map app length fst snd plus]. rewrite app_nil_r. reflexivity.
  - cbn [map app length plus init_items chk loop].
    pose proof (scan_spec f None rest) as S1.
    destruct (scan f None rest) as [[o ch] rest'] eqn:E. destruct S1 as [_ [_ [k [O _]]]].
    assert (o = []) as ->.
    { rewrite O. clear. induction k; cbn; auto. }
    fold (chk) in *. specialize (IH (items ++ mk_do ch f) rest' out fuel).
    destruct (init_items froms rest') as [its r]. cbn [fst snd] in *.
    rewrite <- app_assoc in IH. rewrite <- IH. rewrite flat_map_app. unfold mk_do.
    destruct (isnil ch); cbn [flat_map conc it_pair it_ch it_s app opt_list].
    + rewrite !app_nil_r. reflexivity.
    + rewrite !app_nil_r, <- app_assoc. reflexivity.
Qed.

Lemma antichain_alt l : antichain l <-> NoDup l /\ forall x y, In x l -> In y l -> comparable x y -> x = y.
Proof.
  unfold antichain. induction l as [|a l IH].
  - split; [intros _; split; [constructor|intros x y []]|constructor].
  - split.
    + intros H. inversion H as [|? ? H1 H2]; subst. apply IH in H2. destruct H2 as [N H2].
      rewrite Forall_forall in H1. split.
      * constructor; [|exact N]. intros I. apply (H1 a I). left. apply below_refl.
      * intros x y [<-|I] [<-|J] C; [reflexivity| | |auto].
        -- destruct (H1 y J C).
        -- destruct (H1 x I). destruct C; [right|left]; assumption.
    + intros [N H]. inversion N; subst. constructor.
      * apply Forall_forall. intros x I C. assert (a = x) by (apply H; [left; reflexivity|right; exact I|exact C]).
        subst. contradiction.
      * apply IH. split; [assumption|]. intros x y I J. apply H; right; assumption.
Qed.

Lemma init_items_spec froms : antichain froms -> forall rest to,
  Forall valid to ->
  (forall t, In t rest -> In t to) ->
  (forall f t, In f froms -> In t to -> sbelow f t -> In t rest) ->
  let its := fst (init_items froms rest) in
  (forall s, want its s <-> exists f, In f froms /\ below f s /\ exists t, In t to /\ sbelow s t) /\
  Forall item_ok its /\ (forall x, In x (roots its) -> In x froms) /\ antichain (roots its).
Proof.
  induction froms as [|f froms IH]; intros AC rest to V H1 H2; cbn [init_items].
  - cbn [fst]. split; [|split; [constructor|split; [intros x []|constructor]]].
    intros s. split; [intros [i [[] _]]|intros [f [[] _]]].
  - pose proof (scan_spec f None rest) as S1.
    destruct (scan f None rest) as [[o ch] rest'] eqn:E. destruct S1 as [A1 [B1 _]].
    unfold antichain in AC. inversion AC as [|? ? AC1 AC2]; subst. rewrite Forall_forall in AC1.
    assert (H1' : forall t, In t rest' -> In t to) by (intros t I; apply B1 in I; apply H1; tauto).
    assert (H2' : forall f' t, In f' froms -> In t to -> sbelow f' t -> In t rest').
    { intros f' t If It S. apply B1. split; [apply (H2 f'); [right; exact If|exact It|exact S]|].
      split; [|split]; intros C.
      - subst t. apply (AC1 f' If). right. apply sbelow_below, S.
      - apply (AC1 f' If). eapply ancestors_comparable; apply sbelow_below; eassumption.
      - apply (AC1 f' If). right. apply sbelow_below. eapply sbelow_below_trans; [exact S|apply sbelow_below, C]. }
    specialize (IH AC2 rest' to V H1' H2').
    destruct (init_items froms rest') as [its r]. cbn [fst] in *.
    destruct IH as [W [OK [R AC3]]].
    assert (CHs : forall t, In t ch <-> In t to /\ sbelow f t).
    { intros t. rewrite A1. split; intros [I S]; split; auto. apply (H2 f); [left; reflexivity|exact I|exact S]. }
    assert (RM : forall x, In x (roots (mk_do ch f)) -> x = f).
    { unfold mk_do. intros x. destruct (isnil ch); cbn; [tauto|]. intros [<-|[]]; reflexivity. }
    split; [|split; [|split]].
    + intros s. split.
      * intros [i [I Hi]]. apply in_app_iff in I. destruct I as [I|I].
        -- unfold mk_do in I. destruct (isnil ch); cbn in I; [tauto|]. destruct I as [<-|[]]. cbn in Hi.
           destruct Hi as [Bi [t [It St]]]. exists f. split; [left; reflexivity|]. split; [exact Bi|].
           exists t. split; [apply CHs, It|exact St].
        -- destruct (proj1 (W s) (ex_intro _ i (conj I Hi))) as [f' [If Hf]]. exists f'. split; [right; exact If|exact Hf].
      * intros [f' [[<-|If] Hf]].
        -- destruct Hf as [Bf [t [It St]]]. assert (Ic : In t ch) by (apply CHs; split; [exact It|eapply below_sbelow_trans; eassumption]).
           exists (MkItem false ch f). split.
           ++ apply in_app_iff. left. unfold mk_do. destruct ch; [destruct Ic|left; reflexivity].
           ++ cbn. split; [exact Bf|]. eauto.
        -- destruct (proj2 (W s) (ex_intro _ f' (conj If Hf))) as [i [I Hi]]. exists i. split; [|exact Hi].
           apply in_app_iff. right. exact I.
    + apply Forall_app. split; [|exact OK]. unfold mk_do. destruct (isnil ch) eqn:N; [constructor|].
      constructor; [|constructor]. split; cbn.
      * intros C. apply isnil_spec in C. congruence.
      * intros t I. apply CHs in I. split; [tauto|]. rewrite Forall_forall in V. apply V. tauto.
    + intros x. unfold roots. rewrite map_app, in_app_iff. intros [I|I]; [left; symmetry; apply RM, I|right; apply R, I].
    + unfold antichain, roots. rewrite map_app. apply foP_app. split; [|split; [exact AC3|]].
      * unfold mk_do. destruct (isnil ch); cbn; repeat constructor.
      * intros x y I J. rewrite (RM x I). apply AC1, R, J.
Qed.

Lemma dedup_rep ds o : NoDup ds -> rep ds o -> dedup o = map Split ds.
Proof.
  intros N H. induction H as [|s ds k o H IH]; [reflexivity|].
  inversion N as [|? ? N1 N2]; subst. specialize (IH N2). cbn [map]. rewrite <- IH.
  assert (Eq : forall a, shard_eqb a a = true) by (intros a; apply shard_eqb_spec; reflexivity).
  induction k as [|k IHk].
  - cbn [repeat app dedup]. rewrite IH. destruct ds as [|d ds]; cbn; [reflexivity|].
    destruct (shard_eqb s d) eqn:E; [|reflexivity]. apply shard_eqb_spec in E. subst. destruct N1. left. reflexivity.
  - change (repeat (Split s) (S (S k)) ++ o) with (Split s :: (repeat (Split s) (S k) ++ o)).
    cbn [dedup]. cbn [dedup] in IHk. rewrite IHk. cbn [action_eqb]. rewrite Eq. reflexivity.
Qed.

(** For every list of pairwise disjoint current shards and every list of target shards, the
    call terminates with [Ok]; the plan consists of splits only, without repetition: exactly the
    splits of the shards that lie inside a current shard and properly contain a target; each split
    is applicable in order, i.e. is of a current shard or of a half made earlier. *)
Theorem C29_split_plan (from to : list shard) :
  from <> [] -> antichain from -> Forall valid to ->
  exists fuel0 ds, (forall fuel, fuel0 <= fuel ->
      calc_split_merge_actions fuel from to = Some (Some (map Split ds))) /\
    NoDup ds /\
    (forall s, In s ds <-> exists f, In f from /\ below f s /\ exists t, In t to /\ sbelow s t) /\
    (forall pre s post, ds = pre ++ s :: post ->
       In s from \/ exists p b, s = child p b /\ In p pre).
Proof.
  intros NE AC V.
  destruct (init_items_spec from AC to to V (fun t I => I) (fun f t _ I _ => I)) as [W [OK [R AC2]]].
  set (its := fst (init_items from to)) in *.
  destruct (loop_items (S (measure its)) its (snd (init_items from to)) [] (Nat.lt_succ_diag_r _) OK AC2)
    as [fuel [ds [o [L [RP [P1 [P2 P3]]]]]]].
  exists (length from + fuel), ds. split; [|split; [exact P2|split]].
  - intros fuel' Hf. unfold calc_split_merge_actions.
    assert (Ex : exists w, (match to with t :: _ => Some (wc t) | [] => match from with f :: _ => Some (wc f) | [] => None end end) = Some w).
    { destruct to; [destruct from; [congruence|]|]; eauto. }
    destruct Ex as [w ->].
    assert (Ep : (match from with [] => [CheckAction (full w) None None] | _ => map (fun s => CheckAction s None None) from end)
                 = map chk from) by (destruct from; [congruence|reflexivity]).
    rewrite Ep. assert (Eo : (match from with [] => map Add to | _ => [] end) = []) by (destruct from; [congruence|reflexivity]).
    rewrite Eo.
    assert (L2 : loop fuel' (map chk from) to [] = Some (Some o)).
    { apply (loop_mono (length from + fuel)); [exact Hf|].
      pose proof (loop_initial from [] to [] fuel) as LI. cbn [flat_map app] in LI. rewrite app_nil_r in LI.
      rewrite LI. exact L. }
    rewrite L2. rewrite (dedup_rep ds o P2 RP). reflexivity.
  - intros s. rewrite P1. apply W.
  - intros pre s post E. destruct (P3 pre s post E) as [I|I]; [left; apply R, I|right; exact I].
Qed.

(** ** executing a list of splits *)
Lemma parent_or s t : sbelow s t -> exists p b, t = child p b /\ below s p.
Proof.
  intros [E [x [u H]]]. destruct (exists_last (l := x :: u)) as [v [b Hv]]; [discriminate|].
  exists (MkShard (wc t) (path s ++ v)), b. split.
  - apply shard_ext; [reflexivity|]. cbn. rewrite H, Hv, app_assoc. reflexivity.
  - split; [exact E|]. exists v. reflexivity.
Qed.

Lemma remove_nodup s l : NoDup l -> NoDup (remove sdec s l).
Proof.
  induction 1 as [|x l N H IH]; cbn; [constructor|]. destruct (sdec s x); [exact IH|].
  constructor; [|exact IH]. intros I. apply in_remove in I. tauto.
Qed.

Lemma apply_splits ds : forall cur, antichain cur -> NoDup ds ->
  (forall s, In s ds -> ~ exists p b, s = child p b /\ In s cur /\ In p ds) ->
  (forall pre s post, ds = pre ++ s :: post -> In s cur \/ exists p b, s = child p b /\ In p pre) ->
  exists res, apply_actions (map Split ds) cur = Some res /\ antichain res /\
    forall x, In x res <-> (In x cur \/ exists p b, x = child p b /\ In p ds) /\ ~ In x ds.
Proof.
  induction ds as [|s ds IH]; intros cur AC N HP HO; cbn [map apply_actions].
  - exists cur. split; [reflexivity|]. split; [exact AC|]. intros x. split; [intros I; split; [auto|intros []]|].
    intros [[I|[p [b [_ []]]]] _]. exact I.
  - destruct (HO [] s ds eq_refl) as [Is|[p [b [_ []]]]].
    inversion N as [|? ? N1 N2]; subst. cbn [apply1]. unfold rm1.
    destruct (in_dec sdec s cur) as [_|C]; [|contradiction].
    set (cur' := child s false :: child s true :: remove sdec s cur).
    pose proof AC as AC0. apply antichain_alt in AC. destruct AC as [NC CC].
    assert (Ir : forall x, In x (remove sdec s cur) <-> In x cur /\ x <> s).
    { intros x. split; [intros I; apply in_remove in I; tauto|intros [I D]; apply in_in_remove; assumption]. }
    assert (CB : forall x b, In x cur -> x <> s -> ~ comparable x (child s b)).
    { intros x b I D C. apply D, CC; [exact I|exact Is|]. destruct C as [C|C].
      - eapply ancestors_comparable; [exact C|apply sbelow_below, child_below].
      - right. eapply below_trans; [apply sbelow_below, child_below|exact C]. }
    assert (AC' : antichain cur').
    { unfold antichain, cur'. constructor; [|constructor].
      - constructor; [apply children_incomparable|]. apply Forall_forall. intros x I C. apply Ir in I.
        apply (CB x false); [tauto|tauto|]. destruct C; [right|left]; assumption.
      - apply Forall_forall. intros x I C. apply Ir in I.
        apply (CB x true); [tauto|tauto|]. destruct C; [right|left]; assumption.
      - apply antichain_alt. split; [apply remove_nodup, NC|]. intros x y I J. apply Ir in I. apply Ir in J. apply CC; tauto. }
    assert (Ic : forall x, In x cur' <-> (In x cur /\ x <> s) \/ exists b, x = child s b).
    { intros x. unfold cur'. cbn [In]. rewrite Ir. split.
      - intros [<-|[<-|H]]; eauto.
      - intros [H|[[] ->]]; auto. }
    assert (HP' : forall x, In x ds -> ~ exists p b, x = child p b /\ In x cur' /\ In p ds).
    { intros x I [p [b [E [J Ip]]]]. apply Ic in J. destruct J as [[J D]|[b' E']].
      - apply (HP x (or_intror I)). exists p, b. split; [exact E|]. split; [exact J|right; exact Ip].
      - rewrite E in E'. apply child_inj in E'. destruct E' as [-> _]. contradiction. }
    assert (HO' : forall pre x post, ds = pre ++ x :: post -> In x cur' \/ exists p b, x = child p b /\ In p pre).
    { intros pre x post E. destruct (HO (s :: pre) x post) as [I|[p [b [E2 [<-|I]]]]].
      - cbn. rewrite E. reflexivity.
      - left. apply Ic. left. split; [exact I|]. intros ->. apply N1. rewrite E. apply in_elt.
      - left. apply Ic. right. eauto.
      - right. eauto. }
    destruct (IH cur' AC' N2 HP' HO') as [res [A [ACr Hr]]].
    exists res. split; [exact A|]. split; [exact ACr|]. intros x. rewrite Hr, Ic. split.
    + intros [[[[I D]|[b ->]]|[p [b [-> I]]]] Nx].
      * split; [auto|]. intros [C|C]; [congruence|contradiction].
      * split; [right; exists s, b; split; [reflexivity|left; reflexivity]|].
        intros [C|C]; [|contradiction]. apply (sbelow_irrefl s). rewrite C at 2. apply child_below.
      * split; [right; exists p, b; split; [reflexivity|right; exact I]|].
        intros [C|C]; [|contradiction].
        apply (HP s (or_introl eq_refl)). exists p, b. split; [exact C|]. split; [exact Is|right; exact I].
    + intros [[I|[p [b [-> [<-|I]]]]] Nx].
      * split; [left; left; split; [exact I|]; intros ->; apply Nx; left; reflexivity|]. intros C. apply Nx. right. exact C.
      * split; [left; right; eauto|]. intros C. apply Nx. right. exact C.
      * split; [right; eauto|]. intros C. apply Nx. right. exact C.
Qed.

Lemma tiles_spec s l : tiles s l ->
  (forall t, In t l -> below s t) /\ NoDup l /\
  (forall x y, In x l -> In y l -> comparable x y -> x = y) /\
  (forall x, below s x -> (exists t, In t l /\ sbelow x t) \/ exists t, In t l /\ below t x).
Proof.
  induction 1 as [s|s a b c Ha IHa Hb IHb P].
  - split; [intros t [<-|[]]; apply below_refl|]. split; [repeat constructor; auto|].
    split; [intros x y [<-|[]] [<-|[]] _; reflexivity|].
    intros x B. right. exists s. split; [left; reflexivity|exact B].
  - destruct IHa as [A1 [A2 [A3 A4]]], IHb as [B1 [B2 [B3 B4]]].
    assert (In_c : forall t, In t c <-> In t a \/ In t b).
    { intros t. rewrite <- in_app_iff. split; apply Permutation_in; [exact P|apply Permutation_sym, P]. }
    assert (D : forall x y, In x a -> In y b -> ~ comparable x y).
    { intros x y Ix Iy C. apply (children_incomparable s). apply A1 in Ix. apply B1 in Iy. destruct C as [C|C].
      - eapply ancestors_comparable; [eapply below_trans; [exact Ix|exact C]|exact Iy].
      - eapply ancestors_comparable; [exact Ix|eapply below_trans; [exact Iy|exact C]]. }
    split; [|split; [|split]].
    + intros t I. apply In_c in I. apply below_split. destruct I as [I|I]; auto.
    + eapply Permutation_NoDup; [apply Permutation_sym, P|]. clear -A2 B2 D. induction A2 as [|x a N H IH]; [exact B2|].
      cbn. constructor.
      * rewrite in_app_iff. intros [I|I]; [contradiction|]. apply (D x x (or_introl eq_refl) I). left. apply below_refl.
      * apply IH. intros u v I. apply D. right. exact I.
    + intros x y I J C. apply In_c in I. apply In_c in J. destruct I as [I|I], J as [J|J]; auto.
      * destruct (D x y I J C).
      * destruct (D y x J I). destruct C; [right|left]; assumption.
    + intros x B. apply below_split in B. destruct B as [->|[B|B]].
      * left. (* some target strictly below s *)
        assert (exists t, In t a) as [t It].
        { destruct (A4 _ (below_refl _)) as [[t [I _]]|[t [I _]]]; eauto. }
        exists t. split; [apply In_c; auto|]. apply A1 in It. eapply sbelow_below_trans; [apply child_below|exact It].
      * destruct (A4 x B) as [[t [I S]]|[t [I S]]]; [left|right]; exists t; (split; [apply In_c; auto|exact S]).
      * destruct (B4 x B) as [[t [I S]]|[t [I S]]]; [left|right]; exists t; (split; [apply In_c; auto|exact S]).
Qed.

(** When the target is a subdivision of the current shards, executing the returned plan on the
    current shards succeeds and yields exactly the target shards. *)
Theorem C29_split_plan_reaches_target (from to : list shard) (parts : list (list shard)) :
  from <> [] -> antichain from -> Forall valid to ->
  Forall2 tiles from parts -> Permutation to (concat parts) ->
  exists fuel0 acts res,
    (forall fuel, fuel0 <= fuel -> calc_split_merge_actions fuel from to = Some (Some acts)) /\
    apply_actions acts from = Some res /\ Permutation res to.
Proof.
  intros NE AC V T P.
  destruct (C29_split_plan from to NE AC V) as [fuel0 [ds [C [N [S O]]]]].
  pose proof AC as AC0. apply antichain_alt in AC. destruct AC as [NF CF].
  assert (In_to : forall t, In t to <-> exists f p, In (f, p) (combine from parts) /\ In t p).
  { intros t. assert (E : In t to <-> In t (concat parts)) by (split; apply Permutation_in; [exact P|apply Permutation_sym, P]).
    rewrite E. clear -T. induction T as [|f p from parts Hp T IH]; cbn.
    - split; [intros []|intros [f [p [[] _]]]].
    - rewrite in_app_iff, IH. split.
      + intros [I|[f' [p' [I J]]]]; eauto 10.
      + intros [f' [p' [[E|I] J]]]; [inversion E; subst; auto|]. right. eauto. }
  assert (Tl : forall f p, In (f, p) (combine from parts) -> In f from /\ tiles f p).
  { clear -T. induction T as [|f p from parts Hp T IH]; cbn; [intros f p []|].
    intros f' p' [E|I]; [inversion E; subst; auto|]. destruct (IH f' p' I). auto. }
  assert (Ex : forall f, In f from -> exists p, In (f, p) (combine from parts)).
  { clear -T. induction T as [|f p from parts Hp T IH]; cbn; [intros f []|].
    intros f' [<-|I]; [eauto|]. destruct (IH f' I) as [p' J]. eauto. }
  assert (Uq : forall f p p', In (f, p) (combine from parts) -> In (f, p') (combine from parts) -> p = p').
  { clear -T NF. induction T as [|f p from parts Hp T IH]; cbn; [intros f p p' []|].
    inversion NF as [|? ? NF1 NF2]; subst. intros f' p1 p2 [E1|I1] [E2|I2].
    - congruence.
    - inversion E1; subst. destruct NF1. apply in_combine_l in I2. exact I2.
    - inversion E2; subst. destruct NF1. apply in_combine_l in I1. exact I1.
    - eapply IH; eassumption. }
  assert (To : forall x y, In x to -> In y to -> comparable x y -> x = y).
  { intros x y Ix Iy Cxy. apply In_to in Ix. apply In_to in Iy.
    destruct Ix as [f [p [Ip Ix]]], Iy as [g [q [Iq Iy]]].
    destruct (Tl _ _ Ip) as [If Tf], (Tl _ _ Iq) as [Ig Tg].
    destruct (tiles_spec _ _ Tf) as [F1 [_ [F3 _]]], (tiles_spec _ _ Tg) as [G1 [_ [G3 _]]].
    assert (f = g).
    { apply CF; [exact If|exact Ig|]. destruct Cxy as [C1|C1].
      - eapply ancestors_comparable; [eapply below_trans; [apply F1, Ix|exact C1]|apply G1, Iy].
      - eapply ancestors_comparable; [apply F1, Ix|eapply below_trans; [apply G1, Iy|exact C1]]. }
    subst g. rewrite (Uq f q p Iq Ip) in Iy. apply F3; assumption. }
  assert (Nto : NoDup to).
  { eapply Permutation_NoDup; [apply Permutation_sym, P|].
    clear -T CF NF. induction T as [|f p from parts Hp T IH]; cbn; [constructor|].
    inversion NF as [|? ? NF1 NF2]; subst.
    destruct (tiles_spec _ _ Hp) as [F1 [F2 _]].
    assert (D : forall x, In x p -> ~ In x (concat parts)).
    { intros x I J. assert (exists g, In g from /\ below g x) as [g [Ig Bg]].
      { clear -T J. induction T as [|g q from parts Hq T IH]; cbn in J; [destruct J|].
        apply in_app_iff in J. destruct J as [J|J].
        - exists g. split; [left; reflexivity|]. apply (tiles_spec _ _ Hq), J.
        - destruct (IH J) as [g' [I B]]. exists g'. split; [right; exact I|exact B]. }
      assert (f = g) by (apply CF; [left; reflexivity|right; exact Ig|eapply ancestors_comparable; [apply F1, I|exact Bg]]).
      subst. contradiction. }
    assert (NI : NoDup (concat parts)) by (apply IH; [assumption|intros x y I J; apply CF; right; assumption]).
    clear -F2 D NI. induction F2 as [|x p N H IH]; [exact NI|]. cbn. constructor.
    - rewrite in_app_iff. intros [I|I]; [contradiction|]. apply (D x (or_introl eq_refl) I).
    - apply IH. intros y I. apply D. right. exact I. }
  destruct (apply_splits ds from AC0 N) as [res [A [ACr Hr]]].
  - intros s I [p [b [E [J Ip]]]]. apply S in Ip. destruct Ip as [f [If [Bf _]]].
    assert (B : sbelow f s) by (rewrite E; eapply below_sbelow_trans; [exact Bf|apply child_below]).
    assert (f = s) by (apply CF; [exact If|exact J|left; apply sbelow_below, B]).
    subst f. apply (sbelow_irrefl s B).
  - exact O.
  - exists fuel0, (map Split ds), res. split; [exact C|]. split; [exact A|].
    apply antichain_alt in ACr. destruct ACr as [Nr _].
    apply NoDup_Permutation; [exact Nr|exact Nto|]. intros x. rewrite Hr. split.
    + intros [Hx Nx].
      assert (exists f, In f from /\ below f x) as [f [If Bf]].
      { destruct Hx as [I|[p [b [-> Ip]]]]; [exists x; split; [exact I|apply below_refl]|].
        apply S in Ip. destruct Ip as [f [If [Bf _]]]. exists f. split; [exact If|].
        eapply below_trans; [exact Bf|apply sbelow_below, child_below]. }
      destruct (Ex f If) as [q Iq]. destruct (Tl _ _ Iq) as [_ Tf]. destruct (tiles_spec _ _ Tf) as [F1 [F2 [F3 F4]]].
      destruct (F4 x Bf) as [[t [It St]]|[t [It Bt]]].
      { destruct Nx. apply S. exists f. split; [exact If|]. split; [exact Bf|]. exists t. split; [|exact St].
        apply In_to. eauto. }
      assert (Ito : In t to) by (apply In_to; eauto).
      destruct (below_cases _ _ Bt) as [->|St]; [exact Ito|]. exfalso.
      destruct Hx as [I|[p [b [-> Ip]]]].
      * assert (f = x) by (apply CF; [exact If|exact I|left; exact Bf]). subst f.
        apply (sbelow_asym t x St). apply F1, It.
      * destruct (parent_or _ _ St) as [p' [b' [E B]]]. apply child_inj in E. destruct E as [<- <-].
        apply S in Ip. destruct Ip as [_ [_ [_ [t' [It' St']]]]].
        assert (Sx : sbelow t t') by (eapply below_sbelow_trans; eassumption).
        assert (t = t') by (apply To; [exact Ito|exact It'|left; apply sbelow_below, Sx]).
        subst t'. apply (sbelow_irrefl t Sx).
    + intros Ix. pose proof Ix as Ix0. apply In_to in Ix. destruct Ix as [f [p [Ip Ix]]].
      destruct (Tl _ _ Ip) as [If Tf]. destruct (tiles_spec _ _ Tf) as [F1 _]. split.
      * destruct (below_cases _ _ (F1 x Ix)) as [<-|Sx]; [left; exact If|right].
        destruct (parent_or _ _ Sx) as [q [b [E B]]]. exists q, b. split; [exact E|]. apply S.
        exists f. split; [exact If|]. split; [exact B|]. exists x. split; [exact Ix0|]. rewrite E. apply child_below.
      * intros I. apply S in I. destruct I as [_ [_ [_ [t [It St]]]]].
        assert (x = t) by (apply To; [exact Ix0|exact It|left; apply sbelow_below, St]).
        subst t. apply (sbelow_irrefl x St).
Qed.

(** a non-trivial case meeting the hypotheses: {40, C0} to {40, A0, E0-left, E0-right} *)
Definition sh (l : list bool) := MkShard 0 l.
Example C29_example :
  exists fuel acts, calc_split_merge_actions fuel [sh [false]; sh [true]]
      [sh [false]; sh [true; false]; sh [true; true; false]; sh [true; true; true]]
    = Some (Some acts) /\ acts = [Split (sh [true]); Split (sh [true; true])].
Proof. exists 20, [Split (sh [true]); Split (sh [true; true])]. split; reflexivity. Qed.
Example C29_example_hyps :
  antichain [sh [false]; sh [true]] /\ Forall2 tiles [sh [false]; sh [true]]
    [[sh [false]]; [sh [true; false]; sh [true; true; false]; sh [true; true; true]]].
Proof.
  split.
  - unfold antichain. repeat constructor. apply (children_incomparable (sh [])).
  - constructor; [constructor|]. constructor; [|constructor].
    eapply (tiles_node (sh [true]) [sh [true; false]] [sh [true; true; false]; sh [true; true; true]]);
      [apply tiles_leaf| |apply Permutation_refl].
    eapply (tiles_node (sh [true; true]) [sh [true; true; false]] [sh [true; true; true]]);
      [apply tiles_leaf|apply tiles_leaf|apply Permutation_refl].
Qed.

(** The claim as stated for all pairs of shard sets is false of the code: merging the two halves
    yields an empty plan, which leaves the two halves in place. *)
Theorem C29_merge_refuted :
  let from := [sh [false]; sh [true]] in let to := [sh []] in
  exists acts, (forall fuel, 3 <= fuel -> calc_split_merge_actions fuel from to = Some (Some acts)) /\
    forall res, apply_actions acts from = Some res -> ~ Permutation res to.
Proof.
  exists []. split.
  - intros fuel H. do 3 (destruct fuel as [|fuel]; [lia|]). destruct fuel; reflexivity.
  - intros res E. inversion E; subst. intros P. apply Permutation_length in P. discriminate.
Qed.

(** Likewise, from no shards to two: the plan adds both and then splits a shard that is not there. *)
Theorem C29_from_empty_refuted :
  let to := [sh [false]; sh [true]] in
  exists acts, (forall fuel, 5 <= fuel -> calc_split_merge_actions fuel [] to = Some (Some acts)) /\
    apply_actions acts [] = None.
Proof.
  exists [Add (sh [false]); Add (sh [true]); Split (sh [])]. split.
  - intros fuel H. do 5 (destruct fuel as [|fuel]; [lia|]). destruct fuel; reflexivity.
  - reflexivity.
Qed.

(** The only error: both lists empty. *)
Theorem C29_both_empty fuel : calc_split_merge_actions fuel [] [] = Some None.
Proof. reflexivity. Qed.
