(** C88: the candidates and the requests of a search. *)
From Verif Require Import Bytes DhtModel DhtDist DhtProps DhtTable DqModel.
From Coq Require Import List NArith ZArith Bool Lia Arith ZifyN ZifyNat ZifyBool.
Import ListNotations.
Local Open Scope N_scope.
Local Opaque xor_distance de be.

Lemma mem_spec i l : mem i l = true <-> In i l.
Proof.
  unfold mem. rewrite existsb_exists. split.
  - intros (x & A & B). destruct (id_eqb_spec i x); [now subst|discriminate].
  - intros A. exists i. split; [auto|]. destruct (id_eqb_spec i i); congruence.
Qed.
Lemma mem_not i l : mem i l = false <-> ~ In i l.
Proof. rewrite <- mem_spec. destruct (mem i l); split; congruence. Qed.
Lemma in_drop x i l : In x (drop i l) <-> In x l /\ x <> i.
Proof.
  unfold drop. rewrite filter_In. destruct (id_eqb_spec i x); cbn; split; intros [A B]; split; congruence.
Qed.
Lemma nodup_filter_id {A} (f : A -> bool) l : NoDup l -> NoDup (filter f l).
Proof.
  induction 1 as [|a l N D IH]; cbn; [constructor|]. destruct (f a); [|auto]. constructor; [|auto].
  intros H. apply filter_In in H. tauto.
Qed.
Lemma nodup_app_one {A} (l : list A) i : NoDup l -> ~ In i l -> NoDup (l ++ [i]).
Proof.
  intros D N. induction D as [|a l Na D IH]; cbn; [constructor; [intros []|constructor]|]. constructor.
  - intros H. apply in_app_or in H as [H|[H|[]]]; [auto|]. subst. apply N. now left.
  - apply IH. intros H. apply N. now right.
Qed.
Lemma drop_length i l : NoDup l -> In i l -> S (length (drop i l)) = length l.
Proof.
  induction 1 as [|a l N D IH]; [intros []|]. cbn. intros [E|H].
  - subst a. destruct (id_eqb_spec i i) as [_|]; [|congruence]. cbn.
    replace (filter (fun x => negb (id_eqb i x)) l) with l; [reflexivity|]. symmetry.
    assert (G : forall x, In x l -> negb (id_eqb i x) = true).
    { intros x X. destruct (id_eqb_spec i x); [subst; contradiction|reflexivity]. }
    revert G. clear. induction l as [|a l IH]; intros G; [reflexivity|]. cbn. rewrite (G a) by now left.
    f_equal. apply IH. intros x X. apply G. now right.
  - destruct (id_eqb_spec i a) as [E|E]; [subst; contradiction|]. cbn. f_equal. apply IH. exact H.
Qed.

Section Inv.
Context (target : id) (max_k : nat) (TO : id_ok target).

(** the table of the candidates has a history of additions *)
Definition tab (t : table) : Prop := exists ops, Forall op_ok ops /\ t = run max_k target ops.
Lemma tab_new : tab (new_table target). Proof. exists []. split; [constructor|reflexivity]. Qed.
Lemma tab_add t p e f : id_ok (n_id p) -> tab t -> tab (fst (add t p max_k e f)).
Proof.
  intros P (ops & F & ->). exists (ops ++ [OAdd p e f]). split.
  - apply Forall_app. split; [auto|]. constructor; [exact P|constructor].
  - unfold run. rewrite fold_left_app. reflexivity.
Qed.
Lemma same_buckets t t' : (forall i, bks t i = bks t' i) -> known t = known t'.
Proof. intros E. unfold known. apply flat_map_ext. intros. apply E. Qed.
Lemma known_add t p e f n : tab t -> id_ok (n_id p) -> In n (known (fst (add t p max_k e f))) ->
  n = p /\ f = true /\ n_id p <> target \/ In n (known t).
Proof.
  intros (ops & F & ->) P H. destruct (C26_add max_k target ops p e f TO F P) as (A & B & _).
  destruct (snd (add (run max_k target ops) p max_k e f)).
  - destruct (A eq_refl) as (X & Y & ev & _ & Z). apply Z in H. destruct H as [H|[H _]]; auto.
  - right. rewrite (same_buckets _ (run max_k target ops) (B eq_refl)) in H. exact H.
Qed.
Lemma tab_facts t : tab t -> NoDup (map n_id (known t)) /\ ~ In target (map n_id (known t)) /\
  (forall n, In n (closest t target max_k) -> In n (known t)) /\
  length (closest t target max_k) = Nat.min max_k (length (known t)) /\
  NoDup (map n_id (closest t target max_k)) /\
  (forall x y, In x (known t) -> ~ In x (closest t target max_k) -> In y (closest t target max_k) ->
     xor_distance target (n_id y) <= xor_distance target (n_id x)).
Proof.
  intros (ops & F & ->). destruct (C26_table_invariants max_k target ops TO F) as (A & B & _).
  destruct (C27_closest_known_distinct max_k target ops target max_k TO F TO) as (C & D & E).
  split; [auto|]. split; [auto|]. split; [auto|]. split; [auto|]. split; [auto|].
  apply C27_closest_to_self; auto.
Qed.

(** *** The requests *)
Definition good (a : asked) : Prop := NoDup (a_all a) /\ NoDup (a_open a) /\ incl (a_open a) (a_all a).
Lemma ask_fold ok l a : good a -> 
  let a' := fold_left (fun a n => if ok (n_id n) && negb (mem (n_id n) (a_all a))
                        then Asked (a_all a ++ [n_id n]) (a_open a ++ [n_id n]) else a) l a in
  good a' /\ (forall i, In i (a_all a') <-> In i (a_all a) \/ ok i = true /\ In i (map n_id l)) /\
  (forall i, In i (a_open a') <-> In i (a_open a) \/ ok i = true /\ In i (map n_id l) /\ ~ In i (a_all a)) /\
  (length (a_all a') + length (a_open a) = length (a_all a) + length (a_open a'))%nat.
Proof.
  revert a. induction l as [|n l IH]; intros a G; cbn [fold_left map].
  { split; [exact G|]. split; [cbn; tauto|]. split; [cbn; tauto|lia]. }
  destruct (ok (n_id n)) eqn:O; cbn [andb].
  2:{ destruct (IH a G) as (A & B & C & D). split; [exact A|]. split; [|split; [|exact D]].
      - intros i. rewrite B. cbn. split; [tauto|]. intros [H|[H [E|H']]]; [tauto|subst; congruence|tauto].
      - intros i. rewrite C. cbn. split; [tauto|]. intros [H|[H [[E|H'] H2]]]; [tauto|subst; congruence|tauto]. }
  destruct (mem (n_id n) (a_all a)) eqn:M; cbn [negb].
  - apply mem_spec in M. destruct (IH a G) as (A & B & C & D). split; [exact A|]. split; [|split; [|exact D]].
    + intros i. rewrite B. cbn. split; [tauto|]. intros [H|[H [E|H']]]; [tauto|subst; tauto|tauto].
    + intros i. rewrite C. cbn. split; [tauto|]. intros [H|[H [[E|H'] H2]]]; [tauto|subst; contradiction|tauto].
  - apply mem_not in M. destruct G as (G1 & G2 & G3).
    assert (G : good (Asked (a_all a ++ [n_id n]) (a_open a ++ [n_id n]))).
    { split; [|split]; cbn.
      - now apply nodup_app_one.
      - apply nodup_app_one; auto.
      - intros x X. apply in_app_or in X as [X|X]; apply in_or_app; auto. }
    destruct (IH _ G) as (A & B & C & D). split; [exact A|]. split; [|split].
    + intros i. rewrite B. cbn [a_all]. rewrite in_app_iff. cbn [In]. split; [|tauto].
      intros [[H|[H|[]]]|H]; [tauto|subst; tauto|tauto].
    + intros i. rewrite C. cbn [a_all a_open]. rewrite !in_app_iff. cbn [In]. split.
      * intros [[H|[H|[]]]|(H1 & H2 & H3)]; [tauto|subst; tauto|tauto].
      * intros [H|(H1 & [E|H2] & H3)]; [tauto| |].
        -- subst. tauto.
        -- destruct (id_eqb_spec i (n_id n)) as [E|E]; [subst; tauto|]. right. split; [auto|]. split; [auto|].
           intros [H|[H|[]]]; [auto|]. congruence.
    + cbn [a_all a_open] in D. rewrite !app_length in D. cbn in D. lia.
Qed.
Lemma ask_spec ok t a : good a -> good (ask_closest target max_k ok t a) /\
  (forall i, In i (a_all (ask_closest target max_k ok t a)) <-> In i (a_all a) \/ ok i = true /\ In i (map n_id (closest t target max_k))) /\
  (forall i, In i (a_open (ask_closest target max_k ok t a)) <->
     In i (a_open a) \/ ok i = true /\ In i (map n_id (closest t target max_k)) /\ ~ In i (a_all a)) /\
  (length (a_all (ask_closest target max_k ok t a)) + length (a_open a) = length (a_all a) + length (a_open (ask_closest target max_k ok t a)))%nat.
Proof. intros G. exact (ask_fold ok (closest t target max_k) a G). Qed.
Lemma good_drop a p : good a -> good (Asked (a_all a) (drop p (a_open a))).
Proof.
  intros (A & B & C). split; [auto|]. split; cbn; [now apply nodup_filter_id|]. intros x X. apply in_drop in X. apply C, X.
Qed.

(** *** Near: among the candidates, or [max_k] candidates are at least as near *)
Definition crowd (known_ids : list id) (i : id) : Prop :=
  exists l, NoDup l /\ length l = max_k /\ incl l known_ids /\ forall x, In x l -> xor_distance target x <= xor_distance target i.
Definition near (t : table) (i : id) : Prop := In i (map n_id (known t)) \/ crowd (map n_id (known t)) i.
Lemma near_mono t t' i : incl (map n_id (known t)) (map n_id (known t')) -> near t i -> near t' i.
Proof.
  intros I [H|(l & A & B & C & D)]; [left; auto|]. right. exists l. split; [auto|]. split; [auto|]. split; [|auto].
  intros x X. auto.
Qed.
Lemma near_add t p f : tab t -> id_ok (n_id p) ->
  let t' := fst (add t p max_k (fun _ => false) f) in
  incl (map n_id (known t)) (map n_id (known t')) /\ (f = true -> n_id p <> target -> near t' (n_id p)).
Proof.
  intros (ops & F & ->) P t'. destruct (C26_add max_k target ops p (fun _ => false) f TO F P) as (A & B & C).
  fold t' in A, B. set (t := run max_k target ops) in *.
  destruct (snd (add t p max_k (fun _ => false) f)).
  - destruct (A eq_refl) as (X & Y & ev & Z1 & Z2).
    assert (EV : ev = None). { destruct ev as [e|]; [|auto]. destruct (Z1 e eq_refl) as (_ & W & _). discriminate. }
    subst ev. assert (I : In (n_id p) (map n_id (known t'))).
    { apply in_map. apply Z2. now left. }
    split.
    + intros i H. apply in_map_iff in H as (n & <- & H). destruct (id_eqb_spec (n_id n) (n_id p)) as [E|E].
      * rewrite E. exact I.
      * apply in_map. apply Z2. right. split; [auto|]. split; [auto|discriminate].
    + intros _ _. left. exact I.
  - assert (K : known t' = known t) by (apply same_buckets; auto). rewrite K. split; [intros x X; exact X|].
    intros X Y. destruct (C eq_refl X Y) as (Z1 & Z2 & _). right. rewrite K.
    destruct (inv_run max_k target ops TO F) as [L I]. fold t in L, I.
    destruct (C26_table_invariants max_k target ops TO F) as (_ & _ & _ & W1 & W2 & _). fold t in W1, W2.
    exists (map n_id (bks t (xor_distance target (n_id p)))). split; [apply (inv_nodup _ _ _ I)|].
    split; [rewrite map_length; exact Z2|]. split.
    + intros x H. apply in_map_iff in H as (n & <- & H). apply in_map. eauto.
    + intros x H. apply in_map_iff in H as (n & <- & H). rewrite (W1 _ _ H). lia.
Qed.
(** when the nearest candidates are all asked, whoever is near was asked, or [max_k] at least as
    near were *)
Lemma near_asked t l i : tab t -> incl (map n_id (closest t target max_k)) l -> near t i ->
  In i l \/ crowd l i.
Proof.
  intros T IN H. destruct (tab_facts t T) as (ND & _ & KN & LEN & ND2 & FAR).
  set (r := closest t target max_k) in *.
  assert (OUT : forall x, In x (known t) -> ~ In x r -> xor_distance target (n_id x) <= xor_distance target i -> crowd l i).
  { intros x X NX D. exists (map n_id r). split; [auto|]. rewrite map_length. split.
    - rewrite LEN. apply Nat.min_l. destruct (Nat.le_gt_cases max_k (length (known t))); [auto|]. exfalso. apply NX.
      assert (RI : incl r (known t)) by (intros y Y; auto).
      apply (NoDup_length_incl (NoDup_map_inv _ _ ND2)) in RI; [auto|]. rewrite LEN. lia.
    - split; [exact IN|]. intros y Y. apply in_map_iff in Y as (z & <- & Z). specialize (FAR x z X NX Z). lia. }
  assert (DEC : forall x, In x (known t) -> In x r \/ ~ In x r).
  { intros x X. destruct (in_dec (list_eq_dec N.eq_dec) (n_id x) (map n_id r)) as [Y|Y].
    - left. apply in_map_iff in Y as (z & E & Z). assert (z = x); [|now subst].
      assert (ZK := KN z Z). clear - ND E X ZK.
      induction (known t) as [|a k IH]; [destruct X|]. inversion ND as [|? ? N1 N2]; subst. destruct X as [X|X], ZK as [Z|Z]; subst.
      + auto.
      + exfalso. apply N1. rewrite <- E. now apply in_map.
      + exfalso. apply N1. rewrite E. now apply in_map.
      + auto.
    - right. intros X'. apply Y. now apply in_map. }
  destruct H as [H|(m & M1 & M2 & M3 & M4)].
  - apply in_map_iff in H as (x & <- & X). destruct (DEC x X) as [Y|Y].
    + left. apply IN. now apply in_map.
    + right. apply (OUT x X Y). lia.
  - right. destruct (Forall_Exists_dec (fun x => In x l) (fun x => in_dec (list_eq_dec N.eq_dec) x l) m) as [A|A].
    + exists m. rewrite Forall_forall in A. auto.
    + apply Exists_exists in A as (x & A & B). assert (C := M3 x A). apply in_map_iff in C as (y & <- & C).
      destruct (DEC y C) as [Y|Y]; [exfalso; apply B, IN; now apply in_map|]. apply (OUT y C Y). auto.
Qed.
End Inv.
