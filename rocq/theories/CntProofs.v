(* Proofs about the sparse counters. *)
From Coq Require Import NArith ZArith List Bool Lia Permutation.
From Coq Require Import ZifyN ZifyNat ZifyBool.
From Verif Require Import AMap Bytes CntModel CntSpec.
Import ListNotations.
Open Scope N_scope.

Lemma Neqs2 : forall a b : N, reflect (a = b) (a =? b).
Proof. intros. apply N.eqb_spec. Qed.

Lemma bm_has_in s x : bm_has s x = true <-> In x s.
Proof.
  unfold bm_has. rewrite existsb_exists. split.
  - intros (y & H & E). apply N.eqb_eq in E. now subst.
  - intros H. exists x. split; [assumption|apply N.eqb_refl].
Qed.

Lemma bm_has_app a b x : bm_has (a ++ b) x = bm_has a x || bm_has b x.
Proof. unfold bm_has. apply existsb_app. Qed.

Lemma bm_has_add s l x : bm_has (bm_add s l) x = bm_has l x || bm_has s x.
Proof. unfold bm_add. apply bm_has_app. Qed.

Lemma bm_has_del s l x : bm_has (bm_del s l) x = bm_has s x && negb (bm_has l x).
Proof.
  apply eq_iff_eq_true. rewrite andb_true_iff, !bm_has_in. unfold bm_del.
  rewrite filter_In. reflexivity.
Qed.

(* ---- the code of a small count ---- *)
Lemma below256 (P : N -> bool) :
  forallb P (map N.of_nat (seq 0 256)) = true -> forall x, x < 256 -> P x = true.
Proof.
  intros H x L. rewrite forallb_forall in H. apply H. apply in_map_iff.
  exists (N.to_nat x). split; [lia|]. apply in_seq. lia.
Qed.

Definition bits8 : list N := [0;1;2;3;4;5;6;7].
Lemma below8 b : b < 8 -> In b bits8.
Proof.
  intros H. assert (b = 0 \/ b = 1 \/ b = 2 \/ b = 3 \/ b = 4 \/ b = 5 \/ b = 6 \/ b = 7) by lia.
  unfold bits8. cbn [In]. intuition.
Qed.

Lemma set_bits_ok x b : x < 256 -> b < 8 -> bm_has (set_bits 8 x) b = N.testbit x b.
Proof.
  intros L Lb.
  assert (A : forallb (fun x => forallb (fun b => Bool.eqb (bm_has (set_bits 8 x) b) (N.testbit x b)) bits8)
                (map N.of_nat (seq 0 256)) = true) by (vm_compute; reflexivity).
  pose proof (below256 _ A x L) as H. cbv beta in H. rewrite forallb_forall in H. specialize (H b (below8 b Lb)).
  now apply eqb_prop in H.
Qed.

Lemma encode_lt r : encode_small_raw r < 256.
Proof. unfold encode_small_raw. destruct (2 <=? r) eqn:A, (r <=? 256) eqn:B; cbn; lia. Qed.

Lemma land_lt a b : b < 256 -> N.land a b < 256.
Proof.
  intros H. replace (N.land a b) with (N.land a b mod 2 ^ 8).
  - apply N.mod_lt. discriminate.
  - rewrite <- N.land_ones, <- N.land_assoc. f_equal.
    rewrite N.land_ones. apply N.mod_small. exact H.
Qed.

Lemma d_adds_ok o n b : o < 256 -> n < 256 -> b < 8 ->
  bm_has (d_adds o n) b = N.testbit n b && negb (N.testbit o b).
Proof.
  intros Ho Hn Hb. unfold d_adds. rewrite set_bits_ok; [|now apply land_lt|assumption].
  rewrite N.land_spec, N.lxor_spec. destruct (N.testbit n b), (N.testbit o b); reflexivity.
Qed.
Lemma d_removes_ok o n b : o < 256 -> n < 256 -> b < 8 ->
  bm_has (d_removes o n) b = N.testbit o b && negb (N.testbit n b).
Proof.
  intros Ho Hn Hb. unfold d_removes. rewrite set_bits_ok; [|now apply land_lt|assumption].
  rewrite N.land_spec, N.lxor_spec. destruct (N.testbit n b), (N.testbit o b); reflexivity.
Qed.

Definition sum_bits (x : N) : N :=
  fold_right (fun b a => (if N.testbit x b then N.shiftl 1 b else 0) + a) 0 bits8.
Lemma sum_bits_ok x : x < 256 -> sum_bits x = x.
Proof.
  intros L.
  assert (A : forallb (fun x => sum_bits x =? x) (map N.of_nat (seq 0 256)) = true) by (vm_compute; reflexivity).
  pose proof (below256 _ A x L) as H. cbv beta in H.
  now apply N.eqb_eq in H.
Qed.

Lemma code_of_ok sets raw code :
  length sets = 8%nat -> code < 256 ->
  (forall b, (b < 8)%nat -> bm_has (nth b sets []) raw = N.testbit code (N.of_nat b)) ->
  code_of 0 sets raw = code.
Proof.
  intros L Hc H.
  destruct sets as [|s0 [|s1 [|s2 [|s3 [|s4 [|s5 [|s6 [|s7 [|]]]]]]]]]; try discriminate L.
  pose proof (H 0%nat (proj1 (Nat.ltb_lt 0 8) eq_refl)) as H0. pose proof (H 1%nat (proj1 (Nat.ltb_lt 1 8) eq_refl)) as H1.
  pose proof (H 2%nat (proj1 (Nat.ltb_lt 2 8) eq_refl)) as H2. pose proof (H 3%nat (proj1 (Nat.ltb_lt 3 8) eq_refl)) as H3.
  pose proof (H 4%nat (proj1 (Nat.ltb_lt 4 8) eq_refl)) as H4. pose proof (H 5%nat (proj1 (Nat.ltb_lt 5 8) eq_refl)) as H5.
  pose proof (H 6%nat (proj1 (Nat.ltb_lt 6 8) eq_refl)) as H6. pose proof (H 7%nat (proj1 (Nat.ltb_lt 7 8) eq_refl)) as H7.
  cbn [nth] in *. transitivity (sum_bits code); [|now apply sum_bits_ok].
  cbn [code_of]. rewrite H0, H1, H2, H3, H4, H5, H6, H7. reflexivity.
Qed.

(* ---- batches ---- *)
Definition keeps (t : ctrans) : bool := negb (t_old t =? t_new t).

Lemma push_keeps t :
  negb (negb (t_old t =? t_new t) && negb ((t_old t <=? 1) && (t_new t <=? 1)))
   && negb (xorb (t_old t =? 0) (t_new t =? 0)) = negb (keeps t).
Proof.
  unfold keeps. destruct (N.eqb_spec (t_old t) (t_new t)) as [E|E].
  - rewrite E. cbn. now rewrite xorb_nilpotent.
  - cbn [negb andb]. rewrite negb_involutive.
    destruct (t_old t <=? 1) eqn:A, (t_new t <=? 1) eqn:B, (t_old t =? 0) eqn:C, (t_new t =? 0) eqn:D; cbn; lia.
Qed.

Fixpoint n_added (l : list ctrans) : N :=
  match l with
  | [] => 0
  | t :: r => (if (t_old t =? 0) && negb (t_new t =? 0) then 1 else 0) + n_added r
  end.
Fixpoint n_removed (l : list ctrans) : N :=
  match l with
  | [] => 0
  | t :: r => (if negb (t_old t =? 0) && (t_new t =? 0) then 1 else 0) + n_removed r
  end.

Fixpoint ct_sorted_from (last : option N) (l : list ctrans) : bool :=
  match l with
  | [] => true
  | t :: r => match last with Some p => negb (t_idx t <=? p) | None => true end
              && ct_sorted_from (Some (t_idx t)) r
  end.

Lemma pushes l : forall s,
  let s' := fold_left cs_push l s in
  s_trans s' = s_trans s ++ filter keeps l /\
  s_added s' = s_added s + n_added l /\
  s_removed s' = s_removed s + n_removed l /\
  (s_max s' = None <-> s_max s = None /\ filter keeps l = []).
Proof.
  induction l as [|t r IH]; intros s; cbn [fold_left filter n_added n_removed].
  - rewrite app_nil_r. cbn zeta. rewrite !N.add_0_r. tauto.
  - specialize (IH (cs_push s t)). cbn zeta in *. destruct IH as (A & B & C & D).
    rewrite A, B, C, D. clear A B C D. unfold cs_push. rewrite push_keeps.
    destruct (keeps t) eqn:K; cbn [negb s_trans s_added s_removed s_max].
    + rewrite <- app_assoc. cbn [app]. split; [reflexivity|].
      split; [destruct (_ && _); lia|]. split; [destruct (_ && _); lia|].
      split; intros [H1 H2]; [|discriminate H2].
      unfold opt_max in H1. destruct (s_max s); discriminate H1.
    + unfold keeps in K. apply negb_false_iff, N.eqb_eq in K. rewrite K.
      destruct (t_new t =? 0); cbn; rewrite ?N.add_0_l; tauto.
Qed.

Lemma ct_ins_perm t l : Permutation (ct_ins t l) (t :: l).
Proof.
  induction l as [|x r IH]; cbn [ct_ins]; [reflexivity|].
  destruct (t_idx t <=? t_idx x); [reflexivity|].
  rewrite IH. apply perm_swap.
Qed.
Lemma ct_sort_perm l : Permutation (ct_sort l) l.
Proof.
  induction l as [|x r IH]; cbn; [reflexivity|]. rewrite ct_ins_perm. now constructor.
Qed.
Lemma prepare_perm s : Permutation (prepare_order s) (s_trans s).
Proof. unfold prepare_order. destruct (s_sorted s); [reflexivity|apply ct_sort_perm]. Qed.

(* the transition of a row, if there is one *)
Fixpoint tfind (i : N) (l : list ctrans) : option ctrans :=
  match l with
  | [] => None
  | t :: r => if i =? t_idx t then Some t else tfind i r
  end.

Lemma tfind_none i l : tfind i l = None <-> ~ In i (map t_idx l).
Proof.
  induction l as [|t r IH]; cbn [tfind map In]; [tauto|].
  destruct (N.eqb_spec i (t_idx t)) as [->|N]; [|rewrite IH; intuition congruence].
  split; [discriminate|]. intros H. exfalso. auto.
Qed.
Lemma tfind_some i l t : tfind i l = Some t -> In t l /\ t_idx t = i.
Proof.
  induction l as [|x r IH]; cbn [tfind In]; [discriminate|].
  destruct (N.eqb_spec i (t_idx x)) as [->|N].
  - intros [= ->]. auto.
  - intros H. destruct (IH H). auto.
Qed.
Lemma tfind_in l t : NoDup (map t_idx l) -> In t l -> tfind (t_idx t) l = Some t.
Proof.
  induction l as [|x r IH]; cbn [tfind In map]; [tauto|]. intros ND [->|H].
  - now rewrite N.eqb_refl.
  - inversion ND as [|? ? A B]; subst. destruct (N.eqb_spec (t_idx t) (t_idx x)) as [E|E].
    + exfalso. apply A. rewrite <- E. now apply in_map.
    + now apply IH.
Qed.
Lemma tfind_perm l l' i : NoDup (map t_idx l) -> Permutation l l' -> tfind i l = tfind i l'.
Proof.
  intros ND P. assert (ND' : NoDup (map t_idx l')).
  { eapply Permutation_NoDup; [|exact ND]. now apply Permutation_map. }
  destruct (tfind i l) as [t|] eqn:E.
  - apply tfind_some in E as [E1 E2]. subst i. symmetry. apply tfind_in; [assumption|].
    eapply Permutation_in; eauto.
  - symmetry. apply tfind_none. apply tfind_none in E. intros H. apply E.
    eapply Permutation_in; [|exact H]. apply Permutation_map. now symmetry.
Qed.

Section Pick.
  Variable P : ctrans -> bool.
  Fixpoint pick (l : list ctrans) : list N :=
    match l with
    | [] => []
    | t :: r => (if P t then [t_idx t] else []) ++ pick r
    end.
  Lemma pick_has l i : NoDup (map t_idx l) ->
    bm_has (pick l) i = match tfind i l with Some t => P t | None => false end.
  Proof.
    induction l as [|t r IH]; cbn [pick tfind map]; intros ND; [reflexivity|].
    inversion ND as [|? ? A B]; subst. rewrite bm_has_app, (IH B).
    destruct (N.eqb_spec i (t_idx t)) as [->|N].
    - assert (tfind (t_idx t) r = None) as -> by now apply tfind_none.
      rewrite orb_false_r. destruct (P t); cbn; [now rewrite N.eqb_refl|reflexivity].
    - destruct (P t); cbn; [|reflexivity].
      apply N.eqb_neq in N. rewrite N. reflexivity.
  Qed.
End Pick.

Lemma large_apply_get l : forall m i, NoDup (map t_idx l) ->
  aget N.eqb i (large_apply l m) =
  match tfind i l with
  | Some t => if BIG_MIN <=? t_new t then Some (t_new t)
              else if BIG_MIN <=? t_old t then None else aget N.eqb i m
  | None => aget N.eqb i m
  end.
Proof.
  induction l as [|t r IH]; intros m i ND; cbn [large_apply tfind map] in *; [reflexivity|].
  inversion ND as [|? ? A B]; subst. rewrite (IH _ _ B).
  destruct (N.eqb_spec i (t_idx t)) as [->|N].
  - assert (tfind (t_idx t) r = None) as -> by now apply tfind_none.
    destruct (BIG_MIN <=? t_new t); [|destruct (BIG_MIN <=? t_old t)].
    + rewrite (aget_aset N.eqb Neqs2), N.eqb_refl. reflexivity.
    + rewrite (aget_adel N.eqb Neqs2), N.eqb_refl. reflexivity.
    + reflexivity.
  - assert (Hq : (i =? t_idx t) = false) by now apply N.eqb_neq.
    destruct (BIG_MIN <=? t_new t); [|destruct (BIG_MIN <=? t_old t)]; [| |reflexivity].
    + rewrite (aget_aset N.eqb Neqs2), Hq. reflexivity.
    + rewrite (aget_adel N.eqb Neqs2), Hq. reflexivity.
Qed.

Lemma large_apply_nodup l : forall m, NoDup (akeys m) -> NoDup (akeys (large_apply l m)).
Proof.
  induction l as [|t r IH]; intros m H; cbn [large_apply]; [assumption|]. apply IH.
  destruct (BIG_MIN <=? t_new t); [|destruct (BIG_MIN <=? t_old t)]; [| |assumption].
  - now apply (aset_nodup N.eqb Neqs2).
  - now apply (adel_nodup N.eqb).
Qed.

Lemma flush_length l sets : forall b, length (flush_sets b l sets) = length sets.
Proof. induction sets as [|s t IH]; intros b; cbn [flush_sets length]; [reflexivity|]. now rewrite IH. Qed.

Lemma flush_nth l sets : forall b k, (k < length sets)%nat ->
  nth k (flush_sets b l sets) [] =
  bm_add (bm_del (nth k sets []) (delta_remove (b + N.of_nat k) l)) (delta_add (b + N.of_nat k) l).
Proof.
  induction sets as [|s t IH]; intros b k H; cbn [length] in H; [lia|].
  destruct k as [|k]; cbn [flush_sets nth].
  - now rewrite N.add_0_r.
  - rewrite IH by lia. replace (b + 1 + N.of_nat k) with (b + N.of_nat (S k)) by lia. reflexivity.
Qed.

Lemma delta_add_pick b l : delta_add b l =
  pick (fun t => negb (encode_small_raw (t_old t) =? encode_small_raw (t_new t)) &&
                 bm_has (d_adds (encode_small_raw (t_old t)) (encode_small_raw (t_new t))) b) l.
Proof. induction l as [|t r IH]; cbn [delta_add pick]; [reflexivity|]. now rewrite IH. Qed.
Lemma delta_remove_pick b l : delta_remove b l =
  pick (fun t => negb (encode_small_raw (t_old t) =? encode_small_raw (t_new t)) &&
                 bm_has (d_removes (encode_small_raw (t_old t)) (encode_small_raw (t_new t))) b) l.
Proof. induction l as [|t r IH]; cbn [delta_remove pick]; [reflexivity|]. now rewrite IH. Qed.
Lemma over_add_pick l : over_add l = pick (fun t => negb (1 <? t_old t) && (1 <? t_new t)) l.
Proof. induction l as [|t r IH]; cbn [over_add pick]; [reflexivity|]. now rewrite IH. Qed.
Lemma over_remove_pick l : over_remove l = pick (fun t => (1 <? t_old t) && negb (1 <? t_new t)) l.
Proof. induction l as [|t r IH]; cbn [over_remove pick]; [reflexivity|]. now rewrite IH. Qed.

(* ---- the relation between the table and what is kept ---- *)
Record rep (c : counters) (m : table) : Prop := {
  r_present : forall i, bm_has (c_present c) i = (1 <? m i);
  r_large : forall i, aget N.eqb i (c_large c) = if BIG_MIN <=? m i then Some (m i) else None;
  r_len : length (c_bits c) = 8%nat;
  r_bits : forall i b, (b < 8)%nat ->
     bm_has (nth b (c_bits c) []) i = N.testbit (encode_small_raw (m i)) (N.of_nat b);
  r_nodup : NoDup (akeys (c_large c));
  r_scratch : c_scratch c = cs_empty;
  r_next : forall i, m i <> 0 -> i < c_next c;
  r_live : c_live c = rows_below m (N.to_nat (c_next c));
  r_u64 : forall i, m i < 2 ^ 64
}.

Lemma rep_get c m : rep c m -> forall i, cnt_get c i = if m i =? 0 then 1 else m i.
Proof.
  intros R i. unfold cnt_get. rewrite (r_present c m R), (r_large c m R).
  destruct (N.ltb_spec 1 (m i)) as [L|L]; cbn [negb].
  - destruct (N.eqb_spec (m i) 0); [lia|].
    destruct (N.leb_spec BIG_MIN (m i)) as [B|B]; [reflexivity|].
    rewrite (code_of_ok (c_bits c) i (encode_small_raw (m i)) (r_len c m R) (encode_lt _) (r_bits c m R i)).
    unfold encode_small_raw, BIG_MIN in *.
    destruct (2 <=? m i) eqn:A, (m i <=? 256) eqn:D; cbn [andb]; lia.
  - destruct (N.eqb_spec (m i) 0); lia.
Qed.

Lemma rep_new next : rep (cnt_new next) (fun _ => 0).
Proof.
  constructor; cbn [cnt_new c_present c_large c_bits c_scratch c_next c_live].
  - reflexivity.
  - reflexivity.
  - reflexivity.
  - intros i b H. assert (E : N.testbit (encode_small_raw 0) (N.of_nat b) = false).
    { change (encode_small_raw 0) with 0. apply N.bits_0. } rewrite E.
    do 8 (destruct b as [|b]; [reflexivity|]). lia.
  - constructor.
  - reflexivity.
  - intros i H. now contradiction H.
  - induction (N.to_nat next) as [|k IH]; cbn [rows_below]; [reflexivity|]. now rewrite <- IH.
  - intros _. reflexivity.
Qed.

(* tables *)
Lemma tset_all_get l : forall m i, NoDup (map fst l) ->
  tset_all m l i = match aget N.eqb i l with Some v => v | None => m i end.
Proof.
  induction l as [|[k v] r IH]; intros m i ND; cbn [tset_all aget map fst] in *; [reflexivity|].
  inversion ND as [|? ? A B]; subst. rewrite (IH _ _ B). unfold tset.
  destruct (N.eqb_spec i k) as [->|N].
  - assert (aget N.eqb k r = None) as ->. { now apply (aget_none N.eqb Neqs2). } reflexivity.
  - reflexivity.
Qed.

Lemma rows_below_ext m m' n : (forall i, m i = m' i) -> rows_below m n = rows_below m' n.
Proof. intros H. induction n as [|k IH]; cbn [rows_below]; [reflexivity|]. now rewrite H, IH. Qed.

Lemma rows_below_out m i v n : (n <= N.to_nat i)%nat -> rows_below (tset m i v) n = rows_below m n.
Proof.
  induction n as [|k IH]; cbn [rows_below]; intros H; [reflexivity|].
  unfold tset at 1. destruct (N.eqb_spec (N.of_nat k) i); [lia|]. rewrite IH by lia. reflexivity.
Qed.

Lemma rows_below_set m i v n : (N.to_nat i < n)%nat ->
  rows_below (tset m i v) n + (if negb (m i =? 0) && (v =? 0) then 1 else 0) =
  rows_below m n + (if (m i =? 0) && negb (v =? 0) then 1 else 0).
Proof.
  induction n as [|k IH]; cbn [rows_below]; intros H; [lia|].
  unfold tset at 1. destruct (N.eqb_spec (N.of_nat k) i) as [E|E].
  - rewrite rows_below_out by lia. rewrite E.
    destruct (m i =? 0), (v =? 0); cbn [negb andb]; lia.
  - assert (H2 : (N.to_nat i < k)%nat) by lia. specialize (IH H2). lia.
Qed.

Lemma rows_below_all l : forall m n, NoDup (map fst l) ->
  (forall i v, In (i, v) l -> (N.to_nat i < n)%nat) ->
  let ts := map (fun e => mkCT (fst e) (m (fst e)) (snd e)) l in
  rows_below (tset_all m l) n + n_removed ts = rows_below m n + n_added ts.
Proof.
  induction l as [|[i v] r IH]; intros m n ND H; cbn [tset_all map n_removed n_added]; [reflexivity|].
  cbn [fst snd t_old t_new]. cbn [map fst] in ND. inversion ND as [|? ? A B]; subst.
  specialize (IH (tset m i v) n B (fun j w Hj => H j w (or_intror Hj))). cbn zeta in IH.
  assert (E : map (fun e : N * N => mkCT (fst e) (tset m i v (fst e)) (snd e)) r =
              map (fun e : N * N => mkCT (fst e) (m (fst e)) (snd e)) r).
  { apply map_ext_in. intros [j w] Hj. cbn [fst snd]. unfold tset.
    destruct (N.eqb_spec j i) as [->|]; [|reflexivity].
    exfalso. apply A. apply in_map_iff. exists (i, w). auto. }
  rewrite E in IH. pose proof (rows_below_set m i v n (H i v (or_introl eq_refl))) as S.
  cbn zeta. lia.
Qed.

Lemma tfind_map m l i : NoDup (map fst l) ->
  tfind i (filter keeps (map (fun e => mkCT (fst e) (m (fst e)) (snd e)) l)) =
  match aget N.eqb i l with
  | Some v => if m i =? v then None else Some (mkCT i (m i) v)
  | None => None
  end.
Proof.
  induction l as [|[k v] r IH]; intros ND; cbn [map filter aget fst snd] in *; [reflexivity|].
  inversion ND as [|? ? A B]; subst. specialize (IH B).
  unfold keeps at 1. cbn [t_old t_new].
  destruct (N.eqb_spec i k) as [->|N].
  - assert (E : aget N.eqb k r = None) by now apply (aget_none N.eqb Neqs2).
    rewrite E in IH. destruct (N.eqb_spec (m k) v); cbn [negb].
    + exact IH.
    + cbn [tfind t_idx]. now rewrite N.eqb_refl.
  - destruct (N.eqb_spec (m k) v); cbn [negb tfind t_idx]; [exact IH|].
    apply N.eqb_neq in N. rewrite N. exact IH.
Qed.

Lemma nodup_filter_idx (f : ctrans -> bool) l : NoDup (map t_idx l) -> NoDup (map t_idx (filter f l)).
Proof.
  induction l as [|t r IH]; cbn [map filter]; intros H; [constructor|].
  inversion H as [|? ? A B]; subst. destruct (f t); cbn [map]; [|now apply IH].
  constructor; [|now apply IH]. intros Hin. apply A. apply in_map_iff in Hin as (x & E & Hx).
  apply filter_In in Hx as [Hx _]. apply in_map_iff. eauto.
Qed.

Lemma rep_batch c m l : rep c m -> NoDup (map fst l) ->
  (forall i v, In (i, v) l -> i < c_next c /\ v < 2 ^ 64) ->
  rep (cnt_batch c (map (fun e => mkCT (fst e) (m (fst e)) (snd e)) l)) (tset_all m l).
Proof.
  intros R ND HB.
  set (ts := map (fun e => mkCT (fst e) (m (fst e)) (snd e)) l).
  unfold cnt_batch. rewrite (r_scratch c m R).
  pose proof (pushes ts cs_empty) as PS. cbn zeta in PS. destruct PS as (PT & PA & PR & PM).
  set (s := fold_left cs_push ts cs_empty) in *.
  cbn [cs_empty s_trans s_added s_removed s_max app] in PT, PA, PR, PM.
  rewrite N.add_0_l in PA, PR.
  assert (NDts : NoDup (map t_idx ts)).
  { unfold ts. rewrite map_map. cbn [t_idx]. exact ND. }
  assert (NDk : NoDup (map t_idx (filter keeps ts))) by now apply nodup_filter_idx.
  pose proof (prepare_perm s) as PP. rewrite PT in PP.
  assert (NDo : NoDup (map t_idx (prepare_order s))).
  { eapply Permutation_NoDup; [|exact NDk]. apply Permutation_map. now symmetry. }
  assert (TF : forall i, tfind i (prepare_order s) =
    match aget N.eqb i l with
    | Some v => if m i =? v then None else Some (mkCT i (m i) v) | None => None end).
  { intros i. rewrite (tfind_perm _ _ i NDo PP). unfold ts. now apply tfind_map. }
  assert (TG : forall i, tset_all m l i = match tfind i (prepare_order s) with
    | Some t => t_new t | None => m i end).
  { intros i. rewrite (tset_all_get l m i ND), TF. destruct (aget N.eqb i l) as [v|]; [|reflexivity].
    destruct (N.eqb_spec (m i) v); [congruence|reflexivity]. }
  assert (TO : forall i t, tfind i (prepare_order s) = Some t -> t_old t = m i).
  { intros i t. rewrite TF. destruct (aget N.eqb i l) as [v|]; [|discriminate].
    destruct (m i =? v); [discriminate|]. intros [= <-]. reflexivity. }
  pose proof (rows_below_all l m (N.to_nat (c_next c)) ND
    (fun i v H => ltac:(destruct (HB i v H); lia))) as RL. cbn zeta in RL. fold ts in RL.
  assert (U : forall i, tset_all m l i < 2 ^ 64).
  { intros i. rewrite (tset_all_get l m i ND). destruct (aget N.eqb i l) as [v|] eqn:E; [|apply (r_u64 c m R)].
    apply (aget_some_in N.eqb Neqs2) in E. now destruct (HB i v E). }
  assert (NX : forall i, tset_all m l i <> 0 -> i < c_next c).
  { intros i. rewrite (tset_all_get l m i ND). destruct (aget N.eqb i l) as [v|] eqn:E; [|apply (r_next c m R)].
    apply (aget_some_in N.eqb Neqs2) in E. intros _. now destruct (HB i v E). }
  destruct (prepare_order s) as [|t0 r0] eqn:PO.
  - (* nothing changes *)
    assert (F : filter keeps ts = []) by (now apply Permutation_nil in PP).
    assert (MX : s_max s = None) by (apply PM; auto).
    assert (SAME : forall i, m i = tset_all m l i) by (intros i; now rewrite TG).
    unfold apply_batch. rewrite MX. cbn [c_next c_live c_present c_bits c_large].
    constructor; cbn [c_next c_live c_present c_bits c_large c_scratch].
    + intros i. rewrite <- SAME. apply (r_present c m R).
    + intros i. rewrite <- SAME. apply (r_large c m R).
    + apply (r_len c m R).
    + intros i b Hb. rewrite <- SAME. now apply (r_bits c m R).
    + apply (r_nodup c m R).
    + reflexivity.
    + exact NX.
    + rewrite (r_live c m R). now apply rows_below_ext.
    + exact U.
  - assert (MX : s_max s <> None).
    { intros E. apply PM in E as [_ E]. rewrite E in PP. apply Permutation_sym, Permutation_nil in PP. discriminate. }
    unfold apply_batch. rewrite PO. destruct (s_max s) as [mx|]; [|now contradiction MX].
    cbn [c_next c_live c_present c_bits c_large].
    set (o := t0 :: r0) in *.
    constructor; cbn [c_next c_live c_present c_bits c_large c_scratch].
    + intros i. rewrite bm_has_add, bm_has_del, over_add_pick, over_remove_pick.
      rewrite !pick_has by assumption. rewrite (r_present c m R), TG.
      destruct (tfind i o) as [t|] eqn:E.
      * rewrite (TO i t E). destruct (1 <? m i), (1 <? t_new t); reflexivity.
      * destruct (1 <? m i); reflexivity.
    + intros i. rewrite large_apply_get by assumption. rewrite TG.
      destruct (tfind i o) as [t|] eqn:E.
      * rewrite (TO i t E), (r_large c m R). destruct (BIG_MIN <=? t_new t); [reflexivity|].
        destruct (BIG_MIN <=? m i); reflexivity.
      * apply (r_large c m R).
    + rewrite flush_length. apply (r_len c m R).
    + intros i b Hb. rewrite flush_nth by (rewrite (r_len c m R); assumption).
      rewrite N.add_0_l, bm_has_add, bm_has_del, delta_add_pick, delta_remove_pick.
      rewrite !pick_has by assumption. rewrite (r_bits c m R i b Hb), TG.
      assert (Hb8 : N.of_nat b < 8) by lia.
      destruct (tfind i o) as [t|] eqn:E.
      * rewrite (TO i t E).
        rewrite d_adds_ok, d_removes_ok by (assumption || apply encode_lt).
        destruct (N.eqb_spec (encode_small_raw (m i)) (encode_small_raw (t_new t))) as [Q|Q]; cbn [negb andb orb].
        -- rewrite Q. apply andb_true_r.
        -- destruct (N.testbit (encode_small_raw (m i)) (N.of_nat b)),
             (N.testbit (encode_small_raw (t_new t)) (N.of_nat b)); reflexivity.
      * destruct (N.testbit _ _); reflexivity.
    + apply large_apply_nodup, (r_nodup c m R).
    + reflexivity.
    + exact NX.
    + rewrite PA, PR, (r_live c m R). lia.
    + exact U.
Qed.

Lemma rep_alloc c m : rep c m -> rep (snd (cnt_alloc c)) m.
Proof.
  intros R. constructor; cbn [cnt_alloc snd c_next c_live c_present c_bits c_large c_scratch].
  - apply (r_present c m R).
  - apply (r_large c m R).
  - apply (r_len c m R).
  - apply (r_bits c m R).
  - apply (r_nodup c m R).
  - apply (r_scratch c m R).
  - intros i H. pose proof (r_next c m R i H). lia.
  - replace (N.to_nat (c_next c + 1)) with (S (N.to_nat (c_next c))) by lia. cbn [rows_below].
    rewrite N2Nat.id. destruct (N.eqb_spec (m (c_next c)) 0) as [E|E].
    + apply (r_live c m R).
    + pose proof (r_next c m R _ E). lia.
  - apply (r_u64 c m R).
Qed.
