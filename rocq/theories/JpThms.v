(** C91: theorems about the points of the journal. *)
From Coq Require Import List NArith ZArith Bool Arith Lia ZifyN ZifyNat ZifyBool.
From Verif Require Import JpModel.
Import ListNotations.
Local Open Scope N_scope.

(** *** The specification *)
(** the records which say that a point is stored *)
Definition says_stored (k : pkey) (r : rec) : bool := existsb (fun x => pkey_eqb k (fst x) && snd x) (r_refs r).
Definition users (l : list rec) (k : pkey) : N := N.of_nat (length (filter (says_stored k) l)).

Lemma pkey_spec a b : reflect (a = b) (pkey_eqb a b).
Proof.
  destruct a as [a1 a2], b as [b1 b2]. unfold pkey_eqb; cbn.
  destruct (N.eqb_spec a1 b1), (N.eqb_spec a2 b2); cbn; constructor; congruence.
Qed.
Lemma pkey_refl k : pkey_eqb k k = true.
Proof. now destruct (pkey_spec k k). Qed.
Lemma mem_spec k l : mem k l = true <-> In k l.
Proof.
  unfold mem. rewrite existsb_exists. split.
  - intros (x & I & E). destruct (pkey_spec k x); [congruence|discriminate].
  - intros I. exists k. split; [assumption|apply pkey_refl].
Qed.
Lemma mem_false k l : mem k l = false <-> ~ In k l.
Proof. rewrite <- mem_spec. destruct (mem k l); split; congruence. Qed.

(** ** Merging *)
Definition of_bytes (b : N) (l : list val) : Prop := Forall (fun v => match v with Data _ x => x = b | Sub _ => True end) l.
Definition amount (v : val) : Z := match v with Data n _ => Z.of_N n | Sub n => (- Z.of_N n)%Z end.
Definition sum (l : list val) : Z := fold_right (fun v s => (amount v + s)%Z) 0%Z l.
Definition has (l : list val) : bool := existsb (fun v => match v with Data _ _ => true | _ => false end) l.

Lemma sum_app a b : sum (a ++ b) = (sum a + sum b)%Z.
Proof. induction a as [|v a IH]; [reflexivity|]. change (sum ((v :: a) ++ b)) with (amount v + sum (a ++ b))%Z. change (sum (v :: a)) with (amount v + sum a)%Z. lia. Qed.
Lemma sum_none l : has l = false -> (sum l <= 0)%Z.
Proof.
  induction l as [|v l IH]; [cbn; lia|]. change (sum (v :: l)) with (amount v + sum l)%Z. destruct v as [n b|n]; cbn [has existsb orb]; [discriminate|].
  intros H. specialize (IH H). cbn [amount]. lia.
Qed.
Lemma merge_fold b l : of_bytes b l -> forall c d, (d = None \/ d = Some b) ->
  fold_left merge_step l (Some (c, d)) = Some ((c + sum l)%Z, if has l then Some b else d).
Proof.
  induction 1 as [|v l V F IH]; intros c d D; cbn [fold_left].
  - cbn. do 2 f_equal. lia.
  - change (sum (v :: l)) with (amount v + sum l)%Z. destruct v as [n x|n]; cbn [merge_step has existsb amount orb].
    + subst x. assert (E : match d with Some b' => if b' =? b then Some ((c + Z.of_N n)%Z, Some b) else None | None => Some ((c + Z.of_N n)%Z, Some b) end
        = Some ((c + Z.of_N n)%Z, Some b)) by (destruct D as [->| ->]; [reflexivity|now rewrite N.eqb_refl]).
      rewrite E, IH by auto. do 2 f_equal; [lia|]. fold (has l). now destruct (has l).
    + rewrite IH by auto. fold (has l). do 2 f_equal. lia.
Qed.
Lemma merge_is b l : of_bytes b l ->
  merge l = Some (if has l && (0 <=? sum l)%Z then Data (Z.to_N (sum l)) b else Sub (Z.to_N (- sum l))).
Proof.
  intros H. unfold merge. rewrite (merge_fold b l H) by auto. cbn [merge_end]. rewrite Z.add_0_l. destruct (has l) eqn:E; cbn [andb].
  - destruct (Z.ltb_spec (sum l) 0), (Z.leb_spec 0 (sum l)); try lia; reflexivity.
  - pose proof (sum_none l E). destruct (Z.ltb_spec 0 (sum l)); [lia|reflexivity].
Qed.

(** Operands about the same bytes merge to the same, whatever part of them is merged first. *)
Theorem merge_any_grouping : forall b before part after, of_bytes b (before ++ part ++ after) ->
  exists v, merge part = Some v /\ merge (before ++ v :: after) = merge (before ++ part ++ after) /\ merge (before ++ part ++ after) <> None.
Proof.
  intros b x a y H. unfold of_bytes in H. apply Forall_app in H as [HX H]. apply Forall_app in H as [HA HY].
  pose proof (merge_is b a HA) as MA. set (v := if has a && _ then _ else _) in MA. exists v. split; [exact MA|].
  assert (AV : amount v = sum a).
  { subst v. destruct (has a) eqn:E; cbn [andb]; [|pose proof (sum_none a E); cbn; lia].
    destruct (Z.leb_spec 0 (sum a)); cbn; lia. }
  assert (HV : of_bytes b (x ++ v :: y)).
  { apply Forall_app. split; [assumption|]. constructor; [|assumption]. subst v. now destruct (_ && _). }
  assert (HW : of_bytes b (x ++ a ++ y)) by (apply Forall_app; split; [|apply Forall_app]; auto).
  rewrite (merge_is b _ HV), (merge_is b _ HW). split; [|discriminate]. f_equal.
  assert (SE : sum (x ++ v :: y) = sum (x ++ a ++ y)).
  { rewrite !sum_app. change (sum (v :: y)) with (amount v + sum y)%Z. lia. }
  rewrite SE. destruct (Z.leb_spec 0 (sum (x ++ a ++ y))) as [P|P]; [|now rewrite !andb_false_r].
  rewrite !andb_true_r. assert (HE : has (x ++ v :: y) = has (x ++ a ++ y)); [|now rewrite HE].
  unfold has. rewrite !existsb_app. cbn [existsb]. fold (has x) (has y) (has a). subst v.
  destruct (has a) eqn:EA; cbn [andb]; [|reflexivity]. destruct (Z.leb_spec 0 (sum a)); cbn; [now rewrite ?orb_true_r|].
  rewrite !orb_true_r. rewrite !sum_app in P. destruct (has x) eqn:EX; [reflexivity|]. destruct (has y) eqn:EY; [reflexivity|].
  pose proof (sum_none x EX). pose proof (sum_none y EY). lia.
Qed.

(** ** What a batch refers to *)
Lemma refs_gen l : forall acc, NoDup acc ->
  let r := fold_left (fun l k => if mem k l then l else l ++ [k]) l acc in
  NoDup r /\ forall k, In k r <-> In k acc \/ In k l.
Proof.
  induction l as [|x l IH]; intros acc N; cbn.
  - split; [assumption|]. tauto.
  - destruct (mem x acc) eqn:M.
    + destruct (IH acc N) as [A B]. split; [assumption|]. intros k. rewrite B. apply mem_spec in M. split; [tauto|]. intros [?|[<-|?]]; auto.
    + assert (N2 : NoDup (acc ++ [x])).
      { apply mem_false in M. clear - N M. induction N as [|y l Y N IH]; cbn; [repeat constructor; auto|].
        constructor; [|apply IH; intros H; apply M; now right]. rewrite in_app_iff. cbn. intros [?|[->|[]]]; [auto|]. apply M. now left. }
      destruct (IH _ N2) as [A B]. split; [assumption|]. intros k. rewrite B, in_app_iff. cbn. tauto.
Qed.
Lemma refs_nodup i : NoDup (refs_of i).
Proof. apply refs_gen. constructor. Qed.
Lemma refs_in i k : In k (refs_of i) <-> In k (i_keys i).
Proof. unfold refs_of. rewrite (proj2 (refs_gen (i_keys i) [] (NoDup_nil _))). cbn. tauto. Qed.

(** the count of a key in a list of counts *)
Definition cnt (k : pkey) (l : list (pkey * N)) : N := fold_right (fun x s => (if pkey_eqb k (fst x) then snd x else 0) + s) 0 l.
Lemma cnt_cons k x n l : cnt k ((x, n) :: l) = (if pkey_eqb k x then n else 0) + cnt k l.
Proof. reflexivity. Qed.
Lemma bump_cnt k x l : cnt x (bump k l) = cnt x l + if pkey_eqb x k then 1 else 0.
Proof.
  induction l as [|[y n] l IH]; [cbn; lia|]. cbn [bump]. destruct (pkey_spec k y) as [<-|NE].
  - rewrite !cnt_cons. destruct (pkey_eqb x k); lia.
  - rewrite !cnt_cons, IH. lia.
Qed.
Lemma bump_in k x l : In x (map fst (bump k l)) <-> x = k \/ In x (map fst l).
Proof.
  induction l as [|[y n] l IH]; cbn; [intuition|]. destruct (pkey_spec k y) as [<-|NE]; cbn; [|rewrite IH]; intuition.
Qed.
Lemma bump_nodup k l : NoDup (map fst l) -> NoDup (map fst (bump k l)).
Proof.
  induction l as [|[y n] l IH]; cbn; intros N; [repeat constructor; auto|]. inversion N; subst.
  destruct (pkey_spec k y) as [<-|NE]; cbn; [now constructor|]. constructor; [|auto]. rewrite bump_in. intros [?|?]; congruence.
Qed.
Lemma bumps l : NoDup l -> forall acc, NoDup (map fst acc) ->
  let r := fold_left (fun a k => bump k a) l acc in
  NoDup (map fst r) /\ (forall k, In k (map fst r) <-> In k l \/ In k (map fst acc)) /\
  forall k, cnt k r = cnt k acc + if mem k l then 1 else 0.
Proof.
  induction 1 as [|x l X N IH]; intros acc NA; cbn [fold_left].
  - cbn. repeat apply conj; auto; [tauto|]. intros k. lia.
  - destruct (IH (bump x acc) (bump_nodup x acc NA)) as (A & B & C). repeat apply conj; auto.
    + intros k. rewrite B, bump_in. cbn. intuition.
    + intros k. rewrite C, bump_cnt. cbn [mem existsb]. fold (mem k l). destruct (pkey_spec k x) as [->|]; cbn [orb].
      * apply mem_false in X. rewrite X. lia.
      * lia.
Qed.
Definition referring (items : list item) (k : pkey) : N := N.of_nat (length (filter (fun i => mem k (refs_of i)) items)).
Lemma count_keys_is items : NoDup (map fst (count_keys items)) /\
  (forall k, In k (map fst (count_keys items)) <-> referring items k <> 0) /\
  forall k, cnt k (count_keys items) = referring items k.
Proof.
  unfold count_keys.
  assert (G : forall acc, NoDup (map fst acc) -> let r := fold_left (fun acc i => fold_left (fun a k => bump k a) (refs_of i) acc) items acc in
    NoDup (map fst r) /\ (forall k, In k (map fst r) <-> referring items k <> 0 \/ In k (map fst acc)) /\
    forall k, cnt k r = cnt k acc + referring items k).
  { induction items as [|i items IH]; intros acc N; cbn [fold_left].
    - cbn. repeat apply conj; auto; [intros k; unfold referring; cbn; intuition|intros k; unfold referring; cbn; lia].
    - destruct (bumps (refs_of i) (refs_nodup i) acc N) as (A & B & C). destruct (IH _ A) as (A2 & B2 & C2).
      assert (R : forall k, referring (i :: items) k = (if mem k (refs_of i) then 1 else 0) + referring items k).
      { intros k. unfold referring. cbn [filter]. destruct (mem k (refs_of i)); cbn [length]; lia. }
      repeat apply conj; auto.
      + intros k. rewrite B2, B, R, <- mem_spec. destruct (mem k (refs_of i)); intuition; try lia.
      + intros k. rewrite C2, C, R. lia. }
  destruct (G [] (NoDup_nil _)) as (A & B & C). repeat apply conj; auto.
  intros k. rewrite B. cbn. tauto.
Qed.

Section Thms.
Context (content : pkey -> N).
Local Notation step := (step content).
Local Notation run := (run content).
Local Notation find_bytes := (find_bytes content).
Local Notation is_found := (is_found content).

Definition expected (l : list rec) (k : pkey) : option val :=
  if users l k =? 0 then None else Some (Data (users l k) (content k)).
Definition inv (d : db) : Prop :=
  failed d = false /\ (forall k, pts d k = expected (recs d) k) /\ Forall (fun r => NoDup (map fst (r_refs r))) (recs d).

Lemma users_app a b k : users (a ++ b) k = users a k + users b k.
Proof. unfold users. rewrite filter_app, app_length. lia. Qed.
Lemma find_inv d main k : inv d -> find_bytes d main k = Some (if is_found d main k then Some (content k) else None) /\
  (is_found d main k = false -> pts d k = None /\ main k = false) /\ is_found d main k = negb (users (recs d) k =? 0) || main k.
Proof.
  intros (_ & P & _). unfold JpModel.is_found, JpModel.find_bytes. rewrite P. unfold expected.
  destruct (users (recs d) k =? 0); cbn; [destruct (main k); cbn; auto|]. repeat apply conj; auto. discriminate.
Qed.

Lemma write_all d0 main l : inv d0 -> NoDup (map fst l) -> forall d, failed d = false ->
  (forall k, In k (map fst l) -> pts d k = pts d0 k) ->
  let d' := fold_left (write_point content main d0) l d in
  failed d' = false /\ forall k, pts d' k =
    if is_found d0 main k && mem k (map fst l) then Some (Data (users (recs d0) k + cnt k l) (content k)) else pts d k.
Proof.
  intros I. induction l as [|[x n] l IH]; intros N d F H; cbn [fold_left].
  - split; [assumption|]. intros k. now rewrite andb_false_r.
  - cbn in N. inversion N as [|? ? NI N']; subst.
    set (d1 := write_point content main d0 d (x, n)).
    assert (D1 : failed d1 = false /\ (forall k, k <> x -> pts d1 k = pts d k) /\
      pts d1 x = if is_found d0 main x then Some (Data (users (recs d0) x + n) (content x)) else pts d x).
    { subst d1. unfold write_point. destruct (find_inv d0 main x I) as (-> & NF & _). destruct (is_found d0 main x) eqn:FX; [|auto].
      rewrite (H x (or_introl eq_refl)). destruct I as (_ & P & _). rewrite P. unfold expected.
      assert (M : merge (match (if users (recs d0) x =? 0 then None else Some (Data (users (recs d0) x) (content x))) with Some v => [v] | None => [] end ++ [Data n (content x)])
        = Some (Data (users (recs d0) x + n) (content x))).
      { destruct (N.eqb_spec (users (recs d0) x) 0) as [->|NZ].
        - rewrite (merge_is (content x)) by (repeat constructor). cbn. destruct (Z.leb_spec 0 (Z.of_N n + 0)); [|lia]. do 2 f_equal. lia.
        - rewrite (merge_is (content x)) by (repeat constructor). cbn -[Z.add]. destruct (Z.leb_spec 0 (Z.of_N (users (recs d0) x) + (Z.of_N n + 0))); [|lia]. do 2 f_equal. lia. }
      rewrite M. cbn. repeat apply conj; auto.
      - intros k NE. destruct (pkey_spec k x); [congruence|reflexivity].
      - now rewrite pkey_refl. }
    destruct D1 as (F1 & O1 & E1).
    assert (H1 : forall k, In k (map fst l) -> pts d1 k = pts d0 k).
    { intros k K. rewrite O1 by congruence. apply H. now right. }
    destruct (IH N' d1 F1 H1) as (FF & PP). split; [exact FF|]. intros k. rewrite PP, cnt_cons.
    change (mem k (map fst ((x, n) :: l))) with (pkey_eqb k x || mem k (map fst l)). destruct (pkey_spec k x) as [->|NE]; cbn [orb].
    + apply mem_false in NI. rewrite NI, andb_false_r, E1, andb_true_r.
      assert (C0 : cnt x l = 0).
      { apply mem_false in NI. clear - NI. induction l as [|[y m] l IH]; [reflexivity|]. rewrite cnt_cons. destruct (pkey_spec x y) as [->|]; [exfalso; apply NI; now left|].
        rewrite IH; [reflexivity|]. intros H. apply NI. now right. }
      rewrite C0, N.add_0_r. reflexivity.
    + rewrite O1 by assumption. now rewrite N.add_0_l.
Qed.

Lemma flagged i f k : says_stored k {| r_time := i_time i; r_refs := map (fun k => (k, f k)) (refs_of i) |} = mem k (refs_of i) && f k.
Proof.
  unfold says_stored. cbn. induction (refs_of i) as [|x l IH]; [reflexivity|]. cbn. rewrite IH. fold (mem k l).
  destruct (pkey_spec k x) as [->|]; cbn; [|reflexivity]. destruct (f x); cbn; [reflexivity|]. now rewrite andb_false_r.
Qed.
Lemma users_new items f k : users (map (fun i => {| r_time := i_time i; r_refs := map (fun k => (k, f k)) (refs_of i) |}) items) k =
  if f k then referring items k else 0.
Proof.
  unfold users, referring. induction items as [|i items IH]; [cbn; now destruct (f k)|]. cbn [map filter]. rewrite flagged.
  destruct (f k); [|rewrite andb_false_r; exact IH]. rewrite andb_true_r. destruct (mem k (refs_of i)); cbn [length]; lia.
Qed.

Lemma inv_store d items main : inv d -> inv (store content d items main).
Proof.
  intros I. destruct (count_keys_is items) as (N & IN & C).
  destruct (write_all d main (count_keys items) I N d (proj1 I) (fun _ _ => eq_refl)) as (F & P).
  unfold store. split; [exact F|]. split.
  - intros k. cbn [pts recs]. rewrite P. unfold expected. rewrite users_app, users_new, C.
    destruct (find_inv d main k I) as (_ & NF & FS). destruct I as (_ & PI & _). rewrite PI. unfold expected.
    destruct (is_found d main k) eqn:FK; cbn [andb]; [|now rewrite N.add_0_r].
    destruct (mem k (map fst (count_keys items))) eqn:M.
    + apply mem_spec, IN in M. destruct (N.eqb_spec (users (recs d) k + referring items k) 0); [lia|reflexivity].
    + assert (R : referring items k = 0). { apply mem_false in M. destruct (N.eq_dec (referring items k) 0); [assumption|]. exfalso. now apply M, IN. }
      rewrite R, N.add_0_r. reflexivity.
  - cbn [recs]. apply Forall_app. split; [apply I|]. apply Forall_forall. intros r R. apply in_map_iff in R as (i & <- & _). cbn.
    rewrite map_map. cbn. rewrite map_id. apply refs_nodup.
Qed.

Lemma subs_users l k : Forall (fun r => NoDup (map fst (r_refs r))) l -> subs l k = users l k.
Proof.
  intros H. unfold subs, users, stored_refs. f_equal. induction H as [|r l N F IH]; [reflexivity|]. cbn [flat_map filter].
  rewrite filter_app, app_length, IH. assert (E : length (filter (pkey_eqb k) (map fst (filter snd (r_refs r)))) = if says_stored k r then 1%nat else 0%nat).
  { unfold says_stored. clear - N. induction (r_refs r) as [|[x b] l IH]; [reflexivity|]. cbn in N. inversion N as [|? ? NI N']; subst. specialize (IH N').
    cbn. destruct b; cbn; [|rewrite andb_false_r; exact IH]. rewrite andb_true_r. destruct (pkey_spec k x) as [->|]; cbn [orb]; [|exact IH].
    cbn. rewrite IH. assert (X : existsb (fun y => pkey_eqb x (fst y) && snd y) l = false); [|now rewrite X].
    clear - NI. induction l as [|[y b] l IH]; [reflexivity|]. cbn in *. destruct (pkey_spec x y) as [->|]; [exfalso; auto|]. cbn. apply IH. auto. }
  rewrite E. now destruct (says_stored k r).
Qed.
Lemma subs_in l k : 0 < subs l k -> In k (stored_refs l).
Proof.
  unfold subs. destruct (filter (pkey_eqb k) (stored_refs l)) as [|x r] eqn:E; [cbn; lia|]. intros _.
  assert (X : In x (filter (pkey_eqb k) (stored_refs l))) by (rewrite E; now left). apply filter_In in X as [X1 X2].
  destruct (pkey_spec k x); [congruence|discriminate].
Qed.
Lemma max_ge l : forall m k, (In k l -> rnd k <= fold_left (fun m k => N.max m (rnd k)) l m) /\ m <= fold_left (fun m k => N.max m (rnd k)) l m.
Proof.
  induction l as [|x l IH]; intros m k; cbn; [split; [intros []|lia]|]. destruct (IH (N.max m (rnd x)) k) as [A B]. split; [|lia].
  intros [->|H]; [lia|auto].
Qed.
Lemma min_le l : forall m k, (In k l -> fold_left (fun m k => N.min m (rnd k)) l m <= rnd k) /\ fold_left (fun m k => N.min m (rnd k)) l m <= m.
Proof.
  induction l as [|x l IH]; intros m k; cbn; [split; [intros []|lia]|]. destruct (IH (N.min m (rnd x)) k) as [A B]. split; [|lia].
  intros [->|H]; [lia|auto].
Qed.
Lemma users_split f l k : users l k = users (filter f l) k + users (filter (fun r => negb (f r)) l) k.
Proof. unfold users. induction l as [|r l IH]; [reflexivity|]. cbn [filter]. destruct (f r); cbn [negb filter]; destruct (says_stored k r); cbn [length]; lia. Qed.
Lemma forall_filter {A} (P : A -> Prop) f l : Forall P l -> Forall P (filter f l).
Proof. induction 1; cbn; [constructor|]. destruct (f x); auto. Qed.

Lemma inv_delete d a b : inv d -> inv (delete d a b).
Proof.
  intros (F & P & N). unfold delete. set (within := fun r => (a <=? r_time r) && (r_time r <? b)). set (gone := filter within (recs d)).
  split; [exact F|]. split; [|now apply forall_filter]. intros k. cbn [pts recs].
  pose proof (users_split within (recs d) k) as US. fold gone in US. change (fun r : rec => negb ((a <=? r_time r) && (r_time r <? b))) with (fun r => negb (within r)). set (kept := filter (fun r => negb (within r)) (recs d)) in *.
  assert (SU : subs gone k = users gone k) by (apply subs_users; now apply forall_filter). rewrite SU.
  assert (RG : 0 < users gone k -> N.min (min_round gone) (max_round gone + 1) <= rnd k /\ rnd k < max_round gone + 1).
  { rewrite <- SU. intros G. apply subs_in in G. unfold min_round, max_round.
    pose proof (proj1 (max_ge (stored_refs gone) 0 k) G). pose proof (proj1 (min_le (stored_refs gone) (2 ^ 32 - 1) k) G). lia. }
  destruct ((N.min (min_round gone) (max_round gone + 1) <=? rnd k) && (rnd k <? max_round gone + 1)) eqn:R.
  - rewrite P. unfold expected. destruct (N.eqb_spec (users (recs d) k) 0) as [Z|NZ].
    + replace (users kept k) with 0 by lia. reflexivity.
    + cbn [ref_count]. destruct (N.ltb_spec 0 (users gone k)).
      * destruct (N.eqb_spec (users gone k) (users (recs d) k)).
        -- replace (users kept k) with 0 by lia. reflexivity.
        -- destruct (N.eqb_spec (users kept k) 0); [lia|]. rewrite (merge_is (content k)) by (repeat constructor). cbn -[Z.add].
           destruct (Z.leb_spec 0 (Z.of_N (users (recs d) k) + (- Z.of_N (users gone k) + 0))); [|lia]. do 2 f_equal. lia.
      * destruct (N.eqb_spec (users (recs d) k) 0); [lia|]. replace (users kept k) with (users (recs d) k) by lia.
        destruct (N.eqb_spec (users (recs d) k) 0); [lia|reflexivity].
  - assert (G0 : users gone k = 0). { destruct (N.eq_dec (users gone k) 0); [assumption|]. exfalso. assert (X : 0 < users gone k) by lia. specialize (RG X). lia. }
    rewrite P. unfold expected. replace (users kept k) with (users (recs d) k) by lia. reflexivity.
Qed.
Lemma inv_run h : forall d, inv d -> inv (run d h).
Proof. induction h as [|[items main|a b] h IH]; cbn; intros d I; [assumption| |]; apply IH; [now apply inv_store|now apply inv_delete]. Qed.
Lemma inv_empty : inv empty.
Proof. repeat apply conj; [reflexivity|reflexivity|constructor]. Qed.

(** ** Theorems *)
(** No operation fails; a point is there if some record says so, counted once for each, and with its bytes. *)
Theorem points_are_counted : forall h k, let d := run empty h in
  failed d = false /\ pts d k = if users (recs d) k =? 0 then None else Some (Data (users (recs d) k) (content k)).
Proof. intros h k d. destruct (inv_run h _ inv_empty) as (F & P & _). split; [exact F|apply P]. Qed.
(** A point can be read if and only if some record kept says that it is stored. *)
Theorem readable_iff_stored : forall h k, let d := run empty h in
  get_point d k = if existsb (says_stored k) (recs d) then Some (content k) else None.
Proof.
  intros h k d. unfold get_point. destruct (points_are_counted h k) as (_ & P). fold d in P. rewrite P. unfold users.
  destruct (existsb (says_stored k) (recs d)) eqn:E.
  - apply existsb_exists in E as (r & R & S). assert (X : In r (filter (says_stored k) (recs d))) by (apply filter_In; auto).
    destruct (filter (says_stored k) (recs d)); [contradiction|]. reflexivity.
  - assert (X : filter (says_stored k) (recs d) = []); [|now rewrite X].
    destruct (filter (says_stored k) (recs d)) as [|r l] eqn:F; [reflexivity|]. exfalso.
    assert (Y : In r (filter (says_stored k) (recs d))) by (rewrite F; now left). apply filter_In in Y as [Y1 Y2].
    assert (T : existsb (says_stored k) (recs d) = true) by (apply existsb_exists; eauto). congruence.
Qed.
(** Storing adds a record for each item, in order; it refers to the points of the item, each once, and says of
    each whether it is stored: so it is if it was kept already or the mempool has it. *)
Theorem store_is_exact : forall h items main, let d := run empty h in let d' := step d (OStore items main) in
  exists new, recs d' = recs d ++ new /\ map r_time new = map i_time items /\
  Forall2 (fun i r => NoDup (map fst (r_refs r)) /\
     forall k s, In (k, s) (r_refs r) <-> In k (i_keys i) /\ s = existsb (says_stored k) (recs d) || main k) items new.
Proof.
  intros h items main d d'. pose proof (inv_run h _ inv_empty) as I. fold d in I.
  eexists. split; [reflexivity|]. split; [rewrite map_map; now induction items; cbn; f_equal|].
  assert (FE : forall k, is_found d main k = existsb (says_stored k) (recs d) || main k).
  { intros k. destruct (find_inv d main k I) as (_ & _ & ->). f_equal. pose proof (readable_iff_stored h k) as R. fold d in R.
    unfold get_point in R. destruct I as (_ & P & _). rewrite P in R. unfold expected in R.
    destruct (users (recs d) k =? 0), (existsb _ (recs d)); cbn in *; congruence. }
  induction items as [|i items IH]; cbn [map]; constructor; [|exact IH]. cbn [r_refs]. split.
  - rewrite map_map. cbn. rewrite map_id. apply refs_nodup.
  - intros k s. rewrite in_map_iff, <- refs_in, <- FE. split; [intros (x & [= -> <-] & H); auto|]. intros [H ->]. eauto.
Qed.
(** Deleting removes the records of the range and no others. *)
Theorem delete_is_exact : forall d a b r, In r (recs (step d (ODelete a b))) <-> In r (recs d) /\ ~ (a <= r_time r < b).
Proof. intros d a b r. cbn [JpModel.step]. unfold delete. cbn [recs]. rewrite filter_In. destruct (N.leb_spec a (r_time r)), (N.ltb_spec (r_time r) b); cbn [andb negb]; intuition; (discriminate || lia). Qed.
(** With the records all points are gone. *)
Theorem nothing_left : forall h k, recs (run empty h) = [] -> pts (run empty h) k = None.
Proof. intros h k E. destruct (points_are_counted h k) as (_ & ->). now rewrite E. Qed.
End Thms.
