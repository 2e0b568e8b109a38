(* Storing a tree, in any interleaving of the threads. *)
From Coq Require Import NArith ZArith List Bool Lia Permutation.
From Coq Require Import ZifyN ZifyNat ZifyBool.
From Verif Require Import AMap CntModel CntSpec RcModel RcSpec RcBasics.
Import ListNotations.
Open Scope N_scope.

Definition pc_h (p : spc) : list N := match p with SCell h => [h] | SSlow h _ => [h] | SIter => [] end.
Definition tbag (t : sthr) : list N := pc_h (st_pc t) ++ concat (st_stack t).
Definition bag (ts : list sthr) : list N := flat_map tbag ts.
Definition is_new (e : N * added) : bool := match a_new (snd e) with Some _ => true | None => false end.
Definition newkeys (tx : list (N * added)) : list N := map fst (filter is_new tx).
Definition tadd (tx : list (N * added)) (h : N) : N := match get h tx with Some a => a_add a | None => 0 end.
Definition tdel (l : list (N * N)) (h : N) : N := match get h l with Some n => n | None => 0 end.

Lemma bag_mid a b c : forall h, occ h (bag (a ++ b ++ c)) = occ h (bag a) + occ h (bag b) + occ h (bag c).
Proof. intros h. unfold bag. rewrite !flat_map_app, !occ_app. lia. Qed.
Lemma bag_cons t l h : occ h (bag (t :: l)) = occ h (tbag t) + occ h (bag l).
Proof. unfold bag. cbn [flat_map]. apply occ_app. Qed.

Lemma bag1 t h : occ h (bag [t]) = occ h (pc_h (st_pc t)) + occ h (concat (st_stack t)).
Proof. unfold bag. cbn [flat_map]. rewrite app_nil_r. unfold tbag. apply occ_app. Qed.

Lemma newkeys_bump tx h a n : NoDup (akeys tx) -> get h tx = Some a ->
  newkeys (aset N.eqb h (add_n n a) tx) = newkeys tx.
Proof.
  unfold newkeys. induction tx as [|[x b] tx IH]; cbn [aget aset akeys map fst]; [discriminate|].
  intros ND. inversion ND as [|? ? NI ND']; subst. destruct (N.eqb_spec h x) as [->|E].
  - intros [= ->]. cbn [filter]. change (is_new (x, add_n n a)) with (is_new (x, a)). destruct (is_new (x, a)); reflexivity.
  - intros Q. cbn [filter]. specialize (IH ND' Q). destruct (is_new (x, b)); cbn [map fst]; now rewrite IH.
Qed.
Lemma newkeys_new tx h a : get h tx = None ->
  newkeys (aset N.eqb h a tx) = newkeys tx ++ (if is_new (h, a) then [h] else []).
Proof.
  intros E. rewrite akeys_aset_new by exact E. unfold newkeys. rewrite filter_app, map_app. f_equal.
  cbn [filter]. destruct (is_new (h, a)); reflexivity.
Qed.
Lemma newkeys_in tx h : NoDup (akeys tx) ->
  (In h (newkeys tx) <-> exists a c, get h tx = Some a /\ a_new a = Some c).
Proof.
  intros ND. unfold newkeys. rewrite in_map_iff. split.
  - intros ([x a] & <- & H). apply filter_In in H. destruct H as [H1 H2]. cbn [fst].
    unfold is_new in H2. cbn [snd] in H2. destruct (a_new a) as [c|] eqn:E; [|discriminate].
    exists a, c. split; [|exact E]. now apply (aget_in N.eqb N.eqb_spec).
  - intros (a & c & E & E2). exists (h, a). split; [reflexivity|]. apply filter_In. split.
    + now apply (aget_some_in N.eqb N.eqb_spec).
    + unfold is_new. cbn [snd]. now rewrite E2.
Qed.
Lemma newkeys_nodup tx : NoDup (akeys tx) -> NoDup (newkeys tx).
Proof.
  unfold newkeys. induction tx as [|[x b] tx IH]; cbn [filter akeys map fst]; intros ND; [constructor|].
  inversion ND as [|? ? NI ND']; subst. destruct (is_new (x, b)); [|now apply IH].
  cbn [map fst]. constructor; [|now apply IH]. intros Q. apply NI. apply in_map_iff in Q.
  destruct Q as (e & <- & He). apply filter_In in He. exact (in_map fst _ _ (proj1 He)).
Qed.

Lemma tadd_aset tx h a h' : tadd (aset N.eqb h a tx) h' = if h' =? h then a_add a else tadd tx h'.
Proof. unfold tadd. rewrite nget_aset. destruct (h' =? h); reflexivity. Qed.
Lemma tdel_aset l h n h' : tdel (aset N.eqb h n l) h' = if h' =? h then n else tdel l h'.
Proof. unfold tdel. rewrite nget_aset. destruct (h' =? h); reflexivity. Qed.

Definition ent_ok (content : N -> cellc) (d : cdb) (next : N) (h : N) (a : added) : Prop :=
  1 <= a_add a /\
  match a_new a with
  | Some cc => cc = content h /\ look d h = None /\ a_old a = 0 /\ d_next d <= a_idx a < next
  | None => exists v, look d h = Some v /\ a_idx a = fst v /\ a_old a = d_rc d (fst v)
  end.

Record SI (content : N -> cellc) (d : cdb) (r : N) (c : sctx) (ts : list sthr) : Prop := {
  si_cnt : forall h, tadd (x_tx c) h + tdel (x_del c) h + occ h (bag ts)
                     = occ h [r] + refs_to content h (newkeys (x_tx c));
  si_tx : NoDup (akeys (x_tx c));
  si_ent : forall h a, get h (x_tx c) = Some a -> ent_ok content d (x_next c) h a;
  si_inj : forall h h' a a', get h (x_tx c) = Some a -> get h' (x_tx c) = Some a' ->
           a_new a <> None -> a_new a' <> None -> a_idx a = a_idx a' -> h = h';
  si_del : NoDup (akeys (x_del c));
  si_delp : forall h n, get h (x_del c) = Some n ->
            (exists a, get h (x_tx c) = Some a) \/ (exists t, In t ts /\ pc_h (st_pc t) = [h]);
  si_slow : forall t h ex, In t ts -> st_pc t = SSlow h ex -> ex = option_map fst (look d h);
  si_cache : forall h v, get h (x_cache c) = Some v -> get h (d_rows d) = Some v;
  si_next : d_next d <= x_next c;
  si_reach : forall h, In h (bag ts) -> reach content r h
}.

Lemma ent_ok_next content d n n' h a : n <= n' -> ent_ok content d n h a -> ent_ok content d n' h a.
Proof.
  intros L (A & B). split; [exact A|]. destruct (a_new a); [|exact B].
  destruct B as (B1 & B2 & B3 & B4). split; [exact B1|]. split; [exact B2|]. split; [exact B3|]. lia.
Qed.
Lemma ent_ok_add content d n h a k : ent_ok content d n h a -> ent_ok content d n h (add_n k a).
Proof. intros (A & B). split; [cbn [add_n a_add]; lia|exact B]. Qed.

Lemma in_mid {A} (x : A) a b c : In x (a ++ b ++ c) <-> In x a \/ In x b \/ In x c.
Proof. rewrite !in_app_iff. tauto. Qed.

Lemma sbump_ok content d r c a t b h x st : SI content d r c (a ++ t :: b) ->
  pc_h (st_pc t) = [h] -> st_stack t = st -> get h (x_tx c) = Some x ->
  SI content d r (mkSC (x_next c) (aset N.eqb h (add_n 1 x) (x_tx c)) (x_del c) (x_cache c))
     (a ++ [mkST SIter st] ++ b).
Proof.
  intros I PC ST E. constructor; cbn [x_tx x_del x_next x_cache].
  - intros k. rewrite newkeys_bump by (apply (si_tx _ _ _ _ _ I) || exact E).
    rewrite <- (si_cnt _ _ _ _ _ I k). rewrite tadd_aset. cbn [add_n a_add].
    change (a ++ t :: b) with (a ++ [t] ++ b). rewrite !bag_mid, !bag1.
    rewrite PC, ST. cbn [st_pc st_stack pc_h app occ].
    destruct (N.eqb_spec k h) as [->|]; [|lia]. unfold tadd. rewrite E. lia.
  - apply (aset_nodup N.eqb N.eqb_spec), (si_tx _ _ _ _ _ I).
  - intros k y. rewrite nget_aset. destruct (N.eqb_spec k h) as [->|]; [|apply (si_ent _ _ _ _ _ I)].
    intros [= <-]. apply ent_ok_add. exact (si_ent _ _ _ _ _ I h x E).
  - intros k k' y y'. rewrite !nget_aset. intros E1 E2 N1 N2 EI.
    assert (Q1 : exists z, get k (x_tx c) = Some z /\ a_new z = a_new y /\ a_idx z = a_idx y).
    { destruct (N.eqb_spec k h) as [->|]; [injection E1 as <-; exists x; now split|exists y; now split]. }
    assert (Q2 : exists z, get k' (x_tx c) = Some z /\ a_new z = a_new y' /\ a_idx z = a_idx y').
    { destruct (N.eqb_spec k' h) as [->|]; [injection E2 as <-; exists x; now split|exists y'; now split]. }
    destruct Q1 as (z & Z1 & Z2 & Z3). destruct Q2 as (z' & Z1' & Z2' & Z3').
    apply (si_inj _ _ _ _ _ I k k' z z'); congruence.
  - exact (si_del _ _ _ _ _ I).
  - intros k n Hk. destruct (si_delp _ _ _ _ _ I k n Hk) as [(y & Q)|(t' & T1 & T2)].
    + left. rewrite nget_aset. destruct (k =? h); [eexists; reflexivity|exists y; exact Q].
    + apply in_app_iff in T1. destruct T1 as [T1|[<-|T1]].
      * right. exists t'. split; [apply in_mid; now left|exact T2].
      * left. rewrite PC in T2. injection T2 as <-. rewrite nget_aset, N.eqb_refl. eexists; reflexivity.
      * right. exists t'. split; [apply in_mid; right; now right|exact T2].
  - intros t' k ex T1 T2. apply in_mid in T1. destruct T1 as [T1|[[<-|[]]|T1]]; [|discriminate|].
    + apply (si_slow _ _ _ _ _ I t' k ex); [apply in_app_iff; now left|exact T2].
    + apply (si_slow _ _ _ _ _ I t' k ex); [apply in_app_iff; right; now right|exact T2].
  - exact (si_cache _ _ _ _ _ I).
  - exact (si_next _ _ _ _ _ I).
  - intros k Hk. apply (si_reach _ _ _ _ _ I). unfold bag in *. rewrite flat_map_app in *. cbn [flat_map app] in *.
    rewrite !in_app_iff in *. destruct Hk as [Q|[Q|Q]]; [now left|right; left|right; now right].
    unfold tbag in *. cbn [st_pc st_stack pc_h app] in Q. rewrite in_app_iff, ST. now right.
Qed.

Lemma sstep_ok fp content sp d R r c a t b c' ts : GOOD fp content d R ->
  SI content d r c (a ++ t :: b) -> sstep fp content sp d c t = (c', ts) -> SI content d r c' (a ++ ts ++ b).
Proof.
  intros G I ST. unfold sstep in ST. destruct t as [pc st]. cbn [st_pc st_stack] in ST.
  assert (RT : forall k, In k (tbag (mkST pc st)) -> reach content r k).
  { intros k Hk. apply (si_reach _ _ _ _ _ I). unfold bag. rewrite flat_map_app, in_app_iff. right.
    cbn [flat_map]. apply in_app_iff. now left. }
  assert (RO : forall k, In k (bag a) \/ In k (bag b) -> reach content r k).
  { intros k Hk. apply (si_reach _ _ _ _ _ I). unfold bag in *. rewrite flat_map_app. cbn [flat_map].
    rewrite !in_app_iff. destruct Hk as [Q|Q]; [now left|right; now right]. }
  pose proof (si_cnt _ _ _ _ _ I) as CNT.
  assert (CNT' : forall k, tadd (x_tx c) k + tdel (x_del c) k + (occ k (bag a) + (occ k (pc_h pc) + occ k (concat st)) + occ k (bag b))
                  = occ k [r] + refs_to content k (newkeys (x_tx c))).
  { intros k. rewrite <- CNT. change (a ++ mkST pc st :: b) with (a ++ [mkST pc st] ++ b). rewrite bag_mid, bag1. cbn [st_pc st_stack]. lia. }
  clear CNT.
  assert (SLOW : forall t' k ex, In t' a \/ In t' b -> st_pc t' = SSlow k ex -> ex = option_map fst (look d k)).
  { intros t' k ex H. apply (si_slow _ _ _ _ _ I). rewrite in_app_iff. destruct H; [now left|right; now right]. }
  assert (DELP : forall h n, get h (x_del c) = Some n -> (exists x, get h (x_tx c) = Some x) \/
     (exists t, (In t a \/ In t b) /\ pc_h (st_pc t) = [h]) \/ pc_h pc = [h]).
  { intros h n E. destruct (si_delp _ _ _ _ _ I h n E) as [Q|(t' & T1 & T2)]; [now left|right].
    apply in_app_iff in T1. destruct T1 as [T1|[<-|T1]]; [left; exists t'; split; [now left|exact T2]|right; exact T2|
      left; exists t'; split; [now right|exact T2]]. }
  destruct pc as [h|h ex|].
  - destruct (get h (x_tx c)) as [x|] eqn:E.
    + injection ST as <- <-. now apply (sbump_ok content d r c a (mkST (SCell h) st) b h x st).
    + destruct (existing fp d (x_cache c) (length st) h) as [ex cache] eqn:EX. injection ST as <- <-.
      destruct (existing_ok fp content d R (x_cache c) (length st) h G (si_cache _ _ _ _ _ I)) as [EX1 EX2].
      rewrite EX in EX1, EX2. cbn [fst snd] in EX1, EX2.
      constructor; cbn [x_tx x_del x_next x_cache].
      * intros k. rewrite <- CNT'. rewrite bag_mid, bag1. cbn [st_pc st_stack pc_h]. lia.
      * exact (si_tx _ _ _ _ _ I).
      * exact (si_ent _ _ _ _ _ I).
      * exact (si_inj _ _ _ _ _ I).
      * exact (si_del _ _ _ _ _ I).
      * intros k n Hk. destruct (DELP k n Hk) as [Q|[(t' & T1 & T2)|Q]]; [now left| |]; right.
        -- exists t'. split; [apply in_mid; destruct T1; [now left|right; now right]|exact T2].
        -- exists (mkST (SSlow h ex) st). split; [apply in_mid; right; left; now left|exact Q].
      * intros t' k e T1 T2. apply in_mid in T1. destruct T1 as [T1|[[<-|[]]|T1]].
        -- apply (SLOW t' k e); [now left|exact T2].
        -- cbn [st_pc] in T2. injection T2 as <- <-. exact EX1.
        -- apply (SLOW t' k e); [now right|exact T2].
      * exact EX2.
      * exact (si_next _ _ _ _ _ I).
      * intros k Hk. unfold bag in Hk. rewrite !flat_map_app in Hk. cbn [flat_map] in Hk.
        rewrite app_nil_r, !in_app_iff in Hk. destruct Hk as [Q|[Q|Q]]; [apply RO; now left|exact (RT k Q)|apply RO; now right].
  - destruct (get h (x_tx c)) as [x|] eqn:E.
    + injection ST as <- <-. now apply (sbump_ok content d r c a (mkST (SSlow h ex) st) b h x st).
    + assert (EX : ex = option_map fst (look d h)).
      { apply (si_slow _ _ _ _ _ I (mkST (SSlow h ex) st) h ex); [apply in_app_iff; right; now left|reflexivity]. }
      destruct ex as [i|].
      * (* an existing cell *)
        injection ST as <- <-. destruct (look d h) as [v|] eqn:L; [|discriminate]. injection EX as ->.
        constructor; cbn [x_tx x_del x_next x_cache].
        -- intros k. rewrite newkeys_new by exact E. cbn [is_new a_new snd]. rewrite app_nil_r, <- CNT'.
           rewrite bag_mid, bag1. cbn [st_pc st_stack pc_h app occ]. rewrite tadd_aset. cbn [a_add].
           destruct (N.eqb_spec k h) as [->|]; [|lia]. unfold tadd. rewrite E. lia.
        -- apply (aset_nodup N.eqb N.eqb_spec), (si_tx _ _ _ _ _ I).
        -- intros k y. rewrite nget_aset. destruct (N.eqb_spec k h) as [->|]; [|apply (si_ent _ _ _ _ _ I)].
           intros [= <-]. split; [cbn [a_add]; lia|]. cbn [a_new]. exists v. split; [exact L|].
           cbn [a_idx a_old]. split; [reflexivity|]. now apply (cget_rc fp content d R h).
        -- intros k k' y y'. rewrite !nget_aset. intros E1 E2 N1 N2 EI.
           destruct (N.eqb_spec k h) as [->|]; [injection E1 as <-; cbn [a_new] in N1; congruence|].
           destruct (N.eqb_spec k' h) as [->|]; [injection E2 as <-; cbn [a_new] in N2; congruence|].
           exact (si_inj _ _ _ _ _ I k k' y y' E1 E2 N1 N2 EI).
        -- exact (si_del _ _ _ _ _ I).
        -- intros k n Hk. destruct (DELP k n Hk) as [(y & Q)|[(t' & T1 & T2)|Q]].
           ++ left. rewrite nget_aset. destruct (k =? h); [eexists; reflexivity|exists y; exact Q].
           ++ right. exists t'. split; [apply in_mid; destruct T1; [now left|right; now right]|exact T2].
           ++ left. cbn [pc_h] in Q. injection Q as ->. rewrite nget_aset, N.eqb_refl. eexists; reflexivity.
        -- intros t' k e T1 T2. apply in_mid in T1. destruct T1 as [T1|[[<-|[]]|T1]]; [|discriminate|].
           ++ apply (SLOW t' k e); [now left|exact T2].
           ++ apply (SLOW t' k e); [now right|exact T2].
        -- exact (si_cache _ _ _ _ _ I).
        -- exact (si_next _ _ _ _ _ I).
        -- intros k Hk. unfold bag in Hk. rewrite !flat_map_app in Hk. cbn [flat_map] in Hk.
           rewrite app_nil_r, !in_app_iff in Hk. destruct Hk as [Q|[Q|Q]]; [apply RO; now left| |apply RO; now right].
           apply RT. unfold tbag in *. cbn [st_pc st_stack pc_h app] in *. now right.
      * (* a new cell *)
        injection ST as <- <-. destruct (look d h) as [v|] eqn:L; [discriminate|]. clear EX.
        assert (RH : reach content r h). { apply RT. unfold tbag. cbn [st_pc pc_h app]. now left. }
        constructor; cbn [x_tx x_del x_next x_cache].
        -- intros k. rewrite newkeys_new by exact E. cbn [is_new a_new snd]. rewrite refs_app. cbn [refs_to].
           specialize (CNT' k). cbn [pc_h occ] in CNT'. cbn [occ].
           rewrite bag_mid, bag1. cbn [st_pc st_stack pc_h app concat occ]. rewrite occ_app, tadd_aset. cbn [a_add].
           destruct (N.eqb_spec k h) as [Ek|]; [|lia]. unfold tadd in CNT'. rewrite Ek, E in CNT'. rewrite Ek. lia.
        -- apply (aset_nodup N.eqb N.eqb_spec), (si_tx _ _ _ _ _ I).
        -- intros k y. rewrite nget_aset. destruct (N.eqb_spec k h) as [->|].
           ++ intros [= <-]. split; [cbn [a_add]; lia|]. cbn [a_new a_old a_idx]. split; [reflexivity|].
              split; [exact L|]. split; [reflexivity|]. pose proof (si_next _ _ _ _ _ I). lia.
           ++ intros Q. apply (ent_ok_next content d (x_next c)); [lia|]. exact (si_ent _ _ _ _ _ I k y Q).
        -- assert (LT : forall k y, get k (x_tx c) = Some y -> a_new y <> None -> a_idx y < x_next c).
           { intros k y Q NQ. destruct (si_ent _ _ _ _ _ I k y Q) as (_ & B). destruct (a_new y); [|congruence].
             destruct B as (_ & _ & _ & B). lia. }
           intros k k' y y'. rewrite !nget_aset. intros E1 E2 N1 N2 EI.
           destruct (N.eqb_spec k h) as [->|], (N.eqb_spec k' h) as [->|]; [reflexivity| | |].
           ++ injection E1 as <-. cbn [a_idx] in EI. pose proof (LT k' y' E2 N2). lia.
           ++ injection E2 as <-. cbn [a_idx] in EI. pose proof (LT k y E1 N1). lia.
           ++ exact (si_inj _ _ _ _ _ I k k' y y' E1 E2 N1 N2 EI).
        -- exact (si_del _ _ _ _ _ I).
        -- intros k n Hk. destruct (DELP k n Hk) as [(y & Q)|[(t' & T1 & T2)|Q]].
           ++ left. rewrite nget_aset. destruct (k =? h); [eexists; reflexivity|exists y; exact Q].
           ++ right. exists t'. split; [apply in_mid; destruct T1; [now left|right; now right]|exact T2].
           ++ left. cbn [pc_h] in Q. injection Q as ->. rewrite nget_aset, N.eqb_refl. eexists; reflexivity.
        -- intros t' k e T1 T2. apply in_mid in T1. destruct T1 as [T1|[[<-|[]]|T1]]; [|discriminate|].
           ++ apply (SLOW t' k e); [now left|exact T2].
           ++ apply (SLOW t' k e); [now right|exact T2].
        -- exact (si_cache _ _ _ _ _ I).
        -- pose proof (si_next _ _ _ _ _ I). lia.
        -- intros k Hk. unfold bag in Hk. rewrite !flat_map_app in Hk. cbn [flat_map] in Hk.
           rewrite app_nil_r, !in_app_iff in Hk. destruct Hk as [Q|[Q|Q]]; [apply RO; now left| |apply RO; now right].
           unfold tbag in Q. cbn [st_pc st_stack pc_h app concat] in Q. apply in_app_iff in Q. destruct Q as [Q|Q].
           ++ exact (reach_step content r h k RH Q).
           ++ apply RT. unfold tbag. cbn [st_pc st_stack pc_h app]. now right.
  - assert (KEEP : forall c2 ts2, x_tx c2 = x_tx c -> x_next c2 = x_next c -> x_cache c2 = x_cache c ->
      (forall k, tdel (x_del c2) k + occ k (bag ts2) = tdel (x_del c) k + occ k (concat st)) ->
      NoDup (akeys (x_del c2)) ->
      (forall k n, get k (x_del c2) = Some n -> (exists n', get k (x_del c) = Some n') \/
          exists t, In t ts2 /\ pc_h (st_pc t) = [k]) ->
      (forall t k e, In t ts2 -> st_pc t <> SSlow k e) ->
      (forall k, In k (bag ts2) -> In k (concat st)) ->
      SI content d r c2 (a ++ ts2 ++ b)).
    { intros c2 ts2 Q1 Q2 Q3 Q4 Q5 Q6 Q7 Q8. constructor; rewrite ?Q1, ?Q2, ?Q3.
      - intros k. rewrite <- CNT', bag_mid. cbn [pc_h occ]. specialize (Q4 k). lia.
      - exact (si_tx _ _ _ _ _ I).
      - exact (si_ent _ _ _ _ _ I).
      - exact (si_inj _ _ _ _ _ I).
      - exact Q5.
      - intros k n Hk. destruct (Q6 k n Hk) as [(n' & Hk')|(t' & T1 & T2)].
        + destruct (DELP k n' Hk') as [Q|[(t' & T1 & T2)|Q]]; [now left|right|discriminate].
          exists t'. split; [apply in_mid; destruct T1; [now left|right; now right]|exact T2].
        + right. exists t'. split; [apply in_mid; right; now left|exact T2].
      - intros t' k e T1 T2. apply in_mid in T1. destruct T1 as [T1|[T1|T1]].
        + apply (SLOW t' k e); [now left|exact T2].
        + exfalso. exact (Q7 t' k e T1 T2).
        + apply (SLOW t' k e); [now right|exact T2].
      - exact (si_cache _ _ _ _ _ I).
      - exact (si_next _ _ _ _ _ I).
      - intros k Hk. unfold bag in Hk. rewrite !flat_map_app, !in_app_iff in Hk.
        destruct Hk as [Q|[Q|Q]]; [apply RO; now left| |apply RO; now right].
        apply RT. unfold tbag. cbn [st_pc st_stack pc_h app]. apply Q8. exact Q. }
    pose proof (si_del _ _ _ _ _ I) as ND.
    destruct st as [|[|h rest] st].
    + injection ST as <- <-. apply KEEP; auto.
      * intros k n Q. left. exists n. exact Q.
    + injection ST as <- <-. apply KEEP; auto.
      * intros k. unfold bag. cbn [flat_map]. rewrite app_nil_r. reflexivity.
      * intros k n Q. left. exists n. exact Q.
      * intros t k e [<-|[]]. discriminate.
      * intros k Hk. unfold bag in Hk. cbn [flat_map] in Hk. rewrite app_nil_r in Hk. exact Hk.
    + destruct (sp h).
      * destruct (get h (x_del c)) as [n|] eqn:E; injection ST as <- <-; apply KEEP; cbn [x_tx x_next x_cache x_del]; auto.
        -- intros k. rewrite tdel_aset. unfold bag. cbn [flat_map concat app]. rewrite app_nil_r.
           unfold tbag. cbn [st_pc st_stack pc_h app concat occ]. destruct (N.eqb_spec k h) as [->|]; [|lia].
           unfold tdel. rewrite E. lia.
        -- now apply (aset_nodup N.eqb N.eqb_spec).
        -- intros k m. rewrite nget_aset. destruct (N.eqb_spec k h) as [->|]; intros Q; left; eexists; eassumption.
        -- intros t k e [<-|[]]. discriminate.
        -- intros k Hk. unfold bag in Hk. cbn [flat_map] in Hk. rewrite app_nil_r in Hk. right. exact Hk.
        -- intros k. rewrite tdel_aset. unfold bag. cbn [flat_map concat app]. rewrite ?app_nil_r.
           unfold tbag. cbn [st_pc st_stack pc_h app concat]. rewrite !occ_app. cbn [occ]. rewrite occ_app.
           destruct (N.eqb_spec k h) as [->|]; [|lia].
           unfold tdel. rewrite E. lia.
        -- now apply (aset_nodup N.eqb N.eqb_spec).
        -- intros k m. rewrite nget_aset. destruct (N.eqb_spec k h) as [->|]; intros Q; [|left; eexists; eassumption].
           right. exists (mkST (SCell h) []). split; [right; now left|reflexivity].
        -- intros t k e [<-|[<-|[]]]; discriminate.
        -- intros k Hk. unfold bag in Hk. cbn [flat_map] in Hk. rewrite app_nil_r in Hk.
           apply in_app_iff in Hk. destruct Hk as [Q|[<-|[]]]; [right; exact Q|now left].
      * injection ST as <- <-. apply KEEP; auto.
        -- intros k. unfold bag. cbn [flat_map]. rewrite app_nil_r. reflexivity.
        -- intros k n Q. left. exists n. exact Q.
        -- intros t k e [<-|[]]. discriminate.
        -- intros k Hk. unfold bag in Hk. cbn [flat_map] in Hk. rewrite app_nil_r in Hk. exact Hk.
Qed.

Lemma sstart_ok fp content d R r : GOOD fp content d R ->
  SI content d r (fst (sstart d r)) (snd (sstart d r)).
Proof.
  intros G. unfold sstart. cbn [fst snd]. constructor; cbn [x_tx x_del x_next x_cache].
  - intros h. unfold tadd, tdel, bag, newkeys. cbn [aget flat_map tbag st_pc st_stack pc_h concat app filter map refs_to occ]. lia.
  - constructor.
  - intros h a E. discriminate.
  - intros h h' a a' E. discriminate.
  - constructor.
  - intros h n E. discriminate.
  - intros t h ex [<-|[]] E. discriminate.
  - exact (g_cache _ _ _ _ G).
  - lia.
  - intros h [<-|[]]. apply reach_refl.
Qed.

Lemma srun_ok fp content sp d R r n s s' : GOOD fp content d R -> srun fp content sp d n s s' ->
  SI content d r (fst s) (snd s) -> SI content d r (fst s') (snd s').
Proof.
  intros G H. induction H as [s|n s c a t b c' ts H IH ST|n s c l h v H IH E|n s c l h H IH]; intros I; [exact I| | |].
  - cbn [fst snd]. exact (sstep_ok fp content sp d R r c a t b c' ts G (IH I) ST).
  - specialize (IH I). cbn [fst snd] in *. destruct IH. constructor; cbn [x_tx x_del x_next x_cache]; try assumption.
    intros k w. rewrite nget_aset. destruct (N.eqb_spec k h) as [->|]; [|apply si_cache0]. intros [= <-]. exact E.
  - specialize (IH I). cbn [fst snd] in *. destruct IH. constructor; cbn [x_tx x_del x_next x_cache]; try assumption.
    intros k w. rewrite nget_adel. destruct (N.eqb_spec k h) as [->|]; [discriminate|]. apply si_cache0.
Qed.
