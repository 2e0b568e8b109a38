(* C64: the theorems about stored states and their cells. *)
From Coq Require Import NArith ZArith List Bool Lia Permutation.
From Coq Require Import ZifyN ZifyNat ZifyBool.
From Verif Require Import AMap CntModel CntSpec CntProofs CntThms RcModel RcSpec RcBasics RcStore RcStoreFin RcRemove RcRemoveFin RcBound.
Import ListNotations.
Open Scope N_scope.

(* ---- the table of states ---- *)
Lemma snd_adel {V} k (v : V) m : NoDup (akeys m) -> get k m = Some v ->
  Permutation (map snd m) (v :: map snd (adel N.eqb k m)).
Proof.
  unfold akeys, adel. induction m as [|[x w] m IH]; cbn [map fst snd aget filter]; intros ND E; [discriminate|].
  inversion ND as [|? ? NI ND']; subst. destruct (N.eqb_spec k x) as [->|NE]; cbn [negb].
  - injection E as ->. apply perm_skip. clear -NI. induction m as [|[y z] m IH]; cbn [map fst snd filter] in *; [constructor|].
    destruct (N.eqb_spec x y) as [->|]; cbn [negb map fst snd]; [exfalso; apply NI; now left|].
    apply perm_skip. apply IH. intros Q. apply NI. now right.
  - cbn [map snd]. rewrite (IH ND' E). apply perm_swap.
Qed.
Lemma snd_aset_same {V} k (v : V) m : get k m = Some v -> aset N.eqb k v m = m.
Proof.
  induction m as [|[x w] m IH]; cbn [aget aset]; [discriminate|]. destruct (N.eqb_spec k x) as [->|]; intros E.
  - injection E as ->. reflexivity.
  - now rewrite (IH E).
Qed.

Record INV (fp : N -> N) (content : N -> cellc) (root_of : N -> N) (clean : bool) (nd : cnode) (R : list N) : Prop := {
  v_good : GOOD fp content (n_db nd) R;
  v_nd : NoDup (akeys (d_states (n_db nd)));
  v_root : forall b r, get b (d_states (n_db nd)) = Some r -> r = root_of b;
  v_occ : forall r, occ r (map snd (d_states (n_db nd))) <= occ r R;
  v_clean : clean = true -> Permutation R (map snd (d_states (n_db nd))) /\
    forall b, In b (akeys (d_states (n_db nd))) -> In b (n_flags nd) \/ n_pend nd = Some b
}.


Lemma store_end fp content d R blk r sp n c pr d' : GOOD fp content d R ->
  srun fp content sp d n (sstart d r) (c, []) -> sfin fp d c pr blk r = Some d' ->
  GOOD fp content d' (r :: R) /\ d_states d' = aset N.eqb blk r (d_states d) /\
  (forall h v, look d h = Some v -> look d' h = Some v).
Proof.
  intros G H E. pose proof (srun_ok fp content sp d R r n _ _ G H (sstart_ok fp content d R r G)) as I. cbn [fst snd] in I.
  destruct (sfin_ok fp content d R r c pr blk G I) as (tx & d2 & _ & E2 & A & B & _ & _ & _ & _ & F).
  rewrite E in E2. injection E2 as <-. split; [exact A|]. split; [exact B|exact F].
Qed.
Lemma remove_end fp content d R1 R2 blk r sp n c d' : GOOD fp content d (R1 ++ r :: R2) -> split_ok content d sp r ->
  rrun sp d n (rstart d r) (c, []) -> rfin fp d c blk = Some d' ->
  GOOD fp content d' (R1 ++ R2) /\ d_states d' = adel N.eqb blk (d_states d) /\
  (forall h v, look d' h = Some v -> look d h = Some v).
Proof.
  intros G SO H E. assert (HR : In r (R1 ++ r :: R2)) by (apply in_app_iff; right; now left).
  pose proof (rrun_ok fp content d _ r G HR sp n _ _ H (rstart_ok fp content d _ r G)) as I. cbn [fst snd] in I.
  assert (SP : forall h k, get h (y_del c) = Some k -> sp h = true).
  { apply (rrun_sp sp d n _ _ H). intros h k Q. discriminate. }
  destruct (rfin_ok fp content d R1 R2 r sp c blk G I SP SO) as (tx & d2 & _ & E2 & A & B & _ & _ & _ & _ & F).
  rewrite E in E2. injection E2 as <-. split; [exact A|]. split; [exact B|exact F].
Qed.

Lemma rchist_inv fp content root_of clean nd R : rchist fp content root_of clean nd R -> INV fp content root_of clean nd R.
Proof.
  intros H. induction H as [|d fl R blk sp n c pr d' H IH NF HS EF|d fl R blk H IH|d fl R1 R2 blk sp n c d' H IH EB SO HR EF
    |d fl p R H IH|d fl p R h v H IH E|d fl p R h H IH|d fl p R H IH CL].
  - constructor; cbn [n_db n_flags n_pend].
    + apply new_good.
    + constructor.
    + intros b r E. discriminate.
    + intros r. cbn. lia.
    + intros _. split; [constructor|intros b []].
  - destruct IH as [G ND RT OC CL]. cbn [n_db n_flags n_pend] in *.
    destruct (store_end fp content d R blk _ sp n c pr d' G HS EF) as (G' & ES & _).
    constructor; cbn [n_db n_flags n_pend]; [exact G'| | | |]; rewrite ?ES.
    + now apply (aset_nodup N.eqb N.eqb_spec).
    + intros b r. rewrite nget_aset. destruct (N.eqb_spec b blk) as [->|]; [intros [= <-]; reflexivity|apply RT].
    + intros r. destruct (get blk (d_states d)) as [x|] eqn:EB.
      * pose proof (RT blk x EB) as ->. rewrite (snd_aset_same blk (root_of blk) _ EB). specialize (OC r). cbn [occ]. lia.
      * rewrite akeys_aset_new by exact EB. rewrite map_app, occ_app. specialize (OC r). cbn [map snd occ]. lia.
    + intros T. destruct (CL T) as [P K].
      assert (EB : get blk (d_states d) = None).
      { apply nget_none. intros Q. destruct (K blk Q) as [Q2|Q2]; [contradiction|discriminate]. }
      rewrite akeys_aset_new by exact EB. split.
      * rewrite map_app. cbn [map snd]. rewrite <- P. apply Permutation_cons_append.
      * intros b. unfold akeys. rewrite map_app, in_app_iff. cbn [map fst In].
        intros [Q|[<-|[]]]; [|now right]. destruct (K b Q) as [Q2|Q2]; [now left|discriminate].
  - destruct IH as [G ND RT OC CL]. cbn [n_db n_flags n_pend] in *.
    constructor; cbn [n_db n_flags n_pend]; [exact G|exact ND|exact RT|exact OC|].
    intros T. destruct (CL T) as [P K]. split; [exact P|]. intros b Hb. left.
    destruct (K b Hb) as [Q|[= <-]]; [now right|now left].
  - destruct IH as [G ND RT OC CL]. cbn [n_db n_flags n_pend] in *.
    destruct (remove_end fp content d R1 R2 blk _ sp n c d' G SO HR EF) as (G' & ES & _).
    pose proof (snd_adel blk (root_of blk) (d_states d) ND EB) as PM.
    constructor; cbn [n_db n_flags n_pend]; [exact G'| | | |]; rewrite ?ES.
    + now apply (adel_nodup N.eqb).
    + intros b r. rewrite nget_adel. destruct (b =? blk); [discriminate|apply RT].
    + intros r. specialize (OC r). rewrite (occ_perm r _ _ PM) in OC. rewrite !occ_app in *. cbn [occ] in OC. lia.
    + intros T. destruct (CL T) as [P K]. split.
      * rewrite PM in P. apply (Permutation_app_inv R1 R2 [] _ (root_of blk)). cbn [app]. exact P.
      * intros b Hb. apply K. apply nget_key in Hb. destruct Hb as (v & Q). rewrite nget_adel in Q.
        destruct (b =? blk); [discriminate|]. apply nget_key. now exists v.
  - destruct IH as [G ND RT OC CL]. cbn [n_db n_flags n_pend] in *.
    constructor; cbn [n_db n_flags n_pend]; [exact (proj1 (flush_good fp content d R G))|exact ND|exact RT|exact OC|exact CL].
  - destruct IH as [G ND RT OC CL]. cbn [n_db n_flags n_pend] in *.
    constructor; cbn [n_db n_flags n_pend]; [|exact ND|exact RT|exact OC|exact CL].
    apply set_cache_good; [exact G|]. intros k w. rewrite nget_aset.
    destruct (N.eqb_spec k h) as [->|]; [intros [= <-]; exact E|apply (g_cache _ _ _ _ G)].
  - destruct IH as [G ND RT OC CL]. cbn [n_db n_flags n_pend] in *.
    constructor; cbn [n_db n_flags n_pend]; [|exact ND|exact RT|exact OC|exact CL].
    apply set_cache_good; [exact G|]. intros k w. rewrite nget_adel.
    destruct (k =? h); [discriminate|apply (g_cache _ _ _ _ G)].
  - destruct IH as [G ND RT OC CLE]. cbn [n_db n_flags n_pend] in *.
    constructor; cbn [n_db n_flags n_pend]; [exact (proj1 (restart_good fp content d R G))|exact ND|exact RT|exact OC|].
    intros T. destruct (CLE T) as [P K]. split; [exact P|]. intros b Hb.
    destruct (K b Hb) as [Q|Q]; [now left|]. rewrite (CL T) in Q. discriminate.
Qed.

(* ---- what is stored ---- *)
Lemma reach_stored fp content d R r h : GOOD fp content d R -> In r (stored d) -> reach content r h -> In h (stored d).
Proof. intros G Hr H. induction H as [x|r x k H IH K]; [exact Hr|]. exact (g_closed _ _ _ _ G x k (IH Hr) K). Qed.
Lemma reach_trans content a b c : reach content a b -> reach content b c -> reach content a c.
Proof. intros H1 H2. induction H2 as [x|b x k H IH K]; [exact H1|]. exact (reach_step content a x k (IH H1) K). Qed.
Lemma rank_bound (rank : N -> nat) l : exists B, forall h, In h l -> (rank h <= B)%nat.
Proof.
  induction l as [|x l (B & H)]; [exists 0%nat; intros h []|]. exists (rank x + B)%nat.
  intros h [<-|Hh]; [lia|]. specialize (H h Hh). lia.
Qed.
Lemma stored_reached fp content d R : acyclic content -> GOOD fp content d R ->
  forall h, In h (stored d) -> exists r, In r R /\ reach content r h.
Proof.
  intros (rank & AC) G. destruct (rank_bound rank (stored d)) as (B & HB).
  assert (K : forall k h, (B - rank h < k)%nat -> In h (stored d) -> exists r, In r R /\ reach content r h).
  { induction k as [|k IH]; intros h L Hh; [lia|]. pose proof Hh as Hs. apply in_stored in Hs. destruct Hs as (v & E).
    destruct (g_rc _ _ _ _ G h v E) as [Q1 Q2]. destruct (N.eq_dec (occ h R) 0) as [Z|NZ].
    - assert (P : 0 < refs_to content h (stored d)) by lia. apply refs_pos in P. destruct P as (p & P1 & P2).
      pose proof (AC p h P2) as RK. pose proof (HB p P1). destruct (IH p) as (r & R1 & R2); [lia|exact P1|].
      exists r. split; [exact R1|]. exact (reach_step content r p h R2 P2).
    - exists h. split; [apply occ_in; lia|constructor]. }
  intros h Hh. exact (K (S (B - rank h)) h (Nat.lt_succ_diag_r _) Hh).
Qed.

(* Every cell below the root of every stored state can be loaded, with its
   data and references, whatever else was stored, removed, flushed, cached,
   evicted or lost in crashes. *)
Theorem states_loadable fp content root_of clean nd R : rchist fp content root_of clean nd R ->
  forall blk r, aget N.eqb blk (d_states (n_db nd)) = Some r ->
  r = root_of blk /\ forall h, reach content (root_of blk) h -> exists i, load_raw (n_db nd) h = Some (i, content h).
Proof.
  intros H blk r E. pose proof (rchist_inv _ _ _ _ _ _ H) as [G ND RT OC CL]. pose proof (RT blk r E) as ->.
  split; [reflexivity|]. intros h Hh.
  assert (HR : In (root_of blk) R).
  { apply occ_in. assert (0 < occ (root_of blk) (map snd (d_states (n_db nd)))).
    { apply occ_in. apply (aget_some_in N.eqb N.eqb_spec) in E. exact (in_map snd _ _ E). }
    specialize (OC (root_of blk)). lia. }
  pose proof (reach_stored fp content (n_db nd) R _ h G (g_roots _ _ _ _ G _ HR) Hh) as S.
  apply in_stored in S. destruct S as ([i x] & L). exists i.
  rewrite (load_look fp content (n_db nd) R h G), L. f_equal. f_equal. exact (proj1 (g_val _ _ _ _ G h _ L)).
Qed.

(* What can be loaded is exactly what some root still needs; loads never
   return wrong data. *)
Theorem cells_exact fp content root_of clean nd R : acyclic content -> rchist fp content root_of clean nd R ->
  forall h, (load_raw (n_db nd) h <> None <-> exists r, In r R /\ reach content r h) /\
    (forall i x, load_raw (n_db nd) h = Some (i, x) -> x = content h).
Proof.
  intros AC H h. pose proof (v_good _ _ _ _ _ _ (rchist_inv _ _ _ _ _ _ H)) as G.
  rewrite (load_look fp content (n_db nd) R h G). split.
  - split.
    + intros Q. apply (stored_reached fp content _ R AC G). apply in_stored. destruct (look (n_db nd) h) as [v|]; [now exists v|congruence].
    + intros (r & R1 & R2). pose proof (reach_stored fp content _ R r h G (g_roots _ _ _ _ G r R1) R2) as S.
      apply in_stored in S. destruct S as (v & ->). discriminate.
  - intros i x L. exact (proj1 (g_val _ _ _ _ G h _ L)).
Qed.

(* Without a crash in the window between a state's batch and its block
   handle nothing leaks: a cell is there iff a stored state needs it. *)
Theorem no_leak fp content root_of nd R : acyclic content -> rchist fp content root_of true nd R ->
  forall h, load_raw (n_db nd) h <> None <->
    exists blk r, aget N.eqb blk (d_states (n_db nd)) = Some r /\ reach content r h.
Proof.
  intros AC H h. rewrite (proj1 (cells_exact fp content root_of true nd R AC H h)).
  pose proof (rchist_inv _ _ _ _ _ _ H) as [G ND RT OC CL]. destruct (CL eq_refl) as [P _]. split.
  - intros (r & R1 & R2). apply (Permutation_in _ P) in R1. apply in_map_iff in R1. destruct R1 as ([b x] & Q & R1).
    cbn [snd] in Q. subst x. exists b, r. split; [|exact R2]. now apply (aget_in N.eqb N.eqb_spec).
  - intros (b & r & E & R2). exists r. split; [|exact R2]. apply (Permutation_in _ (Permutation_sym P)).
    apply (aget_some_in N.eqb N.eqb_spec) in E. exact (in_map snd _ _ E).
Qed.
Theorem all_removed_empty fp content root_of nd R : acyclic content -> rchist fp content root_of true nd R ->
  d_states (n_db nd) = [] -> d_nur (n_db nd) = [] /\ d_rows (n_db nd) = [] /\ (forall i, d_rc (n_db nd) i = 0).
Proof.
  intros AC H E. pose proof (v_good _ _ _ _ _ _ (rchist_inv _ _ _ _ _ _ H)) as G.
  assert (Z : forall h, ~ In h (stored (n_db nd))).
  { intros h Hh. assert (Q : load_raw (n_db nd) h <> None).
    { rewrite (load_look fp content _ R h G). apply in_stored in Hh. destruct Hh as (v & ->). discriminate. }
    apply (no_leak fp content root_of nd R AC H h) in Q. destruct Q as (b & r & Q & _). rewrite E in Q. discriminate. }
  unfold stored, akeys in Z. split; [|split].
  - destruct (d_nur (n_db nd)) as [|[x v] l] eqn:Q; [reflexivity|]. exfalso. apply (Z x). now left.
  - destruct (d_rows (n_db nd)) as [|[x v] l] eqn:Q; [reflexivity|]. exfalso. apply (Z x). apply in_app_iff. right. now left.
  - intros i. apply (g_free _ _ _ _ G). intros h v L _. apply (Z h). change (In h (stored (n_db nd))). apply in_stored. now exists v.
Qed.

(* The counter of a cell is the number of roots and stored cells that refer
   to it, at most one row has a counter value, and dead row numbers have none. *)
Theorem refcounts_exact fp content root_of clean nd R : rchist fp content root_of clean nd R ->
  (forall h i x, load_raw (n_db nd) h = Some (i, x) ->
     d_rc (n_db nd) i = occ h R + refs_to content h (stored (n_db nd)) /\ 0 < d_rc (n_db nd) i /\ i < d_next (n_db nd)) /\
  (forall h h' i x x', load_raw (n_db nd) h = Some (i, x) -> load_raw (n_db nd) h' = Some (i, x') -> h = h') /\
  (forall i, (forall h x, load_raw (n_db nd) h <> Some (i, x)) -> d_rc (n_db nd) i = 0) /\
  NoDup (stored (n_db nd)).
Proof.
  intros H. pose proof (v_good _ _ _ _ _ _ (rchist_inv _ _ _ _ _ _ H)) as G.
  pose proof (fun h => load_look fp content (n_db nd) R h G) as LL. split; [|split; [|split]].
  - intros h i x L. rewrite LL in L. destruct (g_rc _ _ _ _ G h _ L) as [Q1 Q2]. cbn [fst] in *.
    split; [exact Q1|]. split; [exact Q2|]. exact (proj2 (g_val _ _ _ _ G h _ L)).
  - intros h h' i x x' L L'. rewrite LL in L, L'. exact (g_inj _ _ _ _ G h h' _ _ L L' eq_refl).
  - intros i Q. apply (g_free _ _ _ _ G). intros h [j x] L Ej. cbn [fst] in Ej. subst j. apply (Q h x). now rewrite LL.
  - exact (g_nk _ _ _ _ G).
Qed.

(* ---- storing ---- *)

(* storing any state never aborts: whatever the subtrees, the threads and the
   promoted cells *)
Theorem store_succeeds fp content root_of clean nd R : rchist fp content root_of clean nd R ->
  forall sp r n c pr blk, srun fp content sp (n_db nd) n (sstart (n_db nd) r) (c, []) ->
  exists d', sfin fp (n_db nd) c pr blk r = Some d' /\
    (forall h v, load_raw (n_db nd) h = Some v -> load_raw d' h = Some v) /\
    (forall h, reach content r h -> exists i, load_raw d' h = Some (i, content h)).
Proof.
  intros H sp r n c pr blk HS. pose proof (v_good _ _ _ _ _ _ (rchist_inv _ _ _ _ _ _ H)) as G.
  pose proof (srun_ok fp content sp _ R r n _ _ G HS (sstart_ok fp content _ R r G)) as I. cbn [fst snd] in I.
  destruct (sfin_ok fp content _ R r c pr blk G I) as (tx & d2 & _ & E2 & A & _ & _ & _ & _ & _ & F).
  exists d2. split; [exact E2|]. split.
  - intros h v. rewrite (load_look fp content _ R h G), (load_look fp content _ _ h A). apply F.
  - intros h Hh. pose proof (reach_stored fp content d2 _ r h A (g_roots _ _ _ _ A r (or_introl eq_refl)) Hh) as S.
    apply in_stored in S. destruct S as ([i x] & L). exists i.
    rewrite (load_look fp content _ _ h A), L. f_equal. f_equal. exact (proj1 (g_val _ _ _ _ A h _ L)).
Qed.

(* and ends after a bounded number of steps of its threads *)
Theorem store_terminates fp content root_of clean nd R : rchist fp content root_of clean nd R ->
  forall r, finite_below content r ->
  exists B, forall sp n s, srun fp content sp (n_db nd) n (sstart (n_db nd) r) s -> (n <= B)%nat.
Proof.
  intros H r (U & HU). pose proof (v_good _ _ _ _ _ _ (rchist_inv _ _ _ _ _ _ H)) as G.
  exists (smu content U (sstart (n_db nd) r)). intros sp n s HS.
  pose proof (srun_bound fp content sp _ R r U n s G HU HS). lia.
Qed.

(* ---- removing ---- *)

Lemma state_root fp content root_of clean nd R blk r : rchist fp content root_of clean nd R ->
  aget N.eqb blk (d_states (n_db nd)) = Some r -> exists R1 R2, R = R1 ++ r :: R2.
Proof.
  intros H E. pose proof (rchist_inv _ _ _ _ _ _ H) as [G ND RT OC CL]. apply in_split. apply occ_in.
  assert (0 < occ r (map snd (d_states (n_db nd)))).
  { apply occ_in. apply (aget_some_in N.eqb N.eqb_spec) in E. exact (in_map snd _ _ E). }
  specialize (OC r). lia.
Qed.

(* removing a stored state never fails and never panics, whatever the
   schedule; the number of steps is bounded by what is stored *)
Theorem remove_succeeds fp content root_of clean nd R : rchist fp content root_of clean nd R ->
  forall blk r sp, aget N.eqb blk (d_states (n_db nd)) = Some r ->
  (forall n c a t b, rrun sp (n_db nd) n (rstart (n_db nd) r) (c, a ++ t :: b) -> rstep sp (n_db nd) c t <> None) /\
  (exists B, forall n s, rrun sp (n_db nd) n (rstart (n_db nd) r) s -> (n <= B)%nat) /\
  (split_ok content (n_db nd) sp r ->
   forall n c, rrun sp (n_db nd) n (rstart (n_db nd) r) (c, []) ->
   exists d', rfin fp (n_db nd) c blk = Some d' /\
     (forall h v, load_raw d' h = Some v -> load_raw (n_db nd) h = Some v) /\
     (forall blk' r' h, blk' <> blk -> aget N.eqb blk' (d_states (n_db nd)) = Some r' ->
        reach content r' h -> load_raw d' h = load_raw (n_db nd) h)).
Proof.
  intros H blk r sp E. pose proof (rchist_inv _ _ _ _ _ _ H) as [G ND RT OC CL].
  destruct (state_root _ _ _ _ _ _ _ _ H E) as (R1 & R2 & ER).
  assert (HR : In r R) by (rewrite ER; apply in_app_iff; right; now left).
  split; [|split].
  - intros n c a t b Q. pose proof (rrun_ok fp content _ R r G HR sp n _ _ Q (rstart_ok fp content _ R r G)) as I.
    cbn [fst snd] in I. destruct (rstep_ok fp content _ R r G HR sp c a t b I) as (c' & ts & -> & _). discriminate.
  - exists (rmu content (n_db nd) (rstart (n_db nd) r)). intros n s Q.
    pose proof (rrun_bound fp content sp _ R r n s G HR Q). lia.
  - intros SO n c Q. pose proof (rrun_ok fp content _ R r G HR sp n _ _ Q (rstart_ok fp content _ R r G)) as I.
    cbn [fst snd] in I.
    assert (SP : forall h k, get h (y_del c) = Some k -> sp h = true).
    { apply (rrun_sp sp _ n _ _ Q). intros h k X. discriminate. }
    rewrite ER in G. destruct (rfin_ok fp content _ R1 R2 r sp c blk G I SP SO) as (tx & d2 & _ & E2 & A & B & _ & _ & _ & _ & F).
    pose proof (fun h => load_look fp content (n_db nd) _ h G) as L1.
    pose proof (fun h => load_look fp content d2 _ h A) as L2.
    exists d2. split; [exact E2|]. split.
    + intros h v. rewrite L1, L2. apply F.
    + intros blk' r' h NE E' Hh. rewrite L1, L2.
      assert (HR' : In r' (R1 ++ R2)).
      { pose proof (snd_adel blk r (d_states (n_db nd)) ND E) as PM. specialize (OC r').
        rewrite (occ_perm r' _ _ PM), ER in OC. rewrite occ_app in OC. cbn [occ] in OC.
        assert (P : 0 < occ r' (map snd (adel N.eqb blk (d_states (n_db nd))))).
        { apply occ_in. assert (X : aget N.eqb blk' (adel N.eqb blk (d_states (n_db nd))) = Some r').
          { rewrite nget_adel. apply N.eqb_neq in NE. now rewrite NE. }
          apply (aget_some_in N.eqb N.eqb_spec) in X. exact (in_map snd _ _ X). }
        apply occ_in. rewrite occ_app. lia. }
      pose proof (reach_stored fp content d2 _ r' h A (g_roots _ _ _ _ A r' HR') Hh) as S.
      apply in_stored in S. destruct S as (v & L). rewrite L. symmetry. now apply F.
Qed.

(* ---- the counters of C62 ---- *)
Fixpoint allocs (k : nat) (c : counters) : counters :=
  match k with O => c | S k => allocs k (snd (cnt_alloc c)) end.
(* the updates both finalizers push *)
Definition s_pushes (tx : list (N * added)) : list ctrans :=
  map (fun e => mkCT (a_idx (snd e)) (a_old (snd e)) (s_newrc (snd e))) tx.
Definition r_pushes (tx : list (N * removed)) : list ctrans :=
  map (fun e => mkCT (r_idx (snd e)) (r_old (snd e)) (r_newrc (snd e))) tx.

Lemma allocs_hist ser deser k : forall c m, cnt_hist ser deser c m ->
  cnt_hist ser deser (allocs k c) m /\ c_next (allocs k c) = c_next c + N.of_nat k.
Proof.
  induction k as [|k IH]; intros c m H; cbn [allocs]; [split; [exact H|lia]|].
  destruct (IH _ _ (ch_alloc ser deser c m H)) as [A B]. split; [exact A|]. rewrite B. cbn [cnt_alloc snd c_next]. lia.
Qed.
Lemma batch_next c ts : c_next (cnt_batch c ts) = c_next c.
Proof.
  unfold cnt_batch. cbn [c_next]. unfold apply_batch. destruct (s_max _); [|reflexivity].
  destruct (prepare_order _); reflexivity.
Qed.

(* the table d_rc is what the counters of C62 hold: the updates pushed by a
   store are a legal batch there and lead to the counters of the new state *)
Theorem store_counters fp content root_of clean nd R : rchist fp content root_of clean nd R ->
  forall sp r n c pr blk d', srun fp content sp (n_db nd) n (sstart (n_db nd) r) (c, []) ->
  sfin fp (n_db nd) c pr blk r = Some d' -> (forall i, d_rc d' i < 2 ^ 64) ->
  forall ser deser k, cnt_hist ser deser k (d_rc (n_db nd)) -> c_next k = d_next (n_db nd) ->
  exists tx m, sdelayed (x_del c) (x_tx c) = Some tx /\
    let k' := cnt_batch (allocs m k) (s_pushes tx) in
    cnt_hist ser deser k' (d_rc d') /\ c_next k' = d_next d'.
Proof.
  intros H sp r n c pr blk d' HS EF BD ser deser k HK NX.
  pose proof (v_good _ _ _ _ _ _ (rchist_inv _ _ _ _ _ _ H)) as G.
  pose proof (srun_ok fp content sp _ R r n _ _ G HS (sstart_ok fp content _ R r G)) as I. cbn [fst snd] in I.
  destruct (sfin_ok fp content _ R r c pr blk G I) as (tx & d2 & E1 & E2 & A & _ & DN & DR & ND & EN & F).
  rewrite EF in E2. injection E2 as <-.
  destruct (fin_tx fp content _ R r c G I) as (tx' & E1' & NT & _). rewrite E1 in E1'. injection E1' as <-.
  pose proof (si_next _ _ _ _ _ I) as SN.
  exists tx, (N.to_nat (x_next c - d_next (n_db nd))). split; [exact E1|].
  destruct (allocs_hist ser deser (N.to_nat (x_next c - d_next (n_db nd))) k _ HK) as [HA NA].
  assert (NA2 : c_next (allocs (N.to_nat (x_next c - d_next (n_db nd))) k) = x_next c) by (rewrite NA; lia).
  cbn zeta. split; [|now rewrite batch_next, NA2].
  assert (EP : s_pushes tx = map (fun e => mkCT (fst e) (d_rc (n_db nd) (fst e)) (snd e)) (s_updates tx)).
  { unfold s_pushes, s_updates. rewrite map_map. apply map_ext_in. intros [h a] Hin. cbn [fst snd]. f_equal.
    assert (GH : get h tx = Some a) by (now apply (aget_in N.eqb N.eqb_spec)).
    destruct (EN h a GH) as [_ X]. destruct (a_new a).
    - destruct X as (_ & _ & -> & LO & _). symmetry. apply (g_free _ _ _ _ G). intros x v L.
      pose proof (proj2 (g_val _ _ _ _ G x v L)). lia.
    - destruct X as (v & L & -> & ->). reflexivity. }
  rewrite EP, DR. apply ch_batch; [exact HA|exact ND|].
  intros i v Hin. split.
  - rewrite NA2. unfold s_updates in Hin. apply in_map_iff in Hin. destruct Hin as ([h a] & Q & Hin). injection Q as <- <-. cbn [snd].
    assert (GH : get h tx = Some a) by (now apply (aget_in N.eqb N.eqb_spec)).
    destruct (EN h a GH) as [_ X]. destruct (a_new a).
    + lia.
    + destruct X as (w & L & -> & _). pose proof (proj2 (g_val _ _ _ _ G h w L)). lia.
  - specialize (BD i). rewrite DR, (tset_all_in _ ND _ i v Hin) in BD. exact BD.
Qed.
Theorem remove_counters fp content root_of clean nd R : rchist fp content root_of clean nd R ->
  forall blk r sp n c d', aget N.eqb blk (d_states (n_db nd)) = Some r -> split_ok content (n_db nd) sp r ->
  rrun sp (n_db nd) n (rstart (n_db nd) r) (c, []) -> rfin fp (n_db nd) c blk = Some d' ->
  forall ser deser k, (forall i, d_rc (n_db nd) i < 2 ^ 64) ->
  cnt_hist ser deser k (d_rc (n_db nd)) -> c_next k = d_next (n_db nd) ->
  exists tx, rdelayed (y_del c) (y_tx c) = Some tx /\
    let k' := cnt_batch k (r_pushes tx) in
    cnt_hist ser deser k' (d_rc d') /\ c_next k' = d_next d'.
Proof.
  intros H blk r sp n c d' E SO Q EF ser deser k BD HK NX.
  pose proof (rchist_inv _ _ _ _ _ _ H) as [G ND0 RT OC CL].
  destruct (state_root _ _ _ _ _ _ _ _ H E) as (R1 & R2 & ER). rewrite ER in G.
  assert (HR : In r (R1 ++ r :: R2)) by (apply in_app_iff; right; now left).
  pose proof (rrun_ok fp content _ _ r G HR sp n _ _ Q (rstart_ok fp content _ _ r G)) as I. cbn [fst snd] in I.
  assert (SP : forall h k, get h (y_del c) = Some k -> sp h = true).
  { apply (rrun_sp sp _ n _ _ Q). intros h k' X. discriminate. }
  destruct (rfin_ok fp content _ R1 R2 r sp c blk G I SP SO) as (tx & d2 & E1 & E2 & A & B & DN & DR & ND & EN & F).
  rewrite EF in E2. injection E2 as <-.
  destruct (rf_tx fp content _ R1 R2 r sp c G I SP SO) as (tx' & E1' & NT & _). rewrite E1 in E1'. injection E1' as <-.
  exists tx. split; [exact E1|]. cbn zeta. split; [|now rewrite batch_next, DN].
  assert (EP : r_pushes tx = map (fun e => mkCT (fst e) (d_rc (n_db nd) (fst e)) (snd e)) (r_updates tx)).
  { unfold r_pushes, r_updates. rewrite map_map. apply map_ext_in. intros [h a] Hin. cbn [fst snd]. f_equal.
    assert (GH : get h tx = Some a) by (now apply (aget_in N.eqb N.eqb_spec)).
    destruct (EN h a GH) as (w & L & B1 & _ & _ & B2 & _). now rewrite B1, B2. }
  rewrite EP, DR. apply ch_batch; [exact HK|exact ND|].
  intros i v Hin. unfold r_updates in Hin. apply in_map_iff in Hin. destruct Hin as ([h a] & X & Hin). injection X as <- <-. cbn [snd].
  assert (GH : get h tx = Some a) by (now apply (aget_in N.eqb N.eqb_spec)).
  destruct (EN h a GH) as (w & L & B1 & _ & _ & B2 & _). rewrite NX, B1. split.
  - exact (proj2 (g_val _ _ _ _ G h w L)).
  - specialize (BD (fst w)). unfold r_newrc. lia.
Qed.

(* the cells a store hands to the nursery are not in it and not rows yet,
   each once: the precondition op_ok of C63 *)
Theorem store_inserts_fresh fp content root_of clean nd R : rchist fp content root_of clean nd R ->
  forall sp r n c tx, srun fp content sp (n_db nd) n (sstart (n_db nd) r) (c, []) ->
  sdelayed (x_del c) (x_tx c) = Some tx ->
  NoDup (map fst (s_inserts tx)) /\
  forall h i x, In (h, (i, x)) (s_inserts tx) ->
    x = content h /\ aget N.eqb h (d_nur (n_db nd)) = None /\ aget N.eqb h (d_rows (n_db nd)) = None.
Proof.
  intros H sp r n c tx HS E1.
  pose proof (v_good _ _ _ _ _ _ (rchist_inv _ _ _ _ _ _ H)) as G.
  pose proof (srun_ok fp content sp _ R r n _ _ G HS (sstart_ok fp content _ R r G)) as I. cbn [fst snd] in I.
  destruct (fin_tx fp content _ R r c G I) as (tx' & E1' & NT & EN & _). rewrite E1 in E1'. injection E1' as <-.
  split; [now apply f_insnd|]. intros h i x Hin. split.
  - assert (K : forall l, (forall e, In e l -> In e tx) -> In (h, (i, x)) (s_inserts l) -> x = content h).
    { induction l as [|[y a] l IH]; intros Hl Hy; [destruct Hy|]. cbn [s_inserts] in Hy.
      assert (Hl' : forall e, In e l -> In e tx) by (intros e He; apply Hl; now right).
      destruct (a_new a) as [cc|] eqn:EA; [|now apply IH]. destruct Hy as [Q|Hy]; [|now apply IH].
      injection Q as -> <- ->. assert (GH : get h tx = Some a).
      { apply (aget_in N.eqb N.eqb_spec); [exact NT|]. apply Hl. now left. }
      destruct (EN h a GH) as [_ X]. rewrite EA in X. exact (proj1 X). }
    exact (K tx (fun e He => He) Hin).
  - apply look_none. apply (f_fresh content _ (x_next c) tx NT EN h). exact (in_map fst _ _ Hin).
Qed.
