(** Every step of a download keeps the invariants, and none panics. *)
From Coq Require Import List Bool NArith Lia ZArith ZifyN ZifyNat ZifyBool Permutation.
From Verif Require Import OMap VomModel VomProofs PeerCountModel PeerCountProps DlModel DlQueue DlInv.
Import ListNotations.
Local Open Scope N_scope.

Lemma q_perm c nw q l m nf a asked : Permutation l m -> qinv c nw q l nf a asked -> qinv c nw q m nf a asked.
Proof.
  intros P [V1 V2 V3 V4 V5 V6 V0 V7 V8 V9 V10]. constructor; auto.
  - exact (Permutation_NoDup P V3).
  - intros p. rewrite <- V4. split; intros H; [exact (Permutation_in _ (Permutation_sym P) H)|exact (Permutation_in _ P H)].
Qed.
Lemma q_weak c nw nw' q l nf a asked : (nw' = true -> nw = true) -> qinv c nw q l nf a asked -> qinv c nw' q l nf a asked.
Proof. intros W [V1 V2 V3 V4 V5 V6 V0 V7 V8 V9 V10]. constructor; auto; intros NW; first [exact (V8 (W NW))|exact (V9 (W NW))]. Qed.
Lemma tinv_weak c nw nw' y : (nw' = true -> nw = true) -> tinv c nw y -> tinv c nw' y.
Proof. intros W [H1 H2]. split; [|exact H2]. intros O. destruct (H1 O) as [I L]. split; [exact (q_weak c nw nw' _ _ _ _ _ W I)|exact L]. Qed.
Lemma q_attempt c nw q l nf a a' asked : a <= a' \/ nw = false -> qinv c nw q l nf a asked -> qinv c nw q l nf a' asked.
Proof.
  intros W [V1 V2 V3 V4 V5 V6 V0 V7 V8 V9 V10]. constructor; auto.
  - intros NW p b H. destruct (V8 NW p b H) as [A B]. split; [|exact B]. destruct W; [lia|congruence].
  - intros NW p s b G L. destruct (V9 NW p s b G L) as [A B]. split; [|exact B]. destruct W; [lia|congruence].
Qed.

Lemma rm_mid p l m : NoDup (l ++ p :: m) -> rm p (l ++ p :: m) = l ++ m.
Proof.
  induction l as [|a l IH]; cbn [app rm]; intros N; [rewrite N.eqb_refl; reflexivity|]. inversion N as [|? ? N1 N2]; subst.
  destruct (N.eqb_spec a p) as [E|E]; [subst a; exfalso; apply N1; apply in_app_iff; right; left; reflexivity|]. f_equal. auto.
Qed.
Lemma rm_perm p l : In p l -> Permutation l (p :: rm p l).
Proof.
  induction l as [|a l IH]; cbn [rm In]; [intros []|]. destruct (N.eqb_spec a p) as [E|E]; [subst a; intros _; reflexivity|].
  intros [H|H]; [contradiction|]. rewrite (IH H) at 1. apply perm_swap.
Qed.

(** the state after [inspect]: the decision *)
Lemma decide_inv c nw y' o pend : d_out y' = None -> (o = None -> qinv c nw (d_q y') pend (d_nf y') (d_attempt y') (d_asked y')) ->
  let z := decide c (y', o) in
  d_down z = d_down y' /\ d_slot z = d_slot y' /\ d_pq z = d_pq y' /\ d_attempt z = d_attempt y' /\ d_asked z = d_asked y' /\ d_q z = d_q y' /\ d_nf z = d_nf y' /\
  (d_out z = None -> o = None /\ qinv c nw (d_q z) pend (d_nf z) (d_attempt z) (d_asked z) /\ N.of_nat (length (d_nf z)) < majority_of_others (c_f c)).
Proof.
  intros O H. cbn zeta. unfold decide. cbn [fst snd]. destruct o as [o|].
  - cbn [with_out d_down d_slot d_pq d_attempt d_asked d_q d_nf d_out]. do 7 (split; [reflexivity|]). discriminate.
  - destruct (N.leb_spec (majority_of_others (c_f c)) (N.of_nat (length (d_nf y')))) as [C|C].
    + cbn [with_out d_down d_slot d_pq d_attempt d_asked d_q d_nf d_out]. do 7 (split; [reflexivity|]). discriminate.
    + do 7 (split; [reflexivity|]). intros _. split; [reflexivity|]. split; [exact (H eq_refl)|exact C].
Qed.

Lemma step_tinv c nw y e : tinv c nw y -> enabled y e = true -> (nw = true -> e = ETick -> d_attempt y < u32_max) ->
  exists y', step c y e = Some y' /\ tinv c nw y' /\ d_attempt y' = match e with ETick => if d_attempt y =? u32_max then 0 else d_attempt y + 1 | _ => d_attempt y end.
Proof.
  intros T EN NWR. unfold enabled in EN. destruct (d_out y) as [o|] eqn:O; [discriminate|]. pose proof T as [T1 T2]. destruct (T1 O) as [I L]. clear T1.
  destruct e as [[]|p|p r| | |p r|v|]; cbn [step].
  - eexists. split; [reflexivity|]. split; [|reflexivity]. split; cbn [with_out d_out]; discriminate.
  - eexists. split; [reflexivity|]. split; [exact T|reflexivity].
  - eexists. split; [reflexivity|]. split; [|reflexivity]. split; cbn [with_q d_out d_q d_nf d_attempt d_asked d_slot d_pq]; [|exact T2].
    intros _. split; [|exact L]. unfold pending in *. cbn [with_q d_down d_slot d_pq]. apply q_same; [exact I|reflexivity|reflexivity].
  - eexists. split; [reflexivity|]. split; [|reflexivity]. split; cbn [with_q d_out d_q d_nf d_attempt d_asked d_slot d_pq]; [|exact T2].
    intros _. split; [|exact L]. unfold pending in *. cbn [with_q d_down d_slot d_pq]. apply q_same; [exact I|reflexivity|reflexivity].
  - eexists. split; [reflexivity|]. split; [exact T|reflexivity].
  - eexists. split; [reflexivity|]. split; [|reflexivity]. split; cbn [with_out d_out]; discriminate.
  - apply has_In in EN. assert (IP : In p (pending y)) by (unfold pending; apply in_app_iff; auto).
    assert (RP : rm p (pending y) = rm p (d_down y) ++ slot_peers (d_slot y) ++ map fst (d_pq y)) by (unfold pending; apply rm_app; exact EN).
    assert (GEN : (forall x, r <> RDefined x) -> exists y', match inspect c p r false (with_down y (rm p (d_down y))) with
        | Some x => Some (match d_out (decide c x) with Some _ => decide c x | None => match d_slot (decide c x) with Some _ => decide c x | None => download_random c (decide c x) end end)
        | None => None end = Some y' /\ tinv c nw y' /\ d_attempt y' = d_attempt y).
    { intros _. destruct (inspect_inv c nw p r false (with_down y (rm p (d_down y))) (pending y)) as (y' & o & E & D1 & D2 & D3 & D4 & D5 & D6 & Q); [exact I|exact IP|].
      rewrite E. eexists. split; [reflexivity|]. cbn [with_down d_down d_slot d_pq d_out d_attempt d_asked] in *.
      destruct (decide_inv c nw y' o (rm p (pending y)) ltac:(congruence) Q) as (F1 & F2 & F3 & F4 & F5 & F6 & F7 & FQ). cbn zeta in *.
      set (z := decide c (y', o)) in *.
      assert (TZ : tinv c nw z).
      { split; [|rewrite F2, F3, D2, D3; intros S _; exact (T2 S O)]. intros OZ. destruct (FQ OZ) as (_ & IZ & LZ). split; [|exact LZ].
        rewrite RP in IZ. unfold pending. rewrite F1, F2, F3, D1, D2, D3. exact IZ. }
      destruct (d_out z) eqn:OZ; [split; [exact TZ|congruence]|]. destruct (d_slot z) eqn:SZ; [split; [exact TZ|congruence]|].
      destruct (tinv_random c nw z TZ) as (TR & _ & _ & AR). split; [exact TR|congruence]. }
    destruct r as [x| | | |]; try (apply GEN; discriminate). clear GEN.
    eexists. split; [reflexivity|]. cbn [with_down d_slot d_pq]. destruct (d_slot y) as [s|] eqn:S.
    + split; [|reflexivity]. split; cbn [with_slot with_down d_out d_q d_nf d_attempt d_asked d_slot d_pq d_down]; [|discriminate].
      intros _. split; [|exact L]. refine (q_perm c nw _ _ _ _ _ _ _ I). unfold pending. cbn [with_slot with_down d_slot d_pq d_down slot_peers]. rewrite S, map_app. cbn [map fst slot_peers].
      rewrite (rm_perm p (d_down y) EN) at 1. rewrite <- app_comm_cons, !app_assoc. apply Permutation_cons_append.
    + split; [|reflexivity]. split; cbn [with_slot with_down d_out d_q d_nf d_attempt d_asked d_slot d_pq d_down]; [|discriminate].
      intros _. split; [|exact L]. refine (q_perm c nw _ _ _ _ _ _ _ I). unfold pending. cbn [with_slot with_down d_slot d_pq d_down slot_peers]. rewrite S. cbn [map fst slot_peers app].
      rewrite (rm_perm p (d_down y) EN) at 1. cbn [app]. apply Permutation_middle.
  - destruct (d_slot y) as [[p x]|] eqn:S; [|discriminate]. cbn [step].
    assert (PE : pending y = d_down y ++ p :: map fst (d_pq y)) by (unfold pending; rewrite S; reflexivity).
    assert (IP : In p (pending y)) by (rewrite PE; apply in_app_iff; right; left; reflexivity).
    destruct (inspect_inv c nw p (RDefined x) v y (pending y) I IP) as (y' & o & E & D1 & D2 & D3 & D4 & D5 & D6 & Q). rewrite E.
    eexists. split; [reflexivity|].
    destruct (decide_inv c nw y' o (rm p (pending y)) ltac:(congruence) Q) as (F1 & F2 & F3 & F4 & F5 & F6 & F7 & FQ). cbn zeta in *.
    set (z := decide c (y', o)) in *. destruct (d_out z) eqn:OZ.
    + split; [split; cbn [with_slot d_out]; rewrite OZ; discriminate|]. cbn [with_slot d_attempt]. congruence.
    + destruct (FQ eq_refl) as (_ & IZ & LZ). rewrite PE, (rm_mid p) in IZ by (rewrite <- PE; exact (i_nd _ _ _ _ _ _ _ I)). destruct (rev (d_pq z)) as [|e r] eqn:RV.
      * assert (PZ : d_pq y = []) by (rewrite <- D3, <- F3, <- (rev_involutive (d_pq z)), RV; reflexivity).
        destruct (tinv_random c nw (with_slot z None [])) as (TR & _ & _ & AR); [|split; [exact TR|rewrite AR; cbn [with_slot d_attempt]; congruence]].
        split; cbn [with_slot d_out d_q d_nf d_attempt d_asked d_slot d_pq d_down]; [|reflexivity]. intros _. split; [|exact LZ].
        unfold pending. cbn [with_slot d_slot d_pq d_down slot_peers map app]. rewrite F1, D1. rewrite PZ in IZ. exact IZ.
      * assert (PZ : d_pq y = rev r ++ [e]) by (rewrite <- D3, <- F3, <- (rev_involutive (d_pq z)), RV; reflexivity).
        split; [|cbn [with_slot d_attempt]; congruence]. split; cbn [with_slot d_out d_q d_nf d_attempt d_asked d_slot d_pq d_down]; [|discriminate]. intros _. split; [|exact LZ].
        refine (q_perm c nw _ _ _ _ _ _ _ IZ). unfold pending. cbn [with_slot d_slot d_pq d_down slot_peers app]. rewrite F1, D1, PZ, map_app. apply Permutation_app_head. cbn [map].
        rewrite <- Permutation_cons_append. reflexivity.
  - eexists. split; [reflexivity|]. cbn [d_attempt]. destruct (tinv_random c nw y T) as (TR & OR & SR & AR). rewrite AR. split; [|reflexivity].
    destruct TR as [R1 R2]. split; cbn [d_out d_q d_nf d_attempt d_asked d_slot d_pq d_down]; [|exact R2]. intros OO. destruct (R1 OO) as [IR LR]. split; [|exact LR].
    unfold pending in *. cbn [d_slot d_pq d_down]. apply (q_attempt c nw _ _ _ (d_attempt (download_random c y))); [|exact IR]. rewrite AR.
    destruct nw; [|right; reflexivity]. left. specialize (NWR eq_refl eq_refl). destruct (N.eqb_spec (d_attempt y) u32_max); lia.
Qed.

(** ** Runs *)

Definition is_tick (e : event) : bool := match e with ETick => true | _ => false end.
Definition ticks (l : list event) : N := N.of_nat (length (filter is_tick l)).
Lemma ticks_snoc l e : ticks (l ++ [e]) = ticks l + if is_tick e then 1 else 0.
Proof. unfold ticks. rewrite filter_app, app_length. cbn [filter]. destruct (is_tick e); cbn [length]; lia. Qed.

(** the set of signers is large enough: downloader.rs 88-89 *)
Definition conf_ok (c : conf) : Prop := peer_count (N.of_nat (length (c_vset c))) = PcOk (c_f c).

Lemma new_tinv c nw : conf_ok c -> tinv c nw (task_new c).
Proof.
  intros OK. pose proof (pc_spec _ _ OK) as (_ & F & _). destruct (new_queue_ok c) as [O G]. unfold task_new. split; [|reflexivity]. cbn [d_out d_q d_nf d_attempt d_asked d_slot d_pq d_down].
  intros _. split; [|cbn [length]; unfold majority_of_others; lia]. constructor.
  - exact O.
  - intros p s H. destruct (G p s H) as (r & IN & _). apply in_app_iff in IN as [IN|[IN|[]]]; [left; apply (in_map fst) in IN; exact IN|right; congruence].
  - constructor.
  - intros p. unfold pending. cbn [app]. split; [intros []|]. intros (s & H & T). destruct (G p s H) as (r & _ & ->). discriminate.
  - constructor.
  - intros p [].
  - intros p a [].
  - intros _. constructor.
  - intros _ p a [].
  - intros _ p s b H. destruct (G p s H) as (r & _ & ->). discriminate.
  - intros p S H. destruct (new_queue_has c p (or_introl S)) as (s & E). congruence.
Qed.
Lemma runs_tinv c l y : conf_ok c -> runs c l y ->
  (forall nw, (nw = true -> ticks l <= u32_max) -> tinv c nw y) /\ (ticks l <= u32_max -> d_attempt y = ticks l).
Proof.
  intros OK R. induction R as [|l y e y' R [IH IA] EN ST]; [split; [intros nw _; apply new_tinv; exact OK|reflexivity]|].
  rewrite ticks_snoc. split.
  - intros nw W. destruct (step_tinv c nw y e) as (z & E & T & _).
    + apply IH. intros N. specialize (W N). lia.
    + exact EN.
    + intros N ->. specialize (W N). cbn [is_tick] in W. rewrite IA by lia. lia.
    + congruence.
  - intros W. destruct (step_tinv c false y e) as (z & E & _ & A); [apply IH; discriminate|exact EN|discriminate|]. rewrite ST in E. injection E as <-. rewrite A, IA by lia.
    destruct e; cbn [is_tick] in *; try lia. destruct (N.eqb_spec (ticks l) u32_max); lia.
Qed.
Lemma runs_det c l y y' : runs c l y -> runs c l y' -> y = y'.
Proof.
  intros R. revert y'. induction R as [|l y e z R IH EN ST]; intros y' R'.
  - inversion R' as [|l0 ? ? ? ? ? ? E]; [reflexivity|]. destruct l0; discriminate.
  - inversion R' as [E|l0 n0 e0 m0 R0 EN0 ST0 E]; [destruct l; discriminate|]. apply app_inj_tail in E as [-> ->]. rewrite (IH n0 R0) in ST. congruence.
Qed.
