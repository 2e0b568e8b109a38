(** C40-C43: what a user of the validator session relies on. *)
From Coq Require Import NArith Lia List Bool ZArith ZifyN ZifyBool Permutation.
From Verif Require Import AMap StatsSpec StatsProofs ValModel ValInv ValStep ValUniq.
Import ListNotations.
Open Scope N_scope.

(* ------------------------------------------------------------------ specification *)
(** a validator set: (peer, weight), no peer twice *)
Definition total_weight (vals : list (N * N)) : N := lsum snd vals.
Definition weight_of (vals : list (N * N)) (p : N) : N := match aget N.eqb p vals with Some w => w | None => 0 end.
Definition weight_all (vals : list (N * N)) (ps : list N) : N := lsum (weight_of vals) ps.

(** thread [t] is a validate_block(b) call that returned [r] *)
Definition returned (s : vst) (t : N) (b : vblock) (r : vstatus) : Prop := aget N.eqb t (vs_ths s) = Some (VRet b r).
(** thread [t] is an exchange_signatures RPC of peer [p] for seqno [q] that was answered [r] *)
Definition answered (s : vst) (t p q : N) (r : xres) : Prop := aget N.eqb t (vs_ths s) = Some (XRet p q r).
(** a reachable state of a session created by ValidatorSession::new over [vals] *)
Definition session_state (vals : list (N * N)) (own slots keep : N) ver sgn (start : N) (l : list vlabel) (c : vcfg) (s : vst) : Prop :=
  NoDup (map fst vals) /\ vnew vals own slots keep ver sgn = Some c /\ vrun c (vinit c start) l = Some s.

(* ------------------------------------------------------------------ the created configuration *)
Lemma vmap_of_nodup vals : NoDup (map fst vals) -> vmap_of vals = vals.
Proof.
  intros Nd. unfold vmap_of.
  enough (H : forall l m, NoDup (map fst (m ++ l)) -> fold_left (fun m e => aset N.eqb (fst e) (snd e) m) l m = m ++ l) by (apply (H vals []); exact Nd).
  induction l as [|[p w] l IH]; intros m Hn; cbn [fold_left fst snd]; [rewrite app_nil_r; reflexivity|].
  assert (E : aset N.eqb p w m = m ++ [(p, w)]).
  { rewrite map_app in Hn. cbn [map fst] in Hn. apply NoDup_remove_2 in Hn. rewrite in_app_iff in Hn.
    assert (Np : ~ In p (map fst m)) by tauto. clear -Np. induction m as [|[k v] m IH]; [reflexivity|]. cbn [map fst In aset app] in *.
    destruct (N.eqb_spec p k) as [->|]; [tauto|]. rewrite IH by tauto. reflexivity. }
  rewrite E, IH; rewrite <- app_assoc; [reflexivity|exact Hn].
Qed.
Lemma vsum_exact vals : total_weight vals < u64_mod -> vsum vals = total_weight vals.
Proof.
  unfold vsum, total_weight.
  enough (H : forall l a, a + lsum snd l < u64_mod -> fold_left (fun a e => vadd a (snd e)) l a = a + lsum (T := N * N) snd l).
  { intros L. rewrite H; [reflexivity|exact L]. }
  induction l as [|e l IH]; intros a L; cbn [fold_left lsum fold_right] in *; [lia|]. fold (lsum (T := N * N) snd l) in *.
  rewrite vadd_small by lia. rewrite IH by lia. lia.
Qed.
Lemma weight_sum_keys vals : NoDup (map fst vals) -> lsum (weight_of vals) (map fst vals) = total_weight vals.
Proof.
  unfold total_weight, weight_of. intros Nd.
  enough (H : forall l, incl l vals -> lsum (fun p => match aget N.eqb p vals with Some w => w | None => 0 end) (map fst l) = lsum snd l) by (apply H; apply incl_refl).
  induction l as [|[p w] l IH]; intros Hi; [reflexivity|]. cbn [map fst]. rewrite !lsum_cons. cbn [snd]. rewrite IH by (intros e He; apply Hi; right; auto).
  assert (E : aget N.eqb p vals = Some w) by (apply aget_in; [apply N_spec|exact Nd|apply Hi; left; auto]). rewrite E. reflexivity.
Qed.

Section New.
  Variables (vals : list (N * N)) (own slots keep : N) (ver : N -> N * N -> N -> bool) (sgn : N * N -> N) (c : vcfg).
  Hypothesis Nd : NoDup (map fst vals).
  Hypothesis New : vnew vals own slots keep ver sgn = Some c.

  Lemma new_fields : vc_own c = own /\ vc_verify c = ver /\ vc_sign c = sgn /\ vc_keep c = keep /\ vc_slots c = slots /\ aget N.eqb own vals = Some (vc_ownw c) /\
    vc_vals c = adel N.eqb own vals /\ vc_thr c = vthreshold (vsum vals).
  Proof.
    unfold vnew in New. rewrite vmap_of_nodup in New by auto. destruct (aget N.eqb own vals) as [w|] eqn:E; [|discriminate].
    injection New as <-. cbn. auto 10.
  Qed.
  Lemma new_wta p : wta c p = weight_of vals p.
  Proof.
    destruct new_fields as (E1 & _ & _ & _ & _ & E2 & E3 & _). unfold wta, wt, weight_of. rewrite E1, E3, nget_adel. destruct (N.eqb_spec p own) as [->|]; [|reflexivity].
    rewrite E2. reflexivity.
  Qed.
  Lemma adel_keys p (m : list (N * N)) : akeys (adel N.eqb p m) = filter (fun k => negb (p =? k)) (map fst m).
  Proof. induction m as [|[k v] m IH]; [reflexivity|]. cbn [adel filter fst map]. destruct (p =? k); cbn [negb]; [exact IH|]. cbn [akeys map fst]. f_equal. exact IH. Qed.
  Lemma new_perm : Permutation (vall c) (map fst vals).
  Proof.
    destruct new_fields as (E1 & _ & _ & _ & _ & E2 & E3 & _). unfold vall, vkeys. rewrite E1, E3, adel_keys.
    assert (Hin : In own (map fst vals)) by (apply (nget_in own vals); eauto).
    apply NoDup_Permutation.
    - constructor; [|apply NoDup_filter; auto]. rewrite filter_In, N.eqb_refl. cbn. intros [_ H]; discriminate.
    - auto.
    - intros x. cbn [In]. rewrite filter_In, negb_true_iff, N.eqb_neq. split; [intros [<-|[H _]]; auto|]. intros H. destruct (N.eq_dec own x); auto.
  Qed.
  Lemma new_ok : total_weight vals < u64_mod -> cfg_ok c.
  Proof.
    intros L. constructor.
    - eapply Permutation_NoDup; [symmetry; apply new_perm|auto].
    - rewrite (lsum_perm _ _ _ new_perm). rewrite (lsum_ext (wta c) (weight_of vals)) by (intros; apply new_wta). rewrite weight_sum_keys; auto.
  Qed.
  Lemma new_thr : 2 * total_weight vals < u64_mod -> vc_thr c = 2 * total_weight vals / 3 + 1.
  Proof.
    intros L. destruct new_fields as (_ & _ & _ & _ & _ & _ & _ & ->). rewrite vsum_exact by lia. unfold vthreshold, vsmul. rewrite N.min_l by lia.
    rewrite (N.mul_comm (total_weight vals)). reflexivity.
  Qed.
End New.

Lemma thr_gt W t : 2 * W / 3 + 1 <= t -> 2 * W < 3 * t.
Proof. intros H. pose proof (N.div_mod (2 * W) 3 ltac:(lia)) as D. pose proof (N.mod_lt (2 * W) 3 ltac:(lia)). lia. Qed.
Lemma thr_le W : 1 <= W -> 2 * W / 3 + 1 <= W.
Proof. intros H. pose proof (N.div_mod (2 * W) 3 ltac:(lia)) as D. pose proof (N.mod_lt (2 * W) 3 ltac:(lia)). lia. Qed.

(* ------------------------------------------------------------------ C40 *)
(** A completed validation carries a quorum: distinct members of the validator set (the node itself among
    them), each with a signature that verifies for exactly this block, whose exact total weight is reported
    and exceeds two thirds of the weight of the whole set. For every interleaving of calls, RPCs of
    (arbitrary, possibly malicious) peers and cancellations. *)
Theorem C40_complete_is_quorum : forall vals own slots keep ver sgn start l c s t b sigs total,
  session_state vals own slots keep ver sgn start l c s ->
  2 * total_weight vals < 2 ^ 64 ->
  (forall d, ver own d (sgn d) = true) ->
  returned s t b (VComplete sigs total) ->
  NoDup (map fst sigs) /\
  In (own, sgn (vdata b)) sigs /\
  (forall p sg, In (p, sg) sigs -> In p (map fst vals) /\ ver p (vdata b) sg = true) /\
  total = weight_all vals (map fst sigs) /\
  2 * total_weight vals < 3 * total.
Proof.
  intros vals own slots keep ver sgn start l c s t b sigs total (Nd & New & Run) W Sg Ret.
  pose proof (new_ok _ _ _ _ _ _ _ Nd New) as CK. specialize (CK ltac:(change u64_mod with (2 ^ 64); lia)).
  destruct (new_fields _ _ _ _ _ _ _ Nd New) as (E1 & E2 & E3 & _).
  destruct (reach_good c CK start l s Run) as [I2 _]. pose proof (i_th _ _ (proj1 I2) _ _ Ret) as H. cbn [th_ok] in H.
  destruct H as (N1 & N2 & N3 & N4 & N5 & N6). rewrite E1 in *. rewrite E2, E3 in *.
  assert (Gi : forall p sg, In (p, sg) sigs <-> aget N.eqb p sigs = Some sg) by (intros; apply aget_in; [apply N_spec|auto]).
  split; [auto|]. split; [apply Gi; auto|]. split; [|split].
  - intros p sg Hp. split.
    + eapply Permutation_in; [apply (new_perm _ _ _ _ _ _ _ Nd New)|]. apply N2. apply (in_map fst) in Hp. exact Hp.
    + apply Gi in Hp. destruct (N.eq_dec p own) as [->|Hn]; [|eapply N6; eauto]. rewrite N5 in Hp. injection Hp as <-. apply Sg.
  - rewrite N4. apply lsum_ext. intros x _. apply (new_wta _ _ _ _ _ _ _ Nd New).
  - apply thr_gt. rewrite <- (new_thr _ _ _ _ _ _ _ Nd New); [auto|exact W].
Qed.

Lemma nodup_app_i {A} (l r : list A) : NoDup l -> NoDup r -> (forall x, In x l -> ~ In x r) -> NoDup (l ++ r).
Proof.
  induction l as [|a l IH]; cbn [app]; intros H1 H2 H3; [auto|]. inversion H1 as [|? ? Hn Hd]; subst. constructor.
  - rewrite in_app_iff. intros [H|H]; [auto|]. exact (H3 a (or_introl eq_refl) H).
  - apply IH; auto. intros x Hx. apply H3. right; auto.
Qed.
Lemma filter_split_sum (f : N -> N) (g : N -> bool) l : lsum f l = lsum f (filter g l) + lsum f (filter (fun x => negb (g x)) l).
Proof. induction l as [|x l IH]; [reflexivity|]. rewrite lsum_cons, IH. cbn [filter]. destruct (g x); cbn [negb]; rewrite !lsum_cons; lia. Qed.
Lemma sum_incl (f : N -> N) l m : NoDup l -> incl l m -> lsum f l <= lsum f m.
Proof.
  revert m. induction l as [|x l IH]; intros m Nd Hi; [cbn; lia|]. inversion Nd as [|? ? Hn Hd]; subst.
  destruct (in_split x m (Hi x (or_introl eq_refl))) as (m1 & m2 & ->). rewrite lsum_cons, lsum_app, lsum_cons.
  assert (Hi2 : incl l (m1 ++ m2)).
  { intros y Hy. specialize (Hi y (or_intror Hy)). rewrite in_app_iff in *. cbn [In] in Hi. destruct Hi as [H|[->|H]]; auto. contradiction. }
  specialize (IH _ Hd Hi2). rewrite lsum_app in IH. lia.
Qed.

(** Two completed validations of one validator set, in any two sessions of any two nodes, for any two blocks,
    have signers in common whose weight exceeds one third of the set. *)
Theorem C40_quorums_intersect : forall vals ver own1 slots1 keep1 sgn1 start1 l1 c1 s1 t1 b1 sigs1 total1
                                               own2 slots2 keep2 sgn2 start2 l2 c2 s2 t2 b2 sigs2 total2,
  session_state vals own1 slots1 keep1 ver sgn1 start1 l1 c1 s1 ->
  session_state vals own2 slots2 keep2 ver sgn2 start2 l2 c2 s2 ->
  2 * total_weight vals < 2 ^ 64 ->
  (forall d, ver own1 d (sgn1 d) = true) -> (forall d, ver own2 d (sgn2 d) = true) ->
  returned s1 t1 b1 (VComplete sigs1 total1) -> returned s2 t2 b2 (VComplete sigs2 total2) ->
  exists common, NoDup common /\
    (forall p, In p common -> exists sg1 sg2, In (p, sg1) sigs1 /\ ver p (vdata b1) sg1 = true /\ In (p, sg2) sigs2 /\ ver p (vdata b2) sg2 = true) /\
    total_weight vals < 3 * weight_all vals common.
Proof.
  intros vals ver own1 slots1 keep1 sgn1 start1 l1 c1 s1 t1 b1 sigs1 total1 own2 slots2 keep2 sgn2 start2 l2 c2 s2 t2 b2 sigs2 total2 S1 S2 W G1 G2 R1 R2.
  pose proof (proj1 S1) as Nd.
  destruct (C40_complete_is_quorum _ _ _ _ _ _ _ _ _ _ _ _ _ _ S1 W G1 R1) as (A1 & _ & A3 & A4 & A5).
  destruct (C40_complete_is_quorum _ _ _ _ _ _ _ _ _ _ _ _ _ _ S2 W G2 R2) as (B1 & _ & B3 & B4 & B5).
  set (g := fun p => if in_dec N.eq_dec p (map fst sigs2) then true else false).
  exists (filter g (map fst sigs1)). split; [apply NoDup_filter; auto|]. split.
  - intros p Hp. apply filter_In in Hp. destruct Hp as [H1 H2]. unfold g in H2. destruct (in_dec N.eq_dec p (map fst sigs2)) as [H3|]; [|discriminate].
    apply in_map_iff in H1. destruct H1 as ((p1 & sg1) & E1 & H1). cbn [fst] in E1. subst p1.
    apply in_map_iff in H3. destruct H3 as ((p2 & sg2) & E2 & H3). cbn [fst] in E2. subst p2.
    exists sg1, sg2. destruct (A3 _ _ H1), (B3 _ _ H3). auto.
  - unfold weight_all in *. pose proof (filter_split_sum (weight_of vals) g (map fst sigs1)) as Sp.
    assert (U : lsum (weight_of vals) (filter (fun x => negb (g x)) (map fst sigs1)) + lsum (weight_of vals) (map fst sigs2) <= total_weight vals).
    { rewrite <- lsum_app, <- weight_sum_keys by auto. apply sum_incl.
      - apply nodup_app_i; [apply NoDup_filter; auto|auto|]. intros x Hx Hx2. apply filter_In in Hx. destruct Hx as [_ Hx]. unfold g in Hx.
        destruct (in_dec N.eq_dec x (map fst sigs2)); [discriminate|contradiction].
      - intros x Hx. apply in_app_iff in Hx. destruct Hx as [Hx|Hx]; [apply filter_In in Hx; destruct Hx as [Hx _]|];
          apply in_map_iff in Hx; destruct Hx as ((p & sg) & <- & Hx); cbn [fst]; [apply (A3 _ _ Hx)|apply (B3 _ _ Hx)]. }
    lia.
Qed.

(** validate_block never panics and never runs out of validators to ask *)
Theorem C40_no_panic : forall vals own slots keep ver sgn start l c s t,
  session_state vals own slots keep ver sgn start l c s -> 2 * total_weight vals < 2 ^ 64 -> 1 <= total_weight vals ->
  aget N.eqb t (vs_ths s) <> Some Panicked /\ forall b, ~ returned s t b VErrNoMore.
Proof.
  intros vals own slots keep ver sgn start l c s t (Nd & New & Run) W W1.
  pose proof (new_ok _ _ _ _ _ _ _ Nd New) as CK. specialize (CK ltac:(change u64_mod with (2 ^ 64); lia)).
  destruct (reach_good c CK start l s Run) as [I2 _]. split.
  - intros G. exact (i_th _ _ (proj1 I2) _ _ G).
  - intros b G. pose proof (i_th _ _ (proj1 I2) _ _ G) as H. cbn [th_ok] in H. rewrite (new_thr _ _ _ _ _ _ _ Nd New W) in H.
    rewrite (lsum_perm _ _ _ (new_perm _ _ _ _ _ _ _ Nd New)) in H. rewrite (lsum_ext (wta c) (weight_of vals)) in H by (intros; apply (new_wta _ _ _ _ _ _ _ Nd New)).
    rewrite weight_sum_keys in H by auto. pose proof (thr_le _ W1). lia.
Qed.

(** Concrete case: three validators of weight 1, node 1 completes with the signatures of 1, 2 (RPC) and 3
    (fetched), after rejecting an invalid one. *)
Definition ex_ver (p : N) (d : N * N) (sg : N) : bool := sg =? 1000 * p + 10 * fst d + snd d.
Definition ex_sgn (p : N) (d : N * N) : N := 1000 * p + 10 * fst d + snd d.
Definition ex_vals : list (N * N) := [(1, 1); (2, 1); (3, 1)].
Definition ex_blk : vblock := VB 5 7 8.
Definition runs (t : N) (n : nat) : list vlabel := repeat (LRun t) n.
Definition ex_cfg : vcfg := VC [(2, 1); (3, 1)] 1 1 3 2 0 ex_ver (ex_sgn 1).
(* thread 2: validate_block; 5, 6: its fetching tasks for peers 2, 3; 7, 8: RPCs of peer 2 (first an invalid signature) *)
Definition ex_run : list vlabel :=
  [LValidate ex_blk] ++ runs 2 19 ++ [LExchange 2 5 99] ++ runs 7 4 ++ [LExchange 2 5 2078] ++ runs 8 7 ++
  runs 5 3 ++ [LTake 2 5] ++ runs 6 1 ++ [LNet 6 3078] ++ runs 6 4 ++ [LTake 2 6] ++ runs 2 1.
Theorem C40_nonvacuous : exists s, session_state ex_vals 1 2 0 ex_ver (ex_sgn 1) 5 ex_run ex_cfg s /\ 2 * total_weight ex_vals < 2 ^ 64 /\
  (forall d, ex_ver 1 d (ex_sgn 1 d) = true) /\ returned s 2 ex_blk (VComplete [(1, 1078); (2, 2078); (3, 3078)] 3) /\ answered s 7 2 5 (XErr EInvalid).
Proof.
  destruct (vrun ex_cfg (vinit ex_cfg 5) ex_run) as [s|] eqn:E; [|exfalso; vm_compute in E; discriminate E].
  exists s. split; [split; [|split; [reflexivity|exact E]]; repeat constructor; cbn; intuition discriminate|]. split; [reflexivity|]. split; [intros d; unfold ex_ver, ex_sgn; apply N.eqb_refl|].
  assert (Es : option_map (fun s => (aget N.eqb 2 (vs_ths s), aget N.eqb 7 (vs_ths s))) (vrun ex_cfg (vinit ex_cfg 5) ex_run)
               = Some (Some (VRet ex_blk (VComplete [(1, 1078); (2, 2078); (3, 3078)] 3)), Some (XRet 2 5 (XErr EInvalid)))) by (vm_compute; reflexivity).
  rewrite E in Es. cbn [option_map] in Es. injection Es as E1 E2. split; [exact E1|exact E2].
Qed.

(** Finding: if twice the total weight does not fit u64, the saturated product yields a threshold below two
    thirds: two nodes then complete validation of different blocks of one seqno each with its own signature
    only, and no validator signed both. *)
Definition big_vals : list (N * N) := [(1, 2 ^ 63 - 1); (2, 2 ^ 63)].
Definition big_cfg1 : vcfg := VC [(2, 2 ^ 63)] 1 (2 ^ 63 - 1) 6148914691236517206 1 0 ex_ver (ex_sgn 1).
Definition big_cfg2 : vcfg := VC [(1, 2 ^ 63 - 1)] 2 (2 ^ 63) 6148914691236517206 1 0 ex_ver (ex_sgn 2).
Theorem C40_huge_weights_refuted : exists s1 s2 l1 l2,
  total_weight big_vals < 2 ^ 64 /\
  session_state big_vals 1 1 0 ex_ver (ex_sgn 1) 5 l1 big_cfg1 s1 /\ session_state big_vals 2 1 0 ex_ver (ex_sgn 2) 5 l2 big_cfg2 s2 /\
  returned s1 1 (VB 5 7 8) (VComplete [(1, 1078)] (2 ^ 63 - 1)) /\ returned s2 1 (VB 5 9 9) (VComplete [(2, 2099)] (2 ^ 63)).
Proof.
  set (l1 := [LValidate (VB 5 7 8)] ++ runs 1 16). set (l2 := [LValidate (VB 5 9 9)] ++ runs 1 16).
  destruct (vrun big_cfg1 (vinit big_cfg1 5) l1) as [s1|] eqn:E1; [|exfalso; vm_compute in E1; discriminate E1].
  destruct (vrun big_cfg2 (vinit big_cfg2 5) l2) as [s2|] eqn:E2; [|exfalso; vm_compute in E2; discriminate E2].
  exists s1, s2, l1, l2. split; [reflexivity|]. split; [split; [|split; [reflexivity|exact E1]]; repeat constructor; cbn; intuition discriminate|].
  split; [split; [|split; [reflexivity|exact E2]]; repeat constructor; cbn; intuition discriminate|]. split.
  - assert (Es : option_map (fun s => aget N.eqb 1 (vs_ths s)) (vrun big_cfg1 (vinit big_cfg1 5) l1) = Some (Some (VRet (VB 5 7 8) (VComplete [(1, 1078)] (2 ^ 63 - 1))))) by (vm_compute; reflexivity).
    rewrite E1 in Es. injection Es as Es. exact Es.
  - assert (Es : option_map (fun s => aget N.eqb 1 (vs_ths s)) (vrun big_cfg2 (vinit big_cfg2 5) l2) = Some (Some (VRet (VB 5 9 9) (VComplete [(2, 2099)] (2 ^ 63))))) by (vm_compute; reflexivity).
    rewrite E2 in Es. injection Es as Es. exact Es.
Qed.
