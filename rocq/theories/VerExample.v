(** A concrete run of the verifier: nine rounds of four peers after the genesis, with an invalid point in round 7, an
    anchor proof in round 10, a sticky anchor in round 11 and a trigger in round 12. It meets the hypotheses of the
    theorems about histories. *)
From Verif Require Import VerModel VerSpec VerCheck VerBasic VerProper VerHist VerThms VerTrans VerChain VerOrder.
Local Open Scope N_scope.

Definition xc : vconf := mkConf 4 5000 3 2 1000.
Definition xpeers (r : round) : list peer := if r =? 4 then [0] else [1; 2; 3; 4].
Definition xldr : info -> bool := is_leader xc xpeers xpeers (fun _ _ => 0%nat).
Definition dg (r : round) (p : peer) : digest := 100 * r + p.
Definition xid r p := mkPid r (dg r p) p.
Definition via2 := mkIL (xid 4 0) (ThInc 2).
Definition xrole (r : round) (p : peer) : prole :=
  if r =? 4 then Genesis
  else if r =? 5 then Regular (LDirect (ThInc 0)) (LDirect (ThInc 0))
  else if r <=? 9 then Regular (LIndirect via2) (LIndirect via2)
  else if r =? 10 then (if p =? 1 then AnchorProof via2 (LIndirect via2) else Regular (LIndirect via2) (LIndirect via2))
  else if r =? 11 then (if p =? 1 then Sticky 0 else Regular (LDirect (ThInc 1)) (LIndirect via2))
  else if r =? 12 then (if p =? 1 then AnchorTrigger else Regular (LDirect (ThInc 1)) (LDirect (ThInc 1)))
  else Regular (LIndirect (mkIL (xid 11 1) (ThInc 1))) (LDirect (ThInc 1)).
Definition xtime (r : round) (p : peer) : N := if (r =? 7) && (p =? 4) then 5500 else 1000 * r.
(* the time of the candidate of the anchor proof *)
Definition xatime (r : round) (p : peer) : N :=
  if r <=? 9 then 4000
  else if r =? 10 then (if p =? 1 then 9000 else 4000)
  else if r =? 11 then (if p =? 1 then 10000 else 9000)
  else 10000.
Definition xinfo (r : round) (p : peer) : info :=
  mkInfo (xid r p)
    (if r =? 4 then [] else if r =? 5 then [(0, dg 4 0)] else map (fun q => (q, dg (r - 1) q)) [1; 2; 3; 4])
    (if (r =? 9) && (p =? 2) then [(3, dg 7 3)] else [])
    (if r <=? 5 then [] else map (fun q => (q, 7)) (filter (fun q => negb (q =? p)) [1; 2; 3; 4]))
    (xrole r p) (xtime r p) (xatime r p) 0 10.

(* an executor of [h_check] steps whose reads are the point's dependencies in order *)
Definition idx (r : round) (p : peer) : nat := if r =? 4 then 0%nat else N.to_nat (1 + (r - 5) * 4 + (p - 1)).
Definition read (h : list entry) (i : info) (id : pid) : option (nat * dagpoint) :=
  match nth_error h (idx (p_round id) (p_author id)) with
  | Some e => Some (idx (p_round id) (p_author id), mkDp (e_v e) ((p_author id =? i_author i) && (p_round id =? i_round i - 1)) true)
  | None => None
  end.
Fixpoint reads (h : list entry) (i : info) (l : list pid) : option (list (nat * dagpoint)) :=
  match l with
  | [] => Some []
  | p :: r => match read h i p, reads h i r with Some a, Some b => Some (a :: b) | _, _ => None end
  end.
Fixpoint lreads (h : list entry) (i : info) (l : list ilink) : option (list (nat * dagpoint * through)) :=
  match l with
  | [] => Some []
  | p :: r => match read h i (il_to p), lreads h i r with Some a, Some b => Some ((a, il_path p) :: b) | _, _ => None end
  end.
Fixpoint pids_eqb (a b : list pid) : bool :=
  match a, b with [], [] => true | x :: a', y :: b' => pid_eqb x y && pids_eqb a' b' | _, _ => false end.
Lemma pids_eqb_eq a b : pids_eqb a b = true -> a = b.
Proof.
  revert b. induction a as [|x a IH]; intros [|y b] E; cbn in E; try discriminate; [reflexivity|].
  apply andb_true_iff in E. destruct E as [E1 E2]. apply eqb_pid_true in E1. rewrite (IH _ E2). congruence.
Qed.
Fixpoint nodupb (l : list N) : bool := match l with [] => true | x :: r => negb (existsb (N.eqb x) r) && nodupb r end.
Lemma nodupb_ok l : nodupb l = true -> NoDup l.
Proof.
  induction l as [|x l IH]; cbn; intros E; constructor; apply andb_true_iff in E; destruct E as [E1 E2]; [|auto].
  intros I. apply negb_true_iff in E1. assert (existsb (N.eqb x) l = true) by (apply existsb_exists; exists x; split; [exact I|apply N.eqb_refl]). congruence.
Qed.
Definition okb (i : info) : bool :=
  nodupb (akeys (i_includes i)) && nodupb (akeys (i_witness i)) && nodupb (akeys (i_evidence i)) &&
  (i_round i <=? u32_max) && (i_time i <=? u64_max).
Definition xstep (h : list entry) (i : info) : option (list entry) :=
  match reads h i (inc_ids i ++ wit_ids i), lreads h i (ind_links i) with
  | Some ds, Some ls =>
    if okb i && pids_eqb (map (fun r => d_id (snd r)) ds) (inc_ids i ++ wit_ids i)
       && pids_eqb (map (fun r => d_id (snd (fst r))) ls) (map il_to (ind_links i)) then
    match basic_verify xc xpeers i with
    | VOk => match validate xc (xldr i) i true true true (map (fun r => Some (snd r)) ds) (map (fun r => (snd (fst r), snd r)) ls) with
             | Some res => Some (h ++ [mkEntry (verdict_of i res) ds (map fst ls)])
             | None => None
             end
    | _ => None
    end else None
  | _, _ => None
  end.
Lemma read_sees h i p a : read h i p = Some a -> sees h a.
Proof.
  unfold read. destruct (nth_error h _) as [e|] eqn:E; intros Q; [|discriminate]. inversion Q; subst. exists e. cbn. auto.
Qed.
Lemma reads_sees h i l ds : reads h i l = Some ds -> Forall (sees h) ds.
Proof.
  revert ds. induction l as [|p l IH]; cbn; intros ds E; [inversion E; constructor|].
  destruct (read h i p) as [a|] eqn:A; [|discriminate]. destruct (reads h i l) as [b|]; [|discriminate]. inversion E; subst.
  constructor; [eapply read_sees; eauto|]. apply IH. reflexivity.
Qed.
Lemma reads_cert h i l ds : reads h i l = Some ds -> forall r, In r ds -> p_author (d_id (snd r)) = i_author i ->
  p_round (d_id (snd r)) = i_round i - 1 -> map (fun r => d_id (snd r)) ds = l -> d_cert (snd r) = true.
Proof.
  revert ds. induction l as [|p l IH]; cbn; intros ds E r I A R M; [inversion E; subst; destruct I|].
  destruct (read h i p) as [a|] eqn:RA; [|discriminate]. destruct (reads h i l) as [b|] eqn:RB; [|discriminate]. inversion E; subst ds.
  cbn [map] in M. inversion M as [[M1 M2]]. destruct I as [<-|I]; [|eapply IH; eauto; congruence].
  unfold read in RA. destruct (nth_error h _) as [e|]; [|discriminate]. inversion RA as [Q]. subst a. cbn [snd] in *. cbn [d_cert].
  rewrite M1 in A, R. rewrite A, R, !N.eqb_refl. reflexivity.
Qed.
Lemma lreads_ok h i l ls : lreads h i l = Some ls -> Forall (fun r => sees h (fst r)) ls /\ map snd ls = map il_path l.
Proof.
  revert ls. induction l as [|p l IH]; cbn; intros ls E; [inversion E; split; [constructor|reflexivity]|].
  destruct (read h i (il_to p)) as [a|] eqn:A; [|discriminate]. destruct (lreads h i l) as [b|]; [|discriminate]. inversion E; subst.
  destruct (IH b eq_refl) as [F M]. split; [constructor; [eapply read_sees; exact A|exact F]|]. cbn. f_equal. exact M.
Qed.
Lemma xstep_sound h i h' : xstep h i = Some h' -> hstep xc xpeers xldr h h'.
Proof.
  unfold xstep. destruct (reads h i (inc_ids i ++ wit_ids i)) as [ds|] eqn:RD; [|discriminate].
  destruct (lreads h i (ind_links i)) as [ls|] eqn:RL; [|discriminate].
  destruct (okb i && _ && _) eqn:B; [|discriminate].
  destruct (basic_verify xc xpeers i) eqn:V; try discriminate.
  destruct (validate _ _ _ _ _ _ _ _) as [res|] eqn:VA; [|discriminate]. intros E. inversion E; subst.
  apply andb_true_iff in B. destruct B as [B B3]. apply andb_true_iff in B. destruct B as [B1 B2].
  apply pids_eqb_eq in B2, B3. unfold okb in B1. rewrite !andb_true_iff in B1. destruct B1 as ((((N1 & N2) & N3) & N4) & N5).
  eapply h_check; [| exact V | | | exact VA].
  - repeat split; try (apply nodupb_ok; assumption); apply N.leb_le; assumption.
  - constructor.
    + eapply reads_sees; eauto.
    + exists []. split; [constructor|]. rewrite app_nil_r, B2. apply Permutation_refl.
    + intros r I P. unfold prev_id in P. destruct (prev_digest i) as [d|]; [|discriminate]. inversion P as [Q].
      eapply reads_cert; eauto; rewrite <- Q; reflexivity.
  - destruct (lreads_ok _ _ _ _ RL) as [F M]. clear - F M B3. unfold inds_ok. revert ls F M B3.
    assert (G : forall l ls, Forall (fun r => sees h (fst r)) ls -> map snd ls = map il_path l ->
      map (fun r : nat * dagpoint * through => d_id (snd (fst r))) ls = map il_to l ->
      Forall (fun r => sees h (fst r) /\ (exists x, In x l /\ d_id (snd (fst r)) = il_to x /\ snd r = il_path x)) ls).
    { induction l as [|x l IH]; intros [|r ls] F M B; cbn in *; try discriminate; [constructor|].
      inversion F; subst. inversion M as [[M1 M2]]. inversion B as [[B1 B2]]. constructor.
      - split; [assumption|]. exists x. auto.
      - eapply Forall_impl; [|apply IH; assumption]. intros r' (S & y & Iy & Y). split; [exact S|]. exists y. auto. }
    intros ls F M B. apply G; assumption.
Qed.
Fixpoint xrun (l : list info) (h : list entry) : option (list entry) :=
  match l with [] => Some h | i :: r => match xstep h i with Some h' => xrun r h' | None => None end end.
Lemma xrun_sound l : forall h h', xrun l h = Some h' -> hist xc xpeers xldr h -> hist xc xpeers xldr h'.
Proof.
  induction l as [|i l IH]; cbn; intros h h' E H; [inversion E; subst; exact H|].
  destruct (xstep h i) as [h1|] eqn:S; [|discriminate]. eapply IH; [exact E|]. eapply hist_step; [exact H|]. exact (xstep_sound h i h1 S).
Qed.
Definition xpoints : list info :=
  xinfo 4 0 :: flat_map (fun r => map (xinfo r) [1; 2; 3; 4]) [5; 6; 7; 8; 9; 10; 11; 12; 13].
Definition xh : list entry := Eval vm_compute in match xrun xpoints [] with Some h => h | None => [] end.
Lemma xh_run : xrun xpoints [] = Some xh.
Proof. vm_compute. reflexivity. Qed.
Theorem xh_hist : hist xc xpeers xldr xh.
Proof. apply (xrun_sound xpoints [] xh xh_run). constructor. Qed.
Definition vclass (v : verdict) : N := match v with VdValid _ => 0 | VdTrans _ _ => 1 | VdInvalid _ _ => 2 | VdIll _ _ => 3 | VdNotFound _ => 4 end.
Lemma xh_classes : map (fun e => vclass (e_v e)) xh =
  [0; 0;0;0;0; 0;0;0;0; 0;0;0;2; 1;1;1;0; 1;1;1;1; 1;1;1;1; 0;0;0;0; 0;0;0;0; 0;0;0;0].
Proof. vm_compute. reflexivity. Qed.
Ltac look := eexists; split; [vm_compute; reflexivity|vm_compute; reflexivity].
(* the last points are valid, whatever the invalid one of round 7 was *)
Example x_valid : judged xh 34 (VdValid (xinfo 13 2)).
Proof. look. Qed.
Example x_invalid : judged xh 12 (VdInvalid (xinfo 7 4) (RTimeNotGreater (xid 6 4))).
Proof. look. Qed.
Definition xroot (r : round) (p : peer) : invdep :=
  match nth_error xh (idx r p) with Some e => match e_v e with VdTrans _ w => w | _ => mkInv via2 RDependencyRoundDropped end | None => mkInv via2 RDependencyRoundDropped end.
Example x_trans : judged xh 17 (VdTrans (xinfo 9 1) (xroot 9 1)) /\ p_round (il_to (v_link (xroot 9 1))) = 7.
Proof. split; [look|vm_compute; reflexivity]. Qed.
Lemma dep_read_by h a b cert e i dp k : nth_error h a = Some e -> info_of (e_v e) = Some i ->
  nth_error (e_deps e) k = Some (b, dp) -> existsb (pid_eqb (d_id dp)) (dep_ids i) = true -> d_cert dp = cert ->
  dep_read h a b cert.
Proof.
  intros E I K X C. exists e, i, dp. split; [exact E|]. split; [exact I|]. split; [eapply nth_error_In; exact K|].
  split; [|exact C]. apply existsb_exists in X. destruct X as (p & J & Q). apply eqb_pid_true in Q. rewrite Q. exact J.
Qed.
Example x_path : uncertified_path xh 17 12.
Proof.
  apply (up_cons xh 17 14 12).
  - eapply (dep_read_by xh 17 14 false _ _ _ 1); vm_compute; reflexivity.
  - apply up_one. eapply (dep_read_by xh 14 12 false _ _ _ 3); vm_compute; reflexivity.
Qed.
(* so the theorems apply *)
Theorem x_taints : exists root, VdTrans (xinfo 9 1) (xroot 9 1) = VdTrans (xinfo 9 1) root /\ 7 <= p_round (il_to (v_link root)).
Proof.
  apply (invalid_taints xc xpeers xldr xh 17 12 xh_hist x_path _ _ (xinfo 7 4) (RTimeNotGreater (xid 6 4)) (proj1 x_trans)); [right; eauto|exact x_invalid|].
  vm_compute. discriminate.
Qed.
Theorem x_far : uncertified_path xh 34 12 /\ i_round (xinfo 7 4) + c_history xc < i_round (xinfo 13 2).
Proof.
  assert (U : uncertified_path xh 34 12).
  { apply (up_cons xh 34 29); [eapply (dep_read_by xh 34 29 false _ _ _ 0); vm_compute; reflexivity|].
    apply (up_cons xh 29 26); [eapply (dep_read_by xh 29 26 false _ _ _ 1); vm_compute; reflexivity|].
    apply (up_cons xh 26 21); [eapply (dep_read_by xh 26 21 false _ _ _ 0); vm_compute; reflexivity|].
    apply (up_cons xh 21 18); [eapply (dep_read_by xh 21 18 false _ _ _ 1); vm_compute; reflexivity|].
    apply (up_cons xh 18 13); [eapply (dep_read_by xh 18 13 false _ _ _ 0); vm_compute; reflexivity|].
    apply up_one. eapply (dep_read_by xh 13 12 false _ _ _ 3); vm_compute; reflexivity. }
  split; [exact U|]. exact (valid_is_clean xc xpeers xldr xh 34 12 _ _ _ xh_hist x_valid U x_invalid).
Qed.
Example x_proof : exists v, judged xh 21 v /\ passed v (xinfo 10 1) /\ indirect_proof (xinfo 10 1) = Some via2 /\ xldr (xinfo 10 1) = true.
Proof. exists (VdTrans (xinfo 10 1) (xroot 10 1)). split; [look|]. split; [right; eauto|]. split; vm_compute; reflexivity. Qed.
Example x_sticky : judged xh 25 (VdValid (xinfo 11 1)) /\ sticky_anchors (xinfo 11 1) = Some 0 /\ i_atime (xinfo 11 1) = i_time (xinfo 10 1).
Proof. split; [look|]. split; vm_compute; reflexivity. Qed.
Example x_trigger : judged xh 29 (VdValid (xinfo 12 1)) /\ i_role (xinfo 12 1) = AnchorTrigger.
Proof. split; [look|]. vm_compute; reflexivity. Qed.
Example x_inherited : inherited (xinfo 13 2) = Some (xid 11 1) /\ anchor_round STrigger (xinfo 13 2) = 12 /\
  dest STrigger (xinfo 13 2) = xid 12 1.
Proof. vm_compute. auto. Qed.
(* the anchors of the last points *)
Theorem x_anchor : exists z vz k, passed_path xh 34 z /\ judged xh z vz /\ info_of vz = Some k /\
  ((i_id k = xid 12 1 /\ anchor_trigger k = ToSelf /\ dest SProof k = xid 11 1) \/ exists reason, vz = VdInvalid k reason).
Proof.
  assert (NG : i_round (xinfo 13 2) <> c_genesis xc) by discriminate.
  destruct (trigger_of_proof xc xpeers xldr xh xh_hist 34 _ _ (xid 11 1) x_valid (or_introl eq_refl) NG (proj1 x_inherited) eq_refl)
    as (z & vz & k & A & B & C & _ & D).
  exists z, vz, k. split; [exact A|]. split; [exact B|]. split; [exact C|]. exact D.
Qed.
Theorem x_verified : basic_verify xc xpeers (xinfo 13 2) = VOk /\ basic_verify xc xpeers (xinfo 13 3) = VOk /\
  i_round (xinfo 13 2) = i_round (xinfo 13 3) /\ c_genesis xc + 1 < i_round (xinfo 13 2).
Proof. vm_compute. auto. Qed.
(* two versions of one point by one author: proved by intersecting sets of signers *)
Theorem x_equivocation : let i := xinfo 13 2 in
  let j := mkInfo (mkPid 13 77 2) (i_includes i) (i_witness i) [(1, 8); (3, 8); (4, 8)] (i_role i) 13001 (i_atime i) 0 5 in
  basic_verify xc xpeers j = VOk /\ i_author i = i_author j /\ i_id i <> i_id j.
Proof. vm_compute. split; [reflexivity|]. split; [reflexivity|discriminate]. Qed.
(* the reads in another order *)
Definition xds : list dagpoint := Eval vm_compute in
  match nth_error xh 17 with Some e => map snd (e_deps e) | None => [] end.
Theorem x_order : exists res res', validate xc (xldr (xinfo 9 1)) (xinfo 9 1) true true true (map Some xds) [] = Some res /\
  validate xc (xldr (xinfo 9 1)) (xinfo 9 1) true true true (map Some (rev xds)) [] = Some res' /\ res <> res' /\ same_result res res'.
Proof. do 2 eexists. split; [vm_compute; reflexivity|]. split; [vm_compute; reflexivity|]. split; [discriminate|]. vm_compute. auto. Qed.
(* one point, the same dependencies, but one node has also received another, ill-formed version of the author's previous
   point: the two nodes disagree about the point *)
Definition xds62 : list dagpoint := Eval vm_compute in match nth_error xh 6 with Some e => map snd (e_deps e) | None => [] end.
Definition xls62 : list (dagpoint * through) := Eval vm_compute in
  match nth_error xh 6 with Some e => map (fun r => (snd r, ThInc 2)) (e_inds e) | None => [] end.
Theorem other_version_matters :
  validate xc (xldr (xinfo 6 2)) (xinfo 6 2) true true true (map Some xds62) xls62 = Some RsValid /\
  validate xc (xldr (xinfo 6 2)) (xinfo 6 2) true true true
    (map Some (xds62 ++ [mkDp (VdIll (mkPid 5 999 2) IEvidenceSig) false false])) xls62
  = Some (RsInvalid (RMustHaveSkippedRound (mkPid 5 999 2))).
Proof. vm_compute. auto. Qed.
