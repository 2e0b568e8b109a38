(** Concrete runs of the blocks cache: the hypotheses of the theorems are met, and the behaviours
    recorded as findings happen. *)
From Verif Require Export BcFunds.
From Coq Require Import ZArith Lia.

Definition wf_opb (o : op) : bool :=
  match o with
  | OReceived r => negb (is_mc (b_shard (r_id r))) || (r_ref r =? b_seqno (r_id r))
  | _ => true
  end.
Lemma wf_opb_ok o : wf_opb o = true -> wf_op o.
Proof.
  destruct o; cbn; try exact (fun _ => I). intros H Hm. rewrite Hm in H. now apply N.eqb_eq.
Qed.
Fixpoint run (h : list (op * outcome)) (k : cache) (l : list op) : list (op * outcome) * cache :=
  match l with
  | [] => (h, k)
  | o :: l => let r := exec k o in run ((o, snd r) :: h) (fst r) l
  end.
Lemma run_hist zs l : forall h k, hist zs h k -> forallb wf_opb l = true ->
  hist zs (fst (run h k l)) (snd (run h k l)).
Proof.
  induction l as [|o l IH]; intros h k H Hl; [exact H|]. cbn [forallb] in Hl.
  apply andb_true_iff in Hl as [H1 H2]. cbn [run]. cbn zeta.
  apply IH; [|exact H2]. apply hist_step; [exact H|]. now apply wf_opb_ok.
Qed.

Definition keepsb (h : list (op * outcome)) (k : cache) (o : op) : bool :=
  match o with
  | OSetGc keys => forallb (fun key => negb (is_mc (fst key)) ||
      (match known_height k 0 with Some y => snd key <=? y | None => false end &&
       forallb (fun p => snd key <=? p) (pending h))) keys
  | ORemoveNext keys => forallb (fun key => negb (is_mc (fst key)) ||
      forallb (fun p => (p <=? snd key) ||
        match block_at k 0 p with Some e => is_received e | None => true end) (pending h)) keys
  | _ => true
  end.
Lemma keepsb_ok h k o : keepsb h k o = true -> keeps_waiting h k o.
Proof.
  destruct o; cbn [keepsb keeps_waiting]; try exact (fun _ => I); intros H.
  - intros n Hn. rewrite forallb_forall in H. specialize (H _ Hn). cbn [fst snd is_mc N.eqb negb orb] in H.
    apply andb_true_iff in H as [H1 H2]. split.
    + destruct (known_height k 0) as [y|] eqn:E; [|discriminate]. exists y. split; [exact E|]. now apply N.leb_le.
    + rewrite forallb_forall in H2. intros p Hp. apply N.leb_le. now apply H2.
  - intros n p e Hn Hp L E. rewrite forallb_forall in H. specialize (H _ Hn).
    cbn [fst snd is_mc N.eqb negb orb] in H. rewrite forallb_forall in H. specialize (H _ Hp).
    rewrite E in H. destruct (N.leb_spec p n) as [Q|Q]; [lia|exact H].
Qed.
Fixpoint orun (h : list (op * outcome)) (k : cache) (l : list op) : option (list (op * outcome) * cache) :=
  match l with
  | [] => Some (h, k)
  | o :: l => if wf_opb o && keepsb h k o
              then let r := exec k o in orun ((o, snd r) :: h) (fst r) l else None
  end.
Lemma orun_orderly zs l : forall h k h' k', orderly zs h k -> orun h k l = Some (h', k') -> orderly zs h' k'.
Proof.
  induction l as [|o l IH]; intros h k h' k' H E; [now injection E as <- <-|]. cbn [orun] in E.
  destruct (wf_opb o && keepsb h k o) eqn:C; [|discriminate]. apply andb_true_iff in C as [C1 C2].
  cbn zeta in E. refine (IH _ _ _ _ _ E). apply orderly_step; [exact H|now apply wf_opb_ok|now apply keepsb_ok].
Qed.

Definition mc (n h : N) : bid := mkbid 0 n h.
Definition sh (n h : N) : bid := mkbid 1 n h.
Definition tp (b : bid) (r : N) : top := mktop b r true.

(** Own and received blocks of masters 10 to 12 with their shard blocks. *)
Definition calls : list op :=
  [ OCollated (mkcand (sh 20 1) [sh 19 1] 11 7 (3, 1)) [] None;
    OCollated (mkcand (sh 21 1) [sh 20 1] 11 8 (4, 2)) [] None;
    OTops 11;
    OCollated (mkcand (mc 11 1) [mc 10 1] 11 0 (0, 0)) [tp (sh 21 1) 11] (Some 5);
    OReceived (mkrecv (sh 20 1) [sh 19 1] [] 0 11);
    OReceived (mkrecv (sh 21 1) [sh 20 1] [] 0 11);
    OReceived (mkrecv (mc 11 1) [mc 10 1] [tp (sh 21 1) 11] 5 11);
    OReceived (mkrecv (sh 22 1) [sh 21 1] [] 0 12);
    OReceived (mkrecv (mc 12 9) [mc 11 1] [tp (sh 22 1) 12] 6 12) ].
Definition ex1 := Eval vm_compute in orun [] (new_cache 0) calls.
Definition ex1_h := Eval vm_compute in match ex1 with Some (h, _) => h | None => [] end.
Definition ex1_k := Eval vm_compute in match ex1 with Some (_, k) => k | None => new_cache 0 end.
Lemma ex1_orderly : orderly 0 ex1_h ex1_k.
Proof.
  apply (orun_orderly 0 calls [] (new_cache 0)); [constructor|]. vm_compute. reflexivity.
Qed.
Lemma ex1_facts : waiting ex1_k = Some (11, 12) /\ pending ex1_h = [12; 11] /\
  contiguous (accepted 0 ex1_h) /\ own_last ex1_k = Some (mc 11 1).
Proof.
  split; [reflexivity|]. split; [reflexivity|]. split; [|reflexivity].
  vm_compute. split; [reflexivity|]. split; exact I.
Qed.
(** the fees of both shard blocks were reported with the second one *)
Lemma ex1_tops : In (OTops 11, RTops [(sh 21 1, 8, (4, 2), (7, 3))]) ex1_h.
Proof. vm_compute. right. right. right. right. right. right. left. reflexivity. Qed.
(** taking out from the start of the range gives the block 11 with its shard blocks in order *)
Definition ex1_pop := Eval vm_compute in snd (exec ex1_k (OPop 11)).
Definition ex1_m := Eval vm_compute in match ex1_pop with RGraph m _ _ => m | _ => from_received (mkrecv (mc 0 0) [] [] 0 0) end.
Definition ex1_shs := Eval vm_compute in match ex1_pop with RGraph _ l _ => l | _ => [] end.
Lemma ex1_pop_eq : snd (exec ex1_k (OPop 11)) = RGraph ex1_m ex1_shs false.
Proof. vm_compute. reflexivity. Qed.
Lemma ex1_taken : e_id ex1_m = mc 11 1 /\ map e_id ex1_shs = [sh 20 1; sh 21 1].
Proof. split; reflexivity. Qed.
Lemma ex1_one_successor : one_successor ex1_k ex1_m.
Proof.
  destruct (taken_exactly 0 ex1_h ex1_k (OPop 11) ex1_m ex1_shs false
    (orderly_hist _ _ _ ex1_orderly) ex1_pop_eq) as (_ & HB & _).
  split.
  - intros e1 e2 p1 p2 B1 B2 I1 I2 Q. apply HB in B1. apply HB in B2.
    unfold ex1_shs in B1, B2. cbn [In] in B1, B2.
    destruct B1 as [<-|[<-|[]]], B2 as [<-|[<-|[]]]; try reflexivity; cbn [e_prevs In] in I1, I2;
      destruct I1 as [<-|[]], I2 as [<-|[]]; vm_compute in Q; discriminate.
  - intros e t p B1 I1 It _ Q. apply HB in B1. unfold ex1_shs in B1. cbn [In] in B1.
    unfold ex1_m in It. cbn [e_tops In] in It. destruct It as [<-|[]].
    destruct B1 as [<-|[<-|[]]]; cbn [e_prevs In] in I1; destruct I1 as [<-|[]]; vm_compute in Q; discriminate.
Qed.

(** Finding: own candidates above a given height are removed even when they are on chain and
    waiting; the range still names them, and taking them out fails. *)
Definition ex2_h := Eval vm_compute in fst (run [] (new_cache 0) (calls ++ [ORemoveNext [(0, 10)]])).
Definition ex2_k := Eval vm_compute in snd (run [] (new_cache 0) (calls ++ [ORemoveNext [(0, 10)]])).
Lemma ex2_hist : hist 0 ex2_h ex2_k.
Proof.
  pose proof (run_hist 0 (calls ++ [ORemoveNext [(0, 10)]]) [] (new_cache 0) (hist_new 0)) as H.
  assert (Q : run [] (new_cache 0) (calls ++ [ORemoveNext [(0, 10)]]) = (ex2_h, ex2_k)) by (vm_compute; reflexivity).
  rewrite Q in H. apply H. vm_compute. reflexivity.
Qed.
Theorem waiting_block_lost : exists zs h k, hist zs h k /\ waiting k = Some (11, 12) /\
  In 11 (pending h) /\ block_at k 0 11 = None.
Proof.
  exists 0, ex2_h, ex2_k. split; [exact ex2_hist|]. split; [reflexivity|].
  split; [vm_compute; auto|reflexivity].
Qed.

(** Finding: a validation result is matched by height only. The result for the candidate A of
    height 11 arrives after A was removed from the cache, and marks the new candidate B of that
    height. Here B is handed over with the signatures of A. *)
Definition calls3 : list op :=
  [ OCollated (mkcand (mc 11 1) [mc 10 1] 11 0 (0, 0)) [] (Some 5);
    ORemoveNext [(0, 10)];
    OCollated (mkcand (mc 11 2) [mc 10 1] 11 0 (0, 0)) [] (Some 5);
    OValidated (mc 11 1) (Some 777) ].
Definition ex3_h := Eval vm_compute in fst (run [] (new_cache 0) calls3).
Definition ex3_k := Eval vm_compute in snd (run [] (new_cache 0) calls3).
Lemma ex3_hist : hist 0 ex3_h ex3_k.
Proof.
  pose proof (run_hist 0 calls3 [] (new_cache 0) (hist_new 0)) as H.
  assert (Q : run [] (new_cache 0) calls3 = (ex3_h, ex3_k)) by (vm_compute; reflexivity).
  rewrite Q in H. apply H. vm_compute. reflexivity.
Qed.
Theorem foreign_signatures : exists zs h k c sg, hist zs h k /\
  fst (fst (snd (commit_valid k (mc 11 1) None))) = [(c, sg)] /\
  c_id c = mc 11 2 /\ (forall x, ~ In (OValidated (mc 11 2) (Some sg), x) h).
Proof.
  exists 0, ex3_h, ex3_k, (mkcand (mc 11 2) [mc 10 1] 11 0 (0, 0)), 777.
  split; [exact ex3_hist|]. split; [vm_compute; reflexivity|]. split; [reflexivity|].
  intros x Hin. unfold ex3_h in Hin. cbn [In] in Hin.
  destruct Hin as [Q|[Q|[Q|[Q|[]]]]]; apply (f_equal fst) in Q; cbn [fst] in Q; try discriminate.
Qed.

(** Finding: with a shard split below one master block (here the blocks C1..C4 of two shards after
    the block P of the parent) the list of shard blocks can have a block before its
    predecessor. *)
Definition P := mkbid 1 20 0. Definition C1 := mkbid 2 21 0. Definition C2 := mkbid 2 22 0.
Definition C3 := mkbid 2 23 0. Definition C4 := mkbid 3 21 0.
Definition calls4 : list op :=
  [ OReceived (mkrecv P [mkbid 1 19 0] [] 0 11);
    OReceived (mkrecv C1 [P] [] 0 11);
    OReceived (mkrecv C2 [C1] [] 0 11);
    OReceived (mkrecv C3 [C2] [] 0 11);
    OReceived (mkrecv C4 [P] [] 0 11);
    OReceived (mkrecv (mc 11 1) [mc 10 1] [tp C3 11; tp C4 11] 5 11) ].
Definition ex4_h := Eval vm_compute in fst (run [] (new_cache 0) calls4).
Definition ex4_k := Eval vm_compute in snd (run [] (new_cache 0) calls4).
Lemma ex4_hist : hist 0 ex4_h ex4_k.
Proof.
  pose proof (run_hist 0 calls4 [] (new_cache 0) (hist_new 0)) as H.
  assert (Q : run [] (new_cache 0) calls4 = (ex4_h, ex4_k)) by (vm_compute; reflexivity).
  rewrite Q in H. apply H. vm_compute. reflexivity.
Qed.
Theorem split_breaks_order : exists zs h k m shs l, hist zs h k /\
  snd (exec k (OPop 11)) = RGraph m shs l /\
  exists a1 e a2 e2 a3 p, shs = a1 ++ e2 :: a2 ++ e :: a3 /\ In p (e_prevs e2) /\ key_of p = key_of (e_id e).
Proof.
  pose (out := snd (exec ex4_k (OPop 11))). vm_compute in out.
  match eval unfold out in out with
  | RGraph ?m ?shs ?l =>
      exists 0, ex4_h, ex4_k, m, shs, l;
      split; [exact ex4_hist|]; split; [vm_compute; reflexivity|]
  end.
  match goal with |- exists a1 e a2 e2 a3 p, ?a :: ?b :: ?c :: ?d :: ?f :: [] = _ /\ _ =>
    exists [], b, [], a, [c; d; f], P end.
  split; [reflexivity|]. split; [vm_compute; auto|reflexivity].
Qed.

(** Finding: a shard block held at a visited height that belongs to another master block leaves
    the cache without being returned. *)
Definition calls5 : list op :=
  [ OCollated (mkcand (sh 20 1) [sh 19 1] 11 7 (3, 1)) [] None;
    OReceived (mkrecv (mc 12 1) [mc 11 1] [tp (sh 20 2) 12] 5 12) ].
Definition ex5_h := Eval vm_compute in fst (run [] (new_cache 0) calls5).
Definition ex5_k := Eval vm_compute in snd (run [] (new_cache 0) calls5).
Lemma ex5_hist : hist 0 ex5_h ex5_k.
Proof.
  pose proof (run_hist 0 calls5 [] (new_cache 0) (hist_new 0)) as H.
  assert (Q : run [] (new_cache 0) calls5 = (ex5_h, ex5_k)) by (vm_compute; reflexivity).
  rewrite Q in H. apply H. vm_compute. reflexivity.
Qed.
Theorem stray_block_dropped : exists zs h k e, hist zs h k /\ block_at k 1 20 = Some e /\
  match snd (exec k (OPop 12)) with RGraph _ shs _ => shs = [] | _ => False end /\
  block_at (fst (exec k (OPop 12))) 1 20 = None.
Proof.
  exists 0, ex5_h, ex5_k. eexists. split; [exact ex5_hist|]. split; [vm_compute; reflexivity|].
  split; vm_compute; reflexivity.
Qed.

(** a history in which results only come for the held candidate, and the commit of the candidate
    with its shard blocks *)
Definition calls6 : list op :=
  [ OCollated (mkcand (sh 20 1) [sh 19 1] 11 7 (3, 1)) [] None;
    OCollated (mkcand (mc 11 1) [mc 10 1] 11 0 (0, 0)) [tp (sh 20 1) 11] (Some 5);
    OValidated (mc 11 1) (Some 777) ].
Definition k60 := new_cache 0.
Definition k61 := Eval vm_compute in fst (exec k60 (nth 0 calls6 OGc)).
Definition k62 := Eval vm_compute in fst (exec k61 (nth 1 calls6 OGc)).
Definition k63 := Eval vm_compute in fst (exec k62 (nth 2 calls6 OGc)).
Definition ex6_h := Eval vm_compute in fst (run [] (new_cache 0) calls6).
Lemma ex6_matched : matched 0 ex6_h k63.
Proof.
  assert (E1 : exec k60 (nth 0 calls6 OGc) = (k61, snd (exec k60 (nth 0 calls6 OGc)))) by (vm_compute; reflexivity).
  assert (E2 : exec k61 (nth 1 calls6 OGc) = (k62, snd (exec k61 (nth 1 calls6 OGc)))) by (vm_compute; reflexivity).
  assert (E3 : exec k62 (nth 2 calls6 OGc) = (k63, snd (exec k62 (nth 2 calls6 OGc)))) by (vm_compute; reflexivity).
  assert (M1 : matched 0 [(nth 0 calls6 OGc, snd (exec k60 (nth 0 calls6 OGc)))] k61).
  { replace k61 with (fst (exec k60 (nth 0 calls6 OGc))) by now rewrite E1.
    apply matched_step; [constructor|exact I|]. intros id v e Q. discriminate. }
  assert (M2 : matched 0 ((nth 1 calls6 OGc, snd (exec k61 (nth 1 calls6 OGc))) ::
     [(nth 0 calls6 OGc, snd (exec k60 (nth 0 calls6 OGc)))]) k62).
  { replace k62 with (fst (exec k61 (nth 1 calls6 OGc))) by now rewrite E2.
    apply matched_step; [exact M1|exact I|]. intros id v e Q. discriminate. }
  assert (M3 : matched 0 ((nth 2 calls6 OGc, snd (exec k62 (nth 2 calls6 OGc))) ::
     (nth 1 calls6 OGc, snd (exec k61 (nth 1 calls6 OGc))) ::
     [(nth 0 calls6 OGc, snd (exec k60 (nth 0 calls6 OGc)))]) k63).
  { replace k63 with (fst (exec k62 (nth 2 calls6 OGc))) at 1 by now rewrite E3.
    apply matched_step; [exact M2|exact I|]. intros id v e Q B. cbn [nth calls6] in Q.
    assert (Qi : id = mc 11 1) by congruence. subst id. vm_compute in B. injection B as <-. reflexivity. }
  assert (Q : ex6_h = (nth 2 calls6 OGc, snd (exec k62 (nth 2 calls6 OGc))) ::
     (nth 1 calls6 OGc, snd (exec k61 (nth 1 calls6 OGc))) ::
     [(nth 0 calls6 OGc, snd (exec k60 (nth 0 calls6 OGc)))]) by (vm_compute; reflexivity).
  rewrite Q. exact M3.
Qed.
Lemma ex6_commit : fst (fst (snd (commit_valid k63 (mc 11 1) None))) =
  [(mkcand (mc 11 1) [mc 10 1] 11 0 (0, 0), 777); (mkcand (sh 20 1) [sh 19 1] 11 7 (3, 1), 0)].
Proof. vm_compute. reflexivity. Qed.
