(** * Block strider: the depth limit, and a concrete history. *)
From Coq Require Import List NArith Arith Lia Bool.
From Verif Require Import StriderModel StriderSpec StriderInv StriderStep StriderProps StriderOnce StriderLive.
Import ListNotations.
Open Scope N_scope.

(** [l] (oldest first) are 32 blocks of one shard that masterchain block [m] is
    the first to bring: 32 unprocessed blocks, none of them after a split/merge
    or part of the initial storage, and needed by no other masterchain block. *)
Record too_deep (c : scfg) (m : blk) (l : list blk) : Prop := {
  td_top : exists t, In t (c_tops c m) /\ stack c t l;
  td_len : length l = 32%nat;
  td_fresh : Forall (fresh c) l;
  td_head : forall b, In b l -> bi_split (c_info c b) = false /\ bi_merge (c_info c b) = false;
  td_only : forall m' t' b, m' <> m -> In t' (c_tops c m') -> In b l -> ~ needs c t' b }.

Lemma stack_app c t k r : stack c t (k ++ r) -> stack c t r.
Proof. induction k as [|x k IH]; cbn [app]; auto. intros H. apply IH. eapply stack_tl; eauto. Qed.

Lemma stack_shard c t l b : stack c t l -> In b l -> b_shard b = b_shard t.
Proof.
  revert b. induction l as [|x l IH]; intros b Hst Hb; [destruct Hb|].
  destruct l as [|y l].
  - cbn in Hst. subst x. destruct Hb as [->|[]]. reflexivity.
  - destruct Hst as [L Hst]. destruct Hb as [->|Hb]; [|apply IH; auto].
    destruct L as (_&_&L&_). rewrite L. apply IH; [exact Hst|left; reflexivity].
Qed.

Lemma last_case {A} (k : list A) : k = [] \/ exists k' y, k = k' ++ [y].
Proof.
  induction k as [|x k [->|(k'&y&->)]]; auto; right.
  - exists [], x. reflexivity.
  - exists (x :: k'), y. reflexivity.
Qed.

Definition dl_deep (l : list blk) (d : dl) : Prop :=
  d_done d = false /\ exists k, l = k ++ d_cur d :: d_acc d.

Section Deep.
Variable c : scfg.
Hypothesis W : wf_cfg c.
Variables (m : blk) (l : list blk).
Hypothesis D : too_deep c m l.

Definition ph4 (ph : phase) : Prop :=
  match ph with
  | PhDown x ds => x = m -> exists d, In d ds /\ dl_deep l d
  | PhProc x _ | PhMast x _ | PhClean x => x <> m
  | _ => True
  end.

Record inv4 (s : sst) : Prop := {
  i4_com : forall b, In b l -> ~ In (WShard b) (s_wal s);
  i4_hand : ~ In (EHand0 m m) (s_tr s);
  i4_com' : ~ In (WMaster m) (s_wal s);
  i4_ph : ph4 (s_ph s) }.

Lemma deep_iter w d ok : (forall b, In b l -> is_committed c w b = false) ->
  dd d -> dl_deep l d ->
  match dl_iter c w d ok with DFail => True | DStep _ d' => dl_deep l d' end.
Proof.
  intros Hc Hd (Ed&k&El). destruct (Hd Ed) as [H1 H2]. destruct D as [(t&Ht&Hst) Hlen Hfr Hh Ho].
  assert (Hin : In (d_cur d) l) by (rewrite El; apply in_or_app; right; left; reflexivity).
  unfold dl_iter. rewrite Forall_forall in Hfr. destruct (Hfr _ Hin) as [Hq _].
  rewrite (proj2 (N.ltb_lt _ _) Hq), (Hc _ Hin). cbn [andb negb].
  destruct ok; [|exact Logic.I]. destruct (Hh _ Hin) as [-> ->]. cbn [orb].
  destruct (bi_prev (c_info c (d_cur d))) as [q h|] eqn:Ep; [|exact Logic.I].
  destruct (max_depth <=? d_depth d + 1) eqn:L; [exact Logic.I|].
  apply N.leb_gt in L. unfold max_depth in L. split; [reflexivity|]. cbn [d_cur d_acc].
  destruct (last_case k) as [->|(k'&y&->)].
  - exfalso. rewrite El in Hlen. cbn in Hlen. lia.
  - exists k'. rewrite <- app_assoc in El. cbn in El.
    assert (S2 : stack c t (y :: d_cur d :: d_acc d)).
    { apply (stack_app c t k'). rewrite <- El. exact Hst. }
    destruct S2 as [(_&_&S3&S4) _]. rewrite Ep in S4. injection S4 as -> ->.
    rewrite <- S3. rewrite El. destruct y; reflexivity.
Qed.

Lemma deep_com s : inv c s -> (forall b, In b l -> ~ In (WShard b) (s_wal s)) ->
  forall b, In b l -> is_committed c (s_wal s) b = false.
Proof.
  intros _ H b Hb. destruct D as [(t&Ht&Hst) Hlen Hfr Hh Ho]. rewrite Forall_forall in Hfr.
  assert (Hs : b_shard b = b_shard t).
  { exact (stack_shard c t l b Hst Hb). }
  unfold is_committed. assert (M : is_mc b = false).
  { unfold is_mc. rewrite Hs. exact (tops_mc c m t W Ht). }
  rewrite M. destruct (Hfr b Hb) as [_ F]. rewrite F. cbn.
  apply not_true_iff_false. intros X. apply existsb_exists in X. destruct X as (x&Hx&Ex).
  destruct x; try discriminate. cbn in Ex. apply blk_eqb_spec in Ex. subst. exact (H _ Hb Hx).
Qed.

Lemma in_upd_dl i d d' ds x : nth_error ds i = Some d -> In x ds -> dl_deep l x ->
  (dl_deep l d -> dl_deep l d') -> exists y, In y (set_nth i d' ds) /\ dl_deep l y.
Proof.
  intros En Hx Hd Hk. revert i En. induction ds as [|z ds IH]; intros [|i] En; cbn in *; try discriminate.
  - injection En as ->. destruct Hx as [->|Hx].
    + exists d'. auto.
    + exists x. auto.
  - destruct Hx as [->|Hx].
    + exists x. auto.
    + destruct (IH Hx i En) as (y&Hy&Hd'). exists y. auto.
Qed.

Ltac k4 H := constructor; cbn;
  [let b0 := fresh in let Hb := fresh in intros b0 Hb; let X := fresh in assert (X := i4_com _ H b0 Hb); cbn in *; intuition congruence
  |assert (X := i4_hand _ H); cbn; intuition congruence
  |assert (X := i4_com' _ H); cbn; intuition congruence|].

Lemma deep_step s x s' : inv c s -> depth_ok s -> inv4 s -> sstep c s x = Some s' -> inv4 s'.
Proof.
  intros I0 D0 H E.
  assert (Dc := deep_com s I0 (i4_com s H)). assert (P := i4_ph s H). unfold depth_ok in D0.
  destruct x; cbn in E.
  - destruct (s_pf s); try discriminate. destruct (next_ok c p m0); [|discriminate]. injection E as <-. k4 H. exact P.
  - destruct (s_pf s); try discriminate. injection E as <-. k4 H. exact P.
  - destruct (s_pf s); try discriminate. injection E as <-. k4 H. exact P.
  - destruct (s_ph s); try discriminate. destruct (s_pf s) as [| q m1 | |]; try discriminate; [destruct ok| |]; injection E as <-;
      k4 H; auto. intros ->. destruct D as [(t&Ht&Hst) Hlen Hfr Hh Ho].
    exists (MkDl t [] 0 false). split; [apply in_map_iff; exists t; auto|].
    split; [reflexivity|]. cbn. destruct (last_case l) as [->|(k'&y&->)]; [discriminate|].
    exists k'. apply stack_app in Hst. cbn in Hst. subst. reflexivity.
  - destruct (s_ph s) as [|m0 ds| | | | |] eqn:Ph; try discriminate. destruct (nth_error ds i) as [d|] eqn:En; [|discriminate].
    destruct (d_done d) eqn:Ed; [discriminate|].
    assert (Dd : dd d) by (rewrite Forall_forall in D0; apply D0; eapply nth_error_In; eauto).
    assert (K := deep_iter (s_wal s) d ok Dc Dd).
    destruct (dl_iter c (s_wal s) d ok) as [|f d'].
    + injection E as <-. k4 H. exact Logic.I.
    + assert (G : ph4 (PhDown m0 (set_nth i d' ds))).
      { intros Em. destruct (P Em) as (x&Hx&Hdx). eapply in_upd_dl; eauto. }
      destruct f; injection E as <-; k4 H; exact G.
  - destruct (s_ph s) as [|m0 ds| | | | |] eqn:Ph; try discriminate. destruct (all_done_d ds) eqn:Ad; [|discriminate]. injection E as <-.
    k4 H. intros Em. destruct (P Em) as (x&Hx&(Ex&_)). unfold all_done_d in Ad. rewrite forallb_forall in Ad.
    specialize (Ad x Hx). congruence.
  - destruct (s_ph s) as [| |m0 ls| | | |] eqn:Ph; try discriminate. destruct (nth_error ls i) as [ln|]; [|discriminate].
    destruct (l_started ln); [discriminate|]. destruct (l_rest ln); cbn in E; injection E as <-; k4 H; exact P.
  - destruct (s_ph s) as [| |m0 ls| | | |] eqn:Ph; try discriminate. destruct (nth_error ls i) as [ln|]; [|discriminate].
    destruct (l_next ln) as [[b []]|]; try discriminate. destruct ok; injection E as <-; k4 H; exact P.
  - destruct (s_ph s) as [| |m0 ls| | | |] eqn:Ph; try discriminate. destruct (nth_error ls i) as [ln|]; [|discriminate].
    destruct (l_cur ln); [discriminate|]. destruct (l_next ln) as [[b []]|]; try discriminate;
    destruct (l_rest ln); cbn in E; injection E as <-; k4 H; first [exact P|exact Logic.I].
  - destruct (s_ph s) as [| |m0 ls| | | |] eqn:Ph; try discriminate. destruct (nth_error ls i) as [ln|]; [|discriminate].
    destruct (l_cur ln) as [[b []]|]; try discriminate. destruct ok; injection E as <-; k4 H; first [exact P|exact Logic.I].
  - destruct (s_ph s) as [| |m0 ls| | | |] eqn:Ph; try discriminate. destruct (nth_error ls i) as [ln|]; [|discriminate].
    destruct (l_cur ln) as [[b []]|]; try discriminate. injection E as <-; k4 H; exact P.
  - destruct (s_ph s) as [| |m0 ls| | | |] eqn:Ph; try discriminate. destruct (nth_error ls i) as [ln|]; [|discriminate].
    destruct (l_cur ln) as [[b []]|]; try discriminate. destruct ok; injection E as <-; k4 H; first [exact P|exact Logic.I].
  - destruct (s_ph s) as [| |m0 ls| | | |] eqn:Ph; try discriminate. destruct (nth_error ls i) as [ln|] eqn:En; [|discriminate].
    destruct (l_cur ln) as [[b []]|] eqn:Ec; try discriminate.
    destruct h; injection E as <-; [|k4 H; exact P]. constructor; cbn.
    + intros b0 Hb [Eb|Hw]; [|exact (i4_com s H b0 Hb Hw)]. injection Eb as ->.
      destruct I0 as [_ _ _ Ip]. unfold phase_inv in Ip. rewrite Ph in Ip. destruct Ip as [_ Hf].
      destruct (f2_nth _ _ _ _ _ Hf En) as (t&Ht&Hl). destruct Hl as [_ He _ _ _ _ _].
      rewrite Forall_forall in He. destruct (He b0 (cur_in_full _ _ _ Ec)) as [N _].
      exact (td_only c m l D m0 t b0 P Ht Hb N).
    + assert (X := i4_hand _ H). intuition congruence.
    + assert (X := i4_com' _ H). intuition congruence.
    + exact P.
  - destruct (s_ph s) as [| |m0 ls| | | |] eqn:Ph; try discriminate. destruct (forallb line_done ls); [|discriminate]. injection E as <-; k4 H; exact P.
  - destruct (s_mp s); try discriminate. destruct (s_ph s) eqn:Ph; try discriminate; destruct ok; injection E as <-; k4 H; rewrite ?Ph; exact P.
  - destruct (s_ph s) as [| | |m0 []| | |] eqn:Ph; try discriminate. cbn in P. destruct (s_mp s); try discriminate; injection E as <-; k4 H; auto.
  - destruct (s_ph s) as [| | |m0 []| | |] eqn:Ph; try discriminate. cbn in P. destruct ok; injection E as <-; k4 H; auto.
  - destruct (s_ph s) as [| | |m0 []| | |] eqn:Ph; try discriminate. cbn in P. injection E as <-; k4 H; auto.
  - destruct (s_ph s) as [| | |m0 []| | |] eqn:Ph; try discriminate. cbn in P. injection E as <-; destruct ok; k4 H; auto.
  - destruct (s_ph s) as [| | |m0 []| | |] eqn:Ph; try discriminate. cbn in P. injection E as <-; k4 H; auto.
  - destruct (s_ph s) as [| | | |m0| |] eqn:Ph; try discriminate. destruct ok; injection E as <-; k4 H; auto.
  - injection E as <-. constructor; cbn; auto.
    + intros b Hb Hw. apply (i4_com s H b Hb). revert Hw. generalize (length (s_wal s) - n)%nat as k.
      generalize (s_wal s) as w. induction w as [|z w IH]; intros [|k] Hw; cbn in *; auto. right. eauto.
    + assert (X := i4_hand _ H). intuition congruence.
    + intros Hw. apply (i4_com' s H). revert Hw. generalize (length (s_wal s) - n)%nat as k.
      generalize (s_wal s) as w. induction w as [|z w IH]; intros [|k] Hw; cbn in *; auto. right. eauto.
Qed.

(** The strider never gets past the predecessor of such a block, whatever the
    provider answers and however often it is restarted. *)
Theorem strider_depth_stuck s : reach c s ->
  ~ In (EHand0 m m) (s_tr s) /\ ~ In (WMaster m) (log_of (s_tr s)) /\
  forall b, In b l -> ~ In (WShard b) (log_of (s_tr s)).
Proof.
  intros R. assert (H : inv4 s).
  { induction R as [|s x s' R IH E].
    - constructor; cbn; auto.
    - eapply deep_step; eauto; [apply (reach_inv c W), R|apply (reach_depth c), R]. }
  rewrite <- (strider_storage c s W R). destruct H. auto.
Qed.
End Deep.

(** ** A concrete history *)
Lemma sexec_reach c s ls s' : reach c s -> sexec c s ls = Some s' -> reach c s'.
Proof.
  revert s. induction ls as [|x ls IH]; intros s R E; cbn in E.
  - injection E as <-. exact R.
  - destruct (sstep c s x) eqn:E1; [|discriminate]. eapply IH; [|exact E]. econstructor; eauto.
Qed.

(** Two shards; block 1 of the masterchain brings shard blocks 1:1, 1:2 and 2:1,
    block 2 brings 1:3 and 32 blocks 2:2 .. 2:33. *)
Definition xb (sh q : N) : blk := MkBlk sh q 7.
Definition xcfg : scfg := MkScfg
  (fun b => if b_seq b =? 0 then MkInfo true false (PSingle 0 7)
            else MkInfo false false (PSingle (b_seq b - 1) 7))
  (fun m => if blk_eqb m (xb 0 1) then [xb 1 2; xb 2 1]
            else if blk_eqb m (xb 0 2) then [xb 1 3; xb 2 33] else [])
  (xb 0 0) (fun b => blk_eqb b (xb 0 0)).

Lemma xcfg_wf : wf_cfg xcfg.
Proof.
  split; [reflexivity|]. split; [reflexivity|]. split; [|split].
  - intros m t. cbn. destruct (blk_eqb m (xb 0 1)); [|destruct (blk_eqb m (xb 0 2))]; cbn;
      intuition; subst; reflexivity.
  - intros m. cbn. destruct (blk_eqb m (xb 0 1)); [|destruct (blk_eqb m (xb 0 2))]; cbn;
      repeat constructor; cbn; intuition discriminate.
  - intros b p (A&B&C1&C2). cbn in *. destruct (b_seq b =? 0) eqn:E; cbn in *; [discriminate|].
    injection C2 as <- _. apply N.eqb_neq in E. lia.
Qed.

Lemma xcfg_merge : merge_flag xcfg.
Proof. intros b. cbn. destruct (b_seq b =? 0); cbn; discriminate. Qed.

(** Master block 1 is downloaded, shard 2 is processed to its end, shard 1 up
    to the middle of block 1:1; the process dies and loses the last write; the
    second life finishes master block 1 and starts block 2. *)
Definition xrun : list label :=
  [LFetched (xb 0 1); LNext true; LDown 0 true; LDown 1 true; LDown 0 true; LDown 1 true; LDown 0 true;
   LDownAll; LBegin 1; LBegin 0; LPrep 1 true; LTake 1; LPrep 0 true; LHand 1 true; LTake 0;
   LGc 1; LJoin 1 true; LCommit 1 true; LHand 0 true; LCrash 4;
   LFetched (xb 0 1); LNext true; LDown 0 true; LDown 0 true; LDown 1 true; LDown 0 true; LDownAll;
   LBegin 1; LBegin 0; LPrep 0 true; LTake 0; LPrep 0 true; LHand 0 true; LGc 0; LJoin 0 true; LCommit 0 true;
   LTake 0; LPrepM true; LHand 0 true; LGc 0; LJoin 0 true; LCommit 0 true; LProcAll;
   LTakeM; LHandM true; LGcM; LJoinM true; LCommitM; LClean true;
   LFetched (xb 0 2); LNext true].

Definition xfin : option sst := sexec xcfg (sst0 xcfg) xrun.

Definition xval : list ev * phase * pst := Eval vm_compute in
  match xfin with Some s => (s_tr s, s_ph s, s_mp s) | None => ([], PhEnd, PErr) end.

Lemma xfin_val : option_map (fun s => (s_tr s, s_ph s, s_mp s)) xfin = Some xval.
Proof. vm_cast_no_check (eq_refl (Some xval)). Qed.

Lemma xfin_reach s : xfin = Some s -> reach xcfg s.
Proof. unfold xfin. apply sexec_reach, reach0. Qed.

Lemma strider_example : exists s, reach xcfg s /\
  masters (log_of (s_tr s)) = [xb 0 1] /\
  In (ECrash 4) (s_tr s) /\
  (exists l2 l1, s_tr s = l2 ++ EHand0 (xb 0 1) (xb 0 1) :: l1) /\
  needs xcfg (xb 1 2) (xb 1 1) /\
  (* 2:1 was handled once, in the first life; 1:1 in both lives *)
  length (filter (fun e => match e with EHand0 b _ => blk_eqb b (xb 2 1) | _ => false end) (s_tr s)) = 1%nat /\
  length (filter (fun e => match e with EHand0 b _ => blk_eqb b (xb 1 1) | _ => false end) (s_tr s)) = 2%nat /\
  working s (xb 0 2) /\ clean s.
Proof.
  assert (Hv := xfin_val). assert (Hr := xfin_reach).
  destruct xfin as [s|]; [|discriminate Hv]. exists s. assert (R := Hr s eq_refl). clear Hr.
  cbn [option_map] in Hv. injection Hv as T T2 T3.
  unfold working, clean. rewrite T, T2, T3. clear T T2 T3. split; [exact R|].
  split; [reflexivity|]. split; [repeat (first [left; reflexivity|right])|].
  split; [|split; [|split; [reflexivity|split; [reflexivity|split]]]].
  - apply in_split. repeat (first [left; reflexivity|right]).
  - eapply needs_prev; [apply needs_top; split; [reflexivity|reflexivity]| |split; reflexivity].
    split; [reflexivity|]. split; [reflexivity|]. split; reflexivity.
  - reflexivity.
  - discriminate.
Qed.

(** Masterchain block 2 of the example is too deep: its 32 blocks of shard 2
    are never processed. *)
Definition xdeep : list blk := map (fun n => xb 2 (N.of_nat n)) (seq 2 32).

Lemma xneeds t b : needs xcfg t b -> b_hash t = 7 -> b_shard b = b_shard t /\ b_seq b <= b_seq t /\ b_hash b = 7.
Proof.
  intros H Ht. induction H as [F|b p H IH L F].
  - split; [reflexivity|]. split; [lia|exact Ht].
  - destruct IH as (A&B&C1). assert (Q := proj2 (proj2 (proj2 (proj2 xcfg_wf))) _ _ L).
    destruct L as (L1&L2&L3&L4). cbn in L1, L4. destruct (b_seq b =? 0); cbn in *; [discriminate|].
    injection L4 as L4 L5. split; [congruence|]. split; [lia|congruence].
Qed.

Lemma xdeep_ok : too_deep xcfg (xb 0 2) xdeep.
Proof.
  constructor.
  - exists (xb 2 33). split; [cbn; auto|]. unfold xdeep.
    assert (G : forall n k, (0 < k)%nat -> (0 < n)%nat ->
              stack xcfg (xb 2 (N.of_nat (k + n - 1))) (map (fun n => xb 2 (N.of_nat n)) (seq k n))).
    { induction n as [|n IH]; intros k Hk Hn; [lia|]. cbn [seq map]. destruct n as [|n].
      - cbn. f_equal. lia.
      - specialize (IH (S k) ltac:(lia) ltac:(lia)). replace (S k + S n - 1)%nat with (k + S (S n) - 1)%nat in IH by lia.
        change (seq (S k) (S n)) with (S k :: seq (S (S k)) n) in *. cbn [map] in *.
        split; [|exact IH]. unfold lin. cbn [c_info xcfg b_seq xb].
        replace (N.of_nat (S k) =? 0) with false by (symmetry; apply N.eqb_neq; lia). cbn [bi_split bi_merge bi_prev b_shard b_seq b_hash].
        split; [reflexivity|]. split; [reflexivity|]. split; [reflexivity|]. f_equal. lia. }
    exact (G 32%nat 2%nat ltac:(lia) ltac:(lia)).
  - reflexivity.
  - apply Forall_forall. intros b Hb. unfold xdeep in Hb. apply in_map_iff in Hb. destruct Hb as (n&<-&Hn).
    apply in_seq in Hn. split; [cbn; lia|reflexivity].
  - intros b Hb. unfold xdeep in Hb. apply in_map_iff in Hb. destruct Hb as (n&<-&Hn).
    apply in_seq in Hn. cbn. replace (N.of_nat n =? 0) with false by (symmetry; apply N.eqb_neq; lia). cbn. auto.
  - intros m' t' b Hm Ht Hb Hn. unfold xdeep in Hb. apply in_map_iff in Hb. destruct Hb as (n&<-&Hi).
    apply in_seq in Hi. cbn in Ht. destruct (blk_eqb m' (xb 0 1)).
    + destruct Ht as [<-|[<-|[]]]; destruct (xneeds _ _ Hn eq_refl) as (A&B&_); cbn in *; [discriminate|lia].
    + destruct (blk_eqb m' (xb 0 2)) eqn:E; [apply blk_eqb_spec in E; contradiction|destruct Ht].
Qed.

Lemma strider_stuck_example s : reach xcfg s -> ~ In (WMaster (xb 0 2)) (log_of (s_tr s)).
Proof. intros R. apply (strider_depth_stuck xcfg xcfg_wf _ _ xdeep_ok s R). Qed.

(** The first master block of the example is shallow: progress applies to it. *)
Lemma strider_shallow_example : shallow xcfg [] (xb 0 1).
Proof.
  intros t l Ht Hs Hlen Hf. exfalso.
  assert (B : b_seq t <= 2) by (cbn in Ht; destruct Ht as [<-|[<-|[]]]; cbn; lia).
  assert (G : forall l, stack xcfg t l -> Forall (fun b => 0 < b_seq b) l ->
              forall x r, l = x :: r -> b_seq x + N.of_nat (length r) <= b_seq t).
  { clear. induction l as [|y l IH]; intros Hs Hf x r E; [discriminate|]. injection E as -> ->.
    destruct r as [|z r]; cbn in Hs.
    - subst x. cbn. lia.
    - destruct Hs as [L Hs]. inversion Hf; subst. specialize (IH Hs ltac:(assumption) z r eq_refl).
      assert (Q := proj2 (proj2 (proj2 (proj2 xcfg_wf))) _ _ L). cbn [length]. lia. }
  destruct l as [|x r]; [discriminate|].
  assert (Q := G _ Hs (Forall_impl _ (fun b H => proj1 H) Hf) x r eq_refl).
  inversion Hf as [|? ? [Hx _] _]; subst. cbn in Hlen. lia.
Qed.
