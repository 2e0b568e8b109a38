(** * Block strider: a master block is processed in a bounded number of steps;
    the depth limit (C47). *)
From Coq Require Import List NArith Arith Lia Bool.
From Verif Require Import StriderModel StriderSpec StriderInv StriderStep StriderProps StriderOnce.
Import ListNotations.
Open Scope N_scope.

Fixpoint sexec (c : scfg) (s : sst) (ls : list label) : option sst :=
  match ls with
  | [] => Some s
  | l :: r => match sstep c s l with Some s' => sexec c s' r | None => None end
  end.

(** The environment answers: no error, every committed block has its handle,
    no crash. *)
Definition good (l : label) : bool :=
  match l with
  | LFetchErr | LCrash _ => false
  | LNext ok | LDown _ ok | LPrep _ ok | LHand _ ok | LJoin _ ok | LPrepM ok | LHandM ok
  | LJoinM ok | LClean ok => ok
  | LCommit _ h => h
  | _ => true
  end.

(** The master block being processed. *)
Definition working (s : sst) (m : blk) : Prop :=
  match s_ph s with
  | PhDown x _ | PhProc x _ | PhMast x _ | PhClean x => x = m
  | _ => False
  end.

(** No task of the current master block has failed so far. *)
Definition clean (s : sst) : Prop :=
  match s_ph s with
  | PhDown _ _ | PhMast _ MTake => s_mp s <> PErr
  | PhProc _ ls => s_mp s <> PErr /\ forall l b, In l ls -> l_next l <> Some (b, PErr)
  | _ => True
  end.

(** Fewer than 32 unprocessed blocks in each shard (a 32nd one is accepted only
    right after a split or merge). *)
Definition shallow (c : scfg) (w : list wr) (m : blk) : Prop :=
  forall t l, In t (c_tops c m) -> stack c t l -> length l = 32%nat ->
    Forall (fun b => 0 < b_seq b /\ is_committed c w b = false) l ->
    match l with x :: _ => bi_split (c_info c x) || bi_merge (c_info c x) = true | [] => True end.

Definition merge_flag (c : scfg) : Prop :=
  forall b, bi_prev (c_info c b) = PMerge -> bi_merge (c_info c b) = true.

(** ** Depth bookkeeping *)
Definition dd (d : dl) : Prop :=
  d_done d = false -> d_depth d = N.of_nat (length (d_acc d)) /\ d_depth d < 32.

Definition depth_ok (s : sst) : Prop :=
  match s_ph s with PhDown _ ds => Forall dd ds | _ => True end.

Lemma forall_set_nth {A} (P : A -> Prop) i x l : Forall P l -> P x -> Forall P (set_nth i x l).
Proof.
  intros H Hx. revert i. induction H as [|y l Hy H IH]; intros [|i]; cbn; constructor; auto.
Qed.

Lemma dl_iter_dd c w d ok f d' : dl_iter c w d ok = DStep f d' -> dd d -> d_done d = false -> dd d'.
Proof.
  unfold dl_iter. intros E H Hd. destruct (H Hd) as [H1 H2].
  destruct ((0 <? b_seq (d_cur d)) && negb (is_committed c w (d_cur d))).
  - destruct ok; [|discriminate].
    destruct (bi_split (c_info c (d_cur d)) || bi_merge (c_info c (d_cur d))).
    + injection E as <- <-. intros X. discriminate.
    + destruct (bi_prev (c_info c (d_cur d))); [|discriminate].
      destruct (max_depth <=? d_depth d + 1) eqn:L; [discriminate|].
      injection E as <- <-. intros _. cbn [d_depth d_acc length].
      apply N.leb_gt in L. unfold max_depth in L. lia.
  - injection E as <- <-. intros X. discriminate.
Qed.

Lemma depth_step c s l s' : depth_ok s -> sstep c s l = Some s' -> depth_ok s'.
Proof.
  intros H E. unfold depth_ok in *. destruct l; cbn in E.
  - destruct (s_pf s); try discriminate. destruct (next_ok c p m); [|discriminate].
    injection E as <-. exact H.
  - destruct (s_pf s); try discriminate. injection E as <-. exact H.
  - destruct (s_pf s); try discriminate. injection E as <-. exact H.
  - destruct (s_ph s); try discriminate. destruct (s_pf s); try discriminate; [destruct ok| |];
      injection E as <-; cbn; auto. apply Forall_forall. intros d Hd. apply in_map_iff in Hd.
    destruct Hd as (t&<-&_). intros _. cbn. lia.
  - destruct (s_ph s) as [|m ds| | | | |]; try discriminate. destruct (nth_error ds i) as [d|] eqn:En; [|discriminate].
    destruct (d_done d) eqn:Ed; [discriminate|].
    destruct (dl_iter c (s_wal s) d ok) as [|f d'] eqn:Ei; injection E as <-; cbn; auto.
    assert (K : Forall dd (set_nth i d' ds)).
    { apply forall_set_nth; [exact H|]. eapply dl_iter_dd; eauto.
      rewrite Forall_forall in H. apply H. eapply nth_error_In; eauto. }
    destruct f; exact K.
  - destruct (s_ph s); try discriminate. destruct (all_done_d ds); [|discriminate]. injection E as <-. cbn. auto.
  - destruct (s_ph s); try discriminate. destruct (nth_error ls i); [|discriminate].
    destruct (l_started l); [discriminate|]. destruct (l_rest l); injection E as <-; cbn; auto.
  - destruct (s_ph s); try discriminate. destruct (nth_error ls i); [|discriminate].
    destruct (l_next l) as [[b []]|]; try discriminate. destruct ok; injection E as <-; cbn; auto.
  - destruct (s_ph s); try discriminate. destruct (nth_error ls i); [|discriminate].
    destruct (l_cur l); [discriminate|]. destruct (l_next l) as [[b []]|]; try discriminate;
    destruct (l_rest l); injection E as <-; cbn; auto.
  - destruct (s_ph s); try discriminate. destruct (nth_error ls i); [|discriminate].
    destruct (l_cur l) as [[b []]|]; try discriminate. destruct ok; injection E as <-; cbn; auto.
  - destruct (s_ph s); try discriminate. destruct (nth_error ls i); [|discriminate].
    destruct (l_cur l) as [[b []]|]; try discriminate. injection E as <-; cbn; auto.
  - destruct (s_ph s); try discriminate. destruct (nth_error ls i); [|discriminate].
    destruct (l_cur l) as [[b []]|]; try discriminate. destruct ok; injection E as <-; cbn; auto.
  - destruct (s_ph s); try discriminate. destruct (nth_error ls i); [|discriminate].
    destruct (l_cur l) as [[b []]|]; try discriminate. destruct h; injection E as <-; cbn; auto.
  - destruct (s_ph s); try discriminate. destruct (forallb line_done ls); [|discriminate]. injection E as <-; cbn; auto.
  - destruct (s_mp s); try discriminate. destruct (s_ph s) eqn:Ph; try discriminate; destruct ok; injection E as <-; cbn; rewrite ?Ph; auto.
  - destruct (s_ph s) as [| | |m []| | |]; try discriminate. destruct (s_mp s); try discriminate; injection E as <-; cbn; auto.
  - destruct (s_ph s) as [| | |m []| | |]; try discriminate. destruct ok; injection E as <-; cbn; auto.
  - destruct (s_ph s) as [| | |m []| | |]; try discriminate. injection E as <-; cbn; auto.
  - destruct (s_ph s) as [| | |m []| | |]; try discriminate. injection E as <-; destruct ok; cbn; auto.
  - destruct (s_ph s) as [| | |m []| | |]; try discriminate. injection E as <-; cbn; auto.
  - destruct (s_ph s) as [| | | |m| |]; try discriminate. destruct ok; injection E as <-; cbn; auto.
  - injection E as <-; cbn; auto.
Qed.

Lemma reach_depth c s : reach c s -> depth_ok s.
Proof. induction 1; [exact Logic.I|eapply depth_step; eauto]. Qed.

(** ** The measure *)
Definition dw (d : dl) : nat :=
  (10 * length (d_acc d) + 2 + if d_done d then 0 else 20 * (33 - N.to_nat (d_depth d)))%nat.

Definition lw (l : line) : nat :=
  ((if l_started l then 0 else 1) + 9 * length (l_rest l) +
   match l_next l with None => 0 | Some (_, PRun) => 8 | Some _ => 7 end +
   match l_cur l with None => 0 | Some (_, SHand) => 4 | Some (_, SGc) => 3
                    | Some (_, SJoin) => 2 | Some (_, SComm) => 1 end)%nat.

Fixpoint nsum {A} (f : A -> nat) (l : list A) : nat :=
  match l with [] => 0 | x :: r => (f x + nsum f r)%nat end.

(** An upper bound for the number of steps left until the block is done. *)
Definition steps_left (s : sst) : nat :=
  (match s_ph s with
   | PhDown _ ds => 100 + nsum dw ds
   | PhProc _ ls => 50 + nsum lw ls
   | PhMast _ MTake => 40 | PhMast _ MHand => 39 | PhMast _ MGc => 38
   | PhMast _ MJoin => 37 | PhMast _ MComm => 36
   | PhClean _ => 30
   | _ => 0
   end + (match s_mp s with PRun => 1 | _ => 0 end) + (match s_pf s with FRun _ => 1 | _ => 0 end))%nat.

Lemma nsum_set {A} (f : A -> nat) i x l y : nth_error l i = Some y ->
  (nsum f (set_nth i x l) + f y = nsum f l + f x)%nat.
Proof.
  revert i. induction l as [|z l IH]; intros [|i] E; cbn in *; try discriminate.
  - injection E as ->. lia.
  - specialize (IH _ E). lia.
Qed.

Lemma dl_iter_dw c w d ok f d' : dd d -> d_done d = false -> dl_iter c w d ok = DStep f d' -> (dw d' < dw d)%nat.
Proof.
  intros H Hd E. destruct (H Hd) as [H1 H2]. unfold dl_iter in E.
  destruct ((0 <? b_seq (d_cur d)) && negb (is_committed c w (d_cur d))).
  - destruct ok; [|discriminate].
    destruct (bi_split (c_info c (d_cur d)) || bi_merge (c_info c (d_cur d))).
    + injection E as <- <-. unfold dw. cbn [d_acc d_done d_depth length]. rewrite Hd. lia.
    + destruct (bi_prev (c_info c (d_cur d))); [|discriminate].
      destruct (max_depth <=? d_depth d + 1) eqn:L; [discriminate|].
      injection E as <- <-. unfold dw. cbn [d_acc d_done d_depth length]. rewrite Hd. lia.
  - injection E as <- <-. unfold dw. cbn [d_acc d_done d_depth length]. rewrite Hd. lia.
Qed.

Lemma lw_new ds : (nsum lw (map (fun d => new_line (d_acc d)) ds) <= nsum dw ds)%nat.
Proof. induction ds as [|d ds IH]; cbn [nsum map]; [lia|]. unfold lw at 1, dw at 1. cbn. lia. Qed.

(** Every step of a living process brings the current block closer to its end. *)
Lemma steps_decrease c s m l s' : depth_ok s -> working s m -> sstep c s l = Some s' ->
  (forall n, l <> LCrash n) -> (steps_left s' < steps_left s)%nat.
Proof.
  intros H Wk E Hl. unfold depth_ok, working in *.
  assert (Pm : forall m s n, s_mp (prep_events c m s n) = s_mp s) by (intros ? ? [[]|]; reflexivity).
  assert (Pp : forall m s n, s_pf (prep_events c m s n) = s_pf s) by (intros ? ? [[]|]; reflexivity).
  destruct l; cbn in E.
  - destruct (s_pf s) eqn:Pf; try discriminate. destruct (next_ok c p m0); [|discriminate].
    injection E as <-. unfold steps_left. cbn. rewrite Pf. lia.
  - destruct (s_pf s) eqn:Pf; try discriminate. injection E as <-. unfold steps_left. cbn. rewrite Pf. lia.
  - destruct (s_pf s) eqn:Pf; try discriminate. injection E as <-. unfold steps_left. cbn. rewrite Pf. lia.
  - destruct (s_ph s); try discriminate. contradiction.
  - destruct (s_ph s) as [|m0 ds| | | | |] eqn:Ph; try discriminate. destruct (nth_error ds i) as [d|] eqn:En; [|discriminate].
    destruct (d_done d) eqn:Ed; [discriminate|].
    assert (Dd : dd d) by (rewrite Forall_forall in H; apply H; eapply nth_error_In; eauto).
    destruct (dl_iter c (s_wal s) d ok) as [|f d'] eqn:Ei.
    + injection E as <-. unfold steps_left. rewrite Ph. cbn. lia.
    + assert (K := dl_iter_dw _ _ _ _ _ _ Dd Ed Ei). assert (K2 := nsum_set dw i d' ds d En).
      destruct f; injection E as <-; unfold steps_left; rewrite Ph; cbn; lia.
  - destruct (s_ph s) as [|m0 ds| | | | |] eqn:Ph; try discriminate. destruct (all_done_d ds); [|discriminate]. injection E as <-.
    unfold steps_left; rewrite Ph; cbn. assert (K := lw_new ds). lia.
  - destruct (s_ph s) as [| |m0 ls| | | |] eqn:Ph; try discriminate. destruct (nth_error ls i) as [l|] eqn:En; [|discriminate].
    destruct (l_started l) eqn:Es; [discriminate|].
    destruct (l_rest l) as [|y rest] eqn:Er; cbn in E; injection E as <-; unfold steps_left; rewrite Ph; cbn;
    match goal with |- context [nsum lw (set_nth i ?x ls)] => assert (K := nsum_set lw i x ls l En) end;
    unfold lw at 2 in K; unfold lw at 3 in K; rewrite Er, Es in K; cbn in K; lia.
  - destruct (s_ph s) as [| |m0 ls| | | |] eqn:Ph; try discriminate. destruct (nth_error ls i) as [l|] eqn:En; [|discriminate].
    destruct (l_next l) as [[b []]|] eqn:Ex; try discriminate.
    destruct ok; injection E as <-; unfold steps_left; rewrite Ph; cbn;
    match goal with |- context [nsum lw (set_nth i ?x ls)] => assert (K := nsum_set lw i x ls l En) end;
    unfold lw at 2 in K; unfold lw at 3 in K; rewrite Ex in K; cbn in K; lia.
  - destruct (s_ph s) as [| |m0 ls| | | |] eqn:Ph; try discriminate. destruct (nth_error ls i) as [l|] eqn:En; [|discriminate].
    destruct (l_cur l) eqn:Ec; [discriminate|]. destruct (l_next l) as [[b []]|] eqn:Ex; try discriminate;
    destruct (l_rest l) as [|y rest] eqn:Er; cbn in E; injection E as <-; unfold steps_left; rewrite Ph; cbn;
    try match goal with |- context [nsum lw (set_nth i ?x ls)] => assert (K := nsum_set lw i x ls l En) end;
    try (unfold lw at 2 in K; unfold lw at 3 in K; rewrite Ex, Ec, Er in K; cbn in K); lia.
  - destruct (s_ph s) as [| |m0 ls| | | |] eqn:Ph; try discriminate. destruct (nth_error ls i) as [l|] eqn:En; [|discriminate].
    destruct (l_cur l) as [[b []]|] eqn:Ec; try discriminate.
    destruct ok; injection E as <-; unfold steps_left; rewrite Ph; cbn;
    try match goal with |- context [nsum lw (set_nth i ?x ls)] => assert (K := nsum_set lw i x ls l En) end;
    try (unfold lw at 2 in K; unfold lw at 3 in K; rewrite Ec in K; cbn in K); lia.
  - destruct (s_ph s) as [| |m0 ls| | | |] eqn:Ph; try discriminate. destruct (nth_error ls i) as [l|] eqn:En; [|discriminate].
    destruct (l_cur l) as [[b []]|] eqn:Ec; try discriminate.
    injection E as <-; unfold steps_left; rewrite Ph; cbn;
    try match goal with |- context [nsum lw (set_nth i ?x ls)] => assert (K := nsum_set lw i x ls l En) end;
    try (unfold lw at 2 in K; unfold lw at 3 in K; rewrite Ec in K; cbn in K); lia.
  - destruct (s_ph s) as [| |m0 ls| | | |] eqn:Ph; try discriminate. destruct (nth_error ls i) as [l|] eqn:En; [|discriminate].
    destruct (l_cur l) as [[b []]|] eqn:Ec; try discriminate.
    destruct ok; injection E as <-; unfold steps_left; rewrite Ph; cbn;
    try match goal with |- context [nsum lw (set_nth i ?x ls)] => assert (K := nsum_set lw i x ls l En) end;
    try (unfold lw at 2 in K; unfold lw at 3 in K; rewrite Ec in K; cbn in K); lia.
  - destruct (s_ph s) as [| |m0 ls| | | |] eqn:Ph; try discriminate. destruct (nth_error ls i) as [l|] eqn:En; [|discriminate].
    destruct (l_cur l) as [[b []]|] eqn:Ec; try discriminate.
    destruct h; injection E as <-; unfold steps_left; rewrite Ph; cbn;
    try match goal with |- context [nsum lw (set_nth i ?x ls)] => assert (K := nsum_set lw i x ls l En) end;
    try (unfold lw at 2 in K; unfold lw at 3 in K; rewrite Ec in K; cbn in K); lia.
  - destruct (s_ph s) eqn:Ph; try discriminate. destruct (forallb line_done ls); [|discriminate]. injection E as <-.
    unfold steps_left; rewrite Ph; cbn; lia.
  - destruct (s_mp s) eqn:Mp; try discriminate. destruct (s_ph s) eqn:Ph; try discriminate; destruct ok; injection E as <-;
      unfold steps_left; cbn; rewrite Ph, Mp; lia.
  - destruct (s_ph s) as [| | |m0 []| | |] eqn:Ph; try discriminate. destruct (s_mp s) eqn:Mp; try discriminate; injection E as <-;
      unfold steps_left; cbn; rewrite Ph; lia.
  - destruct (s_ph s) as [| | |m0 []| | |] eqn:Ph; try discriminate. destruct ok; injection E as <-; unfold steps_left; cbn; rewrite Ph; lia.
  - destruct (s_ph s) as [| | |m0 []| | |] eqn:Ph; try discriminate. injection E as <-; unfold steps_left; cbn; rewrite Ph; lia.
  - destruct (s_ph s) as [| | |m0 []| | |] eqn:Ph; try discriminate. injection E as <-; destruct ok; unfold steps_left; cbn; rewrite Ph; lia.
  - destruct (s_ph s) as [| | |m0 []| | |] eqn:Ph; try discriminate. injection E as <-; unfold steps_left; cbn; rewrite Ph; lia.
  - destruct (s_ph s) as [| | | |m0| |] eqn:Ph; try discriminate. destruct ok; injection E as <-; unfold steps_left; cbn; rewrite Ph; lia.
  - exfalso. eapply Hl. reflexivity.
Qed.

(** ** With an answering environment no step fails *)
Lemma dl_no_fail c w m t d : merge_flag c -> shallow c w m -> In t (c_tops c m) ->
  dl_inv c w t d -> dd d -> d_done d = false -> dl_iter c w d true <> DFail.
Proof.
  intros Mf Sh Ht [Hst Hel Hsh Hcur _] Hd Ed. destruct (Hd Ed) as [H1 H2]. specialize (Hcur Ed).
  unfold dl_iter.
  destruct ((0 <? b_seq (d_cur d)) && negb (is_committed c w (d_cur d))) eqn:G; [|discriminate].
  destruct (bi_split (c_info c (d_cur d)) || bi_merge (c_info c (d_cur d))) eqn:Sp; [discriminate|].
  destruct (bi_prev (c_info c (d_cur d))) eqn:Ep.
  - destruct (max_depth <=? d_depth d + 1) eqn:L; [|discriminate]. exfalso.
    apply N.leb_le in L. unfold max_depth in L.
    apply andb_true_iff in G. destruct G as [G1 G2]. apply N.ltb_lt in G1. apply negb_true_iff in G2.
    specialize (Sh t (d_cur d :: d_acc d) Ht). cbn [length] in Sh. rewrite Sp in Sh.
    assert (false = true); [|discriminate]. apply Sh.
    + destruct (d_acc d) as [|x acc]; cbn; auto.
    + lia.
    + constructor; [auto|]. eapply Forall_impl; [|exact Hel]. intros b [N C]. split; [|exact C].
      apply needs_fresh in N. apply N.
  - apply Mf in Ep. apply orb_false_iff in Sp. destruct Sp as [_ Sp]. congruence.
Qed.

Lemma shallow_mono c w w' m : (forall b, is_committed c w b = true -> is_committed c w' b = true) ->
  shallow c w m -> shallow c w' m.
Proof.
  intros Hc Sh t l Ht Hs Hlen Hf. apply (Sh t l Ht Hs Hlen).
  eapply Forall_impl; [|exact Hf]. cbn. intros b [A B]. split; [exact A|].
  destruct (is_committed c w b) eqn:E; [|reflexivity]. rewrite (Hc b E) in B. discriminate.
Qed.

Lemma f2_nth {B} (R : blk -> B -> Prop) ts ls i l : Forall2 R ts ls -> nth_error ls i = Some l ->
  exists t, In t ts /\ R t l.
Proof.
  intros H. revert i. induction H as [|t x ts ls Rx H IH]; intros [|i] E; try discriminate; cbn in E.
  - injection E as ->. exists t. auto using in_eq.
  - destruct (IH _ E) as (t'&Ht'&Hr). exists t'. split; [right; exact Ht'|exact Hr].
Qed.

Lemma clean_upd (ls : list line) i l' : 
  (forall l b, In l ls -> l_next l <> Some (b, PErr)) ->
  (forall b, l_next l' <> Some (b, PErr)) ->
  forall l b, In l (set_nth i l' ls) -> l_next l <> Some (b, PErr).
Proof.
  intros H Hl. assert (F : Forall (fun l => forall b, l_next l <> Some (b, PErr)) (set_nth i l' ls)).
  { apply forall_set_nth; [|exact Hl]. apply Forall_forall. intros l Hi b. apply H, Hi. }
  rewrite Forall_forall in F. intros l b Hi. apply F, Hi.
Qed.

Definition finished (c : scfg) (s : sst) (m : blk) : Prop :=
  s_ph s = PhWait m /\ last_mc c (s_wal s) = m.

Lemma good_step c s m l s' : wf_cfg c -> merge_flag c -> inv c s -> depth_ok s ->
  working s m -> clean s -> shallow c (s_wal s) m -> good l = true -> sstep c s l = Some s' ->
  (working s' m /\ clean s') \/ finished c s' m.
Proof.
  intros W Mf I0 Hd Wk Cl Sh Gl E.
  destruct I0 as [Iw Il It Ip]. unfold depth_ok, working, clean, phase_inv in *.
  assert (Pn : forall m s n, s_mp (prep_events c m s n) = s_mp s) by (intros ? ? [[]|]; reflexivity).
  destruct l; cbn in E, Gl; try discriminate Gl; try subst ok; try subst h.
  - destruct (s_pf s) eqn:Pf; try discriminate. destruct (next_ok c p m0); [|discriminate].
    injection E as <-. left. cbn. auto.
  - destruct (s_pf s) eqn:Pf; try discriminate. injection E as <-. left. cbn. auto.
  - destruct (s_ph s); try discriminate. contradiction.
  - destruct (s_ph s) as [|m0 ds| | | | |] eqn:Ph; try discriminate. subst m0. destruct Ip as [Cu Hf].
    destruct (nth_error ds i) as [d|] eqn:En; [|discriminate].
    destruct (d_done d) eqn:Ed; [discriminate|].
    destruct (f2_nth _ _ _ _ _ Hf En) as (t&Ht&Hdi).
    assert (Dd : dd d) by (rewrite Forall_forall in Hd; apply Hd; eapply nth_error_In; eauto).
    assert (Nf := dl_no_fail c _ m t d Mf Sh Ht Hdi Dd Ed).
    destruct (dl_iter c (s_wal s) d true) as [|f d'] eqn:Ei; [congruence|].
    left. destruct f; injection E as <-; cbn; auto.
  - destruct (s_ph s) as [|m0 ds| | | | |] eqn:Ph; try discriminate.
    destruct (all_done_d ds); [|discriminate]. injection E as <-. left. cbn. split; [exact Wk|].
    split; [exact Cl|]. intros l b Hi. apply in_map_iff in Hi. destruct Hi as (d&<-&_). discriminate.
  - destruct (s_ph s) as [| |m0 ls| | | |] eqn:Ph; try discriminate. destruct (nth_error ls i) as [l|] eqn:En; [|discriminate].
    destruct (l_started l) eqn:Es; [discriminate|]. destruct Cl as [C1 C2].
    destruct (l_rest l) as [|y rest] eqn:Er; cbn in E; injection E as <-; left; cbn;
      (split; [exact Wk|]; split; [exact C1|]; apply clean_upd; [exact C2|]; cbn; discriminate).
  - destruct (s_ph s) as [| |m0 ls| | | |] eqn:Ph; try discriminate. destruct (nth_error ls i) as [l|] eqn:En; [|discriminate].
    destruct (l_next l) as [[b []]|] eqn:Ex; try discriminate. destruct Cl as [C1 C2].
    injection E as <-; left; cbn;
      (split; [exact Wk|]; split; [exact C1|]; apply clean_upd; [exact C2|]; cbn; discriminate).
  - destruct (s_ph s) as [| |m0 ls| | | |] eqn:Ph; try discriminate. destruct (nth_error ls i) as [l|] eqn:En; [|discriminate].
    destruct (l_cur l) eqn:Ec; [discriminate|]. destruct Cl as [C1 C2].
    destruct (l_next l) as [[b []]|] eqn:Ex; try discriminate.
    + destruct (l_rest l) as [|y rest] eqn:Er; cbn in E; injection E as <-; left; cbn;
      (split; [exact Wk|]; split; [exact C1|]; apply clean_upd; [exact C2|]; cbn; discriminate).
    + exfalso. exact (C2 l b (nth_error_In _ _ En) Ex).
  - destruct (s_ph s) as [| |m0 ls| | | |] eqn:Ph; try discriminate. destruct (nth_error ls i) as [l|] eqn:En; [|discriminate].
    destruct (l_cur l) as [[b []]|] eqn:Ec; try discriminate. destruct Cl as [C1 C2].
    injection E as <-; left; cbn;
      (split; [exact Wk|]; split; [exact C1|]; apply clean_upd; [exact C2|]; cbn; intros b0; apply (C2 l b0), (nth_error_In _ _ En)).
  - destruct (s_ph s) as [| |m0 ls| | | |] eqn:Ph; try discriminate. destruct (nth_error ls i) as [l|] eqn:En; [|discriminate].
    destruct (l_cur l) as [[b []]|] eqn:Ec; try discriminate. destruct Cl as [C1 C2].
    injection E as <-; left; cbn;
      (split; [exact Wk|]; split; [exact C1|]; apply clean_upd; [exact C2|]; cbn; intros b0; apply (C2 l b0), (nth_error_In _ _ En)).
  - destruct (s_ph s) as [| |m0 ls| | | |] eqn:Ph; try discriminate. destruct (nth_error ls i) as [l|] eqn:En; [|discriminate].
    destruct (l_cur l) as [[b []]|] eqn:Ec; try discriminate. destruct Cl as [C1 C2].
    injection E as <-; left; cbn;
      (split; [exact Wk|]; split; [exact C1|]; apply clean_upd; [exact C2|]; cbn; intros b0; apply (C2 l b0), (nth_error_In _ _ En)).
  - destruct (s_ph s) as [| |m0 ls| | | |] eqn:Ph; try discriminate. destruct (nth_error ls i) as [l|] eqn:En; [|discriminate].
    destruct (l_cur l) as [[b []]|] eqn:Ec; try discriminate. destruct Cl as [C1 C2].
    injection E as <-; left; cbn;
      (split; [exact Wk|]; split; [exact C1|]; apply clean_upd; [exact C2|]; cbn; intros b0; apply (C2 l b0), (nth_error_In _ _ En)).
  - destruct (s_ph s) as [| |m0 ls| | | |] eqn:Ph; try discriminate. destruct (forallb line_done ls); [|discriminate].
    injection E as <-. left. cbn. split; [exact Wk|apply Cl].
  - destruct (s_mp s) eqn:Mp; try discriminate. destruct (s_ph s) as [|m0 ds|m0 ls|m0 st| | |] eqn:Ph; try discriminate;
      injection E as <-; left; cbn; rewrite Ph; (split; [exact Wk|]).
    + discriminate.
    + split; [discriminate|apply Cl].
    + destruct st; auto; discriminate.
  - destruct (s_ph s) as [| | |m0 []| | |] eqn:Ph; try discriminate. destruct (s_mp s) eqn:Mp; try discriminate; injection E as <-.
    + left. cbn. auto.
    + congruence.
  - destruct (s_ph s) as [| | |m0 []| | |] eqn:Ph; try discriminate. injection E as <-. left. cbn. auto.
  - destruct (s_ph s) as [| | |m0 []| | |] eqn:Ph; try discriminate. injection E as <-. left. cbn. auto.
  - destruct (s_ph s) as [| | |m0 []| | |] eqn:Ph; try discriminate. injection E as <-. left. cbn. auto.
  - destruct (s_ph s) as [| | |m0 []| | |] eqn:Ph; try discriminate. injection E as <-. left. cbn. auto.
  - destruct (s_ph s) as [| | | |m0| |] eqn:Ph; try discriminate. injection E as <-. right. subst m0.
    split; [reflexivity|]. symmetry. apply Ip.
Qed.

(** ** And some step is always possible *)
Lemma not_all_done ds : all_done_d ds = false -> exists i d, nth_error ds i = Some d /\ d_done d = false.
Proof.
  induction ds as [|d ds IH]; cbn; [discriminate|]. destruct (d_done d) eqn:E; cbn.
  - intros H. destruct (IH H) as (i&x&Hi&Hx). exists (S i), x. auto.
  - intros _. exists 0%nat, d. auto.
Qed.

Lemma not_lines_done ls : forallb line_done ls = false -> exists i l, nth_error ls i = Some l /\ line_done l = false.
Proof.
  induction ls as [|d ds IH]; cbn; [discriminate|]. destruct (line_done d) eqn:E; cbn.
  - intros H. destruct (IH H) as (i&x&Hi&Hx). exists (S i), x. auto.
  - intros _. exists 0%nat, d. auto.
Qed.

Lemma good_enabled c s m : inv c s -> working s m -> clean s ->
  exists l s', good l = true /\ sstep c s l = Some s'.
Proof.
  intros [Iw Il It Ip] Wk Cl. unfold working, clean, phase_inv in *.
  destruct (s_ph s) as [|m0 ds|m0 ls|m0 st|m0| |] eqn:Ph; try contradiction.
  - destruct (all_done_d ds) eqn:Ad.
    + exists LDownAll. cbn. rewrite Ph, Ad. eauto.
    + destruct (not_all_done ds Ad) as (i&d&Hi&Hd). exists (LDown i true). cbn. rewrite Ph, Hi, Hd.
      destruct (dl_iter c (s_wal s) d true); eauto.
  - destruct (forallb line_done ls) eqn:Ad.
    + exists LProcAll. cbn. rewrite Ph, Ad. eauto.
    + destruct (not_lines_done ls Ad) as (i&l&Hi&Hl).
      destruct (l_started l) eqn:Es.
      * unfold line_done in Hl. rewrite Es in Hl. cbn in Hl.
        destruct (l_cur l) as [[b st]|] eqn:Ec.
        -- destruct st.
           ++ exists (LHand i true). cbn. rewrite Ph, Hi, Ec. eauto.
           ++ exists (LGc i). cbn. rewrite Ph, Hi, Ec. eauto.
           ++ exists (LJoin i true). cbn. rewrite Ph, Hi, Ec. eauto.
           ++ exists (LCommit i true). cbn. rewrite Ph, Hi, Ec. eauto.
        -- destruct (l_next l) as [[b []]|] eqn:Ex; [| | |discriminate].
           ++ exists (LPrep i true). cbn. rewrite Ph, Hi, Ex. eauto.
           ++ exists (LTake i). cbn. rewrite Ph, Hi, Ec, Ex. destruct (pop_prep (l_rest l)). eauto.
           ++ exists (LTake i). cbn. rewrite Ph, Hi, Ec, Ex. destruct (pop_prep (l_rest l)). eauto.
      * exists (LBegin i). cbn. rewrite Ph, Hi, Es. destruct (pop_prep (l_rest l)). eauto.
  - destruct st.
    + destruct (s_mp s) eqn:Mp.
      * exists (LPrepM true). cbn. rewrite Ph, Mp. eauto.
      * exists LTakeM. cbn. rewrite Ph, Mp. eauto.
      * congruence.
    + exists (LHandM true). cbn. rewrite Ph. eauto.
    + exists LGcM. cbn. rewrite Ph. eauto.
    + exists (LJoinM true). cbn. rewrite Ph. eauto.
    + exists LCommitM. cbn. rewrite Ph. eauto.
  - exists (LClean true). cbn. rewrite Ph. eauto.
Qed.

(** Every run with an answering environment commits the master block within
    [steps_left] steps, and can always be continued until then. *)
Theorem strider_progress c s m : wf_cfg c -> merge_flag c -> reach c s ->
  working s m -> clean s -> shallow c (s_wal s) m ->
  (exists l s', good l = true /\ sstep c s l = Some s') /\
  forall ls s', Forall (fun l => good l = true) ls -> sexec c s ls = Some s' ->
    (working s' m /\ clean s' /\ (length ls + steps_left s' <= steps_left s)%nat) \/
    exists l1 l2 s1, ls = l1 ++ l2 /\ sexec c s l1 = Some s1 /\ finished c s1 m /\
                     (length l1 <= steps_left s)%nat.
Proof.
  intros W Mf R Wk Cl Sh. split; [eapply good_enabled; eauto; apply (reach_inv c W s R)|].
  intros ls. revert s R Wk Cl Sh. induction ls as [|l ls IH]; intros s R Wk Cl Sh s' Hg E.
  - injection E as <-. left. cbn. auto.
  - cbn in E. destruct (sstep c s l) as [s1|] eqn:E1; [|discriminate].
    inversion Hg as [|? ? Hl Hg']; subst.
    assert (Nc : forall n, l <> LCrash n) by (intros n ->; discriminate Hl).
    assert (I0 := reach_inv c W s R). assert (D0 := reach_depth c s R).
    assert (Dec := steps_decrease c s m l s1 D0 Wk E1 Nc).
    assert (R1 : reach c s1) by (econstructor; eauto).
    destruct (good_step c s m l s1 W Mf I0 D0 Wk Cl Sh Hl E1) as [[Wk1 Cl1]|F].
    + assert (Sh1 : shallow c (s_wal s1) m).
      { eapply shallow_mono; [|exact Sh]. exact (com_mono_step c s l s1 W I0 E1 Nc). }
      destruct (IH s1 R1 Wk1 Cl1 Sh1 s' Hg' E) as [(A&B&D)|(l1&l2&s2&A&B&D&F)].
      * left. cbn. split; [exact A|]. split; [exact B|]. lia.
      * right. exists (l :: l1), l2, s2. subst ls. cbn. rewrite E1. split; [reflexivity|].
        split; [exact B|]. split; [exact D|]. lia.
    + right. exists [l], ls, s1. cbn. rewrite E1. split; [reflexivity|]. split; [reflexivity|].
      split; [exact F|]. lia.
Qed.
