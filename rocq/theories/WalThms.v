(* The nursery with its log and checkpoints is a durable map: theorems. *)
From Coq Require Import NArith ZArith List Bool Lia Permutation.
From Coq Require Import ZifyN ZifyNat ZifyBool.
From Verif Require Import AMap Bytes WalModel WalSpec WalFormat WalNur WalOps WalInv.
Import ListNotations.
Open Scope N_scope.

Lemma idle_read hf k w ds : IdleI hf k w ds -> forall h,
  read_cell k w h = live (k_log k) h /\
  (forall e, aget beqb h (nu_ent (w_nur w)) = Some e -> aget beqb h (k_rows k) = None).
Proof.
  intros (D & _ & _ & _ & _ & NO) h. pose proof (di_map hf k ds D) as G.
  pose proof (no_look _ _ NO h) as L. unfold look in L. unfold read_cell. split.
  - rewrite L. rewrite <- (gm_read _ _ _ G h). unfold rlook. reflexivity.
  - intros e E. rewrite L in E. exact (gm_disj _ _ _ G h e E).
Qed.

(* after a crash at any point the storage opens again, and shows exactly the
   cells of the operations whose batch was written *)
Theorem nursery_recovers hf t k : (forall b, length (hf b) = 32%nat) -> wreach hf t (k, Down) ->
  exists k' w, wopen hf k = Some (k', w) /\ k_log k' = k_log k /\ k_rows k' = k_rows k /\
    forall h, read_cell k' w h = live (k_log k) h.
Proof.
  intros HL H. destruct (open_ok hf HL k (wi_reach hf t _ HL H)) as (k' & w & E & (ds & W) & R & L).
  exists k', w. split; [exact E|]. split; [exact L|]. split; [exact R|]. intros h.
  rewrite <- L. exact (proj1 (idle_read hf k' w ds W h)).
Qed.

(* a running process reads exactly the live cells, and no cell is both in
   the nursery and in a row *)
Theorem nursery_exact hf t k w : (forall b, length (hf b) = 32%nat) -> wreach hf t (k, Idle w) ->
  forall h, read_cell k w h = live (k_log k) h /\
  (forall e, aget beqb h (nu_ent (w_nur w)) = Some e -> aget beqb h (k_rows k) = None).
Proof.
  intros HL H h. destruct (wi_reach hf t _ HL H) as (ds & W). exact (idle_read hf k w ds W h).
Qed.

(* the assertion "nursery insert rewrote existing cell" never fires *)
Theorem nursery_no_abort hf t k w o d puts dels n2 :
  (forall b, length (hf b) = 32%nat) -> wreach hf t (k, Idle w) ->
  op_ok (k_log k) o -> op_delta w o = (d, puts, dels, n2) -> counts_fit w d ->
  op_stage hf w o <> None.
Proof.
  intros HL H OK OD CF. destruct (wi_reach hf t _ HL H) as (ds & W).
  destruct (stage_ok hf k w ds o d puts dels n2 W OK OD CF) as (w' & rec & b & E & _). rewrite E. discriminate.
Qed.

(* what an operation whose batch was written shows is never lost again *)
Inductive wsteps (hf : bytes -> bytes) (t : N) : disk * wphase -> disk * wphase -> Prop :=
| wss_refl s : wsteps hf t s s
| wss_step a b c : wsteps hf t a b -> wstep hf t b c -> wsteps hf t a c.

Lemma wstep_log hf t s s' : (forall b, length (hf b) = 32%nat) -> WI hf s -> wstep hf t s s' ->
  exists more, k_log (fst s') = k_log (fst s) ++ more.
Proof.
  intros HL W H. destruct H; cbn [fst];
    try (exists []; rewrite app_nil_r; reflexivity).
  - exists [b_op b]. reflexivity.
  - exists []. rewrite app_nil_r. destruct (open_ok hf HL k W) as (k2 & w2 & E & _ & _ & L).
    rewrite E in H. injection H as <- <-. exact L.
Qed.

Theorem nursery_durable hf t s k' w' : (forall b, length (hf b) = 32%nat) ->
  wreach hf t s -> wsteps hf t s (k', Idle w') ->
  exists more, forall h, read_cell k' w' h = fold_left live_step more (live (k_log (fst s))) h.
Proof.
  intros HL H ST. remember (k', Idle w') as e eqn:Ee.
  assert (G : wreach hf t e /\ exists more, k_log (fst e) = k_log (fst s) ++ more).
  { clear Ee. induction ST as [s|a b c ST IH STEP].
    - split; [exact H|]. exists []. now rewrite app_nil_r.
    - destruct (IH H) as (R & more & L). split; [exact (wr_step hf t b c R STEP)|].
      destruct (wstep_log hf t b c HL (wi_reach hf t b HL R) STEP) as (m2 & L2).
      exists (more ++ m2). rewrite L2, L, app_assoc. reflexivity. }
  destruct G as (R & more & L). subst e. cbn [fst] in L. exists more. intros h.
  rewrite (proj1 (nursery_exact hf t k' w' HL R h)), L. unfold live. now rewrite fold_left_app.
Qed.

Lemma rows_of_in l p : In p l -> In (nr_hash p, enc_row (nr_idx p) (nr_data p)) (rows_of l).
Proof. intros H. exact (in_map (fun r => (nr_hash r, enc_row (nr_idx r) (nr_data r))) l p H). Qed.

(* a store at round r moves exactly the cells born at r - 100 or before into
   rows *)
Theorem nursery_promotes hf t k w round ins d puts dels n2 w' rec b :
  (forall b, length (hf b) = 32%nat) -> wreach hf t (k, Idle w) ->
  op_ok (k_log k) (OStore round ins) -> op_delta w (OStore round ins) = (d, puts, dels, n2) -> counts_fit w d ->
  op_stage hf w (OStore round ins) = Some (w', rec, b) ->
  (forall h e, aget beqb h (nu_ent (w_nur w)) = Some e ->
     if ne_round e + 100 <=? round
     then aget beqb h (nu_ent (w_nur w')) = None /\ In (h, enc_row (ne_idx e) (ne_data e)) (b_put b)
     else aget beqb h (nu_ent (w_nur w')) = Some e) /\
  (forall h e, aget beqb h (nu_ent (w_nur w')) = Some e -> round < ne_round e + 100) /\
  (forall r, In r ins -> aget beqb (nr_hash r) (nu_ent (w_nur w')) = Some (mkNE (nr_idx r) round (nr_data r))).
Proof.
  intros HL H OK OD CF ST. destruct (wi_reach hf t _ HL H) as (ds & W).
  destruct W as (D & _ & _ & _ & _ & NO). pose proof (di_map hf k ds D) as G.
  pose proof (no_look _ _ NO) as NL. pose proof (no_cov _ _ NO) as CV. pose proof (no_keys _ _ NO) as NK.
  destruct OK as (ND & OKI). cbn [op_delta] in OD.
  destruct (nu_drain round (w_nur w)) as [pr n3] eqn:ED. injection OD as <- <- <- <-.
  destruct (drain_ok _ _ _ _ CV ED) as (NE & PS & PC & PB & _).
  assert (FRESH : forall r, In r ins -> look (w_nur w) (nr_hash r) = None).
  { intros r Hr. destruct (OKI r Hr) as (_ & _ & LV). rewrite NL. exact (proj1 (gm_none _ _ _ _ G LV)). }
  unfold op_stage in ST. cbn [op_delta] in ST. rewrite ED in ST.
  set (d := mkND ins (map nr_hash pr)) in *.
  assert (EV : evalid (look n3) d).
  { split; [exact ND|]. intros r Hr. unfold look. rewrite NE. exact (FRESH r Hr). }
  assert (NW : w_nur (append_node hf (mkWN (w_committed w) (w_ckpt w) (w_size w) n3) d) = n3).
  { unfold append_node. destruct (nd_empty d); reflexivity. }
  rewrite NW in ST. destruct (nu_apply_ok n3 d EV) as (n4 & AP & AL & _).
  rewrite AP in ST. injection ST as <- _ <-. cbn [w_nur b_put].
  assert (LK : forall h, aget beqb h (nu_ent n4) = eapp (look (w_nur w)) d h).
  { intros h. change (look n4 h = eapp (look (w_nur w)) d h). rewrite AL. apply eapp_ext.
    intros h'. unfold look. now rewrite NE. }
  assert (NI : forall h e, look (w_nur w) h = Some e -> ifind h ins = None).
  { intros h e He. apply ifind_none. intros Q. apply in_map_iff in Q. destruct Q as (r & Q1 & Q2).
    rewrite <- Q1, (FRESH r Q2) in He. discriminate. }
  split; [|split].
  - intros h e He. change (look (w_nur w) h = Some e) in He. rewrite LK. unfold eapp. cbn [d nd_ins nd_rem].
    destruct (N.leb_spec (ne_round e + 100) round) as [L|L].
    + assert (I : In h (map nr_hash pr)) by (apply (PC h e He); lia).
      split; [rewrite (proj2 (hmem_in _ _) I); reflexivity|].
      apply in_map_iff in I. destruct I as (p & <- & I). pose proof (PS p I) as Q. rewrite He in Q.
      injection Q as ->. cbn [entry_of ne_idx ne_data]. exact (rows_of_in pr p I).
    + assert (I : ~ In h (map nr_hash pr)).
      { intros I. apply in_map_iff in I. destruct I as (p & <- & I). pose proof (PS p I) as Q.
        rewrite He in Q. injection Q as ->. cbn [entry_of ne_round] in L. pose proof (PB p I). lia. }
      rewrite (proj2 (hmem_false _ _) I), (NI h e He). exact He.
  - intros h e He. rewrite LK in He. unfold eapp in He. cbn [d nd_ins nd_rem] in He.
    destruct (hmem h (map nr_hash pr)) eqn:EM; [discriminate|].
    destruct (ifind h ins) as [r|] eqn:EF.
    + injection He as <-. cbn [entry_of ne_round]. destruct (ifind_some _ _ _ EF) as (Q & _).
      destruct (OKI r Q) as (_ & -> & _). lia.
    + destruct (N.le_gt_cases (ne_round e + 100) round) as [L|L]; [exfalso|exact L].
      apply hmem_false in EM. apply EM. apply (PC h e He); lia.
  - intros r Hr. rewrite LK. unfold eapp. cbn [d nd_ins nd_rem].
    assert (I : ~ In (nr_hash r) (map nr_hash pr)).
    { intros I. apply in_map_iff in I. destruct I as (p & Q & I). pose proof (PS p I) as Q2.
      rewrite Q, (FRESH r Hr) in Q2. discriminate. }
    rewrite (proj2 (hmem_false _ _) I), (ifind_in ins r ND Hr). unfold entry_of.
    destruct (OKI r Hr) as (_ & -> & _). reflexivity.
Qed.

(* preparing a persistent state moves every cell into rows *)
Theorem nursery_flush hf t k w d puts dels n2 w' rec b :
  (forall b, length (hf b) = 32%nat) -> wreach hf t (k, Idle w) ->
  op_delta w OFlush = (d, puts, dels, n2) -> counts_fit w d ->
  op_stage hf w OFlush = Some (w', rec, b) ->
  nu_ent (w_nur w') = [] /\
  forall h, rlook (k_rows (write_batch k b)) h = live (k_log k) h.
Proof.
  intros HL H OD CF ST. pose proof (wi_reach hf t _ HL H) as (ds & W).
  pose proof (stage_ok hf k w ds OFlush d puts dels n2 W Logic.I OD CF) as (w2 & rec2 & b2 & E & _ & WI2 & _).
  rewrite ST in E. injection E as <- <- <-.
  pose proof (write_ok hf _ _ _ WI2) as (ds3 & W3).
  assert (EN : nu_ent (w_nur w') = []).
  { destruct W as (_ & _ & _ & _ & _ & NO). pose proof (no_keys _ _ NO) as NK.
    unfold op_stage in ST. cbn [op_delta] in ST. cbn [op_delta] in OD. injection OD as <- _ _ _.
    set (dd := mkND [] (map nr_hash (nu_snapshot (w_nur w)))) in *.
    assert (NW : w_nur (append_node hf (mkWN (w_committed w) (w_ckpt w) (w_size w) (w_nur w)) dd) = w_nur w).
    { unfold append_node. destruct (nd_empty dd); reflexivity. }
    rewrite NW in ST. destruct (nu_apply_ok (w_nur w) dd) as (n4 & AP & AL & _).
    { split; [constructor|]. intros r []. }
    rewrite AP in ST. injection ST as <- _ _. cbn [w_nur].
    destruct (nu_ent n4) as [|[h e] tl] eqn:E4; [reflexivity|exfalso].
    assert (LH : look n4 h = Some e). { unfold look. rewrite E4. cbn [aget]. now rewrite beqb_refl. }
    rewrite AL in LH. unfold eapp in LH. cbn [dd nd_ins nd_rem ifind] in LH.
    destruct (hmem h (map nr_hash (nu_snapshot (w_nur w)))) eqn:EM; [discriminate|].
    apply hmem_false in EM. apply EM. apply (in_map nr_hash _ _ (snapshot_in _ _ _ LH)). }
  split; [exact EN|]. intros h. pose proof (proj1 (idle_read hf _ _ _ W3 h)) as R.
  unfold read_cell in R. rewrite EN in R. cbn [aget fst] in R. cbn [set_wal write_batch k_rows k_log] in R |- *.
  unfold rlook. rewrite R. unfold live. rewrite fold_left_app.
  assert (OP : b_op b = OFlush).
  { unfold op_stage in ST. cbn [op_delta] in ST. destruct (nu_apply _ _); [|discriminate].
    injection ST as _ _ <-. reflexivity. }
  rewrite OP. reflexivity.
Qed.

(* a checkpoint file that was changed on the disk is not accepted, as long
   as the changed content does not have the hash of the written one *)
Theorem checkpoint_tampered_refused hf k id snap n n' f : (forall b, length (hf b) = 32%nat) ->
  nd_fits (mkND snap []) -> id < 2 ^ 64 -> bytes_ok f ->
  (forall b, hf b = hf (rec_body id (mkND snap [])) -> b = rec_body id (mkND snap [])) ->
  aget N.eqb id (k_files k) = Some f ->
  load_checkpoint hf k id (hf (rec_body id (mkND snap []))) n = Some n' ->
  (exists rest, f = enc_record hf id (mkND snap []) ++ rest) /\ nu_apply n (mkND snap []) = Some n'.
Proof.
  intros HL FI HI BO SP Ef LC. unfold load_checkpoint in LC. rewrite Ef in LC.
  destruct (dec_record hf f) as [[[[rid rhash] d] rest]|] eqn:ED; [|discriminate].
  destruct (N.eqb_spec rid id) as [->|]; [cbn [negb] in LC|discriminate].
  destruct (beqb_spec rhash (hf (rec_body id (mkND snap [])))) as [->|]; [cbn [negb] in LC|discriminate].
  assert (F : f = enc_record hf id (mkND snap []) ++ rest).
  { revert ED. unfold dec_record.
    destruct (take_n 32 f) as [[hash io]|] eqn:E1; [|discriminate].
    destruct (read_le 8 io) as [[plen io2]|] eqn:E2; [|discriminate].
    destruct (2 ^ 64 <=? plen + 8) eqn:E3; [discriminate|].
    destruct (take_n (N.to_nat plen) io2) as [[p r]|] eqn:E4; [|discriminate].
    destruct (beqb_spec (hf (le 8 plen ++ p)) hash) as [EH|]; [cbn [negb]|discriminate].
    destruct (read_le 8 p) as [[i p1]|]; [|discriminate].
    destruct (read_le 4 p1) as [[ni p2]|]; [|discriminate].
    destruct (read_le 4 p2) as [[nrm p3]|]; [|discriminate].
    destruct (dec_inserts (N.to_nat ni) p3) as [[ins p4]|]; [|discriminate].
    destruct (dec_removes (N.to_nat nrm) p4) as [[rem p5]|]; [|discriminate].
    intros [= _ Eh _ Er]. rewrite Eh in EH. subst r.
    apply SP in EH. destruct (take_n_some _ _ _ _ E1) as (F1 & _). destruct (take_n_some _ _ _ _ E4) as (Q & _).
    rewrite Eh in F1. subst f. apply Forall_app in BO. destruct BO as (_ & BO2).
    destruct (read_le_some 8 io plen io2 BO2 E2) as (F2 & _).
    unfold enc_record. change (le 8 (payload_len (mkND snap [])) ++ enc_payload id (mkND snap [])) with (rec_body id (mkND snap [])).
    rewrite <- app_assoc. f_equal. rewrite F2, Q, app_assoc, EH. reflexivity. }
  split; [exists rest; exact F|].
  rewrite F in ED. rewrite (record_roundtrip hf id (mkND snap []) rest HL FI HI) in ED.
  injection ED as <-. exact LC.
Qed.
