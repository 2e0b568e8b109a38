(* The invariant of disk and process, kept by every step and every crash. *)
From Coq Require Import NArith ZArith List Bool Lia Permutation.
From Coq Require Import ZifyN ZifyNat ZifyBool.
From Verif Require Import AMap Bytes WalModel WalSpec WalFormat WalNur WalOps.
Import ListNotations.
Open Scope N_scope.

Definition e0 : emap := fun _ => None.
Definition Cn (ds : list ndelta) : N := N.of_nat (length ds).
Definition Kn (k : disk) : N := or0 (k_ckpt k).
Definition rec_body (id : N) (d : ndelta) : bytes := le 8 (payload_len d) ++ enc_payload id d.

Definition snap_ok (snap : list nrec) (E : emap) : Prop :=
  nd_fits (mkND snap []) /\ NoDup (map nr_hash snap) /\
  forall h, option_map entry_of (ifind h snap) = E h.

Record DI (hf : bytes -> bytes) (k : disk) (ds : list ndelta) : Prop := {
  di_c : or0 (k_committed k) = Cn ds;
  di_k : Kn k <= Cn ds;
  di_ver : (k_version k = None /\ Cn ds = 0 /\ Kn k = 0 /\ k_hash k = None) \/
           (k_version k = Some STATE_VERSION /\ Bool.eqb (0 <? Kn k) (is_some (k_hash k)) = true);
  di_ck : 0 < Kn k -> exists snap,
    aget N.eqb (Kn k) (k_files k) = Some (enc_record hf (Kn k) (mkND snap [])) /\
    k_hash k = Some (hf (rec_body (Kn k) (mkND snap []))) /\
    snap_ok snap (erun e0 (firstn (N.to_nat (Kn k)) ds));
  di_ev : evrun e0 ds;
  di_fits : Forall nd_fits ds;
  di_map : good_map (erun e0 ds) (k_rows k) (live (k_log k));
  di_u64 : Cn ds < 2 ^ 64
}.

Definition log_bytes (hf : bytes -> bytes) (k : disk) (ds : list ndelta) : bytes :=
  encs hf (Kn k + 1) (skipn (N.to_nat (Kn k)) ds).

Record node_ok (n : nursery) (E : emap) : Prop := {
  no_look : forall h, look n h = E h;
  no_keys : nkeys n;
  no_cov : cov n
}.

Definition IdleI (hf : bytes -> bytes) (k : disk) (w : wnode) (ds : list ndelta) : Prop :=
  DI hf k ds /\ w_committed w = Cn ds /\ w_ckpt w = Kn k /\
  k_wal k = Some (log_bytes hf k ds) /\ w_size w = N.of_nat (length (log_bytes hf k ds)) /\
  node_ok (w_nur w) (erun e0 ds).

Definition ck_bytes (hf : bytes -> bytes) (ds : list ndelta) (snap : list nrec) : bytes :=
  enc_record hf (Cn ds) (mkND snap []).

Definition WI (hf : bytes -> bytes) (s : disk * wphase) : Prop :=
  let k := fst s in
  match snd s with
  | Down => exists ds tail, DI hf k ds /\ (Kn k < Cn ds -> k_wal k = Some (log_bytes hf k ds ++ tail))
  | Idle w => exists ds, IdleI hf k w ds
  | Staged w b => exists ds d,
      DI hf k ds /\ nd_fits d /\ evalid (erun e0 ds) d /\ Cn ds + 1 < 2 ^ 64 /\
      w_committed w = Cn (if nd_empty d then ds else ds ++ [d]) /\ w_ckpt w = Kn k /\
      k_wal k = Some (log_bytes hf k (if nd_empty d then ds else ds ++ [d])) /\
      w_size w = N.of_nat (length (log_bytes hf k (if nd_empty d then ds else ds ++ [d]))) /\
      node_ok (w_nur w) (eapp (erun e0 ds) d) /\
      b_committed b = (if nd_empty d then None else Some (w_committed w)) /\
      good_map (eapp (erun e0 ds) d) (del_rows (b_del b) (put_rows (b_put b) (k_rows k))) (live (k_log k ++ [b_op b]))
  | CkTmp w hash => exists ds snap, IdleI hf k w ds /\ Kn k < Cn ds /\ snap_ok snap (erun e0 ds) /\
      aget N.eqb (Cn ds) (k_tmp k) = Some (ck_bytes hf ds snap) /\ hash = hf (rec_body (Cn ds) (mkND snap []))
  | CkRenamed w hash => exists ds snap, IdleI hf k w ds /\ Kn k < Cn ds /\ snap_ok snap (erun e0 ds) /\
      aget N.eqb (Cn ds) (k_files k) = Some (ck_bytes hf ds snap) /\ hash = hf (rec_body (Cn ds) (mkND snap []))
  | CkState w => exists ds, DI hf k ds /\ Kn k = Cn ds /\ w_committed w = Cn ds /\ w_ckpt w = Kn k /\
      node_ok (w_nur w) (erun e0 ds)
  | CkClean w => exists ds, IdleI hf k w ds
  end.

Lemma idle_down hf k w ds : IdleI hf k w ds -> WI hf (k, Down).
Proof.
  intros (D & _ & _ & W & _). exists ds, []. split; [exact D|]. intros _. now rewrite app_nil_r.
Qed.

Lemma log_bytes_snoc hf k ds d : Kn k <= Cn ds ->
  log_bytes hf k (ds ++ [d]) = log_bytes hf k ds ++ enc_record hf (Cn ds + 1) d.
Proof.
  intros H. unfold log_bytes, Cn in *. rewrite skipn_app.
  replace (N.to_nat (Kn k) - length ds)%nat with O by lia. cbn [skipn].
  rewrite encs_app. cbn [encs]. rewrite app_nil_r. do 2 f_equal. rewrite skipn_length. lia.
Qed.

Lemma wi_crash hf k p : WI hf (k, p) -> WI hf (k, Down).
Proof.
  destruct p as [|w|w b|w h|w h|w|w]; intros H; cbn [WI fst snd] in H.
  - exact H.
  - destruct H as (ds & H). now apply (idle_down hf k w ds).
  - destruct H as (ds & d & D & _ & _ & _ & _ & _ & W & _). exists ds.
    destruct (nd_empty d).
    + exists []. split; [exact D|]. intros _. cbn [fst]. now rewrite app_nil_r.
    + exists (enc_record hf (Cn ds + 1) d). split; [exact D|]. intros _. cbn [fst]. rewrite W.
      now rewrite log_bytes_snoc by (apply (di_k hf k ds D)).
  - destruct H as (ds & snap & H & _). now apply (idle_down hf k w ds).
  - destruct H as (ds & snap & H & _). now apply (idle_down hf k w ds).
  - destruct H as (ds & D & E & _). exists ds, []. split; [exact D|]. intros L. cbn [fst] in *. rewrite E in L. lia.
  - destruct H as (ds & H). now apply (idle_down hf k w ds).
Qed.

Lemma DI_wal hf k ds w : DI hf k ds -> DI hf (set_wal k w) ds.
Proof. intros [A B C D E F G H]. constructor; assumption. Qed.
Lemma DI_tmp hf k ds t : DI hf k ds ->
  DI hf (mkDisk (k_version k) (k_committed k) (k_ckpt k) (k_hash k) (k_rows k) (k_wal k) (k_files k) t (k_log k)) ds.
Proof. intros [A B C D E F G H]. constructor; assumption. Qed.

(* ---- opening ---- *)
Lemma load_state_ok hf k ds : DI hf k ds -> load_state k = Some (Cn ds, Kn k, k_hash k).
Proof.
  intros D. unfold load_state. rewrite (di_c hf k ds D). fold (Kn k).
  pose proof (di_k hf k ds D) as HK.
  destruct (di_ver hf k ds D) as [(V & C0 & K0 & H0)|(V & HB)]; rewrite V.
  - destruct (N.ltb_spec (Cn ds) (Kn k)); [lia|]. rewrite C0, K0, H0. reflexivity.
  - rewrite N.eqb_refl. cbn [negb]. destruct (N.ltb_spec (Cn ds) (Kn k)); [lia|]. now rewrite HB.
Qed.

Lemma load_ck_ok hf (HL : forall b, length (hf b) = 32%nat) k ds : DI hf k ds -> 0 < Kn k ->
  exists h n, k_hash k = Some h /\ load_checkpoint hf k (Kn k) h nu_new = Some n /\
    node_ok n (erun e0 (firstn (N.to_nat (Kn k)) ds)).
Proof.
  intros D HK. destruct (di_ck hf k ds D HK) as (snap & F & H & (SF & SN & SL)).
  exists (hf (rec_body (Kn k) (mkND snap []))). unfold load_checkpoint. rewrite F.
  assert (KB : Kn k < 2 ^ 64) by (eapply N.le_lt_trans; [apply (di_k hf k ds D)|apply (di_u64 hf k ds D)]).
  rewrite <- (app_nil_r (enc_record hf (Kn k) (mkND snap []))).
  rewrite (record_roundtrip hf (Kn k) (mkND snap []) [] HL SF KB).
  rewrite N.eqb_refl. unfold rec_body. rewrite beqb_refl. cbn [negb nd_rem].
  destruct (nu_apply_ok nu_new (mkND snap [])) as (n & E & L & NK & CV).
  { split; [exact SN|]. intros r _. reflexivity. }
  exists n. rewrite E. split; [exact H|]. split; [reflexivity|]. constructor.
  - intros h. rewrite L. unfold eapp. cbn [nd_ins nd_rem]. change (hmem h []) with false. cbv iota.
    rewrite <- SL. destruct (ifind h snap); reflexivity.
  - apply NK. constructor.
  - apply CV. intros h e Hl. discriminate.
Qed.

Lemma open_ok hf (HL : forall b, length (hf b) = 32%nat) k : WI hf (k, Down) ->
  exists k' w, wopen hf k = Some (k', w) /\ WI hf (k', Idle w) /\
    k_rows k' = k_rows k /\ k_log k' = k_log k.
Proof.
  intros (ds & tail & D & HW). cbn [fst] in *. unfold wopen. rewrite (load_state_ok hf k ds D).
  pose proof (di_k hf k ds D) as HK.
  assert (LD : exists n, (if 0 <? Kn k then match k_hash k with None => None | Some h => load_checkpoint hf k (Kn k) h nu_new end
      else Some nu_new) = Some n /\ node_ok n (erun e0 (firstn (N.to_nat (Kn k)) ds))).
  { destruct (N.ltb_spec 0 (Kn k)) as [L|L].
    - destruct (load_ck_ok hf HL k ds D L) as (h & n & E & EL & NO). rewrite E. eauto.
    - exists nu_new. split; [reflexivity|]. replace (Kn k) with 0 by lia. cbn [N.to_nat firstn erun fold_left].
      constructor; [reflexivity|constructor|intros h e H; discriminate]. }
  destruct LD as (n & -> & NO).
  pose proof (evrun_app (firstn (N.to_nat (Kn k)) ds) (skipn (N.to_nat (Kn k)) ds) e0) as EA.
  rewrite firstn_skipn in EA. pose proof (proj1 EA (di_ev hf k ds D)) as [_ EV2].
  assert (ERN : erun e0 ds = erun (erun e0 (firstn (N.to_nat (Kn k)) ds)) (skipn (N.to_nat (Kn k)) ds)).
  { rewrite <- erun_app, firstn_skipn. reflexivity. }
  destruct (N.eq_dec (Kn k) (Cn ds)) as [EQ|NEQ].
  - rewrite <- EQ, N.eqb_refl. cbn [negb]. rewrite andb_false_r.
    unfold replay_wal. rewrite N.eqb_refl.
    eexists _, _. split; [reflexivity|]. cbn [N.to_nat firstn]. split; [|split; reflexivity].
    exists ds. unfold fst.
    assert (SK : skipn (N.to_nat (Kn k)) ds = []). { rewrite EQ. unfold Cn. rewrite Nat2N.id. apply skipn_all. }
    assert (LB : log_bytes hf (set_wal k (Some [])) ds = []). { unfold log_bytes. change (Kn (set_wal k (Some []))) with (Kn k). rewrite SK. reflexivity. }
    split; [now apply DI_wal|]. cbn [w_committed w_ckpt w_size w_nur]. rewrite LB.
    split; [exact EQ|]. split; [reflexivity|]. split; [reflexivity|]. split; [reflexivity|].
    rewrite ERN, SK. exact NO.
  - assert (LT : Kn k < Cn ds) by lia. specialize (HW LT). rewrite HW. cbn [is_some negb andb].
    unfold replay_wal. destruct (N.eqb_spec (Cn ds) (Kn k)) as [Q|_]; [congruence|].
    pose proof (Forall_forall nd_fits ds) as FF.
    destruct (replay_loop_ok hf HL (skipn (N.to_nat (Kn k)) ds) (S (length (log_bytes hf k ds ++ tail)))
       (N.of_nat (length (log_bytes hf k ds ++ tail))) (Cn ds) (Kn k) (Kn k + 1) (Kn k + 1) tail 0 n)
      as (n' & E & L & NK & CV).
    + unfold log_bytes. lia.
    + rewrite skipn_length. unfold Cn in *. lia.
    + now left.
    + lia.
    + auto.
    + exact LT.
    + apply (di_u64 hf k ds D).
    + unfold log_bytes. lia.
    + unfold log_bytes. lia.
    + apply Forall_forall. intros d Hd. pose proof (di_fits hf k ds D) as F. rewrite Forall_forall in F. apply F.
      rewrite <- (firstn_skipn (N.to_nat (Kn k)) ds). apply in_app_iff. now right.
    + rewrite N.sub_diag. cbn [N.to_nat skipn]. eapply evrun_ext; [|exact EV2]. intros h. symmetry. apply (no_look n _ NO).
    + apply (no_keys n _ NO).
    + apply (no_cov n _ NO).
    + unfold log_bytes at 3. rewrite E. rewrite N.eqb_refl.
      rewrite N.sub_diag in L. cbn [N.to_nat skipn] in L.
      assert (SZ : N.of_nat (length (log_bytes hf k ds ++ tail)) - N.of_nat (length tail) =
                   N.of_nat (length (log_bytes hf k ds))).
      { rewrite app_length. lia. }
      rewrite SZ. eexists _, _. split; [reflexivity|]. split; [|split; reflexivity].
      rewrite Nat2N.id. rewrite firstn_app, Nat.sub_diag, firstn_all, firstn_O, app_nil_r.
      exists ds. unfold fst.
      split; [now apply DI_wal|]. cbn [w_committed w_ckpt w_size w_nur].
      split; [reflexivity|]. split; [reflexivity|]. split; [reflexivity|]. split; [reflexivity|].
      constructor; [|assumption|assumption].
      intros h. rewrite L, ERN. apply erun_ext. intros h'. apply (no_look n _ NO).
Qed.

(* ---- operations ---- *)
Lemma stage_ok hf k w ds o d puts dels n2 : IdleI hf k w ds -> op_ok (k_log k) o ->
  op_delta w o = (d, puts, dels, n2) -> counts_fit w d ->
  exists w' rec b, op_stage hf w o = Some (w', rec, b) /\
    rec = (if nd_empty d then [] else enc_record hf (Cn ds + 1) d) /\
    WI hf (set_wal k (Some (wal_of k ++ rec)), Staged w' b) /\
    (forall h e, look (w_nur w') h = Some e -> look (w_nur w) h = Some e -> ~ In h (nd_rem d)).
Proof.
  intros (D & WC & WK & WW & WS & NO) OK OD CF.
  destruct (op_ok_step (erun e0 ds) (k_rows k) (k_log k) w o d puts dels n2
              (di_map hf k ds D) (no_look _ _ NO) (no_keys _ _ NO) (no_cov _ _ NO) OK OD CF)
    as (EV & FD & NE & GM & CV2).
  unfold op_stage. rewrite OD.
  assert (LK2 : forall h, look n2 h = erun e0 ds h).
  { intros h. unfold look. rewrite NE. apply (no_look _ _ NO). }
  assert (EV2 : evalid (look n2) d).
  { eapply evalid_ext; [|exact EV]. intros h. symmetry. apply LK2. }
  destruct (nu_apply_ok n2 d EV2) as (n' & EA & LA & NKA & CVA).
  assert (WN : w_nur (append_node hf (mkWN (w_committed w) (w_ckpt w) (w_size w) n2) d) = n2).
  { unfold append_node. destruct (nd_empty d); reflexivity. }
  rewrite WN, EA. eexists _, _, _. split; [reflexivity|].
  assert (REC : append_rec hf (mkWN (w_committed w) (w_ckpt w) (w_size w) n2) d =
    (if nd_empty d then [] else enc_record hf (Cn ds + 1) d)).
  { unfold append_rec. cbn [w_committed]. now rewrite WC. }
  split; [exact REC|]. split.
  - exists ds, d. cbn [fst].
    assert (WAL : wal_of k = log_bytes hf k ds) by (unfold wal_of; now rewrite WW).
    assert (LBN : wal_of k ++ append_rec hf (mkWN (w_committed w) (w_ckpt w) (w_size w) n2) d =
                  log_bytes hf k (if nd_empty d then ds else ds ++ [d])).
    { rewrite WAL, REC. destruct (nd_empty d); [apply app_nil_r|].
      now rewrite log_bytes_snoc by (apply (di_k hf k ds D)). }
    split; [now apply DI_wal|]. split; [exact FD|]. split; [exact EV|].
    split; [destruct CF as (_ & _ & CF); now rewrite WC in CF|].
    cbn [w_committed w_ckpt w_size w_nur b_committed b_del b_put b_op].
    change (log_bytes hf (set_wal k (Some (wal_of k ++ append_rec hf (mkWN (w_committed w) (w_ckpt w) (w_size w) n2) d)))
              (if nd_empty d then ds else ds ++ [d])) with (log_bytes hf k (if nd_empty d then ds else ds ++ [d])).
    rewrite <- LBN.
    split; [|split; [|split; [|split; [|split; [|split]]]]].
    + unfold append_node. destruct (nd_empty d); cbn [w_committed]; [exact WC|].
      unfold Cn in *. rewrite app_length. cbn [length]. lia.
    + unfold append_node. destruct (nd_empty d); cbn [w_ckpt]; exact WK.
    + reflexivity.
    + rewrite app_length, WAL. unfold append_node, append_rec. cbn [w_size w_committed].
      destruct (nd_empty d); cbn [w_size length]; rewrite WS; lia.
    + constructor.
      * intros h. rewrite LA. apply eapp_ext. exact LK2.
      * apply NKA. unfold nkeys. rewrite NE. apply (no_keys _ _ NO).
      * apply CVA. intros h e He. apply CV2. now rewrite <- LK2.
    + reflexivity.
    + exact GM.
  - intros h e. cbn [w_nur]. rewrite LA. unfold eapp. destruct (hmem h (nd_rem d)) eqn:HM; [discriminate|].
    intros _ _. now apply hmem_false.
Qed.

Lemma firstn_len_app {A} (a b : list A) : firstn (length a) (a ++ b) = a.
Proof. now rewrite firstn_app, Nat.sub_diag, firstn_all, firstn_O, app_nil_r. Qed.

Lemma write_ok hf k w b : WI hf (k, Staged w b) -> WI hf (write_batch k b, Idle w).
Proof.
  intros (ds & d & D & FD & EV & CB & WC & WK & WW & WS & NO & BC & GM). cbn [fst] in *.
  exists (if nd_empty d then ds else ds ++ [d]). cbn [fst].
  pose proof (di_k hf k ds D) as HK.
  assert (KK : Kn (write_batch k b) = Kn k) by reflexivity.
  assert (LBE : log_bytes hf (write_batch k b) (if nd_empty d then ds else ds ++ [d]) =
                log_bytes hf k (if nd_empty d then ds else ds ++ [d])) by reflexivity.
  split; [|rewrite LBE; split; [exact WC|split; [exact WK|split; [exact WW|split; [exact WS|]]]]].
  2:{ destruct (nd_empty d) eqn:EM.
      - constructor; [|apply (no_keys _ _ NO)|apply (no_cov _ _ NO)]. intros h. rewrite (no_look _ _ NO).
        now apply eapp_empty.
      - rewrite erun_app. exact NO. }
  destruct (nd_empty d) eqn:EM.
  - constructor; cbn [write_batch k_committed k_version k_hash k_files k_rows k_log]; rewrite ?BC, ?KK.
    + apply (di_c hf k ds D).
    + exact HK.
    + apply (di_ver hf k ds D).
    + apply (di_ck hf k ds D).
    + apply (di_ev hf k ds D).
    + apply (di_fits hf k ds D).
    + refine (good_map_ext _ _ _ _ _ _ (fun h => eq_refl) GM). intros h. now apply eapp_empty.
    + apply (di_u64 hf k ds D).
  - assert (CL : Cn (ds ++ [d]) = Cn ds + 1). { unfold Cn. rewrite app_length. cbn [length]. lia. }
    constructor; cbn [write_batch k_committed k_version k_hash k_files k_rows k_log]; rewrite ?BC, ?KK.
    + exact WC.
    + rewrite CL. lia.
    + right. split; [reflexivity|]. destruct (di_ver hf k ds D) as [(V & C0 & K0 & H0)|(V & HB)]; [|exact HB].
      now rewrite K0, H0.
    + intros HP. destruct (di_ck hf k ds D HP) as (snap & A & B & C). exists snap. split; [exact A|]. split; [exact B|].
      replace (firstn (N.to_nat (Kn k)) (ds ++ [d])) with (firstn (N.to_nat (Kn k)) ds); [exact C|].
      rewrite firstn_app. unfold Cn in HK. replace (N.to_nat (Kn k) - length ds)%nat with O by lia.
      cbn [firstn]. now rewrite app_nil_r.
    + apply evrun_app. split; [apply (di_ev hf k ds D)|]. cbn [evrun]. split; [exact EV|exact Logic.I].
    + apply Forall_app. split; [apply (di_fits hf k ds D)|]. constructor; [exact FD|constructor].
    + rewrite erun_app. exact GM.
    + rewrite CL. exact CB.
Qed.

(* ---- checkpoints ---- *)
Lemma snap_of hf k w ds snap : IdleI hf k w ds -> Permutation snap (nu_snapshot (w_nur w)) ->
  N.of_nat (length snap) < 2 ^ 32 -> snap_ok snap (erun e0 ds).
Proof.
  intros (D & _ & _ & _ & _ & NO) P L.
  assert (ND : NoDup (map nr_hash snap)).
  { eapply Permutation_NoDup; [apply Permutation_map; symmetry; exact P|]. apply snapshot_nodup, (no_keys _ _ NO). }
  assert (IN : forall p, In p snap -> erun e0 ds (nr_hash p) = Some (entry_of p)).
  { intros p Hp. rewrite <- (no_look _ _ NO). apply snapshot_look; [apply (no_keys _ _ NO)|].
    eapply Permutation_in; eauto. }
  split; [|split; [exact ND|]].
  - split; [|split; [constructor|split; [exact L|reflexivity]]]. apply Forall_forall. intros p Hp. cbn [nd_ins] in Hp.
    pose proof (gm_fits _ _ _ (di_map hf k ds D) _ _ (IN p Hp)) as F. destruct p; exact F.
  - intros h. destruct (ifind h snap) as [p|] eqn:F; cbn [option_map].
    + apply ifind_some in F as [F <-]. symmetry. now apply IN.
    + destruct (erun e0 ds h) as [e|] eqn:E; [|reflexivity]. exfalso. apply ifind_none in F. apply F.
      rewrite <- (no_look _ _ NO) in E. pose proof (snapshot_in _ _ _ E) as H.
      apply (Permutation_in _ (Permutation_sym P)) in H. apply (in_map nr_hash) in H. exact H.
Qed.

Lemma needed_lt hf t k w ds : IdleI hf k w ds -> ckpt_needed t w = true -> Kn k < Cn ds.
Proof.
  intros (D & WC & WK & _) H. unfold ckpt_needed in H. apply negb_true_iff, orb_false_iff in H as [_ H].
  rewrite WC, WK in H. apply N.eqb_neq in H. pose proof (di_k hf k ds D). lia.
Qed.

Lemma idle_tmp hf k w ds t : IdleI hf k w ds ->
  IdleI hf (mkDisk (k_version k) (k_committed k) (k_ckpt k) (k_hash k) (k_rows k) (k_wal k) (k_files k) t (k_log k)) w ds.
Proof.
  intros (D & WC & WK & WW & WS & NO). split; [now apply DI_tmp|].
  split; [exact WC|]. split; [exact WK|]. split; [exact WW|]. split; [exact WS|exact NO].
Qed.

Lemma wi_step hf t s s' : (forall b, length (hf b) = 32%nat) -> WI hf s -> wstep hf t s s' -> WI hf s'.
Proof.
  intros HL H ST. destruct ST.
  - destruct H as (ds & H). destruct (stage_ok hf k w ds o d puts dels n H H0 H1 H2) as (w2 & rec2 & b2 & E & RE & _).
    rewrite H3 in E. injection E as <- <- <-. cbn [fst] in H. pose proof H as (D & _ & _ & WW & _).
    exists ds, (firstn j rec). cbn [fst]. split; [now apply DI_wal|]. intros _. unfold wal_of. now rewrite WW.
  - destruct H as (ds & H). destruct (stage_ok hf k w ds o d puts dels n H H0 H1 H2) as (w2 & rec2 & b2 & E & RE & W & _).
    rewrite H3 in E. injection E as <- <- <-. exact W.
  - now apply write_ok.
  - destruct H as (ds & H). cbn [fst] in H. apply (idle_down hf _ w ds). now apply idle_tmp.
  - destruct H as (ds & H). cbn [fst] in H. exists ds, snap. cbn [fst].
    pose proof H as (D & WC & _).
    split; [now apply idle_tmp|]. split; [now apply (needed_lt hf t k w ds)|]. split; [now apply (snap_of hf k w ds)|].
    unfold ckpt_rec. rewrite WC. split; [|apply (enc_record_hash hf _ _ HL)].
    cbn [ck_tmp k_tmp]. rewrite (aget_aset N.eqb N.eqb_spec), N.eqb_refl. reflexivity.
  - destruct H as (ds & snap & (D & WC & WK & WW & WS & NO) & LT & SO & AT & HH). cbn [fst] in *.
    exists ds, snap. cbn [fst]. rewrite WC. unfold ck_rename. rewrite AT.
    set (k' := mkDisk _ _ _ _ _ _ _ _ _).
    assert (GF : forall i, aget N.eqb i (k_files k') = if i =? Cn ds then Some (ck_bytes hf ds snap) else aget N.eqb i (k_files k)).
    { intros i. unfold k'. cbn [k_files]. apply (aget_aset N.eqb N.eqb_spec). }
    assert (D' : DI hf k' ds).
    { destruct D as [A B C D0 E F G I0]. constructor; try assumption.
      change (Kn k') with (Kn k). intros HP. destruct (D0 HP) as (sn & Q1 & Q2 & Q3). exists sn.
      split; [|split; assumption]. rewrite GF. destruct (N.eqb_spec (Kn k) (Cn ds)); [lia|exact Q1]. }
    split; [split; [exact D'|split; [exact WC|split; [exact WK|split; [exact WW|split; [exact WS|exact NO]]]]]|].
    split; [exact LT|]. split; [exact SO|]. split; [|exact HH]. rewrite GF, N.eqb_refl. reflexivity.
  - destruct H as (ds & snap & (D & WC & WK & WW & WS & NO) & LT & SO & AF & HH). cbn [fst] in *.
    exists ds. cbn [fst]. rewrite WC. set (k' := ck_state k (Cn ds) hash).
    assert (KK : Kn k' = Cn ds) by reflexivity.
    assert (D' : DI hf k' ds).
    { destruct D as [A B C D0 E F G I0]. constructor; try assumption.
      - rewrite KK. lia.
      - right. split; [reflexivity|]. rewrite KK. cbn [k' ck_state k_hash is_some].
        destruct (N.ltb_spec 0 (Cn ds)); [reflexivity|lia].
      - intros _. exists snap. rewrite KK. split; [exact AF|]. split; [cbn [k' ck_state k_hash]; now rewrite HH|].
        unfold Cn. rewrite Nat2N.id, firstn_all. exact SO. }
    split; [exact D'|]. split; [exact KK|]. cbn [ck_node w_committed w_ckpt w_nur]. rewrite KK.
    split; [exact WC|]. split; [exact WC|exact NO].
  - destruct H as (ds & D & KC & WC & WK & NO). cbn [fst] in *. exists ds. cbn [fst].
    assert (LB : log_bytes hf (ck_truncate k) ds = []).
    { unfold log_bytes. change (Kn (ck_truncate k)) with (Kn k). rewrite KC. unfold Cn. rewrite Nat2N.id, skipn_all. reflexivity. }
    split; [now apply DI_wal|]. cbn [ck_node_done w_committed w_ckpt w_size w_nur]. rewrite LB.
    split; [exact WC|]. split; [exact WK|]. split; [reflexivity|]. split; [reflexivity|exact NO].
  - destruct H as (ds & (D & WC & WK & WW & WS & NO)). cbn [fst] in *. exists ds. cbn [fst].
    split; [|split; [exact WC|split; [exact WK|split; [exact WW|split; [exact WS|exact NO]]]]].
    destruct D as [A B C D0 E F G I0]. constructor; try assumption.
    change (Kn (ck_remove_file k id)) with (Kn k). intros HP. destruct (D0 HP) as (sn & Q1 & Q2 & Q3). exists sn.
    split; [|split; assumption]. cbn [ck_remove_file k_files]. rewrite (aget_adel N.eqb N.eqb_spec).
    destruct (N.eqb_spec (Kn k) id); [congruence|exact Q1].
  - destruct H as (ds & H). exists ds. cbn [fst] in *. now apply idle_tmp.
  - exact H.
  - now apply (wi_crash hf k p).
  - destruct H as (ds & tail & D & HW). cbn [fst] in *. exists ds, tail. cbn [fst]. split; [now apply DI_wal|].
    intros L. specialize (HW L). congruence.
  - destruct (open_ok hf HL k H) as (k2 & w2 & E & W & _). rewrite H0 in E. injection E as <- <-. exact W.
Qed.

Lemma wi_reach hf t s : (forall b, length (hf b) = 32%nat) -> wreach hf t s -> WI hf s.
Proof.
  intros HL H. induction H as [|s s' H IH ST]; [|now apply (wi_step hf t s s')].
  exists [], []. cbn [fst]. split; [|intros L; cbn in L; lia].
  constructor; cbn [disk_new k_committed k_version k_hash k_files k_rows k_log].
  - reflexivity.
  - reflexivity.
  - left. repeat split.
  - intros L. cbn in L. lia.
  - exact Logic.I.
  - constructor.
  - constructor; intros h.
    + reflexivity.
    + intros e Q. discriminate.
    + intros v Q. discriminate.
    + intros e Q. discriminate.
  - reflexivity.
Qed.
