(** C03, C04, C37: the TL format of queue diffs, lists of diffs and persistent queue states. *)
From Verif Require Export TlProofs.
From Coq Require Import ZArith ZifyN ZifyNat ZifyBool Lia.
Local Open Scope N_scope.
Local Opaque be le lex de.

(** ** C03 *)
(** The reader accepts exactly the encodings of well-formed diffs, consumes exactly the encoding, and records its hash. *)
Theorem C03_read_exact : forall valid id H l d rest, id < 2 ^ 32 -> bytes_ok l ->
  (r_diff valid id H l = Some (d, rest) <-> diff_wf valid d /\ hashed id H d /\ l = w_diff id d ++ rest).
Proof.
  intros valid id H l d rest Hid Hl. split.
  - intros E. apply (proj2 (c_diff valid id H Hid)) in E as [[H1 H2] H3]; auto.
  - intros (H1 & H2 & ->). apply (proj1 (c_diff valid id H Hid)). auto.
Qed.
Lemma w_diff_set_hash id d h : w_diff id (set_hash d h) = w_diff id d. Proof. reflexivity. Qed.
(** Writing (whatever the recorded hash) and reading back. *)
Theorem C03_roundtrip : forall valid id H d rest, id < 2 ^ 32 -> diff_wf valid d ->
  r_diff valid id H (w_diff id d ++ rest) = Some (set_hash d (H (w_diff id d)), rest).
Proof.
  intros valid id H d rest Hid Hw. rewrite <- (w_diff_set_hash id d (H (w_diff id d))) at 1.
  apply (proj1 (c_diff valid id H Hid)). split; auto.
Qed.

(** *** Rejection: encodings are prefix-free even without the order rules *)
Definition pinj {A} (P : A -> Prop) (w : A -> bytes) : Prop :=
  forall a a' r r', P a -> P a' -> w a ++ r = w a' ++ r' -> a = a' /\ r = r'.
Lemma codec_pinj {A} (P : A -> Prop) w r : codec P w r -> pinj P w.
Proof.
  intros [C _] a a' x x' Ha Ha' E. pose proof (C a x Ha) as E1. rewrite E, C in E1 by auto. injection E1 as -> ->. auto.
Qed.
Lemma pinj_app {A B} (P : A -> Prop) (Q : B -> Prop) w v : pinj P w -> pinj Q v ->
  pinj (fun p : A * B => P (fst p) /\ Q (snd p)) (fun p => w (fst p) ++ v (snd p)).
Proof.
  intros H1 H2 [a b] [a' b'] r r' [Ha Hb] [Ha' Hb'] E. cbn [fst snd] in *. rewrite <- !app_assoc in E.
  apply H1 in E as [-> E]; auto. apply H2 in E as [-> ->]; auto.
Qed.
Lemma pinj_list {A} (P : A -> Prop) (w : A -> bytes) : pinj P w ->
  pinj (fun l => N.of_nat (length l) < 2 ^ 32 /\ Forall P l) (fun l => w_count l ++ concat (map w l)).
Proof.
  intros Hw a a' r r' [Hl Ha] [Hl' Ha'] E. rewrite <- !app_assoc in E.
  apply (codec_pinj _ _ _ c_u32) in E as [En E]; auto. apply Nnat.Nat2N.inj in En. clear Hl Hl'.
  revert a' r r' Ha' En E. induction Ha as [|x a Hx Ha IH]; intros [|x' a'] r r' Ha' En E; try discriminate; auto.
  inversion Ha'; subst. cbn [map concat] in E. rewrite <- !app_assoc in E. apply Hw in E as [-> E]; auto.
  apply IH in E as [-> ->]; auto.
Qed.
Lemma pinj_sub {A} (P Q : A -> Prop) w w' : (forall a, Q a -> P a) -> (forall a, w' a = w a) -> pinj P w -> pinj Q w'.
Proof. intros HP Hw H a a' r r' Ha Ha' E. rewrite !Hw in E. apply H in E; auto. Qed.
Lemma pinj_shard : pinj sh_ok w_shard.
Proof. eapply pinj_sub; [| |exact (codec_pinj _ _ _ (c_shard (fun _ => true)))]; [intros s Hs; split; [exact Hs|reflexivity]|reflexivity]. Qed.
Lemma pinj_proc : pinj (fun m => N.of_nat (length m) < 2 ^ 32 /\ Forall (fun e => sh_ok (fst e) /\ qk_ok (snd e)) m) w_proc.
Proof. exact (pinj_list _ _ (pinj_app _ _ _ _ pinj_shard (codec_pinj _ _ _ c_qk))). Qed.
Lemma pinj_tt : pinj (fun _ : unit => True) (fun _ => []). Proof. exact (codec_pinj _ _ _ c_tt). Qed.
Lemma pinj_parts : pinj parts_range w_parts.
Proof.
  eapply pinj_sub; [| |apply (pinj_list (fun e : N * raset => fst e < 2 ^ 32 /\ (N.of_nat (length (snd e)) < 2 ^ 32 /\ Forall (fun a : raddr * unit => ra_ok (fst a) /\ True) (snd e)))
      (fun e => w_u32 (fst e) ++ w_accounts (snd e)))].
  - intros m [H1 H2]. split; auto. eapply Forall_impl; [|exact H2]. intros e (A & B & D). split; auto. split; auto.
    eapply Forall_impl; [|exact D]. cbn. auto.
  - reflexivity.
  - apply (pinj_app (fun n => n < 2 ^ 32) (fun s : raset => N.of_nat (length s) < 2 ^ 32 /\ Forall (fun a : raddr * unit => ra_ok (fst a) /\ True) s) w_u32 w_accounts (codec_pinj _ _ _ c_u32)).
    eapply pinj_sub; [| |exact (pinj_list _ _ (pinj_app _ _ _ _ (codec_pinj _ _ _ c_ra) pinj_tt))]; [auto|].
    intros s. apply w_accounts_eq.
Qed.
Lemma pinj_msgs : pinj (fun l => N.of_nat (length l) < 2 ^ 32 /\ Forall (fun h => h < 2 ^ 256) l) w_msgs.
Proof. exact (pinj_list _ _ (codec_pinj _ _ _ c_hash)). Qed.

Lemma wf_range valid d : diff_wf valid d -> diff_range d.
Proof.
  intros (H1 & [H2 _] & H3 & (P1 & P2 & P3) & H5 & H6 & H7 & (M1 & M2 & M3) & S & D). unfold diff_range.
  assert (HP : forall m, parts_wf m -> parts_range m).
  { intros m [A B]. split.
    - assert (N.of_nat (length m) <= 2 ^ 16); [|lia]. rewrite <- (map_length fst). apply sorted_len_bound; [now apply (osorted_nodup N.compare N_total)|].
      apply Forall_forall. intros x Hx. apply in_map_iff in Hx as (e & <- & He). rewrite Forall_forall in B. apply (B e He).
    - eapply Forall_impl; [|exact B]. intros e [X (Y & Z & W)]. split; [apply (N.lt_trans _ (2 ^ 16)); [exact X|reflexivity]|]. split; [eapply N.le_lt_trans; [exact W|reflexivity]|exact Z]. }
  split; auto. split; auto. split; auto. split; [split; [lia|eapply Forall_impl; [|exact P2]; intros e [[? _] ?]; auto]|].
  split; auto. split; auto. split; [split; [lia|auto]|]. auto.
Qed.
Lemma pinj_diff id d d' r r' : diff_range d -> diff_range d' -> w_diff id d ++ r = w_diff id d' ++ r' ->
  d = set_hash d' (wd_hash d) /\ r = r'.
Proof.
  intros (A1 & A2 & A3 & A4 & A5 & A6 & A7 & A8 & A9) (B1 & B2 & B3 & B4 & B5 & B6 & B7 & B8 & B9) E.
  unfold w_diff in E. rewrite <- !app_assoc in E.
  apply app_inv_head in E.
  apply (codec_pinj _ _ _ c_hash) in E as [E1 E]; auto. apply pinj_shard in E as [E2 E]; auto.
  apply (codec_pinj _ _ _ c_u32) in E as [E3 E]; auto. apply pinj_proc in E as [E4 E]; auto.
  apply (codec_pinj _ _ _ c_qk) in E as [E5 E]; auto. apply (codec_pinj _ _ _ c_qk) in E as [E6 E]; auto.
  apply pinj_msgs in E as [E7 E]; auto. apply pinj_parts in E as [E8 E]; auto. apply pinj_parts in E as [E9 E]; auto.
  split; auto. clear - E1 E2 E3 E4 E5 E6 E7 E8 E9. unfold set_hash. rewrite <- E1, <- E2, <- E3, <- E4, <- E5, <- E6, <- E7, <- E8, <- E9. destruct d; reflexivity.
Qed.
Lemma w_diff_ok id d : bytes_ok (w_diff id d).
Proof.
  assert (C : forall A (f : A -> bytes) l, (forall a, bytes_ok (f a)) -> bytes_ok (concat (map f l))).
  { intros A f l Hf. induction l; cbn; [constructor|]. apply Forall_app. split; [apply Hf|exact IHl]. }
  assert (L : forall n x, bytes_ok (le n x)) by (intros; apply le_ok).
  assert (B : forall n x, bytes_ok (be n x)) by (intros; apply be_ok).
  assert (S : forall s, bytes_ok (w_shard s)) by (intros s; apply Forall_app; split; apply L).
  assert (Q : forall k, bytes_ok (w_qk k)) by (intros k; apply Forall_app; split; [apply L|apply B]).
  assert (R : forall a, bytes_ok (w_ra a)) by (intros k; apply Forall_app; split; [apply L|apply B]).
  assert (P : forall m, bytes_ok (w_parts m)).
  { intros m. apply Forall_app. split; [apply L|apply C]. intros e. apply Forall_app. split; [apply L|]. apply Forall_app.
    split; [apply L|apply C]. intros; apply R. }
  assert (A : forall a b, bytes_ok a -> bytes_ok b -> bytes_ok (a ++ b)) by (intros; apply Forall_app; auto).
  unfold w_diff. apply A; [apply L|]. apply A; [apply B|]. apply A; [apply S|]. apply A; [apply L|]. apply A.
  { apply A; [apply L|]. apply C. intros e. apply A; [apply S|apply Q]. }
  apply A; [apply Q|]. apply A; [apply Q|]. apply A.
  { apply A; [apply L|]. apply C. intros; apply B. }
  apply A; apply P.
Qed.
(** Wire content that breaks any rule is rejected, whatever follows it. *)
Theorem C03_rejects_malformed : forall valid id H d rest, id < 2 ^ 32 -> bytes_ok rest ->
  diff_range d -> ~ diff_wf valid d -> r_diff valid id H (w_diff id d ++ rest) = None.
Proof.
  intros valid id H d rest Hid Hr Hd Hn. destruct (r_diff valid id H (w_diff id d ++ rest)) as [[d' r']|] eqn:E; auto. exfalso.
  apply C03_read_exact in E as (H1 & H2 & E); auto; [|apply Forall_app; split; [apply w_diff_ok|auto]].
  apply pinj_diff in E as [Ed _]; auto; [|eapply wf_range; eauto]. apply Hn. rewrite Ed. exact H1.
Qed.
(** A wrong constructor id and a truncated encoding are rejected. *)
Theorem C03_rejects_wrong_id : forall valid id id' H l, id < 2 ^ 32 -> id' < 2 ^ 32 -> id' <> id -> r_diff valid id H (w_u32 id' ++ l) = None.
Proof.
  intros valid id id' H l Hid Hid' Hn. unfold r_diff. rewrite (proj1 c_u32) by auto. destruct (N.eqb_spec id' id); [contradiction|reflexivity].
Qed.
Theorem C03_rejects_truncated : forall valid id H d p q, id < 2 ^ 32 -> diff_wf valid d -> w_diff id d = p ++ q -> q <> [] ->
  r_diff valid id H p = None.
Proof.
  intros valid id H d p q Hid Hw E Hq. destruct (r_diff valid id H p) as [[d' r']|] eqn:Er; auto. exfalso.
  assert (Hp : bytes_ok p) by (pose proof (w_diff_ok id d) as X; rewrite E in X; now apply Forall_app in X as [X _]).
  apply C03_read_exact in Er as (H1 & H2 & ->); auto. rewrite <- app_assoc in E.
  rewrite <- (app_nil_r (w_diff id d)) in E. apply pinj_diff in E as [_ E]; [|eapply wf_range; eauto..].
  symmetry in E. apply app_eq_nil in E as [_ ->]. congruence.
Qed.

(** The typed wrapper: exactly one diff for the named block and nothing after it. *)
Theorem C03_deserialize : forall valid id H s n data d, id < 2 ^ 32 -> bytes_ok data ->
  (stuff_deserialize valid id H s n data = Some d <->
   diff_wf valid d /\ data = w_diff id d /\ wd_hash d = H data /\ wd_shard d = s /\ wd_seqno d = n).
Proof.
  intros valid id H s n data d Hid Hl. unfold stuff_deserialize. split.
  - destruct (r_diff valid id H data) as [[d' rest]|] eqn:E; [|discriminate]. apply C03_read_exact in E as (H1 & H2 & E); auto.
    destruct (sh_eqb_spec s (wd_shard d')) as [->|]; [|discriminate]. destruct (N.eqb_spec n (wd_seqno d')) as [->|]; [|discriminate]. cbn [andb negb].
    destruct rest; [|discriminate]. rewrite app_nil_r in E. intros [= <-]. split; [exact H1|]. rewrite w_diff_set_hash. auto.
  - intros (H1 & -> & H2 & <- & <-). pose proof (C03_roundtrip valid id H d [] Hid H1) as R. rewrite app_nil_r in R. rewrite R.
    cbn [set_hash wd_shard wd_seqno]. rewrite sh_eqb_refl, N.eqb_refl. cbn [andb negb].
    rewrite <- H2. destruct d; reflexivity.
Qed.
(** The builder's bytes read back as the builder's diff, whatever the order of the message hashes. *)
Theorem C03_builder : forall valid id H sh seqno prev proc src dst mn mx hs d data, id < 2 ^ 32 ->
  build_diff id H sh seqno prev proc src dst mn mx hs = (d, data) ->
  prev < 2 ^ 256 -> sh_ok sh -> valid sh = true -> seqno < 2 ^ 32 -> proc_wf valid proc -> qk_ok mn -> qk_ok mx -> qk_cmp mx mn <> Lt ->
  NoDup hs -> (forall h, In h hs -> 0 < h < 2 ^ 256) -> N.of_nat (length hs) <= 10000000 -> parts_wf src -> parts_wf dst ->
  stuff_deserialize valid id H sh seqno data = Some d /\ (forall h, In h (wd_msgs d) <-> In h hs).
Proof.
  intros valid id H sh seqno prev proc src dst mn mx hs d data Hid E H1 H2 H3 H4 H5 H6 H7 H8 Hn Hh Hl H9 H10.
  injection E as <- <-. set (d := WD 0 _ _ _ _ _ _ _ _ _).
  pose proof (isort_perm hs) as HP. split.
  - apply C03_deserialize; auto; [apply w_diff_ok|]. rewrite w_diff_set_hash. split; [|split; [|split; [|split]]]; auto.
    unfold diff_wf. cbn [set_hash d wd_prev wd_shard wd_seqno wd_proc wd_min wd_max wd_msgs wd_src wd_dst].
    assert (HI : forall h, In h (isort hs) -> 0 < h < 2 ^ 256) by (intros h Hi; apply Hh; eapply Permutation_in; eauto).
    assert (HS : StronglySorted N.lt (isort hs)).
    { pose proof (isort_sorted hs) as S. assert (N : NoDup (isort hs)) by (eapply Permutation_NoDup; [symmetry; exact HP|auto]).
      clear - S N. induction S as [|x l S IH HF]; constructor; inversion N; subst; auto.
      rewrite Forall_forall in *. intros y Hy. specialize (HF y Hy). assert (x <> y) by (intros ->; contradiction). lia. }
    assert (HA : asc 0 (isort hs)) by (constructor; [exact HS|apply Forall_forall; intros h Hi; apply HI in Hi; lia]).
    assert (HB : Forall (fun h => h < 2 ^ 256) (isort hs)) by (apply Forall_forall; intros h Hi; apply HI in Hi; lia).
    rewrite (Permutation_length HP). tauto.
  - intros h. cbn [set_hash d wd_msgs]. split; intros Hi; eapply Permutation_in; try exact Hi; [exact HP|symmetry; exact HP].
Qed.

(** ** C04 *)
Lemma chain_from_iff d ds : chain_from (wd_seqno d) (wd_prev d) ds <-> chain (d :: ds).
Proof.
  revert d. induction ds as [|e ds IH]; intros d; cbn [chain_from].
  - split; auto. intros _ i a b H1 H2. destruct i as [|[]]; discriminate.
  - rewrite IH. unfold chain. split.
    + intros (H1 & H2 & H3) [|i] a b Ha Hb.
      * injection Ha as <-. injection Hb as <-. auto.
      * exact (H3 i a b Ha Hb).
    + intros Hc. destruct (Hc 0%nat d e eq_refl eq_refl) as [H1 H2]. split; auto. split; auto.
      intros i a b Ha Hb. exact (Hc (S i) a b Ha Hb).
Qed.
Theorem C04_read_exact : forall valid id H l ds rest, id < 2 ^ 32 -> bytes_ok l ->
  (r_diffs valid id H l = Some (ds, rest) <->
   diffs_wf valid id H ds /\ exists b, w_diffs id ds = Some b /\ l = b ++ rest).
Proof.
  intros valid id H l ds rest Hid Hl. unfold r_diffs. split.
  - destruct (r_u32 l) as [[n l1]|] eqn:E1; [|discriminate]. apply (proj2 c_u32) in E1 as [B1 ->]; auto. apply ok_tail in Hl.
    destruct (N.ltb_spec 1000 n); [discriminate|]. destruct (N.eqb_spec n 0); [discriminate|]. cbn [orb].
    destruct (r_diff valid id H l1) as [[d l2]|] eqn:E2; [|discriminate]. apply (proj2 (c_diff valid id H Hid)) in E2 as [B2 ->]; auto. apply ok_tail in Hl.
    intros E. apply (diffs_bwd valid id H Hid) in E as (ds' & -> & Hn & -> & Hw & Hc); auto.
    cbn [app]. assert (HL : N.of_nat (length (d :: ds')) = n) by (cbn [length]; lia). split.
    + split; [rewrite HL; lia|]. split; [constructor; auto|]. now apply chain_from_iff.
    + eexists. split; [reflexivity|]. unfold w_count. rewrite HL. cbn [map concat]. now rewrite <- !app_assoc.
  - intros ((Hn & Hw & Hc) & b & Eb & ->). destruct ds as [|d ds]; [discriminate|]. injection Eb as <-.
    rewrite <- app_assoc. unfold w_count. rewrite (proj1 c_u32) by lia.
    destruct (N.ltb_spec 1000 (N.of_nat (length (d :: ds)))); [lia|]. destruct (N.eqb_spec (N.of_nat (length (d :: ds))) 0); [lia|]. cbn [orb].
    inversion Hw; subst. cbn [map concat]. rewrite <- app_assoc, (proj1 (c_diff valid id H Hid)) by auto.
    replace (N.to_nat (N.of_nat (length (d :: ds))) - 1)%nat with (length ds) by (cbn [length]; lia).
    apply (diffs_fwd valid id H Hid ds); auto. now apply chain_from_iff.
Qed.
(** in particular: the hash of every diff but the newest is fixed by the newest *)
Theorem C04_chain_binding : forall valid id H l l' ds ds' r r', id < 2 ^ 32 -> bytes_ok l -> bytes_ok l' ->
  (forall x y, H x = H y -> x = y) ->
  r_diffs valid id H l = Some (ds, r) -> r_diffs valid id H l' = Some (ds', r') ->
  hd_error ds = hd_error ds' -> forall i d d', nth_error ds i = Some d -> nth_error ds' i = Some d' -> d = d'.
Proof.
  intros valid id H l l' ds ds' r r' Hid Hl Hl' Hinj E E' Hh.
  apply C04_read_exact in E as ((_ & W & C) & _); auto. apply C04_read_exact in E' as ((_ & W' & C') & _); auto.
  rewrite Forall_forall in W, W'.
  induction i as [|i IH]; intros d d' E1 E2.
  - destruct ds, ds'; try discriminate. cbn in *. congruence.
  - destruct (nth_error ds i) as [p|] eqn:Ep.
    2:{ exfalso. apply nth_error_None in Ep. assert (nth_error ds (S i) = None) by (apply nth_error_None; lia). congruence. }
    destruct (nth_error ds' i) as [p'|] eqn:Ep'.
    2:{ exfalso. apply nth_error_None in Ep'. assert (nth_error ds' (S i) = None) by (apply nth_error_None; lia). congruence. }
    specialize (IH p p' eq_refl eq_refl). subst p'. destruct (C i p d Ep E1) as [_ A]. destruct (C' i p d' Ep' E2) as [_ A'].
    destruct (W d (nth_error_In _ _ E1)) as [V1 V2]. destruct (W' d' (nth_error_In _ _ E2)) as [V3 V4]. unfold hashed in *.
    assert (Eb : w_diff id d ++ [] = w_diff id d' ++ []) by (f_equal; apply Hinj; congruence).
    apply pinj_diff in Eb as [Eb _]; [|eapply wf_range; eauto..]. rewrite Eb, A, <- A'. destruct d'; reflexivity.
Qed.

(** ** C37: persistent queue state *)
Lemma pad_len n : (if n mod 4 =? 0 then [] else firstn (N.to_nat (4 - n mod 4)) [0; 0; 0]) = repeat 0 (N.to_nat (padding n)).
Proof.
  unfold padding. pose proof (N.mod_bound_pos n 4 ltac:(lia) ltac:(lia)) as B.
  assert (C : n mod 4 = 0 \/ n mod 4 = 1 \/ n mod 4 = 2 \/ n mod 4 = 3) by lia. destruct C as [->|[->|[->| ->]]]; reflexivity.
Qed.
Lemma w_big_eq b : w_big b = w_u32 (N.of_nat (length b)) ++ b ++ repeat 0 (N.to_nat (padding (N.of_nat (length b)))).
Proof. unfold w_big. now rewrite pad_len. Qed.
(** every chunk is padded to four bytes *)
Theorem C37_aligned : forall b, exists k, length (w_big b) = (4 * k)%nat.
Proof.
  intros b. rewrite w_big_eq, !app_length, repeat_length. unfold w_u32. rewrite le_length. unfold padding.
  set (n := N.of_nat (length b)). pose proof (N.div_mod n 4 ltac:(lia)) as D. pose proof (N.mod_bound_pos n 4 ltac:(lia) ltac:(lia)) as B.
  assert (C : n mod 4 = 0 \/ n mod 4 = 1 \/ n mod 4 = 2 \/ n mod 4 = 3) by lia.
  assert (L : length b = N.to_nat n) by (unfold n; lia). rewrite L.
  destruct C as [E|[E|[E|E]]]; rewrite E in *; [exists (1 + N.to_nat (n / 4))%nat|exists (2 + N.to_nat (n / 4))%nat..];
    [change (N.to_nat ((4 - 0) mod 4)) with 0%nat|change (N.to_nat ((4 - 1) mod 4)) with 3%nat|change (N.to_nat ((4 - 2) mod 4)) with 2%nat|change (N.to_nat ((4 - 3) mod 4)) with 1%nat]; lia.
Qed.
(** a chunk on the wire: length, data and padding bytes of any value *)
Definition big_wire (b pad : bytes) : bytes := w_u32 (N.of_nat (length b)) ++ b ++ pad.
Definition pad_ok (b pad : bytes) : Prop := N.of_nat (length pad) = padding (N.of_nat (length b)).
Lemma r_big_iff max l b rest : max < 2 ^ 32 -> bytes_ok l ->
  (r_big max l = Some (b, rest) <-> N.of_nat (length b) <= max /\ exists pad, pad_ok b pad /\ l = big_wire b pad ++ rest).
Proof.
  intros Hm Hl. unfold r_big. split.
  - destruct (r_u32 l) as [[n l1]|] eqn:E1; [|discriminate]. apply (proj2 c_u32) in E1 as [B1 ->]; auto.
    destruct (N.ltb_spec max n); [discriminate|]. destruct (N.ltb_spec (N.of_nat (length l1)) (n + padding n)); [discriminate|].
    intros [= <- <-]. assert (L : length (firstn (N.to_nat n) l1) = N.to_nat n) by (rewrite firstn_length; lia).
    split; [lia|]. exists (firstn (N.to_nat (padding n)) (skipn (N.to_nat n) l1)). unfold pad_ok, big_wire. rewrite L, Nnat.N2Nat.id.
    split; [rewrite firstn_length, skipn_length; lia|]. rewrite <- !app_assoc. f_equal.
    rewrite <- (firstn_skipn (N.to_nat n) l1) at 1. f_equal.
    rewrite <- (firstn_skipn (N.to_nat (padding n)) (skipn (N.to_nat n) l1)) at 1. f_equal.
    rewrite N.add_comm, Nnat.N2Nat.inj_add.
    assert (SK : forall (A : Type) a b (x : list A), skipn a (skipn b x) = skipn (a + b) x).
    { intros A a b. revert a. induction b; intros a x; [now rewrite Nat.add_0_r|]. destruct x; [now rewrite !skipn_nil|].
      rewrite <- plus_n_Sm. cbn [skipn]. apply IHb. }
    apply SK.
  - intros (Hb & pad & Hp & ->). unfold big_wire. rewrite <- !app_assoc, (proj1 c_u32) by lia.
    destruct (N.ltb_spec max (N.of_nat (length b))); [lia|]. unfold pad_ok in Hp.
    destruct (N.ltb_spec (N.of_nat (length (b ++ pad ++ rest))) (N.of_nat (length b) + padding (N.of_nat (length b)))) as [X|_]; [rewrite !app_length in X; lia|].
    rewrite <- Hp. do 2 f_equal.
    + rewrite Nnat.Nat2N.id. replace (length b) with (length b + 0)%nat by lia. now rewrite firstn_app_2, firstn_O, app_nil_r.
    + replace (N.to_nat (N.of_nat (length b) + N.of_nat (length pad))) with (length (b ++ pad) + 0)%nat by (rewrite app_length; lia).
      rewrite app_assoc, skipn_app. rewrite skipn_all2 by lia. cbn [app]. now replace (length (b ++ pad) + 0 - length (b ++ pad))%nat with 0%nat by lia.
Qed.
Definition chunks_wire (cs pads : list bytes) : bytes := w_count cs ++ concat (map (fun p => big_wire (fst p) (snd p)) (combine cs pads)).
Definition chunks_ok (cs : list bytes) : Prop := N.of_nat (length cs) <= 10000000 /\ Forall (fun c => N.of_nat (length c) <= 100 * 2 ^ 20) cs.

Lemma chunks_fwd cs : forall pads items rest, Forall2 pad_ok cs pads -> Forall (fun c => N.of_nat (length c) <= max_chunk) cs ->
  bytes_ok (concat (map (fun p => big_wire (fst p) (snd p)) (combine cs pads)) ++ rest) ->
  r_chunks_loop (length cs) items (concat (map (fun p => big_wire (fst p) (snd p)) (combine cs pads)) ++ rest) = Some (items ++ cs, rest).
Proof.
  induction cs as [|c cs IH]; intros pads items rest HF Hc Hb; inversion HF; subst; cbn [length r_chunks_loop combine map concat fst snd].
  - now rewrite app_nil_r.
  - inversion Hc; subst. cbn [combine map concat fst snd] in Hb. rewrite <- app_assoc in *.
    rewrite (proj2 (r_big_iff max_chunk _ c (concat (map (fun p => big_wire (fst p) (snd p)) (combine cs l')) ++ rest) ltac:(unfold max_chunk; lia) Hb)); [|split; eauto].
    rewrite IH; auto; [now rewrite <- app_assoc|]. now apply ok_tail in Hb.
Qed.
Lemma chunks_bwd n : forall items l cs' rest, bytes_ok l -> r_chunks_loop n items l = Some (cs', rest) ->
  exists cs pads, cs' = items ++ cs /\ length cs = n /\ Forall2 pad_ok cs pads /\ Forall (fun c => N.of_nat (length c) <= max_chunk) cs /\
    l = concat (map (fun p => big_wire (fst p) (snd p)) (combine cs pads)) ++ rest.
Proof.
  induction n as [|n IH]; intros items l cs' rest Hl; cbn [r_chunks_loop].
  - intros [= <- <-]. exists [], []. rewrite app_nil_r. split; auto.
  - destruct (r_big max_chunk l) as [[b l1]|] eqn:E1; [|discriminate].
    apply (proj1 (r_big_iff max_chunk l b l1 ltac:(unfold max_chunk; lia) Hl)) in E1 as [B1 (pad & Hp & ->)]. apply ok_tail in Hl.
    intros E. apply IH in E as (cs & pads & -> & Hn & HF & Hc & ->); auto. exists (b :: cs), (pad :: pads). rewrite <- app_assoc.
    split; auto. split; [cbn; lia|]. split; [constructor; auto|]. split; [constructor; auto|]. cbn [combine map concat fst snd]. now rewrite <- app_assoc.
Qed.
Lemma r_chunks_iff l cs rest : bytes_ok l ->
  (r_chunks l = Some (cs, rest) <-> chunks_ok cs /\ exists pads, Forall2 pad_ok cs pads /\ l = chunks_wire cs pads ++ rest).
Proof.
  intros Hl. unfold r_chunks. split.
  - destruct (r_u32 l) as [[n l1]|] eqn:E1; [|discriminate]. apply (proj2 c_u32) in E1 as [B1 ->]; auto. apply ok_tail in Hl.
    destruct (N.ltb_spec 10000000 n); [discriminate|]. intros E. apply chunks_bwd in E as (cs' & pads & -> & Hn & HF & Hc & ->); auto.
    cbn [app]. split; [split; [lia|exact Hc]|]. exists pads. split; auto. unfold chunks_wire, w_count. rewrite <- app_assoc, Hn, Nnat.N2Nat.id. reflexivity.
  - intros ([Hn Hc] & pads & HF & ->). unfold chunks_wire, w_count in *. rewrite <- app_assoc in *. rewrite (proj1 c_u32) by lia. apply ok_tail in Hl.
    destruct (N.ltb_spec 10000000 (N.of_nat (length cs))); [lia|]. rewrite Nnat.Nat2N.id. now apply (chunks_fwd cs pads []).
Qed.
Lemma w_chunks_wire cs : w_chunks cs = chunks_wire cs (map (fun c => repeat 0 (N.to_nat (padding (N.of_nat (length c))))) cs).
Proof.
  unfold w_chunks, chunks_wire. f_equal. f_equal. induction cs as [|c cs IH]; [reflexivity|]. cbn [map combine fst snd]. f_equal; [apply w_big_eq|exact IH].
Qed.
Lemma zero_pads_ok cs : Forall2 pad_ok cs (map (fun c => repeat 0 (N.to_nat (padding (N.of_nat (length c))))) cs).
Proof. induction cs; cbn [map]; constructor; auto. unfold pad_ok. rewrite repeat_length. lia. Qed.

Definition hdr_wf (valid : shard -> bool) (id : N) (H : bytes -> N) (h : whdr) : Prop :=
  (sh_ok (wh_shard h) /\ valid (wh_shard h) = true) /\ wh_seqno h < 2 ^ 32 /\ diffs_wf valid id H (wh_diffs h).
Section ST.
  Context (valid : shard -> bool) (id hid sid : N) (H : bytes -> N) (Hid : id < 2 ^ 32) (Hhid : hid < 2 ^ 32) (Hsid : sid < 2 ^ 32).
  Lemma r_hdr_iff l h rest : bytes_ok l ->
    (r_hdr valid id hid H l = Some (h, rest) <-> hdr_wf valid id H h /\ exists b, w_hdr id hid h = Some b /\ l = b ++ rest).
  Proof.
    intros Hl. unfold r_hdr, w_hdr. split.
    - destruct (r_u32 l) as [[i l1]|] eqn:E1; [|discriminate]. apply (proj2 c_u32) in E1 as [B1 ->]; auto. apply ok_tail in Hl.
      destruct (N.eqb_spec i hid) as [->|]; [|discriminate]. cbn [negb].
      destruct (r_shard valid l1) as [[s l2]|] eqn:E2; [|discriminate]. apply (proj2 (c_shard valid)) in E2 as [B2 ->]; auto. apply ok_tail in Hl.
      destruct (r_u32 l2) as [[n l3]|] eqn:E3; [|discriminate]. apply (proj2 c_u32) in E3 as [B3 ->]; auto. apply ok_tail in Hl.
      destruct (r_diffs valid id H l3) as [[ds l4]|] eqn:E4; [|discriminate]. apply C04_read_exact in E4 as [B4 (b & Eb & ->)]; auto.
      intros [= <- <-]. cbn [wh_shard wh_seqno wh_diffs]. rewrite Eb. split; [split; cbn [wh_shard wh_seqno wh_diffs]; auto|].
      eexists. split; [reflexivity|]. now rewrite <- !app_assoc.
    - intros [(H1 & H2 & H3) (b & Eb & ->)]. destruct (w_diffs id (wh_diffs h)) as [b'|] eqn:Ew; [|discriminate]. injection Eb as <-.
      rewrite <- !app_assoc in *. rewrite (proj1 c_u32) by auto. rewrite N.eqb_refl. cbn [negb]. rewrite (proj1 (c_shard valid)) by auto. rewrite (proj1 c_u32) by auto.
      rewrite (proj2 (C04_read_exact valid id H (b' ++ rest) (wh_diffs h) rest Hid ltac:(do 3 apply ok_tail in Hl; exact Hl))); [destruct h; reflexivity|].
      split; auto. exists b'. auto.
  Qed.
End ST.
(** A persistent state is accepted exactly when it is a well-formed header followed by length-prefixed chunks within the limits;
    the padding bytes are not checked. *)
Theorem C37_state_exact : forall valid id hid sid H l s rest, id < 2 ^ 32 -> hid < 2 ^ 32 -> sid < 2 ^ 32 -> bytes_ok l ->
  (r_state valid id hid sid H l = Some (s, rest) <->
   hdr_wf valid id H (ws_hdr s) /\ chunks_ok (ws_msgs s) /\
   exists b pads, w_hdr id hid (ws_hdr s) = Some b /\ Forall2 pad_ok (ws_msgs s) pads /\
     l = w_u32 sid ++ b ++ chunks_wire (ws_msgs s) pads ++ rest).
Proof.
  intros valid id hid sid H l s rest Hid Hhid Hsid Hl. unfold r_state. split.
  - destruct (r_u32 l) as [[i l1]|] eqn:E1; [|discriminate]. apply (proj2 c_u32) in E1 as [B1 ->]; auto. apply ok_tail in Hl.
    destruct (N.eqb_spec i sid) as [->|]; [|discriminate]. cbn [negb].
    destruct (r_hdr valid id hid H l1) as [[h l2]|] eqn:E2; [|discriminate].
    apply (r_hdr_iff valid id hid H Hid Hhid) in E2 as [B2 (b & Eb & ->)]; auto. apply ok_tail in Hl.
    destruct (r_chunks l2) as [[cs l3]|] eqn:E3; [|discriminate]. apply r_chunks_iff in E3 as [B3 (pads & Hp & ->)]; auto.
    intros [= <- <-]. cbn [ws_hdr ws_msgs]. split; auto. split; auto. exists b, pads. auto.
  - intros (H1 & H2 & b & pads & Eb & Hp & ->). rewrite (proj1 c_u32) by auto. rewrite N.eqb_refl. cbn [negb]. apply ok_tail in Hl.
    rewrite (proj2 (r_hdr_iff valid id hid H Hid Hhid (b ++ chunks_wire (ws_msgs s) pads ++ rest) (ws_hdr s) (chunks_wire (ws_msgs s) pads ++ rest) Hl)); [|split; eauto].
    apply ok_tail in Hl. rewrite (proj2 (r_chunks_iff _ (ws_msgs s) rest Hl)); [destruct s; reflexivity|]. split; eauto.
Qed.
Theorem C37_state_roundtrip : forall valid id hid sid H s b rest, id < 2 ^ 32 -> hid < 2 ^ 32 -> sid < 2 ^ 32 -> bytes_ok (b ++ rest) ->
  hdr_wf valid id H (ws_hdr s) -> chunks_ok (ws_msgs s) -> w_state id hid sid s = Some b ->
  r_state valid id hid sid H (b ++ rest) = Some (s, rest).
Proof.
  intros valid id hid sid H s b rest Hid Hhid Hsid Hb H1 H2 E. apply C37_state_exact; auto. split; auto. split; auto.
  unfold w_state in E. destruct (w_hdr id hid (ws_hdr s)) as [hb|] eqn:Eh; [|discriminate]. injection E as <-.
  eexists hb, _. split; auto. split; [apply zero_pads_ok|]. now rewrite <- !app_assoc, w_chunks_wire.
Qed.

(** ** Concrete cases *)
Definition exv (s : shard) := negb (sh_prefix s =? 0).
Definition exH (b : bytes) : N := N.of_nat (length b).
Definition exd1 : wdiff := WD 0 7 (SH (-1) (2 ^ 63)) 5 [(SH (-1) (2 ^ 63), QK 1 17); (SH 0 (2 ^ 63), QK 9 34)] (QK 1 17) (QK 12 3) [3; 17]
  [(1, [(RA 0 5, tt); (RA 1 2, tt)])] [(2, [])].
Definition exd : wdiff := set_hash exd1 (exH (w_diff 11 exd1)).
Definition exd2 : wdiff := let d := WD 0 (wd_hash exd) (SH (-1) (2 ^ 63)) 6 [] (QK 0 0) (QK 0 0) [] [] [] in set_hash d (exH (w_diff 11 d)).
Ltac solve_forall := repeat constructor; cbn; try lia; auto.
Example exd_wf : diff_wf exv exd /\ hashed 11 exH exd /\ wd_hash exd = 404.
Proof.
  split; [|split; [reflexivity|vm_compute; reflexivity]].
  unfold diff_wf, exd, exd1, set_hash, proc_wf, parts_wf, accts_wf, asc, qk_ok, sh_ok, ra_ok.
  cbn [wd_prev wd_shard wd_seqno wd_proc wd_min wd_max wd_msgs wd_src wd_dst qk_lt qk_hash sh_wc sh_prefix].
  repeat match goal with |- _ /\ _ => split end; try reflexivity; try lia; try discriminate; solve_forall.
Qed.
Example exd2_wf : diffs_wf exv 11 exH [exd2; exd].
Proof.
  split; [cbn; lia|]. split.
  - constructor; [|constructor; [|constructor]; split; apply exd_wf]. split; [|reflexivity].
    unfold diff_wf, exd2, set_hash, proc_wf, parts_wf, accts_wf, asc, qk_ok, sh_ok, ra_ok.
    cbn [wd_prev wd_shard wd_seqno wd_proc wd_min wd_max wd_msgs wd_src wd_dst qk_lt qk_hash sh_wc sh_prefix].
    repeat match goal with |- _ /\ _ => split end; try reflexivity; try lia; try discriminate; solve_forall.
  - intros [|[|i]] d e Ha Hb; try discriminate; injection Ha as <-; injection Hb as <-; split; reflexivity.
Qed.
(** the hash 0 or a repeated hash is malformed *)
Example exd_bad : diff_range (WD 0 7 (SH (-1) (2 ^ 63)) 5 [] (QK 1 1) (QK 1 1) [3; 3] [] []) /\
  ~ diff_wf exv (WD 0 7 (SH (-1) (2 ^ 63)) 5 [] (QK 1 1) (QK 1 1) [3; 3] [] []).
Proof.
  split.
  - unfold diff_range, parts_range, qk_ok, sh_ok.
    cbn [wd_prev wd_shard wd_seqno wd_proc wd_min wd_max wd_msgs wd_src wd_dst qk_lt qk_hash sh_wc sh_prefix].
    repeat match goal with |- _ /\ _ => split end; try reflexivity; try lia; solve_forall.
  - intros (_ & _ & _ & _ & _ & _ & _ & (_ & A & _) & _). cbn [wd_msgs] in A. inversion A as [|? ? A' _]; subst. inversion A' as [|? ? _ F]; subst.
    inversion F; subst. lia.
Qed.
Example ex_state_accepts : exists b, w_state 11 12 13 (WS (WH (SH 0 (2 ^ 63)) 6 [exd2; exd]) [[1; 2; 3]; []]) = Some b /\
  r_state exv 11 12 13 exH b = Some (WS (WH (SH 0 (2 ^ 63)) 6 [exd2; exd]) [[1; 2; 3]; []], []).
Proof. eexists. split; [reflexivity|]. vm_compute. reflexivity. Qed.

Print Assumptions C03_read_exact.
Print Assumptions C03_roundtrip.
Print Assumptions C03_rejects_malformed.
Print Assumptions C03_rejects_wrong_id.
Print Assumptions C03_rejects_truncated.
Print Assumptions C03_deserialize.
Print Assumptions C03_builder.
Print Assumptions C04_read_exact.
Print Assumptions C04_chain_binding.
Print Assumptions C37_aligned.
Print Assumptions C37_state_exact.
Print Assumptions C37_state_roundtrip.
