(** Property C25: reference counted values. *)
From Verif Require Import RefcountModel.
Local Open Scope Z_scope.
Local Opaque le de_le to_u to_i be de.

(** Specification: what a sequence of writes means. *)
Definition delta (w : write) : Z := match w with WAdd rc _ | WInc rc => Z.of_N rc | WDec rc => - Z.of_N rc end.
Definition count (ws : list write) : Z := fold_right Z.add 0 (map delta ws).
(** total number of references ever added or removed *)
Definition volume (ws : list write) : Z := fold_right Z.add 0 (map (fun w => Z.abs (delta w)) ws).
(** The discipline of the writers: all payloads written under the key are [P] (keys are content hashes); the count never gets
    negative; and a write that makes a dead value alive carries the payload. *)
Definition disciplined (P : bytes) (ws : list write) : Prop :=
  (forall d rc, In (WAdd rc d) ws -> d = P) /\
  (forall a b, ws = a ++ b -> 0 <= count a) /\
  (forall a w b, ws = a ++ w :: b -> count a = 0 -> 0 < delta w -> exists rc, w = WAdd rc P).

Lemma count_app a b : count (a ++ b) = count a + count b.
Proof. unfold count. induction a as [|x a IH]; cbn [app map fold_right]; lia. Qed.
Lemma volume_app a b : volume (a ++ b) = volume a + volume b.
Proof. unfold volume. induction a as [|x a IH]; cbn [app map fold_right]; lia. Qed.
Lemma volume_nonneg a : 0 <= volume a.
Proof. unfold volume. induction a as [|x a IH]; cbn [map fold_right]; lia. Qed.
Lemma count_volume a : Z.abs (count a) <= volume a.
Proof. unfold count, volume. induction a as [|x a IH]; cbn [map fold_right]; lia. Qed.

Definition i64 (z : Z) : Prop := - 2 ^ 63 <= z < 2 ^ 63.
Lemma rc_rt z : i64 z -> rc_of (rc_bytes z) = z.
Proof.
  intros H. unfold rc_of, rc_bytes. rewrite de_le_le; [apply to_i_to_u; [reflexivity|exact H]|].
  pose proof (to_u_bound 64 z). change (256 ^ N.of_nat 8)%N with (2 ^ 64)%N. exact H0.
Qed.
Lemma rc_len z : length (rc_bytes z) = 8%nat.
Proof. apply le_length. Qed.
Lemma decode_rc z p : i64 z -> decode_value_with_rc (rc_bytes z ++ p) = (z, if 0 <? z then match p with [] => None | _ => Some p end else None).
Proof.
  intros H. unfold decode_value_with_rc. rewrite (take_n_app 8 _ _ (rc_len z)), rc_rt by exact H.
  destruct p as [|x p]; [now destruct (0 <? z)|]. destruct (Z.leb_spec z 0), (Z.ltb_spec 0 z); auto; lia.
Qed.

Lemma match_ne (p : bytes) : p <> [] -> match p with [] => None | _ :: _ => Some p end = Some p.
Proof. destruct p; congruence. Qed.

Section Abs.
  Context (P : bytes) (HP : P <> []).

  Definition pay (p : option bytes) : Prop := p = None \/ p = Some P.
  (** [valid0 s]: the segment starts at count 0 and is disciplined *)
  Definition valid0 (s : list write) : Prop :=
    (forall a b, s = a ++ b -> 0 <= count a) /\
    (forall a w b, s = a ++ w :: b -> count a = 0 -> 0 < delta w -> exists rc, w = WAdd rc P).
  Definition running (s : list write) (x : Z * option bytes) : Prop :=
    fst x = count s /\ pay (snd x) /\ (valid0 s -> 0 < count s -> snd x = Some P).
  Definition absv (s : list write) (x : Z * option bytes) : Prop :=
    running s x /\ (fst x <= 0 -> snd x = None).

  Lemma valid0_l s t : valid0 (s ++ t) -> valid0 s.
  Proof.
    intros [A B]. split.
    - intros a b ->. apply (A a (b ++ t)). now rewrite app_assoc.
    - intros a w b ->. apply (B a w (b ++ t)). now rewrite <- app_assoc.
  Qed.
  Lemma valid0_r s t : valid0 (s ++ t) -> count s = 0 -> valid0 t.
  Proof.
    intros [A B] E. split.
    - intros a b ->. specialize (A (s ++ a) b). rewrite count_app in A. rewrite app_assoc in A. specialize (A eq_refl). lia.
    - intros a w b -> E2. specialize (B (s ++ a) w b). rewrite <- app_assoc in B. rewrite count_app in B. apply B; auto; lia.
  Qed.

  Lemma running_step s t acc o :
    running s acc -> absv t (decode_value_with_rc o) -> running (s ++ t) (merge_step acc o).
  Proof.
    intros (A & B & C) ((D & E & F) & G). destruct acc as [rc p]. unfold merge_step. destruct (decode_value_with_rc o) as [d q].
    cbn [fst snd] in *. subst rc d. split; [cbn [fst]; now rewrite count_app|]. cbn [snd].
    split.
    - destruct p; auto. destruct (0 <? count t); [exact E|now left].
    - intros V Pos. rewrite count_app in Pos. destruct p as [p|]; [destruct B as [B|B]; congruence|].
      assert (count s = 0).
      { assert (0 <= count s) by (apply (proj1 (valid0_l _ _ V) s []); now rewrite app_nil_r).
        destruct (Z.eq_dec (count s) 0); auto. specialize (C (valid0_l _ _ V) ltac:(lia)). discriminate. }
      assert (0 < count t) by lia. destruct (Z.ltb_spec 0 (count t)); [|lia]. apply F; auto. eapply valid0_r; eauto.
  Qed.

  Lemma fold_running : forall ops segs s acc, running s acc ->
    Forall2 (fun o g => absv g (decode_value_with_rc o)) ops segs ->
    running (s ++ concat segs) (fold_left merge_step ops acc).
  Proof.
    induction ops as [|o ops IH]; intros segs s acc R F; inversion F; subst; cbn [fold_left concat].
    - now rewrite app_nil_r.
    - rewrite app_assoc. apply IH; auto. apply running_step; auto.
  Qed.

  Lemma running_nil : running [] (0, None).
  Proof. split; [reflexivity|]. split; [now left|]. cbn [count map fold_right]. lia. Qed.

  Definition base_abs (s : list write) (e : option bytes) : Prop :=
    match e with None => s = [] | Some b => absv s (decode_value_with_rc b) end.

  Lemma merge_abs e s ops segs : base_abs s e ->
    Forall2 (fun o g => absv g (decode_value_with_rc o)) ops segs -> volume (s ++ concat segs) < 2 ^ 63 ->
    absv (s ++ concat segs) (decode_value_with_rc (merge_operator e ops)) /\
    (strip_refcount (merge_operator e ops) = None <-> count (s ++ concat segs) <= 0) /\
    (valid0 (s ++ concat segs) -> 0 < count (s ++ concat segs) -> strip_refcount (merge_operator e ops) = Some P).
  Proof.
    intros B F V. set (w := s ++ concat segs) in *.
    assert (R : running w (fold_left merge_step ops match e with None => (0, None) | Some b => decode_value_with_rc b end)).
    { apply fold_running; auto. destruct e as [b|]; [apply B|rewrite B; apply running_nil]. }
    unfold merge_operator. destruct (fold_left merge_step ops _) as [rc p]. destruct R as (A & C & D). cbn [fst snd] in *.
    pose proof (count_volume w) as CV. assert (I : i64 rc) by (unfold i64; subst rc; lia).
    destruct (Z.compare_spec rc 0) as [E|E|E].
    - subst rc. unfold decode_value_with_rc, strip_refcount. cbn [take_n]. unfold absv, running. cbn [fst snd].
      split; [split; [split; [lia|split; [now left|lia]]|auto]|]. split; [split; auto; lia|lia].
    - split; [|split].
      + rewrite <- (app_nil_r (rc_bytes rc)), decode_rc by exact I. destruct (Z.ltb_spec 0 rc); [lia|].
        split; cbn [fst snd]; auto. split; auto. cbn [fst snd]. split; [now left|lia].
      + unfold strip_refcount. rewrite <- (app_nil_r (rc_bytes rc)), (take_n_app 8 _ _ (rc_len rc)), rc_rt by exact I.
        destruct (Z.ltb_spec 0 rc); [lia|]. split; auto; lia.
      + lia.
    - split; [|split].
      + rewrite decode_rc by exact I. destruct (Z.ltb_spec 0 rc); [|lia]. split; cbn [fst snd]; [|lia].
        split; auto. cbn [snd]. split.
        * destruct C as [->| ->]; [now left|]. right. exact (match_ne P HP).
        * intros V0 Pos. rewrite (D V0 Pos). exact (match_ne P HP).
      + unfold strip_refcount. rewrite (take_n_app 8 _ _ (rc_len rc)), rc_rt by exact I.
        destruct (Z.ltb_spec 0 rc); [|lia]. split; [discriminate|lia].
      + intros V0 Pos. unfold strip_refcount. rewrite (take_n_app 8 _ _ (rc_len rc)), rc_rt by exact I.
        destruct (Z.ltb_spec 0 rc); [|lia]. now rewrite (D V0 Pos).
  Qed.

  Lemma operand_abs w : write_ok w -> (forall rc d, w = WAdd rc d -> d = P) -> absv [w] (decode_value_with_rc (operand w)).
  Proof.
    intros O HD.
    assert (I : i64 (delta w)) by (destruct w; cbn [delta write_ok] in *; unfold i64; lia).
    assert (CW : count [w] = delta w) by (unfold count; cbn [map fold_right]; lia).
    unfold absv, running. rewrite CW.
    destruct w as [rc d|rc|rc]; cbn [operand delta] in *.
    - rewrite decode_rc by exact I. cbn [fst snd]. rewrite (HD _ _ eq_refl). destruct (Z.ltb_spec 0 (Z.of_N rc)).
      + split; [split; [auto|split; [right; exact (match_ne P HP)|intros _ _; exact (match_ne P HP)]]|lia].
      + split; [split; [auto|split; [now left|lia]]|auto].
    - rewrite <- (app_nil_r (rc_bytes _)), decode_rc by exact I. cbn [fst snd].
      split; [split; [auto|split; [destruct (_ <? _); now left|]]|now destruct (_ <? _)].
      intros [_ V] Pos. destruct (V [] (WInc rc) [] eq_refl eq_refl Pos) as (? & ?). discriminate.
    - rewrite <- (app_nil_r (rc_bytes _)), decode_rc by exact I. cbn [fst snd].
      split; [split; [auto|split; [destruct (_ <? _); now left|lia]]|now destruct (_ <? _)].
  Qed.

  Definition cell_abs (ws : list write) (c : cell) : Prop :=
    exists s segs, ws = s ++ concat segs /\ base_abs s (c_base c) /\
      Forall2 (fun o g => absv g (decode_value_with_rc o)) (c_ops c) segs.

  Lemma Forall2_app_split {A B} (R : A -> B -> Prop) a b l : Forall2 R (a ++ b) l -> exists x y, l = x ++ y /\ Forall2 R a x /\ Forall2 R b y.
  Proof. intros H. apply Forall2_app_inv_l in H. destruct H as (x & y & ? & ? & ?). eauto. Qed.

  Lemma hist_abs ws c : hist ws c -> Forall write_ok ws -> (forall rc d, In (WAdd rc d) ws -> d = P) -> volume ws < 2 ^ 63 -> cell_abs ws c.
  Proof.
    induction 1 as [|ws c w c' H IH S|ws c c' H IH S]; intros O HD V.
    - exists [], []. split; [reflexivity|]. split; [reflexivity|constructor].
    - inversion S; subst. apply Forall_app in O as [O1 O2]. inversion O2; subst. rewrite volume_app in V.
      pose proof (volume_nonneg [w]).
      destruct IH as (s & segs & -> & B & F); auto; [intros; eapply HD; apply in_or_app; left; eassumption|lia|].
      exists s, (segs ++ [[w]]). cbn [c_base c_ops]. split; [rewrite concat_app; cbn [concat]; now rewrite app_nil_r, app_assoc|]. split; auto.
      apply Forall2_app; auto. constructor; [|constructor]. apply operand_abs; auto. intros rc d ->. eapply HD. apply in_or_app. right. now left.
    - destruct (IH O HD V) as (s & segs & E & B & F). inversion S; subst; cbn [c_base c_ops] in *.
      + apply Forall2_app_split in F as (x & y & -> & F1 & F2). apply Forall2_app_split in F2 as (y1 & y2 & -> & F2 & F3).
        exists s, (x ++ concat y1 :: y2). split; [|split; [exact B|]].
        * rewrite !concat_app. cbn [concat]. rewrite ?concat_app. now rewrite ?app_assoc.
        * apply Forall2_app; auto. constructor; auto.
          destruct (merge_abs None [] g y1 eq_refl F2) as (M & _); [|exact M].
          rewrite !concat_app, !volume_app in V. cbn [app]. pose proof (volume_nonneg s). pose proof (volume_nonneg (concat x)). pose proof (volume_nonneg (concat y2)). lia.
      + apply Forall2_app_split in F as (x & y & -> & F1 & F2). exists (s ++ concat x), y. split; [rewrite concat_app; now rewrite app_assoc|]. split; auto.
        cbn [base_abs]. destruct (merge_abs e s a x B F1) as (M & _); [|exact M].
        rewrite concat_app, app_assoc, volume_app in V. pose proof (volume_nonneg (concat y)). lia.
  Qed.

  Lemma read_abs ws c : cell_abs ws c -> volume ws < 2 ^ 63 ->
    match read c with
    | None => ws = []
    | Some b => absv ws (decode_value_with_rc b)
    end.
  Proof.
    intros (s & segs & -> & B & F) V. unfold read. destruct c as [e ops]. cbn [c_base c_ops] in *.
    destruct ops as [|o ops].
    - inversion F; subst. cbn [concat] in *. rewrite app_nil_r. destruct e; exact B.
    - destruct (merge_abs e s (o :: ops) segs B F V) as (M & _). destruct e; exact M.
  Qed.
End Abs.

Lemma strip_decode b : strip_refcount b = if 0 <? fst (decode_value_with_rc b) then Some (match snd (decode_value_with_rc b) with Some p => p | None => [] end) else None.
Proof.
  unfold strip_refcount, decode_value_with_rc. destruct (take_n 8 b) as [[h [|x p]]|]; cbn [fst snd]; auto.
  destruct (Z.leb_spec (rc_of h) 0), (Z.ltb_spec 0 (rc_of h)); cbn [fst snd]; try lia;
    destruct (Z.ltb_spec 0 (rc_of h)); try lia; auto.
Qed.

(** In every history of writes, with partial and full merges at arbitrary moments and in arbitrary groupings, the stored
    count is the sum of the increments, and the value is present exactly when that sum is positive.
    (All payloads equal, total volume below 2^63.) *)
Theorem C25_count_exact : forall P ws c, P <> [] -> hist ws c -> Forall write_ok ws ->
  (forall rc d, In (WAdd rc d) ws -> d = P) -> volume ws < 2 ^ 63 ->
  match read c with
  | None => ws = []
  | Some b => fst (decode_value_with_rc b) = count ws /\ (strip_refcount b <> None <-> 0 < count ws)
  end.
Proof.
  intros P ws c HP H O HD V. pose proof (read_abs P HP ws c (hist_abs P HP ws c H O HD V) V) as R.
  destruct (read c) as [b|]; auto. destruct R as ((E & _) & _). split; auto.
  rewrite strip_decode, E. destruct (Z.ltb_spec 0 (count ws)); split; try discriminate; auto; [congruence|lia].
Qed.

(** A live value keeps its payload under the writers' discipline, whatever the grouping. *)
Theorem C25_live_value_kept : forall P ws c, P <> [] -> hist ws c -> Forall write_ok ws -> volume ws < 2 ^ 63 ->
  disciplined P ws ->
  match read c with
  | None => ws = []
  | Some b => strip_refcount b = if 0 <? count ws then Some P else None
  end.
Proof.
  intros P ws c HP H O V (D1 & D2 & D3). pose proof (read_abs P HP ws c (hist_abs P HP ws c H O (fun rc d => D1 d rc) V) V) as R.
  destruct (read c) as [b|]; auto. destruct R as ((E & _ & F) & _).
  rewrite strip_decode, E. destruct (Z.ltb_spec 0 (count ws)); auto. rewrite F; auto. split; auto.
Qed.

(** Without the "never negative" discipline the grouping is visible: the payload survives one grouping and is lost by another. *)
Theorem C25_transient_negative_refuted : exists ws c1 c2 b1 b2,
  hist ws c1 /\ hist ws c2 /\ Forall write_ok ws /\ volume ws < 2 ^ 63 /\ 0 < count ws /\
  read c1 = Some b1 /\ read c2 = Some b2 /\ strip_refcount b1 = Some [7%N] /\ strip_refcount b2 = Some [].
Proof.
  pose (ws := [WDec 1; WAdd 1 [7%N]; WInc 1]).
  assert (H1 : hist ws (Cell None (map operand ws))).
  { change ws with ((([] ++ [WDec 1]) ++ [WAdd 1 [7%N]]) ++ [WInc 1]).
    eapply HWrite; [eapply HWrite; [eapply HWrite; [apply HStart|apply SWrite]|apply SWrite]|].
    match goal with |- step ?a (Some ?w) ?b => replace b with (Cell (c_base a) (c_ops a ++ [operand w])) by reflexivity end. apply SWrite. }
  eexists ws, _, (Cell None (merge_operator None [operand (WDec 1); operand (WAdd 1 [7%N])] :: [operand (WInc 1)])), _, _.
  split; [exact H1|]. split.
  { eapply HCompact; [exact H1|]. apply (SPartial None [] [operand (WDec 1); operand (WAdd 1 [7%N])] [operand (WInc 1)]). }
  split; [repeat constructor|]. split; [reflexivity|]. split; [reflexivity|].
  split; [reflexivity|]. split; [reflexivity|]. Local Transparent le de_le to_u to_i be de. split; vm_compute; reflexivity.
Qed.

(** a disciplined history with a compaction in the middle *)
Example C25_nonvacuous : exists ws c b, hist ws c /\ Forall write_ok ws /\ volume ws < 2 ^ 63 /\ disciplined [7%N] ws /\
  read c = Some b /\ strip_refcount b = Some [7%N].
Proof.
  pose (o1 := operand (WAdd 1 [7%N])). pose (o2 := operand (WInc 1)). pose (o3 := operand (WDec 1)).
  exists ((([] ++ [WAdd 1 [7%N]]) ++ [WInc 1]) ++ [WDec 1]), (Cell None (o1 :: merge_operator None [o2; o3] :: [])). eexists.
  split.
  { eapply HCompact; [eapply HWrite; [eapply HWrite; [eapply HWrite; [apply HStart|apply SWrite]|apply SWrite]|apply SWrite]|].
    apply (SPartial None [o1] [o2; o3] []). }
  split; [repeat constructor; reflexivity|]. split; [reflexivity|]. split; [|split; [reflexivity|vm_compute; reflexivity]].
  split; [|split].
  - intros d rc [E|[E|[E|[]]]]; congruence.
  - intros a b E. destruct a as [|a1 [|a2 [|a3 [|a4 a]]]]; cbn in E; try (injection E; intros; subst); unfold count; cbn; try lia. discriminate.
  - intros a w b E Z0 Pos. destruct a as [|a1 [|a2 [|a3 a]]]; cbn in E; injection E; intros; subst; eauto; try (unfold count in Z0; cbn in Z0; cbn in Pos; lia).
    destruct a; discriminate.
Qed.

Print Assumptions C25_count_exact. Print Assumptions C25_live_value_kept. Print Assumptions C25_transient_negative_refuted.
