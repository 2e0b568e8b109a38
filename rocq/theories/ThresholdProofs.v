(** Invariants of the threshold model. *)
From Verif Require Import ThresholdModel.
From Coq Require Import Permutation ZArith ZifyN ZifyNat ZifyBool.
Local Open Scope N_scope.
Local Opaque be de.

(** executions in which every event could happen *)
Fixpoint t_exec (t : tstate) (es : list tev) : option tstate :=
  match es with
  | [] => Some t
  | e :: r => if t_enabled t e then match t_step t e with Some t' => t_exec t' r | None => None end else None
  end.
Fixpoint adds (es : list tev) : list pinfo :=
  match es with
  | [] => []
  | EvInc i :: r => i :: adds r
  | _ :: r => adds r
  end.

Definition u8s (c : tcount) : Prop := tc_target c < 256 /\ tc_ready c < 256 /\ tc_delayed c < 256 /\ tc_chan c < 256.
Lemma unpack_pack c : u8s c -> tc_unpack (tc_pack c) = c.
Proof.
  intros (H1 & H2 & H3 & H4). unfold tc_unpack, tc_pack.
  pose proof (be_de [tc_target c; tc_ready c; tc_delayed c; tc_chan c]) as H. cbn [length] in H. rewrite H.
  - now destruct c.
  - repeat constructor; auto.
Qed.

Definition all_of (t : tstate) : list pinfo :=
  t_taken t ++ t_ready t ++ t_delayed t ++ t_chan t ++ t_pending t ++ t_discarded t.

Record t_inv (t : tstate) : Prop := {
  ti_target : t_target t <= 255 /\ t_cap t <= 255;
  ti_count : exists r, r < 256 /\ (t_reached t = false -> r = N.of_nat (length (t_ready t))) /\
     tc_unpack (t_count t) = TC (t_target t) r (N.of_nat (length (t_delayed t)))
       (N.of_nat (length (t_chan t) + length (t_pending t)));
  ti_perm : Permutation (all_of t) (t_added t);
  ti_nodup : NoDup (map pi_author (t_added t));
  ti_size : N.of_nat (length (t_added t)) <= t_cap t;
  ti_reached : t_reached t = true -> t_target t <= N.of_nat (length (t_taken t ++ t_ready t));
  ti_taken : t_reached t = false -> t_taken t = [] }.

Lemma take_nth_perm {A} k : forall (l : list A) x r, take_nth k l = Some (x, r) -> Permutation l (x :: r).
Proof.
  induction k as [|k IH]; intros [|y l] x r; cbn [take_nth]; try discriminate.
  - intros E; injection E as <- <-. reflexivity.
  - destruct (take_nth k l) as [[y' r']|] eqn:E; [|discriminate]. intros E2; injection E2 as <- <-.
    rewrite (IH _ _ _ E). apply perm_swap.
Qed.
Lemma take_nth_some {A} k : forall (l : list A), (k < length l)%nat -> exists x r, take_nth k l = Some (x, r).
Proof.
  induction k as [|k IH]; intros [|y l] H; cbn [take_nth length] in *; try lia; eauto.
  destruct (IH l) as (x & r & ->); [lia|]. eauto.
Qed.

Lemma push_ready_ok rd i : ~ In (pi_author i) (map pi_author rd) -> push_ready rd i = Some (rd ++ [i]).
Proof.
  intros H. unfold push_ready. destruct (existsb _ rd) eqn:E; auto. exfalso. apply H.
  apply existsb_exists in E as (j & Hj & E). apply N.eqb_eq in E. apply in_map_iff. eauto.
Qed.
Lemma push_ready_some rd i rd' : push_ready rd i = Some rd' -> rd' = rd ++ [i].
Proof. unfold push_ready. destruct (existsb _ rd); [discriminate|]. now injection 1. Qed.

(** set_decrease keeps the counters right *)
Lemma set_decrease_some rd del k v tg r d c : tc_unpack v = TC tg r d c -> tg < 256 -> c < 256 ->
  N.of_nat (length rd) <= 255 -> N.of_nat (length del) <= 255 -> k <= c ->
  exists v', set_decrease rd del k v = Some v' /\ tc_unpack v' = TC tg (N.of_nat (length rd)) (N.of_nat (length del)) (c - k).
Proof.
  intros E Ht Hc H1 H2 H3. unfold set_decrease. rewrite E. cbn [tc_target tc_ready tc_delayed tc_chan].
  destruct (255 <? N.of_nat (length rd)) eqn:A1; [lia|]. destruct (255 <? N.of_nat (length del)) eqn:A2; [lia|].
  destruct (c <? k) eqn:A3; [lia|]. cbn [orb]. eexists. split; [reflexivity|]. apply unpack_pack.
  unfold u8s; cbn [tc_target tc_ready tc_delayed tc_chan]. lia.
Qed.

Lemma all_length t : t_inv t -> N.of_nat (length (all_of t)) <= t_cap t.
Proof. intros [_ _ Hp _ Hs _ _]. rewrite (Permutation_length Hp). exact Hs. Qed.

Lemma all_nodup t : t_inv t -> NoDup (map pi_author (all_of t)).
Proof.
  intros H. eapply Permutation_NoDup; [|exact (ti_nodup _ H)]. apply Permutation_map. symmetry. exact (ti_perm _ H).
Qed.

Lemma nodup_app_disj {A} (l r : list A) x : NoDup (l ++ r) -> In x l -> In x r -> False.
Proof.
  induction l as [|a l IH]; cbn; [tauto|]. intros H [->|Hx] Hr; inversion H as [|? ? Hn Hd]; subst.
  - apply Hn. apply in_or_app. auto.
  - now apply IH.
Qed.

Lemma t_new_inv f skew : f <= pc_max -> t_inv (t_new f skew).
Proof.
  intros Hf. unfold pc_max in Hf. assert (f <= 84) by exact Hf. unfold t_new.
  constructor; cbn [t_target t_cap t_count t_reached t_ready t_delayed t_chan t_pending t_added t_taken length map]; unfold majority, full.
  - lia.
  - exists 0. split; [lia|]. split; [reflexivity|]. rewrite N.mod_small by lia. apply unpack_pack.
    unfold u8s. cbn [tc_target tc_ready tc_delayed tc_chan]. lia.
  - reflexivity.
  - constructor.
  - lia.
  - discriminate.
  - reflexivity.
Qed.

Ltac tproj := cbn [t_target t_cap t_skew t_count t_chan t_pending t_reached t_ready t_delayed t_added t_discarded t_taken t_upd] in *.

Ltac tfin := tproj; rewrite ?app_nil_r; (split; [reflexivity|split; [reflexivity|split; [intros; congruence|reflexivity]]]).

Lemma take_delayed_spec mt del : forall rd del' rd', take_delayed mt del rd = Some (del', rd') ->
  exists moved, Permutation del (moved ++ del') /\ rd' = rd ++ moved.
Proof.
  induction del as [|i r IH]; intros rd del' rd'; cbn [take_delayed].
  - intros E; injection E as <- <-. exists []. cbn [app]. rewrite app_nil_r. auto.
  - destruct (0 <? _). { intros E; injection E as <- <-. exists []. cbn [app]. rewrite app_nil_r. auto. }
    destruct (push_ready rd i) as [rd2|] eqn:E; [|discriminate]. apply push_ready_some in E. subst rd2.
    intros E. destruct (IH _ _ _ E) as (mv & Hp & ->). exists (i :: mv). split; [now constructor|]. now rewrite <- app_assoc.
Qed.
Lemma take_delayed_ok mt del : forall rd, NoDup (map pi_author (rd ++ del)) -> exists del' rd', take_delayed mt del rd = Some (del', rd').
Proof.
  induction del as [|i r IH]; intros rd H; cbn [take_delayed]; eauto.
  destruct (0 <? _); eauto. rewrite push_ready_ok.
  - apply IH. now rewrite <- app_assoc.
  - intros Hin. rewrite map_app in H. cbn [map] in H. eapply nodup_app_disj; [exact H|exact Hin|now left].
Qed.
Lemma take_chan_spec mt ch : forall del rd disc del' rd' disc', take_chan mt ch del rd disc = Some (del', rd', disc') ->
  exists md mr mx, Permutation ch (md ++ mr ++ mx) /\ del' = del ++ md /\ rd' = rd ++ mr /\ disc' = disc ++ mx.
Proof.
  induction ch as [|i r IH]; intros del rd disc del' rd' disc'; cbn [take_chan].
  - intros E; injection E as <- <- <-. exists [], [], []. cbn [app]. rewrite !app_nil_r. auto.
  - destruct (too_far <? _).
    { intros E. destruct (IH _ _ _ _ _ _ E) as (md & mr & mx & Hp & -> & -> & ->). exists md, mr, (i :: mx).
      split; [|rewrite <- app_assoc; auto]. rewrite Hp, !app_assoc. apply Permutation_middle. }
    destruct (0 <? _).
    { intros E. destruct (IH _ _ _ _ _ _ E) as (md & mr & mx & Hp & -> & -> & ->). exists (i :: md), mr, mx.
      split; [|rewrite <- app_assoc; auto]. rewrite Hp. reflexivity. }
    destruct (push_ready rd i) as [rd2|] eqn:E; [|discriminate]. apply push_ready_some in E. subst rd2.
    intros E. destruct (IH _ _ _ _ _ _ E) as (md & mr & mx & Hp & -> & -> & ->). exists md, (i :: mr), mx.
    split; [|rewrite <- app_assoc; auto]. rewrite Hp. cbn [app]. apply Permutation_middle.
Qed.
Lemma take_chan_ok mt ch : forall del rd disc, NoDup (map pi_author (rd ++ ch)) ->
  exists r, take_chan mt ch del rd disc = Some r.
Proof.
  induction ch as [|i r IH]; intros del rd disc H; cbn [take_chan]; eauto.
  assert (Hr : NoDup (map pi_author (rd ++ r))).
  { rewrite map_app in *. eapply NoDup_remove_1 with (a := pi_author i). exact H. }
  destruct (too_far <? _); auto. destruct (0 <? _); auto. rewrite push_ready_ok.
  - apply IH. now rewrite <- app_assoc.
  - intros Hin. rewrite map_app in H. cbn [map] in H. eapply nodup_app_disj; [exact H|exact Hin|now left].
Qed.

(** permutation bookkeeping by counting *)
Lemma perm_count (l l' : list pinfo) (dec : forall a b : pinfo, {a = b} + {a <> b}) :
  (forall x, count_occ dec l x = count_occ dec l' x) <-> Permutation l l'.
Proof. symmetry. apply (Permutation_count_occ dec). Qed.
Lemma pi_dec : forall a b : pinfo, {a = b} + {a <> b}.
Proof. decide equality; apply N.eq_dec. Qed.
Ltac permc :=
  repeat match goal with H : Permutation _ _ |- _ => rewrite (Permutation_count_occ pi_dec) in H end;
  rewrite (Permutation_count_occ pi_dec); let x := fresh "x" in intro x;
  repeat match goal with H : forall x : pinfo, count_occ _ _ x = count_occ _ _ x |- _ => specialize (H x) end;
  repeat (rewrite count_occ_app in * || cbn [count_occ] in *);
  repeat match goal with |- context[pi_dec ?a ?b] => destruct (pi_dec a b) | H : context[pi_dec ?a ?b] |- _ => destruct (pi_dec a b) end; lia.

Lemma nodup_perm_pre (l l' pre : list pinfo) : Permutation l l' -> NoDup (map pi_author l) -> (exists post, l' = pre ++ post) -> NoDup (map pi_author pre).
Proof.
  intros Hp Hn (post & ->). pose proof (Permutation_NoDup (Permutation_map pi_author Hp) Hn) as H. rewrite map_app in H.
  clear - H. induction (map pi_author pre) as [|a r IH]; [constructor|]. cbn in H. inversion H; subst. constructor; auto.
  intros Hi; apply H2. apply in_or_app; auto.
Qed.

(** the step preserves the invariant and does not fail *)
Lemma t_step_ok t e : t_inv t -> t_enabled t e = true ->
  (forall i, e = EvInc i -> ~ In (pi_author i) (map pi_author (t_added t)) /\ N.of_nat (length (t_added t)) < t_cap t) ->
  exists t', t_step t e = Some t' /\ t_inv t' /\ t_target t' = t_target t /\ t_cap t' = t_cap t /\
    (t_reached t = true -> t_reached t' = true) /\
    t_added t' = t_added t ++ match e with EvInc i => [i] | _ => [] end.
Proof.
  intros Hinv He Hadd. pose proof (all_length t Hinv) as Hlen. pose proof (all_nodup t Hinv) as Hnd.
  pose proof Hinv as [[Ht Hcap] (r & Hr & Hr0 & Hcnt) Hperm Hn Hsz Hrc Htk].
  unfold all_of in *. rewrite !app_length in Hlen.
  destruct e as [i|k|mt now|k| |k|mt]; cbn [t_step t_enabled] in *.
  - destruct (Hadd i eq_refl) as [Hni Hlt]. clear Hadd.
    assert (Hc255 : N.of_nat (length (t_chan t) + length (t_pending t)) + 1 <= 255).
    { pose proof (Permutation_length Hperm) as HL. rewrite !app_length in HL. lia. }
    unfold add_one_in_channel. rewrite Hcnt. cbn [tc_target tc_ready tc_delayed tc_chan].
    destruct (255 <? _) eqn:E; [lia|]. eexists. split; [reflexivity|]. split; [|tfin].
    constructor; unfold all_of; tproj.
    + auto.
    + exists r. split; auto. split; auto. rewrite unpack_pack; [|unfold u8s; cbn [tc_target tc_ready tc_delayed tc_chan]; lia].
      f_equal. rewrite app_length. cbn [length]. lia.
    + permc.
    + rewrite map_app. cbn [map]. eapply Permutation_NoDup; [apply Permutation_cons_append|]. constructor; auto.
    + rewrite app_length. cbn [length]. lia.
    + auto.
    + auto.
  - destruct (take_nth_some k (t_pending t)) as (i & pend & E); [lia|]. rewrite E.
    pose proof (take_nth_perm _ _ _ _ E) as Hpp. pose proof (Permutation_length Hpp) as HL. cbn [length] in HL.
    destruct (t_cap t <=? _) eqn:Ec; [lia|]. eexists. split; [reflexivity|].
    split; [|tfin].
    constructor; unfold all_of; tproj; auto.
    + exists r. split; auto. split; auto. rewrite Hcnt. f_equal. rewrite app_length. cbn [length]. lia.
    + permc.
  - destruct (t_chan t) as [|i ch] eqn:Ech. { rewrite !andb_true_iff in He. cbn in He. destruct He as [_ He]; discriminate. }
    cbn [length] in *.
    destruct (t_reached t) eqn:Erc; [discriminate|].
    assert (Hni : ~ In (pi_author i) (map pi_author (t_ready t))).
    { intros Hin. rewrite !map_app in Hnd. apply (nodup_app_disj (map pi_author (t_taken t) ++ map pi_author (t_ready t))
        (map pi_author (t_delayed t) ++ map pi_author (i :: ch) ++ map pi_author (t_pending t) ++ map pi_author (t_discarded t)) (pi_author i)).
      - now rewrite <- app_assoc. - apply in_or_app; auto. - cbn [map app]. rewrite !in_app_iff. cbn [In]. auto. }
    destruct (too_far <? _).
    { destruct (set_decrease_some (t_ready t) (t_delayed t) 1 _ _ _ _ _ Hcnt) as (v & -> & Hv); try lia.
      eexists. split; [reflexivity|]. split; [|tfin].
      constructor; unfold all_of; tproj; rewrite ?Erc; auto.
      - exists (N.of_nat (length (t_ready t))). split; [lia|]. split; auto. rewrite Hv. f_equal. lia.
      - permc. }
    set (td := if 0 <? pi_time i - mt then _ else _). destruct (0 <? td).
    { destruct (set_decrease_some (t_ready t) (t_delayed t ++ [i]) 1 _ _ _ _ _ Hcnt) as (v & -> & Hv); rewrite ?app_length; cbn [length]; try lia.
      eexists. split; [reflexivity|]. split; [|tfin].
      constructor; unfold all_of; tproj; rewrite ?Erc; auto.
      - exists (N.of_nat (length (t_ready t))). split; [lia|]. split; auto. rewrite Hv. f_equal; [lia].
      - permc. }
    rewrite push_ready_ok by auto.
    destruct (set_decrease_some (t_ready t ++ [i]) (t_delayed t) 1 _ _ _ _ _ Hcnt) as (v & -> & Hv); rewrite ?app_length; cbn [length]; try lia.
    eexists. split; [reflexivity|]. split; [|tfin].
    constructor; unfold all_of; tproj; rewrite ?Erc; auto.
    + exists (N.of_nat (length (t_ready t ++ [i]))). split; [rewrite app_length; cbn [length]; lia|]. split; auto. rewrite Hv. f_equal; lia.
    + permc.
    + discriminate.
  - destruct (take_nth_some k (t_delayed t)) as (i & del & E); [lia|]. rewrite E.
    pose proof (take_nth_perm _ _ _ _ E) as Hpp. pose proof (Permutation_length Hpp) as HL. cbn [length] in HL.
    destruct (t_reached t) eqn:Erc; [discriminate|].
    assert (Hni : ~ In (pi_author i) (map pi_author (t_ready t))).
    { intros Hin. rewrite !map_app in Hnd. apply (nodup_app_disj (map pi_author (t_taken t) ++ map pi_author (t_ready t))
        (map pi_author (t_delayed t) ++ map pi_author (t_chan t) ++ map pi_author (t_pending t) ++ map pi_author (t_discarded t)) (pi_author i)).
      - now rewrite <- app_assoc. - apply in_or_app; auto.
      - apply in_or_app. left. apply in_map. eapply Permutation_in; [symmetry; exact Hpp|now left]. }
    rewrite push_ready_ok by auto.
    destruct (set_decrease_some (t_ready t ++ [i]) del 0 _ _ _ _ _ Hcnt) as (v & -> & Hv); rewrite ?app_length; cbn [length]; try lia.
    eexists. split; [reflexivity|]. split; [|tfin].
    constructor; unfold all_of; tproj; rewrite ?Erc; auto.
    + exists (N.of_nat (length (t_ready t ++ [i]))). split; [rewrite app_length; cbn [length]; lia|]. split; auto. rewrite Hv. f_equal; lia.
    + permc.
    + discriminate.
  - destruct (t_reached t) eqn:Erc.
    + eexists. split; [reflexivity|]. split; [auto|tfin].
    + destruct (t_target t <=? _) eqn:Et; (eexists; split; [reflexivity|]; split; [|tfin]); auto.
      constructor; unfold all_of; tproj; auto.
      * exists r. split; [exact Hr|]. split; [discriminate|exact Hcnt].
      * intros _. rewrite app_length. lia.
  - destruct (take_nth_some k (t_delayed t)) as (i & del & E); [lia|]. rewrite E.
    pose proof (take_nth_perm _ _ _ _ E) as Hpp. pose proof (Permutation_length Hpp) as HL. cbn [length] in HL.
    eexists. split; [reflexivity|]. split; [|tfin].
    constructor; unfold all_of; tproj; auto.
    + exists r. split; auto. split; auto. rewrite Hcnt. f_equal. cbn [length]. lia.
    + permc.
  - rewrite He. cbn [negb].
    destruct (take_delayed_ok mt (t_delayed t) (t_ready t)) as (del' & rd' & E1).
    { eapply nodup_perm_pre; [|exact Hnd|]; [|exists (t_taken t ++ t_chan t ++ t_pending t ++ t_discarded t); reflexivity]. clear; permc. }
    rewrite E1. destruct (take_delayed_spec _ _ _ _ _ E1) as (mv & Hp1 & Hrd').
    destruct (take_chan_ok mt (t_chan t) del' rd' []) as ([[del2 rd2] disc] & E2).
    { eapply nodup_perm_pre; [|exact Hnd|]; [|exists (del' ++ t_taken t ++ t_pending t ++ t_discarded t); reflexivity]. subst rd'. clear - Hp1. permc. }
    rewrite E2. destruct (take_chan_spec _ _ _ _ _ _ _ _ E2) as (md & mr & mx & Hp2 & Hd2 & Hr2 & Hx2). cbn [app] in Hx2.
    destruct (255 <? _) eqn:E3; [lia|].
    pose proof (Permutation_length Hp1) as L1. pose proof (Permutation_length Hp2) as L2. rewrite !app_length in *.
    destruct (set_decrease_some rd2 del2 (N.of_nat (length (t_chan t))) _ _ _ _ _ Hcnt) as (v & -> & Hv); subst rd2 del2 rd'; rewrite ?app_length; try lia.
    eexists. split; [reflexivity|]. split; [|tfin].
    constructor; unfold all_of; tproj; rewrite ?He; auto.
    + eexists. split; [|split; [discriminate|]]; [|rewrite Hv; f_equal; cbn [length]; lia]. rewrite !app_length. lia.
    + subst disc. clear - Hperm Hp1 Hp2. permc.
    + intros _. specialize (Hrc He). rewrite !app_length in *. cbn [length]. lia.
    + discriminate.
Qed.
