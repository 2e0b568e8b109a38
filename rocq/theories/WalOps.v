(* One operation on the nursery and the rows: the two together behave as one
   map. *)
From Coq Require Import NArith ZArith List Bool Lia Permutation.
From Coq Require Import ZifyN ZifyNat ZifyBool.
From Verif Require Import AMap Bytes WalModel WalSpec WalFormat WalNur.
Import ListNotations.
Open Scope N_scope.

Definition rlook (rows : list (chash * bytes)) (h : chash) : option (N * bytes) :=
  match aget beqb h rows with Some v => dec_row v | None => None end.

Record good_map (E : emap) (rows : list (chash * bytes)) (m : chash -> option (N * bytes)) : Prop := {
  gm_read : forall h, match E h with Some e => Some (ne_idx e, ne_data e) | None => rlook rows h end = m h;
  gm_disj : forall h e, E h = Some e -> aget beqb h rows = None;
  gm_row : forall h v, aget beqb h rows = Some v -> exists i d, v = enc_row i d /\ i < 2 ^ 64;
  gm_fits : forall h e, E h = Some e -> nrec_fits (mkNR h (ne_idx e) (ne_round e) (ne_data e))
}.

Lemma gm_none E rows m h : good_map E rows m -> m h = None -> E h = None /\ aget beqb h rows = None.
Proof.
  intros G H. pose proof (gm_read _ _ _ G h) as R. rewrite H in R.
  destruct (E h) as [e|]; [discriminate|]. split; [reflexivity|].
  destruct (aget beqb h rows) as [v|] eqn:A; [|reflexivity].
  destruct (gm_row _ _ _ G h v A) as (i & d & -> & L). unfold rlook in R.
  rewrite A, (row_roundtrip i d L) in R. discriminate.
Qed.

Lemma put_rows_other l : forall m h, ~ In h (map nr_hash l) ->
  aget beqb h (put_rows (rows_of l) m) = aget beqb h m.
Proof.
  induction l as [|r t IH]; intros m h H; cbn [rows_of map put_rows]; [reflexivity|].
  cbn [map In] in H. fold (rows_of t). rewrite IH by tauto. rewrite (aget_aset beqb beqb_spec).
  destruct (beqb_spec h (nr_hash r)) as [->|]; [exfalso; tauto|reflexivity].
Qed.
Lemma put_rows_in (E : emap) l : (forall p, In p l -> E (nr_hash p) = Some (entry_of p)) ->
  forall m h e, In h (map nr_hash l) -> E h = Some e ->
  aget beqb h (put_rows (rows_of l) m) = Some (enc_row (ne_idx e) (ne_data e)).
Proof.
  induction l as [|r t IH]; intros C m h e H HE; cbn [rows_of map put_rows]; [destruct H|].
  fold (rows_of t).
  destruct (in_dec (fun a b => match beqb_spec a b with ReflectT _ p => left p | ReflectF _ q => right q end)
              h (map nr_hash t)) as [HI|HI].
  - apply IH; auto. intros p Hp. apply C. now right.
  - rewrite put_rows_other by assumption. destruct H as [<-|H]; [|contradiction].
    rewrite (aget_aset beqb beqb_spec), beqb_refl.
    pose proof (C r (or_introl eq_refl)) as CR. rewrite HE in CR. injection CR as ->. reflexivity.
Qed.

Lemma del_rows_get l : forall m h, aget beqb h (del_rows l m) = if hmem h l then None else aget beqb h m.
Proof.
  induction l as [|x t IH]; intros m h; cbn [del_rows]; [reflexivity|].
  rewrite IH, (aget_adel beqb beqb_spec). cbn [hmem existsb]. fold (hmem h t).
  destruct (beqb h x), (hmem h t); reflexivity.
Qed.

(* moving entries of the nursery to rows changes nothing *)
Lemma promote_good E rows m l :
  good_map E rows m -> (forall p, In p l -> E (nr_hash p) = Some (entry_of p)) ->
  good_map (eapp E (mkND [] (map nr_hash l))) (put_rows (rows_of l) rows) m.
Proof.
  intros G C.
  assert (DEC : forall h, In h (map nr_hash l) -> exists e, E h = Some e).
  { intros h H. apply in_map_iff in H as (p & <- & Hp). exists (entry_of p). now apply C. }
  constructor; intros h; unfold eapp; cbn [nd_ins nd_rem ifind];
    destruct (hmem h (map nr_hash l)) eqn:HM.
  - apply hmem_in in HM. destruct (DEC h HM) as (e & He). unfold rlook.
    rewrite (put_rows_in E l C rows h e HM He).
    destruct (gm_fits _ _ _ G h e He) as (_ & A & _). cbn [nr_idx] in A.
    rewrite (row_roundtrip _ _ A). rewrite <- (gm_read _ _ _ G h), He. reflexivity.
  - apply hmem_false in HM. unfold rlook. rewrite put_rows_other by assumption. apply (gm_read _ _ _ G).
  - discriminate.
  - intros e He. apply hmem_false in HM. rewrite put_rows_other by assumption. now apply (gm_disj _ _ _ G h e).
  - intros v. apply hmem_in in HM. destruct (DEC h HM) as (e & He).
    rewrite (put_rows_in E l C rows h e HM He). intros [= <-].
    destruct (gm_fits _ _ _ G h e He) as (_ & A & _). eauto.
  - apply hmem_false in HM. rewrite put_rows_other by assumption. apply (gm_row _ _ _ G).
  - discriminate.
  - apply (gm_fits _ _ _ G).
Qed.

(* adding new cells to the nursery *)
Lemma insert_good E rows m ins :
  good_map E rows m -> (forall r, In r ins -> nrec_fits r /\ m (nr_hash r) = None) ->
  good_map (eapp E (mkND ins [])) rows
    (fun h => match ifind h ins with Some r => Some (nr_idx r, nr_data r) | None => m h end).
Proof.
  intros G HI. constructor; intros h; unfold eapp; cbn [nd_ins nd_rem hmem existsb];
    destruct (ifind h ins) as [r|] eqn:F.
  - reflexivity.
  - apply (gm_read _ _ _ G).
  - intros e _. apply ifind_some in F as [F <-]. destruct (HI r F) as [_ HN].
    now destruct (gm_none E rows m _ G HN).
  - apply (gm_disj _ _ _ G).
  - apply (gm_row _ _ _ G).
  - apply (gm_row _ _ _ G).
  - intros e [= <-]. apply ifind_some in F as [F <-]. destruct (HI r F) as [HF _].
    destruct r; exact HF.
  - apply (gm_fits _ _ _ G).
Qed.

Lemma eapp_split E d h : eapp (eapp E (mkND (nd_ins d) [])) (mkND [] (nd_rem d)) h = eapp E d h.
Proof. unfold eapp. cbn [nd_ins nd_rem ifind]. change (hmem h []) with false. destruct (hmem h (nd_rem d)); reflexivity. Qed.

Lemma good_map_ext E E' rows m m' : (forall h, E h = E' h) -> (forall h, m h = m' h) ->
  good_map E rows m -> good_map E' rows m'.
Proof.
  intros HE HM G. constructor; intros h.
  - rewrite <- HE, <- HM. apply (gm_read _ _ _ G).
  - intros e. rewrite <- HE. apply (gm_disj _ _ _ G).
  - apply (gm_row _ _ _ G).
  - intros e. rewrite <- HE. apply (gm_fits _ _ _ G).
Qed.

(* ---- promotion ---- *)
Lemma promote_bucket_sound m r hs p : In p (promote_bucket m r hs) ->
  aget beqb (nr_hash p) m = Some (entry_of p) /\ nr_round p = r.
Proof.
  induction hs as [|h t IH]; cbn [promote_bucket]; [intros []|].
  destruct (aget beqb h m) as [e|] eqn:A; [|exact IH].
  destruct (N.eqb_spec (ne_round e) r) as [Q|Q]; [|exact IH].
  intros [<-|H]; [|now apply IH]. cbn [nr_hash nr_round]. split; [|exact Q].
  rewrite A. destruct e; reflexivity.
Qed.
Lemma promote_bucket_complete m r hs h e : In h hs -> aget beqb h m = Some e -> ne_round e = r ->
  In h (map nr_hash (promote_bucket m r hs)).
Proof.
  induction hs as [|x t IH]; cbn [promote_bucket In]; [intros []|]. intros [->|H] A R.
  - rewrite A. apply N.eqb_eq in R. rewrite R. now left.
  - specialize (IH H A R). destruct (aget beqb x m) as [e'|]; [|exact IH].
    destruct (ne_round e' =? r); [now right|exact IH].
Qed.

Lemma aget_filter_keep (P : N -> bool) (b : list (N * list chash)) r : P r = true ->
  aget N.eqb r (filter (fun e => P (fst e)) b) = aget N.eqb r b.
Proof.
  intros H. induction b as [|[k v] t IH]; cbn [filter aget fst]; [reflexivity|].
  destruct (N.eqb_spec r k) as [->|E].
  - rewrite H. cbn [aget]. now rewrite N.eqb_refl.
  - destruct (P k); [|exact IH]. cbn [aget]. apply N.eqb_neq in E. now rewrite E.
Qed.

Lemma drain_ok n round promoted n2 : cov n -> nu_drain round n = (promoted, n2) ->
  nu_ent n2 = nu_ent n /\
  (forall p, In p promoted -> look n (nr_hash p) = Some (entry_of p)) /\
  (forall h e, look n h = Some e -> 100 <= round -> ne_round e <= round - 100 -> In h (map nr_hash promoted)) /\
  (forall p, In p promoted -> 100 <= round /\ nr_round p <= round - 100) /\
  (forall h e, look n h = Some e -> ~ In h (map nr_hash promoted) -> In h (bucket (ne_round e) (nu_by_round n2))).
Proof.
  intros CV. unfold nu_drain, PROMOTION_DELAY_ROUNDS. destruct (N.ltb_spec round 100) as [L|L].
  - intros [= <- <-]. split; [reflexivity|]. split; [intros p []|]. split; [intros; lia|]. split; [intros p []|].
    intros h e H _. now apply CV.
  - cbn zeta. intros [= <- <-]. cbn [nu_ent nu_by_round]. split; [reflexivity|].
    assert (COMP : forall h e, look n h = Some e -> ne_round e <= round - 100 ->
      In h (map nr_hash (flat_map (fun e0 => promote_bucket (nu_ent n) (fst e0) (snd e0))
        (filter (fun e0 => fst e0 <=? round - 100) (nu_by_round n))))).
    { intros h e H R. pose proof (CV h e H) as B. unfold bucket in B.
      destruct (aget N.eqb (ne_round e) (nu_by_round n)) as [hs|] eqn:A; [|destruct B].
      apply (aget_some_in N.eqb N.eqb_spec) in A.
      pose proof (promote_bucket_complete (nu_ent n) (ne_round e) hs h e B H eq_refl) as PC.
      apply in_map_iff in PC as (p & Ep & Hp). apply in_map_iff. exists p. split; [exact Ep|].
      apply in_flat_map. exists (ne_round e, hs). split; [|exact Hp].
      apply filter_In. split; [exact A|]. cbn [fst]. now apply N.leb_le. }
    split; [|split; [|split]].
    + intros p Hp. apply in_flat_map in Hp as ([r hs] & _ & Hp). cbn [fst snd] in Hp.
      now destruct (promote_bucket_sound _ _ _ _ Hp).
    + intros h e H _ R. now apply (COMP h e).
    + intros p Hp. apply in_flat_map in Hp as ([r hs] & Hf & Hp). cbn [fst snd] in Hp.
      destruct (promote_bucket_sound _ _ _ _ Hp) as [_ ->]. apply filter_In in Hf as [_ Hf]. cbn [fst] in Hf.
      apply N.leb_le in Hf. auto.
    + intros h e H HN. pose proof (CV h e H) as B. unfold bucket in *.
      destruct (N.leb_spec (ne_round e) (round - 100)) as [R|R].
      * exfalso. apply HN. now apply (COMP h e).
      * rewrite (aget_filter_keep (fun r => negb (r <=? round - 100))); [exact B|].
        apply negb_true_iff. now apply N.leb_gt.
Qed.

Lemma snapshot_in n h e : look n h = Some e ->
  In (mkNR h (ne_idx e) (ne_round e) (ne_data e)) (nu_snapshot n).
Proof.
  intros H. apply (aget_some_in beqb beqb_spec) in H. unfold nu_snapshot. apply in_map_iff.
  exists (h, e). split; [reflexivity|exact H].
Qed.
Lemma snapshot_look n p : nkeys n -> In p (nu_snapshot n) -> look n (nr_hash p) = Some (entry_of p).
Proof.
  intros NK H. unfold nu_snapshot in H. apply in_map_iff in H as ([h e] & <- & H). cbn [nr_hash fst snd].
  apply (aget_in beqb beqb_spec) in H; [|exact NK]. unfold look. rewrite H. destruct e; reflexivity.
Qed.
Lemma snapshot_nodup n : nkeys n -> NoDup (map nr_hash (nu_snapshot n)).
Proof. intros H. unfold nu_snapshot. rewrite map_map. exact H. Qed.

Lemma op_ok_step E rows log w o d puts dels n2 :
  good_map E rows (live log) -> (forall h, look (w_nur w) h = E h) -> nkeys (w_nur w) -> cov (w_nur w) ->
  op_ok log o -> op_delta w o = (d, puts, dels, n2) -> counts_fit w d ->
  evalid E d /\ nd_fits d /\ nu_ent n2 = nu_ent (w_nur w) /\
  good_map (eapp E d) (del_rows dels (put_rows puts rows)) (live (log ++ [o])) /\
  (forall h e, E h = Some e -> ~ In h (nd_rem d) -> In h (bucket (ne_round e) (nu_by_round n2))).
Proof.
  intros G HL NK CV OK OD (CF1 & CF2 & _).
  assert (LV : forall h, live (log ++ [o]) h = live_step (live log) o h).
  { intros h. unfold live. now rewrite fold_left_app. }
  destruct o as [round ins|hs|]; cbn [op_delta] in OD.
  - destruct (nu_drain round (w_nur w)) as [promoted n3] eqn:ED.
    injection OD as <- <- <- <-. destruct (drain_ok _ _ _ _ CV ED) as (D1 & D2 & D3 & _ & D4).
    destruct OK as [ND HI]. cbn [nd_ins nd_rem] in *.
    assert (HP : forall p, In p promoted -> E (nr_hash p) = Some (entry_of p)).
    { intros p Hp. rewrite <- HL. now apply D2. }
    assert (HE : forall r, In r ins -> E (nr_hash r) = None).
    { intros r Hr. destruct (HI r Hr) as (_ & _ & HN). now destruct (gm_none E rows _ _ G HN). }
    split; [split; assumption|]. split; [|split; [exact D1|split]].
    + split; [|split; [|split; assumption]]; apply Forall_forall.
      * intros r Hr. now destruct (HI r Hr).
      * intros h Hh. cbn [nd_rem] in Hh. apply in_map_iff in Hh as (p & <- & Hp).
        destruct (gm_fits _ _ _ G _ _ (HP p Hp)) as (A & _). exact A.
    + cbn [del_rows].
      assert (G1 : good_map (eapp E (mkND ins [])) rows
        (fun h => match ifind h ins with Some r => Some (nr_idx r, nr_data r) | None => live log h end)).
      { apply insert_good; [exact G|]. intros r Hr. now destruct (HI r Hr) as (A & _ & B). }
      assert (HP2 : forall p, In p promoted -> eapp E (mkND ins []) (nr_hash p) = Some (entry_of p)).
      { intros p Hp. unfold eapp. cbn [nd_ins nd_rem hmem existsb].
        destruct (ifind (nr_hash p) ins) as [r|] eqn:F; [|now apply HP].
        apply ifind_some in F as [F1 F2]. pose proof (HP p Hp) as Q.
        rewrite <- F2 in Q. rewrite (HE r F1) in Q. discriminate. }
      pose proof (promote_good _ _ _ _ G1 HP2) as G2.
      refine (good_map_ext _ _ _ _ _ _ _ G2).
      * intros h. apply (eapp_split E (mkND ins (map nr_hash promoted)) h).
      * intros h. rewrite LV. reflexivity.
    + intros h e He Hn. apply D4; [now rewrite HL|exact Hn].
  - injection OD as <- <- <- <-. cbn [nd_ins nd_rem] in *.
    set (inn := fun h => is_some (aget beqb h (nu_ent (w_nur w)))) in *.
    assert (IN : forall h, inn h = is_some (E h)).
    { intros h. unfold inn. rewrite <- HL. reflexivity. }
    split; [split; [constructor|intros r []]|]. split; [|split; [reflexivity|split]].
    + split; [constructor|]. split; [|split; assumption]. apply Forall_forall. intros h Hh. cbn [nd_rem] in Hh.
      apply filter_In in Hh as [_ Hh]. rewrite IN in Hh. destruct (E h) as [e|] eqn:Ee; [|discriminate].
      now destruct (gm_fits _ _ _ G _ _ Ee) as (A & _).
    + cbn [put_rows].
      assert (HM1 : forall h, hmem h (filter inn hs) = hmem h hs && is_some (E h)).
      { intros h. apply eq_iff_eq_true. rewrite andb_true_iff, !hmem_in, filter_In, IN. reflexivity. }
      assert (HM2 : forall h, hmem h (filter (fun h => negb (is_some (aget beqb h (nu_ent (w_nur w))))) hs)
                              = hmem h hs && negb (is_some (E h))).
      { intros h. apply eq_iff_eq_true. rewrite andb_true_iff, !hmem_in, filter_In.
        change (is_some (aget beqb h (nu_ent (w_nur w)))) with (inn h). rewrite IN. reflexivity. }
      constructor; intros h; unfold eapp, rlook; cbn [nd_ins nd_rem ifind]; rewrite ?del_rows_get, ?HM1, ?HM2.
      * rewrite LV. cbn [live_step]. rewrite <- (gm_read _ _ _ G h). unfold rlook.
        destruct (E h) as [e|] eqn:Q; [rewrite (gm_disj _ _ _ G h e Q)|]; destruct (hmem h hs);
          cbn [andb negb is_some]; reflexivity.
      * intros e. destruct (hmem h hs) eqn:Q1, (E h) as [e0|] eqn:Q2; cbn [andb negb is_some]; try discriminate.
        intros _. now apply (gm_disj _ _ _ G h e0).
      * intros v. destruct (hmem h hs && negb (is_some (E h))); [discriminate|]. apply (gm_row _ _ _ G).
      * intros e. destruct (hmem h hs && is_some (E h)); [discriminate|]. apply (gm_fits _ _ _ G).
    + intros h e He _. apply CV. now rewrite HL.
  - injection OD as <- <- <- <-. cbn [nd_ins nd_rem] in *.
    assert (HP : forall p, In p (nu_snapshot (w_nur w)) -> E (nr_hash p) = Some (entry_of p)).
    { intros p Hp. rewrite <- HL. now apply snapshot_look. }
    split; [split; [constructor|intros r []]|]. split; [|split; [reflexivity|split]].
    + split; [constructor|]. split; [|split; assumption]. apply Forall_forall. intros h Hh. cbn [nd_rem] in Hh.
      apply in_map_iff in Hh as (p & <- & Hp). now destruct (gm_fits _ _ _ G _ _ (HP p Hp)) as (A & _).
    + cbn [del_rows]. refine (good_map_ext _ _ _ _ _ (fun h => eq_refl) _ (promote_good _ _ _ _ G HP)).
      intros h. rewrite LV. reflexivity.
    + intros h e He _. apply CV. now rewrite HL.
Qed.
