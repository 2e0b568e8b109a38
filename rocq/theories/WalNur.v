(* The nursery as a function from hashes to entries. *)
From Coq Require Import NArith ZArith List Bool Lia Permutation.
From Coq Require Import ZifyN ZifyNat ZifyBool.
From Verif Require Import AMap Bytes WalModel WalSpec WalFormat.
Import ListNotations.
Open Scope N_scope.

Definition emap := chash -> option nentry.
Definition entry_of (r : nrec) : nentry := mkNE (nr_idx r) (nr_round r) (nr_data r).
Definition eapp (E : emap) (d : ndelta) : emap := fun h =>
  if hmem h (nd_rem d) then None
  else match ifind h (nd_ins d) with Some r => Some (entry_of r) | None => E h end.
Definition evalid (E : emap) (d : ndelta) : Prop :=
  NoDup (map nr_hash (nd_ins d)) /\ forall r, In r (nd_ins d) -> E (nr_hash r) = None.
Definition look (n : nursery) : emap := fun h => aget beqb h (nu_ent n).
Definition cov (n : nursery) : Prop := forall h e,
  look n h = Some e -> In h (bucket (ne_round e) (nu_by_round n)).
Definition nkeys (n : nursery) : Prop := NoDup (akeys (nu_ent n)).

Lemma hmem_in h l : hmem h l = true <-> In h l.
Proof.
  unfold hmem. rewrite existsb_exists. split.
  - intros (x & H & E). destruct (beqb_spec h x); [now subst|discriminate].
  - intros H. exists h. split; [assumption|apply beqb_refl].
Qed.
Lemma hmem_false h l : hmem h l = false <-> ~ In h l.
Proof.
  rewrite <- hmem_in. destruct (hmem h l); split; intros H; try reflexivity; try discriminate.
  exfalso. now apply H.
Qed.

Lemma ifind_some h l r : ifind h l = Some r -> In r l /\ nr_hash r = h.
Proof.
  induction l as [|x t IH]; cbn [ifind In]; [discriminate|].
  destruct (beqb_spec h (nr_hash x)) as [->|E]; [intros [= ->]; auto|].
  intros H. destruct (IH H). auto.
Qed.
Lemma ifind_none h l : ifind h l = None <-> ~ In h (map nr_hash l).
Proof.
  induction l as [|x t IH]; cbn [ifind map In]; [tauto|].
  destruct (beqb_spec h (nr_hash x)) as [->|E]; [|rewrite IH; intuition congruence].
  split; [discriminate|]. intros H. exfalso. auto.
Qed.
Lemma ifind_in l r : NoDup (map nr_hash l) -> In r l -> ifind (nr_hash r) l = Some r.
Proof.
  induction l as [|x t IH]; cbn [ifind map In]; [tauto|]. intros ND [->|H].
  - now rewrite beqb_refl.
  - inversion ND as [|? ? A B]; subst. destruct (beqb_spec (nr_hash r) (nr_hash x)) as [E|E]; [|now apply IH].
    exfalso. apply A. rewrite <- E. now apply in_map.
Qed.
Lemma ifind_perm a b h : NoDup (map nr_hash a) -> Permutation a b -> ifind h a = ifind h b.
Proof.
  intros ND P. assert (NDb : NoDup (map nr_hash b)).
  { eapply Permutation_NoDup; [|exact ND]. now apply Permutation_map. }
  destruct (ifind h a) as [r|] eqn:E.
  - apply ifind_some in E as [E1 <-]. symmetry. apply ifind_in; [assumption|].
    eapply Permutation_in; eauto.
  - symmetry. apply ifind_none. apply ifind_none in E. intros H. apply E.
    eapply Permutation_in; [|exact H]. apply Permutation_map. now symmetry.
Qed.

Lemma eapp_ext E E' d : (forall h, E h = E' h) -> forall h, eapp E d h = eapp E' d h.
Proof. intros H h. unfold eapp. now rewrite H. Qed.
Lemma evalid_ext E E' d : (forall h, E h = E' h) -> evalid E d -> evalid E' d.
Proof. intros H [A B]. split; [exact A|]. intros r Hr. rewrite <- H. now apply B. Qed.

Lemma bucket_aset r l b r' : bucket r' (aset N.eqb r l b) = if r' =? r then l else bucket r' b.
Proof.
  unfold bucket. rewrite (aget_aset N.eqb N.eqb_spec). destruct (r' =? r); reflexivity.
Qed.

Lemma add_rounds_old l : forall b h r, In h (bucket r b) -> In h (bucket r (add_rounds l b)).
Proof.
  induction l as [|x t IH]; intros b h r H; cbn [add_rounds]; [assumption|]. apply IH.
  rewrite bucket_aset. destruct (N.eqb_spec r (nr_round x)) as [->|]; [|assumption].
  apply in_app_iff. now left.
Qed.
Lemma add_rounds_new l : forall b x, In x l -> In (nr_hash x) (bucket (nr_round x) (add_rounds l b)).
Proof.
  induction l as [|y t IH]; intros b x H; cbn [add_rounds]; [destruct H|].
  destruct H as [->|H]; [|now apply IH]. apply add_rounds_old. rewrite bucket_aset, N.eqb_refl.
  apply in_app_iff. right. now left.
Qed.

Lemma ins_entries_ok l : forall m, NoDup (map nr_hash l) ->
  (forall r, In r l -> aget beqb (nr_hash r) m = None) ->
  exists m', ins_entries l m = Some m' /\
    (forall h, aget beqb h m' = match ifind h l with Some r => Some (entry_of r) | None => aget beqb h m end) /\
    (NoDup (akeys m) -> NoDup (akeys m')).
Proof.
  induction l as [|r t IH]; intros m ND H; cbn [ins_entries].
  - exists m. split; [reflexivity|]. split; [reflexivity|auto].
  - rewrite (H r (or_introl eq_refl)). cbn [map] in ND. inversion ND as [|? ? A B]; subst.
    destruct (IH (aset beqb (nr_hash r) (mkNE (nr_idx r) (nr_round r) (nr_data r)) m) B) as (m' & E & G & D).
    { intros r' Hr'. rewrite (aget_aset beqb beqb_spec).
      destruct (beqb_spec (nr_hash r') (nr_hash r)) as [Q|Q]; [|apply H; now right].
      exfalso. apply A. rewrite <- Q. now apply in_map. }
    exists m'. split; [exact E|]. split.
    + intros h. rewrite G. cbn [ifind]. rewrite (aget_aset beqb beqb_spec).
      destruct (beqb_spec h (nr_hash r)) as [->|Q]; [|reflexivity].
      apply ifind_none in A. rewrite A. reflexivity.
    + intros N. apply D. now apply (aset_nodup beqb beqb_spec).
Qed.

Lemma rem_entries_get l : forall m h,
  aget beqb h (rem_entries l m) = if hmem h l then None else aget beqb h m.
Proof.
  induction l as [|x t IH]; intros m h; cbn [rem_entries]; [reflexivity|].
  rewrite IH, (aget_adel beqb beqb_spec). cbn [hmem existsb]. fold (hmem h t).
  destruct (beqb h x), (hmem h t); reflexivity.
Qed.
Lemma rem_entries_nodup l : forall m, NoDup (akeys m) -> NoDup (akeys (rem_entries l m)).
Proof.
  induction l as [|x t IH]; intros m H; cbn [rem_entries]; [assumption|]. apply IH. now apply (adel_nodup beqb).
Qed.

Lemma eapp_empty E d : nd_empty d = true -> forall h, eapp E d h = E h.
Proof. destruct d as [[|] [|]]; try discriminate. reflexivity. Qed.

Lemma nu_apply_ok n d : evalid (look n) d ->
  exists n', nu_apply n d = Some n' /\ (forall h, look n' h = eapp (look n) d h) /\
    (nkeys n -> nkeys n') /\
    ((forall h e, look n h = Some e -> ~ In h (nd_rem d) -> In h (bucket (ne_round e) (nu_by_round n))) -> cov n').
Proof.
  intros [A B]. unfold nu_apply. destruct (nd_empty d) eqn:EM.
  - exists n. split; [reflexivity|]. split; [intros h; symmetry; now apply eapp_empty|]. split; [auto|].
    intros H h e Hl. apply H; [assumption|]. destruct d as [[|] [|]]; try discriminate. auto.
  - destruct (ins_entries_ok (nd_ins d) (nu_ent n) A B) as (m & E & G & D). rewrite E.
    eexists. split; [reflexivity|]. split; [|split].
    + intros h. unfold look, eapp. cbn [nu_ent]. rewrite rem_entries_get, G. reflexivity.
    + intros N. unfold nkeys. cbn [nu_ent]. apply rem_entries_nodup, D, N.
    + intros H h e. unfold look. cbn [nu_ent nu_by_round]. rewrite rem_entries_get, G.
      destruct (hmem h (nd_rem d)) eqn:HM; [discriminate|]. apply hmem_false in HM.
      destruct (ifind h (nd_ins d)) as [r|] eqn:F.
      * intros [= <-]. apply ifind_some in F as [F1 <-]. cbn [ne_round entry_of]. now apply add_rounds_new.
      * intros Hl. apply add_rounds_old. now apply H.
Qed.

Definition erun (E : emap) (ds : list ndelta) : emap := fold_left eapp ds E.
Fixpoint evrun (E : emap) (ds : list ndelta) : Prop :=
  match ds with
  | [] => True
  | d :: t => evalid E d /\ evrun (eapp E d) t
  end.

Lemma erun_ext ds : forall E E', (forall h, E h = E' h) -> forall h, erun E ds h = erun E' ds h.
Proof.
  induction ds as [|d t IH]; intros E E' H h; cbn [erun fold_left]; [apply H|].
  apply (IH (eapp E d) (eapp E' d)). now apply eapp_ext.
Qed.
Lemma evrun_ext ds : forall E E', (forall h, E h = E' h) -> evrun E ds -> evrun E' ds.
Proof.
  induction ds as [|d t IH]; intros E E' H; cbn [evrun]; [auto|]. intros [A B]. split.
  - now apply (evalid_ext E).
  - apply (IH (eapp E d)); [now apply eapp_ext|assumption].
Qed.
Lemma erun_app E a b : erun E (a ++ b) = erun (erun E a) b.
Proof. unfold erun. apply fold_left_app. Qed.
Lemma evrun_app a b : forall E, evrun E (a ++ b) <-> evrun E a /\ evrun (erun E a) b.
Proof.
  induction a as [|d t IH]; intros E; cbn [app evrun erun fold_left]; [tauto|].
  rewrite IH. unfold erun. tauto.
Qed.

(* records number i, i+1, ... *)
Fixpoint encs (hf : bytes -> bytes) (i : N) (ds : list ndelta) : bytes :=
  match ds with
  | [] => []
  | d :: t => enc_record hf i d ++ encs hf (i + 1) t
  end.
Lemma encs_app hf a b : forall i, encs hf i (a ++ b) = encs hf i a ++ encs hf (i + N.of_nat (length a)) b.
Proof.
  induction a as [|d t IH]; intros i; cbn [app encs length].
  - now rewrite N.add_0_r.
  - rewrite IH, app_assoc. do 2 f_equal. lia.
Qed.

Lemma replay_loop_ok hf (HL : forall b, length (hf b) = 32%nat) ds : forall fuel total C K next f tail cursor n,
  (length (encs hf f ds ++ tail) < fuel)%nat ->
  f + N.of_nat (length ds) = C + 1 -> f <= K + 1 \/ next = f -> K + 1 <= next ->
  (f <= K + 1 -> next = K + 1) -> K < C -> C < 2 ^ 64 ->
  N.of_nat (length (encs hf f ds ++ tail)) <= total ->
  cursor = total - N.of_nat (length (encs hf f ds ++ tail)) ->
  Forall nd_fits ds ->
  evrun (look n) (skipn (N.to_nat (K + 1 - f)) ds) -> nkeys n -> cov n ->
  exists n', replay_loop hf fuel total C K next (encs hf f ds ++ tail) cursor n =
    Some (C + 1, total - N.of_nat (length tail), n') /\
    (forall h, look n' h = erun (look n) (skipn (N.to_nat (K + 1 - f)) ds) h) /\ nkeys n' /\ cov n'.
Proof.
  induction ds as [|d t IH]; intros fuel total C K next f tail cursor n HF HC HN HK HNX HKC HB HT HCu FD EV NK CV;
    (destruct fuel as [|fuel]; [lia|]).
  - cbn [length] in HC. cbn [encs app] in *. cbn [replay_loop].
    assert (next = C + 1).
    { destruct (N.le_gt_cases f (K + 1)) as [Q|Q]; [rewrite (HNX Q); lia|]. destruct HN; lia. }
    subst next.
    destruct (N.ltb_spec C (C + 1)); [|lia]. exists n. rewrite skipn_nil in *. subst cursor.
    split; [reflexivity|]. split; [reflexivity|]. split; assumption.
  - cbn [encs length] in *. inversion FD as [|? ? FD1 FD2]; subst. rewrite <- !app_assoc in *.
    cbn [replay_loop]. assert (f <= C) by lia.
    assert (next <= C).
    { destruct (N.le_gt_cases f (K + 1)) as [Q|Q]; [rewrite (HNX Q); lia|]. destruct HN; lia. }
    destruct (N.ltb_spec C next); [lia|].
    rewrite (record_roundtrip hf f d _ HL FD1) by (eapply N.le_lt_trans; eassumption).
    destruct (N.ltb_spec C f); [lia|].
    pose proof (enc_record_len hf f d HL) as RL. rewrite app_length in HF, HT.
    destruct (N.leb_spec f K) as [LK|LK].
    + replace (skipn (N.to_nat (K + 1 - f)) (d :: t)) with (skipn (N.to_nat (K + 1 - (f + 1))) t) in *.
      2:{ replace (N.to_nat (K + 1 - f)) with (S (N.to_nat (K + 1 - (f + 1)))) by lia. reflexivity. }
      apply IH; auto; try lia.
    + assert (next = f) by lia. subst next. rewrite N.eqb_refl. cbn [negb].
      replace (N.to_nat (K + 1 - f)) with O in * by lia. cbn [skipn evrun] in *.
      destruct EV as [EV1 EV2].
      destruct (nu_apply_ok n d EV1) as (n1 & E1 & L1 & N1 & C1). rewrite E1.
      destruct (IH fuel total C K (f + 1) (f + 1) tail (total - N.of_nat (length (encs hf (f + 1) t ++ tail))) n1)
        as (n' & E & L & NK' & CV'); auto; try lia.
      * replace (N.to_nat (K + 1 - (f + 1))) with O by lia. cbn [skipn].
        apply (evrun_ext t (eapp (look n) d)); [|assumption]. intros h. symmetry. apply L1.
      * exists n'. split; [exact E|]. split; [|split; assumption].
        intros h. rewrite L. replace (N.to_nat (K + 1 - (f + 1))) with O by lia. cbn [skipn erun fold_left].
        apply (erun_ext t (look n1) (eapp (look n) d)). exact L1.
Qed.
