(* C62: the sparse counters are exact for every history. *)
From Coq Require Import NArith ZArith List Bool Lia Permutation.
From Coq Require Import ZifyN ZifyNat ZifyBool.
From Verif Require Import AMap Bytes CntModel CntSpec CntProofs.
Import ListNotations.
Open Scope N_scope.

Lemma has_false s x : bm_has s x = false <-> ~ In x s.
Proof.
  rewrite <- bm_has_in. destruct (bm_has s x); split; intros H; try reflexivity; try discriminate.
  exfalso. now apply H.
Qed.
Lemma has_same s s' : (forall x, In x s' <-> In x s) -> forall x, bm_has s' x = bm_has s x.
Proof. intros H x. apply eq_iff_eq_true. rewrite !bm_has_in. apply H. Qed.

Lemma de_sets_ser ser deser (CO : codec_ok ser deser) sets : forall rest,
  Forall (fun s => N.of_nat (length (ser s)) < 2 ^ 64) sets ->
  Forall (fun s => forall x, In x s -> x < 2 ^ 64) sets ->
  exists sets', de_sets deser (length sets) (ser_sets ser sets ++ rest) = Some (sets', rest) /\
    length sets' = length sets /\
    forall b x, bm_has (nth b sets' []) x = bm_has (nth b sets []) x.
Proof.
  induction sets as [|s t IH]; intros rest FL FX; cbn [ser_sets length de_sets].
  - exists []. cbn [app length]. split; [reflexivity|]. split; [reflexivity|]. intros [|b] x; reflexivity.
  - inversion FL as [|? ? FL1 FL2]; subst. inversion FX as [|? ? FX1 FX2]; subst.
    destruct (IH rest FL2 FX2) as (ss & E & L & H). destruct (CO s FX1) as (s' & Es & Hs).
    rewrite <- !app_assoc. rewrite read_le_le by exact FL1.
    rewrite Nat2N.id, take_n_app by reflexivity. rewrite Es, E.
    exists (s' :: ss). split; [reflexivity|]. split; [cbn [length]; now rewrite L|].
    intros [|b] x; cbn [nth]; [now apply has_same|apply H].
Qed.

Lemma ser_large_len o : length (ser_large o) = (16 * length o)%nat.
Proof.
  induction o as [|[i v] t IH]; cbn [ser_large length]; [reflexivity|].
  rewrite !app_length, !le_length, IH. lia.
Qed.

Lemma aget_app_none (a b : list (N * N)) i : aget N.eqb i (a ++ b) =
  match aget N.eqb i a with Some v => Some v | None => aget N.eqb i b end.
Proof.
  induction a as [|[k v] a IH]; cbn [app aget]; [reflexivity|]. destruct (i =? k); auto.
Qed.

Lemma de_large_ser o : forall fuel m p,
  (length o < fuel)%nat -> NoDup (map fst o) ->
  (forall i v, In (i, v) o -> i < 2 ^ 64 /\ v < 2 ^ 64 /\ BIG_MIN <= v) ->
  exists m' p', de_large fuel (ser_large o) m p = Some (m', p') /\
    (forall i, aget N.eqb i m' = match aget N.eqb i o with Some v => Some v | None => aget N.eqb i m end) /\
    (forall i, bm_has p' i = bm_has p i || bm_has (map fst o) i) /\
    (NoDup (akeys m) -> NoDup (akeys m')).
Proof.
  induction o as [|[i v] t IH]; intros fuel m p HF ND HV; destruct fuel as [|fuel]; cbn [length] in HF; try lia.
  - cbn [ser_large de_large]. exists m, p. split; [reflexivity|]. split; [reflexivity|].
    split; [intros; cbn; now rewrite orb_false_r|auto].
  - destruct (HV i v (or_introl eq_refl)) as (A & B & C).
    cbn [ser_large de_large].
    assert (NE : le 8 i ++ le 8 v ++ ser_large t <> []).
    { intros E. apply (f_equal (@length N)) in E. rewrite app_length, le_length in E. cbn [length] in E. lia. }
    destruct (le 8 i ++ le 8 v ++ ser_large t) as [|d0 d] eqn:ED; [now contradiction NE|]. rewrite <- ED.
    rewrite read_le_le by exact A. rewrite read_le_le by exact B.
    destruct (N.eqb_spec v 0); [unfold BIG_MIN in C; lia|].
    destruct (N.ltb_spec v BIG_MIN); [lia|].
    cbn [map fst] in ND. inversion ND as [|? ? X Y]; subst.
    destruct (IH fuel (aset N.eqb i v m) (bm_add p [i])) as (m' & p' & E & G & P & D);
      [lia|assumption|intros; apply HV; now right|].
    exists m', p'. split; [exact E|]. split; [|split].
    + intros j. rewrite G. cbn [aget]. rewrite (aget_aset N.eqb Neqs2).
      destruct (N.eqb_spec j i) as [->|Hn]; [|reflexivity].
      assert (aget N.eqb i t = None) as -> by now apply (aget_none N.eqb Neqs2). reflexivity.
    + intros j. rewrite P, bm_has_add. cbn [map fst].
      change (bm_has [i] j) with ((j =? i) || false).
      change (bm_has (i :: map fst t) j) with ((j =? i) || bm_has (map fst t) j).
      destruct (j =? i), (bm_has p j), (bm_has (map fst t) j); reflexivity.
    + intros NM. apply D. now apply (aset_nodup N.eqb Neqs2).
Qed.

Lemma aget_perm (a b : list (N * N)) i : NoDup (akeys a) -> Permutation b a ->
  aget N.eqb i b = aget N.eqb i a.
Proof.
  intros ND P. assert (NB : NoDup (akeys b)).
  { eapply Permutation_NoDup; [|exact ND]. apply Permutation_map. now symmetry. }
  destruct (aget N.eqb i a) as [v|] eqn:E.
  - apply (aget_in N.eqb Neqs2); [assumption|]. eapply Permutation_in; [symmetry; exact P|].
    now apply (aget_some_in N.eqb Neqs2).
  - apply (aget_none N.eqb Neqs2). apply (aget_none N.eqb Neqs2) in E. intros H. apply E.
    eapply Permutation_in; [|exact H]. now apply Permutation_map.
Qed.

Lemma concat_has sets : forall x, bm_has (concat sets) x = existsb (fun s => bm_has s x) sets.
Proof.
  induction sets as [|s t IH]; intros x; cbn [concat existsb]; [reflexivity|].
  now rewrite bm_has_app, IH.
Qed.

Lemma existsb_nth (f : list N -> bool) l d : existsb f l = true <-> exists b, (b < length l)%nat /\ f (nth b l d) = true.
Proof.
  rewrite existsb_exists. split.
  - intros (x & H & E). apply (In_nth l x d) in H as (b & L & Eb). exists b. rewrite Eb. auto.
  - intros (b & L & E). exists (nth b l d). split; [now apply nth_In|assumption].
Qed.

Lemma code_nonzero_bit c : c < 256 -> (exists b, (b < 8)%nat /\ N.testbit c (N.of_nat b) = true) <-> c <> 0.
Proof.
  intros L. split.
  - intros (b & _ & E) ->. now rewrite N.bits_0 in E.
  - intros H. assert (A : forallb (fun c => (c =? 0) || existsb (fun b => N.testbit c (N.of_nat b)) (seq 0 8))
      (map N.of_nat (seq 0 256)) = true) by (vm_compute; reflexivity).
    pose proof (below256 _ A c L) as B. cbv beta in B. apply N.eqb_neq in H. rewrite H in B. cbn [orb] in B.
    apply existsb_exists in B as (b & Hb & E). apply in_seq in Hb. exists b. split; [lia|assumption].
Qed.

Lemma encode_zero r : encode_small_raw r <> 0 <-> 1 < r /\ r < BIG_MIN.
Proof.
  unfold encode_small_raw, BIG_MIN. destruct (2 <=? r) eqn:A, (r <=? 256) eqn:B; cbn [andb]; lia.
Qed.

Lemma rows_le m n : rows_below m n <= N.of_nat n.
Proof.
  induction n as [|k IH]; cbn [rows_below]; [lia|]. destruct (m (N.of_nat k) =? 0); lia.
Qed.

Lemma reload_ok ser deser c m order :
  codec_ok ser deser -> rep c m -> snapshot_fits ser c -> Permutation order (c_large c) ->
  exists c', cnt_deserialize deser (cnt_serialize ser order c) = Some c' /\ rep c' m /\
    c_next c' = c_next c /\ c_live c' = c_live c.
Proof.
  intros CO R [HN HF] PO.
  assert (FX : Forall (fun s => forall x, In x s -> x < 2 ^ 64) (c_bits c)).
  { apply Forall_forall. intros s Hs x Hx. apply (In_nth _ _ []) in Hs as (b & Lb & Eb).
    rewrite (r_len c m R) in Lb. pose proof (r_bits c m R x b Lb) as Hb. rewrite Eb in Hb.
    apply bm_has_in in Hx. rewrite Hx in Hb. symmetry in Hb.
    assert (m x <> 0).
    { intros E0. rewrite E0 in Hb. change (encode_small_raw 0) with 0 in Hb. now rewrite N.bits_0 in Hb. }
    eapply N.lt_trans; [apply (r_next c m R); assumption|exact HN]. }
  assert (ND : NoDup (map fst order)).
  { eapply Permutation_NoDup; [|exact (r_nodup c m R)]. apply Permutation_map. now symmetry. }
  assert (HV : forall i v, In (i, v) order -> i < 2 ^ 64 /\ v < 2 ^ 64 /\ BIG_MIN <= v).
  { intros i v H. pose proof (Permutation_in _ PO H) as H2.
    apply (aget_in N.eqb Neqs2) in H2; [|apply (r_nodup c m R)].
    rewrite (r_large c m R) in H2. destruct (N.leb_spec BIG_MIN (m i)) as [L|L]; [|discriminate].
    injection H2 as <-. pose proof (r_u64 c m R i). unfold BIG_MIN in *.
    pose proof (r_next c m R i ltac:(lia)). split; [eapply N.lt_trans; eassumption|]. split; assumption. }
  assert (LV : c_live c < 2 ^ 64).
  { rewrite (r_live c m R). pose proof (rows_le m (N.to_nat (c_next c))) as Q.
    rewrite N2Nat.id in Q. eapply N.le_lt_trans; eassumption. }
  unfold cnt_serialize, cnt_deserialize. cbn [app].
  change (negb (SNAP_VERSION =? SNAP_VERSION)) with false. cbv iota.
  rewrite read_le_le by exact HN. rewrite read_le_le by exact LV.
  destruct (de_sets_ser ser deser CO (c_bits c) (ser_large order) HF FX) as (sets & E & L & H).
  rewrite (r_len c m R) in E, L. rewrite E.
  assert (MD : N.of_nat (length (ser_large order)) mod 16 = 0).
  { rewrite ser_large_len. replace (N.of_nat (16 * length order)) with (N.of_nat (length order) * 16) by lia.
    apply N.mod_mul. discriminate. }
  rewrite MD. change (negb (0 =? 0)) with false. cbv iota.
  destruct (de_large_ser order (S (length (ser_large order))) [] (concat sets)) as (m' & p' & ED & G & P & D);
    [rewrite ser_large_len; lia|assumption|assumption|].
  rewrite ED. eexists. split; [reflexivity|]. cbn [c_next c_live]. split; [|auto].
  assert (AG : forall i, aget N.eqb i m' = if BIG_MIN <=? m i then Some (m i) else None).
  { intros i. rewrite G. rewrite (aget_perm (c_large c) order i (r_nodup c m R) PO), (r_large c m R).
    destruct (BIG_MIN <=? m i); reflexivity. }
  assert (BT : forall i b, (b < 8)%nat ->
     bm_has (nth b sets []) i = N.testbit (encode_small_raw (m i)) (N.of_nat b)).
  { intros i b Hb. rewrite H. now apply (r_bits c m R). }
  constructor; cbn [c_next c_live c_present c_bits c_large c_scratch].
  - intros i. rewrite P, concat_has. apply eq_iff_eq_true.
    rewrite orb_true_iff, (existsb_nth _ sets []), N.ltb_lt.
    assert (Q1 : (exists b, (b < length sets)%nat /\ bm_has (nth b sets []) i = true) <->
                 (1 < m i /\ m i < BIG_MIN)).
    { rewrite <- encode_zero, <- (code_nonzero_bit _ (encode_lt (m i))). rewrite L.
      split; intros (b & Hb & Eb); exists b; (split; [assumption|]).
      - now rewrite <- (BT i b Hb).
      - now rewrite (BT i b Hb). }
    assert (Q2 : bm_has (map fst order) i = true <-> BIG_MIN <= m i).
    { rewrite bm_has_in. split.
      - intros Hin. apply in_map_iff in Hin as ([j v] & Ej & Hin). cbn [fst] in Ej. subst j.
        pose proof (Permutation_in _ PO Hin) as H2. apply (aget_in N.eqb Neqs2) in H2; [|apply (r_nodup c m R)].
        rewrite (r_large c m R) in H2. destruct (N.leb_spec BIG_MIN (m i)); [assumption|discriminate].
      - intros Hb. assert (E2 : aget N.eqb i (c_large c) = Some (m i)).
        { rewrite (r_large c m R). apply N.leb_le in Hb. now rewrite Hb. }
        apply (aget_some_in N.eqb Neqs2) in E2. apply in_map_iff. exists (i, m i). split; [reflexivity|].
        eapply Permutation_in; [symmetry; exact PO|exact E2]. }
    rewrite Q1, Q2. unfold BIG_MIN in *. lia.
  - exact AG.
  - exact L.
  - exact BT.
  - apply D. constructor.
  - reflexivity.
  - apply (r_next c m R).
  - apply (r_live c m R).
  - apply (r_u64 c m R).
Qed.

Lemma next_mono_batch c ts : c_next (cnt_batch c ts) = c_next c.
Proof.
  unfold cnt_batch, apply_batch. cbn [c_next c_live c_present c_bits c_large].
  destruct (s_max _); [|reflexivity]. destruct (prepare_order _); reflexivity.
Qed.

Lemma hist_rep ser deser c m : codec_ok ser deser -> cnt_hist ser deser c m -> rep c m.
Proof.
  intros CO H. induction H as [next|c m H IH|c m l H IH ND HB|c m order c' H IH L PO E].
  - apply rep_new.
  - now apply rep_alloc.
  - apply rep_batch; auto.
  - destruct (reload_ok ser deser c m order CO IH L PO) as (c2 & E2 & R & _).
    rewrite E in E2. injection E2 as <-. exact R.
Qed.

(* the count read for a row that exists is the count last written *)
Theorem counters_read_back ser deser c m : codec_ok ser deser -> cnt_hist ser deser c m ->
  forall i, m i <> 0 -> cnt_get c i = m i.
Proof.
  intros CO H i Hi. rewrite (rep_get c m (hist_rep ser deser c m CO H)).
  apply N.eqb_neq in Hi. now rewrite Hi.
Qed.

(* a row that does not exist reads as one: absence is the code for one, so
   existence must be known from elsewhere *)
Theorem counters_absent_is_one ser deser c m : codec_ok ser deser -> cnt_hist ser deser c m ->
  forall i, m i = 0 -> cnt_get c i = 1.
Proof.
  intros CO H i Hi. rewrite (rep_get c m (hist_rep ser deser c m CO H)). now rewrite Hi.
Qed.

(* the number of live rows is exact *)
Theorem counters_live_exact ser deser c m : codec_ok ser deser -> cnt_hist ser deser c m ->
  c_live c = rows_below m (N.to_nat (c_next c)) /\ forall i, m i <> 0 -> i < c_next c.
Proof.
  intros CO H. pose proof (hist_rep ser deser c m CO H) as R. split; [apply (r_live c m R)|apply (r_next c m R)].
Qed.

(* a newly allocated row number names no existing row, and the next one differs *)
Theorem counters_alloc_fresh ser deser c m : codec_ok ser deser -> cnt_hist ser deser c m ->
  m (fst (cnt_alloc c)) = 0 /\ fst (cnt_alloc (snd (cnt_alloc c))) <> fst (cnt_alloc c).
Proof.
  intros CO H. pose proof (hist_rep ser deser c m CO H) as R. cbn [cnt_alloc fst snd c_next]. split; [|lia].
  destruct (N.eq_dec (m (c_next c)) 0) as [E|E]; [exact E|]. pose proof (r_next c m R _ E). lia.
Qed.

(* the order in which the updates of a batch are pushed is irrelevant *)
Theorem counters_order_irrelevant ser deser c m l l' :
  codec_ok ser deser -> cnt_hist ser deser c m ->
  NoDup (map fst l) -> (forall i v, In (i, v) l -> i < c_next c /\ v < 2 ^ 64) -> Permutation l l' ->
  let run l := cnt_batch c (map (fun e => mkCT (fst e) (m (fst e)) (snd e)) l) in
  (forall i, cnt_get (run l) i = cnt_get (run l') i) /\ c_live (run l) = c_live (run l').
Proof.
  intros CO H ND HB P run. pose proof (hist_rep ser deser c m CO H) as R.
  assert (ND' : NoDup (map fst l')).
  { eapply Permutation_NoDup; [|exact ND]. now apply Permutation_map. }
  assert (R1 := rep_batch c m l R ND HB).
  assert (R2 := rep_batch c m l' R ND'
    (fun i v Hi => HB i v (Permutation_in _ (Permutation_sym P) Hi))).
  assert (EQ : forall i, tset_all m l i = tset_all m l' i).
  { intros i. rewrite !tset_all_get by assumption. now rewrite (aget_perm l l' i ND (Permutation_sym P)). }
  split.
  - intros i. unfold run. now rewrite (rep_get _ _ R1), (rep_get _ _ R2), EQ.
  - unfold run. rewrite (r_live _ _ R1), (r_live _ _ R2), !next_mono_batch. now apply rows_below_ext.
Qed.

(* a snapshot can always be read back and changes nothing *)
Theorem counters_snapshot ser deser c m order :
  codec_ok ser deser -> cnt_hist ser deser c m -> snapshot_fits ser c -> Permutation order (c_large c) ->
  exists c', cnt_deserialize deser (cnt_serialize ser order c) = Some c' /\
    c_next c' = c_next c /\ c_live c' = c_live c /\ forall i, cnt_get c' i = cnt_get c i.
Proof.
  intros CO H L PO. pose proof (hist_rep ser deser c m CO H) as R.
  destruct (reload_ok ser deser c m order CO R L PO) as (c' & E & R' & A & B).
  exists c'. split; [exact E|]. split; [exact A|]. split; [exact B|].
  intros i. now rewrite (rep_get _ _ R), (rep_get _ _ R').
Qed.

(* ---- a concrete history ---- *)
Definition x0 : counters := cnt_new 12.
Definition x_l1 : list (N * N) := [(7, 1); (3, 2); (5, 256); (9, 257); (1, 1000)].
Definition x_m1 : table := tset_all (fun _ => 0) x_l1.
Definition x1 := Eval vm_compute in
  cnt_batch x0 (map (fun e => mkCT (fst e) 0 (snd e)) x_l1).
Definition x_l2 : list (N * N) := [(9, 256); (7, 2); (5, 257); (3, 1); (1, 0); (0, 3)].
Definition x2 := Eval vm_compute in
  cnt_batch x1 (map (fun e => mkCT (fst e) (x_m1 (fst e)) (snd e)) x_l2).

Lemma dec_nodup (l : list N) : forallb (fun x => Nat.eqb (count_occ N.eq_dec l x) 1) l = true -> NoDup l.
Proof.
  intros H. apply (NoDup_count_occ' N.eq_dec). intros x Hx. rewrite forallb_forall in H.
  now apply Nat.eqb_eq, H.
Qed.

(* eight bytes per member *)
Definition xser (s : list N) : bytes := flat_map (le 8) s.
Fixpoint xdeser_go (fuel : nat) (d : bytes) : option (list N) :=
  match fuel with
  | O => None
  | S k => match d with
           | [] => Some []
           | _ => match read_le 8 d with
                  | None => None
                  | Some (x, d) => match xdeser_go k d with Some r => Some (x :: r) | None => None end
                  end
           end
  end.
Definition xdeser (d : bytes) : option (list N) := xdeser_go (S (length d)) d.

Lemma xcodec_ok : codec_ok xser xdeser.
Proof.
  intros s H. exists s. split; [|tauto]. unfold xdeser.
  assert (G : forall n, (length (xser s) < n)%nat -> xdeser_go n (xser s) = Some s).
  { induction s as [|x t IH]; intros n L; destruct n as [|n]; try lia; [reflexivity|].
    unfold xser in *. cbn [flat_map] in *. cbn [xdeser_go].
    assert (NE : le 8 x ++ flat_map (le 8) t <> []).
    { intros E. apply (f_equal (@length N)) in E. rewrite app_length, le_length in E. cbn [length] in E. lia. }
    destruct (le 8 x ++ flat_map (le 8) t) as [|d0 d] eqn:ED; [now contradiction NE|]. rewrite <- ED in L |- *.
    rewrite read_le_le by (apply H; now left). rewrite app_length, le_length in L.
    rewrite IH; [reflexivity|intros; apply H; now right|lia]. }
  apply G. lia.
Qed.

Definition x3 := Eval vm_compute in
  match cnt_deserialize xdeser (cnt_serialize xser (c_large x2) x2) with Some c => c | None => x0 end.

Theorem counters_example :
  codec_ok xser xdeser /\ snapshot_fits xser x2 /\
  cnt_hist xser xdeser x2 (tset_all x_m1 x_l2) /\ cnt_hist xser xdeser x3 (tset_all x_m1 x_l2) /\
  map (cnt_get x2) [9; 7; 5; 3; 1; 0; 2] = [256; 2; 257; 1; 1; 3; 1] /\ c_live x2 = 5 /\
  map (cnt_get x3) [9; 7; 5; 3; 1; 0; 2] = [256; 2; 257; 1; 1; 3; 1] /\ c_live x3 = 5.
Proof.
  assert (H1 : cnt_hist xser xdeser x1 x_m1).
  { change x1 with (cnt_batch x0 (map (fun e => mkCT (fst e) ((fun _ => 0) (fst e)) (snd e)) x_l1)).
    apply ch_batch; [apply ch_new|apply dec_nodup; vm_compute; reflexivity|].
    intros i v H. cbn [x_l1 In] in H. repeat (destruct H as [H|H]; [injection H as <- <-; split; reflexivity|]). destruct H. }
  assert (H2 : cnt_hist xser xdeser x2 (tset_all x_m1 x_l2)).
  { change x2 with (cnt_batch x1 (map (fun e => mkCT (fst e) (x_m1 (fst e)) (snd e)) x_l2)).
    apply ch_batch; [exact H1|apply dec_nodup; vm_compute; reflexivity|].
    intros i v H. cbn [x_l2 In] in H. repeat (destruct H as [H|H]; [injection H as <- <-; split; reflexivity|]). destruct H. }
  assert (SF : snapshot_fits xser x2).
  { split; [vm_compute; reflexivity|]. apply Forall_forall. intros s Hs. apply N.ltb_lt.
    revert s Hs. apply Forall_forall. repeat constructor. }
  split; [apply xcodec_ok|]. split; [exact SF|]. split; [exact H2|].
  split; [|split; [|split; [|split]]; vm_compute; reflexivity].
  apply (ch_reload xser xdeser x2 _ (c_large x2)); [exact H2|exact SF|reflexivity|vm_compute; reflexivity].
Qed.
