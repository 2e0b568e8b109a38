(** C13 and C36: processed-upto conversions, minimal positions, and the ranges computed from them. *)
From Verif Require Export ProcProofs QueueIterModel.
From Coq Require Import ZArith ZifyN ZifyNat ZifyBool Lia.
Local Open Scope N_scope.
Local Opaque be le lex de enc_shard.

(** * Specification *)
(** values the collator can hold: BTreeMaps (sorted, distinct keys), u16 partitions, u32 seqnos, real shards *)
Definition shards_wf {V} (valid : shard -> bool) (m : omap shard V) : Prop :=
  osorted sh_ord m /\ forall s v, In (s, v) m -> sh_ok s /\ valid s = true.
Definition par_wf (valid : shard -> bool) (p : par_info) : Prop :=
  (osorted N.compare (pi_ext p) /\ forall k v, In (k, v) (pi_ext p) -> k < 2 ^ 32) /\
  shards_wf valid (pi_int_to p) /\
  (osorted N.compare (pi_int p) /\ forall k v, In (k, v) (pi_int p) -> k < 2 ^ 32 /\ shards_wf valid (ii_shards v)).
Definition upto_wf (valid : shard -> bool) (u : upto) : Prop :=
  osorted N.compare (up_parts u) /\ forall k p, In (k, p) (up_parts u) -> k < 2 ^ 16 /\ par_wf valid p.

(** dictionaries found in a state: sorted by key, keys of the declared width *)
Definition dict_wf {V} (w : nat) (d : kv V) : Prop :=
  kv_sorted d /\ forall k v, In (k, v) d -> bytes_ok k /\ length k = w.
Definition par_bc_wf (p : par_bc) : Prop :=
  dict_wf 4 (pb_ext p) /\ dict_wf 12 (pb_int_to p) /\ dict_wf 4 (pb_int p) /\
  forall k v, In (k, v) (pb_int p) -> dict_wf 12 (ib_shards v).
Definition upto_bc_wf (u : upto_bc) : Prop :=
  dict_wf 2 (ub_parts u) /\ forall k p, In (k, p) (ub_parts u) -> par_bc_wf p.
(** some shard key of the stored value is not a valid shard *)
Definition bad_key (valid : shard -> bool) (b : bytes) : Prop :=
  exists s, dec_shard b = Some (s, []) /\ valid s = false.
Definition has_bad_shard (valid : shard -> bool) (u : upto_bc) : Prop :=
  exists k p, In (k, p) (ub_parts u) /\
   ((exists b x, In (b, x) (pb_int_to p) /\ bad_key valid b) \/
    exists j r b x, In (j, r) (pb_int p) /\ In (b, x) (ib_shards r) /\ bad_key valid b).

(** all (shard, processed_to) pairs of a value *)
Definition upto_pairs (u : upto) (s : shard) (k : qkey) : Prop :=
  exists i p, In (i, p) (up_parts u) /\ In (s, k) (pi_int_to p).
Definition all_pairs (m : all_shards) (s : shard) (k : qkey) : Prop :=
  exists sh upd bp i pt, In (sh, (upd, bp)) m /\ In (i, pt) bp /\ In (s, k) pt.
(** [k] is the least of a set of keys *)
Definition is_min (P : qkey -> Prop) (k : qkey) : Prop := P k /\ forall k', P k' -> qk_cmp k k' <> Gt.

(** * Proofs: round trips *)
Lemma shards_rt {V W} valid (f : V -> W) (g : W -> option V) (m : omap shard V) :
  shards_wf valid m -> (forall v, g (f v) = Some v) -> of_dict sh_ord (dec_shard_key valid) g (to_dict enc_shard f m) = Some m.
Proof.
  intros [Hs Hk] Hg. apply (dict_roundtrip sh_ord sh_total (fun s => sh_ok s /\ valid s = true)); auto.
  - intros k [H1 H2]. now apply dec_shard_key_enc.
  - apply Forall_forall. intros [k v] Hin. cbn [fst snd]. split; [exact (Hk k v Hin)|auto].
Qed.
Lemma int_rt valid r : shards_wf valid (ii_shards r) -> int_of_bc valid (int_to_bc r) = Some r.
Proof.
  intros H. unfold int_of_bc, int_to_bc. cbn [ib_skip ib_proc ib_shards].
  rewrite (shards_rt valid); auto; [destruct r; reflexivity|intros []; reflexivity].
Qed.
Lemma par_rt valid p : par_wf valid p -> par_of_bc valid (par_to_bc p) = Some p.
Proof.
  intros ([He Hke] & Ht & [Hi Hki]). unfold par_of_bc, par_to_bc. cbn [pb_ext_to pb_ext pb_int_to pb_int].
  rewrite (dict_roundtrip N.compare N_total (fun k => k < 2 ^ 32) enc_u32 dec_u32 ext_to_bc _ dec_u32_enc (pi_ext p) He).
  2:{ apply Forall_forall. intros [k v] Hin. cbn [fst snd]. split; [eauto|destruct v; reflexivity]. }
  rewrite (shards_rt valid); auto; [|intros []; reflexivity].
  rewrite (dict_roundtrip N.compare N_total (fun k => k < 2 ^ 32) enc_u32 dec_u32 int_to_bc _ dec_u32_enc (pi_int p) Hi).
  2:{ apply Forall_forall. intros [k v] Hin. cbn [fst snd]. destruct (Hki k v Hin). split; [auto|now apply int_rt]. }
  destruct p; reflexivity.
Qed.

Theorem C13_roundtrip : forall valid u, upto_wf valid u -> of_bc valid (to_bc u) = Some u.
Proof.
  intros valid u [Hs Hk]. unfold of_bc, to_bc. cbn [ub_parts ub_params].
  rewrite (dict_roundtrip N.compare N_total (fun k => k < 2 ^ 16) enc_u16 dec_u16 par_to_bc _ dec_u16_enc (up_parts u) Hs).
  - destruct u; reflexivity.
  - apply Forall_forall. intros [k v] Hin. cbn [fst snd]. destruct (Hk k v Hin). split; [auto|now apply par_rt].
Qed.

(** shape of what is written *)
Lemma to_dict_in {K V W} (cmp : K -> K -> comparison) (T : total_order cmp) (ok : K -> Prop) (enc : K -> bytes) dec (f : V -> W)
   (Hdec : forall k, ok k -> dec (enc k) = Some k) m : osorted cmp m -> Forall (fun e => ok (fst e)) m ->
   forall k w, In (k, w) (to_dict enc f m) -> exists a v, In (a, v) m /\ enc a = k /\ f v = w.
Proof.
  intros Hs Ho k w Hin. apply (proj1 (to_dict_get cmp T ok enc dec f Hdec m k w Hs Ho)).
  apply kv_in_get; auto. eapply to_dict_sorted; eauto.
Qed.

Lemma enc_shard_ok s : bytes_ok (enc_shard s) /\ length (enc_shard s) = 12%nat.
Proof. Local Transparent enc_shard. unfold enc_shard. split; [apply Forall_app; split; apply be_ok|rewrite app_length, !be_length; reflexivity]. Qed.
Local Opaque enc_shard.
Lemma enc_u16_ok k : bytes_ok (enc_u16 k) /\ length (enc_u16 k) = 2%nat.
Proof. split; [apply be_ok|apply be_length]. Qed.
Lemma enc_u32_ok k : bytes_ok (enc_u32 k) /\ length (enc_u32 k) = 4%nat.
Proof. split; [apply be_ok|apply be_length]. Qed.

Lemma to_dict_wf {K V W} (cmp : K -> K -> comparison) (T : total_order cmp) (ok : K -> Prop) enc dec (f : V -> W) (w : nat) m :
  (forall k, ok k -> dec (enc k) = Some k) -> (forall k, bytes_ok (enc k) /\ length (enc k) = w) ->
  osorted cmp m -> (forall k v, In (k, v) m -> ok k) -> dict_wf w (to_dict enc f m).
Proof.
  intros Hd Hw Hs Ho. assert (HF : Forall (fun e => ok (fst e)) m) by (apply Forall_forall; intros [k v] Hin; exact (Ho k v Hin)).
  split; [eapply to_dict_sorted; eauto|]. intros k v Hin.
  eapply to_dict_in in Hin as (a & v' & _ & <- & _); eauto.
Qed.
Lemma shards_to_wf {V W} valid (f : V -> W) m : shards_wf valid m -> dict_wf 12 (to_dict enc_shard f m).
Proof.
  intros [Hs Ho]. apply (to_dict_wf sh_ord sh_total (fun s => sh_ok s /\ valid s = true) enc_shard (dec_shard_key valid)); auto.
  - intros k [H1 H2]. now apply dec_shard_key_enc.
  - apply enc_shard_ok.
Qed.
Lemma par_to_wf valid p : par_wf valid p -> par_bc_wf (par_to_bc p).
Proof.
  intros ([He Hke] & Ht & [Hi Hki]). unfold par_to_bc, par_bc_wf. cbn [pb_ext_to pb_ext pb_int_to pb_int].
  split; [|split; [|split]].
  - apply (to_dict_wf N.compare N_total (fun k => k < 2 ^ 32) enc_u32 dec_u32); auto; [apply dec_u32_enc|apply enc_u32_ok].
  - eapply shards_to_wf; eauto.
  - apply (to_dict_wf N.compare N_total (fun k => k < 2 ^ 32) enc_u32 dec_u32); auto; [apply dec_u32_enc|apply enc_u32_ok|].
    intros k v Hin. apply (Hki k v Hin).
  - intros k v Hin. apply (to_dict_in N.compare N_total (fun k => k < 2 ^ 32) enc_u32 dec_u32) in Hin; auto; [|apply dec_u32_enc|].
    + destruct Hin as (a & v' & Hin & _ & <-). unfold int_to_bc. cbn [ib_shards]. apply (shards_to_wf valid). apply (Hki a v' Hin).
    + apply Forall_forall. intros [k' v'] Hin'. apply (Hki k' v' Hin').
Qed.
(** what is written is a well-formed stored value *)
Theorem C13_written_wf : forall valid u, upto_wf valid u -> upto_bc_wf (to_bc u).
Proof.
  intros valid u [Hs Hk]. unfold to_bc, upto_bc_wf. cbn [ub_parts]. split.
  - apply (to_dict_wf N.compare N_total (fun k => k < 2 ^ 16) enc_u16 dec_u16); auto; [apply dec_u16_enc|apply enc_u16_ok|].
    intros k v Hin. apply (Hk k v Hin).
  - intros k v Hin. apply (to_dict_in N.compare N_total (fun k => k < 2 ^ 16) enc_u16 dec_u16) in Hin; auto; [|apply dec_u16_enc|].
    + destruct Hin as (a & v' & Hin & _ & <-). apply (par_to_wf valid). apply (Hk a v' Hin).
    + apply Forall_forall. intros [k' v'] Hin'. apply (Hk k' v' Hin').
Qed.

(** reading back *)
Lemma shards_back {V W} valid (f : V -> W) (g : W -> option V) d m : dict_wf 12 d ->
  (forall w v, g w = Some v -> f v = w) -> of_dict sh_ord (dec_shard_key valid) g d = Some m ->
  to_dict enc_shard f m = d /\ shards_wf valid m.
Proof.
  intros [Hs Hk] Hg E.
  destruct (dict_roundtrip_back sh_ord sh_total (fun s => sh_ok s /\ valid s = true) enc_shard (dec_shard_key valid) f g
     (fun k H => dec_shard_key_enc valid k (proj1 H) (proj2 H)) d m Hs) as (H1 & H2 & H3); auto.
  - intros b k Hb Hin. apply in_map_iff in Hin as ([b' w] & <- & Hin). cbn [fst] in *. destruct (Hk b' w Hin).
    apply dec_shard_key_inv; auto.
  - split; auto. split; auto. rewrite Forall_forall in H3. intros s v Hin. apply (H3 _ Hin).
Qed.
Lemma int_back valid r i : dict_wf 12 (ib_shards r) -> int_of_bc valid r = Some i -> int_to_bc i = r /\ shards_wf valid (ii_shards i).
Proof.
  intros Hw. unfold int_of_bc. destruct (of_dict _ _ _ _) as [m|] eqn:E; [|discriminate]. intros [= <-].
  apply (shards_back valid sh_to_bc (fun x => Some (sh_of_bc x)) (ib_shards r) m Hw) in E as [H1 H2].
  2:{ intros [] v [= <-]; reflexivity. }
  split; [|exact H2]. unfold int_to_bc. cbn [ii_skip ii_proc ii_shards]. rewrite H1. destruct r; reflexivity.
Qed.
Lemma dec_in {V} w (d : kv V) (dec : bytes -> option N) (P : N -> bytes -> Prop) : (forall b k, bytes_ok b -> length b = w -> dec b = Some k -> P k b) ->
  dict_wf w d -> forall b k, dec b = Some k -> In b (map fst d) -> P k b.
Proof. intros H [_ Hk] b k Hb Hin. apply in_map_iff in Hin as ([b' x] & <- & Hin). destruct (Hk b' x Hin). cbn [fst] in *. auto. Qed.
Lemma par_back valid p q : par_bc_wf p -> par_of_bc valid p = Some q -> par_to_bc q = p /\ par_wf valid q.
Proof.
  intros (He & Ht & Hi & Hsh). unfold par_of_bc.
  destruct (of_dict _ _ _ (pb_ext p)) as [e|] eqn:E1; [|discriminate].
  destruct (of_dict _ _ _ (pb_int_to p)) as [t|] eqn:E2; [|discriminate].
  destruct (of_dict _ _ _ (pb_int p)) as [i|] eqn:E3; [|discriminate]. intros [= <-].
  apply (dict_roundtrip_back N.compare N_total (fun k => k < 2 ^ 32) enc_u32 dec_u32 ext_to_bc _ dec_u32_enc _ _ (proj1 He)
    (dec_in 4 _ dec_u32 (fun k b => k < 2 ^ 32 /\ enc_u32 k = b) dec_u32_inv He)) in E1 as (A1 & A2 & A3).
  2:{ intros [? []] v _ [= <-]; reflexivity. }
  apply (shards_back valid (fun k => (qk_lt k, qk_hash k)) _ _ _ Ht) in E2 as [B1 B2].
  2:{ intros [] v [= <-]; reflexivity. }
  apply (dict_roundtrip_back N.compare N_total (fun k => k < 2 ^ 32) enc_u32 dec_u32 int_to_bc _ dec_u32_enc _ _ (proj1 Hi)
    (dec_in 4 _ dec_u32 (fun k b => k < 2 ^ 32 /\ enc_u32 k = b) dec_u32_inv Hi)) in E3 as (D1 & D2 & D3).
  2:{ intros [k w] v Hin E. cbn [snd] in *. apply (int_back valid) in E as [E _]; auto. eapply Hsh; eauto. }
  rewrite Forall_forall in A3, D3. split.
  - unfold par_to_bc. cbn [pi_ext_to pi_ext pi_int_to pi_int]. rewrite A1, B1, D1. destruct p; reflexivity.
  - split; cbn [pi_ext_to pi_ext pi_int_to pi_int]; [split; [auto|intros k v Hin; apply (A3 _ Hin)]|].
    split; [exact B2|]. split; [auto|]. intros k v Hin. destruct (D3 _ Hin) as [H1 (w & H2 & H3)]. cbn [fst snd] in *. split; auto.
    apply (int_back valid) in H3 as [_ H3]; auto. eapply Hsh; eauto.
Qed.

Theorem C13_roundtrip_back : forall valid b u, upto_bc_wf b -> of_bc valid b = Some u -> to_bc u = b /\ upto_wf valid u.
Proof.
  intros valid b u [Hd Hp]. unfold of_bc. destruct (of_dict _ _ _ _) as [m|] eqn:E; [|discriminate]. intros [= <-].
  apply (dict_roundtrip_back N.compare N_total (fun k => k < 2 ^ 16) enc_u16 dec_u16 par_to_bc _ dec_u16_enc _ _ (proj1 Hd)
    (dec_in 2 _ dec_u16 (fun k b => k < 2 ^ 16 /\ enc_u16 k = b) dec_u16_inv Hd)) in E as (A1 & A2 & A3).
  2:{ intros [k w] v Hin E'. cbn [snd] in *. apply (par_back valid) in E' as [E' _]; auto. eapply Hp; eauto. }
  rewrite Forall_forall in A3. split.
  - unfold to_bc. cbn [up_parts up_params]. rewrite A1. destruct b; reflexivity.
  - split; cbn [up_parts]; auto. intros k p Hin. destruct (A3 _ Hin) as [H1 (w & H2 & H3)]. cbn [fst snd] in *. split; auto.
    apply (par_back valid) in H3 as [_ H3]; auto. eapply Hp; eauto.
Qed.

(** loading fails only on an invalid shard *)
Lemma of_dict_none_iff {K V W} (cmp : K -> K -> comparison) (T : total_order cmp) dec (g : W -> option V) d :
  of_dict cmp dec g d = None <-> exists e, In e d /\ (dec (fst e) = None \/ g (snd e) = None).
Proof.
  split; [|intros H; now apply of_dict_fails].
  intros E. destruct (Forall_Exists_dec (fun e : bytes * W => dec (fst e) <> None /\ g (snd e) <> None)) with (l := d) as [HF|HX].
  - intros e. destruct (dec (fst e)), (g (snd e)); [left; split; congruence|right..]; intros []; congruence.
  - destruct (of_dict_fold cmp T dec g d [] (os_nil cmp) HF) as (m' & E' & _). pose proof (eq_trans (eq_sym E') E). discriminate.
  - apply Exists_exists in HX as (e & Hin & Hn). exists e. split; auto.
    destruct (dec (fst e)); auto. destruct (g (snd e)); auto. exfalso. apply Hn. split; congruence.
Qed.
Lemma read_be_total n b : length b = n -> read_be n b <> None.
Proof.
  intros Hl. unfold read_be. destruct (take_n n b) as [[]|] eqn:E; [discriminate|].
  exfalso. rewrite <- (app_nil_r b), <- Hl, take_n_app in E by auto. discriminate.
Qed.
Lemma dec_u16_total b : length b = 2%nat -> dec_u16 b <> None.
Proof. intros H. unfold dec_u16. pose proof (read_be_total 2 b H). destruct (read_be 2 b); [discriminate|congruence]. Qed.
Lemma dec_u32_total b : length b = 4%nat -> dec_u32 b <> None.
Proof. intros H. unfold dec_u32. pose proof (read_be_total 4 b H). destruct (read_be 4 b); [discriminate|congruence]. Qed.
Lemma dec_shard_key_none valid b : length b = 12%nat -> (dec_shard_key valid b = None <-> bad_key valid b).
Proof.
  intros Hl. unfold dec_shard_key, bad_key, dec_shard.
  destruct (read_be 4 b) as [[w r]|] eqn:E.
  2:{ exfalso. unfold read_be in E. destruct b as [|x0 [|x1 [|x2 [|x3 b]]]]; try discriminate Hl. cbn in E. discriminate. }
  assert (Hr : length r = 8%nat).
  { unfold read_be in E. destruct (take_n 4 b) as [[x y]|] eqn:E'; [|discriminate]. apply take_n_some in E' as [-> Hx].
    injection E as _ <-. rewrite app_length in Hl. lia. }
  destruct (read_be 8 r) as [[p r']|] eqn:E2; [|exfalso; now apply (read_be_total 8 r)].
  assert (r' = []).
  { unfold read_be in E2. destruct (take_n 8 r) as [[x y]|] eqn:E'; [|discriminate]. apply take_n_some in E' as [-> Hx].
    injection E2 as _ <-. rewrite app_length in Hr. destruct y; [auto|cbn in Hr; lia]. } subst r'.
  destruct (valid _) eqn:Ev; split; try discriminate; auto.
  - intros (s & [= <-] & H). congruence.
  - intros _. eexists. split; [reflexivity|auto].
Qed.

Theorem C13_load_fails_iff : forall valid b, upto_bc_wf b -> (of_bc valid b = None <-> has_bad_shard valid b).
Proof.
  intros valid b [[Hs Hk] Hp]. unfold of_bc.
  assert (Hpar : forall k p, In (k, p) (ub_parts b) -> (par_of_bc valid p = None <->
     (exists b x, In (b, x) (pb_int_to p) /\ bad_key valid b) \/
     exists j r b x, In (j, r) (pb_int p) /\ In (b, x) (ib_shards r) /\ bad_key valid b)).
  { intros k p Hin. destruct (Hp k p Hin) as ([_ Hke] & [_ Hkt] & [_ Hki] & Hsh).
    assert (X1 : of_dict N.compare dec_u32 (fun x => Some (ext_of_bc x)) (pb_ext p) <> None).
    { intros E. apply of_dict_none_iff in E as ([k' w] & He & [E|E]); [|discriminate|apply N_total].
      cbn [fst] in E. destruct (Hke k' w He). now apply (dec_u32_total k'). }
    assert (X2 : of_dict sh_ord (dec_shard_key valid) (fun x => Some (QK (fst x) (snd x))) (pb_int_to p) = None <->
        exists b x, In (b, x) (pb_int_to p) /\ bad_key valid b).
    { rewrite of_dict_none_iff by apply sh_total. split.
      - intros ([k' w] & He & [E|E]); [|discriminate]. cbn [fst] in E. destruct (Hkt k' w He). apply dec_shard_key_none in E; auto. eauto.
      - intros (k' & w & He & Hb). exists (k', w). split; auto. left. cbn [fst]. destruct (Hkt k' w He). now apply dec_shard_key_none. }
    assert (X3 : of_dict N.compare dec_u32 (int_of_bc valid) (pb_int p) = None <->
        exists j r b x, In (j, r) (pb_int p) /\ In (b, x) (ib_shards r) /\ bad_key valid b).
    { rewrite of_dict_none_iff by apply N_total. split.
      - intros ([k' w] & He & [E|E]); cbn [fst snd] in E; [destruct (Hki k' w He); exfalso; now apply (dec_u32_total k')|].
        unfold int_of_bc in E. destruct (of_dict _ _ _ (ib_shards w)) eqn:E'; [discriminate|].
        apply of_dict_none_iff in E' as ([b' x] & Hb & [E'|E']); [|discriminate|apply sh_total]. cbn [fst] in E'.
        destruct (Hsh k' w He) as [_ Hk12]. destruct (Hk12 b' x Hb). apply dec_shard_key_none in E'; auto.
        exists k', w, b', x. auto.
      - intros (j & r & b' & x & Hj & Hb & Hbad). exists (j, r). split; auto. right. cbn [snd]. unfold int_of_bc.
        destruct (of_dict _ _ _ (ib_shards r)) eqn:E'; [|reflexivity]. exfalso.
        assert (EN : of_dict sh_ord (dec_shard_key valid) (fun x => Some (sh_of_bc x)) (ib_shards r) = None).
        { apply of_dict_none_iff; [apply sh_total|]. exists (b', x). split; auto. left. cbn [fst].
          destruct (Hsh j r Hj) as [_ Hk12]. destruct (Hk12 b' x Hb). now apply dec_shard_key_none. }
        congruence. }
    unfold par_of_bc. destruct (of_dict _ _ _ (pb_ext p)) as [e|]; [|congruence].
    destruct (of_dict _ _ _ (pb_int_to p)) as [t|].
    - destruct (of_dict _ _ _ (pb_int p)) as [i|].
      + split; [discriminate|]. intros [H|H]; [apply X2 in H|apply X3 in H]; discriminate.
      + split; auto. intros _. right. now apply X3.
    - split; auto. intros _. left. now apply X2. }
  destruct (of_dict N.compare dec_u16 (par_of_bc valid) (ub_parts b)) as [m|] eqn:E.
  - split; [discriminate|]. intros (k & p & Hin & Hb). apply (Hpar k p Hin) in Hb.
    assert (EN : of_dict N.compare dec_u16 (par_of_bc valid) (ub_parts b) = None).
    { apply of_dict_none_iff; [apply N_total|]. exists (k, p). auto. } congruence.
  - split; auto. intros _. apply of_dict_none_iff in E as ([k p] & Hin & [E|E]); [| |apply N_total]; cbn [fst snd] in E.
    + destruct (Hk k p Hin). exfalso. now apply (dec_u16_total k).
    + exists k, p. split; auto. now apply (Hpar k p Hin).
Qed.

(** * Minimal positions *)
Lemma qk_min2_spec a b : (qk_min2 a b = a \/ qk_min2 a b = b) /\ qk_cmp (qk_min2 a b) a <> Gt /\ qk_cmp (qk_min2 a b) b <> Gt.
Proof.
  unfold qk_min2. pose proof (qk_cmp_antisym a b) as A. destruct (qk_cmp b a) eqn:E.
  - apply qk_cmp_eq in E. subst. rewrite qk_cmp_refl. repeat split; auto; discriminate.
  - rewrite qk_cmp_refl, E. repeat split; auto; discriminate.
  - rewrite qk_cmp_refl. split; auto. split; [discriminate|]. intros Hc. rewrite Hc in A. discriminate.
Qed.
Lemma qk_le_trans a b c : qk_cmp a b <> Gt -> qk_cmp b c <> Gt -> qk_cmp a c <> Gt.
Proof. rewrite !qk_cmp_gt. lia. Qed.
Lemma qk_le_antisym a b : qk_cmp a b <> Gt -> qk_cmp b a <> Gt -> a = b.
Proof.
  intros H1 H2. apply qk_cmp_eq. rewrite qk_cmp_antisym in H2. destruct (qk_cmp a b); cbn in *; congruence.
Qed.
Lemma is_min_unique (P : qkey -> Prop) a b : is_min P a -> is_min P b -> a = b.
Proof. intros [H1 H2] [H3 H4]. apply qk_le_antisym; auto. Qed.

Definition min_inv (acc : omap shard qkey) (D : shard -> qkey -> Prop) : Prop :=
  osorted sh_ord acc /\
  forall s, match oget sh_ord s acc with Some k => is_min (D s) k | None => forall k, ~ D s k end.
Lemma min_inv_iff acc D : min_inv acc D -> forall s k, oget sh_ord s acc = Some k <-> is_min (D s) k.
Proof.
  intros [_ H] s k. specialize (H s). destruct (oget sh_ord s acc) as [k'|].
  - split; [intros [= <-]; auto|intros Hk; f_equal; eapply is_min_unique; eauto].
  - split; [discriminate|]. intros [Hk _]. exfalso. eapply H; eauto.
Qed.
Lemma is_min_ext (P Q : qkey -> Prop) k : (forall k, P k <-> Q k) -> is_min P k -> is_min Q k.
Proof. intros H [H1 H2]. split; [now apply H|]. intros k' Hk. apply H2. now apply H. Qed.
Lemma min_inv_ext acc (D D' : shard -> qkey -> Prop) : (forall s k, D s k <-> D' s k) -> min_inv acc D -> min_inv acc D'.
Proof.
  intros H [H1 H2]. split; auto. intros s. specialize (H2 s). destruct (oget sh_ord s acc).
  - eapply is_min_ext; [|exact H2]. intros; apply H.
  - intros k Hk. apply (H2 k). now apply H.
Qed.
Lemma min_inv_step acc D s0 k0 : min_inv acc D -> min_inv (min_entry acc (s0, k0)) (fun s k => D s k \/ (s = s0 /\ k = k0)).
Proof.
  intros [H1 H2]. unfold min_entry. cbn [fst snd]. split; [apply oput_sorted; auto; apply sh_total|].
  intros s. rewrite oget_put by (auto; apply sh_total). destruct (sh_ord s s0) eqn:E.
  - apply (to_eq _ sh_total) in E. subst s. specialize (H2 s0). destruct (oget sh_ord s0 acc) as [m|].
    + destruct H2 as [A B]. destruct (qk_min2_spec m k0) as (X & Y & Z). split.
      * destruct X as [->| ->]; auto.
      * intros k' [Hk|[_ ->]]; auto. apply (qk_le_trans _ m); auto.
    + split; [auto|]. intros k' [Hk|[_ ->]]; [exfalso; eapply H2; eauto|rewrite qk_cmp_refl; discriminate].
  - specialize (H2 s). assert (Hne : s <> s0) by (intros ->; rewrite (ocmp_refl sh_ord sh_total) in E; discriminate).
    destruct (oget sh_ord s acc).
    + eapply is_min_ext; [|exact H2]. intros k. cbn. tauto.
    + intros k [Hk|[? _]]; [eapply H2; eauto|congruence].
  - specialize (H2 s). assert (Hne : s <> s0) by (intros ->; rewrite (ocmp_refl sh_ord sh_total) in E; discriminate).
    destruct (oget sh_ord s acc).
    + eapply is_min_ext; [|exact H2]. intros k. cbn. tauto.
    + intros k [Hk|[? _]]; [eapply H2; eauto|congruence].
Qed.
Lemma min_inv_fold (L : list (shard * qkey)) : forall acc D, min_inv acc D ->
  min_inv (fold_left min_entry L acc) (fun s k => D s k \/ In (s, k) L).
Proof.
  induction L as [|[s0 k0] L IH]; intros acc D H; cbn [fold_left].
  - eapply min_inv_ext; [|exact H]. intros s k. cbn. tauto.
  - eapply min_inv_ext; [|apply IH, min_inv_step, H]. intros s k. cbn.
    split; [intros [[?|[-> ->]]|?]; auto|intros [?|[[= <- <-]|?]]; auto].
Qed.
Lemma min_inv_fold2 {A} (L : list A) (P : A -> shard -> qkey -> Prop) (step : omap shard qkey -> A -> omap shard qkey) :
  (forall acc D a, min_inv acc D -> min_inv (step acc a) (fun s k => D s k \/ P a s k)) ->
  forall acc D, min_inv acc D -> min_inv (fold_left step L acc) (fun s k => D s k \/ exists a, In a L /\ P a s k).
Proof.
  intros Hstep. induction L as [|a L IH]; intros acc D H; cbn [fold_left].
  - eapply min_inv_ext; [|exact H]. intros s k. cbn. split; [auto|intros [?|(a & [] & _)]; auto].
  - eapply min_inv_ext; [|apply IH, Hstep, H]. intros s k. cbn.
    split; [intros [[?|?]|(b & ? & ?)]; eauto|intros [?|(b & [<-|?] & ?)]; eauto].
Qed.
Lemma min_inv_nil : min_inv [] (fun _ _ => False).
Proof. split; [constructor|]. intros s. cbn. auto. Qed.

(** the minimal internals positions: for every shard, the least processed_to over all partitions; no entry for a shard that no
    partition mentions *)
Theorem C13_min_internals : forall u s k,
  oget sh_ord s (min_internals u) = Some k <-> is_min (upto_pairs u s) k.
Proof.
  intros u s k. unfold min_internals. apply min_inv_iff.
  eapply min_inv_ext; [|apply (min_inv_fold2 (up_parts u) (fun e s k => In (s, k) (pi_int_to (snd e)))); [|apply min_inv_nil]].
  - intros s' k'. unfold upto_pairs. split; [intros [[]|([i p] & H1 & H2)]; eauto|intros (i & p & H1 & H2); right; exists (i, p); auto].
  - intros acc D a H. now apply min_inv_fold.
Qed.
Theorem C13_min_internals_defined : forall u s, (exists k, upto_pairs u s k) <-> exists k, oget sh_ord s (min_internals u) = Some k.
Proof.
  intros u s. split.
  - intros (k & Hk). destruct (oget sh_ord s (min_internals u)) as [k'|] eqn:E; [eauto|exfalso]. revert E.
    unfold min_internals.
    pose proof (min_inv_fold2 (up_parts u) (fun e s k => In (s, k) (pi_int_to (snd e))) (fun acc e => fold_left min_entry (pi_int_to (snd e)) acc)
      (fun acc D a H => min_inv_fold (pi_int_to (snd a)) acc D H) [] _ min_inv_nil) as [_ H]. specialize (H s).
    intros E. rewrite E in H. destruct Hk as (i & p & H1 & H2). apply (H k). right. exists (i, p). auto.
  - intros (k & Hk). apply C13_min_internals in Hk as [Hk _]. eauto.
Qed.

Lemma find_min_inv m : min_inv (find_min m) (all_pairs m).
Proof.
  unfold find_min.
  eapply min_inv_ext; [|apply (min_inv_fold2 m (fun e s k => exists p, In p (snd (snd e)) /\ In (s, k) (snd p))); [|apply min_inv_nil]].
  - intros s' k'. unfold all_pairs. split.
    + intros [[]|([sh [upd bp]] & H1 & [i pt] & H2 & H3)]. cbn [fst snd] in *. exists sh, upd, bp, i, pt. auto.
    + intros (sh & upd & bp & i & pt & H1 & H2 & H3). right. exists (sh, (upd, bp)). split; auto. exists (i, pt). auto.
  - intros acc D a H. apply (min_inv_fold2 (snd (snd a)) (fun p s k => In (s, k) (snd p))); auto.
    intros acc' D' p H'. now apply min_inv_fold.
Qed.
(** the same over all shards' processed_to, whatever the iteration order of the hash maps *)
Theorem C13_find_min : forall m s k, oget sh_ord s (find_min m) = Some k <-> is_min (all_pairs m s) k.
Proof. intros m. apply min_inv_iff, find_min_inv. Qed.

(** externals: the least (anchor, offset) over the partitions, (0, 0) without partitions; both representations agree *)
Definition pos_le (a b : N * N) : Prop := fst a < fst b \/ (fst a = fst b /\ snd a <= snd b).
Definition least_ext (u : upto) (m : N * N) : Prop :=
  (up_parts u = [] /\ m = (0, 0)) \/
  ((exists i p, In (i, p) (up_parts u) /\ m = pi_ext_to p) /\ forall i p, In (i, p) (up_parts u) -> pos_le m (pi_ext_to p)).
Lemma pos_gt a b : pos_cmp a b = Gt <-> ~ pos_le a b.
Proof.
  unfold pos_cmp, cmp_then, pos_le. destruct a as [a1 a2], b as [b1 b2]; cbn [fst snd].
  destruct (N.compare_spec a1 b1); [destruct (N.compare_spec a2 b2)|..]; split; intros; try discriminate; try lia; reflexivity.
Qed.
Lemma pos_lt a b : pos_cmp a b = Lt <-> ~ pos_le b a.
Proof.
  unfold pos_cmp, cmp_then, pos_le. destruct a as [a1 a2], b as [b1 b2]; cbn [fst snd].
  destruct (N.compare_spec a1 b1); [destruct (N.compare_spec a2 b2)|..]; split; intros; try discriminate; try lia; reflexivity.
Qed.
Lemma pos_le_dec a b : {pos_le a b} + {~ pos_le a b}.
Proof. destruct (pos_cmp a b) eqn:E; [left|left|right; now apply pos_gt].
  - destruct (pos_cmp a b) eqn:E' in E; try discriminate. unfold pos_cmp, cmp_then, pos_le in *. destruct (N.compare_spec (fst a) (fst b)); [destruct (N.compare_spec (snd a) (snd b))|..]; try discriminate; lia.
  - unfold pos_cmp, cmp_then, pos_le in *. destruct (N.compare_spec (fst a) (fst b)); [destruct (N.compare_spec (snd a) (snd b))|..]; try discriminate; lia.
Qed.
Lemma pos_le_trans a b c : pos_le a b -> pos_le b c -> pos_le a c.
Proof. unfold pos_le. lia. Qed.
Lemma pos_le_refl a : pos_le a a. Proof. unfold pos_le. lia. Qed.
Lemma pos_le_total a b : ~ pos_le a b -> pos_le b a. Proof. unfold pos_le. lia. Qed.
Lemma pos_le_antisym a b : pos_le a b -> pos_le b a -> a = b.
Proof. unfold pos_le. destruct a, b; cbn. intros. f_equal; lia. Qed.
Lemma least_ext_unique u a b : least_ext u a -> least_ext u b -> a = b.
Proof.
  intros [[E ->]|[(i & p & H1 & ->) H2]] [[E' ->]|[(j & q & H3 & ->) H4]]; auto.
  - rewrite E in H3. destruct H3.
  - rewrite E' in H1. destruct H1.
  - apply pos_le_antisym; eauto.
Qed.
Lemma min_pos_fold r : forall x, let m := fold_left (fun m y => match pos_cmp m y with Gt => y | _ => m end) r x in
  (m = x \/ In m r) /\ pos_le m x /\ forall y, In y r -> pos_le m y.
Proof.
  induction r as [|y r IH]; intros x m; cbn in m.
  - split; auto. split; [apply pos_le_refl|intros ? []].
  - set (x' := match pos_cmp x y with Gt => y | _ => x end) in *.
    destruct (IH x') as (A & B & D). fold m in A, B, D.
    assert (Hx : (x' = x \/ x' = y) /\ pos_le x' x /\ pos_le x' y).
    { unfold x'. destruct (pos_cmp x y) eqn:E.
      - split; auto. split; [apply pos_le_refl|]. destruct (pos_le_dec x y); auto. exfalso. apply pos_gt in n. congruence.
      - split; auto. split; [apply pos_le_refl|]. destruct (pos_le_dec x y); auto. exfalso. apply pos_gt in n. congruence.
      - apply pos_gt in E. split; auto. split; [now apply pos_le_total|apply pos_le_refl]. }
    destruct Hx as (X & Y & Z). split.
    + destruct A as [->|A]; [|right; now right]. destruct X as [->| ->]; [auto|right; now left].
    + split; [eapply pos_le_trans; eauto|]. intros z [<-|Hz]; [eapply pos_le_trans; eauto|auto].
Qed.
Theorem C13_min_externals : forall u, least_ext u (min_ext u).
Proof.
  intros u. unfold min_ext, least_ext. destruct (up_parts u) as [|[i p] r] eqn:E; cbn [map snd]; [auto|right].
  destruct (min_pos_fold (map (fun e : N * par_info => pi_ext_to (snd e)) r) (pi_ext_to p)) as (A & B & D). split.
  - destruct A as [A|A]; [exists i, p; split; [now left|exact A]|].
    apply in_map_iff in A as ([j q] & A & Hin). exists j, q. split; [now right|]. symmetry. exact A.
  - intros j q [[= <- <-]|Hin]; [exact B|]. apply D. apply in_map_iff. exists (j, q). auto.
Qed.

Lemma min_ext_bc_fold (d : kv par_bc) : forall acc,
  let m := fold_left (fun acc (e : bytes * par_bc) => match acc with None => Some (pb_ext_to (snd e))
     | Some m => match pos_cmp (pb_ext_to (snd e)) m with Lt => Some (pb_ext_to (snd e)) | _ => Some m end end) d acc in
  (m = acc \/ exists k p, In (k, p) d /\ m = Some (pb_ext_to p)) /\
  (forall x, acc = Some x -> exists y, m = Some y /\ pos_le y x) /\
  forall k p, In (k, p) d -> exists y, m = Some y /\ pos_le y (pb_ext_to p).
Proof.
  induction d as [|[b w] d IH]; intros acc m; cbn [fold_left snd] in m.
  - split; auto. split; [intros x ->; eexists; split; [reflexivity|apply pos_le_refl]|intros ? ? []].
  - set (acc' := match acc with None => Some (pb_ext_to w)
      | Some m => match pos_cmp (pb_ext_to w) m with Lt => Some (pb_ext_to w) | _ => Some m end end) in *.
    destruct (IH acc') as (A & B & D). fold m in A, B, D.
    assert (HX : exists x', acc' = Some x' /\ (acc' = acc \/ x' = pb_ext_to w) /\ pos_le x' (pb_ext_to w) /\ forall x, acc = Some x -> pos_le x' x).
    { unfold acc'. destruct acc as [x|].
      - destruct (pos_cmp (pb_ext_to w) x) eqn:E.
        + exists x. split; auto. split; auto. split; [|intros y [= <-]; apply pos_le_refl].
          destruct (pos_le_dec x (pb_ext_to w)); auto. exfalso. apply pos_lt in n. congruence.
        + apply pos_lt in E. exists (pb_ext_to w). split; auto. split; auto. split; [apply pos_le_refl|].
          intros y [= <-]. now apply pos_le_total.
        + exists x. split; auto. split; auto. split; [|intros y [= <-]; apply pos_le_refl].
          destruct (pos_le_dec x (pb_ext_to w)); auto. exfalso. apply pos_lt in n. congruence.
      - exists (pb_ext_to w). split; auto. split; auto. split; [apply pos_le_refl|discriminate]. }
    destruct HX as (x' & E1 & E2 & E3 & E4). destruct (B x' E1) as (y & Ey & Hy). split; [|split].
    + destruct A as [A|(k & p & Hin & A)]; [|right; exists k, p; split; [now right|auto]].
      destruct E2 as [E2|E2]; [left; congruence|right; exists b, w; split; [now left|]]. rewrite A, E1. congruence.
    + intros x Hx. exists y. split; auto. eapply pos_le_trans; eauto.
    + intros k p [[= <- <-]|Hin]; [exists y; split; auto; eapply pos_le_trans; eauto|eapply D; eauto].
Qed.
Theorem C13_min_externals_same : forall valid u, upto_wf valid u -> min_ext_bc (to_bc u) = min_ext u.
Proof.
  intros valid u [Hs Hk]. apply (least_ext_unique u); [|apply C13_min_externals].
  unfold min_ext_bc, to_bc. cbn [ub_parts].
  assert (Hin : forall k w, In (k, w) (to_dict enc_u16 par_to_bc (up_parts u)) <->
     exists a v, In (a, v) (up_parts u) /\ enc_u16 a = k /\ par_to_bc v = w).
  { intros k w. assert (HF : Forall (fun e : N * par_info => fst e < 2 ^ 16) (up_parts u)).
    { apply Forall_forall. intros [a v] Hin. apply (Hk a v Hin). }
    pose proof (to_dict_get N.compare N_total (fun k => k < 2 ^ 16) enc_u16 dec_u16 par_to_bc dec_u16_enc (up_parts u) k w Hs HF) as G.
    rewrite <- G. apply kv_in_get. eapply (to_dict_sorted N.compare N_total (fun k => k < 2 ^ 16) enc_u16 dec_u16); eauto. apply dec_u16_enc. }
  destruct (min_ext_bc_fold (to_dict enc_u16 par_to_bc (up_parts u)) None) as (A & _ & D). unfold least_ext.
  destruct (up_parts u) as [|[i p] r] eqn:E.
  - left. split; auto.
  - right. rewrite <- E in *. assert (H0 : In (enc_u16 i, par_to_bc p) (to_dict enc_u16 par_to_bc (up_parts u))).
    { apply Hin. exists i, p. rewrite E. split; [now left|auto]. }
    destruct (D _ _ H0) as (y & Ey & _). rewrite Ey in *. split.
    + destruct A as [A|(k & w & Hw & A)]; [discriminate|]. apply Hin in Hw as (a & v & H1 & _ & <-). exists a, v. split; auto.
      injection A as ->. reflexivity.
    + intros j q Hq. destruct (D (enc_u16 j) (par_to_bc q)) as (y' & [= <-] & Hy); auto. apply Hin. eauto.
Qed.

(** there is a non-zero processed offset iff some range of some partition has one *)
Theorem C13_has_offset : forall u, has_non_zero_offset u = true <->
  exists i p, In (i, p) (up_parts u) /\
   ((exists j r, In (j, r) (pi_ext p) /\ 0 < ei_proc r) \/ exists j r, In (j, r) (pi_int p) /\ 0 < ii_proc r).
Proof.
  intros u. unfold has_non_zero_offset. rewrite existsb_exists. split.
  - intros ([i p] & Hin & E). exists i, p. split; auto. cbn [snd] in E. apply orb_true_iff in E as [E|E]; apply existsb_exists in E as ([j r] & Hr & E); cbn [snd] in E; apply N.ltb_lt in E; eauto.
  - intros (i & p & Hin & H). exists (i, p). split; auto. cbn [snd]. apply orb_true_iff.
    destruct H as [(j & r & Hr & H)|(j & r & Hr & H)]; [left|right]; apply existsb_exists; exists (j, r); split; auto; now apply N.ltb_lt.
Qed.

(** ** C36: what the cumulative statistics cover *)
Definition in_bound_lo (b : bound) (k : qkey) : Prop := match b with Incl x => qk_cmp x k <> Gt | Excl x => qk_cmp x k = Lt end.
Definition in_bound_hi (b : bound) (k : qkey) : Prop := match b with Incl x => qk_cmp k x <> Gt | Excl x => qk_cmp k x = Lt end.
(** the message [k] of shard [s] is covered by one of the ranges *)
Definition covered (rs : list brange) (s : shard) (k : qkey) : Prop :=
  exists r, In r rs /\ br_shard r = s /\ in_bound_lo (br_from r) k /\ in_bound_hi (br_to r) k.
(** the logical time up to which shard [s]'s messages are known *)
Definition end_lt (cur : shard) (prev_lt mc_lt : N) (tops : amap shard N) (s : shard) : option N :=
  if Z.eq_dec (sh_wc s) (-1) then Some mc_lt else if sh_eqb s cur then Some prev_lt else aget sh_eqb s tops.

Lemma stats_ranges_spec cur prev mc tops from : forall rs, stats_ranges cur prev mc tops from = Some rs ->
  map br_shard rs = map fst from /\
  (forall r, In r rs <-> exists s k lt, In (s, k) from /\ end_lt cur prev mc tops s = Some lt /\ r = BR s (Excl k) (Incl (qk_max_for_lt lt))).
Proof.
  induction from as [|[s k] from IH]; intros rs; cbn [stats_ranges].
  - intros [= <-]. split; auto. intros r. split; [intros []|intros (? & ? & ? & [] & _)].
  - assert (E0 : (if is_mc s then Some mc else if sh_eqb s cur then Some prev else aget sh_eqb s tops) = end_lt cur prev mc tops s).
    { unfold end_lt, is_mc. destruct (Z.eqb_spec (sh_wc s) (-1)); destruct (Z.eq_dec (sh_wc s) (-1)); try contradiction; reflexivity. }
    rewrite E0. destruct (end_lt cur prev mc tops s) as [lt|] eqn:E; [|discriminate].
    destruct (stats_ranges cur prev mc tops from) as [rs'|]; [|discriminate]. intros [= <-].
    destruct (IH rs' eq_refl) as [A B]. split; [cbn; now rewrite A|]. intros r. cbn [In]. rewrite B. split.
    + intros [<-|(s' & k' & lt' & H1 & H2)]; [exists s, k, lt; auto|exists s', k', lt'; split; [now right|auto]].
    + intros (s' & k' & lt' & [[= <- <-]|H1] & H2 & ->); [left|right; exists s', k', lt'; auto]. congruence.
Qed.
Lemma stats_ranges_none cur prev mc tops from :
  stats_ranges cur prev mc tops from = None <-> exists s k, In (s, k) from /\ end_lt cur prev mc tops s = None.
Proof.
  induction from as [|[s k] from IH]; cbn [stats_ranges].
  - split; [discriminate|intros (? & ? & [] & _)].
  - assert (E0 : (if is_mc s then Some mc else if sh_eqb s cur then Some prev else aget sh_eqb s tops) = end_lt cur prev mc tops s).
    { unfold end_lt, is_mc. destruct (Z.eqb_spec (sh_wc s) (-1)); destruct (Z.eq_dec (sh_wc s) (-1)); try contradiction; reflexivity. }
    rewrite E0. destruct (end_lt cur prev mc tops s) as [lt|] eqn:E.
    + destruct (stats_ranges cur prev mc tops from) as [rs'|].
      * split; [discriminate|]. intros (s' & k' & [[= <- <-]|H1] & H2); [congruence|]. enough (@Some (list brange) rs' = None) by discriminate.
        apply IH. eauto.
      * split; auto. intros _. destruct (proj1 IH eq_refl) as (s' & k' & H1 & H2). exists s', k'. split; [now right|auto].
    + split; auto. intros _. exists s, k. split; [now left|auto].
Qed.

(** A message is covered exactly when its shard's end time is known to include it and some partition of some shard that tracks
    the shard has not processed it; every tracked shard gets exactly one range. *)
Theorem C36_stats_cover : forall cur m prev mc tops rs, compute_stats_ranges cur m prev mc tops = Some rs ->
  forall s k, qk_ok k ->
  (covered rs s k <->
   (exists p, all_pairs m s p /\ qk_cmp p k = Lt) /\ exists lt, end_lt cur prev mc tops s = Some lt /\ qk_lt k <= lt).
Proof.
  intros cur m prev mc tops rs E s k Hk. apply stats_ranges_spec in E as [_ Hr]. unfold covered.
  destruct (find_min_inv m) as [Hso _].
  assert (Hhi : forall lt, qk_cmp k (qk_max_for_lt lt) <> Gt <-> qk_lt k <= lt).
  { intros lt. rewrite qk_cmp_gt. unfold qk_max_for_lt. cbn [qk_lt qk_hash]. destruct Hk as [_ Hh]. unfold hash_max. lia. }
  split.
  - intros (r & Hin & Hs & Hlo & Hh). apply Hr in Hin as (s' & p & lt & Hin & He & ->). cbn [br_shard br_from br_to in_bound_lo in_bound_hi] in *. subst s'.
    apply (oin_get sh_ord sh_total) in Hin; auto. apply C13_find_min in Hin as [Hp _]. split; [exists p; auto|]. exists lt. split; auto. now apply Hhi.
  - intros [(p & Hp & Hlt) (lt & He & Hle)].
    destruct (oget sh_ord s (find_min m)) as [q|] eqn:Eq.
    2:{ exfalso. destruct (find_min_inv m) as [_ H]. specialize (H s). rewrite Eq in H. eapply H; eauto. }
    pose proof (proj1 (C13_find_min m s q) Eq) as [_ Hq].
    exists (BR s (Excl q) (Incl (qk_max_for_lt lt))). split; [apply Hr; exists s, q, lt; split; [now apply (oin_get sh_ord sh_total)|auto]|].
    cbn [br_shard br_from br_to in_bound_lo in_bound_hi]. split; auto. split; [|now apply Hhi].
    specialize (Hq p Hp). apply qk_cmp_lt in Hlt. apply qk_cmp_lt. rewrite qk_cmp_gt in Hq. lia.
Qed.
Theorem C36_one_range_per_shard : forall cur m prev mc tops rs, compute_stats_ranges cur m prev mc tops = Some rs ->
  NoDup (map br_shard rs) /\ forall s, In s (map br_shard rs) <-> exists p, all_pairs m s p.
Proof.
  intros cur m prev mc tops rs E. apply stats_ranges_spec in E as [Hm _]. destruct (find_min_inv m) as [Hso Hi]. rewrite Hm. split.
  - now apply (osorted_nodup sh_ord sh_total).
  - intros s. split.
    + intros Hin. apply in_map_iff in Hin as ([s' k] & <- & Hin). apply (oin_get sh_ord sh_total) in Hin; auto. apply C13_find_min in Hin as [Hin _]. eauto.
    + intros (p & Hp). specialize (Hi s). destruct (oget sh_ord s (find_min m)) as [q|] eqn:Eq; [|exfalso; eapply Hi; eauto].
      apply in_map_iff. exists (s, q). split; auto. now apply (oin_get sh_ord sh_total).
Qed.
(** the computation panics exactly when a tracked shard has no known end time *)
Theorem C36_defined_iff : forall cur m prev mc tops,
  compute_stats_ranges cur m prev mc tops = None <-> exists s p, all_pairs m s p /\ end_lt cur prev mc tops s = None.
Proof.
  intros. unfold compute_stats_ranges. rewrite stats_ranges_none. destruct (find_min_inv m) as [Hso Hi]. split.
  - intros (s & k & Hin & E). apply (oin_get sh_ord sh_total) in Hin; auto. apply C13_find_min in Hin as [Hin _]. eauto.
  - intros (s & p & Hp & E). specialize (Hi s). destruct (oget sh_ord s (find_min m)) as [q|] eqn:Eq; [|exfalso; eapply Hi; eauto].
    exists s, q. split; auto. now apply (oin_get sh_ord sh_total).
Qed.

(** the table of all shards' processed_to: the current shard's and, for a shard block, the masterchain's entries replace the
    ones taken from the masterchain state *)
Theorem C36_all_shards : forall next seq cur mc mcs descr res,
  build_all (next, seq) cur mc mcs descr = Some res ->
  (exists upd, aget sh_eqb next res = Some (upd, cur) /\
    (sh_wc next = (-1)%Z -> upd = true) /\
    (sh_wc next <> (-1)%Z -> exists sq tb, In (next, (sq, tb)) descr /\ (sq <= seq < 2 ^ 32 -> (upd = true <-> tb = true \/ 1 < seq - sq)))) /\
  (sh_wc next <> (-1)%Z -> aget sh_eqb mc_shard res = Some (true, mc)) /\
  forall s, s <> next -> (sh_wc next = (-1)%Z \/ s <> mc_shard) -> aget sh_eqb s res = aget sh_eqb s mcs.
Proof.
  intros next seq cur mc mcs descr res. unfold build_all, is_mc. cbn [fst snd].
  destruct (Z.eqb_spec (sh_wc next) (-1)) as [Em|Em].
  - intros [= <-]. split; [|split].
    + exists true. rewrite (aget_aset sh_eqb sh_eqb_spec), sh_eqb_refl. split; auto. split; auto. intros Hc; congruence.
    + intros Hc; congruence.
    + intros s Hs _. rewrite (aget_aset sh_eqb sh_eqb_spec). destruct (sh_eqb_spec s next); [congruence|reflexivity].
  - destruct (find _ descr) as [[s0 [sq tb]]|] eqn:Ef; [|discriminate]. cbn [fst snd]. intros [= <-].
    apply find_some in Ef as [Hin E]. cbn [fst] in E. destruct (sh_eqb_spec s0 next) as [->|]; [|discriminate].
    split; [|split].
    + eexists. rewrite (aget_aset sh_eqb sh_eqb_spec), sh_eqb_refl. split; [reflexivity|]. split; [intros; contradiction|].
      intros _. exists sq, tb. split; auto. intros [Hl Hh]. rewrite orb_true_iff, N.ltb_lt.
      assert (EM : (seq + 2 ^ 32 - sq) mod 2 ^ 32 = seq - sq); [|change ((tb = true \/ 1 < (seq + 2 ^ 32 - sq) mod 2 ^ 32) <-> tb = true \/ 1 < seq - sq); now rewrite EM].
      replace (seq + 2 ^ 32 - sq) with ((seq - sq) + 1 * 2 ^ 32) by lia. rewrite N.mod_add by lia. rewrite N.mod_small; lia.
    + intros _. rewrite (aget_aset sh_eqb sh_eqb_spec). destruct (sh_eqb_spec mc_shard next) as [E'|_].
      * exfalso. apply Em. rewrite <- E'. reflexivity.
      * now rewrite (aget_aset sh_eqb sh_eqb_spec), sh_eqb_refl.
    + intros s Hs [Hc|Hm]; [contradiction|]. rewrite !(aget_aset sh_eqb sh_eqb_spec).
      destruct (sh_eqb_spec s next); [congruence|]. destruct (sh_eqb_spec s mc_shard); [congruence|reflexivity].
Qed.

(** a concrete two-partition value over two shards *)
Definition ex_sh := SH 0 (2 ^ 63).
Definition ex_par (n : N) := PI (n, 3) [(5, EI (1, 0) (n, 3) 77 0 n)] [(mc_shard, QK (10 * n) 1); (ex_sh, QK (20 - n) 2)]
  [(5, II 0 n [(mc_shard, SI 1 2)])].
Definition ex_upto := UP [(0, ex_par 4); (1, ex_par 3)] (Some 9).
Definition ex_valid (s : shard) := negb (sh_prefix s =? 0).
Example ex_upto_wf : upto_wf ex_valid ex_upto.
Proof.
  assert (Hsh : sh_ok mc_shard /\ sh_ok ex_sh) by (unfold sh_ok; cbn; lia).
  assert (Hp : forall n, par_wf ex_valid (ex_par n)).
  { intros n. unfold ex_par, par_wf, shards_wf. cbn [pi_ext pi_int_to pi_int]. split; [|split].
    - split; [repeat constructor|]. intros k v [[= <- <-]|[]]. lia.
    - split; [repeat constructor|]. intros s v [[= <- <-]|[[= <- <-]|[]]]; split; reflexivity || apply Hsh.
    - split; [repeat constructor|]. intros k v [[= <- <-]|[]]. split; [lia|]. cbn [ii_shards]. split; [repeat constructor|].
      intros s v [[= <- <-]|[]]. split; reflexivity || apply Hsh. }
  split; [repeat constructor|]. intros k p [[= <- <-]|[[= <- <-]|[]]]; split; auto; lia.
Qed.
Example ex_upto_values : min_ext ex_upto = (3, 3) /\ min_internals ex_upto = [(mc_shard, QK 30 1); (ex_sh, QK 16 2)] /\
  has_non_zero_offset ex_upto = true /\ of_bc ex_valid (to_bc ex_upto) = Some ex_upto /\ ~ has_bad_shard ex_valid (to_bc ex_upto).
Proof.
  split; [reflexivity|]. split; [reflexivity|]. split; [reflexivity|]. pose proof (C13_roundtrip _ _ ex_upto_wf) as R. split; [exact R|].
  intros H. apply C13_load_fails_iff in H; [congruence|]. now apply (C13_written_wf ex_valid), ex_upto_wf.
Qed.
Example ex_stats : exists rs, compute_stats_ranges ex_sh [(mc_shard, (true, [(0, pi_int_to (ex_par 4))])); (ex_sh, (true, [(0, pi_int_to (ex_par 3))]))] 50 60 [] = Some rs /\
  covered rs ex_sh (QK 17 0) /\ ~ covered rs ex_sh (QK 16 2) /\ ~ covered rs ex_sh (QK 51 0) /\ covered rs mc_shard (QK 60 7).
Proof.
  eexists. split; [reflexivity|]. split; [|split; [|split]].
  - eexists. split; [right; left; reflexivity|]. cbn. repeat split; discriminate.
  - intros (r & [<-|[<-|[]]] & H & A & B); cbn in *; discriminate.
  - intros (r & [<-|[<-|[]]] & H & A & B); cbn in *; try discriminate. now apply B.
  - eexists. split; [left; reflexivity|]. cbn. repeat split; discriminate.
Qed.

Print Assumptions C13_roundtrip.
Print Assumptions C13_written_wf.
Print Assumptions C13_roundtrip_back.
Print Assumptions C13_load_fails_iff.
Print Assumptions C13_min_internals.
Print Assumptions C13_min_internals_defined.
Print Assumptions C13_find_min.
Print Assumptions C13_min_externals.
Print Assumptions C13_min_externals_same.
Print Assumptions C13_has_offset.
Print Assumptions C36_stats_cover.
Print Assumptions C36_one_range_per_shard.
Print Assumptions C36_defined_iff.
Print Assumptions C36_all_shards.
