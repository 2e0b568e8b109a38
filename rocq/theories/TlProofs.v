From Verif Require Export TlModel TlSpec QueueKeysProofs RouterProofs ProcProofs.
From Coq Require Import ZArith ZifyN ZifyNat ZifyBool Lia.
Local Open Scope N_scope.
Local Opaque be le lex de.

(** [w] and [r] are inverse on the values satisfying [P], and [r] accepts nothing else *)
Definition codec {A} (P : A -> Prop) (w : A -> bytes) (r : bytes -> option (A * bytes)) : Prop :=
  (forall a rest, P a -> r (w a ++ rest) = Some (a, rest)) /\
  (forall l a rest, bytes_ok l -> r l = Some (a, rest) -> P a /\ l = w a ++ rest).

Lemma c_u32 : codec (fun n => n < 2 ^ 32) w_u32 r_u32.
Proof.
  split; [intros a rest Ha; exact (read_le_le 4 a rest Ha)|]. intros l a rest Hl E. apply (read_le_some 4) in E as [E1 E2]; auto.
Qed.
Lemma c_u64 : codec (fun n => n < 2 ^ 64) w_u64 r_u64.
Proof.
  split; [intros a rest Ha; exact (read_le_le 8 a rest Ha)|]. intros l a rest Hl E. apply (read_le_some 8) in E as [E1 E2]; auto.
Qed.
Lemma c_hash : codec (fun n => n < 2 ^ 256) w_hash r_hash.
Proof.
  split; [intros a rest Ha; exact (read_be_be 32 a rest Ha)|]. intros l a rest Hl E. apply (read_be_some 32) in E as [E1 E2]; auto.
Qed.
Lemma ok_tail a b : bytes_ok (a ++ b) -> bytes_ok b. Proof. intros H. now apply Forall_app in H as [_ H]. Qed.

Lemma c_qk : codec qk_ok w_qk r_qk.
Proof.
  split.
  - intros [lt h] rest [H1 H2]. unfold r_qk, w_qk. cbn [qk_lt qk_hash] in *. rewrite <- app_assoc, (proj1 c_u64), (proj1 c_hash) by auto. reflexivity.
  - intros l a rest Hl. unfold r_qk. destruct (r_u64 l) as [[lt l1]|] eqn:E1; [|discriminate].
    apply (proj2 c_u64) in E1 as [B1 ->]; auto. apply ok_tail in Hl.
    destruct (r_hash l1) as [[h l2]|] eqn:E2; [|discriminate]. apply (proj2 c_hash) in E2 as [B2 ->]; auto.
    intros [= <- <-]. split; [split; auto|]. unfold w_qk. cbn [qk_lt qk_hash]. now rewrite <- app_assoc.
Qed.
Lemma to_u32_bound z : to_u 32 z < 2 ^ 32. Proof. apply to_u_bound. Qed.
Lemma wc_back z : (- 2 ^ 31 <= z < 2 ^ 31)%Z -> to_i 32 (to_u 32 z) = z.
Proof. intros B. apply to_i_to_u; [lia|]. exact B. Qed.
Lemma c_ra : codec ra_ok w_ra r_ra.
Proof.
  split.
  - intros [w h] rest [H1 H2]. unfold r_ra, w_ra. cbn [ra_wc ra_acc] in *. rewrite <- app_assoc.
    change (le 4 (to_u 32 w)) with (w_u32 (to_u 32 w)). rewrite (proj1 c_u32) by apply to_u32_bound.
    rewrite wc_back by lia.
    assert (E : ((-128 <=? w) && (w <? 128))%Z = true) by lia. rewrite E, (proj1 c_hash) by auto. reflexivity.
  - intros l a rest Hl. unfold r_ra. destruct (r_u32 l) as [[w l1]|] eqn:E1; [|discriminate].
    apply (proj2 c_u32) in E1 as [B1 ->]; auto. apply ok_tail in Hl.
    destruct ((-128 <=? to_i 32 w) && (to_i 32 w <? 128))%Z eqn:Eb; [|discriminate].
    destruct (r_hash l1) as [[h l2]|] eqn:E2; [|discriminate]. apply (proj2 c_hash) in E2 as [B2 ->]; auto.
    intros [= <- <-]. split; [split; cbn [ra_wc ra_acc]; auto; lia|]. unfold w_ra. cbn [ra_wc ra_acc]. rewrite <- app_assoc.
    rewrite to_u_to_i by (auto; lia). reflexivity.
Qed.
Lemma c_shard valid : codec (fun s => sh_ok s /\ valid s = true) w_shard (r_shard valid).
Proof.
  split.
  - intros [w p] rest [[H1 H2] Hv]. unfold r_shard, w_shard. cbn [sh_wc sh_prefix] in *. rewrite <- app_assoc.
    change (le 4 (to_u 32 w)) with (w_u32 (to_u 32 w)). rewrite (proj1 c_u32) by apply to_u32_bound.
    rewrite (proj1 c_u64) by auto. rewrite wc_back by lia. now rewrite Hv.
  - intros l a rest Hl. unfold r_shard. destruct (r_u32 l) as [[w l1]|] eqn:E1; [|discriminate].
    apply (proj2 c_u32) in E1 as [B1 ->]; auto. apply ok_tail in Hl.
    destruct (r_u64 l1) as [[p l2]|] eqn:E2; [|discriminate]. apply (proj2 c_u64) in E2 as [B2 ->]; auto.
    destruct (valid _) eqn:Ev; [|discriminate]. intros [= <- <-].
    split; [split; [split|]; cbn [sh_wc sh_prefix]; auto|].
    + exact (to_i_bound 32 w ltac:(lia) B1).
    + unfold w_shard. cbn [sh_wc sh_prefix]. rewrite <- app_assoc, to_u_to_i by (auto; lia). reflexivity.
Qed.

(** ** Sorted maps *)
Lemma osorted_app {K V} (cmp : K -> K -> comparison) (a b : omap K V) : osorted cmp (a ++ b) ->
  osorted cmp a /\ osorted cmp b /\ forall e e', In e a -> In e' b -> cmp (fst e) (fst e') = Lt.
Proof.
  induction a as [|[k v] a IH]; cbn [app]; intros Hs.
  - split; [constructor|]. split; auto. intros e e' [].
  - inversion Hs as [|? ? ? Hs' HF]; subst. destruct (IH Hs') as (A & B & D). apply Forall_app in HF as [F1 F2]. split; [constructor; auto|].
    split; auto. intros e e' [<-|Hin] Hin'; auto. cbn [fst]. rewrite Forall_forall in F2. exact (F2 _ Hin').
Qed.
Lemma osorted_snoc {K V} (cmp : K -> K -> comparison) (a : omap K V) k v : osorted cmp a -> Forall (fun e => cmp (fst e) k = Lt) a ->
  osorted cmp (a ++ [(k, v)]).
Proof.
  induction 1 as [|k0 v0 a Hs IH HF]; cbn [app]; intros HA; [repeat constructor|].
  inversion HA as [|? ? H1 H2]; subst. constructor; auto. apply Forall_app. split; auto.
Qed.
Lemma oput_snoc {K V} (cmp : K -> K -> comparison) (T : total_order cmp) (a : omap K V) k v :
  Forall (fun e => cmp (fst e) k = Lt) a -> oput cmp k v a = a ++ [(k, v)].
Proof.
  induction a as [|[k0 v0] a IH]; intros HA; [reflexivity|]. inversion HA as [|? ? H1 H2]; subst. cbn [fst] in H1. cbn [oput app].
  rewrite (to_antisym _ T k0 k), H1. cbn. now rewrite IH.
Qed.

Section Maps.
  Context {K V : Type} (cmp : K -> K -> comparison) (T : total_order cmp).
  Context (Pk : K -> Prop) (wk : K -> bytes) (rk : bytes -> option (K * bytes)) (Ck : codec Pk wk rk).
  Context (Pv : V -> Prop) (wv : V -> bytes) (rv : bytes -> option (V * bytes)) (Cv : codec Pv wv rv).
  Definition w_entries (m : omap K V) : bytes := concat (map (fun e => wk (fst e) ++ wv (snd e)) m).
  Definition entries_ok (m : omap K V) : Prop := Forall (fun e => Pk (fst e) /\ Pv (snd e)) m.

  Lemma read_map_fwd m : forall prev items rest, osorted cmp (items ++ m) -> entries_ok m ->
    match prev with None => True | Some p => Forall (fun e => cmp p (fst e) = Lt) m end ->
    read_map cmp rk rv (length m) prev items (w_entries m ++ rest) = Some (items ++ m, rest).
  Proof.
    induction m as [|[k v] m IH]; intros prev items rest Hs Ho Hp; cbn [length read_map].
    - now rewrite app_nil_r.
    - inversion Ho as [|? ? [H1 H2] Ho']; subst. cbn [fst snd] in *. unfold w_entries. cbn [map concat fst snd].
      rewrite <- !app_assoc. rewrite (proj1 Ck) by auto.
      assert (E : match prev with Some p => match cmp k p with Gt => false | _ => true end | None => false end = false).
      { destruct prev as [p|]; auto. inversion Hp as [|? ? H3 _]; subst. cbn [fst] in H3. rewrite (to_antisym _ T p k), H3. reflexivity. }
      rewrite E, (proj1 Cv) by auto.
      destruct (osorted_app cmp items ((k, v) :: m) Hs) as (S1 & S2 & S3).
      rewrite (oput_snoc cmp T) by (apply Forall_forall; intros e He; apply (S3 e (k, v)); auto; now left).
      replace (items ++ (k, v) :: m) with ((items ++ [(k, v)]) ++ m) by now rewrite <- app_assoc.
      apply IH; auto.
      + now rewrite <- app_assoc.
      + inversion S2; subst; auto.
  Qed.

  Lemma read_map_bwd n : forall prev items l m' rest, bytes_ok l -> osorted cmp items ->
    match prev with None => items = [] | Some p => Forall (fun e => cmp (fst e) p <> Gt) items end ->
    read_map cmp rk rv n prev items l = Some (m', rest) ->
    exists m, m' = items ++ m /\ length m = n /\ l = w_entries m ++ rest /\ osorted cmp (items ++ m) /\ entries_ok m.
  Proof.
    induction n as [|n IH]; intros prev items l m' rest Hl Hs Hp; cbn [read_map].
    - intros [= <- <-]. exists []. rewrite app_nil_r. split; auto. split; auto. split; auto. split; auto. constructor.
    - destruct (rk l) as [[k l1]|] eqn:E1; [|discriminate]. apply (proj2 Ck) in E1 as [B1 ->]; auto. apply ok_tail in Hl.
      destruct (match prev with Some p => _ | None => _ end) eqn:Ep; [discriminate|].
      destruct (rv l1) as [[v l2]|] eqn:E2; [|discriminate]. apply (proj2 Cv) in E2 as [B2 ->]; auto. apply ok_tail in Hl.
      assert (HF : Forall (fun e => cmp (fst e) k = Lt) items).
      { destruct prev as [p|]; [|rewrite Hp; constructor]. destruct (cmp k p) eqn:Ec; try discriminate.
        eapply Forall_impl; [|exact Hp]. intros e He. cbn in He.
        assert (Hpk : cmp p k = Lt) by (rewrite (to_antisym _ T k p), Ec; reflexivity).
        destruct (cmp (fst e) p) eqn:Ee; [apply (to_eq _ T) in Ee; now rewrite Ee|eapply (to_trans _ T); eauto|congruence]. }
      rewrite (oput_snoc cmp T) by auto. intros E. apply IH in E as (m & -> & Hn & -> & Hs' & Ho); auto.
      + exists ((k, v) :: m). rewrite <- app_assoc in *. split; auto. split; [cbn; lia|]. split.
        * unfold w_entries. cbn [map concat fst snd]. now rewrite <- !app_assoc.
        * split; auto. constructor; auto.
      + now apply osorted_snoc.
      + apply Forall_app. split; [eapply Forall_impl; [|exact HF]; cbn; intros; congruence|].
        repeat constructor. cbn [fst]. rewrite (ocmp_refl cmp T). discriminate.
  Qed.

  (** count-prefixed map with a size limit *)
  Definition w_map (m : omap K V) : bytes := w_count m ++ w_entries m.
  Definition r_map (max : N) (l : bytes) : option (omap K V * bytes) :=
    match r_u32 l with
    | Some (n, l) => if max <? n then None else read_map cmp rk rv (N.to_nat n) None [] l
    | None => None
    end.
  Lemma c_map max : max < 2 ^ 32 ->
    codec (fun m => osorted cmp m /\ entries_ok m /\ N.of_nat (length m) <= max) w_map (r_map max).
  Proof.
    intros Hmax. split.
    - intros m rest (Hs & Ho & Hn). unfold r_map, w_map, w_count. rewrite <- app_assoc, (proj1 c_u32) by lia.
      destruct (N.ltb_spec max (N.of_nat (length m))); [lia|]. rewrite Nnat.Nat2N.id. now apply (read_map_fwd m None []).
    - intros l m rest Hl. unfold r_map. destruct (r_u32 l) as [[n l1]|] eqn:E1; [|discriminate].
      apply (proj2 c_u32) in E1 as [B1 ->]; auto. apply ok_tail in Hl. destruct (N.ltb_spec max n); [discriminate|].
      intros E. apply read_map_bwd in E as (m' & -> & Hn & -> & Hs & Ho); auto; [|constructor].
      cbn [app] in *. split; [split; auto; split; auto; lia|]. unfold w_map, w_count. rewrite <- app_assoc, Hn, Nnat.N2Nat.id. reflexivity.
  Qed.
End Maps.

(** ** Messages *)
Lemma hashes_fwd ms : forall prev items rest, asc prev ms -> Forall (fun h => h < 2 ^ 256) ms ->
  read_hashes (length ms) prev items (concat (map w_hash ms) ++ rest) = Some (items ++ ms, rest).
Proof.
  induction ms as [|h ms IH]; intros prev items rest Ha Ho; cbn [length read_hashes map concat].
  - now rewrite app_nil_r.
  - inversion Ho; subst. inversion Ha as [|? ? Ha' HF]; subst. inversion HF; subst.
    rewrite <- app_assoc, (proj1 c_hash) by auto. destruct (N.leb_spec h prev); [lia|].
    rewrite IH; auto. now rewrite <- app_assoc.
Qed.
Lemma hashes_bwd n : forall prev items l m' rest, bytes_ok l -> read_hashes n prev items l = Some (m', rest) ->
  exists ms, m' = items ++ ms /\ length ms = n /\ l = concat (map w_hash ms) ++ rest /\ asc prev ms /\ Forall (fun h => h < 2 ^ 256) ms.
Proof.
  induction n as [|n IH]; intros prev items l m' rest Hl; cbn [read_hashes].
  - intros [= <- <-]. exists []. rewrite app_nil_r. split; auto. split; auto. split; auto. split; [repeat constructor|constructor].
  - destruct (r_hash l) as [[h l1]|] eqn:E1; [|discriminate]. apply (proj2 c_hash) in E1 as [B1 ->]; auto. apply ok_tail in Hl.
    destruct (N.leb_spec h prev); [discriminate|]. intros E. apply IH in E as (ms & -> & Hn & -> & Ha & Ho); auto.
    exists (h :: ms). rewrite <- app_assoc. split; auto. split; [cbn; lia|]. split; [cbn [map concat]; now rewrite <- app_assoc|].
    split; [|constructor; auto]. constructor; auto. constructor; auto. inversion Ha as [|? ? _ HF]; subst.
    eapply Forall_impl; [|exact HF]. cbn. intros; lia.
Qed.
Lemma c_msgs : codec (fun ms => N.of_nat (length ms) <= 10000000 /\ asc 0 ms /\ Forall (fun h => h < 2 ^ 256) ms) w_msgs r_msgs.
Proof.
  split.
  - intros ms rest (Hn & Ha & Ho). unfold r_msgs, w_msgs, w_count. rewrite <- app_assoc, (proj1 c_u32) by lia.
    destruct (N.ltb_spec 10000000 (N.of_nat (length ms))); [lia|]. rewrite Nnat.Nat2N.id. now apply (hashes_fwd ms 0 []).
  - intros l m rest Hl. unfold r_msgs. destruct (r_u32 l) as [[n l1]|] eqn:E1; [|discriminate].
    apply (proj2 c_u32) in E1 as [B1 ->]; auto. apply ok_tail in Hl. destruct (N.ltb_spec 10000000 n); [discriminate|].
    intros E. apply hashes_bwd in E as (ms & -> & Hn & -> & Ha & Ho); auto. cbn [app] in *.
    split; [split; [lia|auto]|]. unfold w_msgs, w_count. rewrite <- app_assoc, Hn, Nnat.N2Nat.id. reflexivity.
Qed.

(** ** The map readers of the diff *)
Lemma c_tt : codec (fun _ : unit => True) (fun _ => []) (fun l => Some (tt, l)).
Proof. split; [intros [] rest _; reflexivity|]. intros l [] rest _ [= <-]. auto. Qed.
Lemma c_part : codec (fun i => i < 2 ^ 16) w_u32 r_part_idx.
Proof.
  split.
  - intros i rest Hi. unfold r_part_idx. rewrite (proj1 c_u32) by lia. destruct (N.ltb_spec i (2 ^ 16)); [reflexivity|lia].
  - intros l i rest Hl. unfold r_part_idx. destruct (r_u32 l) as [[n l1]|] eqn:E1; [|discriminate].
    apply (proj2 c_u32) in E1 as [B1 ->]; auto. destruct (N.ltb_spec n (2 ^ 16)); [|discriminate]. intros [= <- <-]. auto.
Qed.
Lemma c_proc valid : codec (proc_wf valid) w_proc (r_proc valid).
Proof. exact (c_map sh_ord sh_total _ _ _ (c_shard valid) _ _ _ c_qk 1000 ltac:(lia)). Qed.
Lemma w_accounts_eq s : w_accounts s = w_map w_ra (fun _ : unit => []) s.
Proof.
  unfold w_accounts, w_map, w_entries. f_equal.
Qed.
Lemma codec_ext {A} (P Q : A -> Prop) w w' r : (forall a, P a <-> Q a) -> (forall a, w a = w' a) -> codec P w r -> codec Q w' r.
Proof.
  intros HP Hw [C1 C2]. split.
  - intros a rest Ha. rewrite <- Hw. apply C1. now apply HP.
  - intros l a rest Hl E. rewrite <- Hw. destruct (C2 l a rest Hl E). split; auto. now apply HP.
Qed.
Lemma c_accounts : codec accts_wf w_accounts r_accounts.
Proof.
  eapply codec_ext; [| |exact (c_map ra_cmp ra_cmp_total _ _ _ c_ra _ _ _ c_tt 10000000 ltac:(lia))].
  - intros s. unfold accts_wf, entries_ok. split; intros (A & B & D); split; auto; split; auto; eapply Forall_impl; try exact B; cbn; tauto.
  - intros s. symmetry. apply w_accounts_eq.
Qed.
Lemma sorted_len_bound (l : list N) : forall b, NoDup l -> Forall (fun x => x < b) l -> N.of_nat (length l) <= b.
Proof.
  intros b Hn Hf. assert (Hinc : incl (map N.to_nat l) (seq 0 (N.to_nat b))).
  { intros x Hx. apply in_map_iff in Hx as (y & <- & Hy). rewrite Forall_forall in Hf. specialize (Hf y Hy). apply in_seq. lia. }
  apply NoDup_incl_length in Hinc.
  - rewrite map_length, seq_length in Hinc. lia.
  - apply FinFun.Injective_map_NoDup; auto. intros x y. lia.
Qed.
Lemma c_parts : codec parts_wf w_parts r_parts.
Proof.
  eapply codec_ext; [| |exact (c_map N.compare N_total _ _ _ c_part _ _ _ c_accounts (65535 + 1) ltac:(lia))]; [|reflexivity].
  intros m. unfold parts_wf, entries_ok. split; [intros (A & B & D); auto|]. intros [A B]. split; auto. split; auto.
  rewrite <- (map_length fst). change (65535 + 1) with (2 ^ 16). apply sorted_len_bound; [now apply (osorted_nodup N.compare N_total)|].
  apply Forall_forall. intros x Hx. apply in_map_iff in Hx as (e & <- & He). rewrite Forall_forall in B. apply (B e He).
Qed.

Lemma firstn_consumed {A} (a b : list A) : firstn (length (a ++ b) - length b) (a ++ b) = a.
Proof. rewrite app_length. replace (length a + length b - length b)%nat with (length a + 0)%nat by lia. now rewrite firstn_app_2, firstn_O, app_nil_r. Qed.

Section D.
  Context (valid : shard -> bool) (id : N) (H : bytes -> N) (Hid : id < 2 ^ 32).
  Lemma c_diff : codec (fun d => diff_wf valid d /\ wd_hash d = H (w_diff id d)) (w_diff id) (r_diff valid id H).
  Proof.
    split.
    - intros d rest [(H1 & H2 & H3 & H4 & H5 & H6 & H7 & H8 & H9 & H10) Hh].
      assert (EL : w_diff id d ++ rest = w_u32 id ++ w_hash (wd_prev d) ++ w_shard (wd_shard d) ++ w_u32 (wd_seqno d) ++ w_proc (wd_proc d) ++
        w_qk (wd_min d) ++ w_qk (wd_max d) ++ w_msgs (wd_msgs d) ++ w_parts (wd_src d) ++ w_parts (wd_dst d) ++ rest).
      { unfold w_diff. rewrite <- !app_assoc. reflexivity. }
      unfold r_diff. rewrite EL at 1. rewrite (proj1 c_u32) by auto. rewrite N.eqb_refl. cbn [negb].
      rewrite (proj1 c_hash) by auto. rewrite (proj1 (c_shard valid)) by auto. rewrite (proj1 c_u32) by auto.
      rewrite (proj1 (c_proc valid)) by auto. rewrite (proj1 c_qk) by auto. rewrite (proj1 c_qk) by auto.
      rewrite (proj1 c_msgs) by auto. rewrite (proj1 c_parts) by auto. rewrite (proj1 c_parts) by auto.
      assert (E : qk_ltb (wd_max d) (wd_min d) = false) by (unfold qk_ltb; destruct (qk_cmp _ _); congruence). rewrite E.
      rewrite firstn_consumed, <- Hh. destruct d; reflexivity.
    - intros l d rest Hl. unfold r_diff.
      destruct (r_u32 l) as [[id' l1]|] eqn:E1; [|discriminate]. pose proof Hl as Hl0. apply (proj2 c_u32) in E1 as [B1 E1]; auto.
      rewrite E1 in Hl. apply ok_tail in Hl.
      destruct (N.eqb_spec id' id) as [->|]; [|discriminate]. cbn [negb].
      destruct (r_hash l1) as [[prev l2]|] eqn:E2; [|discriminate]. apply (proj2 c_hash) in E2 as [B2 E2]; auto. rewrite E2 in Hl. apply ok_tail in Hl.
      destruct (r_shard valid l2) as [[sh l3]|] eqn:E3; [|discriminate]. apply (proj2 (c_shard valid)) in E3 as [B3 E3]; auto. rewrite E3 in Hl. apply ok_tail in Hl.
      destruct (r_u32 l3) as [[sq l4]|] eqn:E4; [|discriminate]. apply (proj2 c_u32) in E4 as [B4 E4]; auto. rewrite E4 in Hl. apply ok_tail in Hl.
      destruct (r_proc valid l4) as [[pr l5]|] eqn:E5; [|discriminate]. apply (proj2 (c_proc valid)) in E5 as [B5 E5]; auto. rewrite E5 in Hl. apply ok_tail in Hl.
      destruct (r_qk l5) as [[mn l6]|] eqn:E6; [|discriminate]. apply (proj2 c_qk) in E6 as [B6 E6]; auto. rewrite E6 in Hl. apply ok_tail in Hl.
      destruct (r_qk l6) as [[mx l7]|] eqn:E7; [|discriminate]. apply (proj2 c_qk) in E7 as [B7 E7]; auto. rewrite E7 in Hl. apply ok_tail in Hl.
      destruct (r_msgs l7) as [[ms l8]|] eqn:E8; [|discriminate]. apply (proj2 c_msgs) in E8 as [B8 E8]; auto. rewrite E8 in Hl. apply ok_tail in Hl.
      destruct (r_parts l8) as [[src l9]|] eqn:E9; [|discriminate]. apply (proj2 c_parts) in E9 as [B9 E9]; auto. rewrite E9 in Hl. apply ok_tail in Hl.
      destruct (r_parts l9) as [[dst l10]|] eqn:E10; [|discriminate]. apply (proj2 c_parts) in E10 as [B10 E10]; auto.
      destruct (qk_ltb mx mn) eqn:Eq; [discriminate|]. intros [= <- <-].
      set (d := WD (H (firstn (length l - length l10) l)) prev sh sq pr mn mx ms src dst).
      assert (EL : l = w_diff id d ++ l10).
      { unfold w_diff, d. cbn [wd_prev wd_shard wd_seqno wd_proc wd_min wd_max wd_msgs wd_src wd_dst]. rewrite <- !app_assoc. congruence. }
      split; [|exact EL]. split.
      + unfold diff_wf, d. cbn [wd_prev wd_shard wd_seqno wd_proc wd_min wd_max wd_msgs wd_src wd_dst].
        assert (qk_cmp mx mn <> Lt) by (unfold qk_ltb in Eq; destruct (qk_cmp mx mn); congruence). tauto.
      + unfold d at 1. cbn [wd_hash]. f_equal. rewrite EL. apply firstn_consumed.
  Qed.

  (** the chain condition between a diff and the older ones that follow it *)
  Fixpoint chain_from (seq prev : N) (ds : list wdiff) : Prop :=
    match ds with
    | [] => True
    | d :: r => wd_seqno d < seq /\ wd_hash d = prev /\ chain_from (wd_seqno d) (wd_prev d) r
    end.
  Definition dwf (d : wdiff) : Prop := diff_wf valid d /\ wd_hash d = H (w_diff id d).
  Lemma diffs_fwd ds : forall seq prev items rest, Forall dwf ds -> chain_from seq prev ds ->
    r_diffs_loop valid id H (length ds) seq prev items (concat (map (w_diff id) ds) ++ rest) = Some (items ++ ds, rest).
  Proof.
    induction ds as [|d ds IH]; intros seq prev items rest Hw Hc; cbn [length r_diffs_loop map concat].
    - now rewrite app_nil_r.
    - inversion Hw; subst. destruct Hc as (C1 & C2 & C3). rewrite <- app_assoc, (proj1 c_diff) by auto.
      destruct (N.leb_spec seq (wd_seqno d)); [lia|]. rewrite C2, N.eqb_refl. cbn [negb orb]. rewrite IH; auto. now rewrite <- app_assoc.
  Qed.
  Lemma diffs_bwd n : forall seq prev items l ds' rest, bytes_ok l -> r_diffs_loop valid id H n seq prev items l = Some (ds', rest) ->
    exists ds, ds' = items ++ ds /\ length ds = n /\ l = concat (map (w_diff id) ds) ++ rest /\ Forall dwf ds /\ chain_from seq prev ds.
  Proof.
    induction n as [|n IH]; intros seq prev items l ds' rest Hl; cbn [r_diffs_loop].
    - intros [= <- <-]. exists []. rewrite app_nil_r. repeat (split; auto). 
    - destruct (r_diff valid id H l) as [[d l1]|] eqn:E1; [|discriminate]. apply (proj2 c_diff) in E1 as [B1 ->]; auto. apply ok_tail in Hl.
      destruct (N.leb_spec seq (wd_seqno d)); [discriminate|]. destruct (N.eqb_spec prev (wd_hash d)) as [->|]; [|discriminate]. cbn [negb orb].
      intros E. apply IH in E as (ds & -> & Hn & -> & Hw & Hc); auto. exists (d :: ds). rewrite <- app_assoc. split; auto.
      split; [cbn; lia|]. split; [cbn [map concat]; now rewrite <- app_assoc|]. split; [constructor; auto|]. cbn. auto.
  Qed.
End D.
