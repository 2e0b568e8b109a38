(** What users of the known peers see. *)
From Coq Require Import List Bool NArith Lia PeanoNat.
From Coq Require Import ZifyN ZifyNat ZifyBool.
From Verif Require Import KnModel KnSpec KnRefine.
Import ListNotations.
Local Open Scope N_scope.

Lemma not_banned_aff s t p i (ix : nat) a : R s t -> wf t -> p_st t p = Live i false -> grp p (p_handles t) a -> p_wnext t + 1 < BANNED -> (a =? BANNED) = false.
Proof. intros RR W EP G LT. pose proof (grp_le p _ a (p_wnext t) (fun k x IN => wf_wid t W _ _ _ IN) G). lia. Qed.
Lemma nobody_entry s t p lf : R s t -> p_st t p = Nobody lf -> match s_entries s p with None => True | Some EBanned => False | Some (Stored ix) => alive s ix = false end.
Proof.
  intros RR EP. pose proof (r_peers _ _ RR p) as A. unfold prel in A. rewrite EP in A. destruct lf; [|rewrite A; exact I]. destruct A as (ix & -> & _ & A). destruct (alive s ix) eqn:E; [|reflexivity].
  apply alive_in in E. destruct E as (h & g & IN). elim (A _ _ IN).
Qed.
Lemma R_forever s t p : R s t -> wf t -> (forall i b, p_st t p <> Live i b) -> R (set_entry p (Some EBanned) s) (set_st p Forever t).
Proof.
  intros [RH R1 R2 R3 RP] W NL. assert (NOT : forall h g, ~ In (h, p, g) (p_handles t)) by (intros h g IN; destruct (wf_live t W _ _ _ IN) as (_ & i & b & F); exact (NL _ _ F)).
  split; cbn [set_entry set_st s_handles s_entries s_hnext s_wnext s_pending p_handles p_hnext p_wnext]; auto.
  - eapply f2_entries; [|exact RH]. intros h q g IN. apply upd_other. intros ->. exact (NOT _ _ IN).
  - intros q. unfold prel. cbn [set_st p_st set_entry s_entries s_inners s_handles p_handles]. destruct (N.eq_dec q p) as [F|F]; [subst q; rewrite !upd_same; reflexivity|]. rewrite !upd_other by exact F. exact (RP q).
Qed.
Lemma set_st_same t p x : p_st t p = x -> forall q, p_st (set_st p x t) q = p_st t q.
Proof. intros E q. cbn [set_st p_st]. unfold upd. destruct (N.eqb_spec q p) as [F|F]; [subst q; congruence|reflexivity]. Qed.

Theorem step_refines s t o : R s t -> wf t -> safe t o -> p_wnext t + 1 < BANNED -> R (snd (seq_step s o)) (snd (spec_step t o)) /\ fst (seq_step s o) = fst (spec_step t o).
Proof.
  intros RR W SF LT. destruct o as [strict i aff|p aff|p|h|h i|h|h|h|h|].
  - unfold seq_step. cbn [step spec_step]. unfold insert. destruct (insert strict i aff s) as [x y] eqn:INS; unfold insert in INS. rewrite INS. cbn [fst snd].
    destruct (p_st t (i_peer i)) as [lf| |j b] eqn:EP.
    + pose proof (R_new s t (i_peer i) lf i aff RR W EP eq_refl) as N. pose proof (nobody_entry _ _ _ _ RR EP) as NE.
      destruct (s_entries s (i_peer i)) as [[ix|]|]; [rewrite NE in INS|contradiction|]; rewrite INS in N; exact N.
    + pose proof (r_peers _ _ RR (i_peer i)) as A. unfold prel in A. rewrite EP in A. rewrite A in INS. inversion INS; subst. auto.
    + destruct (live_rel _ _ _ _ _ RR EP) as (ix & a & A1 & A2 & A3 & A4). rewrite A1 in INS. rewrite (alive_live _ _ _ _ _ _ RR W EP A1) in INS. rewrite A3 in INS. unfold try_update, increase, is_banned in INS. cbn [n_aff n_info] in INS. destruct b.
      * subst a. rewrite N.eqb_refl in INS. destruct aff; cbn [negb] in INS; inversion INS; subst; auto.
      * rewrite (not_banned_aff _ _ _ _ ix _ RR W EP A4 LT) in INS.
        assert (NEW : R (snd (new_handle ix aff (set_inner ix (Inner i (if aff then a + 1 else a)) s))) (snd (give_new (i_peer i) aff (set_st (i_peer i) (Live i false) t))) /\
                      fst (new_handle ix aff (set_inner ix (Inner i (if aff then a + 1 else a)) s)) = fst (give_new (i_peer i) aff (set_st (i_peer i) (Live i false) t))).
        { pose proof (R_set s t (i_peer i) j false ix i a false RR W EP A1 A4) as R'.
          assert (W' : wf (set_st (i_peer i) (Live i false) t)) by (apply wf_set; [exact W|split; [reflexivity|exact (proj2 (wf_held t W _ _ _ EP))]]).
          pose proof (R_give (set_inner ix (Inner i a) s) _ (i_peer i) i false aff ix a R' W' (upd_same _ _ _) A1) as RG.
          assert (GI : get_inner (set_inner ix (Inner i a) s) ix = Inner i a) by (unfold get_inner; cbn [set_inner s_inners]; apply nth_set_same; exact A2).
          specialize (RG GI (fun H => ltac:(discriminate H))).
          assert (SI : forall n, set_inner ix n (set_inner ix (Inner i a) s) = set_inner ix n s) by (intros n; unfold set_inner; cbn [s_entries s_inners s_handles s_hnext s_wnext s_pending]; rewrite set_nth_twice; reflexivity).
          rewrite SI in RG. exact RG. }
        pose proof (R_give s t (i_peer i) j false aff ix a RR W EP A1 A3 (fun H => ltac:(discriminate H))) as SAME.
        assert (INS' : match i_created j ?= i_created i with
                       | Gt => (if strict then (ROutdated, set_inner ix (Inner j (if aff then a + 1 else a)) s) else new_handle ix aff (set_inner ix (Inner j (if aff then a + 1 else a)) s)) = (x, y)
                       | Eq => new_handle ix aff (set_inner ix (Inner j (if aff then a + 1 else a)) s) = (x, y)
                       | Lt => new_handle ix aff (set_inner ix (Inner i (if aff then a + 1 else a)) s) = (x, y)
                       end).
        { destruct aff; cbn [negb n_info n_aff] in INS; destruct (i_created j ?= i_created i); cbn [orb negb] in INS; destruct strict; exact INS. }
        clear INS. destruct (N.compare_spec (i_created j) (i_created i)) as [C|C|C].
        -- rewrite (proj2 (N.ltb_ge (i_created i) (i_created j))) by lia. rewrite (proj2 (N.ltb_ge (i_created j) (i_created i))) by lia. rewrite INS' in SAME. exact SAME.
        -- rewrite (proj2 (N.ltb_ge (i_created i) (i_created j))) by lia. rewrite (proj2 (N.ltb_lt (i_created j) (i_created i))) by lia. rewrite INS' in NEW. exact NEW.
        -- rewrite (proj2 (N.ltb_lt (i_created i) (i_created j))) by lia. destruct strict; [|rewrite INS' in SAME; exact SAME].
           destruct aff; [specialize (SF _ _ EP); lia|]. inversion INS'; subst. rewrite <- A3, set_inner_id. auto.
  - unfold seq_step. cbn [step spec_step]. destruct (make_handle p aff s) as [x y] eqn:MK; unfold make_handle in MK. cbn [fst snd]. destruct (p_st t p) as [lf| |j b] eqn:EP.
    + pose proof (nobody_entry _ _ _ _ RR EP) as NE. destruct (s_entries s p) as [[ix|]|]; [rewrite NE in MK|contradiction|]; inversion MK; subst; auto.
    + pose proof (r_peers _ _ RR p) as A. unfold prel in A. rewrite EP in A. rewrite A in MK. inversion MK; subst. auto.
    + destruct (live_rel _ _ _ _ _ RR EP) as (ix & a & A1 & A2 & A3 & A4). rewrite A1 in MK. rewrite (alive_live _ _ _ _ _ _ RR W EP A1) in MK. rewrite A3 in MK. unfold increase in MK. cbn [n_aff n_info] in MK.
      destruct b; [|pose proof (not_banned_aff _ _ _ _ ix _ RR W EP A4 LT) as NB].
      * subst a. rewrite N.eqb_refl in MK. destruct aff; cbn [andb]; [inversion MK; subst; auto|]. pose proof (R_give s t p j true false ix BANNED RR W EP A1 A3 (fun _ => eq_refl)) as G.
        cbn beta iota in G. rewrite <- A3, set_inner_id in G. rewrite MK in G. exact G.
      * rewrite NB in MK. cbn [andb]. pose proof (R_give s t p j false aff ix a RR W EP A1 A3 (fun H => ltac:(discriminate H))) as G. destruct aff; cbn beta iota in G; [rewrite MK in G; exact G|].
        rewrite <- A3, set_inner_id in G. rewrite MK in G. exact G.
  - unfold seq_step. cbn [step spec_step fst snd]. split; [|reflexivity]. unfold ban. destruct (p_st t p) as [lf| |j b] eqn:EP.
    + pose proof (nobody_entry _ _ _ _ RR EP) as NE. assert (RF := R_forever s t p RR W (fun i b E => ltac:(rewrite EP in E; discriminate E))).
      destruct (s_entries s p) as [[ix|]|]; [rewrite NE; exact RF|contradiction|exact RF].
    + pose proof (r_peers _ _ RR p) as A. unfold prel in A. rewrite EP in A. rewrite A. pose proof RR as [RH R1 R2 R3 RP]. split; auto. intros q. pose proof (RP q) as B. unfold prel in *. cbn [p_st set_st p_handles]. unfold upd.
      destruct (N.eqb_spec q p) as [F|F]; [subst q; exact A|exact B].
    + destruct (live_rel _ _ _ _ _ RR EP) as (ix & a & A1 & A2 & A3 & A4). rewrite A1. rewrite (alive_live _ _ _ _ _ _ RR W EP A1). rewrite A3. cbn [n_info]. apply (R_set s t p j b ix j BANNED true); auto.
  - unfold seq_step. cbn [step spec_step]. pose proof (f2_find _ h _ _ (r_handles _ _ RR)) as FF. destruct (hfind h (p_handles t)) as [[p g]|] eqn:H; [|rewrite FF; auto]. destruct FF as (ix & -> & ES). apply hfind_in in H.
    destruct (wf_live t W _ _ _ H) as (_ & i & b & EP). rewrite EP. destruct (live_rel _ _ _ _ _ RR EP) as (ix1 & a & A1 & A2 & A3 & A4). assert (ix1 = ix) by congruence. subst ix1. rewrite A3. unfold is_banned. cbn [n_info n_aff fst snd]. split.
    + apply (R_set s t p i b ix i BANNED true); auto.
    + destruct b; [subst a; reflexivity|]. rewrite (not_banned_aff _ _ _ _ ix _ RR W EP A4 LT). reflexivity.
  - unfold seq_step. cbn [step spec_step]. pose proof (f2_find _ h _ _ (r_handles _ _ RR)) as FF. destruct (hfind h (p_handles t)) as [[p g]|] eqn:H; [|rewrite FF; auto]. destruct FF as (ix & -> & ES). pose proof (SF _ _ H) as IP. apply hfind_in in H.
    destruct (wf_live t W _ _ _ H) as (_ & j & b & EP). rewrite EP. destruct (live_rel _ _ _ _ _ RR EP) as (ix1 & a & A1 & A2 & A3 & A4). assert (ix1 = ix) by congruence. subst ix1. rewrite A3. unfold try_update, is_banned. cbn [n_info n_aff].
    destruct b; [subst a; rewrite N.eqb_refl; cbn [negb fst snd]; auto|]. rewrite (not_banned_aff _ _ _ _ ix _ RR W EP A4 LT). cbn [negb n_info n_aff].
    assert (ID : set_inner ix (Inner j a) s = s) by (rewrite <- A3; apply set_inner_id).
    destruct (N.compare_spec (i_created j) (i_created i)) as [C|C|C].
    + rewrite (proj2 (N.ltb_ge (i_created i) (i_created j))) by lia. rewrite (proj2 (N.ltb_ge (i_created j) (i_created i))) by lia. rewrite ID. auto.
    + rewrite (proj2 (N.ltb_ge (i_created i) (i_created j))) by lia. rewrite (proj2 (N.ltb_lt (i_created j) (i_created i))) by lia. cbn [fst snd]. split; [|reflexivity]. apply (R_set s t p j false ix i a false); auto.
    + rewrite (proj2 (N.ltb_lt (i_created i) (i_created j))) by lia. rewrite ID. auto.
  - unfold seq_step. cbn [step spec_step]. pose proof (f2_find _ h _ _ (r_handles _ _ RR)) as FF. destruct (hfind h (p_handles t)) as [[p [g|]]|] eqn:H; [destruct FF as (ix & -> & ES); auto| |rewrite FF; auto].
    destruct FF as (ix & -> & ES). apply hfind_in in H. destruct (wf_live t W _ _ _ H) as (_ & j & b & EP). destruct (live_rel _ _ _ _ _ RR EP) as (ix1 & a & A1 & A2 & A3 & A4). assert (ix1 = ix) by congruence. subst ix1. rewrite A3. cbn [fst snd]. split; [|reflexivity].
    pose proof (r_wnext _ _ RR) as R2. pose proof (r_hnext _ _ RR) as R1. unfold set_inner. cbn [s_entries s_inners s_handles s_hnext s_wnext s_pending]. rewrite R1, R2.
    assert (HS : exists a', snd (increase (Inner j a)) = Inner j a' /\ (if b then a' = BANNED else a' = a + 1)).
    { unfold increase. cbn [n_aff n_info]. destruct b; [subst a; rewrite N.eqb_refl; cbn [snd]; eauto|]. rewrite (not_banned_aff _ _ _ _ ix _ RR W EP A4 LT). cbn [snd]. eauto. }
    destruct HS as (a' & -> & HA). apply (R_change s t p j b); auto.
    + apply f2_hset. exact (r_handles _ _ RR).
    + intros k jx x IN. right. apply in_hset in IN. destruct IN as [(_ & _ & y & IN)|(_ & IN)]; eauto.
    + intros q w NE. split; intros (k & IN).
      * exists k. apply in_hset. right. split; [|exact IN]. intros ->. apply NE. exact (proj1 (in_one _ _ _ _ _ _ (wf_ids t W) IN H)).
      * exists k. apply in_hset in IN. destruct IN as [(-> & _ & y & IN)|(_ & IN)]; [|exact IN]. elim NE. exact (proj1 (in_one _ _ _ _ _ _ (wf_ids t W) IN H)).
    + destruct b; [exact HA|]. subst a'. eapply grp_add with (w0 := p_wnext t); [| |exact A4].
      * intros k IN. pose proof (wf_wid t W _ _ _ IN). lia.
      * intros w. split.
        -- intros (k & IN). apply in_hset in IN. destruct IN as [(-> & E & _)|(_ & IN)]; [left; inversion E; reflexivity|right; eauto].
        -- intros [->|(k & IN)]; [exists h; apply in_hset; left; eauto|]. exists k. apply in_hset. right. split; [|exact IN]. intros ->. destruct (in_one _ _ _ _ _ _ (wf_ids t W) IN H) as (_ & Q). discriminate.
  - unfold seq_step. cbn [step spec_step]. pose proof (f2_find _ h _ _ (r_handles _ _ RR)) as FF. destruct (hfind h (p_handles t)) as [[p [g|]]|] eqn:H; [|destruct FF as (ix & -> & ES); auto|rewrite FF; auto].
    destruct FF as (ix & -> & ES). pose proof (SF _ _ H) as UN. apply hfind_in in H. destruct (wf_live t W _ _ _ H) as (_ & j & b & EP). destruct (live_rel _ _ _ _ _ RR EP) as (ix1 & a & A1 & A2 & A3 & A4). assert (ix1 = ix) by congruence. subst ix1. rewrite A3. cbn [fst snd]. split; [|reflexivity].
    pose proof (r_wnext _ _ RR) as R2. pose proof (r_hnext _ _ RR) as R1. unfold set_inner, set_handles, set_hs. cbn [s_entries s_inners s_handles s_hnext s_wnext s_pending]. rewrite R1, R2.
    assert (REL : forall w, (exists k, In (k, p, Some w) (hset h None (p_handles t))) <-> w <> g /\ exists k, In (k, p, Some w) (p_handles t)).
    { intros w. split.
      - intros (k & IN). apply in_hset in IN. destruct IN as [(_ & E & _)|(NE & IN)]; [discriminate|]. split; [|eauto]. intros ->. rewrite (proj2 (grouped_in g (hrm h (p_handles t)))) in UN; [discriminate|]. exists k, p. apply in_hrm. auto.
      - intros (NE & k & IN). exists k. apply in_hset. right. split; [|exact IN]. intros ->. destruct (in_one _ _ _ _ _ _ (wf_ids t W) IN H) as (_ & Q). congruence. }
    assert (HS : exists a', snd (decrease (Inner j a)) = Inner j a' /\ (if b then a' = BANNED else grp p (hset h None (p_handles t)) a')).
    { unfold decrease. cbn [n_aff n_info]. destruct b; [subst a; rewrite N.eqb_refl; cbn [snd]; eauto|]. rewrite (not_banned_aff _ _ _ _ ix _ RR W EP A4 LT). cbn [snd].
      destruct (grp_del p (p_handles t) (hset h None (p_handles t)) a g (ex_intro _ h H) REL A4) as (NZ & G'). rewrite (proj2 (N.eqb_neq a 0) NZ). eauto. }
    destruct HS as (a' & -> & HA). apply (R_change s t p j b); auto.
    + apply f2_hset. exact (r_handles _ _ RR).
    + intros k jx x IN. right. apply in_hset in IN. destruct IN as [(_ & _ & y & IN)|(_ & IN)]; eauto.
    + intros q w NE. split; intros (k & IN).
      * exists k. apply in_hset. right. split; [|exact IN]. intros ->. apply NE. exact (proj1 (in_one _ _ _ _ _ _ (wf_ids t W) IN H)).
      * exists k. apply in_hset in IN. destruct IN as [(-> & _ & y & IN)|(_ & IN)]; [|exact IN]. elim NE. exact (proj1 (in_one _ _ _ _ _ _ (wf_ids t W) IN H)).
  - unfold seq_step. cbn [step spec_step]. pose proof (f2_find _ h _ _ (r_handles _ _ RR)) as FF. destruct (hfind h (p_handles t)) as [[p g]|] eqn:H; [|rewrite FF; auto]. destruct FF as (ix & -> & ES). apply hfind_in in H.
    destruct (wf_live t W _ _ _ H) as (_ & j & b & EP). destruct (live_rel _ _ _ _ _ RR EP) as (ix1 & a & A1 & A2 & A3 & A4). assert (ix1 = ix) by congruence. subst ix1. unfold give. cbn [fst snd].
    pose proof (r_wnext _ _ RR) as R2. pose proof (r_hnext _ _ RR) as R1. split; [|rewrite R1; reflexivity]. pose proof (f2_snoc s t p ix g RR ES) as FS. rewrite R1 in *. rewrite R2.
    assert (SETID : set_nth ix (Inner j a) (s_inners s) = s_inners s) by (rewrite <- A3; apply set_nth_id). rewrite <- SETID. apply (R_change s t p j b); auto.
    + intros k jx x IN. apply in_snoc in IN. destruct IN as [IN|IN]; [right; eauto|inversion IN; auto].
    + intros q w NE. apply snoc_some. exact NE.
    + destruct b; [exact A4|]. eapply grp_same; [|exact A4]. intros w. split; intros (k & IN); [exists k; apply in_snoc; auto|]. apply in_snoc in IN. destruct IN as [IN|IN]; [eauto|]. inversion IN; subst. eauto.
  - apply R_drop; auto.
  - unfold seq_step. cbn [step spec_step fst snd]. unfold finish. rewrite (r_pending _ _ RR). auto.
Qed.

(** ** Histories *)
Definition after (l : list op) : state := snd (seq_exec new l).
Definition sp_after (l : list op) : spec := snd (spec_exec spec_new l).
(** a history keeps to the rules, and is not as long as the counter of affinity *)
Definition good (l : list op) : Prop := all_safe spec_new l /\ N.of_nat (length l) + 1 < BANNED.

Lemma R_init : R new spec_new.
Proof. split; try reflexivity. constructor. Qed.
Lemma spec_wnext t o : p_wnext (snd (spec_step t o)) <= p_wnext t + 1.
Proof.
  assert (GN : forall p aff u, p_wnext (snd (give_new p aff u)) <= p_wnext u + 1) by (intros p [|] u; cbn [give_new give snd p_wnext]; lia).
  destruct o as [strict i aff|p aff|p|h|h i|h|h|h|h|]; cbn [spec_step].
  - destruct (p_st t (i_peer i)) as [lf| |j [|]]; cbn [snd]; [exact (GN _ _ (set_st _ _ t))|lia|lia|]. destruct (i_created i <? i_created j); [destruct strict; [cbn [snd]; lia|apply GN]|]. destruct (i_created j <? i_created i); [exact (GN _ _ (set_st _ _ t))|apply GN].
  - destruct (p_st t p) as [lf| |j b]; cbn [snd]; try lia. destruct (b && aff); [cbn [snd]; lia|apply GN].
  - cbn [snd set_st p_wnext]. lia.
  - destruct (hfind h (p_handles t)) as [[p g]|]; [|cbn [snd]; lia]. destruct (p_st t p); cbn [snd set_st p_wnext]; lia.
  - destruct (hfind h (p_handles t)) as [[p g]|]; [|cbn [snd]; lia]. destruct (p_st t p) as [lf| |j [|]]; cbn [snd]; try lia. destruct (i_created i <? i_created j); cbn [snd]; [lia|]. destruct (i_created j <? i_created i); cbn [set_st p_wnext]; lia.
  - destruct (hfind h (p_handles t)) as [[p [g|]]|]; cbn [snd p_wnext]; lia.
  - destruct (hfind h (p_handles t)) as [[p [g|]]|]; cbn [snd set_hs p_wnext]; lia.
  - destruct (hfind h (p_handles t)) as [[p g]|]; cbn [give snd p_wnext]; lia.
  - destruct (hfind h (p_handles t)) as [[p g]|]; cbn [snd]; [|lia]. destruct (held p _); cbn [set_st set_hs p_wnext]; lia.
  - cbn [snd]. lia.
Qed.
Lemma exec_refines l : forall s t, R s t -> wf t -> all_safe t l -> p_wnext t + N.of_nat (length l) + 1 < BANNED ->
  R (snd (seq_exec s l)) (snd (spec_exec t l)) /\ wf (snd (spec_exec t l)) /\ fst (seq_exec s l) = fst (spec_exec t l).
Proof.
  induction l as [|o l IH]; intros s t RR W SF LT; [auto|]. cbn [seq_exec spec_exec length] in *. destruct SF as (S1 & S2).
  destruct (step_refines s t o RR W S1) as (R' & E); [lia|]. pose proof (wf_step t o W S1) as W'. pose proof (spec_wnext t o) as WN.
  destruct (seq_step s o) as [a s'], (spec_step t o) as [a' t']. cbn [fst snd] in *. specialize (IH s' t' R' W' S2). destruct (seq_exec s' l) as [b s2], (spec_exec t' l) as [b' t2]. cbn [fst snd] in *.
  destruct IH as (A & B & C); [lia|]. split; [exact A|]. split; [exact B|]. congruence.
Qed.
Lemma at_good l : good l -> R (after l) (sp_after l) /\ wf (sp_after l) /\ fst (seq_exec new l) = fst (spec_exec spec_new l).
Proof. intros (S & L). apply exec_refines; auto using R_init, wf_new. Qed.

Section See.
Variables (s : state) (t : spec).
Hypotheses (RR : R s t) (W : wf t) (LT : p_wnext t + 1 < BANNED).
Lemma see_contains p : k_contains s p = sp_contains t p.
Proof.
  unfold k_contains, sp_contains. pose proof (r_peers _ _ RR p) as A. unfold prel in A. destruct (p_st t p) as [[|]| |i b]; [destruct A as (ix & -> & _)|rewrite A|rewrite A|destruct A as (ix & a & -> & _)]; reflexivity.
Qed.
Lemma see_live p i b : p_st t p = Live i b -> exists ix a, s_entries s p = Some (Stored ix) /\ alive s ix = true /\ get_inner s ix = Inner i a /\ (a =? BANNED) = b /\ (b = false -> (a =? 0) = negb (wanted p (p_handles t))).
Proof.
  intros E. destruct (live_rel _ _ _ _ _ RR E) as (ix & a & A1 & A2 & A3 & A4). exists ix, a. split; [exact A1|]. split; [exact (alive_live _ _ _ _ _ _ RR W E A1)|]. split; [exact A3|]. destruct b.
  - subst a. split; [apply N.eqb_refl|discriminate].
  - split; [exact (not_banned_aff _ _ _ _ ix _ RR W E A4 LT)|]. intros _. exact (grp_zero _ _ _ A4).
Qed.
Lemma see_aff i a b : (a =? BANNED) = b -> is_banned (Inner i a) = b.
Proof. intros H. exact H. Qed.
Lemma see_banned p : k_banned s p = sp_banned t p.
Proof.
  unfold k_banned, sp_banned. destruct (p_st t p) as [lf| |i b] eqn:E.
  - pose proof (nobody_entry _ _ _ _ RR E) as A. destruct (s_entries s p) as [[ix|]|]; [rewrite A; reflexivity|contradiction|reflexivity].
  - pose proof (r_peers _ _ RR p) as A. unfold prel in A. rewrite E in A. rewrite A. reflexivity.
  - destruct (see_live _ _ _ E) as (ix & a & -> & -> & -> & AB & _). exact AB.
Qed.
Lemma see_get p : k_get s p = sp_get t p.
Proof.
  unfold k_get, sp_get. destruct (p_st t p) as [lf| |i b] eqn:E.
  - pose proof (nobody_entry _ _ _ _ RR E) as A. destruct (s_entries s p) as [[ix|]|]; [rewrite A; reflexivity|contradiction|reflexivity].
  - pose proof (r_peers _ _ RR p) as A. unfold prel in A. rewrite E in A. rewrite A. reflexivity.
  - destruct (see_live _ _ _ E) as (ix & a & -> & -> & -> & _). reflexivity.
Qed.
Lemma see_compute p i a b : (a =? BANNED) = b -> (b = false -> (a =? 0) = negb (wanted p (p_handles t))) -> compute_affinity (Inner i a) = if b then Never else if wanted p (p_handles t) then High else Allowed.
Proof.
  intros AB AZ. unfold compute_affinity. cbn [n_aff]. rewrite AB. destruct b.
  - apply N.eqb_eq in AB. subst a. reflexivity.
  - rewrite (AZ eq_refl). destruct (wanted p (p_handles t)); reflexivity.
Qed.
Lemma see_affinity p : k_affinity s p = sp_affinity t p.
Proof.
  unfold k_affinity, sp_affinity. destruct (p_st t p) as [lf| |i b] eqn:E.
  - pose proof (nobody_entry _ _ _ _ RR E) as A. destruct (s_entries s p) as [[ix|]|]; [rewrite A; reflexivity|contradiction|reflexivity].
  - pose proof (r_peers _ _ RR p) as A. unfold prel in A. rewrite E in A. rewrite A. reflexivity.
  - destruct (see_live _ _ _ E) as (ix & a & -> & -> & -> & AB & AZ). rewrite (see_compute p i a b AB AZ). destruct b; reflexivity.
Qed.
Lemma see_info h : h_info s h = sp_info t h.
Proof.
  unfold h_info, sp_info. pose proof (f2_find _ h _ _ (r_handles _ _ RR)) as FF. destruct (hfind h (p_handles t)) as [[p g]|] eqn:H; [|rewrite FF; reflexivity]. destruct FF as (ix & -> & ES).
  apply hfind_in in H. destruct (wf_live t W _ _ _ H) as (_ & i & b & E). destruct (see_live _ _ _ E) as (ix1 & a & A1 & _ & A3 & AB & AZ). assert (ix1 = ix) by congruence. subst ix1. rewrite A3.
  unfold sp_get, sp_affinity, sp_banned. rewrite E. rewrite (see_compute p i a b AB AZ). unfold is_banned. cbn [n_info n_aff]. rewrite AB. destruct b; reflexivity.
Qed.
End See.

Lemma sp_wnext_exec l : forall t, p_wnext (snd (spec_exec t l)) <= p_wnext t + N.of_nat (length l).
Proof.
  induction l as [|o l IH]; intros t; cbn [spec_exec length]; [cbn [snd]; lia|]. pose proof (spec_wnext t o) as A. destruct (spec_step t o) as [a t']. specialize (IH t'). destruct (spec_exec t' l) as [b t2]. cbn [snd] in *. lia.
Qed.
Lemma good_wnext l : good l -> p_wnext (sp_after l) + 1 < BANNED.
Proof. intros (_ & L). pose proof (sp_wnext_exec l spec_new) as A. cbn [spec_new p_wnext] in A. unfold sp_after. lia. Qed.

(** *** Every answer and everything that is seen is what it shall be. *)
Theorem known_peers_refine l : good l ->
  fst (seq_exec new l) = fst (spec_exec spec_new l) /\
  (forall p, k_contains (after l) p = sp_contains (sp_after l) p /\ k_banned (after l) p = sp_banned (sp_after l) p /\
             k_get (after l) p = sp_get (sp_after l) p /\ k_affinity (after l) p = sp_affinity (sp_after l) p) /\
  (forall h, h_info (after l) h = sp_info (sp_after l) h).
Proof.
  intros G. destruct (at_good l G) as (RR & W & E). pose proof (good_wnext l G) as LT. split; [exact E|]. split.
  - intros p. split; [apply see_contains; auto|]. split; [apply see_banned; auto|]. split; [apply see_get; auto|apply see_affinity; auto].
  - intros h. apply see_info; auto.
Qed.

(** ** What follows *)
Lemma spec_exec_app l1 : forall t l2, snd (spec_exec t (l1 ++ l2)) = snd (spec_exec (snd (spec_exec t l1)) l2).
Proof.
  induction l1 as [|o l1 IH]; intros t l2; [reflexivity|]. cbn [app spec_exec]. destruct (spec_step t o) as [a t']. specialize (IH t' l2). destruct (spec_exec t' (l1 ++ l2)) as [b t2], (spec_exec t' l1) as [c t3]. cbn [snd] in *. exact IH.
Qed.
Lemma all_safe_app l1 : forall t l2, all_safe t (l1 ++ l2) <-> all_safe t l1 /\ all_safe (snd (spec_exec t l1)) l2.
Proof.
  induction l1 as [|o l1 IH]; intros t l2; cbn [app all_safe spec_exec snd]; [tauto|]. destruct (spec_step t o) as [a t'] eqn:E. cbn [snd]. rewrite IH. destruct (spec_exec t' l1). cbn [snd]. tauto.
Qed.
Lemma good_app l1 l2 : good (l1 ++ l2) -> good l1.
Proof. intros (S & L). rewrite app_length in L. split; [exact (proj1 (proj1 (all_safe_app _ _ _) S))|lia]. Qed.
Lemma good_last l o : good (l ++ [o]) -> safe (sp_after l) o.
Proof. intros (S & _). exact (proj1 (proj2 (proj1 (all_safe_app _ _ _) S))). Qed.
Lemma sp_after_snoc l o : sp_after (l ++ [o]) = snd (spec_step (sp_after l) o).
Proof. unfold sp_after. rewrite spec_exec_app. cbn [spec_exec]. destruct (spec_step (snd (spec_exec spec_new l)) o). reflexivity. Qed.
Lemma result_is l o : good (l ++ [o]) -> fst (seq_step (after l) o) = fst (spec_step (sp_after l) o).
Proof. intros G. pose proof (good_app _ _ G) as G1. destruct (at_good l G1) as (RR & W & _). apply step_refines; auto; [apply good_last; exact G|apply good_wnext; exact G1]. Qed.

(** All handles of a peer show the same, and what the map shows. *)
Theorem handles_agree l h i b a : good l -> h_info (after l) h = Some (i, b, a) -> k_get (after l) (i_peer i) = Some i /\ k_banned (after l) (i_peer i) = b /\ k_affinity (after l) (i_peer i) = Some a.
Proof.
  intros G H. destruct (known_peers_refine l G) as (_ & KP & KH). destruct (at_good l G) as (_ & W & _). rewrite KH in H. unfold sp_info in H. destruct (hfind h (p_handles (sp_after l))) as [[p g]|]; [|discriminate].
  destruct (sp_get (sp_after l) p) as [j|] eqn:GE; [|discriminate]. destruct (sp_affinity (sp_after l) p) as [c|] eqn:AF; [|discriminate]. inversion H; subst.
  assert (IP : i_peer i = p). { unfold sp_get in GE. destruct (p_st (sp_after l) p) as [lf| |k b'] eqn:E; try discriminate. inversion GE; subst. exact (proj1 (wf_held _ W _ _ _ E)). }
  rewrite IP. destruct (KP p) as (_ & B & C & D). rewrite B, C, D. auto.
Qed.
(** A peer is known exactly as long as there is a handle of it. *)
Theorem known_while_held l p : good l -> (k_get (after l) p <> None <-> exists h i b a, h_info (after l) h = Some (i, b, a) /\ i_peer i = p).
Proof.
  intros G. split.
  - intros H. destruct (known_peers_refine l G) as (_ & KP & KH). destruct (at_good l G) as (_ & W & _). destruct (KP p) as (_ & _ & C & _). rewrite C in H. unfold sp_get in H. destruct (p_st (sp_after l) p) as [lf| |i b] eqn:E; try (elim H; reflexivity).
    destruct (wf_held _ W _ _ _ E) as (IP & h & g & IN). exists h. assert (F := in_hfind _ _ _ _ (wf_ids _ W) IN). exists i. setoid_rewrite KH. unfold sp_info. rewrite F. unfold sp_get, sp_affinity, sp_banned. rewrite E. destruct b; eauto.
  - intros (h & i & b & a & H & <-). destruct (handles_agree _ _ _ _ _ G H) as (-> & _). discriminate.
Qed.
(** A peer that was never banned leaves nothing behind. *)
Lemma left_was_banned l p : good l -> p_st (sp_after l) p = Nobody true \/ sp_banned (sp_after l) p = true -> exists m r, l = m ++ r /\ sp_banned (sp_after m) p = true.
Proof.
  pattern l. apply rev_ind; clear l; [intros _ [H|H]; discriminate|]. intros o l IH G [H|H]; [|exists (l ++ [o]), []; rewrite app_nil_r; auto].
  pose proof (good_app _ _ G) as G1. rewrite sp_after_snoc in H.
  assert (C : p_st (sp_after l) p = Nobody true \/ sp_banned (sp_after l) p = true).
  { set (t := sp_after l) in *. unfold sp_banned. assert (GN : forall q aff u, p_st (snd (give_new q aff u)) = p_st u) by (intros q [|] u; reflexivity).
    assert (SET : forall q x u, p_st (set_st q x u) p = Nobody true -> x = Nobody true \/ p_st u p = Nobody true) by (intros q x u; cbn [set_st p_st]; unfold upd; destruct (p =? q); auto).
    destruct o as [strict i aff|q aff|q|h|h i|h|h|h|h|]; cbn [spec_step] in H.
    - destruct (p_st t (i_peer i)) as [lf| |j [|]]; cbn [snd] in H; rewrite ?GN in H; try (apply SET in H; destruct H as [H|H]; [discriminate|]); auto.
      destruct (i_created i <? i_created j); [destruct strict; cbn [snd] in H; rewrite ?GN in H; auto|]. rewrite GN in H. destruct (i_created j <? i_created i); [apply SET in H; destruct H as [H|H]; [discriminate|]|]; auto.
    - destruct (p_st t q) as [lf| |j b]; cbn [snd] in H; auto. destruct (b && aff); cbn [snd] in H; rewrite ?GN in H; auto.
    - cbn [snd] in H. apply SET in H. destruct H as [H|H]; auto. destruct (p_st t q); discriminate.
    - destruct (hfind h (p_handles t)) as [[q g]|]; [|auto]. destruct (p_st t q); cbn [snd] in H; auto. apply SET in H. destruct H as [H|H]; [discriminate|auto].
    - destruct (hfind h (p_handles t)) as [[q g]|]; [|auto]. destruct (p_st t q) as [lf| |j [|]]; cbn [snd] in H; auto. destruct (i_created i <? i_created j); cbn [snd] in H; auto. destruct (i_created j <? i_created i); [apply SET in H; destruct H as [H|H]; [discriminate|]|]; auto.
    - destruct (hfind h (p_handles t)) as [[q [g|]]|]; cbn [snd p_st] in H; auto.
    - destruct (hfind h (p_handles t)) as [[q [g|]]|]; cbn [snd set_hs p_st] in H; auto.
    - destruct (hfind h (p_handles t)) as [[q g]|]; cbn [give snd p_st] in H; auto.
    - destruct (hfind h (p_handles t)) as [[q g]|]; cbn [snd] in H; auto. destruct (held q _); cbn [set_hs p_st] in H; auto. cbn [set_st p_st set_hs] in H. unfold upd in H. destruct (N.eqb_spec p q) as [F|F]; [|auto]. subst q.
      destruct (p_st t p) as [lf| |j b]; auto. inversion H. auto.
    - auto. }
  destruct (IH G1 C) as (m & r & -> & B). exists m, (r ++ [o]). rewrite app_assoc. auto.
Qed.
Theorem nothing_left l p : good l -> (forall m r, l = m ++ r -> k_banned (after m) p = false) -> k_contains (after l) p = true -> k_get (after l) p <> None.
Proof.
  intros G NB C. destruct (known_peers_refine l G) as (_ & KP & _). destruct (KP p) as (A & _ & D & _). rewrite A in C. rewrite D. unfold sp_contains, sp_get in *.
  destruct (p_st (sp_after l) p) as [lf| |i b] eqn:E; [|exfalso|discriminate].
  - subst lf. destruct (left_was_banned l p G) as (m & r & EQ & B); [auto|]. specialize (NB m r EQ). subst l. apply good_app in G. destruct (known_peers_refine m G) as (_ & KM & _). destruct (KM p) as (_ & F & _). congruence.
  - specialize (NB l [] (eq_sym (app_nil_r l))). destruct (KP p) as (_ & F & _). rewrite F in NB. unfold sp_banned in NB. rewrite E in NB. discriminate.
Qed.
