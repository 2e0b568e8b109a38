(** The map of weak references is what it shall be, as long as every drop is finished before the next call. *)
From Coq Require Import List Bool NArith Lia PeanoNat.
From Coq Require Import ZifyN ZifyNat ZifyBool.
From Verif Require Import KnModel KnSpec.
Import ListNotations.
Local Open Scope N_scope.

(** ** Groups: the affinity is how many there are *)
Definition grp (p : N) (l : handles N) (a : N) : Prop := exists G, NoDup G /\ (forall w, In w G <-> exists h, In (h, p, Some w) l) /\ a = N.of_nat (length G).
Lemma grp_same p l l' a : (forall w, (exists h, In (h, p, Some w) l) <-> (exists h, In (h, p, Some w) l')) -> grp p l a -> grp p l' a.
Proof. intros H (G & ND & M & ->). exists G. split; [exact ND|]. split; [|reflexivity]. intros w. rewrite M. apply H. Qed.
Lemma grp_add p l l' a w0 : (forall h, ~ In (h, p, Some w0) l) -> (forall w, (exists h, In (h, p, Some w) l') <-> w = w0 \/ exists h, In (h, p, Some w) l) -> grp p l a -> grp p l' (a + 1).
Proof.
  intros FR H (G & ND & M & ->). exists (w0 :: G). split; [|split].
  - constructor; [|exact ND]. rewrite M. intros (h & IN). exact (FR _ IN).
  - intros w. rewrite H, <- M. cbn [In]. split; intros [A|A]; auto.
  - cbn [length]. lia.
Qed.
Lemma grp_del p l l' a w0 : (exists h, In (h, p, Some w0) l) -> (forall w, (exists h, In (h, p, Some w) l') <-> w <> w0 /\ exists h, In (h, p, Some w) l) -> grp p l a -> a <> 0 /\ grp p l' (a - 1).
Proof.
  intros EX H (G & ND & M & ->). apply M in EX. destruct (in_split _ _ EX) as (G1 & G2 & ->). rewrite app_length. cbn [length]. split; [lia|].
  exists (G1 ++ G2). split; [exact (NoDup_remove_1 _ _ _ ND)|]. split; [|rewrite app_length; lia].
  intros w. rewrite H, <- M. apply NoDup_remove_2 in ND. rewrite !in_app_iff in *. cbn [In]. split.
  - intros A. split; [intros ->; auto|]. destruct A; auto.
  - intros (NE & [A|[A|A]]); auto. congruence.
Qed.
Lemma grp_le p l a n : (forall h w, In (h, p, Some w) l -> w < n) -> grp p l a -> a <= n.
Proof.
  intros B (G & ND & M & ->). assert (L : (length G <= length (map N.of_nat (seq 0 (N.to_nat n))))%nat).
  { apply NoDup_incl_length; [exact ND|]. intros w IN. apply M in IN. destruct IN as (h & IN). specialize (B _ _ IN). apply in_map_iff. exists (N.to_nat w). split; [lia|]. apply in_seq. lia. }
  rewrite map_length, seq_length in L. lia.
Qed.
Lemma grp_zero p l a : grp p l a -> (a =? 0) = negb (wanted p l).
Proof.
  intros (G & ND & M & ->). destruct (wanted p l) eqn:E; cbn [negb].
  - apply wanted_in in E. destruct E as (h & w & IN). assert (I : In w G) by (apply M; eauto). destruct G; [destruct I|]. cbn [length]. lia.
  - destruct G as [|w G]; [reflexivity|]. assert (I : In w (w :: G)) by (left; reflexivity). apply M in I. destruct I as (h & IN). rewrite (proj2 (wanted_in p l)) in E; [discriminate|eauto].
Qed.

(** ** The relation *)
Definition hrel (E : N -> option entry) (e : N * nat * option N) (f : N * N * option N) : Prop :=
  fst (fst e) = fst (fst f) /\ snd e = snd f /\ E (snd (fst f)) = Some (Stored (snd (fst e))).
Definition prel (s : state) (t : spec) (p : N) : Prop :=
  match p_st t p with
  | Nobody false => s_entries s p = None
  | Nobody true => exists ix, s_entries s p = Some (Stored ix) /\ (ix < length (s_inners s))%nat /\ forall h g, ~ In (h, ix, g) (s_handles s)
  | Forever => s_entries s p = Some EBanned
  | Live i b => exists ix a, s_entries s p = Some (Stored ix) /\ (ix < length (s_inners s))%nat /\ get_inner s ix = Inner i a /\ (if b then a = BANNED else grp p (p_handles t) a)
  end.
Record R (s : state) (t : spec) : Prop := {
  r_handles : Forall2 (hrel (s_entries s)) (s_handles s) (p_handles t);
  r_hnext : s_hnext s = p_hnext t; r_wnext : s_wnext s = p_wnext t; r_pending : s_pending s = [];
  r_peers : forall p, prel s t p }.

(** *** lists of handles that go together *)
Section Lists.
Variable E : N -> option entry.
Lemma f2_find h l1 l2 : Forall2 (hrel E) l1 l2 ->
  match hfind h l2 with Some (p, g) => exists ix, hfind h l1 = Some (ix, g) /\ E p = Some (Stored ix) | None => hfind h l1 = None end.
Proof.
  intros F. induction F as [|[[k ix] x] [[k' p] x'] l1 l2 (A & B & C) F IH]; cbn [hfind]; [reflexivity|]. cbn [fst snd] in *. subst k' x'.
  destruct (k =? h); [eauto|exact IH].
Qed.
Lemma f2_hrm h l1 l2 : Forall2 (hrel E) l1 l2 -> Forall2 (hrel E) (hrm h l1) (hrm h l2).
Proof.
  intros F. induction F as [|[[k ix] x] [[k' p] x'] l1 l2 (A & B & C) F IH]; cbn [hrm filter]; [constructor|]. cbn [fst snd] in *. subst k' x'.
  destruct (k =? h); cbn [negb]; [exact IH|]. constructor; [split; [|split]; auto|exact IH].
Qed.
Lemma f2_hset h g l1 l2 : Forall2 (hrel E) l1 l2 -> Forall2 (hrel E) (hset h g l1) (hset h g l2).
Proof.
  intros F. induction F as [|[[k ix] x] [[k' p] x'] l1 l2 (A & B & C) F IH]; cbn [hset map]; [constructor|]. cbn [fst snd] in *. subst k' x'.
  destruct (k =? h); (constructor; [split; [|split]; auto|exact IH]).
Qed.
Lemma f2_grouped w l1 l2 : Forall2 (hrel E) l1 l2 -> grouped w l1 = grouped w l2.
Proof. intros F. induction F as [|[[k ix] x] [[k' p] x'] l1 l2 (A & B & C) F IH]; cbn [grouped existsb]; [reflexivity|]. cbn [fst snd] in *. subst x'. unfold grouped in IH. rewrite IH. reflexivity. Qed.
Lemma f2_in1 h ix g l1 l2 : Forall2 (hrel E) l1 l2 -> In (h, ix, g) l1 -> exists p, In (h, p, g) l2 /\ E p = Some (Stored ix).
Proof.
  intros F. induction F as [|[[k jx] x] [[k' p] x'] l1 l2 (A & B & C) F IH]; [intros []|]. cbn [fst snd] in *. subst k' x'.
  intros [H|H]; [inversion H; subst; exists p; split; [left; reflexivity|exact C]|]. destruct (IH H) as (q & IN & Q). exists q. split; [right; exact IN|exact Q].
Qed.
Lemma f2_in2 h p g l1 l2 : Forall2 (hrel E) l1 l2 -> In (h, p, g) l2 -> exists ix, In (h, ix, g) l1 /\ E p = Some (Stored ix).
Proof.
  intros F. induction F as [|[[k jx] x] [[k' q] x'] l1 l2 (A & B & C) F IH]; [intros []|]. cbn [fst snd] in *. subst k' x'.
  intros [H|H]; [inversion H; subst; exists jx; split; [left; reflexivity|exact C]|]. destruct (IH H) as (ix & IN & Q). exists ix. split; [right; exact IN|exact Q].
Qed.
Lemma f2_entries E' l1 l2 : (forall h p g, In (h, p, g) l2 -> E' p = E p) -> Forall2 (hrel E) l1 l2 -> Forall2 (hrel E') l1 l2.
Proof.
  intros H F. induction F as [|[[k jx] x] [[k' q] x'] l1 l2 (A & B & C) F IH]; [constructor|]. constructor; [|apply IH; intros h p g IN; apply (H h p g); right; exact IN].
  split; [exact A|]. split; [exact B|]. cbn [fst snd] in *. rewrite (H k' q x'); [exact C|left; reflexivity].
Qed.
End Lists.

Lemma nth_set_same {A} (d a : A) : forall i (l : list A), (i < length l)%nat -> nth i (set_nth i a l) d = a.
Proof. induction i as [|i IH]; intros [|x l] H; cbn [length set_nth nth] in *; try lia; [reflexivity|]. apply IH. lia. Qed.
Lemma nth_set_other {A} (d a : A) : forall i j l, i <> j -> nth j (set_nth i a l) d = nth j l d.
Proof. induction i as [|i IH]; intros [|j] [|x l] H; cbn [set_nth nth]; try reflexivity; try lia. apply IH. lia. Qed.
Lemma length_set {A} (a : A) : forall i (l : list A), length (set_nth i a l) = length l.
Proof. induction i as [|i IH]; intros [|x l]; cbn [set_nth length]; auto. Qed.

Lemma alive_in s ix : alive s ix = true <-> exists h g, In (h, ix, g) (s_handles s).
Proof.
  unfold alive. rewrite existsb_exists. split.
  - intros ([[h jx] g] & IN & E). cbn [snd fst] in E. apply Nat.eqb_eq in E. subst. eauto.
  - intros (h & g & IN). exists (h, ix, g). split; [exact IN|]. cbn [snd fst]. apply Nat.eqb_refl.
Qed.
Lemma alive_live s t p i b ix : R s t -> wf t -> p_st t p = Live i b -> s_entries s p = Some (Stored ix) -> alive s ix = true.
Proof.
  intros [RH _ _ _ _] W E ES. apply alive_in. destruct (wf_held t W _ _ _ E) as (_ & h & g & IN). destruct (f2_in2 _ _ _ _ _ _ RH IN) as (jx & IN' & EJ). rewrite ES in EJ. inversion EJ; subst. eauto.
Qed.
(** an inner belongs to one peer *)
Lemma one_inner s t p q ix i b j c : R s t -> wf t -> p_st t p = Live i b -> p_st t q = Live j c -> s_entries s p = Some (Stored ix) -> s_entries s q = Some (Stored ix) -> p = q.
Proof.
  intros [_ _ _ _ RP] W EP EQ SP SQ. pose proof (RP p) as A. pose proof (RP q) as B. unfold prel in *. rewrite EP in A. rewrite EQ in B.
  destruct A as (ix1 & a & A1 & _ & A3 & _), B as (ix2 & c2 & B1 & _ & B3 & _). assert (ix1 = ix) by congruence. assert (ix2 = ix) by congruence. subst. rewrite A3 in B3. inversion B3; subst.
  destruct (wf_held t W _ _ _ EP) as (<- & _). destruct (wf_held t W _ _ _ EQ) as (<- & _). reflexivity.
Qed.

(** the inner of a live peer is changed *)
Lemma R_set s t p i b ix i' a' (b' : bool) : R s t -> wf t -> p_st t p = Live i b -> s_entries s p = Some (Stored ix) -> (if b' then a' = BANNED else grp p (p_handles t) a') ->
  R (set_inner ix (Inner i' a') s) (set_st p (Live i' b') t).
Proof.
  intros RR W EP ES G. pose proof RR as [RH R1 R2 R3 RP]. split; cbn [set_inner set_st s_handles s_entries s_hnext s_wnext s_pending p_handles p_hnext p_wnext]; auto.
  intros q. unfold prel. cbn [set_st p_st p_handles]. destruct (N.eq_dec q p) as [F|F].
  - subst q. rewrite upd_same. pose proof (RP p) as A. unfold prel in A. rewrite EP in A. destruct A as (ix1 & a & A1 & A2 & A3 & A4). assert (ix1 = ix) by congruence. subst ix1.
    exists ix, a'. cbn [set_inner s_entries s_inners]. rewrite length_set. split; [exact A1|]. split; [exact A2|]. split; [|exact G]. unfold get_inner. cbn [s_inners set_inner]. apply nth_set_same. exact A2.
  - rewrite upd_other by exact F. pose proof (RP q) as A. unfold prel in A. destruct (p_st t q) as [lf| |j c] eqn:EQ.
    + destruct lf; [|exact A]. destruct A as (jx & A1 & A2 & A3). exists jx. cbn [set_inner s_entries s_inners s_handles]. rewrite length_set. auto.
    + exact A.
    + destruct A as (jx & a & A1 & A2 & A3 & A4). exists jx, a. cbn [set_inner s_entries s_inners]. rewrite length_set. split; [exact A1|]. split; [exact A2|]. split; [|exact A4].
      unfold get_inner. cbn [s_inners set_inner]. rewrite nth_set_other; [exact A3|]. intros ->. apply F. symmetry. exact (one_inner _ _ _ _ _ _ _ _ _ RR W EP EQ ES A1).
Qed.

Lemma set_nth_twice {A} (x y : A) : forall i (l : list A), set_nth i x (set_nth i y l) = set_nth i x l.
Proof. induction i as [|i IH]; intros [|z l]; cbn [set_nth]; try reflexivity. rewrite IH. reflexivity. Qed.
Lemma set_nth_id {A} (d : A) : forall i (l : list A), set_nth i (nth i l d) l = l.
Proof. induction i as [|i IH]; intros [|z l]; cbn [set_nth nth]; try reflexivity. rewrite IH. reflexivity. Qed.
Lemma live_rel s t p i b : R s t -> p_st t p = Live i b -> exists ix a, s_entries s p = Some (Stored ix) /\ (ix < length (s_inners s))%nat /\ get_inner s ix = Inner i a /\ (if b then a = BANNED else grp p (p_handles t) a).
Proof. intros RR E. pose proof (r_peers _ _ RR p) as A. unfold prel in A. rewrite E in A. exact A. Qed.

(** the handles of a live peer change, and its affinity *)
Lemma R_change s t p i (b : bool) ix a l1 l2 hn wn : R s t -> wf t -> p_st t p = Live i b -> s_entries s p = Some (Stored ix) ->
  Forall2 (hrel (s_entries s)) l1 l2 ->
  (forall h jx g, In (h, jx, g) l1 -> jx = ix \/ exists h' g', In (h', jx, g') (s_handles s)) ->
  (forall q w, q <> p -> (exists h, In (h, q, Some w) (p_handles t)) <-> (exists h, In (h, q, Some w) l2)) ->
  (if b then a = BANNED else grp p l2 a) ->
  R (St (s_entries s) (set_nth ix (Inner i a) (s_inners s)) l1 hn wn (s_pending s)) (Sp (p_st t) l2 hn wn).
Proof.
  intros RR W EP ES F2 DEAD OTHER G. pose proof RR as [RH R1 R2 R3 RP]. split; cbn [s_handles s_entries s_hnext s_wnext s_pending p_handles p_hnext p_wnext]; auto.
  intros q. unfold prel. cbn [p_st p_handles s_entries s_inners s_handles]. unfold get_inner. cbn [s_inners]. rewrite length_set. destruct (N.eq_dec q p) as [F|F].
  - subst q. rewrite EP. destruct (live_rel _ _ _ _ _ RR EP) as (ix1 & a1 & A1 & A2 & _ & _). assert (ix1 = ix) by congruence. subst ix1.
    exists ix, a. split; [exact A1|]. split; [exact A2|]. split; [apply nth_set_same; exact A2|exact G].
  - pose proof (RP q) as A. unfold prel in A. destruct (p_st t q) as [lf| |j c] eqn:EQ.
    + destruct lf; [|exact A]. destruct A as (jx & A1 & A2 & A3). exists jx. split; [exact A1|]. split; [exact A2|]. intros h g IN. destruct (DEAD _ _ _ IN) as [->|(h' & g' & IN')]; [|exact (A3 _ _ IN')].
      pose proof (alive_live _ _ _ _ _ _ RR W EP ES) as AL. apply alive_in in AL. destruct AL as (h' & g' & IN'). exact (A3 _ _ IN').
    + exact A.
    + destruct A as (jx & a1 & A1 & A2 & A3 & A4). exists jx, a1. split; [exact A1|]. split; [exact A2|]. split.
      * rewrite nth_set_other; [exact A3|]. intros ->. apply F. symmetry. exact (one_inner _ _ _ _ _ _ _ _ _ RR W EP EQ ES A1).
      * destruct c; [exact A4|]. eapply grp_same; [|exact A4]. intros w. exact (OTHER q w F).
Qed.
Lemma f2_snoc s t p ix g : R s t -> s_entries s p = Some (Stored ix) -> Forall2 (hrel (s_entries s)) (s_handles s ++ [(s_hnext s, ix, g)]) (p_handles t ++ [(p_hnext t, p, g)]).
Proof.
  intros [RH R1 R2 R3 RP] ES. apply Forall2_app; [exact RH|]. constructor; [|constructor]. split; [exact R1|]. split; [reflexivity|exact ES].
Qed.
Lemma snoc_some (p q h0 : N) (g : option N) (l : handles N) w : q <> p -> (exists h, In (h, q, Some w) l) <-> (exists h, In (h, q, Some w) (l ++ [(h0, p, g)])).
Proof.
  intros NE. split; intros (h & IN); exists h; [apply in_snoc; auto|]. apply in_snoc in IN. destruct IN as [IN|IN]; [exact IN|]. inversion IN. congruence.
Qed.

(** a new handle of a live peer *)
Lemma R_give s t p i (b aff : bool) ix a : R s t -> wf t -> p_st t p = Live i b -> s_entries s p = Some (Stored ix) -> get_inner s ix = Inner i a -> (b = true -> aff = false) ->
  R (snd (new_handle ix aff (set_inner ix (Inner i (if aff then a + 1 else a)) s))) (snd (give_new p aff t)) /\
  fst (new_handle ix aff (set_inner ix (Inner i (if aff then a + 1 else a)) s)) = fst (give_new p aff t).
Proof.
  intros RR W EP ES EI BA. pose proof RR as [RH R1 R2 R3 RP]. destruct (live_rel _ _ _ _ _ RR EP) as (ix1 & a1 & A1 & A2 & A3 & A4). assert (ix1 = ix) by congruence. subst ix1. assert (a1 = a) by congruence. subst a1.
  unfold new_handle, give_new, give, set_inner. cbn [fst snd s_entries s_inners s_handles s_hnext s_wnext s_pending]. rewrite R1, R2. split; [|destruct aff; cbn [fst]; reflexivity].
  assert (DEAD : forall g h jx x, In (h, jx, x) (s_handles s ++ [(p_hnext t, ix, g)]) -> jx = ix \/ exists h' g', In (h', jx, g') (s_handles s)).
  { intros g h jx x IN. apply in_snoc in IN. destruct IN as [IN|IN]; [right; eauto|inversion IN; auto]. }
  destruct aff; cbn [snd p_st p_handles p_hnext p_wnext].
  - destruct b; [discriminate BA; reflexivity|]. apply (R_change s t p i false); auto.
    + pose proof (f2_snoc s t p ix (Some (p_wnext t)) RR ES) as FS. rewrite R1 in FS. exact FS.
    + apply DEAD.
    + intros q w NE. apply snoc_some. exact NE.
    + eapply grp_add with (w0 := p_wnext t); [| |exact A4].
      * intros h IN. pose proof (wf_wid t W _ _ _ IN). lia.
      * intros w. split; [intros (h & IN)|intros [->|(h & IN)]].
        -- apply in_snoc in IN. destruct IN as [IN|IN]; [right; eauto|left; inversion IN; reflexivity].
        -- exists (p_hnext t). apply in_snoc. auto.
        -- exists h. apply in_snoc. auto.
  - apply (R_change s t p i b); auto.
    + pose proof (f2_snoc s t p ix None RR ES) as FS. rewrite R1 in FS. exact FS.
    + apply DEAD.
    + intros q w NE. apply snoc_some. exact NE.
    + destruct b; [exact A4|]. eapply grp_same; [|exact A4]. intros w. split; intros (h & IN); exists h; [apply in_snoc; auto|]. apply in_snoc in IN. destruct IN as [IN|IN]; [exact IN|discriminate].
Qed.
(** the first handle of a peer that has none *)
Lemma R_new s t p lf i (aff : bool) : R s t -> wf t -> p_st t p = Nobody lf -> i_peer i = p ->
  R (snd (new_inner i aff s)) (snd (give_new p aff (set_st p (Live i false) t))) /\ fst (new_inner i aff s) = fst (give_new p aff (set_st p (Live i false) t)).
Proof.
  intros RR W EP IP. pose proof RR as [RH R1 R2 R3 RP].
  unfold new_inner, new_handle, give_new, give, set_st. rewrite IP. cbn [fst snd s_entries s_inners s_handles s_hnext s_wnext s_pending p_st p_handles p_hnext p_wnext]. rewrite R1, R2. split; [|destruct aff; reflexivity].
  assert (NOT : forall h g, ~ In (h, p, g) (p_handles t)).
  { intros h g IN. destruct (wf_live t W _ _ _ IN) as (_ & i' & b' & F). congruence. }
  assert (IXS : forall h jx g, In (h, jx, g) (s_handles s) -> (jx < length (s_inners s))%nat).
  { intros h jx g IN. destruct (f2_in1 _ _ _ _ _ _ RH IN) as (q & IN' & EQ). destruct (wf_live t W _ _ _ IN') as (_ & i' & b' & F). destruct (live_rel _ _ _ _ _ RR F) as (kx & a & K1 & K2 & _). congruence. }
  set (L := length (s_inners s)) in *. set (E' := upd p (Some (Stored L)) (s_entries s)).
  assert (F2 : forall g, Forall2 (hrel E') (s_handles s ++ [(p_hnext t, L, g)]) (p_handles t ++ [(p_hnext t, p, g)])).
  { intros g. apply Forall2_app.
    - eapply f2_entries; [|exact RH]. intros h q x IN. unfold E'. apply upd_other. intros ->. exact (NOT _ _ IN).
    - constructor; [|constructor]. split; [reflexivity|]. split; [reflexivity|]. cbn [fst snd]. apply upd_same. }
  assert (PR : forall g hn wn, (match g with Some w => aff = true /\ w = p_wnext t | None => aff = false end) ->
     forall q, prel (St E' (s_inners s ++ [Inner i (if aff then 1 else 0)]) (s_handles s ++ [(p_hnext t, L, g)]) hn wn (s_pending s)) (Sp (upd p (Live i false) (p_st t)) (p_handles t ++ [(p_hnext t, p, g)]) hn wn) q).
  { intros g hn wn G q. unfold prel. cbn [p_st p_handles s_entries s_inners s_handles]. unfold get_inner. cbn [s_inners]. rewrite app_length. cbn [length]. fold L. destruct (N.eq_dec q p) as [F|F].
    - subst q. rewrite upd_same. exists L, (if aff then 1 else 0). split; [unfold E'; apply upd_same|]. split; [lia|]. split; [rewrite app_nth2 by (fold L; lia); fold L; rewrite Nat.sub_diag; reflexivity|].
      destruct g as [w|].
      + destruct G as (-> & ->). exists [p_wnext t]. split; [constructor; [intros []|constructor]|]. split; [|reflexivity]. intros w. cbn [In]. split.
        * intros [<-|[]]. exists (p_hnext t). apply in_snoc. auto.
        * intros (h & IN). apply in_snoc in IN. destruct IN as [IN|IN]; [elim (NOT _ _ IN)|inversion IN; auto].
      + subst aff. exists []. split; [constructor|]. split; [|reflexivity]. intros w. split; [intros []|]. intros (h & IN). apply in_snoc in IN. destruct IN as [IN|IN]; [elim (NOT _ _ IN)|discriminate].
    - rewrite upd_other by exact F. assert (EE : E' q = s_entries s q) by (unfold E'; apply upd_other; exact F). rewrite EE. pose proof (RP q) as A. unfold prel in A. destruct (p_st t q) as [lf'| |j c] eqn:EQ.
      + destruct lf'; [|exact A]. destruct A as (jx & A1 & A2 & A3). exists jx. split; [exact A1|]. split; [lia|]. intros h x IN. apply in_snoc in IN. destruct IN as [IN|IN]; [exact (A3 _ _ IN)|]. inversion IN. lia.
      + exact A.
      + destruct A as (jx & a1 & A1 & A2 & A3 & A4). exists jx, a1. split; [exact A1|]. split; [lia|]. split.
        * rewrite app_nth1 by exact A2. exact A3.
        * destruct c; [exact A4|]. eapply grp_same; [|exact A4]. intros w. apply snoc_some. exact F. }
  destruct aff; split; cbn [s_handles s_entries s_hnext s_wnext s_pending p_handles p_hnext p_wnext snd p_st]; auto; apply PR; auto.
Qed.

(** *** Drops *)
Lemma alive_held s t p i b ix l1 l2 inn hn wn pe E : R s t -> wf t -> p_st t p = Live i b -> s_entries s p = Some (Stored ix) ->
  Forall2 (hrel (s_entries s)) l1 l2 -> (forall h q g, In (h, q, g) l2 -> In (h, q, g) (p_handles t)) -> alive (St E inn l1 hn wn pe) ix = held p l2.
Proof.
  intros RR W EP ES F2 SUB. apply eq_true_iff_eq. rewrite alive_in, held_in. cbn [s_handles]. split; intros (h & g & IN); exists h, g.
  - destruct (f2_in1 _ _ _ _ _ _ F2 IN) as (q & IN' & EQ). destruct (wf_live t W _ _ _ (SUB _ _ _ IN')) as (_ & j & c & LQ). rewrite (one_inner _ _ _ _ _ _ _ _ _ RR W EP LQ ES EQ). exact IN'.
  - destruct (f2_in2 _ _ _ _ _ _ F2 IN) as (jx & IN' & EQ). rewrite ES in EQ. inversion EQ; subst. exact IN'.
Qed.
Lemma R_gone s t p i (b : bool) ix n l1 l2 : R s t -> wf t -> p_st t p = Live i b -> s_entries s p = Some (Stored ix) ->
  Forall2 (hrel (s_entries s)) l1 l2 -> (forall h q g, In (h, q, g) l2 -> In (h, q, g) (p_handles t)) -> (forall h q g, q <> p -> In (h, q, g) (p_handles t) -> In (h, q, g) l2) -> held p l2 = false ->
  R (St (if b then s_entries s else upd p None (s_entries s)) (set_nth ix n (s_inners s)) l1 (s_hnext s) (s_wnext s) []) (Sp (upd p (Nobody b) (p_st t)) l2 (p_hnext t) (p_wnext t)).
Proof.
  intros RR W EP ES F2 SUB KEEP HE. pose proof RR as [RH R1 R2 R3 RP]. set (E' := if b then s_entries s else upd p None (s_entries s)).
  assert (NOT : forall h g, ~ In (h, p, g) l2) by (intros h g IN; rewrite (proj2 (held_in p l2)) in HE; [discriminate|eauto]).
  assert (EO : forall q, q <> p -> E' q = s_entries s q) by (intros q NE; unfold E'; destruct b; [reflexivity|apply upd_other; exact NE]).
  split; cbn [s_handles s_entries s_hnext s_wnext s_pending p_handles p_hnext p_wnext]; auto.
  - eapply f2_entries; [|exact F2]. intros h q g IN. apply EO. intros ->. exact (NOT _ _ IN).
  - assert (IX1 : forall h g, ~ In (h, ix, g) l1).
    { intros h g IN. pose proof (alive_held _ _ _ _ _ _ _ _ [] 0 0 [] (fun _ => None) RR W EP ES F2 SUB) as AH. rewrite HE in AH. rewrite (proj2 (alive_in _ ix)) in AH; [discriminate|]. cbn [s_handles]. eauto. }
    intros q. unfold prel. cbn [p_st p_handles s_entries s_inners s_handles]. unfold get_inner. cbn [s_inners]. rewrite length_set. destruct (N.eq_dec q p) as [F|F].
    + subst q. rewrite upd_same. destruct (live_rel _ _ _ _ _ RR EP) as (ix1 & a & A1 & A2 & A3 & A4). assert (ix1 = ix) by congruence. subst ix1. unfold E'. destruct b; [|apply upd_same].
      exists ix. auto.
    + rewrite upd_other by exact F. rewrite (EO _ F). pose proof (RP q) as A. unfold prel in A. destruct (p_st t q) as [lf'| |j c] eqn:EQ.
      * destruct lf'; [|exact A]. destruct A as (jx & A1 & A2 & A3). exists jx. split; [exact A1|]. split; [exact A2|]. intros h g IN. destruct (f2_in1 _ _ _ _ _ _ F2 IN) as (r & IN' & ER). apply SUB in IN'.
        destruct (f2_in2 _ _ _ _ _ _ RH IN') as (kx & IN1 & EK). rewrite ER in EK. inversion EK; subst. exact (A3 _ _ IN1).
      * exact A.
      * destruct A as (jx & a & A1 & A2 & A3 & A4). exists jx, a. split; [exact A1|]. split; [exact A2|]. split.
        -- rewrite nth_set_other; [exact A3|]. intros ->. apply F. symmetry. exact (one_inner _ _ _ _ _ _ _ _ _ RR W EP EQ ES A1).
        -- destruct c; [exact A4|]. eapply grp_same; [|exact A4]. intros w. split; intros (h & IN); exists h; eauto.
Qed.

Lemma set_inner_id s ix : set_inner ix (get_inner s ix) s = s.
Proof. unfold set_inner, get_inner. rewrite set_nth_id. destruct s; reflexivity. Qed.
Lemma R_drop s t h : R s t -> wf t -> p_wnext t + 1 < BANNED ->
  R (snd (seq_step s (ODrop h))) (snd (spec_step t (ODrop h))) /\ fst (seq_step s (ODrop h)) = fst (spec_step t (ODrop h)).
Proof.
  intros RR W LT. pose proof RR as [RH R1 R2 R3 RP]. unfold seq_step. cbn [step spec_step]. pose proof (f2_find _ h _ _ RH) as FF.
  destruct (hfind h (p_handles t)) as [[p g]|] eqn:H.
  2:{ rewrite FF. cbn [fst snd]. split; [|reflexivity]. unfold finish. rewrite R3. exact RR. }
  destruct FF as (ix & HS & ES). rewrite HS. cbn [fst snd]. split; [|reflexivity]. apply hfind_in in H. destruct (wf_live t W _ _ _ H) as (_ & i & b & EP).
  destruct (live_rel _ _ _ _ _ RR EP) as (ix1 & a & A1 & A2 & A3 & A4). assert (ix1 = ix) by congruence. subst ix1.
  cbn [set_hs p_handles p_st]. set (l1 := hrm h (s_handles s)). set (l2 := hrm h (p_handles t)). pose proof (f2_hrm _ h _ _ RH : Forall2 (hrel (s_entries s)) l1 l2) as F2.
  assert (SUB : forall k q x, In (k, q, x) l2 -> In (k, q, x) (p_handles t)) by (intros k q x IN; apply in_hrm in IN; tauto).
  assert (KEEP : forall k q x, q <> p -> In (k, q, x) (p_handles t) -> In (k, q, x) l2).
  { intros k q x NE IN. apply in_hrm. split; [exact IN|]. intros ->. apply NE. exact (proj1 (in_one _ _ _ _ _ _ (wf_ids t W) IN H)). }
  assert (DEAD : forall k jx x, In (k, jx, x) l1 -> jx = ix \/ exists h' g', In (h', jx, g') (s_handles s)) by (intros k jx x IN; apply in_hrm in IN; right; destruct IN; eauto).
  assert (OTHER : forall q w, q <> p -> (exists k, In (k, q, Some w) (p_handles t)) <-> (exists k, In (k, q, Some w) l2)) by (intros q w NE; split; intros (k & IN); exists k; eauto).
  pose proof (fun inn hn wn pe E => alive_held s t p i b ix l1 l2 inn hn wn pe E RR W EP ES F2 SUB) as AL.
  assert (SETID : set_nth ix (Inner i a) (s_inners s) = s_inners s) by (rewrite <- A3; apply set_nth_id).
  assert (ALEQ : forall n, set_inner ix n (set_handles l1 s) = St (s_entries s) (set_nth ix n (s_inners s)) l1 (s_hnext s) (s_wnext s) (s_pending s)) by reflexivity.
  (* what the model does, once the affinity after it is known *)
  assert (DONE : forall a' : N, (if b then a' = BANNED else grp p l2 a' /\ (a' =? BANNED) = false) ->
     R (finish (if b || alive (set_inner ix (Inner i a') (set_handles l1 s)) ix then set_inner ix (Inner i a') (set_handles l1 s)
        else St (s_entries (set_inner ix (Inner i a') (set_handles l1 s))) (s_inners (set_inner ix (Inner i a') (set_handles l1 s))) (s_handles (set_inner ix (Inner i a') (set_handles l1 s)))
             (s_hnext (set_inner ix (Inner i a') (set_handles l1 s))) (s_wnext (set_inner ix (Inner i a') (set_handles l1 s))) (s_pending (set_inner ix (Inner i a') (set_handles l1 s)) ++ [i_peer i])))
       (if held p l2 then set_hs l2 t else set_st p (match p_st t p with Live _ b => Nobody b | x => x end) (set_hs l2 t))).
  { intros a' G. rewrite ALEQ. rewrite AL. cbn [s_entries s_inners s_handles s_hnext s_wnext s_pending]. rewrite R3. destruct (held p l2) eqn:HE.
    - rewrite orb_true_r. unfold finish. cbn [s_pending]. rewrite R1, R2. unfold set_hs. rewrite <- R3. apply (R_change s t p i b); auto. destruct b; tauto.
    - rewrite orb_false_r. rewrite EP. unfold set_st, set_hs. cbn [p_st p_handles p_hnext p_wnext]. pose proof (R_gone s t p i b ix (Inner i a') l1 l2 RR W EP ES F2 SUB KEEP HE) as RG. destruct b.
      + unfold finish. cbn [s_pending]. exact RG.
      + unfold finish. cbn [s_pending app s_entries s_inners s_handles s_hnext s_wnext]. rewrite (proj1 (wf_held t W _ _ _ EP)). exact RG. }
  unfold drop_handle. fold l1. cbn [set_handles s_handles]. change (get_inner (set_handles l1 s) ix) with (get_inner s ix). rewrite A3.
  destruct g as [w|].
  - rewrite (f2_grouped _ w _ _ F2). destruct (grouped w l2) eqn:GR; cbn [negb].
    + (* a clone shares the affinity *)
      apply grouped_in in GR. destruct GR as (k & q & IN). assert (q = p) by exact (wf_group t W _ _ _ _ _ (SUB _ _ _ IN) H). subst q.
      assert (HE : held p l2 = true) by (apply held_in; eauto). rewrite HE. unfold finish. cbn [set_handles s_pending]. rewrite R3. unfold set_hs, set_handles. rewrite R1, R2. rewrite <- SETID. apply (R_change s t p i b); auto.
      destruct b; [exact A4|]. eapply grp_same; [|exact A4]. intros x. split; intros (k' & IN'); [|exists k'; auto]. destruct (N.eq_dec k' h) as [F|F]; [|exists k'; apply in_hrm; auto].
      subst k'. destruct (in_one _ _ _ _ _ _ (wf_ids t W) IN' H) as (_ & Q). inversion Q; subst. eauto.
    + unfold decrease. cbn [n_aff]. destruct b.
      * subst a. rewrite N.eqb_refl. cbn [negb orb]. specialize (DONE BANNED eq_refl). cbn [orb] in DONE. exact DONE.
      * pose proof (grp_le p _ a (p_wnext t) (fun k x IN => wf_wid t W _ _ _ IN) A4) as LE. destruct (N.eqb_spec a BANNED) as [F|F]; [lia|]. cbn [negb orb].
        destruct (grp_del p (p_handles t) l2 a w) as (NZ & G'); [eauto| |exact A4|].
        { intros x. split.
          - intros (k & IN). split; [intros ->; rewrite (proj2 (grouped_in w l2)) in GR; [discriminate|eauto]|eauto].
          - intros (NE & k & IN). exists k. apply in_hrm. split; [exact IN|]. intros ->. destruct (in_one _ _ _ _ _ _ (wf_ids t W) IN H) as (_ & Q). inversion Q. congruence. }
        rewrite (proj2 (N.eqb_neq a 0) NZ). unfold is_banned. cbn [n_aff n_info]. assert (NB : (a - 1 =? BANNED) = false) by lia. rewrite NB. specialize (DONE (a - 1) (conj G' NB)). cbn [orb] in *. exact DONE.
  - cbn [negb]. unfold is_banned. cbn [n_aff n_info]. destruct b.
    + subst a. rewrite N.eqb_refl. specialize (DONE BANNED eq_refl). cbn [orb] in *. exact DONE.
    + pose proof (grp_le p _ a (p_wnext t) (fun k x IN => wf_wid t W _ _ _ IN) A4) as LE. assert (NB : (a =? BANNED) = false) by lia. rewrite NB. cbn [orb] in *. apply (DONE a). split; [|exact NB].
      eapply grp_same; [|exact A4]. intros x. split; intros (k & IN); exists k; [|auto]. apply in_hrm. split; [exact IN|]. intros ->. destruct (in_one _ _ _ _ _ _ (wf_ids t W) IN H) as (_ & Q). discriminate.
Qed.
