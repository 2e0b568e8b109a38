(** Concrete runs of the producer: points of four peers after the genesis, made by [own_point] itself and judged by the
    verifier; one round is skipped by a peer, one include is missed. Then seven peers, two of them faulty. *)
From Verif Require Import VerModel VerSpec VerCheck VerBasic VerProper VerHist VerThms VerChain VerOrder VerExample.
From Verif Require Import ProdModel ProdSpec ProdBasics ProdProper ProdValid ProdThms PeerCountModel.
From Coq Require Import ZArith ZifyN ZifyNat ZifyBool.
Local Open Scope N_scope.

(** ** An executor *)
Fixpoint find_at (h : list entry) (id : pid) (n : nat) : option (nat * entry) :=
  match h with [] => None | e :: r => if pid_eqb (vd_id (e_v e)) id then Some (n, e) else find_at r id (S n) end.
Lemma find_at_spec h id n k e : find_at h id n = Some (k, e) -> exists m, k = (n + m)%nat /\ nth_error h m = Some e /\ vd_id (e_v e) = id.
Proof.
  revert n. induction h as [|x h IH]; cbn [find_at]; intros n E; [discriminate|].
  destruct (pid_eqb (vd_id (e_v x)) id) eqn:Q.
  - inversion E; subst. exists 0%nat. split; [lia|]. split; [reflexivity|]. apply eqb_pid_true. exact Q.
  - destruct (IH _ E) as (m & -> & A & B). exists (S m). split; [lia|]. auto.
Qed.
Section Exec.
  Context (c : vconf) (peers : round -> list peer) (ldr : info -> bool).
  Definition yread (h : list entry) (i : info) (id : pid) : option (nat * dagpoint) :=
    match find_at h id 0 with
    | Some (n, e) => Some (n, mkDp (e_v e) ((p_author id =? i_author i) && (p_round id =? i_round i - 1)) true)
    | None => None
    end.
  Fixpoint yreads (h : list entry) (i : info) (l : list pid) : option (list (nat * dagpoint)) :=
    match l with
    | [] => Some []
    | p :: r => match yread h i p, yreads h i r with Some a, Some b => Some (a :: b) | _, _ => None end
    end.
  Fixpoint ylinks (h : list entry) (i : info) (l : list ilink) : option (list (nat * dagpoint * through)) :=
    match l with
    | [] => Some []
    | p :: r => match yread h i (il_to p), ylinks h i r with Some a, Some b => Some ((a, il_path p) :: b) | _, _ => None end
    end.
  Lemma yread_ok h i id a : yread h i id = Some a -> sees h a /\ d_id (snd a) = id /\
    (p_author id = i_author i -> p_round id = i_round i - 1 -> d_cert (snd a) = true).
  Proof.
    unfold yread. destruct (find_at h id 0) as [[n e]|] eqn:F; [|discriminate]. intros E. inversion E; subst a; clear E.
    destruct (find_at_spec _ _ _ _ _ F) as (m & -> & A & B). cbn [snd]. split; [exists e; cbn; auto|].
    split; [exact B|]. cbn [d_cert]. intros P Q. rewrite P, Q, !N.eqb_refl. reflexivity.
  Qed.
  Lemma yreads_ok h i l ds : yreads h i l = Some ds -> Forall (sees h) ds /\ map (fun r => d_id (snd r)) ds = l /\
    (forall r, In r ds -> p_author (d_id (snd r)) = i_author i -> p_round (d_id (snd r)) = i_round i - 1 -> d_cert (snd r) = true).
  Proof.
    revert ds. induction l as [|p l IH]; cbn [yreads]; intros ds E; [inversion E; repeat split; [constructor|intros r []]|].
    destruct (yread h i p) as [a|] eqn:A; [|discriminate]. destruct (yreads h i l) as [b|]; [|discriminate]. inversion E; subst ds.
    destruct (yread_ok _ _ _ _ A) as (S & ID & CE), (IH b eq_refl) as (F & M & G). split; [constructor; assumption|].
    split; [cbn; congruence|]. intros r [<-|I] P Q; [apply CE; congruence|auto].
  Qed.
  Lemma ylinks_ok h i l ls : ylinks h i l = Some ls ->
    Forall (fun r => sees h (fst r) /\ exists x, In x l /\ d_id (snd (fst r)) = il_to x /\ snd r = il_path x) ls.
  Proof.
    revert ls. induction l as [|p l IH]; cbn [ylinks]; intros ls E; [inversion E; constructor|].
    destruct (yread h i (il_to p)) as [a|] eqn:A; [|discriminate]. destruct (ylinks h i l) as [b|]; [|discriminate]. inversion E; subst ls.
    destruct (yread_ok _ _ _ _ A) as (S & ID & _). constructor.
    - cbn [fst snd]. split; [exact S|]. exists p. split; [left; reflexivity|]. auto.
    - eapply Forall_impl; [|exact (IH b eq_refl)]. intros r (S' & x & I & Q). split; [exact S'|]. exists x. split; [right; exact I|exact Q].
  Qed.
  Lemma yreads_reads h i ds : yreads h i (inc_ids i ++ wit_ids i) = Some ds -> reads_ok h i ds.
  Proof.
    intros E. destruct (yreads_ok _ _ _ _ E) as (F & M & CE). constructor; [exact F| |].
    - exists []. split; [constructor|]. rewrite app_nil_r, M. apply Permutation_refl.
    - intros r I P. unfold prev_id in P. destruct (prev_digest i) as [d|]; [|discriminate]. inversion P as [Q].
      apply CE; [exact I|rewrite <- Q; reflexivity..].
  Qed.
  Lemma okb_ok i : okb i = true -> info_ok i.
  Proof.
    unfold okb. rewrite !andb_true_iff. intros ((((N1 & N2) & N3) & N4) & N5).
    repeat split; try (apply nodupb_ok; assumption); apply N.leb_le; assumption.
  Qed.
  Definition is_vok (v : vres) : bool := match v with VOk => true | _ => false end.
  Lemma is_vok_ok v : is_vok v = true -> v = VOk.
  Proof. destruct v; cbn; congruence. Qed.
  Definition ystep (h : list entry) (i : info) : option (list entry) :=
    match yreads h i (inc_ids i ++ wit_ids i), ylinks h i (ind_links i) with
    | Some ds, Some ls =>
      if okb i && is_vok (basic_verify c peers i) then
        match validate c (ldr i) i true true true (map (fun r => Some (snd r)) ds) (map (fun r => (snd (fst r), snd r)) ls) with
        | Some res => Some (h ++ [mkEntry (verdict_of i res) ds (map fst ls)])
        | None => None
        end
      else None
    | _, _ => None
    end.
  Lemma ystep_sound h i h' : ystep h i = Some h' -> hstep c peers ldr h h'.
  Proof.
    unfold ystep. destruct (yreads h i (inc_ids i ++ wit_ids i)) as [ds|] eqn:RD; [|discriminate].
    destruct (ylinks h i (ind_links i)) as [ls|] eqn:RL; [|discriminate].
    destruct (okb i && _) eqn:B; [|discriminate]. apply andb_true_iff in B. destruct B as [OK V]. apply is_vok_ok in V.
    destruct (validate _ _ _ _ _ _ _ _) as [res|] eqn:VA; [|discriminate]. intros E. inversion E; subst.
    exact (h_check c peers ldr h i true true true ds ls res (okb_ok i OK) V (yreads_reads h i ds RD) (ylinks_ok _ _ _ _ RL) VA).
  Qed.
  Fixpoint yrun (l : list info) (h : list entry) : option (list entry) :=
    match l with [] => Some h | i :: r => match ystep h i with Some h' => yrun r h' | None => None end end.
  Lemma yrun_sound l : forall h h', yrun l h = Some h' -> hist c peers ldr h -> hist c peers ldr h'.
  Proof.
    induction l as [|i l IH]; cbn; intros h h' E H; [inversion E; subst; exact H|].
    destruct (ystep h i) as [h1|] eqn:S; [|discriminate]. eapply IH; [exact E|]. eapply hist_step; [exact H|]. exact (ystep_sound h i h1 S).
  Qed.

  (** ** Boolean versions of the hypotheses *)
  Definition memb (p : peer) (l : list peer) : bool := existsb (N.eqb p) l.
  Lemma memb_ok p l : memb p l = true -> In p l.
  Proof. intros E. apply existsb_exists in E. destruct E as (q & I & Q). apply N.eqb_eq in Q. subst. exact I. Qed.
  Definition point_atb (q : round) (p : peer) (k : info) : bool :=
    (i_author k =? p) && (i_round k =? q) && memb p (peers q) && is_vok (basic_verify c peers k) && okb k && (i_time k <? u64_max).
  Lemma point_atb_ok q p k : point_atb q p k = true -> point_at c peers q p k.
  Proof.
    unfold point_atb. rewrite !andb_true_iff, !N.eqb_eq, N.ltb_lt. intros (((((A & B) & M) & V) & O) & T).
    constructor; [exact A|exact B|apply memb_ok; exact M|apply is_vok_ok; exact V|apply okb_ok; exact O|exact T].
  Qed.
  Definition nodupk {X} (l : list (peer * X)) : bool := nodupb (map fst l).
  Definition headb (hd : phead) (me : peer) : bool :=
    match hd_me hd with Some m => m =? me | None => false end && memb me (peers (hd_round hd)) &&
    (0 <? c_genesis c) && (c_genesis c <? hd_round hd) && (hd_round hd <=? u32_max) && (hd_now hd <=? u64_max) && (c_sticky c <=? 255) &&
    (hd_count hd =? (if hd_round hd - 1 =? c_genesis c then 0 else faults (N.of_nat (length (peers (hd_round hd - 1)))))) &&
    forallb (fun e => point_atb (hd_round hd - 1) (fst e) (snd e) && (i_time (snd e) <=? hd_now hd + c_skew c)) (hd_reached hd) &&
    nodupk (hd_reached hd) &&
    match hd_locs hd with
    | None => true
    | Some locs => nodupk locs && forallb (fun e => match snd e with
        | Some k => point_atb (hd_round hd - 2) (fst e) k && (c_genesis c <? hd_round hd - 1) && (i_time k <=? hd_now hd + c_skew c)
        | None => true end) locs
    end.
  Lemma headb_ok hd me : legal_sets c peers (hd_round hd) -> headb hd me = true -> head_ok c peers hd me.
  Proof.
    intros LS. unfold headb. rewrite !andb_true_iff. intros ((((((((((ME & MM) & G0) & G1) & RU) & NU) & SU) & CN) & RE) & RN) & LO).
    rewrite ?N.ltb_lt, ?N.leb_le in *. apply N.eqb_eq in CN. rewrite forallb_forall in RE.
    assert (RE' : forall p k, In (p, k) (hd_reached hd) -> point_at c peers (hd_round hd - 1) p k /\ i_time k <= hd_now hd + c_skew c).
    { intros p k I. specialize (RE _ I). cbn [fst snd] in RE. apply andb_true_iff in RE. destruct RE as [A B]. apply N.leb_le in B.
      split; [apply point_atb_ok; exact A|exact B]. }
    assert (LO' : forall locs, hd_locs hd = Some locs -> NoDup (map fst locs) /\ forall p k, In (p, Some k) locs ->
       point_at c peers (hd_round hd - 2) p k /\ c_genesis c < hd_round hd - 1 /\ i_time k <= hd_now hd + c_skew c).
    { intros locs Q. rewrite Q in LO. apply andb_true_iff in LO. destruct LO as [A B]. split; [apply nodupb_ok; exact A|].
      intros p k I. rewrite forallb_forall in B. specialize (B _ I). cbn [fst snd] in B. rewrite !andb_true_iff in B. destruct B as [[B1 B2] B3].
      apply N.leb_le in B3. apply N.ltb_lt in B2. split; [apply point_atb_ok; exact B1|]. auto. }
    constructor.
    - destruct (hd_me hd) as [m|]; [|discriminate]. apply N.eqb_eq in ME. congruence.
    - apply memb_ok. exact MM.
    - auto.
    - exact LS.
    - auto.
    - exact CN.
    - intros p k I. apply RE'. exact I.
    - apply nodupb_ok. exact RN.
    - intros locs p k Q I. destruct (LO' locs Q) as [_ F]. destruct (F p k I) as (A & B & _). auto.
    - intros locs Q. apply LO'. exact Q.
    - intros k [[p I]|(locs & p & Q & I)]; [apply (RE' p k I)|]. destruct (LO' locs Q) as [_ F]. destruct (F p k I) as (_ & _ & B). exact B.
  Qed.
  Definition optb (a b : option N) : bool := opt_eqb a b.
  Lemma optb_ok a b : optb a b = true -> a = b.
  Proof. destruct a, b; cbn; intros E; try discriminate; [apply N.eqb_eq in E; congruence|reflexivity]. Qed.
  Definition lastb (hd : phead) (me : peer) (last : option lastown) : bool :=
    match last with
    | None => true
    | Some l => (lo_signers l =? faults (N.of_nat (length (peers (hd_round hd))))) &&
        forallb (fun e => memb (fst e) (peers (hd_round hd)) && negb (fst e =? me)) (lo_evidence l) && nodupk (lo_evidence l) &&
        (match hd_locs hd with Some locs => forallb (fun e => negb (fst e =? me) || negb (isSome (snd e)) || amem N.eqb me (lo_includes l)) locs | None => true end
           || negb (lo_round l =? hd_round hd - 1)) &&
        forallb (fun e => negb (fst e =? me) || optb (lo_sticky l) (sticky_anchors (snd e))) (hd_reached hd)
    end.
  Lemma lastb_ok hd me last : lastb hd me last = true -> memory_ok c peers hd me last.
  Proof.
    intros E l -> LR. cbn [lastb] in E. rewrite !andb_true_iff in E. destruct E as ((((A & B) & C) & D) & F).
    apply N.eqb_eq in A. rewrite forallb_forall in B, F. rewrite LR, N.eqb_refl, orb_false_r in D. constructor.
    - exact A.
    - intros p s I. specialize (B _ I). cbn [fst] in B. apply andb_true_iff in B. destruct B as [B1 B2].
      split; [apply memb_ok; exact B1|]. apply negb_true_iff, N.eqb_neq in B2. exact B2.
    - apply nodupb_ok. exact C.
    - intros locs k Q I. rewrite Q, forallb_forall in D. specialize (D _ I). cbn [fst snd isSome negb orb] in D.
      rewrite N.eqb_refl in D. cbn [negb orb] in D. apply amem_in. exact D.
    - intros k I _. specialize (F _ I). cbn [fst snd] in F. rewrite N.eqb_refl in F. cbn [negb orb] in F. apply optb_ok. exact F.
  Qed.
  Definition rivalb (hd : phead) (me : peer) : bool :=
    forallb (fun e => negb (anchor_round SProof (snd e) =? hd_round hd - 1) || (fst e =? me)) (hd_reached hd) ||
    forallb (fun e => negb (fst e =? me) || negb (is_self (anchor_proof (snd e)))) (hd_reached hd).
  Lemma rivalb_ok hd me : rivalb hd me = true -> no_rival hd me.
  Proof.
    intros E k I S p j IJ R. apply orb_true_iff in E. rewrite !forallb_forall in E. destruct E as [E|E].
    - specialize (E _ IJ). cbn [fst snd] in E. rewrite (proj2 (N.eqb_eq _ _) R) in E. cbn [negb orb] in E. apply N.eqb_eq. exact E.
    - specialize (E _ I). cbn [fst snd] in E. rewrite N.eqb_refl, S in E. discriminate.
  Qed.
  (** one valid judgement per id *)
  Fixpoint nodupp (l : list pid) : bool := match l with [] => true | x :: r => negb (existsb (pid_eqb x) r) && nodupp r end.
  Lemma nodupp_ok l : nodupp l = true -> NoDup l.
  Proof.
    induction l as [|x l IH]; cbn; intros E; constructor; apply andb_true_iff in E; destruct E as [E1 E2]; [|auto].
    intros I. apply negb_true_iff in E1. assert (existsb (pid_eqb x) l = true) by (apply existsb_exists; exists x; split; [exact I|apply pid_eqb_refl]). congruence.
  Qed.
  Definition bindb (h : list entry) : bool := nodupp (map (fun e => vd_id (e_v e)) h).
  Lemma bindb_ok h : bindb h = true -> ids_bind h.
  Proof.
    intros E a b v w i j (e & A & <-) (e' & B & <-) I J ID. apply nodupp_ok in E.
    assert (a = b).
    { rewrite NoDup_nth_error in E. apply E.
      - rewrite map_length. apply nth_error_Some. congruence.
      - rewrite !nth_error_map, A, B. cbn. rewrite (info_id _ _ I), (info_id _ _ J), ID. reflexivity. }
    subst b. rewrite A in B. inversion B; subst e'. congruence.
  Qed.
  Definition validb (h : list entry) : bool := forallb (fun e => match e_v e with VdValid _ => true | _ => false end) h.
  Lemma validb_clean h a : validb h = true -> clean h a.
  Proof.
    intros E z j r _ (e & NT & Q). unfold validb in E. rewrite forallb_forall in E. specialize (E e (nth_error_In _ _ NT)).
    rewrite Q in E. discriminate.
  Qed.
End Exec.

(** ** A simulated node: what it reads is taken from the history *)
Fixpoint hpt (h : list entry) (r : round) (q : peer) : option info :=
  match h with
  | [] => None
  | e :: h' => match e_v e with
               | VdValid k => if (i_round k =? r) && (i_author k =? q) then Some k else hpt h' r q
               | _ => hpt h' r q
               end
  end.
Lemma hpt_judged h r q k : hpt h r q = Some k -> exists a, judged h a (VdValid k).
Proof.
  induction h as [|e h IH]; cbn [hpt]; intros E; [discriminate|].
  assert (NX : hpt h r q = Some k -> exists a, judged (e :: h) a (VdValid k)).
  { intros Q. destruct (IH Q) as (a & e' & A & B). exists (S a), e'. auto. }
  destruct (e_v e) as [j| | | |] eqn:V; auto. destruct ((i_round j =? r) && (i_author j =? q)); [|auto].
  inversion E; subst j. exists 0%nat, e. auto.
Qed.
Definition picks (h : list entry) (r : round) (qs : list peer) : list (peer * info) :=
  flat_map (fun q => match hpt h r q with Some k => [(q, k)] | None => [] end) qs.
Record plan := mkPlan { pl_round : round; pl_me : peer; pl_inc : list peer; pl_now : N; pl_unsigned : list peer }.
Section Sim.
  Context (c : vconf) (peers : round -> list peer) (coin : round -> nat -> nat).
  Definition sldr := is_leader c peers peers coin.
  Definition fl (r : round) : N := if r =? c_genesis c then 0 else faults (N.of_nat (length (peers r))).
  Definition shead (h : list entry) (s : plan) : phead :=
    mkHead (Some (pl_me s)) (pl_round s) (leader c peers peers coin (pl_round s)) (picks h (pl_round s - 1) (pl_inc s)) (fl (pl_round s - 1))
      (if pl_round s - 1 =? c_genesis c then None else Some (map (fun q => (q, if memb q (pl_unsigned s) then None else hpt h (pl_round s - 2) q)) (peers (pl_round s - 2)))) (pl_now s).
  Definition slast (h : list entry) (s : plan) : option lastown :=
    let mk q := match hpt h q (pl_me s) with
      | Some k => Some (mkLo (i_digest k) (map (fun p => (p, 7)) (filter (fun p => negb (p =? pl_me s)) (peers (pl_round s)))) (i_includes k)
                         (sticky_anchors k) q (fl (pl_round s)))
      | None => None end in
    match mk (pl_round s - 1) with Some l => Some l | None => mk (pl_round s - 2) end.
  Definition sfetch (b : bool) : N * N := if b then (2, 64) else (5, 160).
  Definition spoint (h : list entry) (s : plan) : pres :=
    own_point c (slast h s) sfetch (shead h s) (100 * pl_round s + pl_me s).
  Fixpoint srun (l : list plan) (h : list entry) : option (list entry) :=
    match l with
    | [] => Some h
    | s :: r => match spoint h s with
                | PMade i => match ystep c peers sldr h i with Some h' => srun r h' | None => None end
                | _ => None
                end
    end.
  Lemma srun_sound l : forall h h', srun l h = Some h' -> hist c peers sldr h -> hist c peers sldr h'.
  Proof.
    induction l as [|s l IH]; cbn [srun]; intros h h' E H; [inversion E; subst; exact H|].
    destruct (spoint h s) as [i| |]; try discriminate. destruct (ystep c peers sldr h i) as [h1|] eqn:S; [|discriminate].
    eapply IH; [exact E|]. eapply hist_step; [exact H|]. exact (ystep_sound c peers sldr h i h1 S).
  Qed.
  Lemma sused h s k : used (slast h s) (pl_me s) (shead h s) k -> exists a, judged h a (VdValid k).
  Proof.
    intros [[p I]|[p I]].
    - unfold shead in I. cbn [hd_reached] in I. apply in_flat_map in I. destruct I as (q & _ & I).
      destruct (hpt h (pl_round s - 1) q) as [j|] eqn:E; [|destruct I]. destruct I as [I|[]]. inversion I; subst. exact (hpt_judged _ _ _ _ E).
    - unfold witness_of, shead in I. cbn [hd_locs] in I. destruct (pl_round s - 1 =? c_genesis c); [destruct I|].
      apply sel_wit_in in I. destruct I as [I _]. apply in_map_iff in I. destruct I as (q & Q & _). destruct (memb q (pl_unsigned s)); inversion Q as [[Q1 Q2]]. exact (hpt_judged _ _ _ _ Q2).
  Qed.
  (* everything [produced_valid] asks for, but the dates of the link targets *)
  Definition goodb (h : list entry) (s : plan) : bool :=
    headb c peers (shead h s) (pl_me s) && lastb peers (shead h s) (pl_me s) (slast h s) && rivalb (shead h s) (pl_me s) &&
    bindb h && validb h && (160 <=? c_payload c).
  Definition datesb (h : list entry) (i : info) : bool :=
    match ylinks h i (ind_links i) with
    | Some ls => forallb (fun e => match d_v (snd (fst e)) with VdValid k => i_time k <=? i_time i + c_skew c | _ => false end) ls
    | None => false
    end.
  Lemma yread_valid h i id a : validb h = true -> yread h i id = Some a -> exists k, d_v (snd a) = VdValid k.
  Proof.
    intros V. unfold yread. destruct (find_at h id 0) as [[n e]|] eqn:F; [|discriminate]. intros E. inversion E; subst a. cbn [snd d_v].
    destruct (find_at_spec _ _ _ _ _ F) as (m & _ & A & _). unfold validb in V. rewrite forallb_forall in V. specialize (V e (nth_error_In _ _ A)).
    destruct (e_v e); try discriminate. eauto.
  Qed.
  Lemma yreads_valid h i l ds : validb h = true -> yreads h i l = Some ds -> forall e, In e ds -> exists k, d_v (snd e) = VdValid k.
  Proof.
    intros V. revert ds. induction l as [|p l IH]; cbn [yreads]; intros ds E; [inversion E; intros e []|].
    destruct (yread h i p) as [a|] eqn:A; [|discriminate]. destruct (yreads h i l) as [b|]; [|discriminate]. inversion E; subst ds.
    intros e [<-|I]; [eapply yread_valid; eauto|eauto].
  Qed.
  Definition shyps (h : list entry) (s : plan) (i : info) (ds : list (nat * dagpoint)) (is : list (nat * dagpoint * through)) : Prop :=
    hist c peers sldr h /\ ids_bind h /\ head_ok c peers (shead h s) (pl_me s) /\ memory_ok c peers (shead h s) (pl_me s) (slast h s) /\
    no_rival (shead h s) (pl_me s) /\ (forall b, snd (sfetch b) <= c_payload c) /\
    (forall k, used (slast h s) (pl_me s) (shead h s) k -> exists a, judged h a (VdValid k) /\ clean h a) /\
    spoint h s = PMade i /\ (sldr i = true <-> hd_leader (shead h s) = Some (pl_me s)) /\
    reads_ok h i ds /\ (forall e, In e ds -> In (d_id (snd e)) (dep_ids i) /\ exists k, d_v (snd e) = VdValid k) /\
    inds_ok h i is.
  Lemma goodb_hyps h s i ds is : hist c peers sldr h -> legal_sets c peers (pl_round s) -> goodb h s = true -> spoint h s = PMade i ->
    yreads h i (inc_ids i ++ wit_ids i) = Some ds -> ylinks h i (ind_links i) = Some is -> shyps h s i ds is.
  Proof.
    intros H LS G SP RD RL. unfold goodb in G. rewrite !andb_true_iff in G. destruct G as (((((G1 & G2) & G3) & G4) & G5) & G6).
    apply N.leb_le in G6.
    pose proof (headb_ok c peers (shead h s) (pl_me s) LS G1) as HO. pose proof (lastb_ok c peers _ _ _ G2) as MO.
    assert (PB : forall b, snd (sfetch b) <= c_payload c) by (intros []; cbn [sfetch snd]; lia).
    split; [exact H|]. split; [apply bindb_ok; exact G4|]. split; [exact HO|]. split; [exact MO|].
    split; [apply rivalb_ok; exact G3|]. split; [exact PB|].
    split. { intros k U. destruct (sused h s k U) as [a J]. exists a. split; [exact J|]. apply validb_clean. exact G5. }
    split; [exact SP|].
    split. { destruct (produced_verified c peers _ _ _ _ _ _ HO MO PB SP) as (_ & _ & ID). unfold sldr, is_leader.
      unfold i_round, i_author. rewrite ID. cbn [p_round p_author shead hd_leader hd_round].
      destruct (leader c peers peers coin (pl_round s)) as [l|]; [|split; discriminate]. rewrite N.eqb_eq. split; congruence. }
    split; [apply yreads_reads; exact RD|]. split; [|exact (ylinks_ok _ _ _ _ RL)].
    intros e I. split; [|exact (yreads_valid h i _ ds G5 RD e I)]. destruct (yreads_ok _ _ _ _ RD) as (_ & M & _).
    change (dep_ids i) with (inc_ids i ++ wit_ids i). rewrite <- M. exact (in_map (fun r => d_id (snd r)) ds e I).
  Qed.
  (** so its point is valid *)
  Theorem sim_valid h s i ds is : shyps h s i ds is -> datesb h i = true -> ylinks h i (ind_links i) = Some is ->
    validate c (sldr i) i true true true (map (fun e => Some (snd e)) ds) (map (fun e => (snd (fst e), snd e)) is) = Some RsValid.
  Proof.
    intros (H & IB & HO & MO & NR & PB & UV & SP & LD & RO & VD & IO) DB RL.
    assert (VI : forall e, In e is -> exists k, d_v (snd (fst e)) = VdValid k /\ i_time k <= i_time i + c_skew c).
    { unfold datesb in DB. rewrite RL, forallb_forall in DB. intros e I. specialize (DB e I).
      destruct (d_v (snd (fst e))) as [k| | | |]; try discriminate. exists k. split; [reflexivity|]. apply N.leb_le. exact DB. }
    exact (proj1 (produced_valid c peers sldr h _ _ _ _ _ i ds is H IB HO MO NR PB UV SP LD RO VD IO VI)).
  Qed.
End Sim.

(** ** Four honest peers *)
Definition gen : info := xinfo 4 0.
Definition coin0 : round -> nat -> nat := fun _ _ => 0%nat.
Definition incs (r : round) (p : peer) : list peer :=
  if r =? 5 then [0] else if (r =? 8) && (p =? 2) then [1; 2; 3] else [4; 2; 1; 3].
Definition plans (r : round) : list plan :=
  map (fun p => mkPlan r p (incs r p) (1000 * r) []) (if r =? 8 then [1; 2; 4] else [1; 2; 3; 4]).
Definition h8 : list entry := Eval vm_compute in
  match ystep xc xpeers xldr [] gen with
  | Some h => match srun xc xpeers coin0 (flat_map plans [5; 6; 7; 8]) h with Some h' => h' | None => [] end
  | None => [] end.
Definition h9 : list entry := Eval vm_compute in match srun xc xpeers coin0 (plans 9) h8 with Some h => h | None => [] end.
Definition h10 : list entry := Eval vm_compute in match srun xc xpeers coin0 (plans 10) h9 with Some h => h | None => [] end.
Definition h12 : list entry := Eval vm_compute in match srun xc xpeers coin0 (plans 11 ++ plans 12) h10 with Some h => h | None => [] end.

Lemma xsets r : legal_sets xc xpeers r.
Proof.
  intros q _ _. unfold xpeers, xc. cbn [c_genesis]. destruct (N.eqb_spec q 4) as [E|E]; cbn [length]; split; intros; try lia; try reflexivity.
Qed.
Lemma h0_eq : exists h, ystep xc xpeers xldr [] gen = Some h /\ srun xc xpeers coin0 (flat_map plans [5; 6; 7; 8]) h = Some h8.
Proof. eexists. split; [vm_compute; reflexivity|]. vm_compute. reflexivity. Qed.
Lemma h9_eq : srun xc xpeers coin0 (plans 9) h8 = Some h9. Proof. vm_compute. reflexivity. Qed.
Lemma h10_eq : srun xc xpeers coin0 (plans 10) h9 = Some h10. Proof. vm_compute. reflexivity. Qed.
Lemma h12_eq : srun xc xpeers coin0 (plans 11 ++ plans 12) h10 = Some h12. Proof. vm_compute. reflexivity. Qed.
Lemma h8_hist : hist xc xpeers (sldr xc xpeers coin0) h8.
Proof.
  destruct h0_eq as (h & A & B). apply (srun_sound xc xpeers coin0 _ _ _ B). eapply hist_step; [constructor|]. exact (ystep_sound _ _ _ _ _ _ A).
Qed.
Lemma h9_hist : hist xc xpeers (sldr xc xpeers coin0) h9.
Proof. exact (srun_sound xc xpeers coin0 _ _ _ h9_eq h8_hist). Qed.
Lemma h10_hist : hist xc xpeers (sldr xc xpeers coin0) h10.
Proof. exact (srun_sound xc xpeers coin0 _ _ _ h10_eq h9_hist). Qed.
Lemma h12_hist : hist xc xpeers (sldr xc xpeers coin0) h12.
Proof. exact (srun_sound xc xpeers coin0 _ _ _ h12_eq h10_hist). Qed.

(* one point of the run: the hypotheses of [produced_valid] hold, so it is valid; it agrees with the dag (in_step) *)
Definition one (h : list entry) (s : plan) (role : prole) (wit : list (peer * digest)) : Prop := exists i ds is,
  shyps xc xpeers coin0 h s i ds is /\ in_step (shead xc xpeers coin0 h s) (pl_me s) (slast xc xpeers h s) /\
  i_role i = role /\ i_witness i = wit /\
  validate xc (sldr xc xpeers coin0 i) i true true true (map (fun e => Some (snd e)) ds) (map (fun e => (snd (fst e), snd e)) is) = Some RsValid.

Definition stepb (hd : phead) (me : peer) (last : option lastown) : bool :=
  (majority (hd_count hd) <=? N.of_nat (length (hd_reached hd))) &&
  match last with
  | Some l => (lo_round l <? hd_round hd) &&
     (negb (lo_round l + 1 =? hd_round hd) || existsb (fun e => (fst e =? me)) (hd_reached hd)) &&
     forallb (fun e => negb (fst e =? me) || ((lo_round l + 1 =? hd_round hd) && (lo_digest l =? i_digest (snd e)))) (hd_reached hd)
  | None => forallb (fun e => negb (fst e =? me)) (hd_reached hd)
  end.
Lemma stepb_ok hd me last : stepb hd me last = true -> in_step hd me last.
Proof.
  unfold stepb. rewrite andb_true_iff. intros [A B]. apply N.leb_le in A. destruct last as [l|].
  - rewrite !andb_true_iff in B. destruct B as [[B1 B2] B3]. apply N.ltb_lt in B1. rewrite forallb_forall in B3. constructor.
    + intros l' Q. inversion Q; subst. exact B1.
    + exact A.
    + intros l' Q LR _. inversion Q; subst l'. rewrite (proj2 (N.eqb_eq _ _) LR) in B2. cbn [negb orb] in B2.
      apply existsb_exists in B2. destruct B2 as ([q k] & I & E). apply N.eqb_eq in E. cbn in E. subst q. eauto.
    + intros k I. specialize (B3 _ I). cbn [fst snd] in B3. rewrite N.eqb_refl in B3. cbn [negb orb] in B3.
      apply andb_true_iff in B3. rewrite !N.eqb_eq in B3. exists l. tauto.
  - rewrite forallb_forall in B. constructor; try (intros l' Q; discriminate); [exact A|].
    intros k I. specialize (B _ I). cbn [fst] in B. rewrite N.eqb_refl in B. discriminate.
Qed.
Lemma one_by h s role wit i ds is : hist xc xpeers (sldr xc xpeers coin0) h -> goodb xc xpeers coin0 h s = true ->
  spoint xc xpeers coin0 h s = PMade i -> yreads h i (inc_ids i ++ wit_ids i) = Some ds -> ylinks h i (ind_links i) = Some is ->
  datesb xc h i = true -> stepb (shead xc xpeers coin0 h s) (pl_me s) (slast xc xpeers h s) = true ->
  i_role i = role -> i_witness i = wit -> one h s role wit.
Proof.
  intros H G SP RD RL DB SB R W. exists i, ds, is. pose proof (goodb_hyps xc xpeers coin0 h s i ds is H (xsets _) G SP RD RL) as SH.
  split; [exact SH|]. split; [apply stepb_ok; exact SB|]. split; [exact R|]. split; [exact W|].
  exact (sim_valid xc xpeers coin0 h s i ds is SH DB RL).
Qed.
Ltac one h H := eapply (one_by h); [exact H|vm_compute; reflexivity|(vm_compute; reflexivity)|(vm_compute; reflexivity)|(vm_compute; reflexivity)|vm_compute; reflexivity..].
(* a witness after a missed include *)
Theorem x_regular : one h8 (mkPlan 9 2 (incs 9 2) 9000 [])
  (Regular (LIndirect (mkIL (xid 4 0) (ThInc 1))) (LIndirect (mkIL (xid 4 0) (ThInc 1)))) [(4, 704)].
Proof. one h8 h8_hist. Qed.
(* after a pause *)
Theorem x_paused : one h8 (mkPlan 9 3 (incs 9 3) 9000 [])
  (Regular (LIndirect (mkIL (xid 4 0) (ThInc 1))) (LIndirect (mkIL (xid 4 0) (ThInc 1)))) [(1, 701); (2, 702); (4, 704)].
Proof. one h8 h8_hist. Qed.
(* the leader's anchor proof, the sticky anchors and the trigger *)
Theorem x_leads : one h9 (mkPlan 10 1 (incs 10 1) 10000 [])
  (AnchorProof (mkIL (xid 4 0) (ThInc 3)) (LIndirect (mkIL (xid 4 0) (ThInc 3)))) [].
Proof. one h9 h9_hist. Qed.
Theorem x_sticks : one h10 (mkPlan 11 1 (incs 11 1) 11000 []) (Sticky 0) [].
Proof. one h10 h10_hist. Qed.
Theorem x_triggers : one h12 (mkPlan 13 1 (incs 13 1) 13000 []) AnchorTrigger [].
Proof. one h12 h12_hist. Qed.
Theorem x_follows : one h12 (mkPlan 13 2 (incs 13 2) 13000 []) (Regular (LDirect (ThInc 1)) (LDirect (ThInc 1))) [].
Proof. one h12 h12_hist. Qed.
(* errors *)
Theorem x_errors : let last := slast xc xpeers h8 (mkPlan 9 2 (incs 9 2) 9000 []) in let hd := shead xc xpeers coin0 h8 (mkPlan 9 2 (incs 9 2) 9000 []) in
  own_point xc (match last with Some l => Some (mkLo (lo_digest l) [(1, 7)] (lo_includes l) (lo_sticky l) (lo_round l) (lo_signers l)) | None => None end) sfetch hd 1
  = PErr PNotAllowed /\
  own_point xc (match last with Some l => Some (mkLo 55 (lo_evidence l) (lo_includes l) (lo_sticky l) (lo_round l) (lo_signers l)) | None => None end) sfetch hd 1
  = PErr PPrevMismatch /\
  own_point xc None sfetch hd 1 = PErr PPrevMismatch /\
  own_point xc last sfetch (mkHead None 9 None (hd_reached hd) 1 (hd_locs hd) 9000) 1 = PErr PNotScheduled.
Proof. vm_compute. auto. Qed.

(** ** Seven peers, 1 and 2 faulty: an honest node's own point is invalid *)
Definition zpeers (r : round) : list peer := if r =? 4 then [0] else [1; 2; 3; 4; 5; 6; 7].
Definition zplan (r : round) (p : peer) : plan := mkPlan r p (if r =? 5 then [0] else [1; 2; 3; 4; 5; 6; 7]) (1000 * r) [].
Definition zrounds : list plan := flat_map (fun r => map (zplan r) [1; 2; 3; 4; 5; 6; 7]) [5; 6; 7; 8; 9].
Definition honest : list peer := [3; 4; 5; 6; 7].
(* round 10: the leader 1 dates its anchor proof two skews ahead of its clock; round 11: 2 alone includes it, and dates its
   point one skew ahead; 1 makes no more points *)
Definition zlate : list plan :=
  [mkPlan 10 1 [1; 2; 3; 4; 5; 6; 7] 20000 []] ++ map (zplan 10) [2; 3; 4; 5; 6; 7] ++
  [mkPlan 11 2 [1; 2; 3; 4; 5; 6; 7] 16000 []] ++ map (fun p => mkPlan 11 p [2; 3; 4; 5; 6; 7] 11000 []) honest.
Definition hz : list entry := Eval vm_compute in
  match ystep xc zpeers (sldr xc zpeers coin0) [] gen with
  | Some h => match srun xc zpeers coin0 (zrounds ++ zlate) h with Some h' => h' | None => [] end
  | None => [] end.
Definition zs : plan := mkPlan 12 3 [2; 3; 4; 5; 6; 7] 12000 [1].
Lemma hz_eq : exists h, ystep xc zpeers (sldr xc zpeers coin0) [] gen = Some h /\ srun xc zpeers coin0 (zrounds ++ zlate) h = Some hz.
Proof. eexists. split; [vm_compute; reflexivity|]. vm_compute. reflexivity. Qed.
Lemma hz_hist : hist xc zpeers (sldr xc zpeers coin0) hz.
Proof.
  destruct hz_eq as (h & A & B). apply (srun_sound xc zpeers coin0 _ _ _ B). eapply hist_step; [constructor|]. exact (ystep_sound _ _ _ _ _ _ A).
Qed.
Lemma zsets r : legal_sets xc zpeers r.
Proof.
  intros q _ _. unfold zpeers, xc. cbn [c_genesis]. destruct (N.eqb_spec q 4) as [E|E]; cbn [length]; split; intros; try lia; try reflexivity.
Qed.
(* every point was judged valid, every point the node uses is dated at most one skew ahead of its clock; but its own point
   links to the anchor proof, and that is two skews ahead *)
Theorem future_dated_proof_breaks_own_point : exists i ds is, shyps xc zpeers coin0 hz zs i ds is /\
  length (zpeers 10) = 7%nat /\
  validate xc (sldr xc zpeers coin0 i) i true true true (map (fun e => Some (snd e)) ds) (map (fun e => (snd (fst e), snd e)) is)
  = Some (RsInvalid (RTooFarInFuture (mkPid 10 1001 1))).
Proof.
  do 3 eexists. split.
  - eapply goodb_hyps; [exact hz_hist|apply zsets|vm_compute; reflexivity..].
  - split; [reflexivity|]. vm_compute. reflexivity.
Qed.
