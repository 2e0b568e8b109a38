(** Every point a node produces passes the basic verification (C73). *)
From Verif Require Import VerModel VerSpec VerCheck VerBasic VerProper VerThms ProdModel ProdSpec ProdBasics PeerCountModel.
From Coq Require Import ZArith ZifyN ZifyNat ZifyBool.
Local Open Scope N_scope.

Lemma proven_inv last r d : proven_vertex last r = Some (Some d) -> exists l, last = Some l /\ lo_round l = r - 1 /\
  lo_digest l = d /\ majority_of_others (lo_signers l) <= N.of_nat (length (lo_evidence l)).
Proof.
  unfold proven_vertex. destruct last as [l|]; [|discriminate]. destruct (N.eqb_spec (lo_round l) (r - 1)) as [E|E]; [|discriminate].
  destruct (N.leb_spec (majority_of_others (lo_signers l)) (N.of_nat (length (lo_evidence l)))) as [L|L]; [|discriminate].
  intros Q. inversion Q. eauto.
Qed.

(** the shape of a produced point *)
Record made (c : vconf) (last : option lastown) (me : peer) (r : round) (leader : option peer)
  (inc wit : list (peer * info)) (now : N) (p t : alink) (prev : option (info * lastown)) (i : info) : Prop := {
  md_links : anchor_links r inc wit = Some (p, t);
  md_round : i_round i = r;
  md_author : i_author i = me;
  md_inc : i_includes i = refs inc;
  md_wit : i_witness i = refs wit;
  md_role : i_role i = pick_role c (match prev with Some (_, l) => Some (lo_sticky l) | None => None end)
                         (match leader with Some l => l =? me | None => false end) me r p t;
  md_evidence : i_evidence i = match prev with Some (_, l) => lo_evidence l | None => [] end;
  md_time : get_time (role_proof me (i_role i)) (match prev with Some (k, _) => Some k | None => None end) inc wit now
            = Some (i_time i, i_atime i);
  md_prev : match prev with
            | Some (k, l) => aget N.eqb me inc = Some k /\ last = Some l /\ lo_round l = r - 1 /\ i_digest k = lo_digest l /\
                             majority_of_others (lo_signers l) <= N.of_nat (length (lo_evidence l))
            | None => aget N.eqb me inc = None
            end }.
Lemma create_made c last fetch me r leader inc wit now dg i :
  create c last fetch me r leader inc wit now dg = PMade i ->
  i_digest i = dg /\ i_plen i = fst (fetch (only_fresh last)) /\ i_pbytes i = snd (fetch (only_fresh last)) /\
  exists p t prev, made c last me r leader inc wit now p t prev i.
Proof.
  unfold create. destruct (proven_vertex last r) as [proven|] eqn:PV; [|discriminate].
  destruct (anchor_links r inc wit) as [[p t]|] eqn:AL; [|discriminate].
  destruct (check_prev _ proven) as [e|[]] eqn:CP.
  { intros ->. unfold check_prev in CP. destruct (aget N.eqb me inc), proven; try discriminate.
    destruct (_ =? _); discriminate. }
  destruct (get_time _ _ inc wit now) as [[tm at_]|] eqn:GT; [|discriminate].
  destruct (opt_eqb proven _) eqn:OE; [|discriminate]. intros E. inversion E; subst i; clear E. cbn [i_plen i_pbytes].
  split; [reflexivity|]. split; [reflexivity|]. split; [reflexivity|]. exists p, t.
  destruct proven as [d|].
  - destruct (proven_inv _ _ _ PV) as (l & -> & LR & LD & EN). unfold check_prev in CP.
    destruct (aget N.eqb me inc) as [k|] eqn:AK; [|discriminate]. destruct (N.eqb_spec (i_digest k) d) as [DK|DK]; [|discriminate].
    exists (Some (k, l)). constructor; cbn [i_includes i_witness i_role i_evidence i_time i_atime]; try reflexivity; try assumption.
    subst d. auto.
  - unfold check_prev in CP. destruct (aget N.eqb me inc) as [k|] eqn:AK; [discriminate|].
    exists None. constructor; cbn [i_includes i_witness i_role i_evidence i_time i_atime]; try reflexivity; try assumption.
Qed.

Section Made.
  Context (c : vconf) (peers : round -> list peer) (last : option lastown) (me : peer) (hd : phead).
  Context (HO : head_ok c peers hd me) (MO : memory_ok c peers hd me last).
  Notation r := (hd_round hd).
  Notation inc := (hd_reached hd).
  Notation wit := (witness_of last me hd).
  Notation made := (made c last me r (hd_leader hd) inc wit (hd_now hd)).

  Lemma wit_in p k : In (p, k) wit -> exists locs, hd_locs hd = Some locs /\ In (p, Some k) locs /\ skip_wit last me (r - 1) p = false.
  Proof.
    unfold witness_of. destruct (hd_locs hd) as [locs|]; [|intros []]. intros I. apply sel_wit_in in I. exists locs. tauto.
  Qed.
  Lemma wit_point p k : In (p, k) wit -> point_at c peers (r - 2) p k /\ c_genesis c < r - 1.
  Proof. intros I. destruct (wit_in p k I) as (locs & L & I' & _). eapply ho_signed; eauto. Qed.
  Lemma inc_point p k : In (p, k) inc -> point_at c peers (r - 1) p k.
  Proof. apply (ho_reached _ _ _ _ HO). Qed.
  Lemma inc_author p k : In (p, k) inc -> i_author k = p.
  Proof. intros I. exact (pa_author _ _ _ _ _ (inc_point p k I)). Qed.
  Lemma wit_author p k : In (p, k) wit -> i_author k = p.
  Proof. intros I. exact (pa_author _ _ _ _ _ (proj1 (wit_point p k I))). Qed.
  Lemma wit_once : NoDup (map fst wit).
  Proof.
    unfold witness_of. destruct (hd_locs hd) as [locs|] eqn:L; [|constructor]. apply sel_wit_nodup. eapply ho_locs_once; eauto.
  Qed.
  Lemma gr : 0 < c_genesis c /\ c_genesis c < r.
  Proof. pose proof (ho_genesis _ _ _ _ HO). lia. Qed.

  Lemma used_point k : used last me hd k -> exists q p, point_at c peers q p k /\ q < r /\ i_round k = q /\ c_genesis c <= q.
  Proof.
    pose proof gr as [G0 G1]. intros [[p I]|[p I]].
    - pose proof (inc_point p k I) as P. exists (r - 1), p. split; [exact P|]. rewrite (pa_round _ _ _ _ _ P). lia.
    - destruct (wit_point p k I) as [P L]. exists (r - 2), p. split; [exact P|]. rewrite (pa_round _ _ _ _ _ P). lia.
  Qed.
  Lemma src_used k th : src_ok inc wit k th -> used last me hd k.
  Proof. intros [[I _]|[I _]]; [left|right]; exact I. Qed.

  Section One.
    Context (p t : alink) (prev : option (info * lastown)) (i : info).
    Context (M : made p t prev i).

    Lemma src_through k th : src_ok inc wit k th -> through_id i th = Some (i_id k) /\ In (i_id k) (dep_ids i) /\
      p_round (i_id k) < i_round i.
    Proof.
      intros S. destruct (src_point c peers r inc wit gr inc_point wit_point k th S) as (q & P & CASE & L & GQ).
      pose proof (pa_round _ _ _ _ _ P) as RQ. rewrite (md_round _ _ _ _ _ _ _ _ _ _ _ _ M).
      assert (ID : mkPid q (i_digest k) (i_author k) = i_id k).
      { unfold i_round, i_digest, i_author in *. destruct (i_id k) as [a b e]. cbn in *. congruence. }
      unfold through_id, dep_ids.
      rewrite (md_inc _ _ _ _ _ _ _ _ _ _ _ _ M), (md_wit _ _ _ _ _ _ _ _ _ _ _ _ M), (md_round _ _ _ _ _ _ _ _ _ _ _ _ M).
      destruct CASE as [(Q & -> & I)|(Q & -> & I)].
      - rewrite (refs_get inc _ k inc_author (ho_reached_once _ _ _ _ HO) I). rewrite <- Q, ID. split; [reflexivity|].
        split; [|unfold i_round in RQ; lia]. apply in_app_iff. left. apply in_map_iff. exists (i_author k, i_digest k). cbn [fst snd].
        split; [exact ID|]. unfold refs. apply in_map_iff. exists (i_author k, k). auto.
      - rewrite (refs_get wit _ k wit_author wit_once I). rewrite <- Q, ID. split; [reflexivity|].
        split; [|unfold i_round in RQ; lia]. apply in_app_iff. right. apply in_map_iff. exists (i_author k, i_digest k). cbn [fst snd].
        split; [exact ID|]. unfold refs. apply in_map_iff. exists (i_author k, k). auto.
    Qed.
    (** a link made from a source *)
    Lemma ldir_link s k th : src_ok inc wit k th -> anchor_link s i = ldir s k th ->
      anchor_through s i = Some (i_id k) /\ anchor_id s i = Some (dest s k) /\ anchor_round s i = anchor_round s k.
    Proof.
      intros S E. destruct (src_through k th S) as (T & IN & LT).
      destruct (src_point c peers r inc wit gr inc_point wit_point k th S) as (q & P & CASE & L & GQ).
      destruct (verified_dest c peers k q _ s P) as (ID & DR & _). pose proof (pa_round _ _ _ _ _ P) as RQ.
      unfold anchor_through, anchor_id, anchor_round. unfold anchor_through. rewrite E. unfold ldir.
      destruct (is_self (anchor_link s k)) eqn:SF; cbn [il_path il_to].
      - rewrite T. apply self_true in SF. split; [reflexivity|]. split; [rewrite (dest_self s k SF); reflexivity|].
        rewrite SF, RQ, (md_round _ _ _ _ _ _ _ _ _ _ _ _ M). destruct CASE as [(Q & -> & _)|(Q & -> & _)]; lia.
      - rewrite T. split; [reflexivity|]. split; [reflexivity|]. rewrite DR. unfold anchor_round. reflexivity.
    Qed.
    Lemma role_cases : exists kp tp kt tt', src_ok inc wit kp tp /\ src_ok inc wit kt tt' /\
      p = lnk SProof kp tp /\ t = lnk STrigger kt tt' /\
      (forall j, used last me hd j -> anchor_round STrigger j <= anchor_round STrigger kt) /\
      ((anchor_round STrigger kt <= anchor_round SProof kp /\
        forall j, used last me hd j -> anchor_round SProof j <= anchor_round SProof kp) \/
       (kp = kt /\ tp = tt' /\ forall j, used last me hd j -> anchor_round SProof j < anchor_round STrigger kt)).
    Proof.
      destruct (links_spec c peers r inc wit gr inc_point wit_point p t (md_links _ _ _ _ _ _ _ _ _ _ _ _ M))
        as (kp & tp & kt & tt' & A & B & C & D & E & F).
      exists kp, tp, kt, tt'. repeat (split; [assumption|]). split.
      - intros j [[q I]|[q I]]; apply (E q); auto.
      - destruct F as [[F1 F2]|(F0 & F1 & F2)].
        + left. split; [exact F1|]. intros j [[q I]|[q I]]; apply (F2 q); auto.
        + right. repeat (split; [assumption|]). intros j [[q I]|[q I]]; apply (F2 q); auto.
    Qed.
    Lemma links_of_role s l : i_role i = Regular p t -> anchor_link s i = l ->
      l = match s with SProof => match p with LDirect x => Direct x | LIndirect x => Indirect x end
                     | STrigger => match t with LDirect x => Direct x | LIndirect x => Indirect x end end.
    Proof.
      intros R <-. destruct s; cbn [anchor_link]; unfold anchor_trigger, anchor_proof; rewrite R; [destruct t|destruct p]; reflexivity.
    Qed.
    Lemma lnk_any s k th : match lnk s k th with LDirect x => Direct x | LIndirect x => Indirect x end = ldir s k th.
    Proof. unfold lnk, ldir. destruct (is_self (anchor_link s k)); reflexivity. Qed.

    (** the own previous point *)
    Lemma prev_facts k l : prev = Some (k, l) -> In (me, k) inc /\ point_at c peers (r - 1) me k /\ last = Some l /\
      last_ok c peers hd me l /\ i_digest k = lo_digest l /\ prev_digest i = Some (i_digest k) /\ i_evidence i = lo_evidence l /\
      lo_evidence l <> [] /\ 2 * faults (N.of_nat (length (peers r))) <= N.of_nat (length (lo_evidence l)) /\
      3 <= N.of_nat (length (peers r)) /\ lo_sticky l = sticky_anchors k /\ src_ok inc wit k (ThInc me).
    Proof.
      intros E. pose proof (md_prev _ _ _ _ _ _ _ _ _ _ _ _ M) as MP. pose proof (md_evidence _ _ _ _ _ _ _ _ _ _ _ _ M) as ME.
      rewrite E in MP, ME. destruct MP as (AG & LA & LR & DG & EN).
      apply aget_some_in in AG; [|exact N.eqb_spec]. rename AG into I.
      pose proof (MO l LA LR) as LO. pose proof gr as [G0 G1].
      destruct (ho_sets _ _ _ _ HO r ltac:(lia) ltac:(lia)) as [_ SZ]. destruct (SZ G1) as [S3 _].
      assert (FA : 2 <= 2 * faults (N.of_nat (length (peers r)))).
      { unfold faults. assert (1 <= (N.of_nat (length (peers r)) + 1) / 3) by (apply N.div_le_lower_bound; lia). lia. }
      rewrite (la_signers _ _ _ _ _ LO) in EN. unfold majority_of_others in EN.
      repeat (split; [first [assumption | apply inc_point; exact I]|]).
      split. { unfold prev_digest. rewrite (md_inc _ _ _ _ _ _ _ _ _ _ _ _ M), (md_author _ _ _ _ _ _ _ _ _ _ _ _ M).
               apply (refs_get inc _ k inc_author (ho_reached_once _ _ _ _ HO) I). }
      split; [exact ME|]. split. { intros Z. rewrite Z in EN. cbn [length] in EN. lia. }
      split; [lia|]. split; [exact S3|]. split; [exact (la_point _ _ _ _ _ LO k I DG)|].
      left. rewrite (inc_author _ _ I). eauto.
    Qed.
    Lemma no_prev_facts : prev = None -> prev_digest i = None /\ i_evidence i = [] /\ i_role i = Regular p t.
    Proof.
      intros E. pose proof (md_prev _ _ _ _ _ _ _ _ _ _ _ _ M) as MP. pose proof (md_evidence _ _ _ _ _ _ _ _ _ _ _ _ M) as ME.
      pose proof (md_role _ _ _ _ _ _ _ _ _ _ _ _ M) as MR. rewrite E in MP, ME, MR. cbn [pick_role] in MR.
      split; [|auto]. unfold prev_digest. rewrite (md_inc _ _ _ _ _ _ _ _ _ _ _ _ M), (md_author _ _ _ _ _ _ _ _ _ _ _ _ M).
      apply refs_get_none; [exact inc_author|exact MP].
    Qed.
    (** roles *)
    Lemma role_inv : i_role i = Regular p t \/ exists k l, prev = Some (k, l) /\
      ((exists n, sticky_anchors k = Some n /\ n + 1 < c_sticky c /\ n < 255 /\ i_role i = Sticky (n + 1)) \/
       (exists n, sticky_anchors k = Some n /\ i_role i = AnchorTrigger) \/
       (sticky_anchors k = None /\ p = LDirect (ThInc me) /\ 0 < c_sticky c /\ i_role i = Sticky 0) \/
       (sticky_anchors k = None /\ p = LDirect (ThInc me) /\ i_role i = AnchorTrigger) \/
       (exists x, sticky_anchors k = None /\ p = LIndirect x /\ far_enough c r (p_round (il_to x)) = true /\
          hd_leader hd = Some me /\ i_role i = AnchorProof x t)).
    Proof.
      pose proof (md_role _ _ _ _ _ _ _ _ _ _ _ _ M) as MR.
      assert (SF : forall k l, prev = Some (k, l) -> lo_sticky l = sticky_anchors k).
      { intros k l E. destruct (prev_facts k l E) as (_ & _ & _ & _ & _ & _ & _ & _ & _ & _ & ST & _). exact ST. }
      clear M. destruct prev as [[k l]|]; [|left; exact MR]. specialize (SF k l eq_refl). rename SF into ST.
      rewrite ST in MR. unfold pick_role in MR. destruct (sticky_anchors k) as [n|] eqn:SK.
      - right. exists k, l. split; [reflexivity|].
        destruct (N.ltb_spec (N.min (n + 1) 255) (c_sticky c)) as [L|L].
        + destruct (N.lt_ge_cases n 255) as [L2|L2].
          * left. exists n. repeat split; try assumption; lia.
          * exfalso. pose proof (ho_types _ _ _ _ HO). lia.
        + right. left. eauto.
      - destruct (is_trigger me p) eqn:TR.
        + right. exists k, l. split; [reflexivity|]. unfold is_trigger in TR. destruct p as [[a|a]|]; try discriminate.
          apply N.eqb_eq in TR. subst a. destruct (N.ltb_spec 0 (c_sticky c)) as [L|L].
          * right. right. left. auto.
          * right. right. right. left. auto.
        + destruct p as [x|x]; [left; exact MR|].
          destruct (match hd_leader hd with Some q => q =? me | None => false end) eqn:LD; cbn [andb] in MR; [|left; exact MR].
          destruct (proof_far c r (LIndirect x)) eqn:PF; [|left; exact MR].
          right. exists k, l. split; [reflexivity|]. right. right. right. right. exists x.
          destruct (hd_leader hd) as [q|]; [|discriminate]. apply N.eqb_eq in LD. subst q. auto.
    Qed.

    Lemma src_get k th : src_ok inc wit k th ->
      match th with ThInc q => aget N.eqb q inc | ThWit q => aget N.eqb q wit end = Some k.
    Proof.
      intros S. destruct (src_point c peers r inc wit gr inc_point wit_point k th S) as (q & P & CASE & L & GQ).
      destruct CASE as [(Q & -> & I)|(Q & -> & I)]; apply (aget_in N.eqb N.eqb_spec); try exact I.
      - exact (ho_reached_once _ _ _ _ HO).
      - exact wit_once.
    Qed.
    Lemma role_proof_eq : role_proof me (i_role i) = anchor_proof i.
    Proof. unfold role_proof, anchor_proof. rewrite (md_author _ _ _ _ _ _ _ _ _ _ _ _ M). reflexivity. Qed.
    (** times: the anchor time is the one of the path, or the time of the previous own point for a proof *)
    Lemma time_facts : exists z, used last me hd z /\ i_atime i <= i_time z /\
      (forall k l, prev = Some (k, l) -> i_time k < i_time i) /\ i_atime i < i_time i /\ hd_now hd <= i_time i /\ i_time i <= u64_max /\
      (anchor_proof i = ToSelf -> exists k l, prev = Some (k, l) /\ i_atime i = i_time k) /\
      (forall k th, src_ok inc wit k th -> (anchor_proof i = Direct th \/ exists to, anchor_proof i = Indirect (mkIL to th)) ->
         i_atime i = i_atime k).
    Proof.
      pose proof (md_time _ _ _ _ _ _ _ _ _ _ _ _ M) as GT. rewrite role_proof_eq in GT. unfold get_time in GT.
      pose proof (ho_types _ _ _ _ HO) as [TN _].
      assert (UT : forall z, used last me hd z -> i_atime z <= i_time z /\ i_time z < u64_max).
      { intros z U. destruct (used_point z U) as (q & a & P & _). destruct (verified_dest c peers z q a SProof P) as (_ & _ & _ & _ & _ & _ & _ & AT).
        split; [exact AT|]. exact (pa_time _ _ _ _ _ P). }
      assert (PU : forall k l, prev = Some (k, l) -> used last me hd k).
      { intros k l E. destruct (prev_facts k l E) as (I & _). left. eauto. }
      assert (GO : forall at_, (exists z, used last me hd z /\ at_ <= i_time z) ->
        Some (N.max (hd_now hd) (tadd match match prev with Some (k, _) => Some k | None => None end with Some k => N.max at_ (i_time k) | None => at_ end 1), at_)
          = Some (i_time i, i_atime i) ->
        i_atime i = at_ /\ (forall k l, prev = Some (k, l) -> i_time k < i_time i) /\ i_atime i < i_time i /\ hd_now hd <= i_time i /\ i_time i <= u64_max).
      { clear GT. intros at_ (z & UZ & LE) E. inversion E as [[E1 E2]]; clear E. rewrite E2 in *. rewrite E1. destruct (UT z UZ) as [_ LT]. split; [reflexivity|].
        destruct prev as [[k l]|] eqn:PV.
        - destruct (UT k (PU k l eq_refl)) as [_ LTK]. unfold tadd in E1.
          split; [intros k' l' Q; inversion Q; subst k' l'; lia|]. lia.
        - unfold tadd in E1. split; [intros k' l' Q; discriminate|]. lia. }
      destruct (anchor_proof i) as [|th|[to th]] eqn:AP.
      - destruct prev as [[k l]|] eqn:PV; [|discriminate].
        destruct (GO (i_time k)) as (A & B & C & D & E); [exists k; split; [exact (PU k l eq_refl)|lia]|exact GT|].
        exists k. split; [exact (PU k l eq_refl)|]. rewrite A. split; [lia|]. rewrite A in C.
        repeat (split; [assumption|]). split; [intros _; eauto|]. intros k' th' _ [Q|[to Q]]; discriminate.
      - destruct (match th with ThInc q => aget N.eqb q inc | ThWit q => aget N.eqb q wit end) as [z|] eqn:AG; [|discriminate].
        assert (UZ : used last me hd z).
        { destruct th as [q|q]; apply aget_some_in in AG; try exact N.eqb_spec; [left|right]; eauto. }
        destruct (UT z UZ) as [AZ LZ].
        destruct (GO (i_atime z)) as (A & B & C & D & E); [exists z; auto|exact GT|].
        exists z. split; [exact UZ|]. rewrite A. split; [exact AZ|]. rewrite A in C. repeat (split; [assumption|]).
        split; [discriminate|]. intros k' th' S [Q|[to Q]]; [|discriminate]. inversion Q; subst th'.
        rewrite (src_get k' th S) in AG. inversion AG. reflexivity.
      - destruct (match th with ThInc q => aget N.eqb q inc | ThWit q => aget N.eqb q wit end) as [z|] eqn:AG; [|discriminate].
        assert (UZ : used last me hd z).
        { destruct th as [q|q]; apply aget_some_in in AG; try exact N.eqb_spec; [left|right]; eauto. }
        destruct (UT z UZ) as [AZ LZ].
        destruct (GO (i_atime z)) as (A & B & C & D & E); [exists z; auto|exact GT|].
        exists z. split; [exact UZ|]. rewrite A. split; [exact AZ|]. rewrite A in C. repeat (split; [assumption|]).
        split; [discriminate|]. intros k' th' S [Q|[to' Q]]; [discriminate|]. inversion Q; subst th'.
        rewrite (src_get k' th S) in AG. inversion AG. reflexivity.
    Qed.
    (** the two links of the point *)
    Lemma link_forms s : anchor_link s i = ToSelf /\ (exists k l, prev = Some (k, l)) \/
      exists k th, src_ok inc wit k th /\ anchor_link s i = ldir s k th.
    Proof.
      destruct role_cases as (kp & tp & kt & tt' & SP & ST & EP & ET & _).
      destruct role_inv as [R|(k & l & PV & C)].
      - right. destruct s; [exists kt, tt'|exists kp, tp]; (split; [assumption|]); rewrite <- lnk_any;
          [rewrite <- ET; exact (links_of_role STrigger _ R eq_refl)|rewrite <- EP; exact (links_of_role SProof _ R eq_refl)].
      - destruct (prev_facts k l PV) as (I & PA & LA & LO & DG & PD & EV & NE & EN & S3 & STK & SK).
        assert (STS : forall n, sticky_anchors k = Some n -> anchor_proof k = ToSelf).
        { intros n. unfold sticky_anchors, chained_proof, anchor_proof. destruct (i_role k); intros Q; try discriminate. reflexivity. }
        assert (PRS : p = LDirect (ThInc me) -> anchor_proof k = ToSelf).
        { intros Q. rewrite EP in Q. unfold lnk in Q. destruct (is_self (anchor_link SProof kp)) eqn:SF; [|discriminate]. inversion Q as [QT].
          apply self_true in SF. pose proof (src_get kp tp SP) as G1. pose proof (src_get k _ SK) as G2. rewrite QT in G1. cbn in G1, G2.
          rewrite G1 in G2. inversion G2; subst kp. exact SF. }
        assert (TRG : anchor_proof k = ToSelf -> i_role i = AnchorTrigger -> anchor_link SProof i = ldir SProof k (ThInc me)).
        { intros Q R. cbn [anchor_link]. unfold anchor_proof, ldir. rewrite R. cbn [anchor_link]. rewrite Q. cbn [is_self].
          rewrite (md_author _ _ _ _ _ _ _ _ _ _ _ _ M). reflexivity. }
        assert (TRT : i_role i = AnchorTrigger -> anchor_link STrigger i = ToSelf).
        { intros R. cbn [anchor_link]. unfold anchor_trigger. rewrite R. reflexivity. }
        assert (STI : forall n, i_role i = Sticky n -> anchor_link s i = ToSelf).
        { intros n R. destruct s; cbn [anchor_link]; unfold anchor_trigger, anchor_proof; rewrite R; reflexivity. }
        destruct C as [(n & Q & _ & _ & R)|[(n & Q & R)|[(Q & PQ & _ & R)|[(Q & PQ & R)|(x & Q & PQ & FE & LD & R)]]]].
        + left. split; [exact (STI _ R)|eauto].
        + destruct s; [left; split; [exact (TRT R)|eauto]|right; exists k, (ThInc me); eauto].
        + left. split; [exact (STI _ R)|eauto].
        + destruct s; [left; split; [exact (TRT R)|eauto]|right; exists k, (ThInc me); eauto].
        + destruct s; [right; exists kt, tt'|left].
          * split; [exact ST|]. rewrite <- lnk_any, <- ET. cbn [anchor_link]. unfold anchor_trigger. rewrite R. destruct t; reflexivity.
          * split; [|eauto]. cbn [anchor_link]. unfold anchor_proof. rewrite R. reflexivity.
    Qed.
    Lemma prev_case : (exists k l, prev = Some (k, l)) \/ prev = None.
    Proof. clear M. destruct prev as [[k l]|]; eauto. Qed.
    Lemma made_proper : i_pbytes i <= c_payload c -> majority (hd_count hd) <= N.of_nat (length inc) ->
      proper c peers i /\ sets_ok c peers i /\ link_authors_known peers i.
    Proof.
      intros PB CNT. pose proof gr as [G0 G1].
      pose proof (md_round _ _ _ _ _ _ _ _ _ _ _ _ M) as MR. pose proof (md_author _ _ _ _ _ _ _ _ _ _ _ _ M) as MA.
      pose proof (md_inc _ _ _ _ _ _ _ _ _ _ _ _ M) as MI. pose proof (md_wit _ _ _ _ _ _ _ _ _ _ _ _ M) as MW.
      destruct role_cases as (kp & tp & kt & tt' & SP & ST & EP & ET & _).
      destruct time_facts as (z & UZ & AZ & TP & AT & NW & TU & TS & TH).
      assert (INC : forall q d, In (q, d) (i_includes i) -> In q (peers (r - 1))).
      { rewrite MI. intros q d I. destruct (refs_in _ _ _ I) as (q' & k & I' & <- & <-). pose proof (inc_point _ _ I') as P.
        rewrite (pa_author _ _ _ _ _ P). exact (pa_member _ _ _ _ _ P). }
      assert (SETS : sets_ok c peers i).
      { unfold sets_ok. rewrite MR. pose proof (ho_sets _ _ _ _ HO) as LS.
        split; [apply (LS r); lia|]. split; [intros E; apply (LS (r - 1)); [lia|lia|exact E]|].
        split; [intros E; apply (LS (r - 1)); lia|]. split; [intros E; apply (LS (r - 2)); [lia|lia|exact E]|].
        intros E1 E2. apply (LS (r - 2)); lia. }
      assert (PVD : (exists d, In (me, d) (i_includes i)) <-> exists k l, prev = Some (k, l)).
      { destruct prev_case as [(k & l & PV)|PV].
        - split; [eauto|intros _]. destruct (prev_facts k l PV) as (I & _). exists (i_digest k). rewrite MI. unfold refs.
          apply in_map_iff. exists (me, k). cbn [snd]. rewrite (inc_author _ _ I). auto.
        - split; [|intros (k & l & Q); congruence]. intros (d & I). destruct (no_prev_facts PV) as (PD & _).
          unfold prev_digest in PD. rewrite MA in PD. apply (aget_none N.eqb N.eqb_spec) in PD. exfalso. apply PD.
          unfold akeys. apply in_map_iff. exists (me, d). auto. }
      assert (AUTH : forall k th s, src_ok inc wit k th -> In (p_author (dest s k)) (peers (p_round (dest s k)))).
      { intros k th s S. destruct (used_point k (src_used _ _ S)) as (q & a & P & _).
        destruct (verified_dest c peers k q a s P) as (_ & _ & _ & _ & _ & X & _). exact X. }
      assert (CH : forall x, indirect_proof i = Some x -> p = LIndirect x /\ far_enough c r (p_round (il_to x)) = true).
      { intros x. unfold indirect_proof, chained_proof.
        destruct role_inv as [R|(k & l & PV & C)]; [rewrite R; discriminate|].
        destruct C as [(n & Q & _ & _ & R)|[(n & Q & R)|[(Q & PQ & _ & R)|[(Q & PQ & R)|(x' & Q & PQ & FE & LD & R)]]]]; rewrite R; try discriminate.
        intros E. inversion E; subst x'. auto. }
      assert (CHP : forall x, indirect_proof i = Some x -> is_self (anchor_link SProof kp) = false /\ x = mkIL (dest SProof kp) tp).
      { intros x E. destruct (CH x E) as [Q _]. rewrite EP in Q. unfold lnk in Q. destruct (is_self (anchor_link SProof kp)); inversion Q; auto. }
      split; [constructor|split; [exact SETS|]].
      - split; [exact G0|lia].
      - destruct role_inv as [R|(k & l & PV & C)]; [rewrite R; discriminate|].
        destruct C as [(n & Q & _ & _ & R)|[(n & Q & R)|[(Q & PQ & _ & R)|[(Q & PQ & R)|(x & Q & PQ & FE & LD & R)]]]]; rewrite R; discriminate.
      - rewrite MA, MR. exact (ho_member _ _ _ _ HO).
      - rewrite MR. exact INC.
      - rewrite MR, MI, refs_length. rewrite (ho_count _ _ _ _ HO) in CNT. unfold majority in CNT.
        destruct (N.eqb_spec (r - 1) (c_genesis c)) as [E|E].
        + split; [|lia]. destruct (ho_sets _ _ _ _ HO (r - 1) ltac:(lia) ltac:(lia)) as [X _]. rewrite (X E). reflexivity.
        + destruct (ho_sets _ _ _ _ HO (r - 1) ltac:(lia) ltac:(lia)) as [_ X]. destruct (X ltac:(lia)) as [X3 _]. split; [exact X3|]. lia.
      - rewrite MR, MW, MA. intros q d I. destruct (refs_in _ _ _ I) as (q' & k & I' & A & _). pose proof (wit_author _ _ I') as A'.
        rewrite A in A'. subst q'. destruct (wit_point _ _ I') as [P _]. split; [exact (pa_member _ _ _ _ _ P)|].
        intros ->. destruct (wit_in _ _ I') as (locs & HL & IL & SK). unfold skip_wit in SK. destruct last as [l|] eqn:LAST.
        + destruct (N.eqb_spec (lo_round l) (r - 1)) as [LR|LR]; [|rewrite N.eqb_refl in SK; discriminate].
          pose proof (MO l eq_refl LR) as LO. destruct (la_own _ _ _ _ _ LO locs k HL IL) as [d' ID].
          unfold amem in SK. destruct (aget N.eqb me (lo_includes l)) eqn:AG; [discriminate|]. apply (aget_none N.eqb N.eqb_spec) in AG.
          apply AG. unfold akeys. apply in_map_iff. exists (me, d'). auto.
        + rewrite N.eqb_refl in SK. discriminate.
      - rewrite MR, MW. intros E. destruct wit as [|[q k] w] eqn:W; [reflexivity|].
        destruct (wit_point q k) as [_ L]; [rewrite W; left; reflexivity|]. lia.
      - rewrite MA. rewrite PVD. destruct prev_case as [(k & l & PV)|PV].
        + destruct (prev_facts k l PV) as (_ & _ & _ & _ & _ & _ & EV & NE & _). rewrite EV. split; [intros _; exact NE|eauto].
        + destruct (no_prev_facts PV) as (_ & EV & _). rewrite EV. split; [intros (k & l & Q); congruence|congruence].
      - rewrite MR, MA. destruct prev_case as [(k & l & PV)|PV].
        + destruct (prev_facts k l PV) as (_ & _ & _ & LO & _ & _ & EV & _). rewrite EV. exact (la_evidence _ _ _ _ _ LO).
        + destruct (no_prev_facts PV) as (_ & EV & _). rewrite EV. intros q s [].
      - rewrite MR. destruct prev_case as [(k & l & PV)|PV].
        + destruct (prev_facts k l PV) as (_ & _ & _ & _ & _ & _ & EV & _ & EN & S3 & _). rewrite EV. auto.
        + destruct (no_prev_facts PV) as (_ & EV & _). rewrite EV. congruence.
      - exact AT.
      - exact PB.
      - intros s E. rewrite MA. apply PVD. destruct (link_forms s) as [[_ X]|(k & th & _ & X)]; [exact X|].
        rewrite E in X. unfold ldir in X. destruct (is_self (anchor_link s k)); discriminate.
      - intros s NS. destruct (link_forms s) as [[X _]|(k & th & S & X)]; [contradiction|].
        destruct (ldir_link s k th S X) as (A & B & RD). destruct (src_through k th S) as (_ & IN & LT).
        destruct (used_point k (src_used _ _ S)) as (q & a & P & LQ & RQ & GQ).
        destruct (verified_dest c peers k q a s P) as (_ & DR & DG & DL & DN & _).
        exists (i_id k), (dest s k). rewrite RD. repeat (split; [first [assumption | lia]|]).
        split; [unfold i_round in *; lia|]. split; [|lia].
        rewrite X. unfold ldir. destruct (is_self (anchor_link s k)) eqn:SF.
        + apply self_true in SF. apply dest_self. exact SF.
        + assert (N1 : anchor_link s k <> ToSelf) by (intros Q; rewrite Q in SF; discriminate). specialize (DN N1). unfold i_round in *. lia.
      - intros x E. destruct (CH x E) as [PQ FE]. destruct (CHP x E) as [SF XE].
        destruct (used_point kp (src_used _ _ SP)) as (q & a & P & LQ & RQ & GQ).
        destruct (verified_dest c peers kp q a SProof P) as (_ & DR & DG & DL & DN & _).
        assert (N1 : anchor_link SProof kp <> ToSelf) by (intros Q; rewrite Q in SF; discriminate). specialize (DN N1).
        destruct (src_through kp tp SP) as (T & IN & LT).
        subst x. cbn [il_to il_path] in *. rewrite DR in *. rewrite MR. split.
        { unfold far_enough in FE. destruct (c_sticky c =? 0); lia. }
        split; [exact DG|]. exists (i_id kp). repeat (split; [assumption|]). exact DN.
      - intros n E. unfold sticky_anchors, chained_proof in E.
        destruct role_inv as [R|(k & l & PV & C)]; [rewrite R in E; discriminate|].
        destruct C as [(n' & Q & LT & _ & R)|[(n' & Q & R)|[(Q & PQ & LT & R)|[(Q & PQ & R)|(x & Q & PQ & FE & LD & R)]]]];
          rewrite R in E; try discriminate; inversion E; subst n; lia.
      - split.
        + intros x E. destruct (CHP x E) as [SF ->]. cbn [il_to]. exact (AUTH kp tp SProof SP).
        + intros s x E. destruct (link_forms s) as [[X _]|(k & th & S & X)]; [congruence|].
          rewrite E in X. unfold ldir in X. destruct (is_self (anchor_link s k)); [discriminate|]. inversion X; subst x. cbn [il_to].
          exact (AUTH k th s S).
    Qed.
    Lemma made_info_ok : info_ok i.
    Proof.
      pose proof (md_round _ _ _ _ _ _ _ _ _ _ _ _ M) as MR. destruct time_facts as (z & _ & _ & _ & _ & _ & TU & _).
      unfold info_ok. rewrite (md_inc _ _ _ _ _ _ _ _ _ _ _ _ M), (md_wit _ _ _ _ _ _ _ _ _ _ _ _ M), MR.
      rewrite (refs_keys inc inc_author), (refs_keys wit wit_author).
      split; [exact (ho_reached_once _ _ _ _ HO)|]. split; [exact wit_once|]. split.
      - destruct prev_case as [(k & l & PV)|PV].
        + destruct (prev_facts k l PV) as (_ & _ & _ & LO & _ & _ & EV & _). rewrite EV. exact (la_evidence_once _ _ _ _ _ LO).
        + destruct (no_prev_facts PV) as (_ & EV & _). rewrite EV. constructor.
      - pose proof (ho_genesis _ _ _ _ HO). split; [lia|exact TU].
    Qed.
  End One.
End Made.

Lemma own_point_made c last fetch hd me dg i : hd_me hd = Some me -> own_point c last fetch hd dg = PMade i ->
  majority (hd_count hd) <= N.of_nat (length (hd_reached hd)) /\ i_digest i = dg /\ i_plen i = fst (fetch (only_fresh last)) /\
  i_pbytes i = snd (fetch (only_fresh last)) /\
  exists p t prev, made c last me (hd_round hd) (hd_leader hd) (hd_reached hd) (witness_of last me hd) (hd_now hd) p t prev i.
Proof.
  intros HM E.
  assert (NP : new_point c last fetch hd dg = PMade i).
  { unfold own_point in E. destruct last as [l|]; [|exact E]. destruct (lo_round l <? hd_round hd - 1); [exact E|].
    destruct (lo_round l =? hd_round hd - 1); [|discriminate]. destruct (_ <=? _); [exact E|discriminate]. }
  clear E. unfold new_point in NP. rewrite HM in NP.
  destruct (N.leb_spec (majority (hd_count hd)) (N.of_nat (length (hd_reached hd)))) as [L|L]; [|discriminate].
  split; [exact L|]. exact (create_made _ _ _ _ _ _ _ _ _ _ _ NP).
Qed.
(** C73: a produced point is a verified point of the node, of the round, with the digest it was given; its maps have one entry
    per peer *)
Theorem produced_verified c peers last fetch hd me dg i :
  head_ok c peers hd me -> memory_ok c peers hd me last -> (forall b, snd (fetch b) <= c_payload c) ->
  own_point c last fetch hd dg = PMade i ->
  basic_verify c peers i = VOk /\ info_ok i /\ i_id i = mkPid (hd_round hd) dg me.
Proof.
  intros HO MO PL E. destruct (own_point_made _ _ _ _ _ _ _ (ho_me _ _ _ _ HO) E) as (L & D & _ & B & p & t & prev & M).
  destruct (made_proper c peers last me hd HO MO p t prev i M) as (P & S & K); [rewrite B; apply PL|exact L|].
  split; [apply proper_is_verified; assumption|]. split; [eapply made_info_ok; eauto|].
  pose proof (md_round _ _ _ _ _ _ _ _ _ _ _ _ M) as R. pose proof (md_author _ _ _ _ _ _ _ _ _ _ _ _ M) as A.
  unfold i_round, i_author, i_digest in *. destruct (i_id i). cbn in *. congruence.
Qed.
