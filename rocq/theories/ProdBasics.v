(** Lemmas on the producer's choice of links. *)
From Verif Require Import VerModel VerSpec VerCheck VerBasic VerProper VerThms ProdModel ProdSpec PeerCountModel.
From Coq Require Import ZArith ZifyN ZifyNat ZifyBool.
Local Open Scope N_scope.

Lemma max_by_some f l k : max_by f l = Some k -> (exists p, In (p, k) l) /\ forall p j, In (p, j) l -> f j <= f k.
Proof.
  revert k. induction l as [|[p i] l IH]; cbn [max_by]; intros k E; [discriminate|].
  destruct (max_by f l) as [j|] eqn:M.
  - destruct (IH j eq_refl) as [[q I] MX]. destruct (N.leb_spec (f i) (f j)) as [L|L]; inversion E; subst k.
    + split; [exists q; right; exact I|]. intros q' j' [Q|Q]; [inversion Q; subst; exact L|eauto].
    + split; [exists p; left; reflexivity|]. intros q' j' [Q|Q]; [inversion Q; lia|]. specialize (MX _ _ Q). lia.
  - inversion E; subst k. split; [exists p; left; reflexivity|]. intros q' j' [Q|Q]; [inversion Q; lia|].
    destruct l as [|[p2 i2] l]; [destruct Q|]. cbn [max_by] in M. destruct (max_by f l) as [z|]; [destruct (f i2 <=? f z)|]; discriminate.
Qed.
Lemma max_by_none f l : max_by f l = None -> l = [].
Proof.
  destruct l as [|[p i] l]; cbn [max_by]; [reflexivity|]. destruct (max_by f l) as [j|]; [destruct (f i <=? f j)|]; discriminate.
Qed.

(** the source of a link and the path to it *)
Definition src_ok (inc wit : list (peer * info)) (k : info) (th : through) : Prop :=
  ((exists p, In (p, k) inc) /\ th = ThInc (i_author k)) \/ ((exists p, In (p, k) wit) /\ th = ThWit (i_author k)).
Lemma link_source_spec inc wit s k th : link_source inc wit s = Some (k, th) ->
  src_ok inc wit k th /\ forall p j, In (p, j) inc \/ In (p, j) wit -> anchor_round s j <= anchor_round s k.
Proof.
  unfold link_source, src_ok. destruct (max_by (anchor_round s) inc) as [a|] eqn:MI; [|discriminate].
  destruct (max_by_some _ _ _ MI) as [IA MA].
  destruct (max_by (anchor_round s) wit) as [w|] eqn:MW.
  - destruct (max_by_some _ _ _ MW) as [IW MXW].
    destruct (N.ltb_spec (anchor_round s a) (anchor_round s w)) as [L|L]; intros E; inversion E; subst k th.
    + split; [right; auto|]. intros p j [I|I]; [specialize (MA _ _ I); lia|eauto].
    + split; [left; auto|]. intros p j [I|I]; [eauto|specialize (MXW _ _ I); lia].
  - intros E; inversion E; subst k th. split; [left; auto|]. apply max_by_none in MW. subst wit.
    intros p j [I|[]]. eauto.
Qed.

Definition lnk (s : srole) (k : info) (th : through) : alink :=
  if is_self (anchor_link s k) then LDirect th else LIndirect (mkIL (dest s k) th).
Definition ldir (s : srole) (k : info) (th : through) : anylink :=
  if is_self (anchor_link s k) then Direct th else Indirect (mkIL (dest s k) th).

Lemma verified_dest c peers k q p s : point_at c peers q p k ->
  anchor_id s k = Some (dest s k) /\ p_round (dest s k) = anchor_round s k /\ c_genesis c <= anchor_round s k /\
  anchor_round s k <= i_round k /\ (anchor_link s k <> ToSelf -> anchor_round s k < i_round k) /\
  In (p_author (dest s k)) (peers (p_round (dest s k))) /\ c_genesis c <= i_round k /\ i_atime k <= i_time k.
Proof.
  intros [A R M V T TM].
  assert (TS : anchor_link s k = ToSelf -> anchor_id s k = Some (i_id k) /\ dest s k = i_id k /\ anchor_round s k = i_round k).
  { intros L. unfold dest, anchor_id, anchor_through, anchor_round. rewrite L. auto. }
  destruct (N.eq_dec (i_round k) (c_genesis c)) as [G|NG].
  - destruct (verified_genesis _ _ _ V G) as (RL & _ & _ & _ & _ & TE & _).
    assert (L : anchor_link s k = ToSelf) by (destruct s; cbn; unfold anchor_trigger, anchor_proof; rewrite RL; reflexivity).
    destruct (TS L) as (B & D & E). rewrite B, D, E. unfold i_author, i_round in *.
    repeat split; try lia; try congruence; rewrite A, R; exact M.
  - destruct (verified_is_proper _ _ _ V NG) as (P & SO & LK). destruct (pr_after _ _ _ P) as [G0 G1]. pose proof (pr_time _ _ _ P) as TT.
    destruct (is_self (anchor_link s k)) eqn:SF.
    + apply self_true in SF. destruct (TS SF) as (B & D & E). rewrite B, D, E. unfold i_author, i_round in *.
      repeat split; try lia; try congruence; rewrite A, R; exact M.
    + assert (L : anchor_link s k <> ToSelf) by (intros Q; rewrite Q in SF; discriminate).
      destruct (pr_link _ _ _ P s L) as (th & to & TH & IN & ID & PR & GE & LE & CASE & LT).
      assert (D : dest s k = to) by (unfold dest; rewrite ID; reflexivity). rewrite D, ID.
      assert (KN : In (p_author to) (peers (p_round to))).
      { destruct (anchor_link s k) as [|t|l] eqn:AL; [congruence| |].
        - subst to. unfold dep_ids in IN. apply in_app_iff in IN. destruct IN as [IN|IN]; apply in_map_iff in IN;
            destruct IN as ([p' d'] & <- & IN); cbn [p_author p_round fst snd].
          + exact (pr_inc_known _ _ _ P _ _ IN).
          + apply (pr_wit_known _ _ _ P _ _ IN).
        - unfold anchor_id in ID. rewrite AL in ID. inversion ID; subst to. exact (proj2 LK s l AL). }
      repeat split; try assumption; lia.
Qed.

Section Links.
  Context (c : vconf) (peers : round -> list peer) (r : round) (inc wit : list (peer * info)).
  Context (GR : 0 < c_genesis c /\ c_genesis c < r).
  Context (PI : forall p k, In (p, k) inc -> point_at c peers (r - 1) p k).
  Context (PW : forall p k, In (p, k) wit -> point_at c peers (r - 2) p k /\ c_genesis c < r - 1).

  Lemma src_point k th : src_ok inc wit k th -> exists q, point_at c peers q (i_author k) k /\
    ((q = r - 1 /\ th = ThInc (i_author k) /\ In (i_author k, k) inc) \/
     (q = r - 2 /\ th = ThWit (i_author k) /\ In (i_author k, k) wit)) /\ q < r /\ c_genesis c <= q.
  Proof.
    intros [[[p I] ->]|[[p I] ->]].
    - pose proof (PI _ _ I) as P. pose proof (pa_author _ _ _ _ _ P) as E. rewrite E. exists (r - 1). rewrite <- E in *.
      split; [exact P|]. split; [left; auto|]. lia.
    - destruct (PW _ _ I) as [P G]. pose proof (pa_author _ _ _ _ _ P) as E. rewrite E. exists (r - 2). rewrite <- E in *.
      split; [exact P|]. split; [right; auto|]. lia.
  Qed.
  Lemma mk_link_spec k th s : src_ok inc wit k th -> mk_link r (k, th) s = Some (lnk s k th).
  Proof.
    intros S. destruct (src_point k th S) as (q & P & CASE & L & GQ).
    destruct (verified_dest c peers k q _ s P) as (ID & _). pose proof (pa_round _ _ _ _ _ P) as RQ.
    unfold mk_link, rprev. cbn [fst snd]. rewrite ID, RQ. unfold lnk.
    destruct (N.eqb_spec r 0) as [Z|Z]; [lia|]. destruct CASE as [(-> & -> & _)|(-> & -> & I)].
    - rewrite N.eqb_refl. destruct (is_self (anchor_link s k)); reflexivity.
    - destruct (PW _ _ I) as [_ G]. destruct (N.eqb_spec (r - 1) 0) as [Z'|Z']; [lia|].
      replace (r - 1 - 1) with (r - 2) by lia. rewrite N.eqb_refl. destruct (is_self (anchor_link s k)); reflexivity.
  Qed.
  Lemma links_some : inc <> [] -> exists p t, anchor_links r inc wit = Some (p, t).
  Proof.
    intros NE. unfold anchor_links.
    assert (LS : forall s, exists k th, link_source inc wit s = Some (k, th)).
    { intros s. unfold link_source. destruct (max_by (anchor_round s) inc) as [a|] eqn:E; [|apply max_by_none in E; contradiction].
      destruct (max_by (anchor_round s) wit) as [w|]; [destruct (anchor_round s a <? anchor_round s w)|]; eauto. }
    destruct (LS STrigger) as (kt & tt' & ET), (LS SProof) as (kp & tp & EP). rewrite ET, EP. cbn [fst].
    destruct (link_source_spec _ _ _ _ _ ET) as [ST _]. destruct (link_source_spec _ _ _ _ _ EP) as [SP _].
    rewrite (mk_link_spec kt tt' STrigger ST).
    destruct (anchor_round SProof kp <? anchor_round STrigger kt).
    - rewrite (mk_link_spec kt tt' SProof ST). eauto.
    - rewrite (mk_link_spec kp tp SProof SP). eauto.
  Qed.
  Lemma links_spec p t : anchor_links r inc wit = Some (p, t) -> exists kp tp kt tt',
    src_ok inc wit kp tp /\ src_ok inc wit kt tt' /\ p = lnk SProof kp tp /\ t = lnk STrigger kt tt' /\
    (forall q j, In (q, j) inc \/ In (q, j) wit -> anchor_round STrigger j <= anchor_round STrigger kt) /\
    ((anchor_round STrigger kt <= anchor_round SProof kp /\
      forall q j, In (q, j) inc \/ In (q, j) wit -> anchor_round SProof j <= anchor_round SProof kp) \/
     (kp = kt /\ tp = tt' /\ forall q j, In (q, j) inc \/ In (q, j) wit -> anchor_round SProof j < anchor_round STrigger kt)).
  Proof.
    unfold anchor_links. destruct (link_source inc wit STrigger) as [[kt tt']|] eqn:ET; [|discriminate].
    destruct (link_source inc wit SProof) as [[kp tp]|] eqn:EP; [|discriminate]. cbn [fst].
    destruct (link_source_spec _ _ _ _ _ ET) as [ST MT]. destruct (link_source_spec _ _ _ _ _ EP) as [SP MP].
    rewrite (mk_link_spec kt tt' STrigger ST).
    destruct (N.ltb_spec (anchor_round SProof kp) (anchor_round STrigger kt)) as [L|L].
    - rewrite (mk_link_spec kt tt' SProof ST). intros E. inversion E; subst p t.
      exists kt, tt', kt, tt'. repeat (split; [first [assumption | reflexivity]|]). right.
      repeat (split; [reflexivity|]). intros q j I. specialize (MP _ _ I). lia.
    - rewrite (mk_link_spec kp tp SProof SP). intros E. inversion E; subst p t.
      exists kp, tp, kt, tt'. repeat (split; [first [assumption | reflexivity]|]). left. auto.
  Qed.
End Links.

(** ** maps of references *)
Lemma refs_in l p d : In (p, d) (refs l) -> exists q k, In (q, k) l /\ i_author k = p /\ i_digest k = d.
Proof. unfold refs. intros I. apply in_map_iff in I. destruct I as ([q k] & E & I). inversion E. eauto. Qed.
Lemma refs_keys l : (forall p k, In (p, k) l -> i_author k = p) -> akeys (refs l) = map fst l.
Proof.
  unfold akeys, refs. induction l as [|[p k] l IH]; intros H; [reflexivity|]. cbn [map fst snd].
  rewrite (H p k) by (left; reflexivity). f_equal. apply IH. intros p' k' I. apply H. right. exact I.
Qed.
Lemma refs_get l p k : (forall p k, In (p, k) l -> i_author k = p) -> NoDup (map fst l) -> In (p, k) l ->
  aget N.eqb p (refs l) = Some (i_digest k).
Proof.
  intros A N I. apply (aget_in N.eqb N.eqb_spec). { rewrite (refs_keys l A). exact N. }
  unfold refs. apply in_map_iff. exists (p, k). cbn [snd]. rewrite (A _ _ I). auto.
Qed.
Lemma refs_get_none l p : (forall p k, In (p, k) l -> i_author k = p) -> aget N.eqb p (refs l) = None <-> aget N.eqb p l = None.
Proof.
  intros A. rewrite !(aget_none N.eqb N.eqb_spec). rewrite (refs_keys l A). reflexivity.
Qed.
Lemma refs_length l : length (refs l) = length l.
Proof. apply map_length. Qed.

Lemma sel_wit_in skip l p k : In (p, k) (sel_wit skip l) <-> In (p, Some k) l /\ skip p = false.
Proof.
  induction l as [|[q [j|]] l IH]; cbn [sel_wit].
  - cbn. tauto.
  - destruct (skip q) eqn:S; [rewrite IH|cbn [In]; rewrite IH]; cbn [In]; split.
    + intros [I F]; auto.
    + intros [[E|I] F]; [inversion E; subst; congruence|auto].
    + intros [E|[I F]]; [inversion E; subst; auto|auto].
    + intros [[E|I] F]; [inversion E; subst; auto|auto].
  - rewrite IH. cbn [In]. split; [intros [I F]; auto|intros [[E|I] F]; [discriminate|auto]].
Qed.
Lemma sel_wit_nodup skip l : NoDup (map fst l) -> NoDup (map fst (sel_wit skip l)).
Proof.
  induction l as [|[q [j|]] l IH]; cbn [sel_wit map fst]; intros N; [constructor| |]; inversion N as [|? ? NI N']; subst.
  - destruct (skip q); [auto|]. cbn [map fst]. constructor; [|auto]. intros I. apply NI.
    apply in_map_iff in I. destruct I as ([p k] & E & I). cbn in E. subst p. apply sel_wit_in in I. apply in_map_iff. exists (q, Some k). tauto.
  - auto.
Qed.
