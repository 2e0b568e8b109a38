(** Property C28: the deduplication window of external messages. *)
From Verif Require Import DedupModel.
From Coq Require Import Sorting.Sorted Arith.
Local Open Scope N_scope.

(** ** Specification: histories of the deduplicator *)
Inductive op := Check (round h : N) | Clean (round : N).
Definition op_round (o : op) : N := match o with Check r _ | Clean r => r end.
(** How the parser uses it (parser.rs:31-33, shuttle.rs:120): rounds never decrease, start at 1, and after [clean(r)] only later
    rounds are checked. *)
Definition ordered (past : list op) (o : op) : Prop :=
  1 <= op_round o /\ Forall (fun p => op_round p <= op_round o) past /\
  (forall r h c, o = Check r h -> In (Clean c) past -> c < r).
Inductive run (thr : N) : list op -> dedup -> list bool -> Prop :=
| RunNew : run thr [] (ded_new thr) []
| RunCheck past d out r h d' b : run thr past d out -> ordered past (Check r h) -> check_unique r h d = Some (d', b) ->
    run thr (past ++ [Check r h]) d' (out ++ [b])
| RunClean past d out r d' : run thr past d out -> ordered past (Clean r) -> clean r d = Some d' ->
    run thr (past ++ [Clean r]) d' out.
(** [h] was offered in round [r] before *)
Definition seen (past : list op) (r h : N) : Prop := In (Check r h) past.

(** ** Proofs *)
Lemma memb_in h l : memb h l = true <-> In h l.
Proof. unfold memb. rewrite existsb_exists. split; [intros (x & I & E); apply N.eqb_eq in E; now subst|intros I; exists h; split; auto; apply N.eqb_refl]. Qed.
Lemma memb_nin h l : memb h l = false <-> ~ In h l.
Proof. rewrite <- memb_in. destruct (memb h l); split; intros; auto; try discriminate; tauto. Qed.

Definition holds (l : list (N * list N)) (r h : N) : Prop := exists hs, In (r, hs) l /\ In h hs.
Definition keys_lt (l : list (N * list N)) : Prop := StronglySorted (fun a b => fst a < fst b) l.

Lemma keys_lt_nodup r a b l : keys_lt l -> In (r, a) l -> In (r, b) l -> a = b.
Proof.
  induction 1 as [|[k v] l S IH F]; [intros []|]. rewrite Forall_forall in F. intros [E1|I1] [E2|I2].
  - congruence.
  - injection E1 as -> ->. specialize (F _ I2). cbn in F. lia.
  - injection E2 as -> ->. specialize (F _ I1). cbn in F. lia.
  - auto.
Qed.

Lemma entry_insert_spec r h l l' b : keys_lt l -> Forall (fun e => fst e <= r) l -> entry_insert r h l = (l', b) ->
  (b = false <-> holds l r h) /\ (forall r' h', holds l' r' h' <-> holds l r' h' \/ (r' = r /\ h' = h)) /\
  keys_lt l' /\ Forall (fun e => fst e <= r) l'.
Proof.
  revert l' b. induction l as [|[k v] l IH]; intros l' b K F E; cbn [entry_insert] in E.
  - injection E as <- <-. split; [|split; [|split]].
    + split; [discriminate|]. intros (hs & [] & _).
    + intros r' h'. unfold holds. split.
      * intros (hs & [X|[]] & I). injection X as <- <-. destruct I as [->|[]]. auto.
      * intros [(hs & [] & _)|[-> ->]]. exists [h]. split; now left.
    + repeat constructor.
    + repeat constructor. cbn. lia.
  - inversion K as [|? ? K1 K2]; subst. inversion F as [|? ? F1 F2]; subst. cbn [fst] in *. destruct (N.eqb_spec r k) as [->|NE].
    + assert (NI : forall hs, ~ In (k, hs) l) by (intros hs I; rewrite Forall_forall in K2; specialize (K2 _ I); cbn in K2; lia).
      destruct (memb h v) eqn:M; injection E as <- <-.
      * apply memb_in in M. assert (H0 : holds ((k, v) :: l) k h) by (exists v; split; [now left|auto]). split; [tauto|]. split; [|auto].
        intros r' h'. split; auto. intros [X|[-> ->]]; auto.
      * apply memb_nin in M. split; [|split; [|split]].
        -- split; [discriminate|]. intros (hs & [X|X] & I); [injection X as <-; contradiction|exfalso; eapply NI; eauto].
        -- intros r' h'. unfold holds. cbn [In]. split.
           ++ intros (hs & [X|X] & I).
              ** injection X as <- <-. destruct I as [->|I]; auto. left. exists v. auto.
              ** left. exists hs. auto.
           ++ intros [(hs & [X|X] & I)|[-> ->]].
              ** injection X as <- <-. exists (h :: v). split; [auto|now right].
              ** exists hs. auto.
              ** exists (h :: v). split; [auto|now left].
        -- constructor; auto.
        -- constructor; auto.
    + destruct (entry_insert r h l) as [t' b'] eqn:EI. injection E as <- <-. destruct (IH t' b' K1 F2 eq_refl) as (A & B & C & D).
      split; [|split; [|split]].
      * rewrite A. unfold holds. cbn [In]. split; intros (hs & I & J).
        -- exists hs; auto.
        -- destruct I as [X|X]; [congruence|exists hs; auto].
      * intros r' h'. split.
        -- intros (hs & [X|X] & I).
           ++ left. exists hs. split; [now left|auto].
           ++ destruct (proj1 (B r' h') (ex_intro _ hs (conj X I))) as [(hs' & ? & ?)|]; auto. left. exists hs'. split; [now right|auto].
        -- intros [(hs & [X|X] & I)|Q].
           ++ exists hs. split; [now left|auto].
           ++ destruct (proj2 (B r' h') (or_introl (ex_intro _ hs (conj X I)))) as (hs' & ? & ?). exists hs'. split; [now right|auto].
           ++ destruct (proj2 (B r' h') (or_intror Q)) as (hs' & ? & ?). exists hs'. split; [now right|auto].
      * constructor; auto.
        (* keys of t' are keys of l or r *)
        assert (KK : forall e, In e t' -> fst e = r \/ exists hs, In (fst e, hs) l).
        { clear - EI. revert t' b' EI. induction l as [|[k2 v2] l IH]; intros t' b' EI; cbn [entry_insert] in EI.
          - injection EI as <- <-. intros e [<-|[]]. auto.
          - destruct (N.eqb_spec r k2) as [->|].
            + destruct (memb h v2); injection EI as <- <-; intros e [<-|I]; auto; right; exists (snd e); right; destruct e; exact I.
            + destruct (entry_insert r h l) as [x y]. injection EI as <- <-. intros e [<-|I]; [right; exists v2; now left|].
              destruct (IH _ _ eq_refl e I) as [|(hs & Q)]; auto. right. exists hs. now right. }
        rewrite Forall_forall in *. intros e I. destruct (KK e I) as [->|(hs & Q)]; [cbn; lia|]. exact (K2 _ Q).
      * constructor; auto.
Qed.

Lemma entry_remove_spec r h l l' o : keys_lt l -> entry_remove r h l = (l', o) ->
  (o = None <-> forall hs, ~ In (r, hs) l) /\ (o = Some true <-> holds l r h) /\
  (forall r' h', holds l' r' h' <-> holds l r' h' /\ ~ (r' = r /\ h' = h)) /\ map fst l' = map fst l.
Proof.
  revert l' o. induction l as [|[k v] l IH]; intros l' o K E; cbn [entry_remove] in E.
  - injection E as <- <-. split; [|split; [|split]]; auto.
    + split; auto.
    + split; [discriminate|intros (? & [] & _)].
    + intros r' h'. split; [intros (? & [] & _)|intros [(? & [] & _) _]].
  - inversion K as [|? ? K1 K2]; subst. destruct (N.eqb_spec r k) as [->|NE].
    + injection E as <- <-.
      assert (NI : forall hs, ~ In (k, hs) l) by (intros hs I; rewrite Forall_forall in K2; specialize (K2 _ I); cbn in K2; lia).
      split; [|split; [|split]]; auto.
      * split; [discriminate|]. intros X. exfalso. apply (X v). now left.
      * split.
        -- intros X. injection X as X. apply memb_in in X. exists v. split; [now left|auto].
        -- intros (hs & [X|X] & I); [injection X as <-; apply memb_in in I; congruence|exfalso; eapply NI; eauto].
      * intros r' h'. split.
        -- intros (hs & [X|X] & I).
           ++ injection X as <- <-. apply filter_In in I as [I Q]. split; [exists v; split; [now left|auto]|]. intros [_ ->]. now rewrite N.eqb_refl in Q.
           ++ split; [exists hs; split; [now right|auto]|]. intros [-> _]. eapply NI; eauto.
        -- intros [(hs & [X|X] & I) Q].
           ++ injection X as <- <-. exists (filter (fun x => negb (x =? h)) v). split; [now left|]. apply filter_In. split; auto.
              destruct (N.eqb_spec h' h); auto.
           ++ exists hs. split; [now right|auto].
    + destruct (entry_remove r h l) as [t' b'] eqn:EI. injection E as <- <-. destruct (IH t' b' K1 eq_refl) as (A & B & C & D).
      split; [|split; [|split]].
      * rewrite A. split; intros X hs I; [destruct I as [I|I]; [congruence|eapply X; eauto]|eapply X; right; eauto].
      * rewrite B. unfold holds. cbn [In]. split; intros (hs & I & J); [exists hs; auto|destruct I as [I|I]; [congruence|exists hs; auto]].
      * intros r' h'. split.
        -- intros (hs & [X|X] & I).
           ++ injection X as <- <-. split; [exists v; split; [now left|auto]|intros [? _]; congruence].
           ++ destruct (proj1 (C r' h') (ex_intro _ hs (conj X I))) as [(hs' & ? & ?) ?]. split; auto. exists hs'. split; [now right|auto].
        -- intros [(hs & [X|X] & I) Q].
           ++ exists hs. split; [now left|auto].
           ++ destruct (proj2 (C r' h') (conj (ex_intro _ hs (conj X I)) Q)) as (hs' & ? & ?). exists hs'. split; [now right|auto].
      * cbn [map fst]. now rewrite D.
Qed.

Definition sets_nodup (l : list (N * list N)) : Prop := Forall (fun e => NoDup (snd e)) l.
Lemma entry_insert_nodup r h l l' b : sets_nodup l -> entry_insert r h l = (l', b) -> sets_nodup l'.
Proof.
  revert l' b. induction l as [|[k v] l IH]; intros l' b F E; cbn [entry_insert] in E.
  - injection E as <- <-. constructor; [|constructor]. cbn. repeat constructor. intros [].
  - inversion F; subst. cbn [snd] in *. destruct (N.eqb_spec r k) as [->|].
    + destruct (memb h v) eqn:M; injection E as <- <-; constructor; auto. apply memb_nin in M. cbn. constructor; auto.
    + destruct (entry_insert r h l) as [x y]. injection E as <- <-. constructor; auto. eapply IH; eauto.
Qed.
Lemma entry_remove_nodup r h l l' b : sets_nodup l -> entry_remove r h l = (l', b) -> sets_nodup l'.
Proof.
  revert l' b. induction l as [|[k v] l IH]; intros l' b F E; cbn [entry_remove] in E.
  - injection E as <- <-. constructor.
  - inversion F; subst. cbn [snd] in *. destruct (N.eqb_spec r k) as [->|].
    + injection E as <- <-. constructor; auto. cbn. now apply NoDup_filter.
    + destruct (entry_remove r h l) as [x y]. injection E as <- <-. constructor; auto. eapply IH; eauto.
Qed.

Lemma keys_lt_map l l' : map fst l = map fst l' -> keys_lt l -> keys_lt l'.
Proof.
  intros E K. unfold keys_lt in *. revert l' E. induction K as [|a l S IH F]; intros [|b l'] E; try discriminate; [constructor|].
  injection E as E1 E2. constructor; auto. apply Forall_forall. intros x Hx.
  assert (In (fst x) (map fst l)) by (rewrite E2; now apply in_map). apply in_map_iff in H as (y & <- & Hy). rewrite Forall_forall in F. rewrite <- E1. auto.
Qed.

Record inv (thr : N) (past : list op) (d : dedup) : Prop := {
  iv_thr : d_thr d = thr;
  iv_keys : keys_lt (d_rounds d);
  iv_nodup : sets_nodup (d_rounds d);
  iv_pos : Forall (fun o => 1 <= op_round o) past;
  iv_link : forall r h, aget N.eqb h (d_max d) = Some r <-> holds (d_rounds d) r h;
  iv_seen : forall r h, aget N.eqb h (d_max d) = Some r -> seen past r h /\ forall r', seen past r' h -> r' <= r;
  iv_gone : forall r h, seen past r h ->
      (exists r', r <= r' /\ aget N.eqb h (d_max d) = Some r') \/ (exists c, In (Clean c) past /\ r < bottom c thr);
  iv_round : forall r hs, In (r, hs) (d_rounds d) -> exists o, In o past /\ op_round o = r }.

Lemma reflN a b : reflect (a = b) (N.eqb a b). Proof. apply N.eqb_spec. Qed.

Lemma firstn_filter l bot : keys_lt l -> firstn (length (filter (fun e : N * list N => fst e <? bot) l)) l = filter (fun e => fst e <? bot) l /\
  skipn (length (filter (fun e : N * list N => fst e <? bot) l)) l = filter (fun e => negb (fst e <? bot)) l.
Proof.
  induction 1 as [|a l S [IH1 IH2] F]; [split; reflexivity|]. cbn [filter]. destruct (N.ltb_spec (fst a) bot) as [L|L]; cbn [length firstn skipn negb].
  - now rewrite IH1, IH2.
  - assert (E : filter (fun e : N * list N => fst e <? bot) l = []).
    { rewrite Forall_forall in F. clear - F L. induction l as [|x l IH]; auto. cbn [filter]. assert (fst a < fst x) by (apply F; now left). destruct (N.ltb_spec (fst x) bot); [lia|].
      apply IH. intros y Hy. apply F. now right. }
    rewrite E in *. cbn [length firstn skipn] in *. split; auto. f_equal. exact IH2.
Qed.


Lemma seen_app past o r h : seen (past ++ [o]) r h <-> seen past r h \/ o = Check r h.
Proof. unfold seen. rewrite in_app_iff. cbn [In]. tauto. Qed.

Lemma check_inv thr past d r h : inv thr past d -> ordered past (Check r h) -> exists d' b, check_unique r h d = Some (d', b) /\
  inv thr (past ++ [Check r h]) d' /\
  (b = true <-> ~ exists r', seen past r' h /\ (r' = r \/ r < r' + thr)).
Proof.
  intros [IT IK IN IP IL IS IG IR] (O1 & O2 & O3). cbn [op_round] in *.
  assert (LE : forall o, In o past -> op_round o <= r) by (rewrite Forall_forall in O2; exact O2).
  assert (SLE : forall r' h', seen past r' h' -> r' <= r) by (intros r' h' S; exact (LE _ S)).
  assert (SPOS : forall r' h', seen past r' h' -> 1 <= r') by (rewrite Forall_forall in IP; intros r' h' S; exact (IP _ S)).
  assert (BND : Forall (fun e => fst e <= r) (d_rounds d)).
  { apply Forall_forall. intros [k v] I. destruct (IR _ _ I) as (o & Io & <-). cbn. auto. }
  assert (POS' : Forall (fun o => 1 <= op_round o) (past ++ [Check r h])) by (apply Forall_app; split; auto).
  unfold check_unique. destruct (entry_insert r h (d_rounds d)) as [rounds first] eqn:EI.
  destruct (entry_insert_spec _ _ _ _ _ IK BND EI) as (A & B & C & D). pose proof (entry_insert_nodup _ _ _ _ _ IN EI) as ND.
  assert (RB : forall l' : list (N * list N), map fst l' = map fst rounds -> forall k hs, In (k, hs) l' -> exists o, In o (past ++ [Check r h]) /\ op_round o = k).
  { intros l' E k hs I. assert (Ik : In k (map fst rounds)) by (rewrite <- E; apply (in_map fst) in I; exact I).
    apply in_map_iff in Ik as ([k' v'] & Ek & Ik). cbn in Ek. subst k'.
    assert (KK : k = r \/ exists hs, In (k, hs) (d_rounds d)).
    { clear - EI Ik. revert rounds first EI Ik. induction (d_rounds d) as [|[k2 v2] l IH]; intros t' b' EI Ik; cbn [entry_insert] in EI.
      - injection EI as <- <-. destruct Ik as [Ik|[]]. left; congruence.
      - destruct (N.eqb_spec r k2) as [->|].
        + destruct (memb h v2); injection EI as <- <-; destruct Ik as [Ik|Ik]; try (left; congruence); right; exists v'; now right.
        + destruct (entry_insert r h l) as [x y]. injection EI as <- <-. destruct Ik as [Ik|Ik]; [right; exists v2; left; congruence|].
          destruct (IH _ _ eq_refl Ik) as [|(hs & Q)]; auto. right. exists hs. now right. }
    destruct KK as [->|(hs' & I')].
    - exists (Check r h). split; [apply in_or_app; right; now left|reflexivity].
    - destruct (IR _ _ I') as (o & Io & E'). exists o. split; auto. apply in_or_app. now left. }
  destruct first.
  - assert (NH : ~ holds (d_rounds d) r h) by (intros X; apply A in X; discriminate).
    destruct (aget N.eqb h (d_max d)) as [old|] eqn:EG.
    + pose proof (proj1 (IL old h) EG) as HO. destruct (IS _ _ EG) as [SO MO].
      assert (old < r) by (pose proof (SLE _ _ SO); destruct (N.eq_dec old r); [subst; contradiction|lia]).
      destruct (N.ltb_spec old r); [|lia].
      destruct (entry_remove old h rounds) as [rounds' o] eqn:ER. destruct (entry_remove_spec _ _ _ _ _ C ER) as (F1 & F2 & F3 & F4).
      assert (o = Some true) by (apply F2, B; auto). subst o.
      exists (Ded (aset N.eqb h r (d_max d)) rounds' (d_thr d)), (old <? bottom r (d_thr d)). split; [reflexivity|]. split.
      * split; cbn [d_thr d_max d_rounds]; auto.
        -- eapply keys_lt_map; [symmetry; exact F4|exact C].
        -- eapply entry_remove_nodup; eauto.
        -- intros r' h'. rewrite (aget_aset N.eqb reflN), F3, B. destruct (N.eqb_spec h' h) as [->|NE].
           ++ split.
              ** intros E. injection E as <-. split; [now right|]. intros [E _]. lia.
              ** intros [[X|[-> _]] Q]; [|reflexivity]. apply IL in X. rewrite EG in X. injection X as <-. exfalso. auto.
           ++ rewrite IL. split; [intros X; split; [now left|tauto]|intros [[X|[_ X]] _]; [auto|contradiction]].
        -- intros r' h'. rewrite (aget_aset N.eqb reflN). destruct (N.eqb_spec h' h) as [->|NE].
           ++ intros E. injection E as <-. split; [apply seen_app; now right|]. intros r' S. apply seen_app in S as [S|S]; [eauto|]. injection S as <-. lia.
           ++ intros E. destruct (IS _ _ E) as [X Y]. split; [apply seen_app; now left|]. intros r2 S. apply seen_app in S as [S|S]; [auto|]. congruence.
        -- intros r' h' S. rewrite (aget_aset N.eqb reflN). destruct (N.eqb_spec h' h) as [->|NE].
           ++ left. exists r. split; auto. apply seen_app in S as [S|S]; [eauto|]. injection S as <-. lia.
           ++ apply seen_app in S as [S|S]; [|congruence]. destruct (IG _ _ S) as [X|(c & X & Y)]; auto. right. exists c. split; auto. apply in_or_app. now left.
        -- apply RB. exact F4.
      * rewrite IT, N.ltb_lt. unfold bottom. split.
        -- intros L (r' & S & Q). pose proof (MO _ S). pose proof (SPOS _ _ SO). pose proof (SPOS _ _ S). lia.
        -- intros Q. destruct (N.lt_ge_cases old (r - thr + 1)) as [|G]; auto. exfalso. apply Q. exists old. split; auto. right. lia.
    + exists (Ded (aset N.eqb h r (d_max d)) rounds (d_thr d)), true. split; [reflexivity|]. split.
      * split; cbn [d_thr d_max d_rounds]; auto.
        -- intros r' h'. rewrite (aget_aset N.eqb reflN), B. destruct (N.eqb_spec h' h) as [->|NE].
           ++ split; [intros E; injection E as <-; now right|]. intros [X|[-> _]]; [|reflexivity]. apply IL in X. congruence.
           ++ rewrite IL. split; [now left|intros [X|[_ X]]; [auto|contradiction]].
        -- intros r' h'. rewrite (aget_aset N.eqb reflN). destruct (N.eqb_spec h' h) as [->|NE].
           ++ intros E. injection E as <-. split; [apply seen_app; now right|]. intros r' S. apply seen_app in S as [S|S]; [eauto|]. injection S as <-. lia.
           ++ intros E. destruct (IS _ _ E) as [X Y]. split; [apply seen_app; now left|]. intros r2 S. apply seen_app in S as [S|S]; [auto|]. congruence.
        -- intros r' h' S. rewrite (aget_aset N.eqb reflN). destruct (N.eqb_spec h' h) as [->|NE].
           ++ left. exists r. split; auto. apply seen_app in S as [S|S]; [eauto|]. injection S as <-. lia.
           ++ apply seen_app in S as [S|S]; [|congruence]. destruct (IG _ _ S) as [X|(c & X & Y)]; auto. right. exists c. split; auto. apply in_or_app. now left.
        -- apply RB. reflexivity.
      * split; auto. intros _ (r' & S & Q). destruct (IG _ _ S) as [(r2 & _ & X)|(c & X & Y)]; [congruence|].
        specialize (O3 r h c eq_refl X). pose proof (SPOS _ _ S). unfold bottom in Y. lia.
  - assert (H0 : holds (d_rounds d) r h) by (apply A; reflexivity). pose proof (proj2 (IL r h) H0) as EG. destruct (IS _ _ EG) as [SO MO].
    exists (Ded (d_max d) rounds (d_thr d)), false. split; [reflexivity|]. split.
    + split; cbn [d_thr d_max d_rounds]; auto.
      * intros r' h'. rewrite IL, B. split; [now left|]. intros [X|[-> ->]]; auto.
      * intros r' h' E. destruct (IS _ _ E) as [X Y]. split; [apply seen_app; now left|]. intros r2 S. apply seen_app in S as [S|S]; [auto|].
        injection S as <- <-. rewrite EG in E. injection E as <-. lia.
      * intros r' h' S. apply seen_app in S as [S|S].
        -- destruct (IG _ _ S) as [X|(c & X & Y)]; auto. right. exists c. split; auto. apply in_or_app. now left.
        -- injection S as <- <-. left. exists r. split; [lia|auto].
      * apply RB. reflexivity.
    + split; [discriminate|]. intros Q. exfalso. apply Q. exists r. auto.
Qed.

(** draining *)
Lemma drain_one bot r : r < bot -> forall hs m, NoDup hs -> (forall h, In h hs -> aget N.eqb h m = Some r) ->
  exists m', fold_left (drain_hash bot) hs (Some m) = Some m' /\ forall h, aget N.eqb h m' = if memb h hs then None else aget N.eqb h m.
Proof.
  intros L. induction hs as [|x hs IH]; intros m ND H; cbn [fold_left].
  - exists m. split; auto.
  - inversion ND; subst. cbn [drain_hash]. rewrite (H x) by (now left). destruct (N.ltb_spec r bot); [|lia].
    destruct (IH (adel N.eqb x m)) as (m' & E & Q); auto.
    + intros h I. rewrite (aget_adel N.eqb reflN). destruct (N.eqb_spec h x) as [->|]; [contradiction|]. apply H. now right.
    + exists m'. split; auto. intros h. rewrite Q, (aget_adel N.eqb reflN). unfold memb. cbn [existsb]. destruct (N.eqb_spec h x) as [->|]; cbn [orb]; auto.
      now destruct (existsb (N.eqb x) hs).
Qed.
Lemma drain_all bot : forall l m, keys_lt l -> sets_nodup l -> Forall (fun e => fst e < bot) l ->
  (forall r h, holds l r h -> aget N.eqb h m = Some r) ->
  exists m', fold_left (drain_hash bot) (concat (map snd l)) (Some m) = Some m' /\
    forall h, aget N.eqb h m' = if memb h (concat (map snd l)) then None else aget N.eqb h m.
Proof.
  induction l as [|[k v] l IH]; intros m K ND F H; cbn [map concat snd].
  - exists m. split; auto.
  - inversion K as [|? ? K1 K2]; inversion ND as [|? ? N1 N2]; inversion F as [|? ? F1 F2]; subst. cbn [fst snd] in *. rewrite fold_left_app.
    destruct (drain_one bot k F1 v m N1) as (m1 & E1 & Q1).
    { intros h I. apply H. exists v. split; [now left|auto]. }
    rewrite E1. destruct (IH m1 K1 N2 F2) as (m' & E & Q).
    { intros r h (hs & I & J). rewrite Q1. assert (aget N.eqb h m = Some r) by (apply H; exists hs; split; [now right|auto]).
      destruct (memb h v) eqn:M; auto. exfalso. apply memb_in in M. assert (aget N.eqb h m = Some k) by (apply H; exists v; split; [now left|auto]).
      rewrite Forall_forall in K2. specialize (K2 _ I). cbn in K2. assert (r = k) by congruence. lia. }
    exists m'. split; auto. intros h. rewrite Q, Q1. unfold memb. rewrite existsb_app. destruct (existsb (N.eqb h) v); cbn [orb]; auto.
    now destruct (existsb _ _).
Qed.

Lemma keys_lt_filter f l : keys_lt l -> keys_lt (filter f l).
Proof.
  induction 1 as [|a l S IH F]; cbn [filter]; [constructor|]. destruct (f a); auto. constructor; auto.
  apply Forall_forall. intros x I. apply filter_In in I as [I _]. rewrite Forall_forall in F. auto.
Qed.
Lemma forall_filter {A} (P : A -> Prop) f l : Forall P l -> Forall P (filter f l).
Proof. intros H. apply Forall_forall. intros x I. apply filter_In in I as [I _]. rewrite Forall_forall in H. auto. Qed.

Lemma clean_inv thr past d c : inv thr past d -> ordered past (Clean c) -> exists d', clean c d = Some d' /\
  inv thr (past ++ [Clean c]) d' /\
  (forall h r, aget N.eqb h (d_max d') = Some r -> bottom c thr <= r) /\ Forall (fun e => bottom c thr <= fst e) (d_rounds d').
Proof.
  intros [IT IK IN IP IL IS IG IR] (O1 & O2 & _). unfold clean. rewrite IT. set (bot := bottom c thr).
  destruct (firstn_filter (d_rounds d) bot IK) as [EF ES]. rewrite EF, ES.
  set (low := filter (fun e : N * list N => fst e <? bot) (d_rounds d)). set (high := filter (fun e : N * list N => negb (fst e <? bot)) (d_rounds d)).
  assert (HL : forall r h, holds low r h <-> holds (d_rounds d) r h /\ r < bot).
  { intros r h. unfold holds, low. split.
    - intros (hs & I & J). apply filter_In in I as [I Q]. cbn in Q. apply N.ltb_lt in Q. split; eauto.
    - intros [(hs & I & J) Q]. exists hs. split; auto. apply filter_In. split; auto. now apply N.ltb_lt. }
  assert (HH : forall r h, holds high r h <-> holds (d_rounds d) r h /\ bot <= r).
  { intros r h. unfold holds, high. split.
    - intros (hs & I & J). apply filter_In in I as [I Q]. cbn in Q. apply negb_true_iff, N.ltb_ge in Q. split; eauto.
    - intros [(hs & I & J) Q]. exists hs. split; auto. apply filter_In. split; auto. cbn. now apply negb_true_iff, N.ltb_ge. }
  destruct (drain_all bot low (d_max d)) as (m' & EM & QM).
  - now apply keys_lt_filter.
  - now apply forall_filter.
  - apply Forall_forall. intros e I. apply filter_In in I as [_ I]. now apply N.ltb_lt.
  - intros r h X. apply HL in X as [X _]. now apply IL.
  - assert (MB : forall h, memb h (concat (map snd low)) = true <-> exists r, aget N.eqb h (d_max d) = Some r /\ r < bot).
    { intros h. rewrite memb_in, in_concat. split.
      - intros (hs & I & J). apply in_map_iff in I as ([r hs'] & E & I). cbn in E. subst hs'.
        assert (X : holds low r h) by (exists hs; auto). apply HL in X as [X ?]. exists r. split; auto. now apply IL.
      - intros (r & E & L). apply IL in E. assert (X : holds low r h) by (apply HL; auto). destruct X as (hs & I & J). exists hs. split; auto.
        apply in_map_iff. exists (r, hs). auto. }
    assert (GET : forall h r, aget N.eqb h m' = Some r <-> aget N.eqb h (d_max d) = Some r /\ bot <= r).
    { intros h r. rewrite QM. destruct (memb h _) eqn:M.
      - apply MB in M as (r0 & E & L). split; [discriminate|]. intros [E2 G]. assert (r0 = r) by congruence. lia.
      - split; [|tauto]. intros E. split; auto. destruct (N.le_gt_cases bot r); auto. exfalso.
        assert (memb h (concat (map snd low)) = true) by (apply MB; eauto). congruence. }
    rewrite EM. eexists. split; [reflexivity|]. split; [split|split]; cbn [d_thr d_max d_rounds]; auto.
    + now apply keys_lt_filter.
    + now apply forall_filter.
    + apply Forall_app. split; auto.
    + intros r h. rewrite GET, HH, IL. tauto.
    + intros r h E. apply GET in E as [E G]. destruct (IS _ _ E) as [X Y]. split; [apply seen_app; now left|].
      intros r' S. apply seen_app in S as [S|S]; [auto|discriminate].
    + intros r h S. apply seen_app in S as [S|S]; [|discriminate]. destruct (IG _ _ S) as [(r' & L & E)|(c' & X & Y)].
      * destruct (N.le_gt_cases bot r') as [G|G].
        -- left. exists r'. split; auto. apply GET. auto.
        -- right. exists c. split; [apply in_or_app; right; now left|]. fold bot. lia.
      * right. exists c'. split; auto. apply in_or_app. now left.
    + intros r hs I. apply filter_In in I as [I _]. destruct (IR _ _ I) as (o & Io & E). exists o. split; auto. apply in_or_app. now left.
    + intros h r E. now apply GET in E.
    + apply Forall_forall. intros e I. apply filter_In in I as [_ I]. now apply negb_true_iff, N.ltb_ge in I.
Qed.

Lemma run_inv thr past d out : run thr past d out -> inv thr past d.
Proof.
  induction 1 as [|past d out r h d' b R IH O E|past d out r d' R IH O E].
  - split; cbn [ded_new d_thr d_rounds d_max].
    + reflexivity.
    + constructor.
    + constructor.
    + constructor.
    + intros r h. split; [discriminate|intros (hs & [] & _)].
    + discriminate.
    + intros r h [].
    + intros r hs [].
  - destruct (check_inv thr past d r h IH O) as (d2 & b2 & E2 & I & _). rewrite E in E2. injection E2 as -> ->. exact I.
  - destruct (clean_inv thr past d r IH O) as (d2 & E2 & I & _). rewrite E in E2. injection E2 as ->. exact I.
Qed.

(** * Theorems *)

(** Every check of every history succeeds (no assertion fails), and the hash is reported unique iff it was not offered before in
    the same round nor in any round less than [thr] rounds ago. *)
Theorem C28_unique_iff : forall thr past d out r h, run thr past d out -> ordered past (Check r h) ->
  exists d' b, check_unique r h d = Some (d', b) /\
    (b = true <-> ~ exists r', seen past r' h /\ (r' = r \/ r < r' + thr)).
Proof.
  intros thr past d out r h R O. destruct (check_inv thr past d r h (run_inv _ _ _ _ R) O) as (d' & b & E & _ & Q). eauto.
Qed.
(** clean never panics, forgets everything that left the window, and nothing else. *)
Theorem C28_clean_exact : forall thr past d out c, run thr past d out -> ordered past (Clean c) ->
  exists d', clean c d = Some d' /\
    (forall h r, aget N.eqb h (d_max d') = Some r -> c < r + thr) /\
    (forall r hs, In (r, hs) (d_rounds d') -> c < r + thr) /\
    (forall h r, aget N.eqb h (d_max d) = Some r -> c < r + thr -> aget N.eqb h (d_max d') = Some r).
Proof.
  intros thr past d out c R O. pose proof (run_inv _ _ _ _ R) as I. destruct (clean_inv thr past d c I O) as (d' & E & I' & A & B). exists d'. split; auto.
  assert (P1 : 1 <= c) by apply O. split; [|split].
  - intros h r X. specialize (A h r X). unfold bottom in A. lia.
  - intros r hs X. rewrite Forall_forall in B. specialize (B _ X). cbn in B. unfold bottom in B. lia.
  - intros h r X L. destruct (iv_seen _ _ _ I _ _ X) as [S M]. assert (S' : seen (past ++ [Clean c]) r h) by (apply seen_app; now left).
    destruct (iv_gone _ _ _ I' _ _ S') as [(r' & G & X')|(c' & Ic & L')].
    + destruct (iv_seen _ _ _ I' _ _ X') as [S2 _]. apply seen_app in S2 as [S2|S2]; [|discriminate]. pose proof (M _ S2). assert (r' = r) by lia. now subst.
    + exfalso. assert (c' <= c). { apply in_app_or in Ic as [Ic|[Ic|[]]]; [|injection Ic as <-; lia]. destruct O as (_ & O & _). rewrite Forall_forall in O. exact (O _ Ic). }
      pose proof (iv_pos _ _ _ I) as PP. rewrite Forall_forall in PP. pose proof (PP _ S). cbn [op_round] in H0. unfold bottom in L'. lia.
Qed.
(** hence a history can always be continued: no panic is reachable *)
Theorem C28_no_panic : forall thr past d out o, run thr past d out -> ordered past o ->
  match o with Check r h => check_unique r h d <> None | Clean c => clean c d <> None end.
Proof.
  intros thr past d out [r h|c] R O.
  - destruct (C28_unique_iff thr past d out r h R O) as (? & ? & -> & _). discriminate.
  - destruct (C28_clean_exact thr past d out c R O) as (? & -> & _). discriminate.
Qed.

(** window of 2 rounds: round 1 first, round 2 replay rejected (window restarts), round 4 accepted again *)
Example C28_nonvacuous : exists d, run 2 [Check 1 7; Clean 1; Check 2 7; Clean 2; Check 4 7] d [true; false; true].
Proof.
  eexists.
  change [Check 1 7; Clean 1; Check 2 7; Clean 2; Check 4 7] with ((((([] ++ [Check 1 7]) ++ [Clean 1]) ++ [Check 2 7]) ++ [Clean 2]) ++ [Check 4 7]).
  change [true; false; true] with ((([] ++ [true]) ++ [false]) ++ [true]).
  assert (O : forall past o, 1 <= op_round o -> Forall (fun p => op_round p <= op_round o) past -> (forall c, In (Clean c) past -> c < op_round o \/ (exists c', o = Clean c')) -> ordered past o).
  { intros past o A B C. split; auto. split; auto. intros r h c -> I. destruct (C c I) as [|[? ?]]; [auto|discriminate]. }
  eapply RunCheck; [eapply RunClean; [eapply RunCheck; [eapply RunClean; [eapply RunCheck; [apply RunNew| |reflexivity]| |reflexivity]| |reflexivity]| |reflexivity]| |reflexivity];
  apply O; cbn [op_round]; try lia; try (repeat constructor; cbn; lia); cbn [app In];
  intros c H; repeat (destruct H as [H|H]; [try discriminate; try (injection H as <-; left; lia); try (right; eexists; reflexivity)|]); try destruct H; eauto.
Qed.
Print Assumptions C28_unique_iff. Print Assumptions C28_clean_exact. Print Assumptions C28_no_panic.
