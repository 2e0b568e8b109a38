(** * MCacheThms: C55, the mempool adapter's cache *)

From Coq Require Import List NArith Bool Sorted Lia ZArith ZifyN ZifyNat ZifyBool.
From Verif Require Import MCacheModel MCacheSpec.
Import ListNotations.
Open Scope N_scope.

Definition mlt (a b : manchor) : Prop := m_id a < m_id b.
Notation asc := (StronglySorted mlt).

Lemma asc_app : forall l1 l2, asc (l1 ++ l2) <->
  asc l1 /\ asc l2 /\ (forall a b, In a l1 -> In b l2 -> m_id a < m_id b).
Proof.
  induction l1 as [|x t IH]; intros l2; cbn [app].
  - split; [intros S; split; [constructor|split; [exact S|intros a b []]]|intros (_ & S & _); exact S].
  - split.
    + intros S. inversion S as [|? ? S' F]; subst. apply IH in S'. destruct S' as (A & B & C).
      apply Forall_app in F. destruct F as [F1 F2]. split; [constructor; assumption|].
      split; [assumption|]. intros a b [<-|Ha] Hb; [|auto]. rewrite Forall_forall in F2. now apply F2.
    + intros (A & B & C). inversion A as [|? ? A' F]; subst. constructor.
      * apply IH. split; [assumption|]. split; [assumption|]. intros a b Ha Hb. apply C; [now right|assumption].
      * apply Forall_app. split; [assumption|]. apply Forall_forall. intros b Hb. apply C; [now left|assumption].
Qed.

Lemma asc_id : forall l a b, asc l -> In a l -> In b l -> m_id a = m_id b -> a = b.
Proof.
  intros l a b S. induction S as [|x t S IH F]; [intros []|]. rewrite Forall_forall in F.
  intros [->|Ha] [->|Hb] E; auto.
  - specialize (F b Hb). unfold mlt in F. lia.
  - specialize (F a Ha). unfold mlt in F. lia.
Qed.

(** The search splits an ascending list. *)
Lemma bpos_split : forall k l, asc l ->
  exists l1 l2, l = l1 ++ l2 /\ bpos k l = length l1 /\ (forall a, In a l1 -> m_id a < k) /\
    (forall a, In a l2 -> k <= m_id a).
Proof.
  intros k l S. induction S as [|x t S (l1 & l2 & E & B & L & G) F].
  - exists [], []. repeat split; intros a [].
  - cbn [bpos]. destruct (N.ltb_spec (m_id x) k) as [X|X].
    + exists (x :: l1), l2. split; [now rewrite E|]. split; [cbn; now rewrite B|]. split; [|exact G].
      intros a [<-|Ha]; auto.
    + exists [], (x :: t). split; [reflexivity|]. split; [reflexivity|]. split; [intros a []|].
      rewrite Forall_forall in F. intros a [<-|Ha]; [exact X|]. specialize (F a Ha). unfold mlt in F. lia.
Qed.

Lemma nth_app_len {A} : forall (l1 l2 : list A), nth_error (l1 ++ l2) (length l1) = hd_error l2.
Proof. induction l1 as [|x t IH]; intros l2; cbn; [now destruct l2|apply IH]. Qed.

Lemma nth_app_len1 {A} : forall (l1 l2 : list A), nth_error (l1 ++ l2) (S (length l1)) = hd_error (tl l2).
Proof.
  induction l1 as [|x t IH]; intros l2; [now destruct l2 as [|? [|]]|].
  change (nth_error ((x :: t) ++ l2) (S (length (x :: t)))) with (nth_error (t ++ l2) (S (length t))).
  apply IH.
Qed.

(** ** The invariant *)

Definition suffix_of (l H : list manchor) : Prop := exists pre, H = pre ++ l.

Record minv (s : msys) (H : list manchor) : Prop := {
  i_asc : asc H;
  i_suf : suffix_of (d_anchors (s_data s)) H;
  i_wait : forall n r, nth_error (s_readers s) n = Some (PWait r false) ->
    (0 < s_pending s)%nat \/ attempt r (s_data s) = Wait;
  i_link : forall H1 a b H2, H = H1 ++ a :: b :: H2 -> m_prev b = None \/ m_prev b = Some (m_id a) }.

Lemma is_off_visible : forall d id, is_off d id = false <-> visible d id.
Proof. intros d id. unfold is_off, visible. destruct (d_off d); [rewrite N.ltb_ge; reflexivity|easy]. Qed.

Lemma is_off_up : forall d a b, is_off d a = true -> a <= b -> is_off d b = true.
Proof. intros d a b. unfold is_off. destruct (d_off d); [lia|discriminate]. Qed.

(** ** Single attempts on an ascending cache *)

Lemma by_id_char : forall d id, asc (d_anchors d) ->
  match try_by_id id d with
  | Found a => In a (d_anchors d) /\ m_id a = id /\ visible d id
  | Missing => (forall a, In a (d_anchors d) -> m_id a <> id) /\
               exists b, In b (d_anchors d) /\ id < m_id b /\ visible d (m_id b)
  | Fail _ => False
  | Wait => forall b, In b (d_anchors d) -> id <= m_id b -> ~ visible d (m_id b)
  end.
Proof.
  intros d id S. unfold try_by_id.
  destruct (is_off d id) eqn:O.
  { intros b Hb L V. apply is_off_visible in V. rewrite (is_off_up _ _ _ O L) in V. discriminate. }
  destruct (d_anchors d) as [|first rest] eqn:E; [intros b []|].
  destruct (N.ltb_spec id (m_id first)) as [L|L].
  - assert (F : forall b, In b (first :: rest) -> m_id first <= m_id b).
    { inversion S as [|? ? _ F]; subst. rewrite Forall_forall in F.
      intros b [<-|Hb]; [lia|]. specialize (F b Hb). unfold mlt in F. lia. }
    destruct (is_off d (m_id first)) eqn:O2.
    + intros b Hb _ V. apply is_off_visible in V. rewrite (is_off_up _ _ _ O2 (F b Hb)) in V. discriminate.
    + split; [intros a Ha; specialize (F a Ha); lia|].
      exists first. split; [now left|]. split; [exact L|]. now apply is_off_visible.
  - destruct (bpos_split id (first :: rest) S) as (l1 & l2 & EL & BP & LT & GE).
    rewrite BP, EL, nth_app_len. rewrite EL in S. apply asc_app in S. destruct S as (_ & S2 & _).
    destruct l2 as [|f l2]; cbn [hd_error].
    + intros b Hb Lb. rewrite app_nil_r in Hb. specialize (LT b Hb). lia.
    + pose proof (GE f (or_introl eq_refl)) as Gf.
      assert (FB : forall b, In b (l1 ++ f :: l2) -> id <= m_id b -> m_id f <= m_id b).
      { intros b Hb Lb. apply in_app_or in Hb. destruct Hb as [Hb|[<-|Hb]]; [specialize (LT b Hb); lia|lia|].
        inversion S2 as [|? ? _ F]; subst. rewrite Forall_forall in F. specialize (F b Hb). unfold mlt in F. lia. }
      destruct (is_off d (m_id f)) eqn:O2.
      * intros b Hb Lb V. apply is_off_visible in V. rewrite (is_off_up _ _ _ O2 (FB b Hb Lb)) in V. discriminate.
      * assert (If : In f (l1 ++ f :: l2)) by (apply in_or_app; right; now left).
        destruct (N.compare_spec (m_id f) id) as [C|C|C].
        -- split; [exact If|]. split; [exact C|]. rewrite <- C. now apply is_off_visible.
        -- lia.
        -- split; [intros a Ha Ea; specialize (FB a Ha); lia|].
           exists f. split; [exact If|]. split; [exact C|]. now apply is_off_visible.
Qed.

(** The successor of [prev] in the cache. *)
Definition succ_in (l : list manchor) (prev : N) (a : manchor) : Prop :=
  In a l /\ prev < m_id a /\ (forall b, In b l -> prev < m_id b -> m_id a <= m_id b).

Definition has_id (l : list manchor) (id : N) : Prop := exists b, In b l /\ m_id b = id.

Lemma next_char : forall d prev, asc (d_anchors d) ->
  match try_next prev d with
  | Found a => succ_in (d_anchors d) prev a /\ visible d (m_id a) /\
      (m_prev a = None \/ m_prev a = Some prev /\ has_id (d_anchors d) prev) /\
      (has_id (d_anchors d) prev \/ (forall b, In b (d_anchors d) -> m_id a <= m_id b))
  | Missing => ~ has_id (d_anchors d) prev /\
      exists b, In b (d_anchors d) /\ prev < m_id b /\ visible d (m_id b)
  | Fail e => exists a, succ_in (d_anchors d) prev a /\ visible d (m_id a) /\
      ((e = EFirstRemoved prev (m_id a) /\ m_prev a = Some prev /\
        (forall b, In b (d_anchors d) -> m_id a <= m_id b)) \/
       (has_id (d_anchors d) prev /\ exists fp, m_prev a = Some fp /\ fp <> prev))
  | Wait => forall b, In b (d_anchors d) -> prev < m_id b -> m_id b <= U32MAX -> ~ visible d (m_id b)
  end.
Proof.
  intros d prev S. unfold try_next.
  destruct (is_off d (sat_succ prev)) eqn:O.
  { intros b Hb L M V. apply is_off_visible in V. rewrite (is_off_up _ _ (m_id b) O) in V; [discriminate|].
    unfold sat_succ. lia. }
  destruct (d_anchors d) as [|first rest] eqn:E; [intros b []|].
  assert (F : forall b, In b (first :: rest) -> m_id first <= m_id b).
  { inversion S as [|? ? _ F]; subst. rewrite Forall_forall in F.
    intros b [<-|Hb]; [lia|]. specialize (F b Hb). unfold mlt in F. lia. }
  destruct (N.ltb_spec prev (m_id first)) as [L|L].
  - assert (SC : succ_in (first :: rest) prev first).
    { split; [now left|]. split; [exact L|]. auto. }
    destruct (is_off d (m_id first)) eqn:O2.
    + intros b Hb _ _ V. apply is_off_visible in V. rewrite (is_off_up _ _ _ O2 (F b Hb)) in V. discriminate.
    + apply is_off_visible in O2. destruct (m_prev first) as [id|] eqn:P.
      * destruct (N.eqb_spec id prev) as [->|N].
        -- exists first. split; [exact SC|]. split; [exact O2|]. left. auto.
        -- split; [intros (b & Hb & Eb); specialize (F b Hb); lia|].
           exists first. split; [now left|]. auto.
      * split; [exact SC|]. split; [exact O2|]. split; [now left|now right].
  - destruct (bpos_split prev (first :: rest) S) as (l1 & l2 & EL & BP & LT & GE).
    unfold bfound. rewrite BP, EL, nth_app_len, nth_app_len1.
    rewrite EL in S. apply asc_app in S. destruct S as (_ & S2 & S3).
    destruct l2 as [|f l2]; cbn [hd_error tl].
    + intros b Hb Lb _. rewrite app_nil_r in Hb. specialize (LT b Hb). lia.
    + pose proof (GE f (or_introl eq_refl)) as Gf.
      assert (If : In f (l1 ++ f :: l2)) by (apply in_or_app; right; now left).
      inversion S2 as [|? ? S2' F2]; subst. rewrite Forall_forall in F2. unfold mlt in F2.
      destruct (N.eqb_spec (m_id f) prev) as [C|C].
      * assert (HI : has_id (l1 ++ f :: l2) prev) by (exists f; auto).
        destruct l2 as [|g l2]; cbn [hd_error].
        -- intros b Hb Lb _. apply in_app_or in Hb. destruct Hb as [Hb|[<-|[]]]; [specialize (LT b Hb); lia|lia].
        -- assert (SC : succ_in (l1 ++ f :: g :: l2) prev g).
           { split; [apply in_or_app; right; right; now left|].
             split; [specialize (F2 g (or_introl eq_refl)); lia|].
             intros b Hb Lb. apply in_app_or in Hb.
             destruct Hb as [Hb|[<-|[<-|Hb]]]; [specialize (LT b Hb); lia|lia|lia|].
             inversion S2' as [|? ? _ F3]; subst. rewrite Forall_forall in F3. specialize (F3 b Hb).
             unfold mlt in F3. lia. }
           destruct (is_off d (m_id g)) eqn:O2.
           ++ intros b Hb Lb _ V. apply is_off_visible in V.
              rewrite (is_off_up _ _ (m_id b) O2) in V; [discriminate|]. now apply SC.
           ++ apply is_off_visible in O2. destruct (m_prev g) as [fp|] eqn:P.
              ** destruct (N.compare_spec prev fp) as [Q|Q|Q].
                 --- subst fp. split; [exact SC|]. split; [exact O2|]. split; [right; auto|now left].
                 --- exists g. split; [exact SC|]. split; [exact O2|]. right. split; [exact HI|].
                     exists fp. split; [exact P|lia].
                 --- exists g. split; [exact SC|]. split; [exact O2|]. right. split; [exact HI|].
                     exists fp. split; [exact P|lia].
              ** split; [exact SC|]. split; [exact O2|]. split; [now left|now left].
      * assert (NH : ~ has_id (l1 ++ f :: l2) prev).
        { intros (b & Hb & Eb). apply in_app_or in Hb. destruct Hb as [Hb|[<-|Hb]];
            [specialize (LT b Hb); lia|lia|specialize (F2 b Hb); lia]. }
        destruct (is_off d (m_id f)) eqn:O2.
        -- intros b Hb Lb _ V. apply is_off_visible in V.
           rewrite (is_off_up _ _ (m_id b) O2) in V; [discriminate|].
           apply in_app_or in Hb. destruct Hb as [Hb|[<-|Hb]];
             [specialize (LT b Hb); lia|lia|specialize (F2 b Hb); lia].
        -- split; [exact NH|]. exists f. split; [exact If|]. split; [lia|]. now apply is_off_visible.
Qed.

(** ** Writers *)

Lemma clear_filter : forall k d, asc (d_anchors d) ->
  d_anchors (mc_clear k d) = filter (fun a => k <=? m_id a) (d_anchors d).
Proof.
  intros k d S. unfold mc_clear. cbn [d_anchors].
  destruct (bpos_split k _ S) as (l1 & l2 & -> & -> & L & G).
  rewrite skipn_app, skipn_all, Nat.sub_diag, filter_app. cbn [skipn app].
  replace (filter _ l1) with (@nil manchor).
  - cbn [app]. symmetry. clear - G. induction l2 as [|x t IH]; [reflexivity|]. cbn.
    pose proof (G x (or_introl eq_refl)) as X. apply N.leb_le in X. rewrite X. f_equal.
    apply IH. intros a Ha. apply G. now right.
  - symmetry. clear - L. induction l1 as [|x t IH]; [reflexivity|]. cbn.
    pose proof (L x (or_introl eq_refl)) as X. apply N.leb_gt in X. rewrite X.
    apply IH. intros a Ha. apply L. now right.
Qed.

Lemma reopen_filter : forall after d, asc (d_anchors d) -> d_off d = Some after ->
  d_anchors (mc_reopen true d) = filter (fun a => m_id a <=? after) (d_anchors d) /\
  d_off (mc_reopen true d) = None.
Proof.
  intros after d S O. unfold mc_reopen. rewrite O. cbn [d_anchors d_off]. split; [|reflexivity].
  destruct (bpos_split (after + 1) _ S) as (l1 & l2 & -> & -> & L & G).
  rewrite firstn_app, firstn_all, Nat.sub_diag, filter_app. cbn [firstn]. rewrite app_nil_r.
  replace (filter _ l2) with (@nil manchor).
  - rewrite app_nil_r. clear - L. induction l1 as [|x t IH]; [reflexivity|]. cbn.
    assert (X : m_id x <=? after = true) by (specialize (L x (or_introl eq_refl)); lia). rewrite X. f_equal.
    apply IH. intros a Ha. apply L. now right.
  - symmetry. clear - G. induction l2 as [|x t IH]; [reflexivity|]. cbn.
    assert (X : m_id x <=? after = false) by (specialize (G x (or_introl eq_refl)); lia). rewrite X.
    apply IH. intros a Ha. apply G. now right.
Qed.

Lemma asc_filter : forall f l, asc l -> asc (filter f l).
Proof.
  intros f l S. induction S as [|x t S IH F]; [constructor|]. cbn. destruct (f x); [|exact IH].
  constructor; [exact IH|]. rewrite Forall_forall in *. intros y Hy. apply filter_In in Hy. apply F, Hy.
Qed.

(** [clear] never makes a waiting request ready: it needs no notification. *)
Lemma clear_keeps_wait : forall k d r, asc (d_anchors d) ->
  attempt r d = Wait -> attempt r (mc_clear k d) = Wait.
Proof.
  intros k d r S W.
  assert (S' : asc (d_anchors (mc_clear k d))) by (rewrite clear_filter by exact S; now apply asc_filter).
  assert (SUB : forall b, In b (d_anchors (mc_clear k d)) -> In b (d_anchors d)).
  { intros b. rewrite clear_filter by exact S. intros Hb. now apply filter_In in Hb. }
  assert (VIS : forall id, visible (mc_clear k d) id <-> visible d id) by (intros id; reflexivity).
  destruct r as [id|prev]; cbn [attempt] in *.
  - pose proof (by_id_char d id S) as C. rewrite W in C.
    pose proof (by_id_char (mc_clear k d) id S') as C'.
    destruct (try_by_id id (mc_clear k d)) as [|a| |e]; [reflexivity| | |destruct C'].
    + destruct C' as (A & B & V). exfalso. apply (C a (SUB a A)); [lia|]. rewrite B. exact V.
    + destruct C' as (_ & b & A & B & V). exfalso. apply (C b (SUB b A)); [lia|exact V].
  - (* the saturation at u32::MAX makes the first test necessary *)
    unfold try_next in *. change (is_off (mc_clear k d)) with (is_off d).
    destruct (is_off d (sat_succ prev)); [reflexivity|].
    rewrite clear_filter by exact S.
    destruct (d_anchors d) as [|first rest] eqn:E; [reflexivity|].
    assert (F : forall b, In b (first :: rest) -> m_id first <= m_id b).
    { inversion S as [|? ? _ F]; subst. rewrite Forall_forall in F.
      intros b [<-|Hb]; [lia|]. specialize (F b Hb). unfold mlt in F. lia. }
    set (l' := filter (fun a => k <=? m_id a) (first :: rest)).
    assert (SL : asc l') by now apply asc_filter.
    assert (IL : forall b, In b l' -> In b (first :: rest)) by (intros b Hb; now apply filter_In in Hb).
    destruct l' as [|f' r'] eqn:EL; [reflexivity|].
    pose proof (IL f' (or_introl eq_refl)) as Hf'.
    assert (ALLOFF : (forall b, In b (first :: rest) -> prev < m_id b -> is_off d (m_id b) = true) ->
      (if prev <? m_id f'
       then if is_off d (m_id f') then Wait
            else match m_prev f' with
                 | Some id => if id =? prev then Fail (EFirstRemoved prev (m_id f')) else Missing
                 | None => Found f'
                 end
       else if bfound prev (f' :: r')
            then match nth_error (f' :: r') (Datatypes.S (bpos prev (f' :: r'))) with
                 | Some found =>
                     if is_off d (m_id found) then Wait
                     else match m_prev found with
                          | Some fp => match prev ?= fp with
                                       | Eq => Found found
                                       | Lt => Fail (EGap prev fp (m_id found))
                                       | Gt => Fail (EUnexpected prev fp (m_id found))
                                       end
                          | None => Found found
                          end
                 | None => Wait
                 end
            else match nth_error (f' :: r') (bpos prev (f' :: r')) with
                 | Some nxt => if is_off d (m_id nxt) then Wait else Missing
                 | None => Wait
                 end) = Wait).
    { intros AO. destruct (N.ltb_spec prev (m_id f')) as [L|L].
      - rewrite (AO f' Hf' L). reflexivity.
      - destruct (bpos_split prev (f' :: r') SL) as (l1 & l2 & E2 & BP & LT & GE).
        unfold bfound. rewrite BP, E2, nth_app_len, nth_app_len1. rewrite E2 in SL. apply asc_app in SL.
        destruct SL as (_ & SL2 & _). rewrite E2 in IL.
        destruct l2 as [|g l2]; cbn [hd_error tl]; [reflexivity|].
        pose proof (GE g (or_introl eq_refl)) as Gg.
        destruct (N.eqb_spec (m_id g) prev) as [Q|Q].
        + destruct l2 as [|h l2]; cbn [hd_error]; [reflexivity|].
          inversion SL2 as [|? ? _ F3]; subst. rewrite Forall_forall in F3. pose proof (F3 h (or_introl eq_refl)) as X.
          unfold mlt in X. rewrite (AO h); [reflexivity| |exact X]. apply IL. apply in_or_app. right. right. now left.
        + rewrite (AO g); [reflexivity| |lia]. apply IL. apply in_or_app. right. now left. }
    apply ALLOFF. intros b Hb Lb.
    destruct (N.ltb_spec prev (m_id first)) as [L|L].
    + destruct (is_off d (m_id first)) eqn:O2; [exact (is_off_up _ _ _ O2 (F b Hb))|].
      destruct (m_prev first) as [id|]; [destruct (id =? prev)|]; discriminate.
    + destruct (bpos_split prev (first :: rest) S) as (l1 & l2 & E2 & BP & LT & GE).
      unfold bfound in W. rewrite BP, E2, nth_app_len, nth_app_len1 in W. rewrite E2 in S, Hb. apply asc_app in S.
      destruct S as (_ & S2 & _). apply in_app_or in Hb. destruct Hb as [Hb|Hb]; [specialize (LT b Hb); lia|].
      destruct l2 as [|g l2]; [destruct Hb|]. cbn [hd_error tl] in W.
      pose proof (GE g (or_introl eq_refl)) as Gg. inversion S2 as [|? ? S2' F3]; subst.
      rewrite Forall_forall in F3. unfold mlt in F3.
      destruct (N.eqb_spec (m_id g) prev) as [Q|Q].
      * destruct Hb as [<-|Hb]; [lia|]. destruct l2 as [|h l2]; [destruct Hb|]. cbn [hd_error] in W.
        destruct (is_off d (m_id h)) eqn:O2.
        -- apply (is_off_up _ _ _ O2). destruct Hb as [<-|Hb]; [lia|].
           inversion S2' as [|? ? _ F4]; subst. rewrite Forall_forall in F4. specialize (F4 b Hb).
           unfold mlt in F4. lia.
        -- destruct (m_prev h) as [fp|]; [destruct (prev ?= fp)|]; discriminate.
      * destruct (is_off d (m_id g)) eqn:O2; [|discriminate]. apply (is_off_up _ _ _ O2).
        destruct Hb as [<-|Hb]; [lia|]. specialize (F3 b Hb). lia.
Qed.

(** ** Reachable states *)

Lemma upd_nth {A} : forall (l : list A) n m x y, nth_error (upd n x l) m = Some y ->
  (m = n /\ y = x) \/ (m <> n /\ nth_error l m = Some y).
Proof.
  induction l as [|z t IH]; intros n m x y E; [destruct n, m; discriminate|].
  destruct n as [|n]; cbn [upd] in E; destruct m as [|m]; cbn [nth_error] in E.
  - injection E as <-. now left.
  - right. split; [discriminate|exact E].
  - right. split; [discriminate|exact E].
  - destruct (IH n m x y E) as [[-> ->]|[N Q]]; [left|right]; split; auto.
Qed.

Lemma upd_same {A} : forall (l : list A) n x y, nth_error l n = Some y -> nth_error (upd n x l) n = Some x.
Proof. induction l as [|z t IH]; intros [|n] x y E; try discriminate; [reflexivity|]. cbn in *. eauto. Qed.

Lemma suffix_asc : forall l H, asc H -> suffix_of l H -> asc l.
Proof. intros l H S (pre & ->). now apply asc_app in S. Qed.

Lemma lookup_none : forall id l, lookup id l = None -> forall b, In b l -> m_id b <> id.
Proof. intros id l E b Hb. pose proof (find_none _ _ E b Hb) as X. cbn in X. lia. Qed.

Lemma filter_suffix : forall f l H, suffix_of l H -> suffix_of (filter f l) (filter f H).
Proof. intros f l H (pre & ->). exists (filter f pre). apply filter_app. Qed.

Lemma filter_prefix : forall after H, asc H ->
  exists suf, H = filter (fun b => m_id b <=? after) H ++ suf.
Proof.
  intros after H S. destruct (bpos_split (after + 1) H S) as (l1 & l2 & E & _ & L & G).
  exists l2. rewrite E at 1. f_equal. rewrite E, filter_app.
  replace (filter (fun b => m_id b <=? after) l2) with (@nil manchor).
  - rewrite app_nil_r. symmetry. clear - L. induction l1 as [|x t IH]; [reflexivity|]. cbn.
    assert (X : m_id x <=? after = true) by (specialize (L x (or_introl eq_refl)); lia). rewrite X. f_equal.
    apply IH. intros a Ha. apply L. now right.
  - symmetry. clear - G. induction l2 as [|x t IH]; [reflexivity|]. cbn.
    assert (X : m_id x <=? after = false) by (specialize (G x (or_introl eq_refl)); lia). rewrite X.
    apply IH. intros a Ha. apply G. now right.
Qed.

Lemma minv_init : minv ms_init [].
Proof.
  split; cbn.
  - constructor.
  - now exists [].
  - intros [|n] r E; discriminate.
  - intros [|x H1] a b H2 E; discriminate.
Qed.

Lemma minv_step : forall s H l s', minv s H -> env s H l -> mexec s l = Some s' ->
  minv s' (chain_next s H l).
Proof.
  intros s H l s' [I1 I2 I3 I4] EV EX.
  pose proof (suffix_asc _ _ I1 I2) as S.
  assert (SK : forall d' p rs er, suffix_of (d_anchors d') H ->
     (forall n r, nth_error rs n = Some (PWait r false) -> (0 < p)%nat \/ attempt r d' = Wait) ->
     minv (mkS d' p rs er) H) by (intros; split; auto).
  destruct l as [a|k|b| |k| |r|n]; cbn [mexec chain_next env] in *.
  - unfold mc_push in EX. destruct (lookup (m_id a) (d_anchors (s_data s))) as [old|] eqn:LK.
    + injection EX as <-. apply SK; auto.
    + injection EX as <-. cbn [Nat.add]. destruct EV as [(b & Hb & Eb)|[EV LN]].
      { destruct (lookup_none _ _ LK b Hb Eb). }
      split.
      * apply asc_app. split; [exact I1|]. split; [repeat constructor|].
        intros x y Hx [<-|[]]. auto.
      * cbn [s_data d_anchors]. destruct I2 as (pre & ->). exists pre. now rewrite app_assoc.
      * intros n r _. left. cbn. lia.
      * intros H1 x y H2 E. destruct (rev H2) as [|z q] eqn:R.
        -- apply (f_equal (@rev _)) in R. rewrite rev_involutive in R. cbn in R. subst H2.
           replace (H1 ++ [x; y]) with ((H1 ++ [x]) ++ [y]) in E by (rewrite <- app_assoc; reflexivity).
           apply app_inj_tail in E. destruct E as [-> ->]. destruct LN as [LN|(H' & b & E & LN)]; [now left|].
           apply app_inj_tail in E. destruct E as [_ ->]. now right.
        -- apply (f_equal (@rev _)) in R. rewrite rev_involutive in R. cbn in R. subst H2.
           replace (H1 ++ x :: y :: rev q ++ [z]) with ((H1 ++ x :: y :: rev q) ++ [z]) in E
             by (rewrite <- app_assoc; reflexivity).
           apply app_inj_tail in E. destruct E as [-> ->]. apply (I4 H1 x y (rev q) eq_refl).
  - injection EX as <-. apply SK; [exact I2|]. intros n r _. left. lia.
  - destruct (d_off (s_data s)) as [after|] eqn:O.
    + injection EX as <-. destruct b.
      * split.
        -- now apply asc_filter.
        -- cbn [s_data]. destruct (reopen_filter after _ S O) as [-> _]. now apply filter_suffix.
        -- intros n r _. left. cbn. lia.
        -- intros H1 x y H2 E. destruct (filter_prefix after H I1) as (suf & EH). rewrite E in EH.
           apply (I4 H1 x y (H2 ++ suf)). rewrite EH, <- app_assoc. reflexivity.
      * apply SK; [unfold mc_reopen; rewrite O; exact I2|]. intros n r _. left. lia.
    + injection EX as <-. destruct b; split; auto.
  - injection EX as <-. apply SK; [exact I2|]. intros n r _. left. lia.
  - injection EX as <-. apply SK.
    + rewrite clear_filter by exact S. unfold mc_clear in *. destruct I2 as (pre & E2).
      destruct (bpos_split k _ S) as (l1 & l2 & E & _ & L & G). exists (pre ++ l1).
      rewrite <- clear_filter by exact S. unfold mc_clear. cbn [d_anchors].
      destruct (bpos_split k _ S) as (l1' & l2' & E' & B' & L' & G').
      rewrite B'. rewrite E' at 1. rewrite skipn_app, skipn_all, Nat.sub_diag. cbn [skipn app].
      assert (l1 = l1' /\ l2 = l2') as [-> ->].
      { rewrite E' in E. clear - E L G L' G'. revert l1 E L. induction l1' as [|x t IH]; intros l1 E L.
        - destruct l1 as [|y q]; [auto|]. cbn in E. subst l2'.
          specialize (L y (or_introl eq_refl)). specialize (G' y (or_introl eq_refl)). lia.
        - destruct l1 as [|y q].
          + cbn in E. subst l2. specialize (G x (or_introl eq_refl)). specialize (L' x (or_introl eq_refl)). lia.
          + cbn in E. injection E as <- E. destruct (IH (fun a Ha => L' a (or_intror Ha)) q E) as [-> ->]; auto.
            intros a Ha. apply L. now right. }
      rewrite E2, E', app_assoc. reflexivity.
    + intros n r E. destruct (I3 n r E) as [X|X]; [now left|right]. now apply clear_keeps_wait.
  - destruct (s_pending s) as [|k]; [discriminate|]. injection EX as <-. apply SK; [exact I2|].
    intros n r E. exfalso. rewrite nth_error_map in E. destruct (nth_error (s_readers s) n) as [p|]; [|discriminate].
    destruct p; discriminate.
  - injection EX as <-. apply SK; [exact I2|]. intros n q E.
    destruct (Nat.lt_ge_cases n (length (s_readers s))) as [L|L].
    + rewrite nth_error_app1 in E by exact L. eauto.
    + rewrite nth_error_app2 in E by exact L. destruct (n - length (s_readers s))%nat as [|[|m]]; discriminate.
  - destruct (nth_error (s_readers s) n) as [[r|r w|r w|r o]|] eqn:E; try discriminate.
    + injection EX as <-. apply SK; [exact I2|]. intros m q Em. apply upd_nth in Em.
      destruct Em as [[_ X]|[_ Em]]; [discriminate|eauto].
    + destruct (attempt r (s_data s)) eqn:AT.
      * injection EX as <-. apply SK; [exact I2|]. intros m q Em. apply upd_nth in Em.
        destruct Em as [[_ X]|[_ Em]]; [injection X as -> _; now right|eauto].
      * injection EX as <-. apply SK; [exact I2|]. intros m q Em. apply upd_nth in Em.
        destruct Em as [[_ X]|[_ Em]]; [discriminate|eauto].
      * injection EX as <-. apply SK; [exact I2|]. intros m q Em. apply upd_nth in Em.
        destruct Em as [[_ X]|[_ Em]]; [discriminate|eauto].
      * injection EX as <-. apply SK; [exact I2|]. intros m q Em. apply upd_nth in Em.
        destruct Em as [[_ X]|[_ Em]]; [discriminate|eauto].
    + destruct w; [|discriminate]. injection EX as <-. apply SK; [exact I2|]. intros m q Em. apply upd_nth in Em.
      destruct Em as [[_ X]|[_ Em]]; [discriminate|eauto].
Qed.

Lemma reach_minv : forall s H, mreach s H -> minv s H.
Proof. intros s H R. induction R; [apply minv_init|]. eapply minv_step; eauto. Qed.

(** ** C55 *)

(** A lookup by id returns the anchor exactly when it is cached and readers may see it; says that
    it will not come exactly when it is not cached but a visible later one is; and otherwise
    waits. It never fails. *)
Theorem by_id_exact : forall s H id, mreach s H ->
  let d := s_data s in
  (forall a, attempt (ById id) d = Found a <-> cached d a /\ m_id a = id /\ visible d id) /\
  (attempt (ById id) d = Missing <->
     (forall a, cached d a -> m_id a <> id) /\
     exists b, cached d b /\ id < m_id b /\ visible d (m_id b)) /\
  (forall e, attempt (ById id) d <> Fail e).
Proof.
  intros s H id R d. destruct (reach_minv s H R) as [I1 I2 _ _]. pose proof (suffix_asc _ _ I1 I2) as S.
  fold d in S. cbn [attempt]. pose proof (by_id_char d id S) as C. unfold cached.
  destruct (try_by_id id d) as [|a| |e]; [| | |destruct C].
  - split; [|split; [|discriminate]].
    + intros a. split; [discriminate|]. intros (A & B & V). exfalso. apply (C a A); [lia|now rewrite B].
    + split; [discriminate|]. intros (_ & b & A & B & V). exfalso. apply (C b A); [lia|exact V].
  - destruct C as (A & B & V). split; [|split; [|discriminate]].
    + intros a'. split; [intros [= <-]; auto|]. intros (A' & B' & _). f_equal. apply (asc_id _ _ _ S A A'). congruence.
    + split; [discriminate|]. intros (X & _). destruct (X a A B).
  - destruct C as (A & B). split; [|split; [tauto|discriminate]].
    intros a'. split; [discriminate|]. intros (A' & B' & _). destruct (A a' A' B').
Qed.

(** The next anchor: it was produced by the mempool, readers may see it, no cached anchor lies
    between, and it names the previous anchor or nothing. When the previous anchor is still
    cached, nothing the mempool produced lies between. *)
Theorem next_is_successor : forall s H prev a, mreach s H ->
  attempt (Next prev) (s_data s) = Found a ->
  In a H /\ cached (s_data s) a /\ prev < m_id a /\ visible (s_data s) (m_id a) /\
  (forall b, cached (s_data s) b -> ~ (prev < m_id b < m_id a)) /\
  ((exists p, cached (s_data s) p /\ m_id p = prev) ->
     forall b, In b H -> ~ (prev < m_id b < m_id a)) /\
  (m_prev a = None \/ m_prev a = Some prev).
Proof.
  intros s H prev a R E. destruct (reach_minv s H R) as [I1 I2 _ I4]. pose proof (suffix_asc _ _ I1 I2) as S.
  cbn [attempt] in E. pose proof (next_char (s_data s) prev S) as C. rewrite E in C.
  destruct C as ((A & B & M) & V & P & _). unfold cached. destruct I2 as (pre & EH).
  split; [rewrite EH; apply in_or_app; now right|]. split; [exact A|]. split; [exact B|]. split; [exact V|].
  split; [intros b Hb D; specialize (M b Hb); lia|]. split; [|tauto].
  intros (q & Hq & Eq) b Hb D. rewrite EH in Hb. apply in_app_or in Hb. destruct Hb as [Hb|Hb].
  - rewrite EH in I1. apply asc_app in I1. destruct I1 as (_ & _ & X). specialize (X b q Hb Hq). lia.
  - specialize (M b Hb). lia.
Qed.

(** While the previous anchor is cached, the request is answered by its successor as soon as there
    is one that readers may see: it is neither refused nor answered with an error. *)
Theorem next_served : forall s H prev p b, mreach s H ->
  cached (s_data s) p -> m_id p = prev ->
  cached (s_data s) b -> prev < m_id b -> m_id b <= U32MAX -> visible (s_data s) (m_id b) ->
  exists a, attempt (Next prev) (s_data s) = Found a /\ m_id a <= m_id b.
Proof.
  intros s H prev p b R Hp Ep Hb Lb Mb Vb. destruct (reach_minv s H R) as [I1 I2 _ I4].
  pose proof (suffix_asc _ _ I1 I2) as S. unfold cached in *. cbn [attempt].
  pose proof (next_char (s_data s) prev S) as C.
  destruct (try_next prev (s_data s)) as [|a| |e].
  - destruct (C b Hb Lb Mb Vb).
  - exists a. split; [reflexivity|]. apply C; auto.
  - destruct C as [X _]. destruct X. exists p. auto.
  - exfalso. destruct C as (a & (A & B & M) & V & X).
    (* the successor of [p] in the chain *)
    assert (LK : m_prev a = None \/ m_prev a = Some prev).
    { destruct I2 as (pre & EH). apply in_split in Hp. destruct Hp as (l1 & l2 & EL). rewrite EL in *.
      apply asc_app in S. destruct S as (S1 & S2 & S3). inversion S2 as [|? ? S2' F]; subst.
      rewrite Forall_forall in F. unfold mlt in F.
      assert (Ha : In a l2).
      { apply in_app_or in A. destruct A as [A|[<-|A]]; [|lia|exact A].
        specialize (S3 a p A (or_introl eq_refl)). lia. }
      destruct l2 as [|z l2]; [destruct Ha|].
      assert (z = a).
      { destruct Ha as [->|H0]; [reflexivity|]. inversion S2' as [|? ? _ F2]; subst.
        rewrite Forall_forall in F2. specialize (F2 a H0). unfold mlt in F2.
        specialize (M z). rewrite in_app_iff in M. cbn [In] in M. specialize (F z (or_introl eq_refl)).
        assert (m_id a <= m_id z) by (apply M; [auto|lia]). lia. }
      subst z. apply (I4 (pre ++ l1) p a l2). rewrite <- app_assoc; first [reflexivity|now rewrite EH]. }
    destruct X as [(-> & _ & Y)|(_ & fp & Q & N)].
    + specialize (Y p Hp). lia.
    + destruct LK as [LK|LK]; rewrite Q in LK; [discriminate|]. injection LK as <-. now apply N.
Qed.

(** A request for the next anchor is refused, or fails, only when the previous anchor is not
    cached although a later visible one is. The only error is that the first cached anchor names
    the requested one, which has been cleared away. *)
Theorem next_refused : forall s H prev, mreach s H ->
  (attempt (Next prev) (s_data s) = Missing ->
     (forall p, cached (s_data s) p -> m_id p <> prev) /\
     exists b, cached (s_data s) b /\ prev < m_id b /\ visible (s_data s) (m_id b)) /\
  (forall e, attempt (Next prev) (s_data s) = Fail e ->
     (forall p, cached (s_data s) p -> m_id p <> prev) /\
     exists a, e = EFirstRemoved prev (m_id a) /\ cached (s_data s) a /\ m_prev a = Some prev /\
       forall b, cached (s_data s) b -> m_id a <= m_id b).
Proof.
  intros s H prev R. destruct (reach_minv s H R) as [I1 I2 _ I4].
  pose proof (suffix_asc _ _ I1 I2) as S. unfold cached in *. cbn [attempt].
  pose proof (next_char (s_data s) prev S) as C. split.
  - intros E. rewrite E in C. destruct C as [X Y]. split; [|exact Y]. intros p Hp Ep. apply X. exists p. auto.
  - intros e E. rewrite E in C. destruct C as (a & (A & B & M) & V & X).
    assert (NF : ~ (has_id (d_anchors (s_data s)) prev)).
    { intros (p & Hp & Ep).
      destruct X as [(_ & _ & Y)|(_ & fp & Q & N)]; [specialize (Y p Hp); lia|].
      assert (LK : m_prev a = None \/ m_prev a = Some prev).
      { destruct I2 as (pre & EH). apply in_split in Hp. destruct Hp as (l1 & l2 & EL). rewrite EL in *.
        apply asc_app in S. destruct S as (S1 & S2 & S3). inversion S2 as [|? ? S2' F]; subst.
        rewrite Forall_forall in F. unfold mlt in F.
        assert (Ha : In a l2).
        { apply in_app_or in A. destruct A as [A|[<-|A]]; [|lia|exact A].
          specialize (S3 a p A (or_introl eq_refl)). lia. }
        destruct l2 as [|z l2]; [destruct Ha|].
        assert (z = a).
        { destruct Ha as [->|H0]; [reflexivity|]. inversion S2' as [|? ? _ F2]; subst.
          rewrite Forall_forall in F2. specialize (F2 a H0). unfold mlt in F2.
          specialize (M z). rewrite in_app_iff in M. cbn [In] in M. specialize (F z (or_introl eq_refl)).
          assert (m_id a <= m_id z) by (apply M; [auto|lia]). lia. }
        subst z. apply (I4 (pre ++ l1) p a l2). rewrite <- app_assoc; first [reflexivity|now rewrite EH]. }
      destruct LK as [LK|LK]; rewrite Q in LK; [discriminate|]. injection LK as <-. now apply N. }
    split; [intros p Hp Ep; apply NF; exists p; auto|].
    destruct X as [(-> & P & Y)|(Z & _)]; [|contradiction]. exists a. auto.
Qed.

(** While the cache is closed after [k], no reader gets an anchor past [k]. *)
Theorem closed_hides : forall s H r a k, mreach s H -> d_off (s_data s) = Some k ->
  attempt r (s_data s) = Found a -> m_id a <= k.
Proof.
  intros s H r a k R O E. destruct (reach_minv s H R) as [I1 I2 _ _]. pose proof (suffix_asc _ _ I1 I2) as S.
  destruct r as [id|prev]; cbn [attempt] in E.
  - pose proof (by_id_char (s_data s) id S) as C. rewrite E in C. destruct C as (_ & <- & V).
    unfold visible in V. now rewrite O in V.
  - pose proof (next_char (s_data s) prev S) as C. rewrite E in C. destruct C as (_ & V & _).
    unfold visible in V. now rewrite O in V.
Qed.

(** Clearing keeps exactly the anchors from the given id on; reopening with data dropped keeps
    exactly those up to the closing id; the cached anchors are always the tail of the chain. *)
Theorem writers_exact : forall s H, mreach s H ->
  (forall k, d_anchors (mc_clear k (s_data s)) = filter (fun a => k <=? m_id a) (d_anchors (s_data s))) /\
  (forall k, d_off (s_data s) = Some k ->
     d_anchors (mc_reopen true (s_data s)) = filter (fun a => m_id a <=? k) (d_anchors (s_data s)) /\
     d_anchors (mc_reopen false (s_data s)) = d_anchors (s_data s)) /\
  (forall b, d_off (mc_reopen b (s_data s)) = None) /\
  (exists cleared, H = cleared ++ d_anchors (s_data s)) /\
  StronglySorted (fun a b => m_id a < m_id b) H.
Proof.
  intros s H R. destruct (reach_minv s H R) as [I1 I2 _ _]. pose proof (suffix_asc _ _ I1 I2) as S.
  split; [intros k; now apply clear_filter|]. split; [|split; [|split; [exact I2|exact I1]]].
  - intros k O. split; [now apply reopen_filter|]. unfold mc_reopen. now rewrite O.
  - intros b. unfold mc_reopen. destruct (d_off (s_data s)) eqn:O; [now destruct b|exact O].
Qed.

(** A repeated push changes nothing, and is refused exactly when it differs from the cached
    anchor. *)
Lemma ext_diff_eq : forall a b, length a = length b -> (ext_diff a b = false <-> a = b).
Proof.
  induction a as [|x a IH]; intros [|y b] L; try discriminate; [easy|]. cbn [ext_diff].
  rewrite orb_false_iff, IH by (cbn in L; lia). destruct (N.eqb_spec x y) as [->|N]; cbn [negb].
  - split; [intros [_ ->]; reflexivity|intros [= ->]; auto].
  - split; [intros [E _]; discriminate|intros [= E _]; contradiction].
Qed.

Theorem push_again : forall d a old, asc (d_anchors d) -> cached d old -> m_id old = m_id a ->
  fst (fst (mc_push a d)) = d /\ (snd (mc_push a d) = false <-> same_anchor old a).
Proof.
  intros d a old S Ho Eo. unfold mc_push.
  destruct (lookup (m_id a) (d_anchors d)) as [o|] eqn:L.
  2:{ destruct (lookup_none _ _ L old Ho Eo). }
  assert (o = old).
  { apply find_some in L. destruct L as [L1 L2]. apply (asc_id _ _ _ S L1 Ho). lia. }
  subst o. cbn [fst snd]. split; [reflexivity|]. unfold fork_error, same_anchor.
  rewrite !orb_false_iff, !negb_false_iff, !N.eqb_eq, Nat.eqb_eq.
  assert (P : (match m_prev a with None => false | Some _ => negb (opt_eqb (m_prev old) (m_prev a)) end = false)
              <-> (m_prev a = None \/ m_prev old = m_prev a)).
  { destruct (m_prev a) as [x|], (m_prev old) as [y|]; cbn [opt_eqb negb].
    - destruct (N.eqb_spec y x) as [->|N]; cbn; [tauto|]. split; [discriminate|]. intros [E|[= E]]; [discriminate|contradiction].
    - split; [discriminate|]. intros [E|E]; discriminate.
    - tauto.
    - tauto. }
  rewrite P. split.
  - intros ((((A & B) & C) & D) & E). rewrite C, Nat.eqb_refl in D. cbn [andb] in D.
    apply ext_diff_eq in D; [|exact C]. auto.
  - intros (A & B & C & D). rewrite B, Nat.eqb_refl. cbn [andb]. repeat split; auto. now apply ext_diff_eq.
Qed.

(** No wake-up is lost: when no writer still owes a notification, a reader that sleeps without one
    has nothing to return. *)
Theorem no_lost_wakeup : forall s H n r, mreach s H -> s_pending s = O ->
  nth_error (s_readers s) n = Some (PWait r false) -> attempt r (s_data s) = Wait.
Proof.
  intros s H n r R P E. destruct (reach_minv s H R) as [_ _ I3 _]. destruct (I3 n r E) as [X|X]; [lia|exact X].
Qed.

(** So an unfinished reader whose answer is there finishes by its own steps. *)
Theorem reader_finishes : forall s H n p, mreach s H -> s_pending s = O ->
  nth_error (s_readers s) n = Some p -> done p = false -> attempt (req p) (s_data s) <> Wait ->
  exists k s', (k <= 3)%nat /\ mrun s (repeat (LRead n) k) = Some s' /\
    nth_error (s_readers s') n = Some (PDone (req p) (attempt (req p) (s_data s))).
Proof.
  intros s H n p R P E D A.
  assert (SUB : forall q w, nth_error (s_readers q) n = Some (PSub (req p) w) -> s_data q = s_data s ->
    exists q', mexec q (LRead n) = Some q' /\
      nth_error (s_readers q') n = Some (PDone (req p) (attempt (req p) (s_data s)))).
  { intros q w Eq Dq. cbn [mexec]. rewrite Eq, Dq.
    destruct (attempt (req p) (s_data s)) eqn:AT; [contradiction| | |];
      (eexists; split; [reflexivity|]; cbn [s_readers]; eapply upd_same; exact Eq). }
  assert (START : forall q, nth_error (s_readers q) n = Some (PStart (req p)) -> s_data q = s_data s ->
    exists q', mrun q [LRead n; LRead n] = Some q' /\
      nth_error (s_readers q') n = Some (PDone (req p) (attempt (req p) (s_data s)))).
  { intros q Eq Dq.
    set (q1 := mkS (s_data q) (s_pending q) (upd n (PSub (req p) false) (s_readers q)) (s_errors q)).
    assert (X : mexec q (LRead n) = Some q1) by (cbn [mexec]; now rewrite Eq).
    destruct (SUB q1 false) as (q2 & X2 & Y2); [cbn [q1 s_readers]; eapply upd_same; exact Eq|exact Dq|].
    exists q2. cbn [mrun]. rewrite X, X2. auto. }
  destruct p as [r|r w|r w|r o]; cbn [req done] in *; [| | |discriminate].
  - destruct (START s E eq_refl) as (s' & X & Y). exists 2%nat, s'. split; [lia|]. auto.
  - destruct (SUB s w E eq_refl) as (s' & X & Y). exists 1%nat, s'. split; [lia|]. cbn [repeat mrun]. rewrite X. auto.
  - destruct w; [|destruct A; eapply no_lost_wakeup; eauto].
    set (q1 := mkS (s_data s) (s_pending s) (upd n (PStart r) (s_readers s)) (s_errors s)).
    assert (X : mexec s (LRead n) = Some q1) by (cbn [mexec]; now rewrite E).
    destruct (START q1) as (s' & X2 & Y2); [cbn [q1 s_readers]; eapply upd_same; exact E|reflexivity|].
    exists 3%nat, s'. split; [lia|]. cbn [repeat]. cbn [mrun]. rewrite X. cbn [mrun] in X2. auto.
Qed.

(** Every answer is the outcome of an attempt in some reachable state since. *)
Theorem answer_from_state : forall s H n r o, mreach s H ->
  nth_error (s_readers s) n = Some (PDone r o) ->
  exists s1 H1, mreach s1 H1 /\ attempt r (s_data s1) = o /\ o <> Wait.
Proof.
  intros s H n r o R. induction R as [|s H l s' R IH EV EX]; intros E; [destruct n; discriminate|].
  assert (K : nth_error (s_readers s) n = Some (PDone r o) \/
              (exists w, nth_error (s_readers s) n = Some (PSub r w)) /\ attempt r (s_data s) = o /\ o <> Wait).
  { destruct l as [a|k|b| |k| |q|m]; cbn [mexec] in EX.
    - destruct (mc_push a (s_data s)) as [[d' ntf] err]. injection EX as <-. now left.
    - injection EX as <-. now left.
    - destruct (d_off (s_data s)); injection EX as <-; now left.
    - injection EX as <-. now left.
    - injection EX as <-. now left.
    - destruct (s_pending s); [discriminate|]. injection EX as <-. left. cbn [s_readers] in E.
      rewrite nth_error_map in E. destruct (nth_error (s_readers s) n) as [[]|]; cbn in E; try discriminate. exact E.
    - injection EX as <-. left. cbn [s_readers] in E.
      destruct (Nat.lt_ge_cases n (length (s_readers s))) as [L|L].
      + now rewrite nth_error_app1 in E by exact L.
      + rewrite nth_error_app2 in E by exact L. destruct (n - length (s_readers s))%nat as [|[|j]]; discriminate.
    - destruct (nth_error (s_readers s) m) as [[q|q w|q w|q o']|] eqn:Em; try discriminate.
      + injection EX as <-. apply upd_nth in E. destruct E as [[_ X]|[_ E]]; [discriminate|now left].
      + destruct (attempt q (s_data s)) eqn:AT; injection EX as <-; apply upd_nth in E;
          (destruct E as [[-> X]|[_ E]]; [|now left]); try discriminate;
          injection X as -> ->; right; (split; [exists w; exact Em|]; split; [exact AT|discriminate]).
      + destruct w; [|discriminate]. injection EX as <-. apply upd_nth in E.
        destruct E as [[_ X]|[_ E]]; [discriminate|now left]. }
  destruct K as [K|(_ & A & N)]; [auto|]. exists s, H. auto.
Qed.

(** ** A concrete run *)

Definition exa (id : N) (p : option N) : manchor := mkM id p (id * 10) [id] 7.

Definition ex_steps : list mstep :=
  [LCall (Next 5); LRead 0; LRead 0; LPush (exa 5 None); LNotify; LPush (exa 6 (Some 5)); LClose 5; LRead 0;
   LRead 0; LRead 0; LNotify; LNotify; LReopen false; LNotify; LRead 0; LRead 0; LRead 0; LPush (exa 9 (Some 6));
   LClear 6; LNotify; LCall (Next 6); LRead 1; LRead 1].

Fixpoint chain_run (s : msys) (H : list manchor) (ls : list mstep) : list manchor :=
  match ls with
  | [] => H
  | l :: t => match mexec s l with Some s' => chain_run s' (chain_next s H l) t | None => H end
  end.

Definition ex_fin := Eval vm_compute in
  match mrun ms_init ex_steps with Some s => s | None => ms_init end.

Fixpoint env_run (s : msys) (H : list manchor) (ls : list mstep) : Prop :=
  match ls with
  | [] => True
  | l :: t => env s H l /\ match mexec s l with Some s' => env_run s' (chain_next s H l) t | None => True end
  end.

Lemma run_reach : forall ls s H s', mreach s H -> env_run s H ls -> mrun s ls = Some s' ->
  mreach s' (chain_run s H ls).
Proof.
  induction ls as [|l t IH]; intros s H s' R E X; cbn in *.
  - injection X as <-. exact R.
  - destruct (mexec s l) as [s1|] eqn:EX; [|discriminate]. destruct E as [E1 E2].
    apply IH; auto. econstructor; eauto.
Qed.

Definition envb (s : msys) (H : list manchor) (l : mstep) : bool :=
  match l with
  | LPush a =>
      forallb (fun b => m_id b <? m_id a) H &&
      match m_prev a with
      | None => true
      | Some p => match rev H with b :: _ => p =? m_id b | [] => false end
      end
  | _ => true
  end.

Lemma envb_env : forall s H l, envb s H l = true -> env s H l.
Proof.
  intros s H [a| | | | | | |] E; cbn [env envb] in *; try exact I. right.
  apply andb_true_iff in E. destruct E as [E1 E2]. rewrite forallb_forall in E1. split.
  - intros b Hb. specialize (E1 b Hb). lia.
  - destruct (m_prev a) as [p|]; [|now left]. right. destruct (rev H) as [|b t] eqn:R; [discriminate|].
    exists (rev t), b. split; [|f_equal; lia]. apply (f_equal (@rev _)) in R. rewrite rev_involutive in R.
    rewrite R. reflexivity.
Qed.

Fixpoint env_runb (s : msys) (H : list manchor) (ls : list mstep) : bool :=
  match ls with
  | [] => true
  | l :: t => envb s H l && match mexec s l with Some s' => env_runb s' (chain_next s H l) t | None => true end
  end.

Lemma env_runb_run : forall ls s H, env_runb s H ls = true -> env_run s H ls.
Proof.
  induction ls as [|l t IH]; intros s H E; cbn [env_run env_runb] in *; [exact I|].
  apply andb_true_iff in E. destruct E as [E1 E2]. split; [now apply envb_env|].
  destruct (mexec s l); auto.
Qed.

Theorem mcache_run_example : mrun ms_init ex_steps = Some ex_fin /\
  s_readers ex_fin = [PDone (Next 5) (Found (exa 6 (Some 5))); PDone (Next 6) (Found (exa 9 (Some 6)))] /\
  mreach ex_fin [exa 5 None; exa 6 (Some 5); exa 9 (Some 6)].
Proof.
  assert (X : mrun ms_init ex_steps = Some ex_fin) by (vm_compute; reflexivity).
  split; [exact X|]. split; [vm_compute; reflexivity|].
  assert (C : chain_run ms_init [] ex_steps = [exa 5 None; exa 6 (Some 5); exa 9 (Some 6)])
    by (vm_compute; reflexivity).
  rewrite <- C. apply run_reach; [exact MR_init| |exact X].
  apply env_runb_run. vm_compute. reflexivity.
Qed.

(** ** What does not hold *)

(** When the first cached anchor starts a new chain, any older id is answered with it, even if
    the mempool had produced anchors in between that were cleared since: the answer is then not
    the next anchor. *)
Theorem next_skips_cleared : exists s H prev a b, mreach s H /\
  attempt (Next prev) (s_data s) = Found a /\ In b H /\ prev < m_id b < m_id a.
Proof.
  exists (mkS (mkD [exa 9 None] None) 2 [] []), [exa 6 None; exa 9 None], 5, (exa 9 None), (exa 6 None).
  split; [|vm_compute; repeat split; auto].
  assert (C : chain_run ms_init [] [LPush (exa 6 None); LPush (exa 9 None); LClear 8] = [exa 6 None; exa 9 None])
    by (vm_compute; reflexivity).
  rewrite <- C. apply run_reach; [exact MR_init| |vm_compute; reflexivity].
  apply env_runb_run. vm_compute. reflexivity.
Qed.
