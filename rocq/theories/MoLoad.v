(** C90: a restart need not read the whole journal. *)
From Coq Require Import List NArith Bool Arith Lia ZifyN ZifyNat ZifyBool Sorted.
From Verif Require Import MoModel MoHist MoThms.
Import ListNotations.
Local Open Scope N_scope.

Lemma counted_sorted p tag j k : StronglySorted klt (map r_key j) -> Forall (fun x => klt (r_key x) k) j ->
  StronglySorted klt (counted p tag j ++ [k]).
Proof.
  intros SS B2. induction j as [|x j IH]; cbn; [repeat constructor|].
  cbn in SS. inversion SS as [|? ? S1 F1]; subst. inversion B2 as [|? ? X1 X2]; subst. specialize (IH S1 X2).
  destruct (r_kind x) as [tg [|]|u|]; cbn; auto. destruct (_ && _); cbn; auto. constructor; [exact IH|].
  apply Forall_app. split; [|repeat constructor; assumption].
  clear - F1. induction j as [|y j IH]; cbn; [constructor|]. inversion F1; subst. apply Forall_app. split; [|now apply IH].
  destruct (r_kind y) as [tg [|]|u|]; try constructor. destruct (_ && _); repeat constructor. assumption.
Qed.
Lemma sorted_nodup l : StronglySorted klt l -> NoDup l.
Proof. induction 1 as [|x l S IH F]; constructor; [|assumption]. intros H. rewrite Forall_forall in F. apply (klt_irr x). now apply F. Qed.
Lemma sorted_latest l k : StronglySorted klt (l ++ [k]) -> forall x, In x l -> k_time x <= k_time k.
Proof.
  induction l as [|y l IH]; cbn; [contradiction|]. intros S. inversion S as [|? ? S1 F]; subst. intros x [<-|H]; [|now apply IH].
  apply Forall_app in F as [_ F]. inversion F; subst. now apply klt_time.
Qed.
Lemma latest_is l k : (forall x, In x l -> k_time x <= k_time k) -> latest (l ++ [k]) = k_time k.
Proof.
  intros H. rewrite latest_snoc. assert (L : latest l <= k_time k); [|lia].
  induction l as [|y l IH] using rev_ind; [cbn; lia|]. rewrite latest_snoc.
  assert (latest l <= k_time k) by (apply IH; intros; apply H, in_or_app; auto).
  assert (k_time y <= k_time k) by (apply H, in_or_app; right; now left). lia.
Qed.
Lemma filter_len {A} (f g : A -> bool) l : (length (filter f (filter g l)) <= length (filter f l))%nat.
Proof. induction l as [|x l IH]; cbn; [lia|]. destruct (g x); cbn; destruct (f x); cbn; lia. Qed.

(** Less of the history never makes a ban, nor changes when it ends. *)
Lemma less_history c l k since : StronglySorted klt (l ++ [k]) ->
  let l' := filter (fun x => since <=? k_time x) l in
  snd (maybe_ban_until c k (replay c l')) = None \/ snd (maybe_ban_until c k (replay c l')) = snd (maybe_ban_until c k (replay c l)).
Proof.
  intros SS l'. pose proof (sorted_latest _ _ SS) as L. pose proof (sorted_nodup _ SS) as ND.
  assert (L' : forall x, In x l' -> k_time x <= k_time k) by (intros x H; apply filter_In in H as [H _]; auto).
  destruct (c_tol c) as [[win cnt]|] eqn:E.
  - assert (ND' : NoDup (l' ++ [k])).
    { apply NoDup_rev in ND. rewrite rev_app_distr in ND. cbn in ND. inversion ND as [|? ? N1 N2]; subst.
      rewrite <- in_rev in N1. rewrite <- (rev_involutive (l' ++ [k])). apply NoDup_rev. rewrite rev_app_distr. cbn. constructor.
      - rewrite <- in_rev. intros H. apply filter_In in H as [H _]. contradiction.
      - apply NoDup_rev. apply nodup_filter. apply NoDup_rev in N2. now rewrite rev_involutive in N2. }
    rewrite (ban_iff_too_many c win cnt l k E ND), (ban_iff_too_many c win cnt l' k E ND').
    unfold in_window. rewrite !latest_is by assumption.
    destruct (N.leb_spec (k_time k - win) (k_time k)); cbn [andb]; [|now left].
    match goal with |- context [(cnt <? length ?a)%nat] => destruct (Nat.ltb_spec cnt (length a)) as [A|A] end; [|now left].
    match goal with |- context [(cnt <? length ?a)%nat] => destruct (Nat.ltb_spec cnt (length a)) as [B|B] end; [now right|].
    exfalso. rewrite filter_app, app_length in A, B. unfold l' in A.
    pose proof (filter_len (fun x => k_time k - win <=? k_time x) (fun x => since <=? k_time x) l). lia.
  - right. rewrite !ban_at_once by assumption. now rewrite !latest_is by assumption.
Qed.

Lemma start_now conf j t ps : now (start conf j t ps) = t.
Proof.
  assert (X : forall f ps z, now (fold_left (install f) ps z) = now z).
  { intros f l. induction l as [|p l IH]; intros z; cbn; [reflexivity|]. rewrite IH. unfold install. destruct (f p) as [[u [k|]]|]; reflexivity. }
  unfold start. now rewrite X.
Qed.

Section Load.
Context (conf : config) (ttl sp al : N) (SA : sp <= al).
Local Notation restore := (restore conf).
Local Notation load := (loaded sp al).

Lemma load_app a b : load (a ++ b) = load a ++ load b.
Proof. apply filter_app. Qed.
Lemma counted_load p tag j : counted p tag (load j) = filter (fun x => al <=? k_time x) (counted p tag j).
Proof.
  induction j as [|x j IH]; [reflexivity|]. change (x :: j) with ([x] ++ j). rewrite load_app, !counted_app, filter_app, IH. f_equal.
  unfold loaded, counted. cbn. destruct (N.leb_spec (N.min sp al) (k_time (r_key x))) as [A|A]; cbn;
    destruct (N.ltb_spec (k_time (r_key x)) al) as [B|B]; cbn; destruct (r_kind x) as [tg [|]|u|] eqn:K; cbn; rewrite ?K; cbn; auto;
    destruct ((r_peer x =? p) && (tg =? tag)); cbn; auto; destruct (N.leb_spec al (k_time (r_key x))); cbn; auto; lia.
Qed.

Definition same (t : N) (j : list record) : Prop := forall p, rs_temp (restore t (load j)) p = rs_temp (restore t j) p.

Lemma load_ban k p u : load [{| r_key := k; r_peer := p; r_kind := RBanned u |}] =
  if sp <=? k_time k then [{| r_key := k; r_peer := p; r_kind := RBanned u |}] else [].
Proof. unfold loaded. cbn. replace (N.min sp al) with sp by lia. destruct (sp <=? k_time k); cbn; [|reflexivity]. now destruct (k_time k <? al). Qed.
Lemma load_unban k p : load [{| r_key := k; r_peer := p; r_kind := RUnbanned |}] =
  if sp <=? k_time k then [{| r_key := k; r_peer := p; r_kind := RUnbanned |}] else [].
Proof. unfold loaded. cbn. replace (N.min sp al) with sp by lia. destruct (sp <=? k_time k); cbn; [|reflexivity]. now destruct (k_time k <? al). Qed.
Lemma load_event k p tag rel : load [{| r_key := k; r_peer := p; r_kind := REvent tag rel |}] =
  if al <=? k_time k then [{| r_key := k; r_peer := p; r_kind := REvent tag rel |}] else [].
Proof.
  unfold loaded. cbn. replace (N.min sp al) with sp by lia. destruct (N.ltb_spec (k_time k) al).
  - destruct (N.leb_spec al (k_time k)); [lia|]. now rewrite andb_false_r.
  - destruct (N.leb_spec al (k_time k)); [|lia]. destruct (N.leb_spec sp (k_time k)); [reflexivity|lia].
Qed.

(** a ban, of which only the temporary map matters *)
Definition ban_temp (t : N) (f : N -> option temp) (p u : N) (k : key) : N -> option temp :=
  if (t <? u) && match f p with None => true | Some (o, _) => o <=? u end then put p (Some (u, Some k)) f else f.
Lemma restore_banned t j k p u :
  rs_temp (restore t (j ++ [{| r_key := k; r_peer := p; r_kind := RBanned u |}])) = ban_temp t (rs_temp (restore t j)) p u k.
Proof. rewrite restore_snoc. unfold restore_one, ban_temp. cbn [r_kind r_peer r_key]. now destruct (_ && _). Qed.
Lemma ban_temp_same t f g p u k : (forall q, f q = g q) -> forall q, ban_temp t f p u k q = ban_temp t g p u k q.
Proof.
  intros H q. unfold ban_temp. rewrite <- (H p). destruct (_ && _); [|apply H]. unfold put. destruct (q =? p); [reflexivity|apply H].
Qed.
Lemma ban_temp_late t f p u k : u <= t -> ban_temp t f p u k = f.
Proof. intros H. unfold ban_temp. destruct (N.ltb_spec t u); [lia|reflexivity]. Qed.

Lemma same_ban t j k p u : same t j -> (k_time k < sp -> u <= t) -> same t (j ++ [{| r_key := k; r_peer := p; r_kind := RBanned u |}]).
Proof.
  intros S H q. rewrite load_app, load_ban, restore_banned. destruct (N.leb_spec sp (k_time k)).
  - rewrite restore_banned. now apply ban_temp_same.
  - rewrite app_nil_r, ban_temp_late by auto. apply S.
Qed.
Lemma same_unban t j k p : same t j -> (k_time k < sp -> rs_temp (restore t j) p = None) ->
  same t (j ++ [{| r_key := k; r_peer := p; r_kind := RUnbanned |}]).
Proof.
  intros S H q. rewrite load_app, load_unban, (restore_snoc conf t j). cbn [restore_one r_kind r_peer rs_temp]. destruct (N.leb_spec sp (k_time k)).
  - rewrite restore_snoc. cbn [restore_one r_kind r_peer rs_temp]. unfold put. destruct (q =? p); [reflexivity|apply S].
  - rewrite app_nil_r, S. unfold put. destruct (N.eqb_spec q p) as [->|]; auto.
Qed.
Lemma event_temp t j k p tag rel :
  rs_temp (restore t (j ++ [{| r_key := k; r_peer := p; r_kind := REvent tag rel |}])) =
  if rel then
    match snd (maybe_ban_until (conf tag) k (rs_events (restore t j) p tag)) with
    | Some u => if (t <? u) && match rs_temp (restore t j) p with None => true | Some (o, _) => o <? u end
                then put p (Some (u, None)) (rs_temp (restore t j)) else rs_temp (restore t j)
    | None => rs_temp (restore t j)
    end
  else rs_temp (restore t j).
Proof.
  rewrite restore_snoc. unfold restore_one. cbn [r_kind r_peer r_key]. destruct rel; [|reflexivity].
  destruct (maybe_ban_until _ _ _) as [h [u|]]; cbn [snd]; [|reflexivity].
  match goal with |- context [if ?c then {| rs_events := _; rs_temp := put _ _ _ |} else _] => destruct c end; reflexivity.
Qed.
Lemma same_event t j k p tag rel : same t j ->
  (rel = true -> snd (maybe_ban_until (conf tag) k (rs_events (restore t j) p tag)) = None /\
                 snd (maybe_ban_until (conf tag) k (rs_events (restore t (load j)) p tag)) = None) ->
  same t (j ++ [{| r_key := k; r_peer := p; r_kind := REvent tag rel |}]).
Proof.
  intros S H q. rewrite load_app, load_event, (event_temp t j). replace (if rel then _ else _) with (rs_temp (restore t j)).
  2:{ destruct rel; [|reflexivity]. destruct (H eq_refl) as [-> _]. reflexivity. }
  destruct (al <=? k_time k); [|rewrite app_nil_r; apply S]. rewrite event_temp. destruct rel; [|apply S].
  destruct (H eq_refl) as [_ ->]. apply S.
Qed.
(** an event which bans, and its ban: as the ban alone *)
Lemma event_ban_temp t j k k' p tag u : snd (maybe_ban_until (conf tag) k (rs_events (restore t j) p tag)) = Some u ->
  forall q, rs_temp (restore t ((j ++ [{| r_key := k; r_peer := p; r_kind := REvent tag true |}]) ++ [{| r_key := k'; r_peer := p; r_kind := RBanned u |}])) q =
            ban_temp t (rs_temp (restore t j)) p u k' q.
Proof.
  intros M q. rewrite restore_banned, event_temp, M. unfold ban_temp. set (f := rs_temp _). clearbody f.
  destruct (N.ltb_spec t u); cbn [andb]; [|reflexivity]. destruct (f p) as [[o kk]|] eqn:E.
  - destruct (N.ltb_spec o u).
    + rewrite put_same, N.leb_refl. destruct (N.leb_spec o u); [|lia]. unfold put. now destruct (q =? p).
    + rewrite E. reflexivity.
  - rewrite put_same, N.leb_refl. unfold put. now destruct (q =? p).
Qed.
Lemma same_event_ban t j k k' p tag u : same t j -> k_time k' = k_time k ->
  snd (maybe_ban_until (conf tag) k (rs_events (restore t j) p tag)) = Some u ->
  (snd (maybe_ban_until (conf tag) k (rs_events (restore t (load j)) p tag)) = None \/
   snd (maybe_ban_until (conf tag) k (rs_events (restore t (load j)) p tag)) = Some u) ->
  (k_time k < sp -> u <= t) ->
  same t ((j ++ [{| r_key := k; r_peer := p; r_kind := REvent tag true |}]) ++ [{| r_key := k'; r_peer := p; r_kind := RBanned u |}]).
Proof.
  intros S EK M M' H q. rewrite event_ban_temp by assumption. rewrite !load_app, load_event, load_ban, EK.
  destruct (N.leb_spec sp (k_time k)).
  - destruct (al <=? k_time k).
    + destruct M' as [M'|M'].
      * rewrite restore_banned, event_temp, M'. now apply ban_temp_same.
      * rewrite event_ban_temp by assumption. now apply ban_temp_same.
    + rewrite app_nil_r, restore_banned. now apply ban_temp_same.
  - destruct (N.leb_spec al (k_time k)); [lia|]. rewrite !app_nil_r, ban_temp_late by auto. apply S.
Qed.

(** ** The invariant *)
(** No manual ban of a history lasts longer. *)
Fixpoint lasting (s : st) (h : list op) : Prop :=
  match h with
  | [] => True
  | o :: r => match o with OManualBan _ u => u <= now s + ttl | _ => True end /\ lasting (fst (step conf s o)) r
  end.
Context (DUR : forall tag, c_dur (conf tag) <= ttl).
Definition linv (s : st) : Prop :=
  inv conf s /\ (forall p u, until_of (cur s p) = Some u -> u <= now s + ttl) /\
  forall t, now s <= t -> sp + ttl <= t -> same t (journal s).

Lemma linv_keep s s' : linv s -> inv conf s' -> journal s' = journal s -> now s <= now s' ->
  (forall p, until_of (cur s' p) = until_of (cur s p) \/ until_of (cur s' p) = None) -> linv s'.
Proof.
  intros (I & U & S) I' J N C. split; [assumption|]. split.
  - intros p u E. destruct (C p) as [X|X]; rewrite X in E; [|discriminate]. specialize (U p u E). lia.
  - intros t T1 T2. rewrite J. apply S; lia.
Qed.
Lemma longer_bound o u v b : longer o u = Some v -> (forall w, o = Some w -> w <= b) -> u <= b -> v <= b.
Proof. destruct o as [w|]; cbn; intros [= <-] H L; [specialize (H w eq_refl); lia|assumption]. Qed.

Lemma answer_bound s p tag u : inv conf s ->
  snd (maybe_ban_until (conf tag) (new_key s) (events s p tag)) = Some u -> u <= now s + ttl.
Proof.
  intros (_ & _ & _ & EV & _ & _ & SS & BE) M. rewrite EV in M.
  pose proof (counted_sorted p tag (journal s) (new_key s) SS BE) as CS. set (l := counted p tag (journal s)) in *.
  pose proof (sorted_latest _ _ CS) as L. pose proof (DUR tag).
  destruct (c_tol (conf tag)) as [[win cnt]|] eqn:E.
  - rewrite (ban_iff_too_many _ win cnt l _ E (sorted_nodup _ CS)) in M. destruct (_ && _); [|discriminate].
    injection M as <-. rewrite latest_is by assumption. cbn. lia.
  - rewrite ban_at_once in M by assumption. injection M as <-. rewrite latest_is by assumption. cbn. lia.
Qed.
Lemma answer_loaded s t p tag : inv conf s ->
  snd (maybe_ban_until (conf tag) (new_key s) (rs_events (restore t (journal s)) p tag)) = snd (maybe_ban_until (conf tag) (new_key s) (events s p tag)) /\
  (snd (maybe_ban_until (conf tag) (new_key s) (rs_events (restore t (load (journal s))) p tag)) = None \/
   snd (maybe_ban_until (conf tag) (new_key s) (rs_events (restore t (load (journal s))) p tag)) =
   snd (maybe_ban_until (conf tag) (new_key s) (events s p tag))).
Proof.
  intros (_ & _ & _ & EV & _ & _ & SS & BE). rewrite !restore_events, counted_load, EV. split; [reflexivity|].
  apply less_history. now apply counted_sorted.
Qed.

Lemma linv_event s p tag store rel : linv s -> linv (on_event conf s p tag store rel).
Proof.
  intros L. pose proof L as (I & U & S). split; [now apply inv_event|]. unfold on_event. destruct store; [|exact (conj U S)].
  destruct rel.
  - set (s1 := log _ _). change (events s1 p tag) with (events s p tag).
    pose proof (answer_bound s p tag) as AB. pose proof (fun t => answer_loaded s t p tag I) as AL.
    destruct (maybe_ban_until (conf tag) (new_key s) (events s p tag)) as [h [u|]]; cbn [snd] in AB, AL.
    + match goal with |- context [apply_ban ?x ?y ?z] => destruct (apply_ban x y z) as [s3 ok] eqn:A end.
      destruct (apply_ban_spec _ _ _ _ _ A) as (_ & _ & E3 & E4 & _ & _ & OTH & UN & _).
      cbn in E3, E4, UN. cbn [cur now journal log]. rewrite E3, E4. specialize (AB u I eq_refl). split.
      * intros q v E. destruct (N.eq_dec q p) as [->|NE].
        -- rewrite UN in E. eapply longer_bound; [exact E| |exact AB]. intros w W. now apply (U p).
        -- destruct (OTH q NE) as (X & _). rewrite X in E. now apply (U q).
      * intros t T1 T2. apply same_event_ban; auto; cbn; try apply AL. intros. lia.
    + split; [exact U|]. intros t T1 T2. apply same_event; [now apply S|]. intros _. destruct (AL t) as [X [Y|Y]]; auto.
  - split; [exact U|]. intros t T1 T2. apply same_event; [now apply S|discriminate].
Qed.

Lemma linv_do_unban s p b manual : linv s -> sched s p = Some b ->
  linv (fst (do_unban (with_sched s (put p None (sched s))) p (b_until b) manual)).
Proof.
  intros L SC. pose proof L as (I & U & S). pose proof (do_unban_spec conf s p b manual I SC) as H.
  pose proof I as (CR & CH & NT & EV & TU & SO & SS & BE).
  unfold do_unban, unban in *. cbn [cur with_sched] in *. destruct (cur s p) as [c|] eqn:C.
  - destruct (N.ltb_spec (b_until c) (b_until b)); [destruct H as (I' & _); destruct I' as (X & _); discriminate|].
    destruct (N.eqb_spec (b_until c) (b_until b)).
    + destruct H as (I' & _). split; [exact I'|]. cbn [fst]. split.
      * cbn. intros q u E. unfold put in E. destruct (q =? p); [discriminate|]. now apply (U q).
      * intros t T1 T2. cbn in T1. apply same_unban; [now apply S|]. cbn. intros K.
        specialize (TU t p T1). rewrite C in TU. cbn in TU. specialize (U p (b_until c)). rewrite C in U. specialize (U eq_refl).
        unfold temp_until in TU. destruct (N.ltb_spec t (b_until c)); [lia|]. destruct (rs_temp _ p); [discriminate|reflexivity].
    + destruct H as (I' & _). cbn [fst]. apply (linv_keep s); auto; cbn; lia.
  - destruct H as (I' & _). destruct I' as (X & _). discriminate.
Qed.

Lemma linv_step s o : linv s ->
  match o with ORestart ps => enumerates (rs_temp (restore (now s + 1) (journal s))) ps | _ => True end ->
  match o with OManualBan _ u => u <= now s + ttl | _ => True end -> linv (fst (step conf s o)).
Proof.
  intros L F B. pose proof L as (I & U & S). pose proof (inv_step conf s o I F) as I2. pose proof I as (CR & _).
  destruct o as [d|p tag store rel|p u|p| |p|ps].
  - apply (linv_keep s); auto; unfold step; rewrite CR; cbn; auto. lia.
  - apply (linv_keep s); auto; unfold step; rewrite CR; cbn; auto; lia.
  - split; [assumption|]. unfold step. rewrite CR. destruct (apply_ban _ _ _) as [s1 ok] eqn:A.
    destruct (apply_ban_spec _ _ _ _ _ A) as (_ & _ & E3 & E4 & _ & _ & OTH & UN & _). cbn in E3, E4, UN.
    assert (UU : forall q v, until_of (cur s1 q) = Some v -> v <= now s + ttl).
    { intros q v E. destruct (N.eq_dec q p) as [->|NE].
      - rewrite UN in E. eapply longer_bound; [exact E| |exact B]. intros w W. now apply (U p).
      - destruct (OTH q NE) as (X & _). rewrite X in E. now apply (U q). }
    destruct ok; cbn [fst]; cbn [cur now journal log]; rewrite E3, E4; split; auto.
    intros t T1 T2. apply same_ban; [now apply S|]. cbn. lia.
  - apply (linv_keep s); auto; unfold step; rewrite CR; cbn; auto; lia.
  - unfold step in *. rewrite CR in *. destruct (chan s) as [|i rest] eqn:CC; [exact L|].
    assert (LP : match i with IBanned _ _ => True | _ => linv (with_chan s rest) end).
    { pose proof (inv_pop conf s i rest I CC) as P. destruct i; auto; (apply (linv_keep s); auto; cbn; lia). }
    cbv zeta in *. destruct i as [p tag store rel|p b|p].
    + cbn [fst]. now apply linv_event.
    + destruct (sched (with_chan s rest) p) as [old|]; [destruct (_ <? _)|]; cbn [fst] in *; apply (linv_keep s); auto; cbn; lia.
    + destruct (sched (with_chan s rest) p) as [b|] eqn:SC; [|exact LP]. now apply linv_do_unban.
  - unfold step. rewrite CR. destruct (sched s p) as [b|] eqn:SC; [|exact L]. destruct (b_until b <=? now s); [|exact L].
    now apply linv_do_unban.
  - destruct (start_spec conf s ps I F) as (_ & CU & _ & J). unfold step in *. rewrite CR in *. cbn [fst] in *.
    assert (NW : now (start conf (journal s) (now s + 1) ps) = now s + 1).
    { apply start_now. }
    apply (linv_keep s); auto; [lia|]. intros p. rewrite CU. unfold running. destruct (until_of (cur s p)) as [u|]; auto. destruct (_ <? _); auto.
Qed.
Lemma linv_run h : forall s, linv s -> fair conf s h -> lasting s h -> linv (run conf s h).
Proof.
  induction h as [|o h IH]; cbn; intros s I F L; [assumption|]. destruct F as [F1 F2], L as [L1 L2]. apply IH; auto. now apply linv_step.
Qed.
Lemma linv_init : linv (init conf).
Proof.
  split; [apply inv_init|]. split; [intros p u E; discriminate|]. intros t _ _ p. reflexivity.
Qed.

(** A start which leaves out the records older than a ban may last, and the events older than [al], restores
    the same bans with the same keys. *)
Theorem old_records_not_needed : forall h, fair conf (init conf) h -> lasting (init conf) h ->
  let s := run conf (init conf) h in forall t, now s <= t -> sp + ttl <= t ->
  forall p, rs_temp (restore t (load (journal s))) p = rs_temp (restore t (journal s)) p.
Proof. intros h F L s t T1 T2. destruct (linv_run h _ linv_init F L) as (_ & _ & S). now apply S. Qed.
(** And if those events are older than the windows of the tag, later events are answered the same. *)
Theorem old_events_not_needed : forall h p tag k t win cnt, fair conf (init conf) h -> lasting (init conf) h ->
  c_tol (conf tag) = Some (win, cnt) -> al + win <= k_time k -> let s := run conf (init conf) h in
  ~ In k (counted p tag (journal s)) ->
  snd (maybe_ban_until (conf tag) k (rs_events (restore t (load (journal s))) p tag)) =
  snd (maybe_ban_until (conf tag) k (events s p tag)).
Proof.
  intros h p tag k t win cnt F L E W s NI. destruct (linv_run h _ linv_init F L) as (I & _ & _). fold s in I.
  pose proof I as (_ & _ & _ & EV & _ & _ & SS & BE). rewrite restore_events, counted_load, EV.
  apply (old_events_may_be_forgotten (conf tag) win cnt); auto.
  pose proof (sorted_nodup _ (counted_sorted p tag (journal s) (new_key s) SS BE)) as ND.
  apply NoDup_remove_1 in ND. rewrite app_nil_r in ND.
  rewrite <- (rev_involutive (_ ++ [k])). apply NoDup_rev. rewrite rev_app_distr. cbn. constructor; [now rewrite <- in_rev|now apply NoDup_rev].
Qed.
End Load.
