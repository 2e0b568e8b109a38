(** C90: theorems about bans. *)
From Coq Require Import List NArith Bool Arith Lia ZifyN ZifyNat ZifyBool Sorted.
From Verif Require Import MoModel MoHist.
Import ListNotations.
Local Open Scope N_scope.

(** *** The specification *)
Definition until_of (o : option ban) : option N := option_map b_until o.
(** a ban which has not ended at this moment *)
Definition running (t : N) (o : option N) : option N :=
  match o with Some u => if t <? u then Some u else None | None => None end.
Definition longer (o : option N) (u : N) : option N :=
  match o with Some v => Some (N.max v u) | None => Some u end.
(** the events of a peer and tag which count, in the journal *)
Definition counted (p tag : N) (j : list record) : list key :=
  flat_map (fun x => match r_kind x with
                     | REvent t true => if (r_peer x =? p) && (t =? tag) then [r_key x] else []
                     | _ => [] end) j.

Lemma put_same {A} p (v : A) f : put p v f p = v.
Proof. unfold put. now rewrite N.eqb_refl. Qed.
Lemma put_other {A} p (v : A) f x : x <> p -> put p v f x = f x.
Proof. unfold put. intros. destruct (N.eqb_spec x p); congruence. Qed.

(** the bans of a peer under way to the scheduler, and the one it holds *)
Definition sent (p : N) (c : list item) : list ban :=
  flat_map (fun i => match i with IBanned q b => if q =? p then [b] else [] | _ => [] end) c.
Definition line (s : st) (p : N) : list ban :=
  match sched s p with Some b => [b] | None => [] end ++ sent p (chan s).
Definition blt (a b : ban) : Prop := b_until a < b_until b.
Definition chain (l : list ban) (c : option ban) : Prop :=
  match c with None => l = [] | Some b => StronglySorted blt l /\ exists l', l = l' ++ [b] end.

Lemma sent_app p a b : sent p (a ++ b) = sent p a ++ sent p b.
Proof. unfold sent. apply flat_map_app. Qed.
Lemma ss_snoc l b x : StronglySorted blt (l ++ [b]) -> blt b x -> StronglySorted blt ((l ++ [b]) ++ [x]).
Proof.
  intros S B. induction l as [|y l IH]; cbn in *.
  - repeat constructor; assumption.
  - inversion S as [|? ? S1 F]; subst. constructor; [auto|]. apply Forall_app. split; [assumption|].
    constructor; [|constructor]. apply Forall_app in F as [_ F]. inversion F; subst. unfold blt in *. lia.
Qed.
Lemma chain_push l c b : chain l c -> (forall o, c = Some o -> blt o b) -> chain (l ++ [b]) (Some b).
Proof.
  intros C H. split; [|eauto]. destruct c as [o|]; cbn in C.
  - destruct C as [S (l' & ->)]. apply ss_snoc; [assumption|]. now apply H.
  - subst l. cbn. repeat constructor.
Qed.
Lemma chain_tail x y l c : chain (x :: y :: l) c -> chain (y :: l) c /\ blt x y.
Proof.
  destruct c as [b|]; cbn; [|discriminate]. intros [S (l' & E)]. inversion S as [|? ? S1 F]; subst. inversion F; subst.
  split; [|assumption]. split; [assumption|]. destruct l' as [|z l']; cbn in E; [destruct l; discriminate|].
  injection E as -> E. eauto.
Qed.
Lemma chain_one x c : chain [x] c -> c = Some x.
Proof.
  destruct c as [b|]; cbn; [|discriminate]. intros [_ (l' & E)]. destruct l' as [|z [|? ?]]; cbn in E; congruence.
Qed.
Lemma chain_head x l c : chain (x :: l) c -> exists b, c = Some b /\ (b = x \/ blt x b).
Proof.
  destruct c as [b|]; cbn; [|discriminate]. intros [S (l' & E)]. exists b. split; [reflexivity|].
  destruct l' as [|z l']; cbn in E; injection E as -> E; [auto|]. inversion S as [|? ? S1 F]; subst.
  right. apply Forall_app in F as [_ F]. now inversion F.
Qed.

Section Thms.
Context (conf : config).
Local Notation step := (step conf).
Local Notation run := (run conf).
Local Notation restore := (restore conf).
Local Notation restore_one := (restore_one conf).
Local Notation start := (start conf).
Local Notation fair := (fair conf).
Local Notation init := (init conf).

Lemma restore_snoc t j x : restore t (j ++ [x]) = restore_one t (restore t j) x.
Proof. unfold MoModel.restore. now rewrite fold_left_app. Qed.

(** ** What a restart reads *)
(** The restored event history is that of the counted events, whatever the moment. *)
Lemma restore_events t j p tag : rs_events (restore t j) p tag = replay (conf tag) (counted p tag j).
Proof.
  induction j as [|x j IH] using rev_ind; [reflexivity|]. rewrite restore_snoc. unfold counted. rewrite flat_map_app.
  fold (counted p tag j). cbn [flat_map]. rewrite app_nil_r. unfold MoModel.restore_one.
  destruct (r_kind x) as [tg rel|u|] eqn:K.
  - destruct rel; [|now rewrite app_nil_r].
    destruct (maybe_ban_until (conf tg) (r_key x) (rs_events (restore t j) (r_peer x) tg)) as [h o] eqn:M.
    assert (E : put (r_peer x) (put tg h (rs_events (restore t j) (r_peer x))) (rs_events (restore t j)) p tag =
      replay (conf tag) (counted p tag j ++ (if (r_peer x =? p) && (tg =? tag) then [r_key x] else []))).
    { destruct (N.eqb_spec (r_peer x) p) as [EP|NP]; cbn [andb].
      - rewrite EP, put_same. destruct (N.eqb_spec tg tag) as [->|NT].
        + rewrite put_same. unfold replay. rewrite fold_left_app. cbn. fold (replay (conf tag) (counted p tag j)).
          rewrite <- IH. rewrite EP in M. now rewrite M.
        + rewrite put_other by congruence. now rewrite app_nil_r.
      - rewrite put_other by congruence. now rewrite app_nil_r. }
    destruct o as [u|]; [match goal with |- context [if ?c then {| rs_events := _; rs_temp := put _ _ _ |} else _] => destruct c end|]; exact E.
  - rewrite app_nil_r. match goal with |- context [if ?c then {| rs_events := _; rs_temp := _ |} else _] => destruct c end; exact IH.
  - rewrite app_nil_r. exact IH.
Qed.

Definition stored_only (t : N) (j : list record) : Prop :=
  forall p u k, rs_temp (restore t j) p = Some (u, k) -> k <> None.
Definition temp_until (t : N) (j : list record) (p : N) : option N := option_map fst (rs_temp (restore t j) p).

(** ** The invariant *)
Definition inv (s : st) : Prop :=
  crashed s = false /\
  (forall p, chain (line s p) (cur s p)) /\
  (forall p, net s p = true <-> cur s p <> None) /\
  (forall p tag, events s p tag = replay (conf tag) (counted p tag (journal s))) /\
  (forall t p, now s <= t -> temp_until t (journal s) p = running t (until_of (cur s p))) /\
  (forall t, now s <= t -> stored_only t (journal s)) /\
  StronglySorted klt (map r_key (journal s)) /\ Forall (fun x => klt (r_key x) (new_key s)) (journal s).

Lemma klt_next t q q' : q < q' -> klt {| k_time := t; k_seq := q |} {| k_time := t; k_seq := q' |}.
Proof. unfold klt, key_leb; cbn. lia. Qed.
Lemma ss_snoc_key l k : StronglySorted klt l -> Forall (fun x => klt x k) l -> StronglySorted klt (l ++ [k]).
Proof.
  induction 1 as [|x l S IH F]; cbn; intros H; [repeat constructor|]. inversion H; subst. constructor; [auto|].
  apply Forall_app. split; [assumption|]. constructor; [assumption|constructor].
Qed.
Lemma below_map j (k : key) : Forall (fun x => klt (r_key x) k) j -> Forall (fun x => klt x k) (map r_key j).
Proof. induction 1; cbn; constructor; auto. Qed.
Lemma below_up j (k k' : key) : (k = k' \/ klt k k') -> Forall (fun x => klt (r_key x) k) j -> Forall (fun x => klt (r_key x) k') j.
Proof. intros [<-|L] F; [assumption|]. eapply Forall_impl; [|exact F]. cbn. intros x H. eapply klt_trans; eauto. Qed.

(** what an upsert does to the end of a ban, and to the chain *)
Lemma apply_ban_spec s p b s' ok : apply_ban s p b = (s', ok) ->
  events s' = events s /\ sched s' = sched s /\ journal s' = journal s /\ now s' = now s /\ seq s' = seq s /\ crashed s' = crashed s /\
  (forall x, x <> p -> cur s' x = cur s x /\ net s' x = net s x /\ line s' x = line s x) /\
  until_of (cur s' p) = longer (until_of (cur s p)) (b_until b) /\
  (ok = true -> cur s' p = Some b) /\ (ok = false -> s' = s) /\
  (ok = false <-> exists o, cur s p = Some o /\ b_until b <= b_until o) /\
  (chain (line s p) (cur s p) -> chain (line s' p) (cur s' p)) /\
  ((net s p = true <-> cur s p <> None) -> net s' p = true <-> cur s' p <> None).
Proof.
  unfold apply_ban, upsert. destruct (cur s p) as [o|] eqn:C; [destruct (N.ltb_spec (b_until o) (b_until b)) as [L|L]|].
  - intros [= <- <-]. cbn -[sent line]. rewrite put_same. repeat apply conj; auto; try congruence.
    + intros x NE. rewrite put_other by assumption. unfold line. cbn -[sent]. rewrite sent_app. cbn.
      destruct (N.eqb_spec p x); [congruence|]. now rewrite app_nil_r.
    + cbn. f_equal. lia.
    + intros (o' & [= <-] & ?). lia.
    + intros CH. unfold line in *. cbn -[sent chain] in *. rewrite sent_app. cbn -[chain]. rewrite N.eqb_refl, app_assoc.
      apply (chain_push _ (Some o)); [exact CH|]. intros o' [= <-]. exact L.
    + intros H. rewrite H. split; congruence.
  - intros [= <- <-]. repeat apply conj; auto; try congruence.
    all: try (rewrite C; cbn; f_equal; lia). all: try (now rewrite C). eauto.
  - intros [= <- <-]. cbn -[sent line]. rewrite !put_same. repeat apply conj; auto; try congruence.
    + intros x NE. rewrite !put_other by assumption. unfold line. cbn -[sent]. rewrite sent_app. cbn.
      destruct (N.eqb_spec p x); [congruence|]. now rewrite app_nil_r.
    + intros (o' & ? & ?). discriminate.
    + intros CH. unfold line in *. cbn -[sent chain] in *. rewrite sent_app. cbn -[chain]. rewrite N.eqb_refl, app_assoc.
      apply (chain_push _ None); [exact CH|]. intros o' [=].
    + intros _. split; congruence.
Qed.

(** a ban is logged *)
Lemma restore_ban t j p u k c :
  temp_until t j p = running t c -> stored_only t j ->
  let j' := j ++ [{| r_key := k; r_peer := p; r_kind := RBanned u |}] in
  temp_until t j' p = running t (longer c u) /\ (forall x, x <> p -> temp_until t j' x = temp_until t j x) /\ stored_only t j'.
Proof.
  intros T S j'. subst j'. unfold temp_until, stored_only in *. rewrite restore_snoc. unfold MoModel.restore_one. cbn [r_kind r_peer r_key].
  destruct (rs_temp (restore t j) p) as [[o ok]|] eqn:E; cbn in T.
  - destruct c as [v|]; cbn in T; [destruct (N.ltb_spec t v); [injection T as ->|discriminate]|discriminate].
    destruct (N.ltb_spec t u); cbn [andb]; [destruct (N.leb_spec v u)|]; cbn [rs_temp].
    + rewrite put_same. cbn. repeat apply conj.
      * destruct (N.ltb_spec t (N.max v u)); [f_equal; lia|lia].
      * intros x NE. now rewrite put_other.
      * intros q w z. destruct (N.eqb_spec q p) as [->|NE]; [rewrite put_same; intros [= _ <-]; discriminate|].
        rewrite put_other by assumption. apply S.
    + rewrite E. cbn. repeat apply conj; auto. destruct (N.ltb_spec t (N.max v u)); [f_equal; lia|lia].
    + rewrite E. cbn. repeat apply conj; auto. destruct (N.ltb_spec t (N.max v u)); [f_equal; lia|lia].
  - destruct (N.ltb_spec t u); cbn [andb rs_temp].
    + rewrite put_same. cbn. repeat apply conj.
      * destruct c as [v|]; cbn in *.
        -- destruct (N.ltb_spec t v); [discriminate|]. destruct (N.ltb_spec t (N.max v u)); [f_equal; lia|lia].
        -- destruct (N.ltb_spec t u); [reflexivity|lia].
      * intros x NE. now rewrite put_other.
      * intros q w z. destruct (N.eqb_spec q p) as [->|NE]; [rewrite put_same; intros [= _ <-]; discriminate|].
        rewrite put_other by assumption. apply S.
    + rewrite E. cbn. repeat apply conj; auto. destruct c as [v|]; cbn in *.
      * destruct (N.ltb_spec t v); [discriminate|]. destruct (N.ltb_spec t (N.max v u)); [lia|reflexivity].
      * destruct (N.ltb_spec t u); [lia|reflexivity].
Qed.
(** an event and the ban it leads to are logged together *)
Lemma restore_event_ban t j p tag u k k' c :
  temp_until t j p = running t c -> stored_only t j ->
  snd (maybe_ban_until (conf tag) k (rs_events (restore t j) p tag)) = Some u ->
  let j' := (j ++ [{| r_key := k; r_peer := p; r_kind := REvent tag true |}]) ++ [{| r_key := k'; r_peer := p; r_kind := RBanned u |}] in
  temp_until t j' p = running t (longer c u) /\ (forall x, x <> p -> temp_until t j' x = temp_until t j x) /\ stored_only t j'.
Proof.
  intros T S M j'. subst j'. unfold temp_until, stored_only in *. rewrite !restore_snoc. unfold MoModel.restore_one. cbn [r_kind r_peer r_key].
  destruct (maybe_ban_until _ _ _) as [h o]. cbn in M. subst o.
  assert (ST : forall f : N -> option temp, (forall x, x <> p -> f x = rs_temp (restore t j) x) ->
     forall q w z, put p (Some (u, Some k')) f q = Some (w, z) -> z <> None).
  { intros f H q w z. destruct (N.eqb_spec q p) as [->|NE]; [rewrite put_same; intros [= _ <-]; discriminate|].
    rewrite put_other, H by assumption. apply S. }
  destruct (rs_temp (restore t j) p) as [[o ok]|] eqn:E; cbn in T.
  - destruct c as [v|]; cbn in T; [destruct (N.ltb_spec t v); [injection T as ->|discriminate]|discriminate].
    destruct (N.ltb_spec t u); cbn [andb]; [destruct (N.ltb_spec v u)|]; cbn [rs_temp].
    + rewrite !put_same, N.leb_refl. cbn [rs_temp]. rewrite put_same. cbn. repeat apply conj.
      * destruct (N.ltb_spec t (N.max v u)); [f_equal; lia|lia].
      * intros x NE. now rewrite !put_other.
      * apply ST. intros x NE. now rewrite put_other.
    + rewrite E. destruct (N.leb_spec v u); cbn [rs_temp].
      * rewrite put_same. cbn. repeat apply conj.
        -- destruct (N.ltb_spec t (N.max v u)); [f_equal; lia|lia].
        -- intros x NE. now rewrite put_other.
        -- apply ST. auto.
      * rewrite E. cbn. repeat apply conj; auto. destruct (N.ltb_spec t (N.max v u)); [f_equal; lia|lia].
    + rewrite E. cbn. repeat apply conj; auto. destruct (N.ltb_spec t (N.max v u)); [f_equal; lia|lia].
  - destruct (N.ltb_spec t u); cbn [andb rs_temp].
    + rewrite !put_same, N.leb_refl. cbn [rs_temp]. rewrite put_same. cbn. repeat apply conj.
      * destruct c as [v|]; cbn in *.
        -- destruct (N.ltb_spec t v); [discriminate|]. destruct (N.ltb_spec t (N.max v u)); [f_equal; lia|lia].
        -- destruct (N.ltb_spec t u); [reflexivity|lia].
      * intros x NE. now rewrite !put_other.
      * apply ST. intros x NE. now rewrite put_other.
    + rewrite E. cbn. repeat apply conj; auto. destruct c as [v|]; cbn in *.
      * destruct (N.ltb_spec t v); [discriminate|]. destruct (N.ltb_spec t (N.max v u)); [lia|reflexivity].
      * destruct (N.ltb_spec t u); [lia|reflexivity].
Qed.
(** an event without a ban *)
Lemma restore_event t j p tag rel k :
  (rel = true -> snd (maybe_ban_until (conf tag) k (rs_events (restore t j) p tag)) = None) ->
  rs_temp (restore t (j ++ [{| r_key := k; r_peer := p; r_kind := REvent tag rel |}])) = rs_temp (restore t j).
Proof.
  intros M. rewrite restore_snoc. unfold MoModel.restore_one. cbn [r_kind r_peer r_key]. destruct rel; [|reflexivity].
  specialize (M eq_refl). destruct (maybe_ban_until _ _ _) as [h o]. cbn in M. now subst o.
Qed.
Lemma counted_app p tag a b : counted p tag (a ++ b) = counted p tag a ++ counted p tag b.
Proof. unfold counted. apply flat_map_app. Qed.

(** one more ban, by hand *)
Lemma inv_ban s p u : inv s -> let b := {| b_until := u; b_key := new_key s |} in
  let '(s1, ok) := apply_ban (with_key s) p b in
  inv (if ok then log s1 {| r_key := b_key b; r_peer := p; r_kind := RBanned u |} else s1).
Proof.
  intros (CR & CH & NT & EV & TU & SO & SS & BE) b. destruct (apply_ban (with_key s) p b) as [s1 ok] eqn:A.
  destruct (apply_ban_spec _ _ _ _ _ A) as (E1 & E2 & E3 & E4 & E5 & E6 & OTH & UN & OK & NOK & _ & CHN & NTN).
  cbn in E1, E2, E3, E4, E5, E6.
  assert (NKS : klt (new_key s) (new_key s1)). { unfold new_key. rewrite E4, E5. apply klt_next. lia. }
  destruct ok.
  - unfold inv. cbn [crashed log journal now seq events cur net].
    assert (TT : forall t, now s <= t -> _) by (intros t Ht; exact (restore_ban t (journal s) p u (new_key s) _ (TU t p Ht) (SO t Ht))).
    rewrite E1, E3, E4, E6. repeat apply conj.
    + exact CR.
    + intros x. change (line (log s1 _) x) with (line s1 x). destruct (N.eqb_spec x p) as [->|NE]; [apply CHN; exact (CH p)|].
      destruct (OTH x NE) as (-> & _ & ->). exact (CH x).
    + intros x. destruct (N.eqb_spec x p) as [->|NE]; [apply NTN; exact (NT p)|]. destruct (OTH x NE) as (-> & -> & _). exact (NT x).
    + intros x tag. cbn [events with_key]. rewrite EV, counted_app. cbn. now rewrite app_nil_r.
    + intros t x Ht. destruct (TT t Ht) as (T1 & T2 & _). destruct (N.eqb_spec x p) as [->|NE].
      * rewrite UN. exact T1.
      * rewrite T2 by assumption. destruct (OTH x NE) as (-> & _). exact (TU t x Ht).
    + intros t Ht. now apply TT.
    + rewrite map_app. apply ss_snoc_key; [assumption|]. now apply below_map.
    + apply Forall_app. split; [|repeat constructor; exact NKS]. change (new_key (log s1 _)) with (new_key s1).
      eapply below_up; [right; exact NKS|exact BE].
  - rewrite (NOK eq_refl). unfold inv. cbn. repeat apply conj; auto.
    eapply below_up; [|exact BE]. right. apply klt_next. cbn. lia.
Qed.

Lemma inv_event s p tag store rel : inv s -> inv (on_event conf s p tag store rel).
Proof.
  intros I. unfold on_event. destruct store; [|exact I]. pose proof I as (CR & CH & NT & EV & TU & SO & SS & BE).
  set (k := new_key s). set (rec := {| r_key := k; r_peer := p; r_kind := REvent tag rel |}).
  set (s1 := log (with_key s) rec).
  assert (NK1 : klt k (new_key s1)) by (subst s1 k; apply klt_next; cbn; lia).
  assert (SS1 : StronglySorted klt (map r_key (journal s1))).
  { cbn. rewrite map_app. apply ss_snoc_key; [assumption|]. now apply below_map. }
  assert (BE1 : Forall (fun x => klt (r_key x) (new_key s1)) (journal s1)).
  { cbn. apply Forall_app. split; [|repeat constructor; exact NK1]. eapply below_up; [right; exact NK1|exact BE]. }
  destruct rel.
  - cbn [events s1 log with_key]. destruct (maybe_ban_until (conf tag) k (events s p tag)) as [h u] eqn:M.
    set (s2 := with_events s1 _).
    assert (EV2 : forall x tg, events s2 x tg = replay (conf tg) (counted x tg (journal s2))).
    { intros x tg. cbn [events journal s2 with_events s1 log with_key]. rewrite counted_app. cbn. rewrite app_nil_r.
      destruct (N.eqb_spec p x) as [<-|NE]; cbn [andb].
      - rewrite put_same. destruct (N.eqb_spec tag tg) as [<-|NT2].
        + rewrite put_same. unfold replay. rewrite fold_left_app. cbn. fold (replay (conf tag) (counted p tag (journal s))).
          rewrite <- EV, M. reflexivity.
        + rewrite put_other by congruence. rewrite app_nil_r. apply EV.
      - rewrite put_other by congruence. rewrite app_nil_r. apply EV. }
    assert (RM : forall t, snd (maybe_ban_until (conf tag) k (rs_events (restore t (journal s)) p tag)) = u).
    { intros t. rewrite restore_events, <- EV, M. reflexivity. }
    destruct u as [un|].
    + set (b := {| b_until := un; b_key := new_key s2 |}).
      destruct (apply_ban (with_key s2) p b) as [s3 ok] eqn:A.
      destruct (apply_ban_spec _ _ _ _ _ A) as (E1 & E2 & E3 & E4 & E5 & E6 & OTH & UN & OK & NOK & _ & CHN & NTN).
      assert (TT : forall t, now s <= t -> _) by (intros t Ht; exact (restore_event_ban t (journal s) p tag un k (new_key s2) _ (TU t p Ht) (SO t Ht) (RM t))).
      assert (NK3 : klt (new_key s2) (new_key s3)). { unfold new_key. rewrite E4, E5. apply klt_next. cbn. lia. }
      change (journal (with_key s2)) with (journal s ++ [rec]) in E3. change (now (with_key s2)) with (now s) in E4.
      unfold inv. cbn [crashed log journal now seq events cur net]. rewrite E1, E3, E4, E6. repeat apply conj.
      * exact CR.
      * intros x. change (line (log s3 _) x) with (line s3 x). destruct (N.eqb_spec x p) as [->|NE]; [apply CHN; exact (CH p)|].
        destruct (OTH x NE) as (-> & _ & ->). exact (CH x).
      * intros x. destruct (N.eqb_spec x p) as [->|NE]; [apply NTN; exact (NT p)|]. destruct (OTH x NE) as (-> & -> & _). exact (NT x).
      * intros x tg. change (events (with_key s2) x tg) with (events s2 x tg). rewrite EV2.
        change (journal s2) with (journal s ++ [rec]). rewrite (counted_app _ _ (journal s ++ [rec])). cbn [counted flat_map r_kind].
        now rewrite !app_nil_r.
      * intros t x Ht. destruct (TT t Ht) as (T1 & T2 & _). destruct (N.eqb_spec x p) as [->|NE].
        -- rewrite UN. exact T1.
        -- rewrite T2 by assumption. destruct (OTH x NE) as (-> & _). exact (TU t x Ht).
      * intros t Ht. now apply TT.
      * rewrite map_app. apply ss_snoc_key; [exact SS1|]. apply below_map. exact BE1.
      * apply Forall_app. split; [|repeat constructor; exact NK3]. change (new_key (log s3 _)) with (new_key s3).
        eapply below_up; [right; exact NK3|exact BE1].
    + unfold inv. repeat apply conj; auto.
      * intros t x Ht. unfold temp_until. change (journal s2) with (journal s ++ [rec]). unfold rec. rewrite restore_event; [exact (TU t x Ht)|].
        intros _. apply RM.
      * intros t Ht. unfold stored_only. change (journal s2) with (journal s ++ [rec]). unfold rec. rewrite restore_event; [exact (SO t Ht)|].
        intros _. apply RM.
  - unfold inv. repeat apply conj; auto.
    + intros x tg. change (journal s1) with (journal s ++ [rec]). rewrite counted_app. cbn. rewrite app_nil_r. apply EV.
    + intros t x Ht. unfold temp_until. change (journal s1) with (journal s ++ [rec]). unfold rec. rewrite restore_event; [exact (TU t x Ht)|discriminate].
    + intros t Ht. unfold stored_only. change (journal s1) with (journal s ++ [rec]). unfold rec. rewrite restore_event; [exact (SO t Ht)|discriminate].
Qed.

(** the scheduler lets go of a ban *)
Lemma do_unban_spec s p b manual : inv s -> sched s p = Some b ->
  let '(s', o) := do_unban (with_sched s (put p None (sched s))) p (b_until b) manual in
  inv s' /\
  (forall x, x <> p -> cur s' x = cur s x) /\
  ((cur s p = Some b /\ cur s' p = None /\ sent p (chan s) = [] /\ o = if manual then OUnbanned true else ONone) \/
   (exists c, cur s p = Some c /\ b_until b < b_until c /\ cur s' p = Some c /\ In c (sent p (chan s)) /\
      o = if manual then OUnbanned false else ONone)).
Proof.
  intros (CR & CH & NT & EV & TU & SO & SS & BE) SC. pose proof (CH p) as C. unfold line in C. rewrite SC in C. cbn [app] in C.
  unfold do_unban, unban. cbn [cur with_sched].
  destruct (sent p (chan s)) as [|y l] eqn:SE.
  - apply chain_one in C. rewrite C, N.ltb_irrefl, N.eqb_refl.
    set (s1 := {| events := _ |}). assert (NK : klt (new_key s) (new_key (log (with_key s1) {| r_key := new_key s1; r_peer := p; r_kind := RUnbanned |}))) by (apply klt_next; cbn; lia).
    split; [|split].
    + unfold inv. cbn [crashed log with_key s1 journal now seq events cur net with_sched]. repeat apply conj; auto.
      * intros x. unfold line. cbn [sched chan log with_key s1 with_sched]. destruct (N.eqb_spec x p) as [->|NE].
        -- rewrite !put_same, SE. reflexivity.
        -- rewrite !put_other by assumption. apply CH.
      * intros x. destruct (N.eqb_spec x p) as [->|NE]; [rewrite !put_same; split; congruence|].
        rewrite !put_other by assumption. apply NT.
      * intros x tag. rewrite counted_app. cbn. rewrite app_nil_r. apply EV.
      * intros t x Ht. unfold temp_until. rewrite restore_snoc. cbn. destruct (N.eqb_spec x p) as [->|NE]; [now rewrite !put_same|].
        rewrite !put_other by assumption. now apply TU.
      * intros t Ht q w z. rewrite restore_snoc. cbn. destruct (N.eqb_spec q p) as [->|NE]; [rewrite put_same; discriminate|].
        rewrite put_other by assumption. now apply SO.
      * rewrite map_app. apply ss_snoc_key; [assumption|]. now apply below_map.
      * apply Forall_app. split; [|repeat constructor; exact NK]. eapply below_up; [right; exact NK|exact BE].
    + intros x NE. cbn. now rewrite put_other.
    + left. cbn. rewrite put_same. auto.
  - destruct (chain_head _ _ _ (proj1 (chain_tail _ _ _ _ C))) as (c & EC & HC). destruct (chain_tail _ _ _ _ C) as [C1 L1].
    assert (L2 : b_until b < b_until c). { unfold blt in *. destruct HC as [->|]; lia. }
    rewrite EC. destruct (N.ltb_spec (b_until c) (b_until b)); [lia|]. destruct (N.eqb_spec (b_until c) (b_until b)); [lia|].
    split; [|split].
    + unfold inv. cbn [crashed journal now seq events cur net with_sched]. repeat apply conj; auto.
      intros x. unfold line. cbn [sched chan with_sched]. destruct (N.eqb_spec x p) as [->|NE].
      * rewrite put_same, SE. exact C1.
      * rewrite put_other by assumption. apply CH.
    + reflexivity.
    + right. exists c. repeat apply conj; auto. rewrite EC in C1. destruct C1 as [_ (l' & E)]. rewrite E. apply in_or_app. right. now left.
Qed.

(** a message leaves the channel *)
Lemma inv_pop s i rest : inv s -> chan s = i :: rest ->
  match i with IBanned _ _ => True | _ => inv (with_chan s rest) end.
Proof.
  intros (CR & CH & NT & EV & TU & SO & SS & BE) C. destruct i; [|exact I|];
    (unfold inv; cbn; repeat apply conj; auto; intros x; specialize (CH x); unfold line in *; cbn in *; rewrite C in CH; exact CH).
Qed.

Lemma inv_recv_ban s p b rest : inv s -> chan s = IBanned p b :: rest ->
  let s0 := with_chan s rest in
  (forall o, sched s p = Some o -> b_until o < b_until b) /\ inv (with_sched s0 (put p (Some b) (sched s0))).
Proof.
  intros (CR & CH & NT & EV & TU & SO & SS & BE) C s0. pose proof (CH p) as P. unfold line in P. rewrite C in P. cbn in P. rewrite N.eqb_refl in P.
  split.
  - intros o SC. rewrite SC in P. cbn in P. apply chain_tail in P as [_ P]. exact P.
  - unfold inv. cbn. repeat apply conj; auto. intros x. unfold line. cbn. destruct (N.eqb_spec x p) as [->|NE].
    + rewrite put_same. cbn. destruct (sched s p); [|exact P]. cbn in P. now apply chain_tail in P.
    + rewrite put_other by assumption. specialize (CH x). unfold line in CH. rewrite C in CH. cbn in CH.
      destruct (N.eqb_spec p x); [congruence|]. exact CH.
Qed.

(** ** A restart *)
Lemma start_fold t j : stored_only t j -> forall ps s, NoDup ps ->
  (forall p, In p ps -> rs_temp (restore t j) p <> None) ->
  journal s = j -> now s = t -> seq s = 1 -> crashed s = false ->
  (forall p tag, events s p tag = replay (conf tag) (counted p tag j)) ->
  (forall p, sched s p = None) ->
  (forall p, In p ps -> cur s p = None /\ sent p (chan s) = []) ->
  (forall p, chain (line s p) (cur s p)) -> (forall p, net s p = true <-> cur s p <> None) ->
  let s' := fold_left (install (rs_temp (restore t j))) ps s in
  journal s' = j /\ now s' = t /\ seq s' = 1 /\ crashed s' = false /\
  (forall p tag, events s' p tag = replay (conf tag) (counted p tag j)) /\
  (forall p, chain (line s' p) (cur s' p)) /\ (forall p, net s' p = true <-> cur s' p <> None) /\
  (forall p, ~ In p ps -> cur s' p = cur s p) /\
  (forall p, In p ps -> until_of (cur s' p) = option_map fst (rs_temp (restore t j) p)).
Proof.
  intros SO. induction ps as [|p ps IH]; intros s ND HT HJ HN HS HC HE HSC HNEW HCH HNT; cbn [fold_left].
  - cbn. repeat apply conj; auto. intros p [].
  - inversion ND as [|? ? NI ND']; subst. destruct (rs_temp (restore (now s) (journal s)) p) as [[u k]|] eqn:E; [|exfalso; apply (HT p); [now left|assumption]].
    destruct k as [k|]; [|exfalso; now apply (SO p u None E)].
    destruct (HNEW p (or_introl eq_refl)) as [C0 S0].
    set (s1 := install (rs_temp (restore (now s) (journal s))) s p).
    assert (ES : s1 = {| events := events s; cur := put p (Some {| b_until := u; b_key := k |}) (cur s); net := put p true (net s);
       chan := chan s ++ [IBanned p {| b_until := u; b_key := k |}]; sched := sched s; journal := journal s; now := now s; seq := seq s; crashed := crashed s |}).
    { subst s1. unfold install. rewrite E. unfold upsert. rewrite C0. reflexivity. }
    clearbody s1. subst s1. match goal with |- context [fold_left _ ps ?x] => set (s1 := x) end.
    assert (X := IH s1 ND'). cbn [s1 journal now seq crashed events sched cur net chan] in X.
    destruct X as (A1 & A2 & A3 & A4 & A5 & A6 & A7 & A8 & A9); auto.
    + intros q Q. apply HT. now right.
    + intros q Q. assert (q <> p) by (intros ->; contradiction). rewrite put_other by assumption.
      destruct (HNEW q (or_intror Q)) as [Q1 Q2]. split; [assumption|]. rewrite sent_app, Q2. cbn. destruct (N.eqb_spec p q); [congruence|reflexivity].
    + intros q. unfold line. cbn [sched chan s1]. rewrite HSC. cbn -[sent]. rewrite sent_app. destruct (N.eqb_spec q p) as [->|NE].
      * rewrite S0. cbn. rewrite N.eqb_refl, put_same. cbn. split; [repeat constructor|]. now exists [].
      * rewrite put_other by assumption. cbn. destruct (N.eqb_spec p q); [congruence|]. rewrite app_nil_r.
        specialize (HCH q). unfold line in HCH. now rewrite HSC in HCH.
    + intros q. destruct (N.eqb_spec q p) as [->|NE]; [rewrite !put_same; split; congruence|]. rewrite !put_other by assumption. apply HNT.
    + repeat apply conj; auto.
      * intros q Q. rewrite A8 by (intros H; apply Q; now right). cbn. rewrite put_other; [reflexivity|]. intros ->. apply Q. now left.
      * intros q [<-|Q]; [|now apply A9]. rewrite A8 by assumption. cbn. rewrite put_same, E. reflexivity.
Qed.

Lemma start_spec s ps : inv s -> enumerates (rs_temp (restore (now s + 1) (journal s))) ps ->
  let s' := start (journal s) (now s + 1) ps in
  inv s' /\ (forall p, until_of (cur s' p) = running (now s + 1) (until_of (cur s p))) /\
  (forall p tag, events s' p tag = events s p tag) /\ journal s' = journal s.
Proof.
  intros (CR & CH & NT & EV & TU & SO & SS & BE) [ND EN]. cbv zeta. unfold MoModel.start.
  set (t := now s + 1) in *. assert (Ht : now s <= t) by (subst t; lia).
  destruct (start_fold t (journal s) (SO t Ht) ps (fresh_start (restore t (journal s)) (journal s) t)) as (A1 & A2 & A3 & A4 & A5 & A6 & A7 & A8 & A9); auto.
  - intros p P. now apply EN.
  - intros p tag. cbn. apply restore_events.
  - intros p. reflexivity.
  - intros p. cbn. split; congruence.
  - set (s' := fold_left _ ps _) in *.
    assert (CU : forall p, until_of (cur s' p) = running t (until_of (cur s p))).
    { intros p. rewrite <- TU by assumption. unfold temp_until. destruct (in_dec N.eq_dec p ps) as [P|P]; [now apply A9|].
      rewrite A8 by assumption. destruct (rs_temp (restore t (journal s)) p) eqn:E; [|reflexivity].
      exfalso. apply P, EN. congruence. }
    split; [|split; [exact CU|split; [|exact A1]]].
    + unfold inv. rewrite A1, A2. repeat apply conj; auto.
      * intros q p Hq. rewrite CU. rewrite TU by lia. unfold running. destruct (until_of (cur s p)) as [u|]; [|reflexivity].
        destruct (N.ltb_spec t u); [reflexivity|]. destruct (N.ltb_spec q u); [lia|reflexivity].
      * intros q Hq. apply SO. lia.
      * eapply Forall_impl; [|exact BE]. intros x K. unfold new_key. rewrite A2, A3. eapply klt_trans; [exact K|].
        unfold klt, key_leb, new_key; cbn. lia.
    + intros p tag. now rewrite A5, EV.
Qed.

Lemma inv_init : inv init.
Proof.
  unfold inv, MoModel.init, MoModel.start, stored_only, temp_until; cbn. repeat apply conj; auto; try constructor; try congruence.
Qed.

Lemma inv_step s o : inv s -> match o with ORestart ps => enumerates (rs_temp (restore (now s + 1) (journal s))) ps | _ => True end ->
  inv (fst (step s o)).
Proof.
  intros I F. unfold MoModel.step. pose proof I as (CR & CH & NT & EV & TU & SO & SS & BE). rewrite CR.
  destruct o as [d|p tag store rel|p u|p| |p|ps].
  - unfold inv. cbn -[sent line chain temp_until stored_only]. repeat apply conj; auto.
    + intros t p Ht. apply TU. lia.
    + intros t Ht. apply SO. lia.
    + eapply Forall_impl; [|exact BE]. intros x. unfold klt, key_leb, new_key; cbn. lia.
  - unfold inv. cbn -[sent line chain temp_until stored_only]. repeat apply conj; auto. intros x. unfold line. cbn -[sent]. rewrite sent_app. cbn. rewrite app_nil_r. apply CH.
  - pose proof (inv_ban s p u I) as H. cbv zeta in H. destruct (apply_ban _ _ _) as [s1 ok]. now destruct ok.
  - unfold inv. cbn -[sent line chain temp_until stored_only]. repeat apply conj; auto. intros x. unfold line. cbn -[sent]. rewrite sent_app. cbn. rewrite app_nil_r. apply CH.
  - destruct (chan s) as [|i rest] eqn:C; [exact I|]. pose proof (inv_pop s i rest I C) as P. destruct i as [p tag store rel|p b|p].
    + cbn. now apply inv_event.
    + cbv zeta. destruct (inv_recv_ban s p b rest I C) as [A B]. change (sched (with_chan s rest) p) with (sched s p).
      destruct (sched s p) as [o|] eqn:SC; [|exact B]. specialize (A o eq_refl). destruct (N.ltb_spec (b_until o) (b_until b)); [exact B|lia].
    + cbv zeta. destruct (sched (with_chan s rest) p) as [b|] eqn:SC; [|exact P].
      pose proof (do_unban_spec _ p b true P SC) as H. destruct (do_unban _ _ _ _). apply H.
  - destruct (sched s p) as [b|] eqn:SC; [|exact I]. destruct (b_until b <=? now s); [|exact I].
    pose proof (do_unban_spec _ p b false I SC) as H. destruct (do_unban _ _ _ _). apply H.
  - cbn. now apply start_spec.
Qed.
Lemma inv_run h : forall s, inv s -> fair s h -> inv (run s h).
Proof.
  induction h as [|o h IH]; cbn; intros s I F; [assumption|]. destruct F as [F1 F2]. apply IH; [|assumption]. now apply inv_step.
Qed.

(** ** Theorems *)
(** No assertion of the ban cache or the scheduler ever fails, and the peers banned at network level are
    those with a ban. *)
Theorem no_panic_and_network_agrees : forall h, fair init h -> let s := run init h in
  crashed s = false /\ forall p, net s p = true <-> cur s p <> None.
Proof. intros h F s. destruct (inv_run h _ inv_init F) as (A & _ & B & _). auto. Qed.

(** A ban only becomes longer; it ends when its time has come, or when somebody asked to unban the peer. *)
Theorem bans_end_only : forall h o p b, fair init h -> let s := run init h in
  cur s p = Some b -> (forall ps, o <> ORestart ps) ->
  match cur (fst (step s o)) p with
  | Some b' => b' = b \/ b_until b < b_until b'
  | None => (o = OAuto p /\ b_until b <= now s) \/ (o = ORecv /\ exists rest, chan s = IUnban p :: rest)
  end.
Proof.
  intros h o p b F s C NR. assert (I : inv s) by (apply inv_run; [apply inv_init|assumption]). clearbody s. clear h F.
  unfold MoModel.step. pose proof I as (CR & CH & _). rewrite CR.
  assert (AB : forall s0 q bb s1 ok, apply_ban s0 q bb = (s1, ok) -> cur s0 p = Some b ->
     exists b', cur s1 p = Some b' /\ (b' = b \/ b_until b < b_until b')).
  { intros s0 q bb s1 ok A C0. unfold apply_ban, upsert in A. destruct (cur s0 q) as [o'|] eqn:Q; [destruct (N.ltb_spec (b_until o') (b_until bb))|]; injection A as <- <-; cbn.
    - destruct (N.eqb_spec p q) as [->|NE]; [rewrite put_same; exists bb; split; [reflexivity|]; right; congruence|].
      rewrite put_other by assumption. eauto.
    - eauto.
    - destruct (N.eqb_spec p q) as [->|NE]; [congruence|]. rewrite put_other by assumption. eauto. }
  destruct o as [d|q tag store rel|q u|q| |q|ps]; cbn.
  - rewrite C. auto.
  - rewrite C. auto.
  - destruct (apply_ban _ _ _) as [s1 ok] eqn:A. destruct (AB _ _ _ _ _ A C) as (b' & E & H). destruct ok; cbn; now rewrite E.
  - rewrite C. auto.
  - destruct (chan s) as [|i rest] eqn:CC; [cbn; rewrite C; auto|]. pose proof (inv_pop s i rest I CC) as P. destruct i as [q tag store rel|q bb|q].
    + cbn. unfold on_event. destruct store; [|cbn; rewrite C; auto]. destruct rel; [|cbn; rewrite C; auto].
      destruct (maybe_ban_until _ _ _) as [hh [u|]]; [|cbn; rewrite C; auto].
      match goal with |- context [apply_ban ?x ?y ?z] => destruct (apply_ban x y z) as [s1 ok] eqn:A; destruct (AB x y z _ _ A C) as (b' & E & H) end.
      cbn. now rewrite E.
    + change (sched (with_chan s rest) q) with (sched s q). destruct (sched s q) as [o'|]; [destruct (_ <? _)|]; cbn; rewrite C; auto.
    + change (sched (with_chan s rest) q) with (sched s q). destruct (sched s q) as [o'|] eqn:SC; [|cbn; rewrite C; auto].
      pose proof (do_unban_spec (with_chan s rest) q o' true P SC) as H. cbn [fst]. destruct (do_unban _ _ _ _) as [s' out0]. cbn [fst].
      destruct H as (_ & OT & HH). destruct (N.eqb_spec p q) as [->|NE].
      * destruct HH as [(_ & -> & _)|(c & E1 & _ & -> & _)]; [right; eauto|]. cbn in E1. left. congruence.
      * rewrite OT by assumption. cbn. rewrite C. auto.
  - destruct (sched s q) as [o'|] eqn:SC; [|cbn; rewrite C; auto]. destruct (N.leb_spec (b_until o') (now s)); [|cbn; rewrite C; auto].
    pose proof (do_unban_spec s q o' false I SC) as HD. destruct (do_unban _ _ _ _) as [s' out0]. cbn [fst].
    destruct HD as (_ & OT & HH). destruct (N.eqb_spec p q) as [->|NE].
    + destruct HH as [(E & -> & _)|(c & E1 & _ & -> & _)]; [left; split; [reflexivity|]; congruence|]. left. congruence.
    + rewrite OT by assumption. rewrite C. auto.
  - exfalso. now apply (NR ps).
Qed.

(** A peer is banned by an event or by hand exactly as long as asked, unless it is banned for longer. *)
Theorem manual_ban_is_exact : forall s p u, crashed s = false ->
  let '(s', o) := step s (OManualBan p u) in
  until_of (cur s' p) = longer (until_of (cur s p)) u /\
  (o = OBanned false <-> exists b, cur s p = Some b /\ u <= b_until b) /\ (o = OBanned true \/ o = OBanned false) /\
  forall x, x <> p -> cur s' x = cur s x.
Proof.
  intros s p u CR. unfold MoModel.step. rewrite CR. destruct (apply_ban _ _ _) as [s1 ok] eqn:A.
  destruct (apply_ban_spec _ _ _ _ _ A) as (_ & _ & _ & _ & _ & _ & OTH & UN & _ & _ & NOK & _). cbn in UN, NOK.
  destruct ok; cbn; repeat apply conj; auto; try (intros x NE; now apply OTH).
  - discriminate.
  - intros H. apply NOK in H. discriminate.
  - intros _. now apply NOK.
Qed.
(** An event which counts bans its peer if the events of its window are too many, never shortens a ban and
    touches nobody else. *)
Theorem event_bans : forall h p tag rest, fair init h -> let s := run init h in
  chan s = IEvent p tag true true :: rest ->
  let before := counted p tag (journal s) in let k := new_key s in
  let s' := fst (step s ORecv) in
  NoDup (before ++ [k]) /\
  (until_of (cur s' p) =
    match snd (maybe_ban_until (conf tag) k (replay (conf tag) before)) with
    | Some u => longer (until_of (cur s p)) u
    | None => until_of (cur s p)
    end) /\ (forall x, x <> p -> cur s' x = cur s x) /\ In k (counted p tag (journal s')).
Proof.
  intros h p tag rest F s CC. assert (I : inv s) by (apply inv_run; [apply inv_init|assumption]). clearbody s. clear h F.
  cbv zeta. pose proof I as (CR & CH & NT & EV & TU & SO & SS & BE).
  assert (ND : NoDup (counted p tag (journal s) ++ [new_key s])).
  { assert (SS1 : StronglySorted klt (counted p tag (journal s) ++ [new_key s])).
    { clear - SS BE. assert (B2 := BE). revert B2. generalize (new_key s). intros k B2. induction (journal s) as [|x j IH]; cbn; [repeat constructor|].
      cbn in SS. inversion SS as [|? ? S1 F1]; subst. inversion B2; subst. inversion BE; subst. specialize (IH S1 H4 H2).
      destruct (r_kind x) as [tg [|]|u|]; cbn; auto. destruct (_ && _); cbn; auto. constructor; [exact IH|].
      apply Forall_app. split; [|repeat constructor; assumption].
      clear - F1. induction j as [|y j IH]; cbn; [constructor|]. inversion F1; subst. apply Forall_app. split; [|now apply IH].
      destruct (r_kind y) as [tg [|]|u|]; try constructor. destruct (_ && _); repeat constructor. assumption. }
    clear - SS1. induction SS1 as [|x l S IH F]; constructor; [|assumption]. intros H. rewrite Forall_forall in F. apply (klt_irr x). now apply F. }
  split; [exact ND|]. unfold MoModel.step. rewrite CR, CC. cbn [fst]. unfold on_event.
  change (events (log (with_key (with_chan s rest)) _) p tag) with (events s p tag). rewrite EV. change (new_key (with_chan s rest)) with (new_key s).
  destruct (maybe_ban_until (conf tag) (new_key s) (replay (conf tag) (counted p tag (journal s)))) as [hh [u|]] eqn:M; cbn [snd].
  - match goal with |- context [apply_ban ?x ?y ?z] => destruct (apply_ban x y z) as [s1 ok] eqn:A end.
    destruct (apply_ban_spec _ _ _ _ _ A) as (_ & _ & EJ & _ & _ & _ & OTH & UN & _). repeat apply conj.
    + exact UN.
    + intros x NE. now apply OTH.
    + cbn [journal log]. rewrite EJ. cbn [journal log with_key with_events with_chan]. rewrite !counted_app, !in_app_iff. left. right. cbn. rewrite !N.eqb_refl. now left.
  - repeat apply conj; auto. cbn [journal log with_key with_events with_chan]. rewrite counted_app, in_app_iff. right. cbn. rewrite !N.eqb_refl. now left.
Qed.

(** A request to unban is refused only if the peer is not banned, or was banned for longer after the request;
    else the peer is unbanned. *)
Theorem unban_is_exact : forall h p rest, fair init h -> let s := run init h in
  chan s = IUnban p :: rest ->
  let '(s', o) := step s ORecv in
  (o = OUnbanned true /\ cur s p <> None /\ cur s' p = None) \/
  (o = OUnbanned false /\ cur s' p = cur s p /\ (forall b, cur s p = Some b -> In (IBanned p b) rest)).
Proof.
  intros h p rest F s CC. assert (I : inv s) by (apply inv_run; [apply inv_init|assumption]). clearbody s. clear h F.
  unfold MoModel.step. pose proof I as (CR & CH & _). rewrite CR, CC. pose proof (inv_pop s _ rest I CC) as P. cbn in P. cbv zeta.
  assert (SI : forall b, In b (sent p rest) -> In (IBanned p b) rest).
  { intros b H. unfold sent in H. apply in_flat_map in H as (i & I1 & I2). destruct i as [| q b'|]; try contradiction.
    destruct (N.eqb_spec q p) as [->|]; [|contradiction]. destruct I2 as [<-|[]]. assumption. }
  change (sched (with_chan s rest) p) with (sched s p). destruct (sched s p) as [b|] eqn:SC.
  - pose proof (do_unban_spec (with_chan s rest) p b true P SC) as H. cbv zeta in H. destruct (do_unban _ _ _ _) as [s' o].
    destruct H as (_ & _ & [(E1 & E2 & _ & ->)|(c & E1 & _ & E2 & E3 & ->)]); cbn in E1.
    + left. repeat apply conj; auto. congruence.
    + right. repeat apply conj; auto; [congruence|]. intros b' E. apply SI. rewrite E1 in E. injection E as <-. exact E3.
  - right. repeat apply conj; auto. intros b E. apply SI. specialize (CH p). unfold line in CH. rewrite SC, CC, E in CH.
    change (sent p (IUnban p :: rest)) with (sent p rest) in CH. cbn [app chain] in CH.
    destruct CH as [_ (l & ->)]. apply in_or_app. right. now left.
Qed.

(** With no message left a ban whose time has come is ended by the scheduler, at network level too; and the
    messages do come to an end. *)
Theorem expired_ban_ends : forall h p b, fair init h -> let s := run init h in
  chan s = [] -> cur s p = Some b -> b_until b <= now s ->
  let s' := fst (step s (OAuto p)) in cur s' p = None /\ net s' p = false.
Proof.
  intros h p b F s CC C L. assert (I : inv s) by (apply inv_run; [apply inv_init|assumption]). clearbody s. clear h F.
  pose proof (inv_step s (OAuto p) I Logic.I) as I2. cbv zeta. pose proof I as (CR & CH & _).
  assert (SC : sched s p = Some b).
  { specialize (CH p). unfold line in CH. rewrite CC, C in CH. cbn in CH. destruct CH as [_ (l & E)].
    destruct (sched s p) as [o|]; cbn in E; [|destruct l; discriminate]. destruct l as [|? [|? ?]]; cbn in E; congruence. }
  unfold MoModel.step in *. rewrite CR, SC in *. destruct (N.leb_spec (b_until b) (now s)); [|lia].
  pose proof (do_unban_spec s p b false I SC) as HD. destruct (do_unban _ _ _ _) as [s' o]. cbn [fst] in *.
  destruct HD as (_ & _ & [(_ & E2 & _)|(c & E1 & E0 & _)]).
  - split; [assumption|]. destruct I2 as (_ & _ & NT & _). destruct (net s' p) eqn:N; [|reflexivity]. apply NT in N. congruence.
  - rewrite C in E1. injection E1 as ->. lia.
Qed.
Definition work (c : list item) : nat := fold_right (fun i n => (match i with IEvent _ _ _ _ => 2 | _ => 1 end + n)%nat) 0%nat c.
Lemma work_app a b : work (a ++ b) = (work a + work b)%nat.
Proof.
  induction a as [|x a IH]; [reflexivity|].
  change (work ((x :: a) ++ b)) with (match x with IEvent _ _ _ _ => 2 | _ => 1 end + work (a ++ b))%nat.
  change (work (x :: a)) with (match x with IEvent _ _ _ _ => 2 | _ => 1 end + work a)%nat. lia.
Qed.
Lemma work_cons i r : work (i :: r) = (match i with IEvent _ _ _ _ => 2 | _ => 1 end + work r)%nat.
Proof. reflexivity. Qed.
Local Arguments work : simpl never.
Lemma recv_works s : inv s -> chan s <> [] -> (work (chan (fst (step s ORecv))) < work (chan s))%nat.
Proof.
  intros I NE. unfold MoModel.step. pose proof I as (CR & _). rewrite CR. destruct (chan s) as [|i rest] eqn:CC; [congruence|].
  pose proof (inv_pop s i rest I CC) as P. destruct i as [p tag store rel|p b|p]; rewrite work_cons; cbn [fst].
  - unfold on_event. destruct store; [|cbn; lia]. destruct rel; [|cbn; lia]. destruct (maybe_ban_until _ _ _) as [hh [u|]]; [|cbn; lia].
    unfold apply_ban, upsert. destruct (cur _ p) as [o|]; [destruct (_ <? _)|]; cbn; rewrite ?work_app, ?work_cons; cbn; try lia; change (work []) with 0%nat; lia.
  - destruct (sched (with_chan s rest) p) as [o|]; [destruct (_ <? _)|]; cbn; lia.
  - destruct (sched (with_chan s rest) p) as [b|]; [|cbn; lia]. unfold do_unban, unban.
    destruct (cur _ p) as [c|]; [destruct (_ <? _); [|destruct (_ =? _)]|]; cbn; lia.
Qed.
Theorem messages_end : forall h, fair init h -> let s := run init h in
  exists n, chan (run s (repeat ORecv n)) = [].
Proof.
  intros h F s. assert (I : inv s) by (apply inv_run; [apply inv_init|assumption]). clearbody s. clear h F.
  remember (work (chan s)) as w eqn:W. revert s I W. induction w as [w IH] using lt_wf_ind. intros s I W.
  destruct (chan s) as [|i r] eqn:C; [exists 0%nat; exact C|].
  assert (NE : chan s <> []) by congruence. pose proof (recv_works s I NE) as L. rewrite C, <- W in L.
  destruct (IH _ L (fst (step s ORecv)) (inv_step s ORecv I Logic.I) eq_refl) as (n & Hn). exists (S n). exact Hn.
Qed.

(** A restart, of any history with any restarts in it, brings back exactly the bans which have not ended and
    the events counted, adds no record, and the peers with a ban are again banned at network level. *)
Theorem restart_reproduces : forall h ps, fair init h -> let s := run init h in
  enumerates (rs_temp (restore (now s + 1) (journal s))) ps ->
  let s' := fst (step s (ORestart ps)) in
  (forall p, until_of (cur s' p) = running (now s + 1) (until_of (cur s p))) /\
  (forall p tag, events s' p tag = events s p tag) /\ journal s' = journal s /\
  (forall p, net s' p = true <-> cur s' p <> None).
Proof.
  intros h ps F s E. assert (I : inv s) by (apply inv_run; [apply inv_init|assumption]). clearbody s.
  unfold MoModel.step. pose proof I as (CR & _). rewrite CR. cbn [fst]. destruct (start_spec s ps I E) as (I' & A & B & C).
  repeat apply conj; auto; try apply A; try apply B. all: destruct I' as (_ & _ & N & _); apply N.
Qed.
(** The keys of the journal ascend, as restore requires. *)
Theorem journal_ascends : forall h, fair init h -> StronglySorted klt (map r_key (journal (run init h))).
Proof. intros h F. now destruct (inv_run h _ inv_init F) as (_ & _ & _ & _ & _ & _ & H & _). Qed.
(** The history of a peer is made of the counted events in the journal. *)
Theorem history_is_journal : forall h p tag, fair init h ->
  events (run init h) p tag = replay (conf tag) (counted p tag (journal (run init h))).
Proof. intros h p tag F. now destruct (inv_run h _ inv_init F) as (_ & _ & _ & H & _). Qed.
End Thms.
