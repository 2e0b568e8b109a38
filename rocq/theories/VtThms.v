(** C93: theorems about the targets of broadcasts. *)
From Coq Require Import List NArith Bool Arith Lia Permutation ZifyN ZifyNat ZifyBool.
From Verif Require Import VtModel.
Import ListNotations.
Local Open Scope N_scope.

Lemma mem_spec p l : mem p l = true <-> In p l.
Proof. unfold mem. rewrite existsb_exists. split; [intros (x & I & E); replace p with x by lia; assumption|intros I; exists p; split; [assumption|apply N.eqb_refl]]. Qed.
Lemma mem_false p l : mem p l = false <-> ~ In p l.
Proof. rewrite <- mem_spec. destruct (mem p l); split; congruence. Qed.
Lemma without_in p l x : In x (without p l) <-> In x l /\ x <> p.
Proof. unfold without. rewrite filter_In. destruct (N.eqb_spec x p); cbn; intuition. Qed.
Lemma nodup_filter {A} (f : A -> bool) l : NoDup l -> NoDup (filter f l).
Proof. induction 1 as [|x l X N IH]; [constructor|]. cbn [filter]. destruct (f x); [|exact IH]. constructor; [|exact IH]. intros H. apply filter_In in H. tauto. Qed.
Lemma filter_le {A} (f : A -> bool) l : (length (filter f l) <= length l)%nat.
Proof. induction l as [|x l IH]; [cbn; lia|]. cbn [filter]. destruct (f x); cbn [length]; lia. Qed.
Lemma without_perm p l : NoDup l -> In p l -> Permutation (p :: without p l) l.
Proof.
  induction 1 as [|x l X N IH]; [intros []|]. unfold without in *. cbn [filter]. intros [->|H].
  - rewrite N.eqb_refl. cbn [negb]. constructor. replace (filter (fun x => negb (x =? p)) l) with l; [reflexivity|].
    clear N IH. induction l as [|y l IH]; [reflexivity|]. cbn [filter]. destruct (N.eqb_spec y p) as [->|]; [exfalso; apply X; now left|]. cbn [negb]. f_equal. apply IH. intros H. apply X. now right.
  - destruct (N.eqb_spec x p) as [->|]; [contradiction|]. cbn [negb]. rewrite perm_swap. constructor. auto.
Qed.
Lemma without_none p l : ~ In p l -> without p l = l.
Proof. unfold without. induction l as [|y l IH]; [reflexivity|]. intros X. cbn [filter]. destruct (N.eqb_spec y p) as [->|]; [exfalso; apply X; now left|]. cbn [negb]. f_equal. apply IH. intros H. apply X. now right. Qed.

Lemma NoDup_app_iff_local (a b : list N) : NoDup a -> NoDup b -> (forall x, In x a -> ~ In x b) -> NoDup (a ++ b).
Proof.
  induction 1 as [|x a X NA IH]; intros NB D; [exact NB|]. cbn [app]. constructor.
  - intros H. apply in_app_or in H as [H|H]; [auto|]. apply (D x); [now left|assumption].
  - apply IH; [assumption|]. intros y Y. apply D. now right.
Qed.

Section Thms.
Context (me : N) (keep : nat).
Local Notation step := (step me keep).
Local Notation run := (run me keep).

(** What is given from outside: sets have no repetitions; a tracker shuffles the resolved ones not expired. *)
Definition fair1 (s : st) (o : op) : Prop :=
  match o with
  | OSend p => NoDup p
  | OTick t dead arr => Permutation arr (filter (fun x => negb (dead x)) (resolved s))
  | _ => True
  end.
Fixpoint fair (s : st) (h : list op) : Prop := match h with [] => True | o :: r => fair1 s o /\ fair (step s o) r end.

Definition parts (p : phase) : list N := match p with Waiting => [] | Pinging a b c => c ++ a ++ b | Found c => c end.
Definition found (p : phase) : list N := match p with Waiting => [] | Pinging _ _ c | Found c => c end.
Definition room (p : phase) : Prop := match p with Pinging a _ c => c = [] \/ (length c < keep)%nat | _ => True end.
Definition okt (s : st) (t : tracker) : Prop :=
  NoDup (parts (t_phase t)) /\ (length (found (t_phase t)) <= keep)%nat /\ t_epoch t <= epoch s /\
  (t_epoch t = epoch s -> incl (parts (t_phase t)) (resolved s) /\ match md s with Prepare _ => False | _ => True end) /\
  match t_phase t with Pinging _ _ c => (length c < keep)%nat | _ => True end.
Definition inv (s : st) : Prop :=
  NoDup (resolved s) /\ NoDup (targets s) /\ (length (targets s) <= keep)%nat /\ incl (targets s) (resolved s) /\ ~ In me (resolved s) /\
  Forall (fun p => NoDup p) (queue s) /\ (forall p, current s = Some p -> NoDup p) /\
  (match md s with
   | Idle => True
   | Prepare p => NoDup p /\ ~ In me p
   | Resolve p pending => NoDup p /\ ~ In me p /\ Permutation (resolved s ++ pending) p
   end) /\
  (forall k t, trackers s k = Some t -> okt s t).

Lemma pinging_parts flying rest got :
  NoDup (got ++ flying ++ rest) -> (length got <= keep)%nat -> ((keep = 0)%nat -> flying = []) ->
  NoDup (parts (pinging keep flying rest got)) /\ (length (found (pinging keep flying rest got)) <= keep)%nat /\
  incl (parts (pinging keep flying rest got)) (got ++ flying ++ rest) /\
  match pinging keep flying rest got with Pinging _ _ c => (length c < keep)%nat | _ => True end.
Proof.
  intros N L Z. unfold pinging.
  assert (NG : NoDup got) by (clear - N; induction got as [|x k IH]; [constructor|]; cbn in N; inversion N; subst; constructor; [intros H; apply H1; apply in_or_app; now left|auto]).
  destruct (Nat.leb_spec keep (length got)) as [K|K]; cbn [andb].
  - destruct (Nat.eqb_spec (length got) 0) as [G0|G0]; cbn [negb].
    + rewrite (Z ltac:(lia)). cbn [parts found]. repeat apply conj; auto. apply incl_appl, incl_refl.
    + cbn [parts found]. repeat apply conj; auto. apply incl_appl, incl_refl.
  - destruct flying as [|f fl]; cbn [parts found]; repeat apply conj; auto; [apply incl_appl|]; apply incl_refl.
Qed.

Lemma put_case {A} (f : N -> A) k v x : put f k v x = if x =? k then v else f x.
Proof. reflexivity. Qed.

(** trackers other than the one changed stay right while epoch and mode stay and [resolved] grows *)
Lemma okt_grow s s' t : epoch s' = epoch s -> incl (resolved s) (resolved s') -> (match md s with Prepare _ => False | _ => True end -> match md s' with Prepare _ => False | _ => True end) -> okt s t -> okt s' t.
Proof.
  intros E I M (A & B & C & D & F). unfold okt. rewrite E. repeat apply conj; auto; intros X; destruct (D X) as [D1 D2]; split; [now apply (incl_tran D1)|exact (M D2)].
Qed.
Lemma nodup_app3 (a b c : list N) x : NoDup (a ++ (x :: b) ++ c) -> NoDup ((a ++ [x]) ++ b ++ c).
Proof. intros H. rewrite <- app_assoc. exact H. Qed.

Lemma inv_tracker s k v : inv s -> match v with Some t => okt s t | None => True end -> inv (set_tracker s k v).
Proof.
  intros (A & B & C & D & E & F & G & H & T) O. unfold inv. cbn [set_tracker resolved targets queue current md trackers]. repeat apply conj; auto.
  intros j t. cbn [trackers]. rewrite put_case. destruct (N.eqb_spec j k) as [->|].
  - intros ->. destruct O as (P & Q & R & S & U). repeat apply conj; auto.
  - intros X. destruct (T _ _ X) as (P & Q & R & S & U). repeat apply conj; auto.
Qed.
Lemma ping_perm flying rest got p : In p flying -> NoDup (got ++ flying ++ rest) ->
  Permutation (got ++ flying ++ rest) ((got ++ [p]) ++ without p flying ++ rest).
Proof.
  intros I N. assert (NF : NoDup flying).
  { clear - N. induction got as [|x k IH]; [cbn in N; induction flying as [|y l IH]; [constructor|]; cbn in N; inversion N; subst; constructor; [intros H; apply H1; apply in_or_app; now left|auto]|]. cbn in N. inversion N; auto. }
  rewrite <- app_assoc. apply Permutation_app_head. cbn [app]. rewrite <- (without_perm p flying NF I) at 1. reflexivity.
Qed.
Lemma inv_step s o : inv s -> fair1 s o -> inv (step s o).
Proof.
  intros I F. pose proof I as (A & B & C & D & E & Q & CU & M & T). destruct o as [p| | | |p|k dead arr|k p ok|k|k]; cbn [VtModel.step].
  - unfold inv. cbn. cbn in F. repeat apply conj; auto. apply Forall_app. split; auto.
  - destruct (queue s) as [|p q] eqn:EQ; [destruct (md s); exact I|]. destruct (md s) as [|ps|ps pd] eqn:EM; [| exact I |].
    all: unfold inv; cbn; inversion Q; subst; repeat apply conj; auto; [intros x [= <-]; assumption|].
    all: intros j t X; apply T in X; revert X; unfold okt; rewrite EM; cbn; auto.
  - destruct (current s) as [p|] eqn:EC; [|destruct (md s); exact I]. destruct (md s) as [|ps|ps pd] eqn:EM; [|exact I|exact I].
    unfold inv. cbn [resolved targets queue current md]. repeat apply conj; auto.
    + discriminate.
    + apply nodup_filter. auto.
    + intros H. apply without_in in H. tauto.
    + intros j t X. apply T in X as (X1 & X2 & X3 & X4 & X5). unfold okt. cbn. repeat apply conj; auto; try lia; intros Y; lia.
  - destruct (md s) as [|ps|ps pd] eqn:EM; [exact I| |exact I]. destruct M as [M1 M2]. set (r := filter (fun x => mem x ps) (resolved s)).
    unfold inv. cbn [resolved targets queue current md]. repeat apply conj; auto.
    + now apply nodup_filter.
    + now apply nodup_filter.
    + pose proof (filter_le (fun x => mem x ps) (targets s)). lia.
    + intros x H. apply filter_In in H as [H1 H2]. apply filter_In. auto.
    + intros H. apply filter_In in H as [H _]. auto.
    + apply NoDup_Permutation; [|assumption|].
      * apply NoDup_app_iff_local.
        -- now apply nodup_filter.
        -- now apply nodup_filter.
        -- intros x X1 X2. apply filter_In in X2 as [_ X2]. apply mem_spec in X1. rewrite X1 in X2. discriminate.
      * intros x. rewrite in_app_iff, filter_In. split.
        -- intros [X|[X _]]; [apply filter_In in X as [_ X]; now apply mem_spec|assumption].
        -- intros X. destruct (mem x r) eqn:R; [left; now apply mem_spec|right; auto].
    + intros j t. cbn [trackers]. rewrite put_case. destruct (j =? next_id s).
      * intros [= <-]. unfold okt. cbn. repeat apply conj; [constructor|lia|lia|intros _; split; [intros x []|exact Logic.I]|exact Logic.I].
      * intros X. apply T in X as (X1 & X2 & X3 & X4 & X5). unfold okt. cbn [epoch resolved md]. repeat apply conj; auto. intros Y; destruct (X4 Y) as [Y1 Y2]; rewrite EM in Y2; destruct Y2.
  - destruct (md s) as [|ps|ps pd] eqn:EM; [exact I|exact I|]. destruct (mem p pd) eqn:EP; [|exact I]. apply mem_spec in EP. destruct M as (M1 & M2 & M3).
    pose proof (Permutation_NoDup (Permutation_sym M3) M1) as ND.
    assert (NP : NoDup pd) by (clear - ND; induction (resolved s) as [|x k IH]; [exact ND|]; cbn in ND; inversion ND; auto).
    assert (P2 : Permutation ((resolved s ++ [p]) ++ without p pd) ps).
    { rewrite <- app_assoc. cbn [app]. rewrite (without_perm p pd NP EP). exact M3. }
    unfold inv. cbn [resolved targets queue current md]. repeat apply conj; auto.
    + pose proof (Permutation_NoDup (Permutation_sym P2) M1) as N2. clear - N2. induction (resolved s ++ [p]) as [|x k IH]; [constructor|]. cbn in N2. inversion N2; subst. constructor; [intros H; apply H1; apply in_or_app; now left|auto].
    + intros x X. apply in_or_app. left. auto.
    + intros X. apply M2. apply (Permutation_in _ P2). apply in_or_app. now left.
    + intros j t X. cbn [trackers] in X. apply T in X. revert X. apply okt_grow; cbn [epoch resolved md]; auto. intros x X. apply in_or_app. now left.
  - destruct (trackers s k) as [[e [| |]]|] eqn:ET; try exact I. cbn in F. apply inv_tracker; [exact I|]. pose proof (T _ _ ET) as (X1 & X2 & X3 & X4 & X5). cbn in X3, X4.
    assert (NA : NoDup arr) by (apply (Permutation_NoDup (Permutation_sym F)); now apply nodup_filter).
    destruct (pinging_parts (firstn keep arr) (skipn keep arr) []) as (P1 & P2 & P3 & P4).
    { cbn [app]. now rewrite firstn_skipn. } { cbn; lia. } { intros ->. reflexivity. }
    cbn [app] in P3. rewrite firstn_skipn in P3. unfold okt. cbn [t_phase t_epoch]. repeat apply conj; auto; intros Y; destruct (X4 Y) as [Y1 Y2]; split; [|exact Y2].
    intros x X. apply P3 in X. apply (Permutation_in _ F) in X. apply filter_In in X. apply X.
  - destruct (trackers s k) as [[e [|fl rest got|]]|] eqn:ET; try exact I. destruct (mem p fl) eqn:EP; [|exact I]. apply mem_spec in EP.
    pose proof (T _ _ ET) as (X1 & X2 & X3 & X4 & X5). cbn in X1, X2, X3, X4, X5. apply inv_tracker; [exact I|]. pose proof (ping_perm fl rest got p EP X1) as PP. pose proof (Permutation_NoDup PP X1) as N2.
    destruct ok.
    + destruct (pinging_parts (without p fl) rest (got ++ [p])) as (P1 & P2 & P3 & P4); [exact N2|rewrite app_length; cbn; lia|lia|].
      unfold okt. cbn [t_phase t_epoch]. repeat apply conj; auto; intros Y; destruct (X4 Y) as [Y1 Y2]; split; [|exact Y2].
      intros x X. apply Y1. apply (Permutation_in _ (Permutation_sym PP)). auto.
    + assert (N3 : NoDup (got ++ without p fl ++ rest)).
      { rewrite <- app_assoc in N2. apply NoDup_remove_1 in N2. exact N2. }
      destruct rest as [|q r].
      * unfold okt. cbn [t_phase t_epoch parts found]. repeat apply conj; auto.
        -- clear - N3. induction got as [|x g IH]; [constructor|]. cbn in N3. inversion N3; subst. constructor; [intros H; apply H1; apply in_or_app; now left|auto].
        -- intros Y. destruct (X4 Y) as [Y1 Y2]. split; [|exact Y2]. intros x X. apply Y1. apply in_or_app. now left.
      * destruct (pinging_parts (without p fl ++ [q]) r got) as (P1 & P2 & P3 & P4).
        { rewrite <- app_assoc. exact N3. } { exact X2. } { lia. }
        unfold okt. cbn [t_phase t_epoch]. repeat apply conj; auto; intros Y; destruct (X4 Y) as [Y1 Y2]; split; [|exact Y2].
        intros x X. apply Y1. apply P3 in X. rewrite <- app_assoc in X. cbn [app] in X. rewrite !in_app_iff in X. rewrite !in_app_iff. destruct X as [X|[X|X]]; auto. apply without_in in X. tauto.
  - destruct (trackers s k) as [[e [| |got]]|] eqn:ET; try exact I. pose proof (T _ _ ET) as (X1 & X2 & X3 & X4 & X5). cbn in X1, X2, X3, X4.
    destruct (N.eqb_spec (epoch s) e) as [<-|NE]; [|apply inv_tracker; [exact I|exact Logic.I]]. destruct (X4 eq_refl) as [Y1 Y2].
    unfold inv. cbn [resolved targets queue current md]. repeat apply conj; auto.
    intros j t. cbn [trackers]. rewrite put_case. destruct (j =? k).
    + intros [= <-]. unfold okt. cbn. repeat apply conj; [constructor|lia|lia|intros _; split; [intros x []|exact Y2]|exact Logic.I].
    + intros X. exact (T _ _ X).
  - apply inv_tracker; [exact I|exact Logic.I].
Qed.

Lemma inv_run h : forall s, inv s -> fair s h -> inv (run s h).
Proof. induction h as [|o h IH]; intros s I F; [exact I|]. destruct F as [F1 F2]. apply IH; [now apply inv_step|exact F2]. Qed.
Lemma inv_init : inv init.
Proof. unfold inv, init. cbn. repeat apply conj; auto; [constructor|constructor|lia|intros x []|discriminate|discriminate]. Qed.

(** ** Theorems *)
(** The targets differ, are no more than asked for, all resolved, and never the node itself; and when the
    lists are prepared, of the set under way only, whatever trackers of sets before still do. *)
Theorem targets_are_current : forall h, fair init h -> let s := run init h in
  NoDup (targets s) /\ (length (targets s) <= keep)%nat /\ (forall x, In x (targets s) -> In x (resolved s) /\ x <> me) /\
  match md s with Resolve p _ => forall x, In x (targets s) -> In x p | _ => True end.
Proof.
  intros h F s. pose proof (inv_run h _ inv_init F) as I. fold s in I. destruct I as (A & B & C & D & E & _ & _ & M & _). repeat apply conj; auto.
  - intros x X. split; [auto|]. intros ->. auto.
  - destruct (md s) as [|p|p pd]; auto. intros x X. destruct M as (_ & _ & M). apply (Permutation_in _ M). apply in_or_app. left. auto.
Qed.
(** Of the set under way each peer but the node is resolved or being resolved, and none twice. *)
Theorem nobody_forgotten : forall h p pending, fair init h -> md (run init h) = Resolve p pending ->
  Permutation (resolved (run init h) ++ pending) p /\ NoDup p /\ ~ In me p.
Proof. intros h p pd F E. destruct (inv_run h _ inv_init F) as (_ & _ & _ & _ & _ & _ & _ & M & _). rewrite E in M. tauto. Qed.

(** *** The last set is the one that counts *)
Definition sends (h : list op) : list (list N) := flat_map (fun o => match o with OSend p => [p] | _ => [] end) h.
Definition last_set (l : list (list N)) : option (list N) := match rev l with [] => None | p :: _ => Some p end.
Definition under_way (s : st) : option (list N) :=
  match last_set (queue s) with
  | Some p => Some (without me p)
  | None => match current s with Some p => Some (without me p) | None => match md s with Idle => None | Prepare p | Resolve p _ => Some p end end
  end.
Lemma last_set_snoc l p : last_set (l ++ [p]) = Some p.
Proof. unfold last_set. now rewrite rev_app_distr. Qed.
Lemma last_set_cons p q : last_set (p :: q) = Some (match last_set q with Some r => r | None => p end).
Proof. unfold last_set. cbn [rev]. destruct (rev q) as [|x r]; reflexivity. Qed.
Lemma under_way_step s o : (forall p, current s = Some p -> md s = Idle) ->
  (forall p, current (step s o) = Some p -> md (step s o) = Idle) /\
  under_way (step s o) = match o with OSend p => Some (without me p) | _ => under_way s end.
Proof.
  intros CI. assert (KEEP : forall s', queue s' = queue s -> current s' = current s -> md s' = md s ->
    (forall p, current s' = Some p -> md s' = Idle) /\ under_way s' = under_way s) by (intros s' E1 E2 E3; unfold under_way; rewrite E1, E2, E3; auto).
  remember (step s o) as s2 eqn:ES. destruct o as [p| | | |p|k dead arr|k p ok|k|k]; cbn [VtModel.step] in ES.
  - subst s2. split; [exact CI|]. unfold under_way. cbn [queue]. now rewrite last_set_snoc.
  - destruct (queue s) as [|p q] eqn:EQ; [destruct (md s) eqn:EM; subst s2; apply KEEP; auto|].
    destruct (md s) eqn:EM; subst s2; [|apply KEEP; auto|]; (split; [reflexivity|]); unfold under_way; cbn [queue current md]; rewrite EQ, last_set_cons; destruct (last_set q); reflexivity.
  - destruct (current s) as [p|] eqn:EC; [|destruct (md s) eqn:EM; subst s2; apply KEEP; auto]. rewrite (CI p eq_refl) in ES. subst s2. split; [discriminate|]. unfold under_way. cbn [queue current md]. rewrite EC. now destruct (last_set (queue s)).
  - destruct (md s) eqn:EM; subst s2; [apply KEEP; auto| |apply KEEP; auto]. assert (CN : current s = None) by (destruct (current s) as [p|]; [specialize (CI p eq_refl); discriminate|reflexivity]).
    split; [cbn; rewrite CN; discriminate|]. unfold under_way. cbn [queue current md]. rewrite EM. reflexivity.
  - destruct (md s) eqn:EM; [subst s2; apply KEEP; auto|subst s2; apply KEEP; auto|]. destruct (mem p pending); subst s2; [|apply KEEP; auto]. split; [cbn; intros q X; specialize (CI q X); discriminate|]. unfold under_way. cbn [queue current md]. rewrite EM. reflexivity.
  - destruct (trackers s k) as [[e [| |]]|]; subst s2; apply KEEP; auto.
  - destruct (trackers s k) as [[e [|fl r g|]]|]; try (subst s2; apply KEEP; auto; fail). destruct (mem p fl); subst s2; apply KEEP; auto.
  - destruct (trackers s k) as [[e [| |g]]|]; try (subst s2; apply KEEP; auto; fail). destruct (epoch s =? e); subst s2; apply KEEP; auto.
  - subst s2. apply KEEP; auto.
Qed.
(** Once all sets sent are received, the last of them is under way. *)
Theorem last_set_wins : forall h p, last_set (sends h) = Some p -> queue (run init h) = [] -> current (run init h) = None ->
  match md (run init h) with Idle => False | Prepare q | Resolve q _ => q = without me p end.
Proof.
  intros h p L Q C.
  assert (G : (forall p, current (run init h) = Some p -> md (run init h) = Idle) /\ under_way (run init h) = option_map (without me) (last_set (sends h))).
  { clear. induction h as [|o h IH] using rev_ind; [split; [discriminate|reflexivity]|]. unfold VtModel.run. rewrite fold_left_app. cbn [fold_left]. fold (run init h).
    destruct IH as [A B]. destruct (under_way_step (run init h) o A) as [A' B']. split; [exact A'|]. rewrite B'. unfold sends. rewrite flat_map_app. fold (sends h).
    destruct o; cbn [flat_map app]; rewrite ?app_nil_r; try exact B. now rewrite last_set_snoc. }
  destruct G as [_ G]. rewrite L in G. unfold under_way in G. rewrite Q, C in G. cbn in G. destruct (md (run init h)); [discriminate|congruence|congruence].
Qed.

(** *** A round of pings *)
(** Every target found answered; as many are found as asked for, or every one not expired, unless a ping failed. *)
Theorem round_is_sound : forall s t e dead arr h, trackers s t = Some {| t_epoch := e; t_phase := Waiting |} -> t < next_id s ->
  NoDup arr -> Forall (fun o => o <> OStore t /\ o <> OAbort t) h ->
  exists ph, trackers (run (step s (OTick t dead arr)) h) t = Some {| t_epoch := e; t_phase := ph |} /\ ph <> Waiting /\
    (forall x, In x (found ph) -> In (OPing t x true) h) /\
    forall got, ph = Found got -> length got = keep \/ (exists p, In (OPing t p false) h) \/ Permutation got arr.
Proof.
  intros s t e dead arr h E LT ND H. cbn [VtModel.step]. rewrite E.
  set (s0 := set_tracker s t _).
  assert (G : exists ph, trackers (run s0 h) t = Some {| t_epoch := e; t_phase := ph |} /\ t < next_id (run s0 h) /\ ph <> Waiting /\
    (forall x, In x (found ph) -> In (OPing t x true) h) /\
    ((exists p, In (OPing t p false) h) \/
     match ph with
     | Waiting => False
     | Pinging fl rest got => NoDup fl /\ Permutation (got ++ fl) (firstn keep arr) /\ rest = skipn keep arr /\ (length got < keep)%nat
     | Found got => length got = keep \/ Permutation got arr
     end)).
  { assert (PG : forall fl got, NoDup fl -> Permutation (got ++ fl) (firstn keep arr) -> 
      match pinging keep fl (skipn keep arr) got with
      | Waiting => False
      | Pinging fl rest got => NoDup fl /\ Permutation (got ++ fl) (firstn keep arr) /\ rest = skipn keep arr /\ (length got < keep)%nat
      | Found got => length got = keep \/ Permutation got arr
      end /\ found (pinging keep fl (skipn keep arr) got) = got).
    { intros fl got NF P. pose proof (Permutation_length P) as PL. rewrite app_length, firstn_length in PL. unfold pinging.
      destruct (Nat.leb_spec keep (length got)) as [K|K]; cbn [andb]; [destruct (Nat.eqb_spec (length got) 0) as [Z|Z]; cbn [negb]|].
      - destruct fl as [|f fl]; [split; [left; lia|reflexivity]|]. exfalso. cbn [length] in PL. lia.
      - split; [left; lia|reflexivity].
      - destruct fl as [|f fl].
        + split; [|reflexivity]. rewrite app_nil_r in P. cbn [length] in PL. right. rewrite P. rewrite firstn_all2 by lia. reflexivity.
        + split; [|reflexivity]. auto. }
    induction h as [|o h IH] using rev_ind.
    - exists (pinging keep (firstn keep arr) (skipn keep arr) []). cbn [VtModel.run fold_left]. subst s0. cbn [trackers set_tracker next_id]. rewrite put_case, N.eqb_refl.
      assert (NF : NoDup (firstn keep arr)).
      { rewrite <- (firstn_skipn keep arr) in ND. clear - ND. induction (firstn keep arr) as [|x k IH]; [constructor|]. cbn in ND. inversion ND; subst. constructor; [intros X; apply H1; apply in_or_app; now left|auto]. }
      destruct (PG (firstn keep arr) [] NF (Permutation_refl _)) as [P1 P2]. repeat apply conj; auto.
      + intros X. rewrite X in P1. exact P1.
      + rewrite P2. intros x [].
    - apply Forall_app in H as [H1 H2]. apply Forall_inv in H2 as [NS NA]. specialize (IH H1). unfold VtModel.run. rewrite fold_left_app. cbn [fold_left]. fold (run s0 h). set (s1 := run s0 h) in *.
      destruct IH as (ph & A & B & W & C & D).
      assert (KEEP : forall s', trackers s' t = trackers s1 t -> t < next_id s' -> exists ph, trackers s' t = Some {| t_epoch := e; t_phase := ph |} /\ t < next_id s' /\ ph <> Waiting /\
        (forall x, In x (found ph) -> In (OPing t x true) (h ++ [o])) /\
        ((exists p, In (OPing t p false) (h ++ [o])) \/
         match ph with
         | Waiting => False
         | Pinging fl rest got => NoDup fl /\ Permutation (got ++ fl) (firstn keep arr) /\ rest = skipn keep arr /\ (length got < keep)%nat
         | Found got => length got = keep \/ Permutation got arr
         end)).
      { intros s' E1 L1. exists ph. rewrite E1. repeat apply conj; auto.
        - intros x X. apply in_or_app. left. auto.
        - destruct D as [[p D]|D]; [left; exists p; apply in_or_app; now left|now right]. }
      destruct o as [p| | | |p|k dd ar|k p ok|k|k]; cbn [VtModel.step].
      + apply KEEP; auto.
      + destruct (queue s1); destruct (md s1); apply KEEP; auto.
      + destruct (current s1); destruct (md s1); apply KEEP; auto.
      + destruct (md s1); apply KEEP; auto; cbn [trackers next_id]; [rewrite put_case; destruct (N.eqb_spec t (next_id s1)); [lia|reflexivity]|lia].
      + destruct (md s1); try (apply KEEP; auto; fail). destruct (mem p pending); apply KEEP; auto.
      + destruct (trackers s1 k) as [[e1 [| |]]|] eqn:ET; try (apply KEEP; auto; fail). apply KEEP; auto. cbn [set_tracker trackers]. rewrite put_case. destruct (N.eqb_spec t k) as [<-|]; [|reflexivity].
        rewrite A in ET. injection ET as <- ->. now destruct W.
      + destruct (trackers s1 k) as [[e1 [|fl rest got|]]|] eqn:ET; try (apply KEEP; auto; fail). destruct (mem p fl) eqn:EP; [|apply KEEP; auto]. apply mem_spec in EP.
        destruct (N.eq_dec t k) as [<-|NK]; [|apply KEEP; auto; cbn [set_tracker trackers]; rewrite put_case; destruct (N.eqb_spec t k); [congruence|reflexivity]].
        rewrite A in ET. injection ET as <- ->. cbn [set_tracker trackers]. rewrite put_case, N.eqb_refl. cbn [found] in C.
        assert (FP : forall fl rest got, found (pinging keep fl rest got) = got /\ pinging keep fl rest got <> Waiting).
        { intros f r g. unfold pinging. destruct (_ && _); [split; [reflexivity|discriminate]|]. destruct f; split; try reflexivity; discriminate. }
        destruct ok.
        * eexists. split; [reflexivity|]. split; [exact B|]. destruct (FP (without p fl) rest (got ++ [p])) as [F1 F2]. split; [exact F2|]. rewrite F1. split.
          -- intros x X. apply in_app_or in X as [X|[<-|[]]]; apply in_or_app; [left; auto|right; now left].
          -- destruct D as [[q D]|(NF & D & -> & L)]; [left; exists q; apply in_or_app; now left|]. right.
             apply PG; [now apply nodup_filter|]. rewrite <- app_assoc. cbn [app]. now rewrite (without_perm p fl NF EP).
        * assert (X : exists ph', ph' <> Waiting /\ found ph' = got /\ (match rest with [] => Found got | q :: r => pinging keep (without p fl ++ [q]) r got end) = ph').
          { eexists. split; [|split; [|reflexivity]]; destruct rest; try discriminate; try reflexivity; apply FP. }
          destruct X as (ph' & X1 & X2 & X3). exists ph'. rewrite X3. repeat apply conj; auto.
          -- rewrite X2. intros x X. apply in_or_app. left. auto.
          -- left. exists p. apply in_or_app. right. now left.
      + destruct (N.eq_dec t k) as [<-|NK]; [congruence|]. destruct (trackers s1 k) as [[e1 [| |g]]|]; try (apply KEEP; auto; fail).
        destruct (epoch s1 =? e1); apply KEEP; auto; cbn [set_tracker trackers]; rewrite put_case; (destruct (N.eqb_spec t k); [congruence|reflexivity]).
      + destruct (N.eq_dec t k) as [<-|NK]; [congruence|]. apply KEEP; auto. cbn [set_tracker trackers]. rewrite put_case. destruct (N.eqb_spec t k); [congruence|reflexivity]. }
  destruct G as (ph & A & _ & W & C & D). exists ph. repeat apply conj; auto. intros got ->. tauto.
Qed.
(** A round ends: each answer leaves fewer pings to wait for or to send. *)
Definition left_over (p : phase) : nat := match p with Pinging fl rest _ => length fl + length rest | _ => 0 end.
Theorem round_ends : forall s t e fl rest got p ok, trackers s t = Some {| t_epoch := e; t_phase := Pinging fl rest got |} -> In p fl ->
  exists ph, trackers (step s (OPing t p ok)) t = Some {| t_epoch := e; t_phase := ph |} /\ (left_over ph < length fl + length rest)%nat.
Proof.
  intros s t e fl rest got p ok E I. cbn [VtModel.step]. rewrite E. rewrite (proj2 (mem_spec p fl) I). cbn [set_tracker trackers]. rewrite put_case, N.eqb_refl. eexists. split; [reflexivity|].
  assert (LW : (length (without p fl) < length fl)%nat).
  { clear - I. unfold without. induction fl as [|x l IH]; [destruct I|]. cbn [filter]. pose proof (filter_le (fun x => negb (x =? p)) l) as L. destruct (N.eqb_spec x p); cbn [negb length]; [lia|].
    destruct I as [->|I]; [congruence|]. specialize (IH I). lia. }
  assert (LP : forall f r g, (left_over (pinging keep f r g) <= length f + length r)%nat) by (intros f r g; unfold pinging; destruct (_ && _); [cbn; lia|]; destruct f; cbn; lia).
  destruct ok.
  - specialize (LP (without p fl) rest (got ++ [p])). lia.
  - destruct rest as [|q r]; [cbn [left_over]; pose proof (Nat.le_0_l (length (without p fl))); lia|]. specialize (LP (without p fl ++ [q]) r got). rewrite app_length in LP. cbn [length] in *. lia.
Qed.
End Thms.
