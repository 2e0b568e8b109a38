(** C88: theorems about the search of a value. *)
From Verif Require Import Bytes DhtModel DhtDist DhtProps DhtTable DqModel DqInv.
From Coq Require Import List NArith ZArith Bool Lia Arith ZifyN ZifyNat ZifyBool.
Import ListNotations.
Local Open Scope N_scope.
Local Opaque xor_distance de be.

Section Find.
Context (self target : id) (max_k : nat) (TO : id_ok target) {V : Type} (valid : V -> bool).
Local Notation take := (take self max_k).
Local Notation first_candidates := (first_candidates self target max_k).
Local Notation begin_ := (begin_ self target max_k (V := V)).
Local Notation next := (next self target max_k valid).
Local Notation goes := (goes self target max_k valid).
Local Notation tab := (tab target max_k).

Definition ids_ok (e : id * answer (V := V)) : Prop := match snd e with Nodes l => Forall (fun o => id_ok (of_id o)) l | _ => True end.
(** an offer which a search may use *)
Definition usable (o : offer) : Prop := of_valid o = true /\ of_kept o = true /\ of_id o <> self /\ of_id o <> target.
(** who may be asked: the first candidates and the usable offers of the answers *)
Definition met (l : list node) (es : list (id * answer (V := V))) (i : id) : Prop :=
  (exists n, In n l /\ n_id n = i /\ i <> self /\ i <> target) \/
  exists p os o, In (p, Nodes os) es /\ In o os /\ of_id o = i /\ usable o.

Lemma first_ok l : Forall (fun n => id_ok (n_id n)) l -> tab (first_candidates l) /\
  (forall n, In n (known (first_candidates l)) -> In n l /\ n_id n <> self /\ n_id n <> target).
Proof.
  intros F. unfold DqModel.first_candidates.
  assert (G : forall t, tab t -> (forall n, In n (known t) -> In n l /\ n_id n <> self /\ n_id n <> target) -> forall l', incl l' l ->
     let t' := fold_left (fun t n => if id_eqb (n_id n) self then t else fst (add t n max_k (fun _ => false) true)) l' t in
     tab t' /\ (forall n, In n (known t') -> In n l /\ n_id n <> self /\ n_id n <> target)).
  { intros t T K l'. revert t T K. induction l' as [|a l' IH]; intros t T K I; cbn [fold_left]; [auto|].
    assert (AI : In a l) by (apply I; now left).
    assert (AO : id_ok (n_id a)) by (rewrite Forall_forall in F; auto).
    assert (I' : incl l' l) by (intros x X; apply I; now right).
    destruct (id_eqb_spec (n_id a) self) as [E|E]; [now apply IH|]. apply IH; [now apply tab_add| |auto].
    intros n H. apply (known_add target max_k TO) in H; auto. destruct H as [(-> & _ & X)|H]; auto. }
  apply (G (new_table target)); [apply tab_new| |apply incl_refl].
  intros n H. exfalso. clear -H. unfold known in H. apply in_flat_map in H as (i & _ & H). destruct H.
Qed.
Lemma takes_ok os t : Forall (fun o => id_ok (of_id o)) os -> tab t -> tab (fold_left take os t) /\
  (forall n, In n (known (fold_left take os t)) -> In n (known t) \/ exists o, In o os /\ of_node o = n /\ usable o).
Proof.
  revert t. induction os as [|o os IH]; intros t F T; cbn [fold_left]; [auto|]. inversion F as [|? ? F1 F2]; subst.
  assert (S : tab (take t o) /\ forall n, In n (known (take t o)) -> In n (known t) \/ of_node o = n /\ usable o).
  { unfold DqModel.take. destruct (of_valid o) eqn:VA; cbn [negb]; [|auto]. destruct (id_eqb_spec (of_id o) self) as [E|E]; [auto|].
    split; [now apply tab_add|]. intros n H. apply (known_add target max_k TO) in H; auto. destruct H as [(-> & K & X)|H]; [|auto].
    right. split; [auto|]. unfold usable. auto. }
  destruct S as [S1 S2]. destruct (IH _ F2 S1) as [A B]. split; [auto|]. intros n H. destruct (B n H) as [X|(o' & X & Y)].
  - destruct (S2 n X) as [Z|Z]; [auto|]. right. exists o. split; [now left|auto].
  - right. exists o'. split; [now right|auto].
Qed.

Definition inv (l : list node) (es : list (id * answer)) (s : @search V) : Prop :=
  tab (s_table s) /\ good (s_asked s) /\
  (forall n, In n (known (s_table s)) -> met l es (n_id n)) /\
  (forall i, In i (a_all (s_asked s)) -> met l es i) /\
  (s_out s = None -> incl (map n_id (closest (s_table s) target max_k)) (a_all (s_asked s))).
Lemma met_snoc l es e i : met l es i -> met l (es ++ [e]) i.
Proof.
  intros [H|(p & os & o & A & B)]; [left; auto|]. right. exists p, os, o. split; [apply in_or_app; auto|auto].
Qed.
Lemma goes_snoc l es e : goes l (es ++ [e]) = next (goes l es) e.
Proof. unfold DqModel.goes. now rewrite fold_left_app. Qed.
Lemma begin_inv l : Forall (fun n => id_ok (n_id n)) l -> inv l [] (begin_ l).
Proof.
  intros F. destruct (first_ok l F) as [T K]. unfold DqModel.begin_. set (t := first_candidates l) in *.
  assert (G0 : good (Asked [] [])) by (split; [constructor|split; [constructor|intros x []]]).
  destruct (ask_spec target max_k (fun _ => true) t (Asked [] []) G0) as (A & B & _).
  assert (KM : forall n, In n (known t) -> met l [] (n_id n)).
  { intros n H. destruct (K n H) as (X & Y & Z). left. exists n. auto. }
  split; [exact T|]. split; [exact A|]. split; [exact KM|]. cbn [s_asked s_table s_out]. split.
  - intros i H. apply B in H. destruct H as [[]|[_ H]]. apply in_map_iff in H as (n & <- & H). apply KM.
    destruct (tab_facts target max_k TO t T) as (_ & _ & C & _). auto.
  - intros _ i H. apply B. right. auto.
Qed.
Lemma goes_inv l es : Forall (fun n => id_ok (n_id n)) l -> Forall ids_ok es -> inv l es (goes l es).
Proof.
  intros F FE. induction es as [|e es IH] using rev_ind; [now apply begin_inv|].
  apply Forall_app in FE as [FE1 FE2]. specialize (IH FE1). inversion FE2 as [|? ? FE3 _]; subst. clear FE2.
  rewrite goes_snoc. set (s := goes l es) in *. clearbody s. destruct IH as (T & G & K & M & C).
  assert (K' : forall n, In n (known (s_table s)) -> met l (es ++ [e]) (n_id n)) by (intros; apply met_snoc; auto).
  assert (M' : forall i, In i (a_all (s_asked s)) -> met l (es ++ [e]) i) by (intros; apply met_snoc; auto).
  assert (SAME : inv l (es ++ [e]) s) by (split; [auto|split; [auto|split; [auto|split; auto]]]).
  destruct e as [p a]. cbn [DqModel.next]. destruct (s_out s) as [v|] eqn:O; [exact SAME|].
  destruct (mem p (a_open (s_asked s))); cbn [negb]; [|exact SAME].
  assert (G' := good_drop _ p G). destruct a as [v|os|].
  - split; [exact T|]. split; [exact G'|]. split; [exact K'|]. split; [exact M'|]. intros _. exact (C eq_refl).
  - unfold ids_ok in FE3. cbn [snd] in FE3. destruct (takes_ok os (s_table s) FE3 T) as [A B].
    set (t := fold_left take os (s_table s)) in *.
    assert (KM : forall n, In n (known t) -> met l (es ++ [(p, Nodes os)]) (n_id n)).
    { intros n H. destruct (B n H) as [H'|(o & H1 & <- & H2)]; [auto|]. right. exists p, os, o.
      split; [apply in_or_app; right; now left|]. auto. }
    destruct (ask_spec target max_k (fun _ => true) t _ G') as (Q1 & Q2 & _).
    split; [exact A|]. split; [exact Q1|]. split; [exact KM|]. cbn [s_asked s_table s_out]. split.
    + intros i H. apply Q2 in H. destruct H as [H|[_ H]]; [auto|]. apply in_map_iff in H as (n & <- & H). apply KM.
      destruct (tab_facts target max_k TO t A) as (_ & _ & D & _). auto.
    + intros _ i H. apply Q2. right. auto.
  - split; [exact T|]. split; [exact G'|]. split; [exact K'|]. split; [exact M'|]. intros _. exact (C eq_refl).
Qed.

(** *** Whom a search asks *)
(** Nobody is asked twice; only first candidates and offered peers whose signature was checked and
    who are not banned are asked, and neither the node itself nor the target. *)
Theorem asked_once l es : Forall (fun n => id_ok (n_id n)) l -> Forall ids_ok es ->
  NoDup (a_all (s_asked (goes l es))) /\
  forall i, In i (a_all (s_asked (goes l es))) -> i <> self /\ i <> target /\ met l es i.
Proof.
  intros F FE. destruct (goes_inv l es F FE) as (_ & (G & _) & _ & M & _). split; [exact G|].
  intros i H. pose proof (M i H) as X. split; [|split; [|exact X]].
  - destruct X as [(n & _ & _ & A & _)|(p & os & o & _ & _ & <- & U)]; [auto|apply U].
  - destruct X as [(n & _ & _ & _ & A)|(p & os & o & _ & _ & <- & U)]; [auto|apply U].
Qed.

(** *** The value *)
(** the answers which a search takes: of the peers asked and not answered, before a result *)
Fixpoint taken (s : @search V) (es : list (id * answer)) : list (id * answer) :=
  match es with
  | [] => []
  | e :: r => match s_out s with
              | Some _ => []
              | None => if mem (fst e) (a_open (s_asked s)) then e :: taken (next s e) r else taken s r
              end
  end.
Lemma next_idle s e : s_out s = None -> mem (fst e) (a_open (s_asked s)) = false -> next s e = s.
Proof. intros O M. destruct e as [p a]. cbn in *. now rewrite O, M. Qed.
Lemma next_done s e v : s_out s = Some v -> next s e = s.
Proof. intros O. destruct e as [p a]. cbn. now rewrite O. Qed.
Lemma done_stays es s v : s_out s = Some v -> fold_left next es s = s.
Proof. intros O. induction es as [|e es IH]; cbn [fold_left]; [auto|]. now rewrite (next_done s e v O). Qed.
Lemma next_out s p a : s_out s = None -> mem p (a_open (s_asked s)) = true ->
  s_out (next s (p, a)) = match a with Found v => if valid v then Some v else None | _ => None end.
Proof. intros O M. cbn. rewrite O, M. cbn. now destruct a. Qed.
Lemma taken_out es s : s_out s = None ->
  s_out (fold_left next es s) = fold_right (fun e r => match snd e with Found v => if valid v then Some v else r | _ => r end) None (taken s es).
Proof.
  revert s. induction es as [|[p a] es IH]; intros s O; cbn [fold_left taken]; [now rewrite O|]. rewrite O. cbn [fst].
  destruct (mem p (a_open (s_asked s))) eqn:M.
  2:{ rewrite (next_idle s (p, a)) by auto. now apply IH. }
  pose proof (next_out s p a O M) as N. cbn [fold_right snd]. destruct (s_out (next s (p, a))) as [v|] eqn:E.
  - rewrite (done_stays es _ v E), E, N. destruct a as [v'| |]; [|discriminate|discriminate]. destruct (valid v'); [auto|discriminate].
  - rewrite IH by auto. destruct a as [v'| |]; auto. destruct (valid v'); [discriminate|auto].
Qed.
(** The result is a value which a peer asked answered with and which passes the check, the first
    such one; no result means that no answer taken was a good value. *)
Theorem result_is_valid l es v : s_out (goes l es) = Some v ->
  valid v = true /\ exists a p b, taken (begin_ l) es = a ++ (p, Found v) :: b /\ forall q w, In (q, Found w) a -> valid w = false.
Proof.
  unfold DqModel.goes. rewrite taken_out by reflexivity. generalize (taken (begin_ l) es). intros t.
  induction t as [|[p a] t IH]; cbn [fold_right snd]; [discriminate|]. destruct a as [w|os|].
  - destruct (valid w) eqn:W.
    + intros [= ->]. split; [auto|]. exists [], p, t. split; [reflexivity|]. intros q x [].
    + intros H. destruct (IH H) as (A & a & q & b & E & B). split; [auto|]. exists ((p, Found w) :: a), q, b. rewrite E.
      split; [reflexivity|]. intros r x [X|X]; [congruence|eauto].
  - intros H. destruct (IH H) as (A & a & q & b & E & B). split; [auto|]. exists ((p, Nodes os) :: a), q, b. rewrite E.
    split; [reflexivity|]. intros r x [X|X]; [congruence|eauto].
  - intros H. destruct (IH H) as (A & a & q & b & E & B). split; [auto|]. exists ((p, Failed) :: a), q, b. rewrite E.
    split; [reflexivity|]. intros r x [X|X]; [congruence|eauto].
Qed.
Theorem no_result l es : s_out (goes l es) = None -> forall p w, In (p, Found w) (taken (begin_ l) es) -> valid w = false.
Proof.
  unfold DqModel.goes. rewrite taken_out by reflexivity. generalize (taken (begin_ l) es). intros t.
  induction t as [|[p a] t IH]; cbn [fold_right snd]; [intros _ p w []|]. destruct a as [x|os|]; intros H q w [E|I]; try congruence; eauto.
  - injection E as <- <-. destruct (valid x); congruence.
  - destruct (valid x); [discriminate|]. eauto.
Qed.

(** *** The end *)
Lemma next_counts s e : good (s_asked s) -> s_out s = None -> mem (fst e) (a_open (s_asked s)) = true ->
  (length (a_open (s_asked (next s e))) + length (a_all (s_asked s)) + 1 = length (a_all (s_asked (next s e))) + length (a_open (s_asked s)))%nat.
Proof.
  intros G O M. destruct e as [p a]. cbn [fst] in M. cbn [DqModel.next]. rewrite O, M. cbn [negb].
  assert (I := M). apply mem_spec in I. assert (D := drop_length p _ (proj1 (proj2 G)) I). destruct a as [v|os|]; cbn [s_asked a_open a_all].
  - lia.
  - destruct (ask_spec target max_k (fun _ => true) (fold_left take os (s_table s)) _ (good_drop _ p G)) as (_ & _ & _ & L).
    cbn [a_open a_all] in L. lia.
  - lia.
Qed.
Lemma next_good s e : good (s_asked s) -> good (s_asked (next s e)).
Proof.
  intros G. destruct e as [p a]. cbn [DqModel.next]. destruct (s_out s); [auto|]. destruct (mem p (a_open (s_asked s))); [|auto].
  cbn [negb]. assert (G' := good_drop _ p G). destruct a; cbn [s_asked]; auto.
  now destruct (ask_spec target max_k (fun _ => true) (fold_left take l (s_table s)) _ G') as (A & _).
Qed.
Lemma taken_counts es s : good (s_asked s) ->
  (length (taken s es) + length (a_all (s_asked s)) + length (a_open (s_asked (fold_left next es s))) =
   length (a_all (s_asked (fold_left next es s))) + length (a_open (s_asked s)))%nat.
Proof.
  revert s. induction es as [|e es IH]; intros s G; cbn [taken fold_left]; [cbn; lia|].
  destruct (s_out s) as [v|] eqn:O.
  { rewrite (next_done s e v O), (done_stays es s v O). cbn. lia. }
  destruct (mem (fst e) (a_open (s_asked s))) eqn:M.
  - specialize (IH (next s e) (next_good s e G)). assert (C := next_counts s e G O M). cbn [length]. lia.
  - rewrite (next_idle s e O M). now apply IH.
Qed.
(** A search among finitely many peers ends: as many answers are taken as requests are made and
    answered, and never more than there are peers. *)
Theorem search_ends l es (world : list id) : Forall (fun n => id_ok (n_id n)) l -> Forall ids_ok es ->
  (forall i, met l es i -> In i world) ->
  (length (taken (begin_ l) es) <= length world)%nat /\
  (length (taken (begin_ l) es) + length (a_open (s_asked (goes l es))) = length (a_all (s_asked (goes l es))))%nat.
Proof.
  intros F FE W. destruct (goes_inv l es F FE) as (_ & (G & _) & _ & M & _).
  assert (B : inv l [] (begin_ l)) by now apply begin_inv. destruct B as (_ & GB & _).
  assert (C := taken_counts es (begin_ l) GB). change (fold_left next es (begin_ l)) with (goes l es) in C.
  assert (E0 : length (a_all (s_asked (begin_ l))) = length (a_open (s_asked (begin_ l)))).
  { unfold DqModel.begin_. cbn [s_asked].
    assert (G0 : good (Asked [] [])) by (split; [constructor|split; [constructor|intros x []]]).
    destruct (ask_spec target max_k (fun _ => true) (first_candidates l) (Asked [] []) G0) as (_ & _ & _ & L). cbn in L. lia. }
  assert (L : (length (a_all (s_asked (goes l es))) <= length world)%nat).
  { apply NoDup_incl_length; [exact G|]. intros i H. auto. }
  split; lia.
Qed.

(** *** The nearest are asked *)
Definition fresh_answers (es : list (id * answer (V := V))) : Prop :=
  forall p os o n, In (p, Nodes os) es -> In o os -> of_expired o n = false.
Lemma takes_near os t : Forall (fun o => id_ok (of_id o)) os -> (forall o, In o os -> forall n, of_expired o n = false) -> tab t ->
  incl (map n_id (known t)) (map n_id (known (fold_left take os t))) /\
  (forall o, In o os -> usable o -> near target max_k (fold_left take os t) (of_id o)).
Proof.
  revert t. induction os as [|o os IH]; intros t F E T; cbn [fold_left]; [split; [apply incl_refl|intros o []]|].
  inversion F as [|? ? F1 F2]; subst.
  assert (S : tab (take t o) /\ incl (map n_id (known t)) (map n_id (known (take t o))) /\ (usable o -> near target max_k (take t o) (of_id o))).
  { unfold DqModel.take. destruct (of_valid o) eqn:VA; cbn [negb].
    2:{ split; [auto|]. split; [apply incl_refl|]. intros (U & _). congruence. }
    destruct (id_eqb_spec (of_id o) self) as [Q|Q].
    { split; [auto|]. split; [apply incl_refl|]. intros (_ & _ & U & _). congruence. }
    split; [now apply tab_add|].
    assert (X : add t (of_node o) max_k (of_expired o) (of_kept o) = add t (of_node o) max_k (fun _ => false) (of_kept o)).
    { unfold add. destruct (_ =? 0); [reflexivity|]. unfold bucket_insert.
      destruct (bks t _) as [|f r]; [reflexivity|]. now rewrite (E o (or_introl eq_refl) f). }
    rewrite X. destruct (near_add target max_k TO t (of_node o) (of_kept o) T F1) as [A B]. split; [exact A|].
    intros (_ & U2 & _ & U4). apply B; auto. }
  destruct S as (S1 & S2 & S3). destruct (IH _ F2 (fun o' H => E o' (or_intror H)) S1) as [A B]. split.
  - intros x X. auto.
  - intros o' [<-|H] U; [|auto]. eapply near_mono; [exact A|]. auto.
Qed.
Lemma first_near l : Forall (fun n => id_ok (n_id n)) l ->
  forall n, In n l -> n_id n <> self -> n_id n <> target -> near target max_k (first_candidates l) (n_id n).
Proof.
  intros F. unfold DqModel.first_candidates.
  assert (G : forall l' t, Forall (fun n => id_ok (n_id n)) l' -> tab t ->
     let t' := fold_left (fun t n => if id_eqb (n_id n) self then t else fst (add t n max_k (fun _ => false) true)) l' t in
     incl (map n_id (known t)) (map n_id (known t')) /\
     forall n, In n l' -> n_id n <> self -> n_id n <> target -> near target max_k t' (n_id n)).
  { induction l' as [|a l' IH]; intros t FL T; cbn [fold_left]; [split; [apply incl_refl|intros n []]|].
    inversion FL as [|? ? F1 F2]; subst. destruct (id_eqb_spec (n_id a) self) as [E|E].
    - destruct (IH t F2 T) as [A B]. split; [exact A|]. intros n [<-|H]; [congruence|auto].
    - destruct (near_add target max_k TO t a true T F1) as [C D].
      destruct (IH _ F2 (tab_add target max_k t a (fun _ => false) true F1 T)) as [A B]. split; [intros x X; auto|].
      intros n [<-|H]; [|auto]. intros _ NT. eapply near_mono; [exact A|]. now apply D. }
  destruct (G l (new_table target) F (tab_new target max_k)) as [_ H]. exact H.
Qed.
(** whom the answers taken offered *)
Definition met_taken (l : list node) (es : list (id * answer (V := V))) (i : id) : Prop := met l (taken (begin_ l) es) i.
Lemma taken_snoc es s e : taken s (es ++ [e]) = taken s es ++
   match s_out (fold_left next es s) with
   | Some _ => [] | None => if mem (fst e) (a_open (s_asked (fold_left next es s))) then [e] else [] end.
Proof.
  revert s. induction es as [|x es IH]; intros s; cbn [app taken fold_left].
  - destruct (s_out s); [reflexivity|]. now destruct (mem (fst e) _).
  - destruct (s_out s) as [v|] eqn:O.
    + rewrite (next_done s x v O), (done_stays es s v O), O. reflexivity.
    + destruct (mem (fst x) (a_open (s_asked s))) eqn:M; [cbn; now rewrite IH|]. rewrite (next_idle s x O M). apply IH.
Qed.
Lemma all_near l es : Forall (fun n => id_ok (n_id n)) l -> Forall ids_ok es -> fresh_answers es ->
  forall i, met_taken l es i -> near target max_k (s_table (goes l es)) i.
Proof.
  intros F FE. unfold met_taken. induction es as [|e es IH] using rev_ind; intros FR i M.
  { cbn in M. destruct M as [(n & A & <- & B & C)|(p & os & o & [] & _)]. now apply first_near. }
  apply Forall_app in FE as [FE1 FE2]. inversion FE2 as [|? ? FE3 _]; subst.
  assert (FR1 : fresh_answers es) by (intros p os o n H; apply (FR p os o n), in_or_app; auto).
  specialize (IH FE1 FR1). destruct (goes_inv l es F FE1) as (T & _).
  rewrite goes_snoc. rewrite taken_snoc in M. change (fold_left next es (begin_ l)) with (goes l es) in M.
  set (s := goes l es) in *. destruct e as [p a]. cbn [fst] in M. cbn [DqModel.next].
  destruct (s_out s) as [v|]; [rewrite app_nil_r in M; auto|]. destruct (mem p (a_open (s_asked s))); cbn [negb].
  2:{ rewrite app_nil_r in M; auto. }
  assert (OLD : met l (taken (begin_ l) es) i \/ exists os o, a = Nodes os /\ In o os /\ of_id o = i /\ usable o).
  { destruct M as [M|(q & os & o & A & B)]; [left; left; auto|]. apply in_app_or in A as [A|[A|[]]].
    - left. right. exists q, os, o. auto.
    - injection A as -> ->. right. exists os, o. auto. }
  destruct a as [v|os|]; cbn [s_table].
  - destruct OLD as [O|(os & o & O & _)]; [auto|discriminate].
  - unfold ids_ok in FE3. cbn [snd] in FE3.
    assert (EX : forall o, In o os -> forall n, of_expired o n = false).
    { intros o H n. apply (FR p os o n); [apply in_or_app; right; now left|auto]. }
    destruct (takes_near os (s_table s) FE3 EX T) as [A B]. destruct OLD as [O|(os' & o & O & O1 & <- & O2)].
    + eapply near_mono; [exact A|auto].
    + injection O as <-. auto.
  - destruct OLD as [O|(os & o & O & _)]; [auto|discriminate].
Qed.
(** When a search ends without a value, every peer that was offered and usable was asked, or
    [max_k] peers at least as near to the target were. *)
Theorem nearest_are_asked l es : Forall (fun n => id_ok (n_id n)) l -> Forall ids_ok es -> fresh_answers es ->
  s_out (goes l es) = None -> a_open (s_asked (goes l es)) = [] ->
  forall i, met_taken l es i -> In i (a_all (s_asked (goes l es))) \/ crowd target max_k (a_all (s_asked (goes l es))) i.
Proof.
  intros F FE FR O _ i M. destruct (goes_inv l es F FE) as (T & _ & _ & _ & C).
  apply (near_asked target max_k TO (s_table (goes l es))); [exact T|now apply C|]. now apply all_near.
Qed.

(** *** A network that does not change *)
(** Every peer answers the same way whenever it is asked; [reach]: who can be met from the first
    candidates. *)
Context (world : id -> answer (V := V)) (start : list node).
Inductive reach : id -> Prop :=
| reach_first n : In n start -> n_id n <> self -> n_id n <> target -> reach (n_id n)
| reach_next p os o : reach p -> world p = Nodes os -> In o os -> usable o -> reach (of_id o).
(** In such a network, if fewer than [max_k] peers were asked when the search ended with nothing,
    no peer that can be reached has a good value: a value held by somebody reachable is found. *)
Theorem reachable_value_is_found ps :
  let es := map (fun p => (p, world p)) ps in
  Forall (fun n => id_ok (n_id n)) start -> Forall ids_ok es -> fresh_answers es ->
  s_out (goes start es) = None -> a_open (s_asked (goes start es)) = [] ->
  (length (a_all (s_asked (goes start es))) < max_k)%nat ->
  forall p, reach p -> In p (a_all (s_asked (goes start es))) /\ forall v, world p = Found v -> valid v = false.
Proof.
  intros es F FE FR O E L.
  assert (NC : forall i, ~ crowd target max_k (a_all (s_asked (goes start es))) i).
  { intros i (m & A & B & C & _). apply (NoDup_incl_length A) in C. lia. }
  assert (ASK : forall i, met_taken start es i -> In i (a_all (s_asked (goes start es)))).
  { intros i M. destruct (nearest_are_asked start es F FE FR O E i M) as [X|X]; [auto|]. destruct (NC i X). }
  (* everybody asked has answered, with what it always answers *)
  assert (ANS : forall i, In i (a_all (s_asked (goes start es))) -> In (i, world i) (taken (begin_ start) es)).
  { assert (G : forall ps s, good (s_asked s) -> let es := map (fun p => (p, world p)) ps in s_out (fold_left next es s) = None ->
       forall i, In i (a_all (s_asked (fold_left next es s))) ->
         In (i, world i) (taken s es) \/ In i (a_open (s_asked (fold_left next es s))) \/ (In i (a_all (s_asked s)) /\ ~ In i (a_open (s_asked s)))).
    { clear. induction ps as [|p ps IH]; intros s G; cbn [map fold_left taken]; intros O i I.
      - destruct (in_dec (list_eq_dec N.eq_dec) i (a_open (s_asked s))); auto.
      - destruct (s_out s) as [v|] eqn:OS.
        { exfalso. rewrite (next_done s _ v OS), (done_stays _ s v OS), OS in O. discriminate. }
        cbn [fst]. destruct (mem p (a_open (s_asked s))) eqn:M.
        2:{ rewrite (next_idle s (p, world p) OS M) in *. now apply IH. }
        destruct (IH (next s (p, world p)) (next_good _ _ G) O i I) as [H|[H|[H1 H2]]]; [left; now right|auto|].
        destruct (id_eqb_spec p i) as [<-|NE]; [left; now left|]. right. right.
        revert H1 H2. cbn [DqModel.next]. rewrite OS, M. cbn [negb].
        destruct (world p) as [v|os|]; cbn [s_asked a_all a_open]; intros H1 H2.
        + split; [auto|]. intros X. apply H2. apply in_drop. split; [auto|congruence].
        + destruct (ask_spec target max_k (fun _ => true) (fold_left take os (s_table s)) _ (good_drop _ p G)) as (_ & B & C & _).
          apply B in H1. cbn [a_all] in H1.
          assert (H2' : ~ (In i (drop p (a_open (s_asked s))))) by (intros X; apply H2, C; left; exact X).
          assert (NO : ~ In i (a_open (s_asked s))) by (intros X; apply H2', in_drop; split; [auto|congruence]).
          destruct (in_dec (list_eq_dec N.eq_dec) i (a_all (s_asked s))) as [Y|Y]; [auto|].
          exfalso. destruct H1 as [H1|[H1 H3]]; [auto|]. apply H2, C. right. auto.
        + split; [auto|]. intros X. apply H2. apply in_drop. split; [auto|congruence]. }
    intros i I. destruct (G ps (begin_ start)) with (i := i) as [H|[H|[H1 H2]]]; auto.
    - apply (begin_inv start F).
    - change (fold_left next _ (begin_ start)) with (goes start es) in H. rewrite E in H. destruct H.
    - exfalso. apply H2. unfold DqModel.begin_ in *. cbn [s_asked] in *.
      assert (G0 : good (Asked [] [])) by (split; [constructor|split; [constructor|intros x []]]).
      destruct (ask_spec target max_k (fun _ => true) (first_candidates start) (Asked [] []) G0) as (_ & B & C & _).
      apply B in H1. destruct H1 as [[]|[A1 A2]]. apply C. right. split; [auto|]. split; [auto|]. intros []. }
  assert (ALL : forall p, reach p -> In p (a_all (s_asked (goes start es)))).
  { intros p R. induction R as [n A B C|p os o R IH W I U].
    - apply ASK. left. exists n. auto.
    - apply ASK. right. exists p, os, o. split; [|auto]. rewrite <- W. now apply ANS. }
  intros p R. split; [auto|]. intros v W. apply (no_result start es O p). rewrite <- W. apply ANS. auto.
Qed.
End Find.
