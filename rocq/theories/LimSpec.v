(** What a user of the limiter relies on. *)
From Coq Require Import List Bool NArith Lia ZArith ZifyN ZifyNat ZifyBool.
From Verif Require Import LimModel LimThms.
Import ListNotations.
Local Open Scope N_scope.

(** ** Small specification *)

(** every call of [enter] has returned or is gone, every guard is dropped *)
Definition all_quiet (n : lim) : Prop :=
  n_hold n = [] /\ forall x, In x (n_sems n) -> s_reg x = [] /\ s_queue x = [] /\ s_granted x = [] /\ s_dropped x = [].
(** every task that can go on has been polled: a call that did not return waits in a queue *)
Definition all_polled (n : lim) : Prop :=
  forall x, In x (n_sems n) -> s_reg x = [] /\ s_granted x = [] /\ s_dropped x = [].
(** some call of this round entered the limiter and there is no permit for it *)
Definition unserved (x : sem) : Prop := s_stored x < len (s_reg x) + len (s_queue x) + len (s_dropped x).
Definition is_enter (e : event) : bool := match e with EEnter _ => true | _ => false end.
Definition is_cancel (e : event) : bool := match e with ECancel _ _ => true | _ => false end.

Section Limiter.
  Variables (p : N).
  Hypothesis (P1 : 1 <= p) (P2 : p <= u16_max).

  Lemma sem_find n x : linv p n -> In x (n_sems n) -> find_sem (s_id x) (n_sems n) = Some x.
  Proof. intros I H. apply In_find; [exact (v_ids _ _ I)|exact H]. Qed.
  Lemma unserved_entry n x : linv p n -> In x (n_sems n) -> unserved x -> exists k, lookup (s_round x) (n_map n) = Some (s_id x, k).
  Proof.
    intros I H U. pose proof (v_bal _ _ I _ _ (sem_find n x I H)) as B. unfold infl, asking, unserved in *.
    destruct (lookup (s_round x) (n_map n)) as [(id & k)|]; [|lia]. destruct (N.eqb_spec id (s_id x)) as [E|E]; [subst id; eauto|lia].
  Qed.
  Lemma entry_unserved n r id k : linv p n -> lookup r (n_map n) = Some (id, k) -> exists x, find_sem id (n_sems n) = Some x /\ In x (n_sems n) /\ s_round x = r /\ unserved x.
  Proof.
    intros I L. destruct (v_map _ _ I _ _ _ L) as (K & x & FX & RX). exists x. split; [exact FX|]. split; [exact (find_In _ _ _ FX)|]. split; [exact RX|].
    pose proof (v_bal _ _ I _ _ FX) as B. unfold infl in B. rewrite RX, L, (find_id _ _ _ FX), N.eqb_refl in B. unfold unserved. unfold asking in B. lia.
  Qed.
  Lemma sum_zero g l : (forall x, In x l -> g x = 0) -> sum g l = 0.
  Proof. induction l as [|x l IH]; cbn [sum]; intros H; [reflexivity|]. rewrite (H x (or_introl eq_refl)), IH; [reflexivity|]. intros y Y. apply H. right. exact Y. Qed.

  (** No schedule of calls, cancellations and drops of guards makes the limiter panic. *)
  Theorem limiter_never_panics l n e : runs p l n -> enabled n e = true -> step n e <> None.
  Proof. intros R EN. destruct (step_linv p n e P1 P2 (runs_linv p l n P1 P2 R) EN) as (n' & E & _). rewrite E. discriminate. Qed.

  (** Never more guards than permits. *)
  Theorem at_most_permitted_guards l n : runs p l n -> len (n_hold n) <= p.
  Proof. intros R. pose proof (v_total _ _ (runs_linv p l n P1 P2 R)). lia. Qed.

  (** Every permit is somewhere: free, in a guard, or on its way to a call. *)
  Theorem permits_are_conserved l n : runs p l n -> n_permits n + len (n_hold n) + sum (fun x => s_stored x + len (s_granted x)) (n_sems n) = p.
  Proof. intros R. exact (v_total _ _ (runs_linv p l n P1 P2 R)). Qed.

  (** When everything is over, the limiter is as new: all permits are free and no round has an entry. *)
  Theorem nothing_is_lost l n : runs p l n -> all_quiet n -> n_permits n = p /\ n_map n = [].
  Proof.
    intros R [H0 Q]. pose proof (runs_linv p l n P1 P2 R) as I.
    assert (G : forall x, In x (n_sems n) -> given x = 0 /\ infl (n_map n) x = 0).
    { intros x H. destruct (Q x H) as (A & B & C & D). pose proof (v_bal _ _ I _ _ (sem_find n x I H)) as E. unfold asking in E. unfold given.
      rewrite A, B, D in E. rewrite C. change (len []) with 0 in *. lia. }
    split.
    - pose proof (v_total _ _ I) as T. rewrite H0, (sum_zero given) in T; [change (len []) with 0 in T; lia|]. intros x H. exact (proj1 (G x H)).
    - destruct (n_map n) as [|(r, (id, k)) m] eqn:M; [reflexivity|exfalso].
      destruct (entry_unserved n r id k I) as (x & _ & H & _ & U); [rewrite M; cbn [lookup]; rewrite N.eqb_refl; reflexivity|].
      destruct (Q x H) as (A & B & C & D). unfold unserved in U. rewrite A, B, D in U. change (len []) with 0 in U. lia.
  Qed.

  (** While a permit is free nobody waits: every call that did not return has a permit of its own. *)
  Theorem a_free_permit_means_no_waiting l n x : runs p l n -> 0 < n_permits n -> In x (n_sems n) -> s_queue x = [] /\ ~ unserved x.
  Proof.
    intros R F H. pose proof (runs_linv p l n P1 P2 R) as I. pose proof (v_free _ _ I F) as M.
    assert (U : ~ unserved x). { intros U. destruct (unserved_entry n x I H U) as (k & L). rewrite M in L. discriminate. }
    split; [|exact U]. destruct (s_queue x) as [|t q] eqn:Q; [reflexivity|exfalso]. apply U. unfold unserved.
    rewrite (v_queue _ _ I _ _ (sem_find n x I H)); [|rewrite Q; discriminate]. rewrite Q, len_cons. lia.
  Qed.

  (** A call waits only because all the permits are in guards. *)
  Theorem waiting_means_all_guards_taken l n x : runs p l n -> all_polled n -> In x (n_sems n) -> s_queue x <> [] -> len (n_hold n) = p.
  Proof.
    intros R A H Q. pose proof (runs_linv p l n P1 P2 R) as I.
    assert (F : n_permits n = 0).
    { destruct (N.eq_dec (n_permits n) 0) as [E|E]; [exact E|exfalso]. destruct (a_free_permit_means_no_waiting l n x R ltac:(lia) H) as [C _]. contradiction. }
    pose proof (v_total _ _ I) as T. rewrite (sum_zero given) in T; [lia|]. intros y Y. destruct (A y Y) as (B1 & B2 & B3). unfold given. rewrite B2. change (len []) with 0.
    pose proof (sem_find n y I Y) as FY. pose proof (v_bal _ _ I _ _ FY) as B. unfold asking in B. rewrite B1, B3 in B. change (len []) with 0 in B.
    destruct (s_queue y) as [|t q] eqn:E; [change (len []) with 0 in B; lia|]. pose proof (v_queue _ _ I _ _ FY) as S. rewrite E in S. specialize (S ltac:(discriminate)). lia.
  Qed.

  (** A guard that is dropped serves a call of the highest round among those without a permit,
      and becomes a free permit only if there is none. *)
  Theorem a_dropped_guard_serves_the_highest_round l n t n' :
    runs p l n -> enabled n (EExit t) = true -> step n (EExit t) = Some n' ->
    (exists x, In x (n_sems n) /\ unserved x /\
       (forall y, In y (n_sems n) -> unserved y -> s_round y <= s_round x /\ (s_round y = s_round x -> y = x)) /\
       n_sems n' = upd_sem (s_id x) add_permit (n_sems n) /\ n_permits n' = n_permits n /\ find_sem (s_id x) (n_sems n') = Some (add_permit x))
    \/ ((forall y, In y (n_sems n) -> ~ unserved y) /\ n_sems n' = n_sems n /\ n_permits n' = n_permits n + 1).
  Proof.
    intros R EN ST. pose proof (runs_linv p l n P1 P2 R) as I. cbn [step] in ST. unfold exit in ST. cbn [n_map n_sems n_permits n_hold n_next] in ST.
    destruct (last_entry (n_map n)) as [(r & id & k)|] eqn:L.
    - left. destruct (last_some _ _ L) as [IN MX]. pose proof (In_lookup _ _ _ (v_keys _ _ I) IN) as LK.
      destruct (entry_unserved n r id k I LK) as (x & FX & HX & RX & U). pose proof (find_id _ _ _ FX) as IX. exists x. split; [exact HX|]. split; [exact U|]. split.
      + intros y HY UY. destruct (unserved_entry n y I HY UY) as (k' & LY). split.
        * specialize (MX _ (lookup_In _ _ _ LY)). cbn [fst] in MX. lia.
        * intros E. rewrite E, RX, LK in LY. injection LY as E2 _. pose proof (sem_find n y I HY) as FY. rewrite <- E2, FX in FY. congruence.
      + assert (Q : n_sems n' = upd_sem id add_permit (n_sems n) /\ n_permits n' = n_permits n).
        { unfold dec_inflight, with_map, with_sems in ST. cbn [n_map n_sems n_permits n_hold n_next] in ST. destruct (k =? 0); [discriminate|]. destruct (k =? 1); injection ST as <-; auto. }
        destruct Q as [Q1 Q2]. rewrite IX. split; [exact Q1|]. split; [exact Q2|]. rewrite Q1, (find_upd _ _ _ _ (proj1 add_permit_name)), N.eqb_refl, FX. reflexivity.
    - right. apply last_none in L. split.
      + intros y HY UY. destruct (unserved_entry n y I HY UY) as (k' & LY). rewrite L in LY. discriminate.
      + destruct (n_permits n <? u16_max); [|discriminate]. injection ST as <-. auto.
  Qed.

  (** Within a round: the task that waits longest, if all the tasks have been polled. *)
  Theorem a_dropped_guard_goes_to_the_first_in_line l n t n' :
    runs p l n -> all_polled n -> enabled n (EExit t) = true -> step n (EExit t) = Some n' ->
    (exists x u q, In x (n_sems n) /\ s_queue x = u :: q /\
       (forall y, In y (n_sems n) -> s_queue y <> [] -> s_round y <= s_round x) /\
       find_sem (s_id x) (n_sems n') = Some (Sem (s_id x) (s_round x) (s_stored x) [] q [u] []))
    \/ ((forall y, In y (n_sems n) -> s_queue y = []) /\ n_permits n' = n_permits n + 1).
  Proof.
    intros R A EN ST. pose proof (runs_linv p l n P1 P2 R) as I.
    assert (UQ : forall y, In y (n_sems n) -> s_queue y <> [] -> unserved y).
    { intros y HY Q. unfold unserved. rewrite (v_queue _ _ I _ _ (sem_find n y I HY) Q). destruct (s_queue y); [contradiction|]. rewrite len_cons. lia. }
    destruct (a_dropped_guard_serves_the_highest_round l n t n' R EN ST) as [(x & HX & U & MX & _ & _ & F)|(NU & _ & E)].
    - left. destruct (A x HX) as (B1 & B2 & B3). unfold unserved in U. rewrite B1, B3 in U. change (len []) with 0 in U. destruct (s_queue x) as [|u q] eqn:Q; [change (len []) with 0 in U; lia|].
      exists x, u, q. split; [exact HX|]. split; [exact Q|]. split; [intros y HY QY; exact (proj1 (MX y HY (UQ y HY QY)))|].
      rewrite F. unfold add_permit. rewrite Q, B1, B2, B3. reflexivity.
    - right. split; [|exact E]. intros y HY. destruct (s_queue y) eqn:Q; [reflexivity|exfalso]. apply (NU y HY). apply UQ; [exact HY|rewrite Q; discriminate].
  Qed.

  (** ** Every call is served once the guards before it are dropped *)

  (** if anything is left, then something can happen besides new calls and cancellations *)
  Theorem limiter_never_stuck l n : runs p l n -> all_quiet n \/ exists e, is_enter e = false /\ is_cancel e = false /\ enabled n e = true.
  Proof.
    intros R. pose proof (runs_linv p l n P1 P2 R) as I.
    destruct (n_hold n) as [|t h] eqn:HH; [|right; exists (EExit t); split; [reflexivity|]; split; [reflexivity|]; cbn [enabled]; rewrite HH; unfold has; cbn [existsb]; rewrite N.eqb_refl; reflexivity].
    assert (D : (forall x, In x (n_sems n) -> s_reg x = [] /\ s_granted x = [] /\ s_dropped x = []) \/ exists x, In x (n_sems n) /\ (s_reg x <> [] \/ s_granted x <> [] \/ s_dropped x <> [])).
    { clear. induction (n_sems n) as [|x l IH]; [left; intros x []|]. destruct IH as [IH|(y & Y & Z)]; [|right; exists y; split; [right; exact Y|exact Z]].
      destruct (s_reg x) eqn:A; [|right; exists x; split; [left; reflexivity|left; congruence]].
      destruct (s_granted x) eqn:B; [|right; exists x; split; [left; reflexivity|right; left; congruence]].
      destruct (s_dropped x) eqn:C; [|right; exists x; split; [left; reflexivity|right; right; congruence]].
      left. intros y [<-|Y]; auto. }
    destruct D as [D|(x & HX & Z)].
    - destruct (existsb (fun x => match s_queue x with [] => false | _ => true end) (n_sems n)) eqn:E.
      + exfalso. apply existsb_exists in E as (x & HX & Q). assert (N : s_queue x <> []) by (destruct (s_queue x); discriminate).
        pose proof (waiting_means_all_guards_taken l n x R D HX N) as T. rewrite HH in T. change (len []) with 0 in T. lia.
      + left. split; [exact HH|]. intros x HX. destruct (D x HX) as (B1 & B2 & B3). repeat split; auto. destruct (s_queue x) eqn:Q; [reflexivity|exfalso].
        assert (Y : existsb (fun x => match s_queue x with [] => false | _ => true end) (n_sems n) = true) by (apply existsb_exists; exists x; rewrite Q; auto). congruence.
    - right. pose proof (sem_find n x I HX) as FX. destruct Z as [Z|[Z|Z]].
      + destruct (s_reg x) as [|t q] eqn:Q; [contradiction|]. exists (EPoll (s_id x) t). split; [reflexivity|]. split; [reflexivity|]. cbn [enabled]. rewrite FX, Q. unfold has. cbn [existsb]. rewrite N.eqb_refl. reflexivity.
      + destruct (s_granted x) as [|t q] eqn:Q; [contradiction|]. exists (EWake (s_id x) t). split; [reflexivity|]. split; [reflexivity|]. cbn [enabled]. rewrite FX, Q. unfold has. cbn [existsb]. rewrite N.eqb_refl. reflexivity.
      + destruct (s_dropped x) as [|t q] eqn:Q; [contradiction|]. exists (ECleanup (s_id x) t). split; [reflexivity|]. split; [reflexivity|]. cbn [enabled]. rewrite FX, Q. unfold has. cbn [existsb]. rewrite N.eqb_refl. reflexivity.
  Qed.

  Definition w (x : sem) : N := 4 * len (s_reg x) + 3 * len (s_queue x) + 2 * len (s_granted x) + len (s_dropped x).
  (** the work that is left: a number that bounds the steps *)
  Definition work (n : lim) : N := sum w (n_sems n) + len (n_hold n).

  Lemma w_add x : w (add_permit x) <= w x.
  Proof. unfold w, add_permit. destruct (s_queue x) eqn:Q; cbn [s_reg s_queue s_granted s_dropped]; [change (len []) with 0; lia|]. rewrite len_app, len_cons. lia. Qed.
  Lemma w_upd id f l : (forall x, w (f x) <= w x) -> sum w (upd_sem id f l) <= sum w l.
  Proof. intros F. induction l as [|x l IH]; cbn [upd_sem sum]; [lia|]. destruct (s_id x =? id); cbn [sum]; [specialize (F x); lia|lia]. Qed.
  Lemma w_dec n r id k n' : dec_inflight n r id k = Some n' -> n_sems n' = n_sems n /\ n_hold n' = n_hold n.
  Proof. unfold dec_inflight. destruct (k =? 0); [discriminate|]. destruct (k =? 1); intros [= <-]; auto. Qed.
  Lemma w_exit n n' : exit n = Some n' -> work n' <= work n.
  Proof.
    unfold exit, work. destruct (last_entry (n_map n)) as [(r & id & k)|].
    - intros E. destruct (w_dec _ _ _ _ _ E) as [-> ->]. cbn [with_sems n_sems n_hold]. pose proof (w_upd id add_permit (n_sems n) w_add). lia.
    - destruct (n_permits n <? u16_max); [|discriminate]. intros [= <-]. cbn [n_sems n_hold]. lia.
  Qed.
  Lemma w_forget n id : work (forget_in n id) <= work n.
  Proof.
    unfold forget_in, work. cbn [with_sems n_sems n_hold]. pose proof (w_upd id (fun x => fst (forget1 x)) (n_sems n)) as W.
    assert (F : forall x, w (fst (forget1 x)) <= w x) by (intros x; unfold forget1; destruct (0 <? s_stored x); cbn [fst]; unfold w; cbn [s_reg s_queue s_granted s_dropped]; lia). specialize (W F). lia.
  Qed.
  Lemma w_cancel n r id n' : cancel_inflight n r id = Some n' -> work n' <= work n.
  Proof.
    unfold cancel_inflight. destruct (find_sem id (n_sems n)) as [x|]; [|discriminate]. pose proof (w_forget n id) as WF.
    destruct (lookup r (n_map n)) as [(wid & k)|].
    - destruct (wid =? id).
      + destruct (_ =? 1); [intros E; apply w_exit in E; lia|]. intros E. destruct (w_dec _ _ _ _ _ E) as [A B]. unfold work. rewrite A, B. lia.
      + destruct (_ =? 1); [|discriminate]. intros E. destruct (w_dec _ _ _ _ _ E) as [A B]. unfold work. rewrite A, B. cbn [with_sems n_sems n_hold].
        pose proof (w_upd wid add_permit (n_sems (forget_in n id)) w_add) as W. unfold work in WF. change (n_hold (forget_in n id)) with (n_hold n) in *. lia.
    - destruct (_ =? 1); [intros E; apply w_exit in E; lia|discriminate].
  Qed.
  Lemma step_work n e n' : enabled n e = true -> is_enter e = false -> step n e = Some n' -> work n' + 1 <= work n.
  Proof.
    destruct e as [r|id t|id t|id t|id t|t]; cbn [is_enter enabled]; try discriminate; intros EN _ ST; cbn [step] in ST.
    - destruct (find_sem id (n_sems n)) as [x|] eqn:FX; [|discriminate]. pose proof (len_remove _ _ EN) as LR. unfold work.
      destruct (0 <? s_stored x); injection ST as <-; cbn [with_sems n_sems n_hold]; match goal with |- sum w (upd_sem _ ?f _) + _ + _ <= _ => pose proof (sum_upd w id f _ x FX) as S end;
        unfold w at 2 4 in S; cbn [s_reg s_queue s_granted s_dropped] in S; rewrite ?len_app, ?len_cons in *; lia.
    - destruct (find_sem id (n_sems n)) as [x|] eqn:FX; [|discriminate]. pose proof (len_remove _ _ EN) as LR. unfold work.
      injection ST as <-; cbn [with_sems n_sems n_hold]; match goal with |- sum w (upd_sem _ ?f _) + _ + _ <= _ => pose proof (sum_upd w id f _ x FX) as S end;
        unfold w at 2 4 in S; cbn [s_reg s_queue s_granted s_dropped] in S; rewrite ?len_app, ?len_cons in *; lia.
    - destruct (find_sem id (n_sems n)) as [x|] eqn:FX; [|discriminate]. unfold work.
      destruct (has t (s_granted x)) eqn:G; [|rewrite orb_false_r in EN; destruct (has t (s_queue x)) eqn:G2; [|rewrite orb_false_r in EN]].
      + pose proof (len_remove _ _ G) as LR. injection ST as <-. cbn [with_sems n_sems n_hold].
        set (g := fun x => Sem (s_id x) (s_round x) (s_stored x) (s_reg x) (s_queue x) (remove1 t (s_granted x)) (s_dropped x ++ [t])).
        pose proof (sum_upd w id (fun x => add_permit (g x)) _ x FX) as S. cbv beta in S. pose proof (w_add (g x)) as WA.
        assert (WG : w (g x) + 1 = w x) by (unfold w, g; cbn [s_reg s_queue s_granted s_dropped]; rewrite len_app; lia).
        change (fun x0 : sem => add_permit (Sem (s_id x0) (s_round x0) (s_stored x0) (s_reg x0) (s_queue x0) (remove1 t (s_granted x0)) (s_dropped x0 ++ [t]))) with (fun x => add_permit (g x)). lia.
      + pose proof (len_remove _ _ G2) as LR. injection ST as <-; cbn [with_sems n_sems n_hold]; match goal with |- sum w (upd_sem _ ?f _) + _ + _ <= _ => pose proof (sum_upd w id f _ x FX) as S end;
          unfold w at 2 4 in S; cbn [s_reg s_queue s_granted s_dropped] in S; rewrite ?len_app, ?len_cons in *; lia.
      + pose proof (len_remove _ _ EN) as LR. injection ST as <-; cbn [with_sems n_sems n_hold]; match goal with |- sum w (upd_sem _ ?f _) + _ + _ <= _ => pose proof (sum_upd w id f _ x FX) as S end;
          unfold w at 2 4 in S; cbn [s_reg s_queue s_granted s_dropped] in S; rewrite ?len_app, ?len_cons in *; lia.
    - destruct (find_sem id (n_sems n)) as [x|] eqn:FX; [|discriminate]. pose proof (len_remove _ _ EN) as LR. apply w_cancel in ST. unfold work in *. cbn [with_sems n_sems n_hold] in ST.
      match type of ST with _ <= sum w (upd_sem _ ?f _) + _ => pose proof (sum_upd w id f _ x FX) as S end. unfold w at 2 4 in S; cbn [s_reg s_queue s_granted s_dropped] in S. lia.
    - pose proof (len_remove _ _ EN) as LR. apply w_exit in ST. unfold work in *. cbn [n_sems n_hold] in ST. lia.
  Qed.

  Lemma runs_det l n n' : runs p l n -> runs p l n' -> n = n'.
  Proof.
    intros R. revert n'. induction R as [|l n e m R IH EN ST]; intros n' R'.
    - inversion R' as [|l0 ? ? ? ? ? ? E]; [reflexivity|]. destruct l0; discriminate.
    - inversion R' as [E|l0 n0 e0 m0 R0 EN0 ST0 E]; [destruct l; discriminate|]. apply app_inj_tail in E as [-> ->]. rewrite (IH n0 R0) in ST. congruence.
  Qed.

  (** However the tasks are scheduled, without new calls there are at most [work n] more steps. *)
  Theorem limiter_work_is_bounded l n l2 n' :
    runs p l n -> runs p (l ++ l2) n' -> forallb (fun e => negb (is_enter e)) l2 = true -> N.of_nat (length l2) + work n' <= work n.
  Proof.
    intros R. revert n'. induction l2 as [|e l2 IH] using rev_ind; intros n' R' F.
    - rewrite app_nil_r in R'. rewrite (runs_det _ _ _ R R'). cbn [length]. lia.
    - rewrite app_assoc in R'. inversion R' as [E|l0 n0 e0 m0 R0 EN0 ST0 E]; [destruct (l ++ l2); discriminate|]. apply app_inj_tail in E as [-> ->]. subst m0.
      rewrite forallb_app in F. apply andb_true_iff in F as [F1 F2]. cbn [forallb] in F2. rewrite andb_true_r in F2. apply negb_true_iff in F2.
      specialize (IH n0 R0 F1). pose proof (step_work n0 e n' EN0 F2 ST0). rewrite app_length. cbn [length]. lia.
  Qed.

  (** So from every state, without new calls, some schedule without cancellations ends with every
      call served and every guard dropped, with all the permits free again. *)
  Theorem every_call_is_served l n : runs p l n -> exists l2 n',
    runs p (l ++ l2) n' /\ forallb (fun e => negb (is_enter e) && negb (is_cancel e)) l2 = true /\ all_quiet n' /\ n_permits n' = p /\ n_map n' = [].
  Proof.
    remember (work n) as k eqn:K. revert l n K. induction k as [k IH] using (well_founded_induction N.lt_wf_0). intros l n K R.
    destruct (limiter_never_stuck l n R) as [Q|(e & E1 & E2 & EN)].
    - exists [], n. rewrite app_nil_r. split; [exact R|]. split; [reflexivity|]. split; [exact Q|]. exact (nothing_is_lost l n R Q).
    - destruct (step_linv p n e P1 P2 (runs_linv p l n P1 P2 R) EN) as (m & ST & _). pose proof (step_work n e m EN E1 ST) as W.
      destruct (IH (work m) ltac:(lia) (l ++ [e]) m eq_refl (l_snoc p l n e m R EN ST)) as (l2 & n' & R2 & F & Q). exists (e :: l2), n'.
      rewrite <- app_assoc in R2. cbn [app] in R2. split; [exact R2|]. split; [cbn [forallb]; rewrite E1, E2, F; reflexivity|exact Q].
  Qed.
End Limiter.
