(** The right peer, the pace of dials, and who is let in. *)
From Coq Require Import List Bool Arith NArith Lia Permutation Sorted.
From Coq Require Import ZifyN ZifyNat ZifyBool.
From Verif Require Import CmModel CmInv CmThms CmMore.
Import ListNotations.

(** ** If every address is one peer's, who asks for a peer gets a connection to that peer *)
(** [f]: whose an address is. A task that succeeds has connected to the peer it is for (the handshake checks it). *)
Definition fits (f : addr -> peer) (s : state) (e : event) : Prop :=
  match e with
  | EConnect a p => f a = p
  | EIncoming a p _ => f a = p
  | ECheck known => forall p a aff, In (p, a, aff) known -> f a = p
  | EDone t (ROk c) => forall x, In x (s_tasks s) -> t_id x = t -> c_peer c = t_peer x
  | _ => True
  end.
Fixpoint all_fit (f : addr -> peer) (g : config) (s : state) (l : list event) : Prop :=
  match l with [] => True | e :: r => fits f s e /\ match step g s e with Some s' => all_fit f g s' r | None => True end end.
Definition for_peer (f : addr -> peer) (s : state) (k : nat) (p : peer) : Prop :=
  (forall a e, In (a, e) (s_entries s) -> In k (e_cbs e) -> f a = p) /\ (forall d, In d (s_delayed s) -> In k (d_cbs d) -> d_peer d = p) /\ (forall c, In (k, AOk c) (s_answers s) -> c_peer c = p).
Definition tasks_fit (f : addr -> peer) (s : state) : Prop := forall t, In t (s_tasks s) -> t_peer t = f (t_addr t).
Lemma unasked g s k f p : inv g [] s -> s_cb s <= k -> for_peer f s k p.
Proof.
  intros V L. assert (NO : ~ In k (cbs_of s)) by (intros IN; apply (Permutation_in _ (v_cbs _ _ _ V)) in IN; apply in_seq in IN; lia). unfold cbs_of in NO. split; [|split].
  - intros a e IN IK. elim NO. apply in_or_app. right. apply in_or_app. left. apply in_flat_map. exists (a, e). auto.
  - intros d IN IK. elim NO. apply in_or_app. right. apply in_or_app. right. apply in_flat_map. exists d. auto.
  - intros c IN. elim NO. apply in_or_app. left. apply (in_map fst) in IN. exact IN.
Qed.
Lemma dial_fits f g a q cb s k p : f a = q -> (k = cb -> p = q) -> for_peer f s k p -> for_peer f (dial_peer g a q cb s) k p.
Proof.
  intros FA KC (A & B & C). destruct (dial_is g a q cb s) as (J1 & _ & J3 & _ & _ & J6 & _). split; [|split].
  - intros b e IN IK. destruct (J6 _ _ _ IN IK) as [(-> & E)|(e0 & I0 & K0)]; [rewrite FA; symmetry; auto|exact (A _ _ I0 K0)].
  - rewrite J3. exact B.
  - rewrite J1. intros c IN. apply in_app_or in IN. destruct IN as [IN|IN]; [auto|]. destruct (get_active q s) as [c0|] eqn:GA; [|destruct IN]. destruct IN as [IN|[]]. inversion IN; subst. rewrite (KC eq_refl). exact (proj2 (get_active_is _ _ _ GA)).
Qed.
Lemma dial_tasks_fit f g a q cb s : f a = q -> tasks_fit f s -> tasks_fit f (dial_peer g a q cb s).
Proof. intros FA T t IN. destruct (dial_is g a q cb s) as (_ & _ & _ & _ & _ & _ & J & _). destruct (J _ IN) as [(u & U & -> & ->)|(-> & ->)]; [exact (T _ U)|auto]. Qed.
(** also the dials of the checks *)
Definition dials_fit (f : addr -> peer) (s : state) : Prop := forall p k, In (p, k) (s_dials s) -> for_peer f s k p.
Lemma for_peer_same f s s' k p : s_entries s' = s_entries s -> s_delayed s' = s_delayed s -> s_answers s' = s_answers s -> for_peer f s k p -> for_peer f s' k p.
Proof. unfold for_peer. intros -> -> ->. auto. Qed.
Lemma start_dial_fits f g s p a aff : f a = p -> inv g [] s -> tasks_fit f s -> dials_fit f s -> let s' := start_dial g s (p, a, aff) in
  tasks_fit f s' /\ dials_fit f s' /\ forall k q, k < s_cb s -> for_peer f s k q -> for_peer f s' k q.
Proof.
  intros FA V T D. cbv zeta. unfold start_dial. destruct (dial_cb g a p (s_cb s) (new_cb s)) as (_ & J9). split; [exact (dial_tasks_fit f g a p (s_cb s) (new_cb s) FA T)|].
  assert (KEEP : forall k q, k < s_cb s -> for_peer f s k q -> for_peer f (dial_peer g a p (s_cb s) (new_cb s)) k q) by (intros k q L H; apply dial_fits; [exact FA|lia|exact H]). split.
  - intros q k IN. cbn [set_dials s_dials] in IN. rewrite J9 in IN. apply in_app_or in IN. destruct IN as [IN|[IN|[]]].
    + apply (for_peer_same f (dial_peer g a p (s_cb s) (new_cb s))); auto. apply KEEP; [exact (v_dials _ _ _ V _ _ IN)|exact (D _ _ IN)].
    + inversion IN; subst q k. apply (for_peer_same f (dial_peer g a p (s_cb s) (new_cb s))); auto. apply dial_fits; auto. apply (unasked g s _ f p V). lia.
  - intros k q L H. apply (for_peer_same f (dial_peer g a p (s_cb s) (new_cb s))); auto.
Qed.
Lemma fold_dial_fits f g todo : forall s, (forall p a aff, In (p, a, aff) todo -> f a = p) -> inv g [] s -> tasks_fit f s -> dials_fit f s -> let s' := fold_left (start_dial g) todo s in
  tasks_fit f s' /\ dials_fit f s' /\ forall k q, k < s_cb s -> for_peer f s k q -> for_peer f s' k q.
Proof.
  induction todo as [|[[p a] aff] todo IH]; intros s FA V T D; cbv zeta; cbn [fold_left]; [auto|]. destruct (start_dial_fits f g s p a aff (FA p a aff (or_introl eq_refl)) V T D) as (T1 & D1 & K1).
  destruct (IH (start_dial g s (p, a, aff))) as (T2 & D2 & K2); auto; [intros q b af IN; apply (FA q b af); right; exact IN|apply inv_start_dial; exact V|]. split; [exact T2|]. split; [exact D2|]. intros k q L H. apply K2; [|auto].
  unfold start_dial. destruct (dial_cb g a p (s_cb s) (new_cb s)) as (E & _). cbn [set_dials s_cb]. rewrite E. cbn [new_cb s_cb]. lia.
Qed.
Lemma retain_sub g s : forall l b l' b', retain_dials g s l b = Some (l', b') -> forall y, In y l' -> In y l.
Proof.
  induction l as [|[p k] l IH]; intros b l' b' R y IN; cbn [retain_dials] in R; [inversion R; subst; exact IN|]. destruct (answered k s) as [[c|e]|]; [right; exact (IH _ _ _ R y IN)|right; exact (IH _ _ _ R y IN)|].
  destruct (waits k s); [|discriminate]. destruct (retain_dials g s l b) as [[l2 b2]|] eqn:E; [|discriminate]. inversion R; subst. destruct IN as [IN|IN]; [left; exact IN|right; exact (IH _ _ _ E y IN)].
Qed.
(** what a step other than a check does to a request *)
Lemma step_fits f g s e s' : inv g [] s -> fits f s e -> tasks_fit f s -> dials_fit f s -> step g s e = Some s' ->
  tasks_fit f s' /\ dials_fit f s' /\ forall k q, k < s_cb s -> for_peer f s k q -> for_peer f s' k q.
Proof.
  intros V FE T D.
  assert (Z : forall q, (forall t, In t (s_tasks q) -> In t (s_tasks s)) -> s_dials q = s_dials s -> (forall k p, k < s_cb s -> for_peer f s k p -> for_peer f q k p) -> tasks_fit f q /\ dials_fit f q /\ forall k p, k < s_cb s -> for_peer f s k p -> for_peer f q k p).
  { intros q HT HD HK. split; [intros t IN; exact (T _ (HT _ IN))|]. split; [|exact HK]. intros p k IN. rewrite HD in IN. apply HK; [exact (v_dials _ _ _ V _ _ IN)|exact (D _ _ IN)]. }
  destruct e as [a p|a p aff|t r|t|j|known|id|y]; cbn [step fits] in *; intros R.
  - inversion R; subst s'; clear R. assert (KEEP : forall k q, k < s_cb s -> for_peer f s k q -> for_peer f (dial_peer g a p (s_cb s) (new_cb s)) k q) by (intros k q L H; apply dial_fits; [exact FE|lia|exact H]). split; [apply dial_tasks_fit; auto|]. split; [|exact KEEP].
    intros q k IN. rewrite (proj2 (dial_cb g a p (s_cb s) (new_cb s))) in IN. apply KEEP; [exact (v_dials _ _ _ V _ _ IN)|exact (D _ _ IN)].
  - inversion R; subst s'; clear R. destruct (incoming_is g a p aff s) as (J1 & _ & J3 & J4 & _ & _ & J7 & J8).
    assert (KEEP : forall k q, k < s_cb s -> for_peer f s k q -> for_peer f (incoming g a p aff s) k q). { intros k q L (A & B & C). split; [|split; [rewrite J3; exact B|rewrite J1; exact C]]. intros b e IN IK. destruct (J7 _ _ _ IN IK) as (e0 & I0 & K0). exact (A _ _ I0 K0). }
    split; [|split; [|exact KEEP]].
    + intros t IN. destruct (J8 _ IN) as [(u & U & -> & ->)|(-> & ->)]; [exact (T _ U)|auto].
    + intros q k IN. rewrite J4 in IN. apply KEEP; [exact (v_dials _ _ _ V _ _ IN)|exact (D _ _ IN)].
  - assert (RM : forall u, In u (rm_task t (s_tasks s)) -> In u (s_tasks s)) by (intros u IN; apply filter_In in IN; tauto).
    destruct (find _ (s_tasks s)) as [x|] eqn:F; [|inversion R; subst s'; apply Z; auto]. apply find_key in F. destruct F as (IX & EX). unfold connecting_result in R. change (get_entry (t_addr x) (set_tasks (rm_task t (s_tasks s)) s)) with (get_entry (t_addr x) s) in R. destruct (get_entry (t_addr x) s) as [e|] eqn:GE; [|inversion R; subst s'; apply Z; auto]. destruct (negb (e_seq e =? t_seq x)%N); [inversion R; subst s'; apply Z; auto|]. cbv zeta in R.
    pose proof (get_entry_in _ _ _ GE) as IE. destruct r as [c|closed err].
    + specialize (FE x IX EX). match type of R with context [add g _ ?q] => set (s2 := q) in * end. destruct (add_is g c s2) as (P & _ & A1 & A2 & _ & A4 & A5 & A6 & _). destruct (add g c s2) as [c' s3]. cbn [fst snd] in *. destruct (execute_resolved c' s3) as [s4|] eqn:X; [|discriminate]. inversion R; subst s'; clear R. destruct (resolved_is _ _ _ X) as (B1 & B2 & _ & B4 & B5 & B6 & _).
      apply Z; cbn [send s_tasks s_dials]; [rewrite B5, A5; exact RM|rewrite B6, A6; reflexivity|]. intros k q L (A & B & C). unfold for_peer. cbn [send s_entries s_delayed s_answers]. rewrite B1, B2, B4, A1, A2, A4. change (s_delayed s2) with (s_delayed s). change (s_answers s2) with (s_answers s). split; [|split].
      * intros b e1 IN IK. cbn [s2 set_entries set_tasks s_entries] in IN. apply in_rm_entry in IN. exact (A _ _ (proj1 IN) IK).
      * intros d IN IK. apply filter_In in IN. exact (B _ (proj1 IN) IK).
      * intros c0 IN. apply in_app_or in IN. destruct IN as [IN|IN]; [apply in_app_or in IN; destruct IN as [IN|IN]; [auto|]|].
        -- apply in_flat_map in IN. destruct IN as (d & ID & IN). apply filter_In in ID. destruct ID as (ID & O). apply in_map_iff in IN. destruct IN as (k0 & E & IK). inversion E; subst. unfold of_peer in O. apply N.eqb_eq in O. rewrite <- O. exact (B _ ID IK).
        -- apply in_map_iff in IN. destruct IN as (k0 & E & IK). inversion E; subst. rewrite P, FE, (T _ IX). exact (A _ _ IE IK).
    + destruct (closed && _); inversion R; subst s'; clear R; (apply Z; [exact RM|reflexivity|]); intros k q L (A & B & C); unfold for_peer; cbn [send push_delayed set_entries set_tasks s_entries s_delayed s_answers]; (split; [intros b e1 IN IK; apply in_rm_entry in IN; exact (A _ _ (proj1 IN) IK)|split]); auto.
      * intros d IN IK. apply in_app_or in IN. destruct IN as [IN|[<-|[]]]; [exact (B _ IN IK)|]. cbn [d_peer d_cbs] in *. rewrite (T _ IX). exact (A _ _ IE IK).
      * intros c0 IN. apply in_app_or in IN. destruct IN as [IN|IN]; [auto|]. apply in_map_iff in IN. destruct IN as (k0 & E & _). discriminate.
  - destruct (find _ (s_tasks s)) as [x|]; [destruct (t_aborted x)|]; inversion R; subst s'; apply Z; auto. intros u IN. apply filter_In in IN. tauto.
  - destruct (find _ (s_queue s)) as [[[i p] y]|]; [destruct (y <=? s_now s)%N|]; inversion R; subst s'; clear R; try (apply Z; auto; fail). match goal with |- context [execute_expired p ?q] => destruct (expired_is p q) as (A1 & A2 & _ & A4 & A5 & A6 & _); set (s2 := q) in * end.
    apply Z; [rewrite A5; auto|rewrite A6; reflexivity|]. intros k q L (A & B & C). unfold for_peer. rewrite A1, A2, A4. split; [exact A|]. split; [intros d IN IK; apply (proj2 (split_sub p (s_now s2) (s_delayed s2))) in IN; exact (B _ IN IK)|].
    intros c0 IN. apply in_app_or in IN. destruct IN as [IN|IN]; [auto|]. apply in_flat_map in IN. destruct IN as (d & _ & IN). apply in_map_iff in IN. destruct IN as (k0 & E & _). discriminate.
  - destruct (check_is _ _ _ _ R) as (l & b & RD & ->). set (todo := firstn _ _). assert (V1 : inv g [] (set_dials l b s)) by (apply inv_dials; [exact V|]; intros p k IN; exact (v_dials _ _ _ V _ _ (retain_sub _ _ _ _ _ _ RD _ IN))).
    destruct (fold_dial_fits f g todo (set_dials l b s)) as (T1 & D1 & K1); auto.
    + intros p a aff IN. apply (FE p a aff). assert (IN' : In (p, a, aff) (filter (dial_wanted g (set_dials l b s)) known)) by (rewrite <- (firstn_skipn (g_dials g - length (s_tasks s))); apply in_or_app; left; exact IN). apply filter_In in IN'. tauto.
    + intros p k IN. apply (for_peer_same f s); auto. apply D. exact (retain_sub _ _ _ _ _ _ RD _ IN).
  - inversion R; subst s'. apply Z; auto.
  - inversion R; subst s'. apply Z; auto.
Qed.
Lemma cb_grows g s e s' : step g s e = Some s' -> s_cb s <= s_cb s'.
Proof.
  destruct e as [a p|a p aff|t r|t|j|known|id|y]; cbn [step]; intros R.
  - inversion R. rewrite (proj1 (dial_cb _ _ _ _ _)). cbn. lia.
  - inversion R. destruct (incoming_is g a p aff s) as (_ & _ & _ & _ & J & _). rewrite J. lia.
  - destruct (find _ (s_tasks s)) as [x|]; [|inversion R; lia]. unfold connecting_result in R. destruct (get_entry _ _) as [e|]; [|inversion R; cbn; lia]. destruct (negb _); [inversion R; cbn; lia|]. cbv zeta in R. destruct r as [c|closed err].
    + match type of R with context [add g _ ?q] => set (s2 := q) in * end. destruct (add_is g c s2) as (_ & _ & _ & _ & _ & _ & _ & _ & A & _). destruct (add g c s2) as [c' s3]. cbn [fst snd] in *. destruct (execute_resolved c' s3) as [s4|] eqn:X; [|discriminate]. inversion R; subst s'; clear R. destruct (resolved_is _ _ _ X) as (_ & _ & _ & _ & _ & _ & B & _). cbn [send s_cb]. rewrite B, A. cbn. lia.
    + destruct (_ && _); inversion R; cbn; lia.
  - destruct (find _ (s_tasks s)) as [x|]; [destruct (t_aborted x)|]; inversion R; cbn; lia.
  - destruct (find _ (s_queue s)) as [[[i p] y]|]; [destruct (y <=? s_now s)%N|]; inversion R; try lia. match goal with |- context [execute_expired p ?q] => destruct (expired_is p q) as (_ & _ & _ & _ & _ & _ & A & _) end. rewrite A. cbn. lia.
  - destruct (check_is _ _ _ _ R) as (l & b & _ & ->). generalize (firstn (g_dials g - length (s_tasks s)) (filter (dial_wanted g (set_dials l b s)) known)). intros todo. change (s_cb s) with (s_cb (set_dials l b s)) at 1. generalize (set_dials l b s). clear. induction todo as [|[[p a] aff] todo IH]; intros s; cbn [fold_left]; [lia|]. specialize (IH (start_dial g s (p, a, aff))). unfold start_dial in IH at 1. cbn [set_dials s_cb] in IH. rewrite (proj1 (dial_cb _ _ _ _ _)) in IH. cbn [new_cb s_cb] in IH. lia.
  - inversion R. cbn. lia.
  - inversion R. cbn. lia.
Qed.
Lemma run_fits f g l : forall s s', inv g [] s -> all_fit f g s l -> tasks_fit f s -> dials_fit f s -> run g s l = Some s' -> tasks_fit f s' /\ dials_fit f s' /\ forall k q, k < s_cb s -> for_peer f s k q -> for_peer f s' k q.
Proof.
  induction l as [|e l IH]; intros s s' V FL T D R; cbn [run all_fit] in *; [inversion R; subst; auto|]. destruct FL as (FE & FL). destruct (inv_step g s e V) as (s1 & S & V1). rewrite S in *. destruct (step_fits f g s e s1 V FE T D S) as (T1 & D1 & K1). destruct (IH s1 s' V1 FL T1 D1 R) as (T2 & D2 & K2). split; [exact T2|]. split; [exact D2|]. intros k q L H. apply K2; [pose proof (cb_grows _ _ _ _ S); lia|auto].
Qed.
(** The request made after [l1] for peer [p] gets no connection to another. *)
Theorem connects_to_the_right_peer f g now l1 a p l2 s1 s k c :
  run g (start now) l1 = Some s1 -> run g (start now) (l1 ++ EConnect a p :: l2) = Some s -> all_fit f g (start now) (l1 ++ EConnect a p :: l2) ->
  k = s_cb s1 -> In (k, AOk c) (s_answers s) -> c_peer c = p.
Proof.
  intros R1 R FL -> IN. pose proof (reachable _ _ _ _ R1) as V1. apply run_app in R. destruct R as (s1' & R1' & R2). assert (s1' = s1) by congruence. subst s1'.
  assert (SPLIT : forall l s0 s0', run g s0 l = Some s0' -> forall r, all_fit f g s0 (l ++ r) -> all_fit f g s0 l /\ all_fit f g s0' r).
  { clear. induction l as [|e l IH]; intros s0 s0' R r H; cbn [run app all_fit] in *; [inversion R; subst; auto|]. destruct H as (H1 & H2). destruct (step g s0 e) as [s1|]; [|discriminate]. destruct (IH _ _ R _ H2). auto. }
  destruct (SPLIT l1 _ s1 R1 _ FL) as (FL1 & FL2). destruct (run_fits f g l1 _ s1 (inv_start g now) FL1) as (T1 & D1 & _); auto; [intros t []|intros q j []|].
  cbn [run all_fit] in *. destruct FL2 as (FE & FL2). pose proof (inv_step g s1 (EConnect a p) V1) as (s2 & ST & V2). rewrite ST in *. destruct (step_fits f g s1 (EConnect a p) s2 V1 FE T1 D1 ST) as (T2 & D2 & _).
  destruct (run_fits f g l2 s2 s V2 FL2 T2 D2 R2) as (_ & _ & K). assert (S' := ST). cbn [step] in S'. inversion S' as [E2]. assert (CB : s_cb s2 = S (s_cb s1)) by (rewrite <- E2, (proj1 (dial_cb _ _ _ _ _)); reflexivity).
  refine (proj2 (proj2 (K (s_cb s1) p _ _)) c IN); [lia|]. rewrite <- E2. apply dial_fits; [exact FE|auto|]. exact (unasked g s1 (s_cb s1) f p V1 (le_n _)).
Qed.
(** A dial of the manager that succeeded connected it to that peer (the assertion of the check). *)
Theorem dial_connects_to_the_right_peer f g now l s p k c :
  run g (start now) l = Some s -> all_fit f g (start now) l -> In (p, k) (s_dials s) -> In (k, AOk c) (s_answers s) -> c_peer c = p.
Proof. intros R FL ID IN. destruct (run_fits f g l _ s (inv_start g now) FL) as (_ & D & _); auto; [intros t []|intros q j []|]. exact (proj2 (proj2 (D _ _ ID)) c IN). Qed.

(** ** The pace of dials *)
Lemma get_rm_backoff p q l : get_backoff q (rm_backoff p l) = if (q =? p)%N then None else get_backoff q l.
Proof.
  unfold get_backoff, rm_backoff. destruct (N.eqb_spec q p) as [->|NE].
  - induction l as [|[r b] l IH]; [reflexivity|]. cbn [filter fst]. destruct (N.eqb_spec r p) as [E|E]; cbn [negb]; [exact IH|]. cbn [find fst]. rewrite (proj2 (N.eqb_neq _ _) E). exact IH.
  - induction l as [|[r b] l IH]; [reflexivity|]. cbn [filter find fst]. destruct (N.eqb_spec r p) as [->|E]; cbn [negb].
    + rewrite (proj2 (N.eqb_neq p q)) by congruence. exact IH.
    + cbn [find fst]. destruct (N.eqb_spec r q); [reflexivity|exact IH].
Qed.
Lemma get_app_backoff q l1 l2 : get_backoff q (l1 ++ l2) = match get_backoff q l1 with Some x => Some x | None => get_backoff q l2 end.
Proof. unfold get_backoff. induction l1 as [|[r b] l1 IH]; [reflexivity|]. cbn [app find fst]. destruct (r =? q)%N; [reflexivity|exact IH]. Qed.
Lemma get_put_backoff p q l b : get_backoff q (rm_backoff p l ++ [(p, b)]) = if (q =? p)%N then Some b else get_backoff q l.
Proof.
  rewrite get_app_backoff, get_rm_backoff. unfold get_backoff at 2. cbn [find fst snd]. destruct (N.eqb_spec q p) as [->|NE]; [rewrite N.eqb_refl; reflexivity|]. rewrite (proj2 (N.eqb_neq p q)) by congruence. destruct (get_backoff q l); reflexivity.
Qed.
(** what the end of a dial does to the backoff of its peer *)
Definition after_dial (g : config) (now : N) (a : option answer) (b : option backoff) : option backoff :=
  match a with
  | None => b
  | Some (AOk _) => None
  | Some (AErr _) => let n := (match b with Some x => b_attempts x | None => 0 end + 1)%N in Some (Backoff (now + N.min (g_max g) (g_step g * n)) n)
  end.
Lemma retain_backoff g s : forall l b l' b', NoDup (map fst l) -> retain_dials g s l b = Some (l', b') ->
  (forall p, ~ In p (map fst l) -> get_backoff p b' = get_backoff p b) /\
  (forall p k, In (p, k) l -> get_backoff p b' = after_dial g (s_now s) (answered k s) (get_backoff p b) /\ (In p (map fst l') <-> answered k s = None)).
Proof.
  induction l as [|[p k] l IH]; intros b l' b' ND R; cbn [retain_dials map fst] in *; [inversion R; subst; split; [reflexivity|intros p k []]|]. inversion ND as [|? ? N1 N2]; subst.
  assert (SUB : forall q, q <> p -> get_backoff q (rm_backoff p b) = get_backoff q b) by (intros q NE; rewrite get_rm_backoff, (proj2 (N.eqb_neq _ _) NE); reflexivity).
  assert (GEN : forall b0 l0 b0', retain_dials g s l b0 = Some (l0, b0') -> (forall q, q <> p -> get_backoff q b0 = get_backoff q b) -> (forall q, ~ In q (p :: map fst l) -> get_backoff q b0' = get_backoff q b) /\ get_backoff p b0' = get_backoff p b0 /\ ~ In p (map fst l0) /\ (forall q j, In (q, j) l -> get_backoff q b0' = after_dial g (s_now s) (answered j s) (get_backoff q b) /\ (In q (map fst l0) <-> answered j s = None))).
  { intros b0 l0 b0' R0 H. destruct (IH b0 l0 b0' N2 R0) as (A & B). split; [|split; [|split]].
    - intros q NI. cbn [In] in NI. rewrite A by tauto. apply H. intros E. apply NI. left. congruence.
    - apply A. exact N1.
    - intros IN. apply N1. apply in_map_iff in IN. destruct IN as (y & <- & IN). apply in_map. exact (retain_sub _ _ _ _ _ _ R0 _ IN).
    - intros q j IN. destruct (B q j IN) as (B1 & B2). split; [|exact B2]. rewrite B1, H; [reflexivity|]. intros ->. apply N1. apply (in_map fst) in IN. exact IN. }
  destruct (answered k s) as [[c|e]|] eqn:AN.
  - destruct (GEN _ _ _ R SUB) as (A & B & C & D). split; [exact A|]. intros q j [E|IN]; [|exact (D q j IN)]. inversion E; subst q j. rewrite AN, B, get_rm_backoff, N.eqb_refl. cbn [after_dial]. split; [reflexivity|]. split; [intros IN; contradiction|discriminate].
  - assert (H : forall x q, q <> p -> get_backoff q (rm_backoff p b ++ [(p, x)]) = get_backoff q b) by (intros x q NE; rewrite get_put_backoff, (proj2 (N.eqb_neq _ _) NE); reflexivity).
    destruct (GEN _ _ _ R (H _)) as (A & B & C & D). split; [exact A|]. intros q j [E|IN]; [|exact (D q j IN)]. inversion E; subst q j. rewrite AN, B, get_put_backoff, N.eqb_refl. cbn [after_dial]. split; [destruct (get_backoff p b) as [x|]; reflexivity|]. split; [intros IN; contradiction|discriminate].
  - destruct (waits k s); [|discriminate]. destruct (retain_dials g s l b) as [[l0 b0]|] eqn:R0; [|discriminate]. inversion R; subst l' b'; clear R. destruct (GEN _ _ _ R0 (fun q _ => eq_refl)) as (A & B & C & D). split; [exact A|]. intros q j [E|IN].
    + inversion E; subst q j. rewrite AN, B. cbn [after_dial map fst]. split; [reflexivity|]. split; [reflexivity|left; reflexivity].
    + destruct (D q j IN) as (D1 & D2). split; [exact D1|]. cbn [map fst In]. split; [intros [E|I]; [exfalso; subst q; apply N1; apply (in_map fst) in IN; exact IN|tauto]|tauto].
Qed.
(** one dial of a peer at a time, if what is known has each peer once *)
Definition checks_ok (e : event) : Prop := match e with ECheck known => NoDup (map (fun x => fst (fst x)) known) | _ => True end.
Lemma dials_unchanged g s e s' : (forall known, e <> ECheck known) -> step g s e = Some s' -> s_dials s' = s_dials s /\ s_backoff s' = s_backoff s.
Proof.
  intros NC. destruct e as [a p|a p aff|t r|t|j|known|id|y]; cbn [step]; intros R.
  - inversion R. split; [exact (proj2 (dial_cb g a p (s_cb s) (new_cb s)))|]. destruct (dial_is g a p (s_cb s) (new_cb s)) as (_ & _ & _ & J & _). exact J.
  - inversion R. unfold incoming. destruct (accepted g aff s); [|auto]. destruct (get_entry a s) as [e|]; [|auto]. destruct (tie_breaking _ _ _ _); auto.
  - destruct (find _ (s_tasks s)) as [x|]; [|inversion R; auto]. unfold connecting_result in R. destruct (get_entry _ _) as [e|]; [|inversion R; auto]. destruct (negb _); [inversion R; auto|]. cbv zeta in R. destruct r as [c|closed err]; [|destruct (_ && _); inversion R; auto].
    match type of R with context [add g _ ?q] => set (s2 := q) in * end. unfold add in R. destruct (get_active (c_peer c) s2) as [old|]; [destruct (tie_breaking _ _ _ _)|];
      match type of R with context [execute_resolved ?c ?q] => destruct (execute_resolved c q) as [s4|] eqn:X; [|discriminate] end; inversion R; subst s'; clear R; unfold execute_resolved in X; destruct (rm_keys _ _) as [q|]; [|discriminate| |discriminate| |discriminate]; inversion X; cbn [send s_dials s_backoff];
      (split; [match goal with |- context [fold_left ?F ?l ?z] => change (s_dials s) with (s_dials z); generalize l z end|match goal with |- context [fold_left ?F ?l ?z] => change (s_backoff s) with (s_backoff z); generalize l z end]); clear; intros l; induction l as [|d l IH]; intros z; cbn [fold_left]; auto; rewrite IH; reflexivity.
  - destruct (find _ (s_tasks s)) as [x|]; [destruct (t_aborted x)|]; inversion R; auto.
  - destruct (find _ (s_queue s)) as [[[i p] y]|]; [destruct (y <=? s_now s)%N|]; inversion R; auto. unfold execute_expired. destruct (split_expired _ _ _) as [out rest].
    split; [match goal with |- context [fold_left ?F ?l (set_delayed ?a ?b ?z)] => change (s_dials s) with (s_dials (set_delayed a b z)); generalize (set_delayed a b z) end|match goal with |- context [fold_left ?F ?l (set_delayed ?a ?b ?z)] => change (s_backoff s) with (s_backoff (set_delayed a b z)); generalize (set_delayed a b z) end]; clear; induction out as [|d l IH]; intros z; cbn [fold_left]; auto; rewrite IH; reflexivity.
  - elim (NC known). reflexivity.
  - inversion R. auto.
  - inversion R. auto.
Qed.
Lemma firstn_sub {A} n (l : list A) x : In x (firstn n l) -> In x l.
Proof. intros IN. rewrite <- (firstn_skipn n l). apply in_or_app. auto. Qed.
Lemma nodup_firstn {A} n : forall l : list A, NoDup l -> NoDup (firstn n l).
Proof. induction n as [|n IH]; intros [|x l] ND; cbn [firstn]; try constructor; inversion ND as [|? ? N1 N2]; subst; [intros IN; apply N1; exact (firstn_sub _ _ _ IN)|auto]. Qed.
Lemma map_firstn' {A B} (h : A -> B) n : forall l, map h (firstn n l) = firstn n (map h l).
Proof. induction n as [|n IH]; intros [|x l]; cbn [firstn map]; try rewrite IH; reflexivity. Qed.
Lemma retain_nodup g s : forall l b l' b', NoDup (map fst l) -> retain_dials g s l b = Some (l', b') -> NoDup (map fst l').
Proof.
  induction l as [|[p k] l IH]; intros b l' b' ND R; cbn [retain_dials map fst] in *; [inversion R; constructor|]. inversion ND as [|? ? N1 N2]; subst. destruct (answered k s) as [[c|e]|]; [exact (IH _ _ _ N2 R)|exact (IH _ _ _ N2 R)|]. destruct (waits k s); [|discriminate]. destruct (retain_dials g s l b) as [[l0 b0]|] eqn:R0; [|discriminate].
  inversion R; subst. cbn [map fst]. constructor; [|exact (IH _ _ _ N2 R0)]. intros IN. apply N1. apply in_map_iff in IN. destruct IN as (y & <- & IN). apply in_map. exact (retain_sub _ _ _ _ _ _ R0 _ IN).
Qed.
Lemma fold_dial_nodup g todo : forall s, NoDup (map (fun x => fst (fst x)) todo) -> NoDup (map fst (s_dials s)) -> (forall x, In x todo -> ~ In (fst (fst x)) (map fst (s_dials s))) -> NoDup (map fst (s_dials (fold_left (start_dial g) todo s))).
Proof.
  induction todo as [|[[p a] aff] todo IH]; intros s ND NS NI; cbn [fold_left map fst] in *; [exact NS|]. inversion ND as [|? ? N1 N2]; subst. assert (E : s_dials (start_dial g s (p, a, aff)) = s_dials s ++ [(p, s_cb s)]) by (unfold start_dial; cbn [set_dials s_dials]; rewrite (proj2 (dial_cb g a p (s_cb s) (new_cb s))); reflexivity). apply IH; [exact N2| |].
  - rewrite E, map_app. cbn [map fst]. apply nodup_snoc; [exact NS|]. exact (NI _ (or_introl eq_refl)).
  - intros x IN IN'. rewrite E, map_app in IN'. apply in_app_or in IN'. destruct IN' as [IN'|[IN'|[]]]; [exact (NI x (or_intror IN) IN')|]. cbn [fst] in IN'. apply N1. rewrite IN'. apply (in_map (fun x => fst (fst x))). exact IN.
Qed.
Lemma wanted_is g s p a aff : dial_wanted g s (p, a, aff) = true -> aff = High /\ p <> g_local g /\ get_active p s = None /\ (forall y, In y (s_dials s) -> fst y <> p) /\ forall b, get_backoff p (s_backoff s) = Some b -> (b_next b < s_now s)%N.
Proof.
  unfold dial_wanted. destruct aff; [|discriminate|discriminate]. rewrite !andb_true_iff. intros (((A & B) & C) & D). split; [reflexivity|]. split; [intros E; rewrite E, N.eqb_refl in A; discriminate|]. split; [destruct (get_active p s); [discriminate|reflexivity]|]. split.
  - intros y IN E. apply negb_true_iff in C. assert (T : existsb (fun y => (fst y =? p)%N) (s_dials s) = true) by (apply existsb_exists; exists y; split; [exact IN|apply N.eqb_eq; exact E]). congruence.
  - intros b E. rewrite E in D. apply N.ltb_lt in D. exact D.
Qed.
Lemma is_check e : (exists known, e = ECheck known) \/ forall known, e <> ECheck known.
Proof. destruct e; try (right; intros; discriminate). left. eauto. Qed.
Lemma one_dial_of_a_peer g l : forall s s', NoDup (map fst (s_dials s)) -> Forall checks_ok l -> run g s l = Some s' -> NoDup (map fst (s_dials s')).
Proof.
  induction l as [|e l IH]; intros s s' ND OK R; cbn [run] in R; [inversion R; subst; exact ND|]. inversion OK as [|? ? O1 O2]; subst. destruct (step g s e) as [s1|] eqn:ST; [|discriminate]. apply (IH s1 s'); auto. destruct (is_check e) as [(known & ->)|NC]; [|rewrite (proj1 (dials_unchanged g s _ s1 NC ST)); exact ND].
  cbn [step checks_ok] in *. destruct (check_is _ _ _ _ ST) as (l' & b & RD & ->). apply fold_dial_nodup.
  - rewrite map_firstn'. apply nodup_firstn. apply nodup_filter. exact O1.
  - exact (retain_nodup _ _ _ _ _ _ ND RD).
  - intros [[p a] aff] IN IN'. apply firstn_sub in IN. apply filter_In in IN. destruct IN as (_ & W). apply wanted_is in W. destruct W as (_ & _ & _ & W & _). apply in_map_iff in IN'. destruct IN' as (y & E & IN'). exact (W y IN' E).
Qed.
(** A check: who is dialed. *)
Theorem only_wanted_peers_are_dialed g now l s known s' p k :
  run g (start now) l = Some s -> check g known s = Some s' -> In (p, k) (s_dials s') -> ~ In (p, k) (s_dials s) ->
  (exists a, In (p, a, High) known) /\ p <> g_local g /\ (forall c, In c (s_active s) -> c_peer c <> p) /\
  (forall j, In (p, j) (s_dials s) -> answered j s <> None) /\ (forall b, get_backoff p (s_backoff s') = Some b -> (b_next b < s_now s)%N).
Proof.
  intros R CK IN NI. pose proof (reachable _ _ _ _ R) as V. destruct (check_is _ _ _ _ CK) as (l' & b & RD & ->). set (todo := firstn _ _) in *. destruct (fold_dial_is g todo (set_dials l' b s)) as (_ & _ & BO & _ & _ & D & _).
  destruct (D _ _ IN) as [IN'|([[q a] aff] & X & E)]; [elim NI; exact (retain_sub _ _ _ _ _ _ RD _ IN')|]. cbn [fst] in E. subst q. apply firstn_sub in X. apply filter_In in X. destruct X as (X & W). apply wanted_is in W. destruct W as (-> & W1 & W2 & W3 & W4).
  split; [eauto|]. split; [exact W1|]. split.
  - intros c IC E. unfold get_active in W2. apply (find_none _ _ W2) in IC. rewrite E, N.eqb_refl in IC. discriminate.
  - split; [|rewrite BO; exact W4]. intros j IJ AN. assert (KEEP : forall l0 b0 l1 b1, retain_dials g s l0 b0 = Some (l1, b1) -> In (p, j) l0 -> In (p, j) l1).
    { clear - AN. induction l0 as [|[q i] l0 IH]; intros b0 l1 b1 R0 IN; [destruct IN|]. cbn [retain_dials] in R0. destruct IN as [IN|IN].
      - inversion IN; subst q i. rewrite AN in R0. destruct (waits j s); [|discriminate]. destruct (retain_dials g s l0 b0) as [[l2 b2]|]; [|discriminate]. inversion R0. left. reflexivity.
      - destruct (answered i s) as [[c|e]|]; [exact (IH _ _ _ R0 IN)|exact (IH _ _ _ R0 IN)|]. destruct (waits i s); [|discriminate]. destruct (retain_dials g s l0 b0) as [[l2 b2]|] eqn:R2; [|discriminate]. inversion R0. right. exact (IH _ _ _ R2 IN). }
    exact (W3 (p, j) (KEEP _ _ _ _ RD IJ) eq_refl).
Qed.
(** A check with room for all dials everyone it wants. *)
Theorem wanted_peers_are_dialed g s known s' p a :
  check g known s = Some s' -> length (s_tasks s) + length known <= g_dials g -> In (p, a, High) known -> p <> g_local g -> get_active p s = None -> (forall b, get_backoff p (s_backoff s') = Some b -> (b_next b < s_now s)%N) ->
  exists k, In (p, k) (s_dials s').
Proof.
  intros CK ROOM IN NL NA BO. destruct (check_is _ _ _ _ CK) as (l & b & RD & ->). set (W := filter _ _) in *. rewrite firstn_all2 in * by (assert (length W <= length known) by (clear; subst W; generalize (dial_wanted g (set_dials l b s)); intros h; induction known as [|x r IH]; cbn [filter]; [lia|]; destruct (h x); cbn [length]; lia); lia).
  destruct (fold_dial_is g W (set_dials l b s)) as (_ & _ & B & _ & _ & _ & D & KEEP & _). rewrite B in BO. cbn [set_dials s_backoff] in BO. destruct (existsb (fun y => (fst y =? p)%N) l) eqn:PD.
  - apply existsb_exists in PD. destruct PD as ([q k] & I & E). cbn [fst] in E. apply N.eqb_eq in E. subst q. exists k. apply KEEP. exact I.
  - apply (D (p, a, High)). apply filter_In. split; [exact IN|]. unfold dial_wanted. change (get_active p (set_dials l b s)) with (get_active p s). cbn [set_dials s_dials s_backoff s_now]. rewrite NA, PD, (proj2 (N.eqb_neq _ _) NL). cbn [negb andb]. destruct (get_backoff p b) as [x|]; [apply N.ltb_lt; auto|reflexivity].
Qed.
(** A dial that failed delays the next one, longer with each failure up to the maximum; one that succeeded ends that; nothing else changes it. *)
Theorem failed_dials_back_off g now l s known s' :
  run g (start now) l = Some s -> Forall checks_ok l -> check g known s = Some s' ->
  (forall p k, In (p, k) (s_dials s) -> get_backoff p (s_backoff s') = after_dial g (s_now s) (answered k s) (get_backoff p (s_backoff s))) /\
  (forall p, ~ In p (map fst (s_dials s)) -> get_backoff p (s_backoff s') = get_backoff p (s_backoff s)).
Proof.
  intros R OK CK. assert (ND : NoDup (map fst (s_dials s))) by (apply (one_dial_of_a_peer g l (start now) s); [constructor|exact OK|exact R]). destruct (check_is _ _ _ _ CK) as (l' & b & RD & ->). destruct (fold_dial_is g (firstn (g_dials g - length (s_tasks s)) (filter (dial_wanted g (set_dials l' b s)) known)) (set_dials l' b s)) as (_ & _ & B & _). rewrite B. cbn [set_dials s_backoff].
  destruct (retain_backoff g s _ _ _ _ ND RD) as (A1 & A2). split; [|exact A1]. intros p k IN. exact (proj1 (A2 p k IN)).
Qed.
(** A check leaves no more tasks than there were or than it may start. *)
Theorem dials_are_limited g s known s' : check g known s = Some s' -> length (s_tasks s') <= Nat.max (length (s_tasks s)) (g_dials g).
Proof.
  intros CK. destruct (check_is _ _ _ _ CK) as (l & b & _ & ->). set (todo := firstn _ _). destruct (fold_dial_is g todo (set_dials l b s)) as (_ & _ & _ & _ & _ & _ & _ & _ & L). cbn [set_dials s_tasks] in L. assert (length todo <= g_dials g - length (s_tasks s)) by apply firstn_le_length. lia.
Qed.
(** The next dial of a peer whose dial failed is later than its backoff. *)
Theorem no_dial_before_the_backoff g now l1 s1 known1 s2 l2 s3 known2 s4 p k e j :
  run g (start now) l1 = Some s1 -> Forall checks_ok (l1 ++ ECheck known1 :: l2) -> check g known1 s1 = Some s2 -> In (p, k) (s_dials s1) -> answered k s1 = Some (AErr e) ->
  run g s2 l2 = Some s3 -> (forall q, In p (map fst (s_dials q)) -> (forall m1 m2, l2 = m1 ++ m2 -> run g s2 m1 <> Some q)) ->
  check g known2 s3 = Some s4 -> In (p, j) (s_dials s4) ->
  (s_now s1 + N.min (g_max g) (g_step g * (match get_backoff p (s_backoff s1) with Some x => b_attempts x | None => 0 end + 1)) < s_now s3)%N.
Proof.
  intros R1 OK C1 ID AN R2 NONE C2 IJ. apply Forall_app in OK. destruct OK as (OK1 & OK2). inversion OK2 as [|? ? OK3 OK4]; subst. destruct (failed_dials_back_off g now l1 s1 known1 s2 R1 OK1 C1) as (B1 & _). specialize (B1 p k ID). rewrite AN in B1. cbn [after_dial] in B1.
  set (b := Backoff _ _) in B1. assert (ND1 : NoDup (map fst (s_dials s1))) by (apply (one_dial_of_a_peer g l1 (start now) s1); [constructor|exact OK1|exact R1]).
  assert (ND2 : NoDup (map fst (s_dials s2))) by (apply (one_dial_of_a_peer g [ECheck known1] s1 s2); [exact ND1|repeat constructor; exact OK3|cbn [run step]; rewrite C1; reflexivity]).
  assert (KEEP : get_backoff p (s_backoff s3) = Some b /\ NoDup (map fst (s_dials s3))).
  { clear C1 R1 ID AN C2 IJ. assert (RR : run g s2 l2 = Some s3) by exact R2. clear R2. revert s2 B1 ND2 NONE RR. induction l2 as [|e0 l2 IH]; intros s2 B1 ND2 NONE RR; cbn [run] in RR; [inversion RR; subst; auto|]. destruct (step g s2 e0) as [q|] eqn:ST; [|discriminate]. inversion OK4 as [|? ? O1 O2]; subst.
    assert (NP : ~ In p (map fst (s_dials s2))) by (intros IN; exact (NONE s2 IN [] (e0 :: l2) eq_refl eq_refl)). assert (ND3 : NoDup (map fst (s_dials q))) by (apply (one_dial_of_a_peer g [e0] s2 q); [exact ND2|repeat constructor; exact O1|cbn [run]; rewrite ST; reflexivity]).
    apply (IH ltac:(constructor; assumption) O2 q); auto.
    - destruct (is_check e0) as [(known & ->)|NC]; [|rewrite (proj2 (dials_unchanged g s2 _ q NC ST)); exact B1]. cbn [step] in ST. destruct (check_is _ _ _ _ ST) as (l' & bb & RD & ->). destruct (fold_dial_is g (firstn (g_dials g - length (s_tasks s2)) (filter (dial_wanted g (set_dials l' bb s2)) known)) (set_dials l' bb s2)) as (_ & _ & B & _). rewrite B. cbn [set_dials s_backoff]. rewrite (proj1 (retain_backoff g s2 _ _ _ _ ND2 RD) p NP). exact B1.
    - intros z IN m1 m2 E RZ. apply (NONE z IN (e0 :: m1) m2); [rewrite E; reflexivity|]. cbn [run]. rewrite ST. exact RZ. }
  destruct KEEP as (KB & ND3). assert (NP3 : ~ In p (map fst (s_dials s3))) by (intros IN; exact (NONE s3 IN l2 [] (eq_sym (app_nil_r l2)) R2)).
  destruct (check_is _ _ _ _ C2) as (l' & bb & RD & E4). set (todo := firstn _ _) in *. destruct (fold_dial_is g todo (set_dials l' bb s3)) as (_ & _ & _ & _ & _ & D & _). rewrite <- E4 in D. destruct (D _ _ IJ) as [IN|([[q a] aff] & X & E)].
  - exfalso. apply NP3. apply (retain_sub _ _ _ _ _ _ RD) in IN. apply (in_map fst) in IN. exact IN.
  - cbn [fst] in E. subst q. apply firstn_sub in X. apply filter_In in X. destruct X as (_ & W). apply wanted_is in W. destruct W as (_ & _ & _ & _ & W). specialize (W b). cbn [set_dials s_backoff s_now] in W. rewrite (proj1 (retain_backoff g s3 _ _ _ _ ND3 RD) p NP3) in W. exact (W KB).
Qed.

(** ** Who is let in *)
(** the incoming connection goes on: it has a task of its own that is not aborted *)
Definition goes_on (s' : state) (a : addr) (p : peer) (n : nat) : Prop := In (Task n a (match get_entry a s' with Some e => e_seq e | None => 0%N end) p Inbound false) (s_tasks s') /\ exists e, get_entry a s' = Some e /\ e_task e = n.
Theorem refused_when_unwelcome g s a p aff : aff = Some Never \/ (aff = None /\ exists n, g_conns g = Some n /\ n <= length (s_active s)) -> step g s (EIncoming a p aff) = Some s.
Proof. intros [->|(-> & n & E & L)]; cbn [step]; unfold incoming, accepted; [reflexivity|]. rewrite E, (proj2 (Nat.leb_le _ _) L). reflexivity. Qed.
Theorem accepted_when_welcome g now l s a p aff s' : run g (start now) l = Some s -> step g s (EIncoming a p aff) = Some s' ->
  aff = Some High \/ aff = Some Allowed \/ (aff = None /\ forall n, g_conns g = Some n -> length (s_active s) < n) ->
  (forall e, get_entry a s = Some e -> e_origin e = Inbound \/ (g_local g < p)%N) -> goes_on s' a p (s_tid s).
Proof.
  intros R ST W NE. pose proof (reachable _ _ _ _ R) as V. cbn [step] in ST. inversion ST; subst s'; clear ST. unfold incoming. assert (A : accepted g aff s = true). { destruct W as [->|[->|(-> & W)]]; try reflexivity. unfold accepted. destruct (g_conns g) as [n|]; [|reflexivity]. apply negb_true_iff. apply Nat.leb_gt. apply W. reflexivity. } rewrite A.
  assert (GO : forall seq cbs z, s_tid z = s_tid s -> goes_on (spawn a p seq Inbound cbs z) a p (s_tid s)).
  { intros seq cbs z TZ. unfold goes_on. assert (GE : get_entry a (spawn a p seq Inbound cbs z) = Some (Pend seq Inbound cbs (s_tid z))).
    { unfold get_entry, spawn. cbn [s_entries]. generalize (s_entries z). intros m. induction m as [|[b e] m IH]; cbn [rm_entry filter app find fst]; [rewrite N.eqb_refl; reflexivity|]. destruct (N.eqb_spec b a) as [E|E]; cbn [negb app find fst]; [exact IH|]. rewrite (proj2 (N.eqb_neq _ _) E). exact IH. }
    rewrite GE. cbn [e_seq e_task spawn s_tasks]. rewrite TZ. split; [apply in_or_app; right; left; reflexivity|]. eexists. split; [reflexivity|reflexivity]. }
  destruct (get_entry a s) as [e|] eqn:GE; [|apply GO; reflexivity]. assert (T : tie_breaking (g_local g) p (e_origin e) Inbound = true). { destruct (NE e eq_refl) as [E|L]; unfold tie_breaking; [rewrite E; reflexivity|]. destruct (e_origin e); [reflexivity|apply N.ltb_lt; exact L]. } rewrite T. apply GO. reflexivity.
Qed.
