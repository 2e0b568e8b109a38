(** Basic facts about the checks of the verifier model. *)
From Verif Require Import VerModel.
Local Open Scope N_scope.

Lemma pid_eqb_spec a b : reflect (a = b) (pid_eqb a b).
Proof.
  destruct a as [r d p], b as [r' d' p']. unfold pid_eqb. cbn.
  destruct (N.eqb_spec r r'), (N.eqb_spec d d'), (N.eqb_spec p p'); cbn; constructor; congruence.
Qed.
Lemma pid_eqb_refl a : pid_eqb a a = true.
Proof. destruct (pid_eqb_spec a a); congruence. Qed.

Lemma upd_none r o : upd r o = None <-> r = None /\ o = None.
Proof. destruct o; cbn; intuition congruence. Qed.
Lemma fold_upd_none l r : fold_left upd l r = None <-> r = None /\ Forall (fun o => o = None) l.
Proof.
  revert r. induction l as [|o l IH]; intros r; cbn.
  - split; [intros ->; auto | tauto].
  - rewrite IH, upd_none. split.
    + intros ((-> & ->) & F). split; auto.
    + intros (-> & F). inversion F; subst. auto.
Qed.
Lemma why_none b r : why b r = None <-> b = false.
Proof. destruct b; cbn; intuition congruence. Qed.

(** what a dependency records as a cause of transitive invalidity *)
Definition cause (c : vconf) (d : dagpoint) (prev : round) : option (pid * inv_reason) :=
  match d_v d with
  | VdInvalid i r => if d_cert d then None else Some (i_id i, r)
  | VdTrans i root =>
    if d_cert d then None
    else if radd (p_round (il_to (v_link root))) (c_history c) <=? prev then None
    else Some (il_to (v_link root), v_reason root)
  | _ => None
  end.
Definition d_info (v : verdict) : option info :=
  match v with VdValid i | VdTrans i _ | VdInvalid i _ => Some i | _ => None end.
Definition dep_reason (v : verdict) : inv_reason :=
  match v with VdIll p _ => RDepIllFormed p | v => RDepNotFound (vd_id v) end.
Definition note (old : option invdep) (d : dagpoint) th prev (ca : option (pid * inv_reason)) : option invdep :=
  match ca with Some (root, r) => note_cause old d th prev root r | None => old end.
Lemma dependency_eq c old d th prev :
  dependency c old d th prev =
  (note old d th prev (cause c d prev), match d_info (d_v d) with Some i => inl i | None => inr (dep_reason (d_v d)) end).
Proof.
  unfold dependency, note, cause, d_info, dep_reason. destruct (d_v d) as [i|i root|i r|p r|p]; cbn; try reflexivity.
  - destruct (d_cert d); [reflexivity|]. destruct (_ <=? prev); reflexivity.
  - destruct (d_cert d); reflexivity.
Qed.

(** the key by which the latest cause is chosen: newer round first, then a cause with a dag round *)
Definition ckey (root : pid) (r : inv_reason) : N := 2 * p_round root + (if has_dag_round r then 1 else 0).
Definition okey (o : option invdep) : N :=
  match o with None => 0 | Some v => 1 + ckey (il_to (v_link v)) (v_reason v) end.
Definition cakey (ca : option (pid * inv_reason)) : N := match ca with None => 0 | Some (root, r) => 1 + ckey root r end.
Lemma better_key old root r : better_cause old root r = (okey old <? 1 + ckey root r).
Proof.
  unfold better_cause, okey, ckey. destruct old as [o|].
  - destruct (N.ltb_spec (p_round (il_to (v_link o))) (p_round root)) as [L|L];
      destruct (N.eqb_spec (p_round (il_to (v_link o))) (p_round root)) as [E|E];
      destruct (has_dag_round (v_reason o)), (has_dag_round r); cbn [andb orb negb];
      symmetry; (apply N.ltb_lt || apply N.ltb_ge); lia.
  - symmetry. apply N.ltb_lt. lia.
Qed.
Lemma note_key old d th prev ca : okey (note old d th prev ca) = N.max (okey old) (cakey ca).
Proof.
  destruct ca as [[root r]|]; cbn [note cakey]; [|lia].
  unfold note_cause. rewrite better_key. destruct (N.ltb_spec (okey old) (1 + ckey root r)) as [L|L].
  - cbn [okey v_link il_to v_reason]. lia.
  - lia.
Qed.
Lemma note_from old d th prev ca v : note old d th prev ca = Some v ->
  old = Some v \/ ca = Some (il_to (v_link v), v_reason v).
Proof.
  destruct ca as [[root r]|]; cbn [note]; [|auto].
  unfold note_cause. destruct (better_cause old root r); [|auto].
  intros E. inversion E; subst. cbn. auto.
Qed.

(** one direct dependency was read and nothing was found against the point *)
Definition is_prev_of (i : info) (d : dagpoint) : bool :=
  at_prev_loc i (d_id d) && match prev_digest i with Some pd => pd =? p_digest (d_id d) | None => false end.
Definition is_other_b (i : info) (d : dagpoint) : bool :=
  at_prev_loc i (d_id d) && negb (match prev_digest i with Some pd => pd =? p_digest (d_id d) | None => false end).
Inductive dep_ok (c : vconf) (i : info) (x : ctx) (d : dagpoint) : Prop :=
| dok_other : is_other_b i d = true -> other_bad i d = None -> dep_ok c i x d
| dok_dep dep : is_other_b i d = false -> d_info (d_v d) = Some dep ->
    Forall (fun o => o = None) (dep_checks c i x (is_prev_of i d) (d_id d) dep) -> dep_ok c i x d.
Definition dcause (c : vconf) (i : info) (d : dagpoint) : option (pid * inv_reason) :=
  if is_other_b i d then None else cause c d (i_round i - 1).
Definition prev_cert (i : info) (d : dagpoint) : Prop := is_prev_of i d = true -> d_cert d = true.

Lemma check_one_some c i x st d : prev_cert i d -> exists st', check_one c i x st d = Some st'.
Proof.
  unfold prev_cert, is_prev_of, check_one. intros P.
  destruct (at_prev_loc i (d_id d)); [|eauto]. cbn [andb] in P.
  destruct (match prev_digest i with Some pd => pd =? p_digest (d_id d) | None => false end); [|eauto].
  rewrite P by reflexivity. eauto.
Qed.
Lemma check_one_spec c i x r v d r' v' : check_one c i x (r, v) d = Some (r', v') ->
  (r' = None <-> r = None /\ dep_ok c i x d) /\
  v' = note v d None (i_round i - 1) (dcause c i d).
Proof.
  unfold check_one, dcause. cbn [fst snd].
  assert (GO : forall b r' v',
    match dependency c v d None (i_round i - 1) with
    | (v1, inr e) => (Some e, v1)
    | (v1, inl dep) => (fold_left upd (dep_checks c i x b (d_id d) dep) r, v1)
    end = (r', v') ->
    is_other_b i d = false -> b = is_prev_of i d ->
    (r' = None <-> r = None /\ dep_ok c i x d) /\ v' = note v d None (i_round i - 1) (cause c d (i_round i - 1))).
  { intros b r1 v1. rewrite dependency_eq. destruct (d_info (d_v d)) as [dep|] eqn:I; intros E O B; pose proof (f_equal fst E) as E1; pose proof (f_equal snd E) as E2; cbn [fst snd] in E1, E2; subst r1 v1 b; clear E.
    - split; [|reflexivity]. rewrite fold_upd_none. split.
      + intros (-> & F). split; [reflexivity|]. eapply dok_dep; eauto.
      + intros (-> & K). split; [reflexivity|]. destruct K as [K1 K2|dep' K1 K2 K3]; [congruence|].
        rewrite I in K2. inversion K2; subst. exact K3.
    - split; [|reflexivity]. split; [discriminate|]. intros (_ & K). destruct K as [K1 K2|dep' K1 K2 K3]; congruence. }
  destruct (at_prev_loc i (d_id d)) eqn:A.
  - destruct (match prev_digest i with Some pd => pd =? p_digest (d_id d) | None => false end) eqn:P.
    + destruct (d_cert d) eqn:CT; [|discriminate]. intros E.
      assert (O : is_other_b i d = false) by (unfold is_other_b; rewrite A, P; reflexivity).
      rewrite O. eapply GO; [exact (f_equal (fun o => match o with Some z => z | None => (r, v) end) E) | exact O |]. unfold is_prev_of. rewrite A, P. reflexivity.
    + intros E.
      assert (O : is_other_b i d = true) by (unfold is_other_b; rewrite A, P; reflexivity).
      rewrite O. injection E as <- <-. split; [|reflexivity]. rewrite upd_none. split.
      * intros (-> & Z). split; [reflexivity|]. apply dok_other; assumption.
      * intros (-> & Z). split; [reflexivity|]. destruct Z; [assumption|congruence].
  - intros E.
    assert (O : is_other_b i d = false) by (unfold is_other_b; rewrite A; reflexivity).
    rewrite O. eapply GO; [exact (f_equal (fun o => match o with Some z => z | None => (r, v) end) E) | exact O |]. unfold is_prev_of. rewrite A. reflexivity.
Qed.

Fixpoint causes (c : vconf) (i : info) (ds : list dagpoint) (acc : N) : N :=
  match ds with [] => acc | d :: r => causes c i r (N.max acc (cakey (dcause c i d))) end.
Lemma causes_perm c i l l' : Permutation l l' -> forall a, causes c i l a = causes c i l' a.
Proof.
  induction 1; intros a; cbn; auto.
  - f_equal. lia.
  - congruence.
Qed.

Lemma check_deps_some c i x ds st : Forall (prev_cert i) ds -> exists st', check_deps c i x (map Some ds) st = Some st'.
Proof.
  intros F. revert st. induction F as [|d ds P F IH]; intros st; cbn; [eauto|].
  destruct (check_one_some c i x st d P) as [st1 E1]. rewrite E1. apply IH.
Qed.
Lemma check_deps_spec c i x ds r v r' v' : check_deps c i x (map Some ds) (r, v) = Some (r', v') ->
  (r' = None <-> r = None /\ Forall (dep_ok c i x) ds) /\
  okey v' = causes c i ds (okey v) /\
  (forall o, v' = Some o -> v = Some o \/ exists d, In d ds /\ dcause c i d = Some (il_to (v_link o), v_reason o)).
Proof.
  revert r v. induction ds as [|d ds IH]; cbn [map check_deps causes]; intros r v E.
  - inversion E; subst. split; [|split].
    + split; [intros ->; auto | tauto].
    + reflexivity.
    + auto.
  - destruct (check_one c i x (r, v) d) as [[r1 v1]|] eqn:E1; [|discriminate].
    apply check_one_spec in E1. destruct E1 as [R1 V1]. destruct (IH _ _ E) as (R2 & K2 & F2). split; [|split].
    + rewrite R2, R1. split.
      * intros ((-> & K) & F). auto.
      * intros (-> & F). inversion F; subst. auto.
    + rewrite K2, V1, note_key. reflexivity.
    + intros o Ho. destruct (F2 o Ho) as [Hv|(d' & I & D)].
      * rewrite V1 in Hv. apply note_from in Hv. destruct Hv as [Hv|Hv]; [auto|]. right. exists d. cbn. auto.
      * right. exists d'. cbn. auto.
Qed.
Lemma check_deps_none c i x ds r v r' v' : In None ds -> check_deps c i x ds (r, v) = Some (r', v') -> r' <> None.
Proof.
  revert r v. induction ds as [|[d|] ds IH]; intros r v I E; cbn in *; [contradiction| |].
  - destruct I as [I|I]; [discriminate|]. destruct (check_one c i x (r, v) d) as [[r1 v1]|]; [|discriminate]. eauto.
  - destruct r; inversion E; subst; discriminate.
Qed.

(** indirect links *)
Definition ind_ok (c : vconf) (i : info) (x : ctx) (d : dagpoint * through) : Prop :=
  exists dep, d_info (d_v (fst d)) = Some dep /\
    Forall (fun o => o = None) (indirect_checks c i x (d_id (fst d)) dep).
Fixpoint icauses (c : vconf) (i : info) (ds : list (dagpoint * through)) (acc : N) : N :=
  match ds with [] => acc | d :: r => icauses c i r (N.max acc (cakey (cause c (fst d) (i_round i - 1)))) end.
Lemma icauses_perm c i l l' : Permutation l l' -> forall a, icauses c i l a = icauses c i l' a.
Proof.
  induction 1; intros a; cbn; auto.
  - f_equal. lia.
  - congruence.
Qed.
Lemma check_indirect_spec c i x ds r v r' v' : check_indirect c i x ds (r, v) = (r', v') ->
  (r' = None <-> r = None /\ Forall (ind_ok c i x) ds) /\
  okey v' = icauses c i ds (okey v) /\
  (forall o, v' = Some o -> v = Some o \/
     exists d, In d ds /\ cause c (fst d) (i_round i - 1) = Some (il_to (v_link o), v_reason o)).
Proof.
  revert r v. induction ds as [|[d th] ds IH]; cbn [check_indirect icauses fst]; intros r v E.
  - inversion E; subst. split; [|split].
    + split; [intros ->; auto | tauto].
    + reflexivity.
    + auto.
  - rewrite dependency_eq in E. cbn [fst snd] in E.
    destruct (d_info (d_v d)) as [dep|] eqn:I.
    + destruct (IH _ _ E) as (R2 & K2 & F2). split; [|split].
      * rewrite R2, fold_upd_none. split.
        -- intros ((-> & F) & G). split; [reflexivity|]. constructor; [|assumption]. exists dep. auto.
        -- intros (-> & F). inversion F as [|? ? (dep' & D1 & D2) F']; subst. cbn [fst] in *.
           rewrite I in D1. inversion D1; subst. auto.
      * rewrite K2, note_key. reflexivity.
      * intros o Ho. destruct (F2 o Ho) as [Hv|(d' & J & D)].
        -- apply note_from in Hv. destruct Hv as [Hv|Hv]; [auto|]. right. exists (d, th). cbn. auto.
        -- right. exists d'. cbn. auto.
    + destruct (IH _ _ E) as (R2 & K2 & F2). split; [|split].
      * rewrite R2. split; [intros (? & _); discriminate|].
        intros (_ & F). inversion F as [|? ? (dep' & D1 & D2) F']; subst. cbn [fst] in *. congruence.
      * rewrite K2, note_key. reflexivity.
      * intros o Ho. destruct (F2 o Ho) as [Hv|(d' & J & D)].
        -- apply note_from in Hv. destruct Hv as [Hv|Hv]; [auto|]. right. exists (d, th). cbn. auto.
        -- right. exists d'. cbn. auto.
Qed.
