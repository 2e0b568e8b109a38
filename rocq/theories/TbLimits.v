(** The limits of a peer: permits, soft and hard rejections. *)
From Coq Require Import List Bool NArith Lia Sorted ZArith ZifyN ZifyNat ZifyBool.
From Verif Require Import TbModel TbBucket.
Import ListNotations.
Local Open Scope N_scope.

(** ** Small specification *)

Definition same_kind (a b : kind) : bool := match a, b with Bcast, Bcast | Sig, Sig | Upload, Upload => true | _, _ => false end.
(** the calls of a peer since it was last removed, with the instant of the first *)
Definition note (p : N) (h : option (N * list (kind * N * answer))) (e : event * option answer) : option (N * list (kind * N * answer)) :=
  match e with
  | (ECall k q now, Some a) =>
      if q =? p then match h with None => Some (now, [(k, now, a)]) | Some (t0, cs) => Some (t0, cs ++ [(k, now, a)]) end else h
  | (ERemove ps, _) => if existsb (N.eqb p) ps then None else h
  | _ => h
  end.
Definition history (p : N) (l : list (event * option answer)) : option (N * list (kind * N * answer)) := fold_left (note p) l None.
(** the instants of the calls of a kind *)
Definition instants (k : kind) (cs : list (kind * N * answer)) : list N :=
  map (fun e => snd (fst e)) (filter (fun e => same_kind (fst (fst e)) k) cs).
(** the answers since a permit was granted, the last first *)
Fixpoint since_grant (l : list (kind * N * answer)) : list (kind * N * answer) := match l with [] => [] | (_, _, Granted _) :: _ => [] | v :: r => v :: since_grant r end.
Definition held (o : N) (x : limits) : N := count (N.eqb o) (l_held x).
Definition cfg_of (lc : lconf) (k : kind) : config := match k with Bcast => lc_bcast lc | _ => lc_sig lc end.
Definition cap (u : bool) (lc : lconf) : N := if u then lc_upload lc else lc_permits lc.

(** ** The map *)

Lemma lookup_set {A} p (a : A) m q : lookup q (set p a m) = if q =? p then Some a else lookup q m.
Proof.
  unfold lookup, set. cbn [find fst]. rewrite (N.eqb_sym q p). destruct (N.eqb_spec p q) as [E|E]; [reflexivity|].
  f_equal. induction m as [|[k v] m IH]; [reflexivity|]. cbn [filter fst find]. destruct (N.eqb_spec k p) as [E1|E1]; cbn [negb].
  - cbn [find fst]. destruct (N.eqb_spec k q) as [E2|E2]; [congruence|]. exact IH.
  - cbn [find fst]. destruct (N.eqb_spec k q) as [E2|E2]; [reflexivity|exact IH].
Qed.
Lemma lookup_rm {A} ps (m : list (N * A)) q : lookup q (filter (fun e => negb (existsb (N.eqb (fst e)) ps)) m) = if existsb (N.eqb q) ps then None else lookup q m.
Proof.
  unfold lookup. induction m as [|[k v] m IH]; cbn [filter fst find]; [destruct (existsb _ ps); reflexivity|]. destruct (existsb (N.eqb k) ps) eqn:E; cbn [negb].
  - rewrite IH. destruct (N.eqb_spec k q) as [E2|E2]; [subst k; rewrite E; reflexivity|reflexivity].
  - cbn [find fst]. destruct (N.eqb_spec k q) as [E2|E2]; [subst k; rewrite E; reflexivity|exact IH].
Qed.

(** ** Permits *)

Record pinv (n : N) (x : limits) : Prop := {
  p_left : forall o, (o < l_next x -> exists k, lookup o (l_left x) = Some k /\ k + held o x = n) /\ (l_next x <= o -> lookup o (l_left x) = None /\ held o x = 0);
  p_map : forall p e, lookup p (l_map x) = Some e -> e_obj e < l_next x;
  p_inj : forall p q e f, lookup p (l_map x) = Some e -> lookup q (l_map x) = Some f -> e_obj e = e_obj f -> p = q }.

Lemma new_pinv n : pinv n lims_new.
Proof. constructor; [|discriminate|discriminate]. intros o. split; [cbn; lia|]. intros _. split; reflexivity. Qed.

Lemma put_pinv n p e x : pinv n x -> (exists f, lookup p (l_map x) = Some f /\ e_obj f = e_obj e) -> pinv n (put p e x).
Proof.
  intros [V1 V2 V3] (f & L & E). constructor; cbn [put l_left l_next l_map].
  - exact V1.
  - intros q g. rewrite lookup_set. destruct (q =? p); [intros [= <-]; rewrite <- E; eauto|apply V2].
  - intros q r g h. rewrite !lookup_set. destruct (N.eqb_spec q p) as [Q|Q], (N.eqb_spec r p) as [R|R]; intros H1 H2 HE; try congruence.
    + injection H1 as <-. subst q. apply (V3 p r f h L H2). congruence.
    + injection H2 as <-. subst r. apply (V3 q p g f H1 L). congruence.
    + eapply V3; eauto.
Qed.
Lemma acquire_pinv n o x : pinv n x -> o < l_next x ->
  match try_acquire o x with
  | Some x' => pinv n x' /\ held o x < n /\ l_map x' = l_map x /\ l_next x' = l_next x
  | None => held o x = n
  end.
Proof.
  intros [V1 V2 V3] LT. destruct (proj1 (V1 o) LT) as (k & L & E). unfold try_acquire. rewrite L. destruct (N.ltb_spec 0 k) as [C|C]; [|lia].
  split; [|split; [lia|auto]]. constructor; cbn [l_left l_next l_map]; [|exact V2|exact V3].
  intros q. unfold held. cbn [l_held]. rewrite count_cons, lookup_set. fold (held q x). destruct (N.eqb_spec q o) as [Q|Q].
  - subst q. split; [intros _; exists (k - 1); split; [reflexivity|lia]|lia].
  - split; [intros H; destruct (proj1 (V1 q) H) as (j & J1 & J2); exists j; split; [exact J1|lia]|intros H; destruct (proj2 (V1 q) H); split; [assumption|lia]].
Qed.
Lemma count_rm1 o q l : count (N.eqb q) (rm1 o l) = if (q =? o) && existsb (N.eqb o) l then count (N.eqb q) l - 1 else count (N.eqb q) l.
Proof.
  induction l as [|a l IH]; cbn [rm1 existsb]; [rewrite andb_false_r; reflexivity|]. rewrite (N.eqb_sym o a). destruct (N.eqb_spec a o) as [E|E]; cbn [orb].
  - subst a. rewrite count_cons. destruct (N.eqb_spec q o); cbn [andb]; lia.
  - rewrite !count_cons, IH. destruct (N.eqb_spec q o) as [Q|Q]; cbn [andb]; [|lia]. subst q. destruct (N.eqb_spec o a); [congruence|]. destruct (existsb (N.eqb o) l); lia.
Qed.
Lemma held_pos o x : existsb (N.eqb o) (l_held x) = true -> 0 < held o x.
Proof.
  unfold held. intros H. apply existsb_exists in H as (y & IN & E). apply N.eqb_eq in E. subst y.
  induction (l_held x) as [|a l IH]; [destruct IN|]. rewrite count_cons. destruct IN as [<-|IN]; [rewrite N.eqb_refl; lia|]. pose proof (IH IN). lia.
Qed.
Lemma drop_pinv n o x : n <= 255 -> pinv n x -> existsb (N.eqb o) (l_held x) = true -> pinv n (drop_permit o x).
Proof.
  intros N255 V H. pose proof (held_pos o x H) as HP. destruct V as [V1 V2 V3]. constructor; cbn [drop_permit l_left l_next l_map]; [|exact V2|exact V3].
  intros q. unfold held. cbn [drop_permit l_held]. rewrite count_rm1, H, andb_true_r. fold (held q x).
  destruct (N.lt_ge_cases o (l_next x)) as [C|C]; [|destruct (proj2 (V1 o) C) as [_ Z]; lia].
  destruct (proj1 (V1 o) C) as (k & L & E). rewrite L, lookup_set. destruct (N.eqb_spec q o) as [Q|Q].
  - subst q. split; [intros _; exists ((k + 1) mod 256); split; [reflexivity|rewrite N.mod_small by lia; lia]|lia].
  - split; apply V1.
Qed.
Lemma entry_pinv u lc now k p x : kind_ok u k = true -> pinv (cap u lc) x ->
  let '(x', e) := with_entry lc now k p x in
  pinv (cap u lc) x' /\ lookup p (l_map x') = Some e /\ e_obj e < l_next x' /\ l_held x' = l_held x /\ (forall q, q <> p -> lookup q (l_map x') = lookup q (l_map x)) /\
  match lookup p (l_map x) with Some f => e = f /\ x' = x | None => e = En (soft_new now (lc_bcast lc)) (soft_new now (lc_sig lc)) (l_next x) 0 end.
Proof.
  intros KO V. unfold with_entry. destruct (lookup p (l_map x)) as [e|] eqn:L.
  - split; [exact V|]. split; [exact L|]. split; [exact (p_map _ _ V p e L)|]. auto.
  - assert (CE : match k with Upload => lc_upload lc | _ => lc_permits lc end = cap u lc) by (destruct u, k; try discriminate KO; reflexivity). rewrite CE. cbn [l_map l_held l_next].
    rewrite lookup_set, N.eqb_refl. split; [|split; [reflexivity|split; [cbn [e_obj]; lia|split; [reflexivity|split; [|reflexivity]]]]].
    2: { intros q Q. rewrite lookup_set, (proj2 (N.eqb_neq q p) Q). reflexivity. }
    destruct V as [V1 V2 V3]. constructor; cbn [l_left l_next l_map].
    + intros o. unfold held. cbn [l_held]. fold (held o x). rewrite lookup_set. destruct (N.eqb_spec o (l_next x)) as [E|E].
      * subst o. destruct (proj2 (V1 (l_next x)) (N.le_refl _)) as [_ Z]. split; [intros _; exists (cap u lc); split; [reflexivity|lia]|lia].
      * split; [intros H; apply (proj1 (V1 o)); lia|intros H; apply (proj2 (V1 o)); lia].
    + intros q f. rewrite lookup_set. destruct (q =? p); [intros [= <-]; cbn [e_obj]; lia|intros H; pose proof (V2 q f H); lia].
    + intros q r f g. rewrite !lookup_set. destruct (N.eqb_spec q p) as [Q|Q], (N.eqb_spec r p) as [R|R]; intros H1 H2 HE; try congruence.
      * injection H1 as <-. cbn [e_obj] in HE. pose proof (V2 r g H2). lia.
      * injection H2 as <-. cbn [e_obj] in HE. pose proof (V2 q f H1). lia.
      * eapply V3; eauto.
Qed.

(** What a call does: the entry of its peer is changed, a permit is maybe taken. *)
Lemma call_facts d u lc k p now x a x' : kind_ok u k = true -> (d = Sender -> k <> Upload) -> pinv (cap u lc) x ->
  step d lc x (ECall k p now) = (x', Some a) -> exists e e',
  (lookup p (l_map x) = Some e \/ lookup p (l_map x) = None /\ e = En (soft_new now (lc_bcast lc)) (soft_new now (lc_sig lc)) (l_next x) 0) /\
  lookup p (l_map x') = Some e' /\ e_obj e' = e_obj e /\ pinv (cap u lc) x' /\ (forall q, q <> p -> lookup q (l_map x') = lookup q (l_map x)) /\
  (a = Granted (e_obj e) /\ held (e_obj e) x < cap u lc \/ a = Soft_ \/ a = Hard_) /\
  match d, k with
  | Receiver, Upload =>
      e_bcast e' = e_bcast e /\ e_sig e' = e_sig e /\
      match a with
      | Granted _ => e_rej e' = 0
      | Soft_ => held (e_obj e) x = cap u lc /\ e_rej e < lc_upload lc /\ e_rej e' = e_rej e + 1
      | Hard_ => held (e_obj e) x = cap u lc /\ lc_upload lc <= e_rej e /\ e_rej e' = e_rej e
      end
  | Receiver, Bcast =>
      e_sig e' = e_sig e /\ e_rej e' = e_rej e /\ e_bcast e' = snd (allows (lc_bcast lc) now (e_bcast e)) /\
      match a with
      | Granted _ => fst (allows (lc_bcast lc) now (e_bcast e)) = Pass
      | Soft_ => fst (allows (lc_bcast lc) now (e_bcast e)) = SoftReject \/ fst (allows (lc_bcast lc) now (e_bcast e)) = Pass /\ held (e_obj e) x = cap u lc
      | Hard_ => fst (allows (lc_bcast lc) now (e_bcast e)) = HardReject
      end
  | Receiver, Sig =>
      e_bcast e' = e_bcast e /\ e_rej e' = e_rej e /\ e_sig e' = snd (allows (lc_sig lc) now (e_sig e)) /\
      match a with
      | Granted _ => fst (allows (lc_sig lc) now (e_sig e)) = Pass
      | Soft_ => fst (allows (lc_sig lc) now (e_sig e)) = SoftReject \/ fst (allows (lc_sig lc) now (e_sig e)) = Pass /\ held (e_obj e) x = cap u lc
      | Hard_ => fst (allows (lc_sig lc) now (e_sig e)) = HardReject
      end
  | Sender, Bcast =>
      e_sig e' = e_sig e /\ s_bucket (e_bcast e') = snd (passes (lc_bcast lc) now (s_bucket (e_bcast e))) /\
      match a with
      | Granted _ => fst (passes (lc_bcast lc) now (s_bucket (e_bcast e))) = true
      | Soft_ => False
      | Hard_ => fst (passes (lc_bcast lc) now (s_bucket (e_bcast e))) = false \/ held (e_obj e) x = cap u lc
      end
  | Sender, _ =>
      e_bcast e' = e_bcast e /\ s_bucket (e_sig e') = snd (passes (lc_sig lc) now (s_bucket (e_sig e))) /\
      match a with
      | Granted _ => fst (passes (lc_sig lc) now (s_bucket (e_sig e))) = true
      | Soft_ => False
      | Hard_ => fst (passes (lc_sig lc) now (s_bucket (e_sig e))) = false \/ held (e_obj e) x = cap u lc
      end
  end.
Proof.
  intros KO SK V ST. pose proof (entry_pinv u lc now k p x KO V) as EP.
  cbn [step] in ST.
  assert (ST' : (match d with Receiver => receive lc k p now x | Sender => send lc k p now x end) = (a, x')).
  { destruct d; [destruct (receive lc k p now x) as [a0 x0]|destruct (send lc k p now x) as [a0 x0]]; injection ST as <- <-; reflexivity. }
  clear ST. unfold receive, send in ST'. destruct (with_entry lc now k p x) as [x1 e]. destruct EP as (V1 & L1 & O1 & H1 & F1 & ID).
  assert (HE : forall o, held o x1 = held o x) by (intros o; unfold held; rewrite H1; reflexivity).
  exists e.
  assert (LE : lookup p (l_map x) = Some e \/ lookup p (l_map x) = None /\ e = En (soft_new now (lc_bcast lc)) (soft_new now (lc_sig lc)) (l_next x) 0).
  { destruct (lookup p (l_map x)) as [f|]; [destruct ID as [-> _]; auto|auto]. }
  assert (PUT : forall e', e_obj e' = e_obj e -> pinv (cap u lc) (put p e' x1) /\ lookup p (l_map (put p e' x1)) = Some e' /\ (forall q, q <> p -> lookup q (l_map (put p e' x1)) = lookup q (l_map x))).
  { intros e' E. split; [apply put_pinv; [exact V1|exists e; auto]|]. cbn [put l_map]. split; [rewrite lookup_set, N.eqb_refl; reflexivity|]. intros q Q. rewrite lookup_set, (proj2 (N.eqb_neq q p) Q). apply F1, Q. }
  assert (ACQ : forall e', e_obj e' = e_obj e -> match try_acquire (e_obj e) (put p e' x1) with
     | Some y => pinv (cap u lc) y /\ held (e_obj e) x < cap u lc /\ lookup p (l_map y) = Some e' /\ (forall q, q <> p -> lookup q (l_map y) = lookup q (l_map x))
     | None => held (e_obj e) x = cap u lc end).
  { intros e' E. destruct (PUT e' E) as (P1 & P2 & P3). pose proof (acquire_pinv (cap u lc) (e_obj e) (put p e' x1) P1 O1) as A. change (held (e_obj e) (put p e' x1)) with (held (e_obj e) x1) in A. rewrite HE in A.
    destruct (try_acquire (e_obj e) (put p e' x1)) as [y|]; [|exact A]. destruct A as (A1 & A2 & A3 & _). rewrite A3. auto. }
  destruct d.
  - destruct k.
    + destruct (allows (lc_bcast lc) now (e_bcast e)) as [v s]. cbn [fst snd]. set (e' := En s (e_sig e) (e_obj e) (e_rej e)) in *. exists e'. pose proof (PUT e' eq_refl) as (P1 & P2 & P3). pose proof (ACQ e' eq_refl) as AC.
      destruct v; [destruct (try_acquire (e_obj e) (put p e' x1)) as [y|]; [destruct AC as (A1 & A2 & A3 & A4)|]| |]; injection ST' as <- <-; (split; [exact LE|]); cbn [e' e_obj e_sig e_rej e_bcast]; auto 20.
    + destruct (allows (lc_sig lc) now (e_sig e)) as [v s]. cbn [fst snd]. set (e' := En (e_bcast e) s (e_obj e) (e_rej e)) in *. exists e'. pose proof (PUT e' eq_refl) as (P1 & P2 & P3). pose proof (ACQ e' eq_refl) as AC.
      destruct v; [destruct (try_acquire (e_obj e) (put p e' x1)) as [y|]; [destruct AC as (A1 & A2 & A3 & A4)|]| |]; injection ST' as <- <-; (split; [exact LE|]); cbn [e' e_obj e_sig e_rej e_bcast]; auto 20.
    + pose proof (acquire_pinv (cap u lc) (e_obj e) x1 V1 O1) as A. rewrite HE in A. destruct (try_acquire (e_obj e) x1) as [y|].
      * destruct A as (A1 & A2 & A3 & A4). injection ST' as <- <-. exists (En (e_bcast e) (e_sig e) (e_obj e) 0). split; [exact LE|]. cbn [put l_map e_obj e_bcast e_sig e_rej]. split; [rewrite lookup_set, N.eqb_refl; reflexivity|]. split; [reflexivity|].
        split; [apply put_pinv; [exact A1|]; exists e; rewrite A3; auto|]. split; [intros q Q; rewrite lookup_set, (proj2 (N.eqb_neq q p) Q), A3; apply F1, Q|]. auto 10.
      * destruct (N.ltb_spec (e_rej e) (lc_upload lc)) as [C|C]; injection ST' as <- <-.
        -- exists (En (e_bcast e) (e_sig e) (e_obj e) (e_rej e + 1)). destruct (PUT (En (e_bcast e) (e_sig e) (e_obj e) (e_rej e + 1)) eq_refl) as (P1 & P2 & P3). split; [exact LE|]. cbn [e_obj e_bcast e_sig e_rej]. auto 20.
        -- exists e. split; [exact LE|]. auto 20.
  - destruct k; [| |exfalso; exact (SK eq_refl eq_refl)].
    + destruct (passes (lc_bcast lc) now (s_bucket (e_bcast e))) as [ok b]. cbn [fst snd]. set (e' := En (Soft b 0) (e_sig e) (e_obj e) (e_rej e)) in *. exists e'. pose proof (PUT e' eq_refl) as (P1 & P2 & P3). pose proof (ACQ e' eq_refl) as AC.
      destruct ok; [destruct (try_acquire (e_obj e) (put p e' x1)) as [y|]; [destruct AC as (A1 & A2 & A3 & A4)|]|]; injection ST' as <- <-; (split; [exact LE|]); cbn [e' e_obj e_sig e_rej e_bcast s_bucket]; auto 20.
    + destruct (passes (lc_sig lc) now (s_bucket (e_sig e))) as [ok b]. cbn [fst snd]. set (e' := En (e_bcast e) (Soft b 0) (e_obj e) (e_rej e)) in *. exists e'. pose proof (PUT e' eq_refl) as (P1 & P2 & P3). pose proof (ACQ e' eq_refl) as AC.
      destruct ok; [destruct (try_acquire (e_obj e) (put p e' x1)) as [y|]; [destruct AC as (A1 & A2 & A3 & A4)|]|]; injection ST' as <- <-; (split; [exact LE|]); cbn [e' e_obj e_sig e_rej e_bcast s_bucket]; auto 20.
Qed.

(** ** The history of a peer *)

Definition granted (cs : list (kind * N * answer)) : list (kind * N * answer) := filter (fun e => match snd e with Granted _ => true | _ => false end) cs.
Definition soft_answers (u : N) (cs : list (kind * N * answer)) : N := N.min u (N.of_nat (length (since_grant (rev cs)))).

Lemma instants_snoc k cs k1 now a : instants k (cs ++ [(k1, now, a)]) = instants k cs ++ (if same_kind k1 k then [now] else []).
Proof. unfold instants. rewrite filter_app, map_app. cbn [filter fst snd]. destruct (same_kind k1 k); reflexivity. Qed.
Lemma allow_after_app c l : forall s m, allow_after c s (l ++ m) = allow_after c (allow_after c s l) m.
Proof. induction l as [|t l IH]; intros s m; cbn [app allow_after]; [reflexivity|]. apply IH. Qed.
Lemma pass_after_app c l : forall s m, pass_after c s (l ++ m) = pass_after c (pass_after c s l) m.
Proof. induction l as [|t l IH]; intros s m; cbn [app pass_after]; [reflexivity|]. apply IH. Qed.

(** the entry [e] of a peer agrees with its calls [cs] since [t0] *)
Definition agrees (d : side) (u : bool) (lc : lconf) (t0 : N) (cs : list (kind * N * answer)) (e : entry) : Prop :=
  match d with
  | Receiver =>
      (u = false -> e_bcast e = allow_after (lc_bcast lc) (soft_new t0 (lc_bcast lc)) (instants Bcast cs) /\ e_sig e = allow_after (lc_sig lc) (soft_new t0 (lc_sig lc)) (instants Sig cs)) /\
      (u = true -> e_rej e = soft_answers (lc_upload lc) cs)
  | Sender =>
      s_bucket (e_bcast e) = pass_after (lc_bcast lc) (bucket_new t0 (lc_bcast lc)) (instants Bcast cs) /\
      s_bucket (e_sig e) = pass_after (lc_sig lc) (bucket_new t0 (lc_sig lc)) (instants Sig cs)
  end.
Definition hinv (d : side) (u : bool) (lc : lconf) (l : list (event * option answer)) (x : limits) : Prop :=
  forall p, match history p l, lookup p (l_map x) with
            | None, None => True
            | Some (t0, cs), Some e => agrees d u lc t0 cs e /\ cs <> []
            | _, _ => False
            end.

Lemma agrees_new d u lc t0 o : agrees d u lc t0 [] (En (soft_new t0 (lc_bcast lc)) (soft_new t0 (lc_sig lc)) o 0).
Proof. destruct d; cbn; auto. split; [auto|]. intros _. unfold soft_answers. cbn. lia. Qed.
Lemma call_agrees d u lc k p now x a x' e e' t0 cs : kind_ok u k = true -> (d = Sender -> k <> Upload) ->
  agrees d u lc t0 cs e ->
  match d, k with
  | Receiver, Upload =>
      e_bcast e' = e_bcast e /\ e_sig e' = e_sig e /\
      match a with
      | Granted _ => e_rej e' = 0
      | Soft_ => held (e_obj e) x = cap u lc /\ e_rej e < lc_upload lc /\ e_rej e' = e_rej e + 1
      | Hard_ => held (e_obj e) x = cap u lc /\ lc_upload lc <= e_rej e /\ e_rej e' = e_rej e
      end
  | Receiver, Bcast => e_sig e' = e_sig e /\ e_rej e' = e_rej e /\ e_bcast e' = snd (allows (lc_bcast lc) now (e_bcast e))
  | Receiver, Sig => e_bcast e' = e_bcast e /\ e_rej e' = e_rej e /\ e_sig e' = snd (allows (lc_sig lc) now (e_sig e))
  | Sender, Bcast => e_sig e' = e_sig e /\ s_bucket (e_bcast e') = snd (passes (lc_bcast lc) now (s_bucket (e_bcast e)))
  | Sender, _ => e_bcast e' = e_bcast e /\ s_bucket (e_sig e') = snd (passes (lc_sig lc) now (s_bucket (e_sig e)))
  end -> step d lc x (ECall k p now) = (x', Some a) ->
  agrees d u lc t0 (cs ++ [(k, now, a)]) e'.
Proof.
  intros KO SK A H _. unfold agrees in *. rewrite !instants_snoc. destruct d.
  - destruct A as [A1 A2]. destruct k; cbn [same_kind].
    + destruct H as (H1 & H2 & H3). destruct u; [discriminate KO|]. destruct (A1 eq_refl) as [B1 B2]. split; [intros _|discriminate]. rewrite app_nil_r, allow_after_app, <- B1, H1, H3, <- B2. auto.
    + destruct H as (H1 & H2 & H3). destruct u; [discriminate KO|]. destruct (A1 eq_refl) as [B1 B2]. split; [intros _|discriminate]. rewrite app_nil_r, allow_after_app, <- B2, H1, H3, <- B1. auto.
    + destruct H as (H1 & H2 & H3). destruct u; [|discriminate KO]. split; [discriminate|]. intros _. specialize (A2 eq_refl). unfold soft_answers in *. rewrite rev_app_distr. cbn [rev app since_grant].
      destruct a; cbn [length]; [lia| |]; lia.
  - destruct A as [B1 B2]. destruct k; cbn [same_kind]; [| |exfalso; exact (SK eq_refl eq_refl)]; destruct H as (H1 & H2).
    + rewrite app_nil_r, pass_after_app, <- B1, H2, H1, <- B2. auto.
    + rewrite app_nil_r, pass_after_app, <- B2, H2, H1, <- B1. auto.
Qed.

Definition side_ok (d : side) (u : bool) : Prop := d = Sender -> u = false.
Lemma step_answer d lc x e x' a : step d lc x e = (x', a) -> match e with ECall _ _ _ => exists v, a = Some v | _ => a = None end.
Proof. destruct e; cbn [step]; intros H; [|injection H as _ <-; reflexivity..]. destruct d; [destruct (receive _ _ _ _ _)|destruct (send _ _ _ _ _)]; injection H as _ <-; eauto. Qed.

Lemma runs_inv d u lc l x : side_ok d u -> cap u lc <= 255 -> runs d u lc l x -> pinv (cap u lc) x /\ hinv d u lc l x.
Proof.
  intros SO N255 R. induction R as [|l x e x' a R [V H] EN ST]; [split; [apply new_pinv|intros p; cbn; exact Logic.I]|].
  assert (HI : forall p, history p (l ++ [(e, a)]) = note p (history p l) (e, a)) by (intros p; unfold history; rewrite fold_left_app; reflexivity).
  pose proof (step_answer _ _ _ _ _ _ ST) as SA. destruct e as [k p now|o|ps].
  - destruct SA as (v & ->). cbn [enabled] in EN. assert (SK : d = Sender -> k <> Upload) by (intros E ->; rewrite (SO E) in EN; discriminate).
    destruct (call_facts d u lc k p now x v x' EN SK V ST) as (e & e' & E1 & E2 & E3 & E4 & E5 & _ & E7). split; [exact E4|].
    intros q. rewrite HI. cbn [note]. rewrite (N.eqb_sym p q). destruct (N.eqb_spec q p) as [Q|Q].
    + subst q. rewrite E2. specialize (H p).
      assert (AE : exists t0 cs, (match history p l with None => Some (now, [(k, now, v)]) | Some (t0, cs) => Some (t0, cs ++ [(k, now, v)]) end) = Some (t0, cs ++ [(k, now, v)]) /\ agrees d u lc t0 cs e).
      { destruct E1 as [E1|[E1 ->]]; rewrite E1 in H; destruct (history p l) as [[t0 cs]|]; try contradiction.
        - exists t0, cs. split; [reflexivity|]. apply H.
        - exists now, []. split; [reflexivity|]. apply agrees_new. }
      destruct AE as (t0 & cs & -> & AE). split; [|destruct cs; discriminate].
      apply (call_agrees d u lc k p now x v x' e e' t0 cs EN SK AE); [|exact ST]. destruct d, k; tauto.
    + rewrite (E5 q Q). exact (H q).
  - cbn [step] in ST. injection ST as <- <-. cbn [enabled] in EN. split; [apply drop_pinv; assumption|]. intros q. rewrite HI. exact (H q).
  - cbn [step] in ST. injection ST as <- <-. split.
    + destruct V as [V1 V2 V3]. constructor; cbn [remove l_left l_next l_map]; [exact V1| |].
      * intros q f. rewrite lookup_rm. destruct (existsb _ ps); [discriminate|apply V2].
      * intros q r f g. rewrite !lookup_rm. destruct (existsb (N.eqb q) ps); [discriminate|]. destruct (existsb (N.eqb r) ps); [discriminate|]. apply V3.
    + intros q. rewrite HI. cbn [note remove l_map]. rewrite lookup_rm. destruct (existsb (N.eqb q) ps); [exact Logic.I|exact (H q)].
Qed.

(** ** Permits *)

(** At most the configured number of permits of one entry are held at a time, and each is free or held. *)
Theorem permits_of_an_entry d u lc l x o : side_ok d u -> cap u lc <= 255 -> runs d u lc l x ->
  held o x <= cap u lc /\ (o < l_next x -> exists k, lookup o (l_left x) = Some k /\ k + held o x = cap u lc).
Proof.
  intros SO N255 R. destruct (runs_inv d u lc l x SO N255 R) as [[V1 _ _] _]. split; [|apply V1].
  destruct (N.lt_ge_cases o (l_next x)) as [C|C]; [destruct (proj1 (V1 o) C) as (k & _ & E); lia|destruct (proj2 (V1 o) C); lia].
Qed.
(** Peers do not share permits. *)
Theorem permits_are_per_peer d u lc l x p q e f : side_ok d u -> cap u lc <= 255 -> runs d u lc l x ->
  lookup p (l_map x) = Some e -> lookup q (l_map x) = Some f -> p <> q -> e_obj e <> e_obj f.
Proof. intros SO N255 R L1 L2 D E. destruct (runs_inv d u lc l x SO N255 R) as [[_ _ V3] _]. exact (D (V3 p q e f L1 L2 E)). Qed.

(** ** Rejections *)

Lemma run_last c s l t : allow_run c s (l ++ [t]) = allow_run c s l ++ [fst (allows c t (allow_after c s l))].
Proof. rewrite allow_run_app. cbn [allow_run]. destruct (allows c t (allow_after c s l)). reflexivity. Qed.
Lemma pass_last c s l t : pass_run c s (l ++ [t]) = pass_run c s l ++ [fst (passes c t (pass_after c s l))].
Proof. rewrite pass_run_app. cbn [pass_run]. destruct (passes c t (pass_after c s l)). reflexivity. Qed.

(** the history of the peer with the call *)
Lemma call_history d u lc l x k p now a x' : side_ok d u -> cap u lc <= 255 -> runs d u lc l x -> enabled u x (ECall k p now) = true -> step d lc x (ECall k p now) = (x', Some a) ->
  exists t0 cs e e', history p (l ++ [(ECall k p now, Some a)]) = Some (t0, cs ++ [(k, now, a)]) /\ agrees d u lc t0 cs e /\
    (history p l = Some (t0, cs) /\ lookup p (l_map x) = Some e \/ history p l = None /\ cs = [] /\ t0 = now /\ lookup p (l_map x) = None /\ e_obj e = l_next x) /\ lookup p (l_map x') = Some e' /\ e_obj e' = e_obj e.
Proof.
  intros SO N255 R EN ST. destruct (runs_inv d u lc l x SO N255 R) as [V H]. cbn [enabled] in EN. assert (SK : d = Sender -> k <> Upload) by (intros E ->; rewrite (SO E) in EN; discriminate).
  destruct (call_facts d u lc k p now x a x' EN SK V ST) as (e & e' & E1 & E2 & E3 & _). unfold history. rewrite fold_left_app. cbn [fold_left note]. fold (history p l). rewrite N.eqb_refl. specialize (H p).
  destruct E1 as [E1|[E1 ->]]; rewrite E1 in H; destruct (history p l) as [[t0 cs]|]; try contradiction.
  - exists t0, cs, e, e'. split; [reflexivity|]. split; [apply H|]. auto.
  - exists now, [], (En (soft_new now (lc_bcast lc)) (soft_new now (lc_sig lc)) (l_next x) 0), e'. split; [reflexivity|]. split; [apply agrees_new|]. auto 10.
Qed.
