(** * Certificates: invariant. *)
From Coq Require Import List NArith Bool Lia ZArith ZifyN ZifyNat ZifyBool.
From Verif Require Import CertModel CertSpec CertBits.
Import ListNotations.
Open Scope N_scope.

Lemma upd_same {A} (f : N -> A) k v : upd f k v k = v.
Proof. unfold upd. rewrite N.eqb_refl. reflexivity. Qed.
Lemma upd_other {A} (f : N -> A) k v x : x <> k -> upd f k v x = f x.
Proof. intros H. unfold upd. apply N.eqb_neq in H. rewrite H. reflexivity. Qed.

Lemma memb_in x l : memb x l = true <-> In x l.
Proof.
  unfold memb. rewrite existsb_exists. split.
  - intros (y&A&B). apply N.eqb_eq in B. subst. exact A.
  - intros H. exists x. rewrite N.eqb_refl. auto.
Qed.
Lemma remove1_in x y l : In y (remove1 x l) -> In y l.
Proof. induction l as [|a l IH]; cbn; [tauto|]. destruct (a =? x); cbn; intuition. Qed.
Lemma remove1_keep x y l : In y l -> y <> x -> In y (remove1 x l).
Proof. induction l as [|a l IH]; cbn; [tauto|]. intros [->|H] Hn; destruct (_ =? x) eqn:E; cbn; auto. apply N.eqb_eq in E. congruence. Qed.
Lemma remove1_len x l : In x l -> length l = S (length (remove1 x l)).
Proof. induction l as [|a l IH]; cbn; [tauto|]. intros H. destruct (a =? x) eqn:E; [reflexivity|]. apply N.eqb_neq in E. cbn. rewrite IH; [reflexivity|]. destruct H; congruence. Qed.

Lemma enqueue_in base i w j r : In (j, r) (enqueue base i w) -> (j = base /\ In r i) \/ (j = S base /\ In r w).
Proof. unfold enqueue. rewrite in_app_iff, !in_map_iff. intros [(x&E&H)|(x&E&H)]; injection E as <- <-; auto. Qed.
Lemma in_enqueue_i base i w r : In r i -> In (base, r) (enqueue base i w).
Proof. intros H. unfold enqueue. apply in_app_iff. left. apply in_map. exact H. Qed.
Lemma in_enqueue_w base i w r : In r w -> In (S base, r) (enqueue base i w).
Proof. intros H. unfold enqueue. apply in_app_iff. right. apply in_map. exact H. Qed.

Definition anyp (_ : N) : Prop := True.
Lemma back_mono log log' (ok ok' : N -> Prop) p q d : incl log log' -> (forall x, ok x -> ok' x) -> back log ok p q d -> back log' ok' p q d.
Proof. intros H Ho B. induction B; [constructor|eapply back_inc; eauto|eapply back_wit; eauto]. Qed.

Section Inv.
Variable D : N.
Hypothesis D1 : 1 <= D. Hypothesis D2 : D <= 255.

Definition word (s : state) p := c_word (s_cell s p).

(** A point found [D + 1 + b - a] rounds below a directly proved one. *)
Definition src (log : list event) (r a b : N) : Prop :=
  exists q d, In (ECertify q) log /\ back log anyp q r d /\ 1 <= d /\ d + a = D + 1 + b.
Definition src0 (log : list event) (r a : N) : Prop :=
  exists q d, In (ECertify q) log /\ back log anyp q r d /\ d + a = D + 1.

Lemma src_mono log log' r a b : incl log log' -> src log r a b -> src log' r a b.
Proof. clear D1 D2. intros H (q&d&A&B&C). exists q, d. split; [auto|]. split; [|exact C]. eapply back_mono; eauto. Qed.
Lemma src0_mono log log' r a : incl log log' -> src0 log r a -> src0 log' r a.
Proof. clear D1 D2. intros H (q&d&A&B&C). exists q, d. split; [auto|]. split; [|exact C]. eapply back_mono; eauto. Qed.
Lemma src_src0 log r a : src log r a 0 -> src0 log r a.
Proof. clear D1 D2. intros (q&d&A&B&C&E). exists q, d. split; [exact A|]. split; [exact B|lia]. Qed.
Lemma src0_inc log p i w r a b : src0 log p a -> In (EDeps p i w) log -> In r i -> b + 1 = a -> src log r b 0.
Proof. clear D1 D2. intros (q&d&A&B&C) E H L. exists q, (d + 1). split; [exact A|]. split; [|lia]. eapply back_inc; eauto; exact I. Qed.
Lemma src0_wit log p i w r a b : src0 log p a -> In (EDeps p i w) log -> In r w -> b + 2 = a -> src log r b 0.
Proof. clear D1 D2. intros (q&d&A&B&C) E H L. exists q, (d + 2). split; [exact A|]. split; [|lia]. eapply back_wit; eauto; exact I. Qed.

Definition commits (p : N) (log : list event) : nat :=
  length (filter (fun e => match e with ECommit q true => q =? p | _ => false end) log).

(** Cells and history. *)
Record cinv (cl : N -> cell) (log : list event) : Prop := {
  i_w : forall p, c_word (cl p) < 65536;
  i_h : forall p, hgt (c_word (cl p)) <= D + 1;
  i_top : forall p, fT (c_word (cl p)) = true <-> In (ECertify p) log;
  i_top2 : forall p, fT (c_word (cl p)) = true <-> hgt (c_word (cl p)) = D + 1;
  i_ds : forall p, fD (c_word (cl p)) = true -> fS (c_word (cl p)) = true;
  i_dep : forall p, fD (c_word (cl p)) = true <-> exists i w, In (EDeps p i w) log;
  i_dep2 : forall p i w, In (EDeps p i w) log -> c_deps (cl p) = Some (i, w);
  i_bad : forall p, ~ In (EBad p) log;
  i_up : forall p, 0 < hgt (c_word (cl p)) -> src0 log p (hgt (c_word (cl p)));
  i_com : forall p, fC (c_word (cl p)) = true <-> exists b, In (ECommit p b) log;
  i_com1 : forall p, (commits p log <= 1)%nat /\ (fC (c_word (cl p)) = false -> commits p log = 0%nat);
  i_com2 : forall p, In (ECommit p true) log -> 0 < hgt (c_word (cl p)) }.

Definition setting (t : tstate) : option N := match t with TSet1 p _ _ | TSet2 p _ _ => Some p | _ => None end.

Definition trok (log : list event) (t : trav) : Prop :=
  (forall r, In r (t_dir t) -> src log r (t_h t + 1) 0) /\
  (forall r, In r (t_wit t) -> src log r (t_h t) 0) /\
  (forall j r, In (j, r) (t_pend t) -> (j <= 2)%nat /\ src log r (t_h t) (N.of_nat j)) /\
  (forall r, In r (t_c t) -> src log r (t_h t) 0) /\
  (forall r, In r (t_i t) -> src log r (t_h t) 1) /\
  (forall r, In r (t_w t) -> src log r (t_h t) 2).

Record tinv (s : state) : Prop := {
  i_set1 : forall t p i w, s_thr s t = TSet1 p i w -> fS (word s p) = true /\ fD (word s p) = false;
  i_set2 : forall t p i w, s_thr s t = TSet2 p i w -> fS (word s p) = true /\ fD (word s p) = false /\ c_deps (s_cell s p) = Some (i, w);
  i_uniq : forall t t' p, setting (s_thr s t) = Some p -> setting (s_thr s t') = Some p -> t = t';
  i_tr : forall t tr, s_thr s t = TTrav tr -> trok (s_log s) tr }.

(** Work under way covers the obligation to certify [r] at height [k]. *)
Definition cov (t : trav) (r k : N) : Prop :=
  (k <= t_h t + 1 /\ In r (t_dir t)) \/ (k <= t_h t /\ In r (t_wit t)) \/
  (exists j, In (j, r) (t_pend t) /\ k + N.of_nat j <= t_h t) \/
  (k <= t_h t /\ In r (t_c t)) \/ (k + 1 <= t_h t /\ In r (t_i t)) \/ (k + 2 <= t_h t /\ In r (t_w t)).
Definition need (s : state) (r k : N) : Prop :=
  s_dead s r = false -> k <= hgt (word s r) \/ exists t tr, s_thr s t = TTrav tr /\ cov tr r k.
Definition low (s : state) : Prop := forall p i w, In (EDeps p i w) (s_log s) ->
  (forall r, In r i -> need s r (hgt (word s p) - 1)) /\ (forall r, In r w -> need s r (hgt (word s p) - 2)).

Definition inv (s : state) : Prop := cinv (s_cell s) (s_log s) /\ tinv s /\ low s.

(** certify_deeper *)
Lemma certify_spec c h top c' r : c_word c < 65536 -> h < 4096 -> certify_deeper c h top = (c', r) ->
  (h <= hgt (c_word c) /\ c' = c /\ r = RNone) \/
  (hgt (c_word c) < h /\ hgt (c_word c') = h /\ c_word c' < 65536 /\ fT (c_word c') = fT (c_word c) || top /\
   fS (c_word c') = fS (c_word c) /\ fD (c_word c') = fD (c_word c) /\ fC (c_word c') = fC (c_word c) /\ c_deps c' = c_deps c /\
   r = if fS (c_word c) && fD (c_word c) && (1 <? h) then
         match c_deps c with Some (i, w) => RSome i (if 2 <? h then w else []) | None => RBad end else RNone).
Proof. clear D1 D2.
  intros Hw Hh. unfold certify_deeper. pose proof (mhp_spec (c_word c) h (if top then TOP else 0) Hw Hh) as M.
  destruct (mhp (c_word c) h (if top then TOP else 0)) as [v|]; intros E; injection E as <- <-.
  - destruct M as (M1&M2&M3&M4&M5&M6&M7); [destruct top; auto|]. right. cbn [c_word c_deps]. rewrite land_init.
    split; [exact M1|]. split; [exact M2|]. split; [exact M3|]. split; [rewrite M4; destruct top; reflexivity|]. auto 10.
  - left. split; [|auto]. apply M. destruct top; auto.
Qed.

(** Raising the height of [p] in a traversal. *)
Lemma cinv_raise cl log p c' h r : cinv cl log -> src log p h 0 -> certify_deeper (cl p) h false = (c', r) ->
  cinv (upd cl p c') log /\ r <> RBad.
Proof.
  intros [W H T T2 DS DP DP2 B U C C1 C2] S E. assert (S0 := src_src0 _ _ _ S).
  assert (hD : h <= D) by (destruct S as (q&d&_&_&L1&L2); lia).
  assert (hh : h < 4096) by lia.
  destruct (certify_spec _ _ _ _ _ (W p) hh E) as [(A1&->&->)|(A1&A2&A3&A4&A5&A6&A7&A8&A9)].
  - split; [|discriminate]. assert (Q : forall x, upd cl p (cl p) x = cl x).
    { intros x. unfold upd. destruct (x =? p) eqn:Ex; [apply N.eqb_eq in Ex; subst; reflexivity|reflexivity]. }
    split; intros x; rewrite ?Q; auto.
  - split.
    + rewrite orb_false_r in A4.
      assert (T2p := T2 p). assert (Hp := H p).
      split; intros x; (destruct (N.eq_dec x p) as [->|Hn]; [rewrite ?upd_same|rewrite ?upd_other by exact Hn; auto]).
      * exact A3.
      * lia.
      * rewrite A4. apply T.
      * rewrite A4, A2. rewrite T2p. split; intros; lia.
      * rewrite A6, A5. apply DS.
      * rewrite A6. apply DP.
      * rewrite A8. apply DP2.
      * apply B.
      * intros _. rewrite A2. exact S0.
      * rewrite A7. apply C.
      * rewrite A7. apply C1.
      * intros _. lia.
    + rewrite A9. destruct (fS (c_word (cl p)) && fD (c_word (cl p)) && (1 <? h)) eqn:G; [|discriminate].
      rewrite !andb_true_iff in G. destruct G as [[G1 G2] G3]. apply DP in G2. destruct G2 as (i&w&G2). rewrite (DP2 _ _ _ G2). discriminate.
Qed.

(** What the refs of a raised point are. *)
Lemma raise_refs cl log p c' h r i w : cinv cl log -> h < 4096 -> certify_deeper (cl p) h false = (c', r) ->
  In (EDeps p i w) log -> hgt (c_word (cl p)) < hgt (c_word c') ->
  h = hgt (c_word c') /\ ((1 < h /\ r = RSome i (if 2 <? h then w else [])) \/ (h <= 1 /\ r = RNone)).
Proof. clear D1 D2.
  intros Hi Hh E He L. destruct (certify_spec _ _ _ _ _ (i_w _ _ Hi p) Hh E) as [(A1&->&->)|(A1&A2&A3&A4&A5&A6&A7&A8&A9)]; [lia|].
  split; [auto|]. assert (F : fD (c_word (cl p)) = true) by (apply (i_dep _ _ Hi); eauto).
  rewrite (i_ds _ _ Hi _ F), F in A9. cbn [andb] in A9. rewrite (i_dep2 _ _ Hi _ _ _ He) in A9.
  destruct (1 <? h) eqn:G; [left|right]; (split; [lia|exact A9]).
Qed.
End Inv.
