(** * The chain combinator: proofs (C48). *)
From Coq Require Import List NArith Bool Lia ZArith ZifyN ZifyBool.
From Verif Require Import ProvModel ProvSpec.
Import ListNotations.
Open Scope N_scope.

Definition before_ask (tr : list cev) (t : nat) (o : cop) : Prop :=
  forall a b, tr = a ++ VBegin t o :: b -> ~ asked_right b.

(** What is known of a thread at each point. *)
Definition pc_ok (tr : list cev) (f : N) (l : bool) (t : nat) (o : cop) (p : cpc) : Prop :=
  match p with
  | CBegin => True
  | CLoadL => before_ask tr t o
  | CAskL => In (VAsk t SL o) tr
  | CStoreF => exists prev, o = CNext prev /\ In (VAns t SL o None) tr
  | CAskR => In (VAsk t SR o) tr /\
             forall mc, o = CClean mc -> dropped tr \/ exists prev, exhausted tr prev /\ mc <= prev
  | CLoadX => f <> pmax /\ forall mc, o = CClean mc -> exists prev, exhausted tr prev /\ prev < mc
  | CAskX => f <> pmax /\ In (VAsk t SL o) tr /\ forall mc, o = CClean mc -> exists prev, exhausted tr prev /\ prev < mc
  | CDrop => f <> pmax /\ (exists v, In (VAns t SL o (Some v)) tr) /\
             forall mc, o = CClean mc -> exists prev, exhausted tr prev /\ prev < mc
  | CReset => f <> pmax /\ l = false
  | CDone _ => True
  end.

Record cinv (s : cst) : Prop := MkCinv {
  ci_tr : ctr_ok (c_tr s);
  ci_max : c_flag s = pmax -> c_left s = true /\ ~ asked_right (c_tr s);
  ci_flag : c_flag s = pmax \/ (c_flag s = 0 /\ c_left s = false) \/
            exists prev, c_flag s = prev + 1 /\ exhausted (c_tr s) prev;
  ci_ex : c_flag s <> pmax -> exists prev, exhausted (c_tr s) prev;
  ci_left : c_left s = false <-> dropped (c_tr s);
  ci_tid : forall e, In e (c_tr s) ->
      match e with VBegin u _ | VAsk u _ _ | VAns u _ _ _ | VDrop u _ | VRet u _ _ => (u < length (c_thr s))%nat end;
  ci_pc : forall t o p, nth_error (c_thr s) t = Some (o, p) -> pc_ok (c_tr s) (c_flag s) (c_left s) t o p }.

Lemma upd_len {A} (l : list A) i x : length (upd l i x) = length l.
Proof. revert i. induction l as [|y l IH]; intros [|i]; cbn; auto. Qed.
Lemma upd_nth {A} (l : list A) i x y : nth_error l i = Some y -> forall j,
  nth_error (upd l i x) j = if Nat.eqb i j then Some x else nth_error l j.
Proof.
  revert i. induction l as [|z l IH]; intros [|i] H [|j]; cbn in *; try discriminate; auto.
Qed.

Lemma exh_app es l p : exhausted l p -> exhausted (es ++ l) p.
Proof. intros (t&H). exists t. apply in_or_app. auto. Qed.
Lemma drop_app es l : dropped l -> dropped (es ++ l).
Proof. intros (t&m&H). exists t, m. apply in_or_app. auto. Qed.
Lemma app_split {A} (es : list A) l a e b : (forall x, In x es -> x <> e) -> es ++ l = a ++ e :: b -> exists a', l = a' ++ e :: b.
Proof.
  revert a. induction es as [|x es IH]; cbn; intros a H E; [eauto|].
  destruct a as [|y a]; cbn in E.
  - injection E as -> _. destruct (H e); auto.
  - injection E as _ E. eapply IH; eauto.
Qed.

Definition nobegin (es : list cev) : Prop := forall e t o, In e es -> e <> VBegin t o.

Lemma pc_ok_mono tr es f l f' l' t o p : nobegin es ->
  (f <> pmax -> f' <> pmax) -> (l = false -> l' = false) ->
  pc_ok tr f l t o p -> pc_ok (es ++ tr) f' l' t o p.
Proof.
  intros Nb Hf Hl. destruct p; cbn; auto.
  - intros H a b E. destruct (app_split es tr a _ b (fun x Hx => Nb x _ _ Hx) E) as (a'&Ha). exact (H _ _ Ha).
  - intros H. apply in_or_app. auto.
  - intros (pr&H1&H2). exists pr. split; [exact H1|apply in_or_app; auto].
  - intros (H&H2). split; [apply in_or_app; auto|]. intros mc E. destruct (H2 mc E) as [D|(pr&D&D2)]; [left; apply drop_app, D|].
    right. exists pr. split; [apply exh_app, D|exact D2].
  - intros (H&H2). split; [auto|]. intros mc E. destruct (H2 mc E) as (pr&D&D2). exists pr. split; [apply exh_app, D|exact D2].
  - intros (H&H1&H2). split; [auto|]. split; [apply in_or_app; auto|].
    intros mc E. destruct (H2 mc E) as (pr&D&D2). exists pr. split; [apply exh_app, D|exact D2].
  - intros (H&(v&H1)&H2). split; [auto|]. split; [exists v; apply in_or_app; auto|].
    intros mc E. destruct (H2 mc E) as (pr&D&D2). exists pr. split; [apply exh_app, D|exact D2].
  - intros (H&H1). auto.
Qed.

(** A general way to establish the invariant after a step of thread [t]. *)
Lemma cinv_with s t o p p' l f es : cinv s -> nth_error (c_thr s) t = Some (o, p) ->
  nobegin es ->
  (forall e, In e es -> match e with VBegin u _ | VAsk u _ _ | VAns u _ _ _ | VDrop u _ | VRet u _ _ => u = t end) ->
  ctr_ok (es ++ c_tr s) ->
  (c_flag s <> pmax -> f <> pmax) -> (c_left s = false -> l = false) ->
  (f = pmax -> l = true /\ ~ asked_right (es ++ c_tr s)) ->
  (f = pmax \/ (f = 0 /\ l = false) \/ exists prev, f = prev + 1 /\ exhausted (es ++ c_tr s) prev) ->
  (f <> pmax -> exists prev, exhausted (es ++ c_tr s) prev) ->
  (l = false <-> dropped (es ++ c_tr s)) ->
  pc_ok (es ++ c_tr s) f l t o p' ->
  cinv (with_pc s t o p' l f es).
Proof.
  intros I Ht Nb Ho Htr Hf Hl H1 H2 H3 H4 Hp. assert (Lt : (t < length (c_thr s))%nat) by (apply nth_error_Some; congruence).
  unfold with_pc. constructor; cbn [c_left c_flag c_thr c_tr]; auto.
  - intros e He. apply in_app_or in He. rewrite upd_len. destruct He as [He|He].
    + specialize (Ho e He). destruct e; subst; exact Lt.
    + exact (ci_tid _ I e He).
  - intros u ou pu Hu. rewrite (upd_nth _ _ _ _ Ht) in Hu. destruct (Nat.eqb t u) eqn:E.
    + apply Nat.eqb_eq in E. subst u. injection Hu as <- <-. exact Hp.
    + exact (pc_ok_mono _ _ _ _ _ _ _ _ _ Nb Hf Hl (ci_pc _ I _ _ _ Hu)).
Qed.

Lemma asked_cons e l : (forall u o, e <> VAsk u SR o) -> asked_right (e :: l) -> asked_right l.
Proof. intros H (u&o&[E|E]); [destruct (H _ _ E)|exists u, o; exact E]. Qed.
Lemma drop_cons e l : (forall u m, e <> VDrop u m) -> dropped (e :: l) <-> dropped l.
Proof.
  intros H. split.
  - intros (u&o&[E|E]); [destruct (H _ _ E)|exists u, o; exact E].
  - intros (u&o&E). exists u, o. right. exact E.
Qed.
Lemma exh_cons e l p : exhausted l p -> exhausted (e :: l) p.
Proof. intros (t&H). exists t. right. exact H. Qed.

Lemma cinv0 : cinv cst0.
Proof.
  constructor; cbn; auto.
  - intros _. split; [reflexivity|intros (?&?&[])].
  - intros H. destruct (H eq_refl).
  - split; [discriminate|intros (?&?&[])].
  - intros e [].
  - intros [|t] o p E; discriminate E.
Qed.

Lemma cinv_call s o : cinv s ->
  cinv (MkC (c_left s) (c_flag s) (c_thr s ++ [(o, CBegin)]) (VBegin (length (c_thr s)) o :: c_tr s)).
Proof.
  intros I. destruct I as [I1 I2 I3 I4 I5 I6 I7]. constructor; cbn [c_left c_flag c_thr c_tr].
  - split; [|exact I1]. intros e He. specialize (I6 e He). destruct e; lia.
  - intros E. destruct (I2 E) as [A B]. split; [exact A|]. intros X. apply B. eapply asked_cons; [|exact X]. intros ? ? Y; discriminate Y.
  - destruct I3 as [A|[A|(pr&A&B)]]; [auto|auto|]. right. right. exists pr. split; [exact A|apply exh_cons, B].
  - intros E. destruct (I4 E) as (pr&A). exists pr. apply exh_cons, A.
  - rewrite drop_cons by (intros ? ? X; discriminate X). exact I5.
  - intros e [<-|He]; rewrite app_length; cbn; [lia|]. specialize (I6 e He). destruct e; lia.
  - intros t o' p E. destruct (Nat.lt_ge_cases t (length (c_thr s))) as [Lt|Ge].
    + rewrite nth_error_app1 in E by exact Lt. specialize (I7 _ _ _ E).
      destruct p; cbn in *; auto.
      * intros a b Eab. destruct a as [|x a]; cbn in Eab; [injection Eab as X _ _; lia|].
        injection Eab as _ Eab. exact (I7 _ _ Eab).
      * destruct I7 as (pr&A&B). exists pr. auto.
      * destruct I7 as (A&B). split; [auto|]. intros mc Em. destruct (B mc Em) as [D|(pr&D&D2)].
        -- left. apply drop_cons; [intros ? ? X; discriminate X|exact D].
        -- right. exists pr. split; [apply exh_cons, D|exact D2].
      * destruct I7 as (A&B). split; [auto|]. intros mc Em. destruct (B mc Em) as (pr&D&D2). exists pr. split; [apply exh_cons, D|exact D2].
      * destruct I7 as (A&A2&B). split; [auto|]. split; [auto|]. intros mc Em. destruct (B mc Em) as (pr&D&D2). exists pr. split; [apply exh_cons, D|exact D2].
      * destruct I7 as (A&(v&A2)&B). split; [auto|]. split; [exists v; auto|]. intros mc Em. destruct (B mc Em) as (pr&D&D2). exists pr. split; [apply exh_cons, D|exact D2].
    + rewrite nth_error_app2 in E by exact Ge. destruct (t - length (c_thr s))%nat as [|k]; cbn in E.
      * injection E as <- <-. exact Logic.I.
      * destruct k; discriminate E.
Qed.

Ltac ncons := let Q := fresh in intros ? ? Q; discriminate Q.
Ltac nob := let e := fresh in let H := fresh in intros e ? ? H;
  repeat (destruct H as [H|H]; [subst e; discriminate|]); destruct H.
Ltac own := let e := fresh in let H := fresh in intros e H;
  repeat (destruct H as [H|H]; [subst e; reflexivity|]); destruct H.

Ltac cw := try assumption; try (intros ZZ; exact ZZ); try (intros _; reflexivity).

(** Keeping flag and left, adding one event that is neither a request to right nor a drop. *)
Lemma keep_max s e : cinv s -> (forall u o, e <> VAsk u SR o) -> c_flag s = pmax ->
  c_left s = true /\ ~ asked_right (e :: c_tr s).
Proof.
  intros I He E. destruct (ci_max _ I E) as [A B]. split; [exact A|]. intros X. apply B. eapply asked_cons; eauto.
Qed.
Lemma keep_flag s es : cinv s ->
  (c_flag s = pmax \/ (c_flag s = 0 /\ c_left s = false) \/ exists prev, c_flag s = prev + 1 /\ exhausted (es ++ c_tr s) prev).
Proof.
  intros I. destruct (ci_flag _ I) as [A|[A|(pr&A&B)]]; [auto|auto|]. right. right. exists pr. split; [exact A|apply exh_app, B].
Qed.
Lemma keep_ex s es : cinv s -> c_flag s <> pmax -> exists prev, exhausted (es ++ c_tr s) prev.
Proof. intros I E. destruct (ci_ex _ I E) as (pr&A). exists pr. apply exh_app, A. Qed.
Lemma keep_left s es : cinv s -> (forall e u m, In e es -> e <> VDrop u m) -> (c_left s = false <-> dropped (es ++ c_tr s)).
Proof.
  intros I H. rewrite (ci_left _ I). split; [apply drop_app|].
  intros (u&m&E). apply in_app_or in E. destruct E as [E|E]; [destruct (H _ u m E eq_refl)|exists u, m; exact E].
Qed.

(** ask right *)
Lemma cinv_askR s t o p : cinv s -> nth_error (c_thr s) t = Some (o, p) ->
  c_flag s <> pmax ->
  (forall mc, o = CClean mc -> dropped (c_tr s) \/ exists prev, exhausted (c_tr s) prev /\ mc <= prev) ->
  cinv (with_pc s t o CAskR (c_left s) (c_flag s) [VAsk t SR o]).
Proof.
  intros I Ht Hf Hc. apply (cinv_with s t o p); cw.
  - nob.
  - own.
  - split; [exact (ci_ex _ I Hf)|apply I].
  - intros E. contradiction.
  - apply keep_flag, I.
  - apply keep_ex, I.
  - apply keep_left; [exact I|]. intros e u m [<-|[]]; discriminate.
  - cbn. split; [auto|]. intros mc Em. destruct (Hc mc Em) as [D|(pr&D&D2)].
    + left. apply drop_cons; [ncons|exact D].
    + right. exists pr. split; [apply exh_cons, D|exact D2].
Qed.

Lemma cinv_quiet s t o p p' : cinv s -> nth_error (c_thr s) t = Some (o, p) ->
  pc_ok (c_tr s) (c_flag s) (c_left s) t o p' -> cinv (with_pc s t o p' (c_left s) (c_flag s) []).
Proof.
  intros I Ht Hp. apply (cinv_with s t o p); cbn [app]; cw; try apply I.
  - nob.
  - own.
Qed.

Lemma cinv_askL s t o p p' : cinv s -> nth_error (c_thr s) t = Some (o, p) -> c_left s = true ->
  (is_clean o = false -> before_ask (c_tr s) t o) ->
  pc_ok (VAsk t SL o :: c_tr s) (c_flag s) (c_left s) t o p' ->
  cinv (with_pc s t o p' (c_left s) (c_flag s) [VAsk t SL o]).
Proof.
  intros I Ht Hl Hb Hp. apply (cinv_with s t o p); cbn [app]; cw.
  - nob.
  - own.
  - split; [|apply I]. split; [exact Hb|]. intros D. apply (ci_left _ I) in D. congruence.
  - intros E. apply keep_max; [exact I|intros ? ? X; discriminate X|exact E].
  - apply (keep_flag s [_] I).
  - intros E. apply (keep_ex s [_] I E).
  - apply (keep_left s [_] I). intros e u m [<-|[]]; discriminate.
Qed.

Lemma step_inv s t o p s' : cinv s -> op_ok o -> nth_error (c_thr s) t = Some (o, p) -> c_step s t o p = Some s' -> cinv s'.
Proof.
  intros I Ho Ht E. assert (P := ci_pc _ I _ _ _ Ht). unfold c_step in E.
  destruct p; try (destruct o; discriminate E).
  - (* CBegin *)
    assert (G : c_flag s = pmax -> cinv (with_pc s t o CLoadL (c_left s) (c_flag s) [])).
    { intros Ef. apply (cinv_quiet s t o CBegin); auto. intros a b Eab X. apply (proj2 (ci_max _ I Ef)).
      destruct X as (u&q&X). exists u, q. rewrite Eab. apply in_or_app. right. right. exact X. }
    assert (G2 : c_flag s <> pmax -> is_clean o = false -> cinv (with_pc s t o CAskR (c_left s) (c_flag s) [VAsk t SR o])).
    { intros Ef Eo. apply (cinv_askR s t o CBegin); auto. intros mc ->. discriminate Eo. }
    destruct o as [prev|b|mc].
    + destruct (c_flag s =? pmax) eqn:Ef; injection E as <-; [apply G|apply G2]; [lia|lia|reflexivity].
    + destruct (c_flag s =? pmax) eqn:Ef; injection E as <-; [apply G|apply G2]; [lia|lia|reflexivity].
    + destruct ((0 <? c_flag s) && (c_flag s <=? mc)) eqn:Ec.
      * injection E as <-. apply andb_true_iff in Ec. cbn [op_ok] in Ho.
        assert (Nm : c_flag s <> pmax) by lia.
        apply (cinv_quiet s t _ CBegin); auto. cbn. split; [exact Nm|]. intros mc' Em. injection Em as <-.
        destruct (ci_flag _ I) as [A|[(A&_)|(pr&A&B)]]; [contradiction|lia|]. exists pr. split; [exact B|lia].
      * destruct (c_flag s =? pmax) eqn:Ef; injection E as <-; [apply G; lia|].
        apply (cinv_askR s t _ CBegin); auto; [lia|]. intros mc' Em. injection Em as <-.
        destruct (ci_flag _ I) as [A|[(A&B)|(pr&A&B)]]; [lia| |].
        -- left. apply (ci_left _ I), B.
        -- right. exists pr. split; [exact B|]. apply andb_false_iff in Ec. lia.
  - (* CLoadL *)
    assert (E' : Some (if c_left s then with_pc s t o CAskL (c_left s) (c_flag s) [VAsk t SL o]
                       else with_pc s t o CAskR (c_left s) (c_flag s) [VAsk t SR o]) = Some s')
      by (destruct o, (c_left s); exact E).
    clear E. injection E' as <-. destruct (c_left s) eqn:El.
    + rewrite <- El. apply (cinv_askL s t o CLoadL); auto. cbn. auto.
    + rewrite <- El. apply (cinv_askR s t o CLoadL); auto.
      * intros Ef. destruct (ci_max _ I Ef) as [X _]. congruence.
      * intros mc _. left. apply (ci_left _ I), El.
  - (* CStoreF *)
    destruct o as [prev|b|mc]; [|discriminate E|discriminate E]. injection E as <-.
    destruct P as (pr&Epr&Hin). injection Epr as <-. cbn [op_ok] in Ho.
    assert (Es : psat1 prev = prev + 1) by (unfold psat1; replace (prev <? pmax) with true by lia; reflexivity).
    rewrite Es. assert (Ex : exhausted (c_tr s) prev) by (exists t; exact Hin).
    apply (cinv_with s t _ CStoreF); cbn [app]; cw.
    + nob.
    + own.
    + split; [|apply I]. exists prev. exact Ex.
    + intros _. lia.
    + intros Em. lia.
    + right. right. exists prev. split; [reflexivity|apply exh_cons, Ex].
    + intros _. exists prev. apply exh_cons, Ex.
    + apply (keep_left s [_] I). intros e u m [<-|[]]; discriminate.
    + cbn. split; [auto|]. intros mc X. discriminate X.
  - (* CLoadX *)
    destruct o as [prev|b|mc]; [discriminate E|discriminate E|].
    destruct P as (Nf&P). destruct (c_left s) eqn:El; injection E as <-; rewrite <- El.
    + apply (cinv_askL s t _ CLoadX); auto; [intros X; discriminate X|].
      cbn. split; [exact Nf|]. split; [auto|]. intros mc' Em. destruct (P mc' Em) as (pr&D&D2).
      exists pr. split; [apply exh_cons, D|exact D2].
    + apply (cinv_askR s t _ CLoadX); auto. intros mcq mcE. left. apply (ci_left _ I), El.
  - (* CDrop *)
    destruct o as [prev|b|mc]; [discriminate E|discriminate E|]. injection E as <-.
    destruct P as (Nf&Pv&P).
    apply (cinv_with s t _ CDrop); cbn [app]; cw.
    + nob.
    + own.
    + split; [|apply I]. split; [exact Pv|exact (P mc eq_refl)].
    + intros Em. contradiction.
    + destruct (ci_flag _ I) as [A|[(A&_)|(pr&A&B)]]; [contradiction|auto|]. right. right. exists pr. split; [exact A|apply exh_cons, B].
    + intros _. apply (keep_ex s [_] I Nf).
    + split; [|reflexivity]. intros _. exists t, mc. left. reflexivity.
    + cbn. auto.
  - (* CReset *)
    destruct o as [prev|b|mc]; [discriminate E|discriminate E|]. injection E as <-. destruct P as (Nf&El).
    apply (cinv_with s t _ CReset); cbn [app]; cw.
    + nob.
    + own.
    + split; [|apply I]. exact (ci_ex _ I Nf).
    + intros _. unfold pmax. lia.
    + intros Em. unfold pmax in Em. lia.
    + right. left. split; [reflexivity|exact El].
    + intros _. apply (keep_ex s [_] I Nf).
    + apply (keep_left s [_] I). intros e u m [<-|[]]; discriminate.
    + cbn. split; [auto|]. intros mc' _. left. apply drop_cons; [ncons|apply (ci_left _ I), El].
Qed.

(** Finishing a call. *)
Lemma cinv_done s t o p r x (q : option N) : cinv s -> nth_error (c_thr s) t = Some (o, p) ->
  In (VAsk t x o) (c_tr s) ->
  cev_ok (VRet t o r) (VAns t x o q :: c_tr s) ->
  cinv (with_pc s t o (CDone r) (c_left s) (c_flag s) [VRet t o r; VAns t x o q]).
Proof.
  intros I Ht Ha Hr. apply (cinv_with s t o p); cbn [app]; cw.
  - nob.
  - own.
  - split; [exact Hr|]. split; [exact Ha|apply I].
  - intros E. destruct (ci_max _ I E) as [A B]. split; [exact A|]. intros X. apply B.
    apply asked_cons in X; [|ncons]. apply asked_cons in X; [exact X|ncons].
  - apply (keep_flag s [_; _] I).
  - intros E. apply (keep_ex s [_; _] I E).
  - apply (keep_left s [_; _] I). intros e u m [<-|[<-|[]]]; discriminate.
  - exact Logic.I.
Qed.

Lemma cinv_ansL s t o p p' q : cinv s -> nth_error (c_thr s) t = Some (o, p) ->
  In (VAsk t SL o) (c_tr s) ->
  pc_ok (VAns t SL o q :: c_tr s) (c_flag s) (c_left s) t o p' ->
  cinv (with_pc s t o p' (c_left s) (c_flag s) [VAns t SL o q]).
Proof.
  intros I Ht Ha Hp. apply (cinv_with s t o p); cbn [app]; cw.
  - nob.
  - own.
  - split; [exact Ha|apply I].
  - intros E. apply keep_max; [exact I|ncons|exact E].
  - apply (keep_flag s [_] I).
  - intros E. apply (keep_ex s [_] I E).
  - apply (keep_left s [_] I). intros e u m [<-|[]]; discriminate.
Qed.

Lemma ans_inv s t o p r s' : cinv s -> nth_error (c_thr s) t = Some (o, p) -> c_ans s t o p r = Some s' -> cinv s'.
Proof.
  intros I Ht E. assert (P := ci_pc _ I _ _ _ Ht). unfold c_ans in E.
  destruct p; try (destruct o; discriminate E).
  - (* CAskL *)
    cbn in P. destruct o as [prev|b|mc].
    + destruct r as [v|]; injection E as <-.
      * apply (cinv_done s t _ CAskL); auto. cbn. auto.
      * apply (cinv_ansL s t _ CAskL); auto. cbn. exists prev. auto.
    + injection E as <-. apply (cinv_done s t _ CAskL); auto. destruct r; cbn; eauto.
    + injection E as <-. apply (cinv_done s t _ CAskL); auto. destruct r; cbn; eauto.
  - (* CAskR *)
    cbn in P. destruct P as (Pa&Pc).
    assert (E' : Some (with_pc s t o (CDone (ret SR r)) (c_left s) (c_flag s) [VRet t o (ret SR r); VAns t SR o r]) = Some s')
      by (destruct o; exact E).
    clear E. injection E' as <-. apply (cinv_done s t _ CAskR); auto.
    destruct r as [v|]; cbn [ret].
    + assert (G : In (VAns t SR o (Some v)) (VAns t SR o (Some v) :: c_tr s) /\
        forall mc, o = CClean mc -> dropped (VAns t SR o (Some v) :: c_tr s) \/
          exists prev, exhausted (VAns t SR o (Some v) :: c_tr s) prev /\ mc <= prev); [|destruct o; exact G].
      split; [left; reflexivity|]. intros mc Em. destruct (Pc mc Em) as [D|(pr&D&D2)].
      * left. apply drop_cons; [ncons|exact D].
      * right. exists pr. split; [apply exh_cons, D|exact D2].
    + destruct o; cbn; eauto.
  - (* CAskX *)
    destruct o as [prev|b|mc]; [discriminate E|discriminate E|]. cbn in P. destruct P as (Nf&Pa&Pc).
    destruct r as [v|]; injection E as <-.
    + apply (cinv_ansL s t _ CAskX); auto. cbn. split; [exact Nf|]. split; [exists v; left; reflexivity|].
      intros mc' Em. destruct (Pc mc' Em) as (pr&D&D2). exists pr. split; [apply exh_cons, D|exact D2].
    + apply (cinv_done s t _ CAskX); auto. cbn. exists SL. auto.
Qed.

Lemma upd_in {A} (l : list A) i x y : In y (upd l i x) -> y = x \/ In y l.
Proof.
  revert i. induction l as [|z l IH]; intros [|i]; cbn; auto.
  - intros [<-|H]; auto.
  - intros [<-|H]; auto. destruct (IH _ H); auto.
Qed.

Lemma with_ops s t o p p' l f es : nth_error (c_thr s) t = Some (o, p) -> ops_ok (with_pc s t o p' l f es) -> ops_ok s.
Proof.
  intros Ht H. unfold ops_ok in *. cbn in H. rewrite Forall_forall in *. intros x Hx.
  destruct (In_nth_error _ _ Hx) as (j&Hj). destruct (Nat.eq_dec t j) as [->|Ne].
  - assert (x = (o, p)) by congruence. subst x. apply (H (o, p')).
    apply (nth_error_In _ j). rewrite (upd_nth _ _ _ _ Ht). rewrite Nat.eqb_refl. reflexivity.
  - apply H. apply (nth_error_In _ j). rewrite (upd_nth _ _ _ _ Ht). apply Nat.eqb_neq in Ne. rewrite Ne. exact Hj.
Qed.

Lemma ops_back s a s' : cstep s a = Some s' -> ops_ok s' -> ops_ok s.
Proof.
  intros E H. destruct a as [o|t|t r]; cbn in E.
  - injection E as <-. unfold ops_ok in *. cbn in H. apply Forall_app in H. apply H.
  - destruct (nth_error (c_thr s) t) as [[o p]|] eqn:Ht; [|discriminate].
    assert (G : exists p' l f es, s' = with_pc s t o p' l f es).
    { unfold c_step in E. destruct o, p; try discriminate E;
        repeat match type of E with context[if ?c then _ else _] => destruct c end; try discriminate E;
        injection E as <-; eauto. }
    destruct G as (p'&l&f&es&->). eapply with_ops; eauto.
  - destruct (nth_error (c_thr s) t) as [[o p]|] eqn:Ht; [|discriminate].
    assert (G : exists p' l f es, s' = with_pc s t o p' l f es).
    { unfold c_ans in E. destruct o, p; try discriminate E; try destruct r; try discriminate E;
        injection E as <-; eauto. }
    destruct G as (p'&l&f&es&->). eapply with_ops; eauto.
Qed.

Lemma creach_inv s : creach s -> ops_ok s -> cinv s.
Proof.
  intros R. induction R as [|s a s' R IH E]; intros Ho; [apply cinv0|].
  assert (Hs := ops_back _ _ _ E Ho). specialize (IH Hs). destruct a as [o|t|t r]; cbn in E.
  - injection E as <-. apply cinv_call, IH.
  - destruct (nth_error (c_thr s) t) as [[o p]|] eqn:Ht; [|discriminate]. eapply step_inv; eauto.
    unfold ops_ok in Hs. rewrite Forall_forall in Hs. exact (Hs _ (nth_error_In _ _ Ht)).
  - destruct (nth_error (c_thr s) t) as [[o p]|] eqn:Ht; [|discriminate]. eapply ans_inv; eauto.
Qed.

(** ** C48 *)
(** The right provider is asked for anything only after the left one answered
    None to a get_next_block. *)
Theorem chain_right_after_left s l2 t o l1 : creach s -> ops_ok s ->
  c_tr s = l2 ++ VAsk t SR o :: l1 -> exists prev u, In (VAns u SL (CNext prev) None) l1.
Proof. intros R H E. exact (ctr_ok_split _ (ci_tr _ (creach_inv _ R H)) _ _ _ E). Qed.

(** No call begun after the right provider was first asked asks the left one for a block,
    and nothing at all is asked from the left one once it is dropped. *)
Theorem chain_no_way_back s l2 t o l1 : creach s -> ops_ok s ->
  c_tr s = l2 ++ VAsk t SL o :: l1 ->
  ((forall mc, o <> CClean mc) -> forall a b u o', l1 = a ++ VBegin t o :: b -> ~ In (VAsk u SR o') b) /\
  (forall u mc, ~ In (VDrop u mc) l1).
Proof.
  intros R H E. destruct (ctr_ok_split _ (ci_tr _ (creach_inv _ R H)) _ _ _ E) as [A B]. split.
  - intros Ho a b u o' Eab X. apply (A ltac:(destruct o; auto; destruct (Ho mc eq_refl)) a b Eab). exists u, o'. exact X.
  - intros u mc X. apply B. exists u, mc. exact X.
Qed.

(** The left provider is dropped only after its own successful cleanup, for a
    masterchain seqno above the last block it could give. *)
Theorem chain_drop_safe s l2 t mc l1 : creach s -> ops_ok s -> c_tr s = l2 ++ VDrop t mc :: l1 ->
  (exists v, In (VAns t SL (CClean mc) (Some v)) l1) /\
  exists prev u, In (VAns u SL (CNext prev) None) l1 /\ prev < mc.
Proof.
  intros R H E. destruct (ctr_ok_split _ (ci_tr _ (creach_inv _ R H)) _ _ _ E) as [A (pr&(u&B)&C)].
  split; [exact A|]. exists pr, u. auto.
Qed.

(** When a cleanup reached the right provider and returned, the left provider
    has been dropped, unless it was asked for a block not yet cleaned up. *)
Theorem chain_left_released s l2 t mc v l1 : creach s -> ops_ok s ->
  c_tr s = l2 ++ VRet t (CClean mc) (Some (SR, v)) :: l1 ->
  (exists u m, In (VDrop u m) l1) \/ exists prev u, In (VAns u SL (CNext prev) None) l1 /\ mc <= prev.
Proof.
  intros R H E. destruct (ctr_ok_split _ (ci_tr _ (creach_inv _ R H)) _ _ _ E) as [_ A].
  destruct (A mc eq_refl) as [D|(pr&(u&B)&C)]; [left; exact D|]. right. exists pr, u. auto.
Qed.

(** Answers are passed through unchanged; a get_next_block returns None only if
    the right provider answered None to it. *)
Theorem chain_answers s l2 t o r l1 : creach s -> ops_ok s -> c_tr s = l2 ++ VRet t o r :: l1 ->
  match r with
  | Some (x, v) => In (VAns t x o (Some v)) l1
  | None => (exists x, In (VAns t x o None) l1) /\ forall p, o = CNext p -> In (VAns t SR o None) l1
  end.
Proof.
  intros R H E. assert (A := ctr_ok_split _ (ci_tr _ (creach_inv _ R H)) _ _ _ E).
  destruct r as [[[] v]|]; cbn in A; [destruct o; exact A|destruct o; apply A|].
  destruct o as [p|b|m]; [split; [eauto|]; intros p0 X; injection X as ->; exact A| |];
    (split; [exact A|]); intros p0 X; discriminate X.
Qed.

(** Answers come only for requests that were made. *)
Theorem chain_asked_before_answer s l2 t x o r l1 : creach s -> ops_ok s ->
  c_tr s = l2 ++ VAns t x o r :: l1 -> In (VAsk t x o) l1.
Proof. intros R H E. exact (ctr_ok_split _ (ci_tr _ (creach_inv _ R H)) _ _ _ E). Qed.

Lemma cexec_reach s l s' : creach s -> cexec s l = Some s' -> creach s'.
Proof.
  revert s. induction l as [|a l IH]; cbn; intros s R E; [injection E as <-; exact R|].
  destruct (cstep s a) as [s1|] eqn:E1; [|discriminate]. eapply IH; [|exact E]. eapply creach1; eauto.
Qed.

Definition xrun : list clab :=
  [ACall (CNext 0); AStep 0%nat; AStep 0%nat; AAns 0%nat (Some 11); ACall (CNext 1); AStep 1%nat; AStep 1%nat; AAns 1%nat None;
     AStep 1%nat; ACall (CBlock 5); AStep 2%nat; AAns 2%nat (Some 7); ACall (CClean 1); AStep 3%nat; AAns 3%nat (Some 0); AAns 1%nat (Some 12);
     ACall (CClean 2); AStep 4%nat; AStep 4%nat; AAns 4%nat (Some 0); AStep 4%nat; AStep 4%nat; AAns 4%nat (Some 0)].
Definition xend : option cst := Eval vm_compute in cexec cst0 xrun.
Definition xfin : cst := Eval vm_compute in match xend with Some s => s | None => cst0 end.
Lemma xrun_eq : cexec cst0 xrun = Some xfin.
Proof. vm_cast_no_check (eq_refl (Some xfin)). Qed.
Definition xtr : list cev := Eval vm_compute in c_tr xfin.
Lemma xtr_eq : c_tr xfin = xtr.
Proof. vm_cast_no_check (eq_refl xtr). Qed.

(** Left gives block 1, has no block 2; the shard blocks of block 1 are already
    asked from the right provider (as the note in the strider says); the cleanup
    of 1 leaves left alone, the cleanup of 2 drops it. *)
Lemma chain_nonvacuous : exists s, creach s /\ ops_ok s /\
  In (VRet 0%nat (CNext 0) (Some (SL, 11))) (c_tr s) /\
  In (VAsk 2%nat SR (CBlock 5)) (c_tr s) /\
  In (VRet 3%nat (CClean 1) (Some (SR, 0))) (c_tr s) /\
  In (VDrop 4%nat 2) (c_tr s) /\ In (VRet 4%nat (CClean 2) (Some (SR, 0))) (c_tr s).
Proof.
  exists xfin. split; [exact (cexec_reach _ _ _ creach0 xrun_eq)|]. split.
  - unfold ops_ok, xfin. repeat constructor; unfold op_ok, pmax; cbn; lia.
  - rewrite xtr_eq. unfold xtr. repeat split; repeat (first [left; reflexivity|right]).
Qed.
