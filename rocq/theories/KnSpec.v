(** What the known peers shall be, and lists of handles.

    For every peer: nobody has a handle, it is banned for good, or it is known by an info and banned or
    not. And the handles that are there, each of a peer and perhaps with an affinity; clones of a handle
    share the affinity. *)
From Coq Require Import List Bool NArith Lia.
From Coq Require Import ZifyN ZifyBool.
From Verif Require Import KnModel.
Import ListNotations.
Local Open Scope N_scope.

(** [Nobody true]: the peer was banned when its last handle went; its entry is there but says nothing *)
Inductive peer_st := Nobody (entry_left : bool) | Forever | Live (i : info) (banned : bool).
Record spec := Sp { p_st : N -> peer_st; p_handles : handles N; p_hnext : N; p_wnext : N }.
Definition spec_new : spec := Sp (fun _ => Nobody false) [] 0 0.
Definition held (p : N) (l : handles N) : bool := existsb (fun e => snd (fst e) =? p) l.
Definition wanted (p : N) (l : handles N) : bool := existsb (fun e => (snd (fst e) =? p) && match snd e with Some _ => true | None => false end) l.
Definition set_st (p : N) (x : peer_st) (t : spec) : spec := Sp (upd p x (p_st t)) (p_handles t) (p_hnext t) (p_wnext t).
Definition set_hs (l : handles N) (t : spec) : spec := Sp (p_st t) l (p_hnext t) (p_wnext t).
Definition give (p : N) (g : option N) (t : spec) : result * spec :=
  (RHandle (p_hnext t), Sp (p_st t) (p_handles t ++ [(p_hnext t, p, g)]) (p_hnext t + 1) (p_wnext t)).
Definition give_new (p : N) (aff : bool) (t : spec) : result * spec :=
  if aff then give p (Some (p_wnext t)) (Sp (p_st t) (p_handles t) (p_hnext t) (p_wnext t + 1)) else give p None t.

Definition spec_step (t : spec) (o : op) : result * spec :=
  match o with
  | OInsert strict i aff =>
      let p := i_peer i in
      match p_st t p with
      | Forever | Live _ true => (RBanned, t)
      | Nobody _ => give_new p aff (set_st p (Live i false) t)
      | Live j false => if i_created i <? i_created j then (if strict then (ROutdated, t) else give_new p aff t)
                        else give_new p aff (if i_created j <? i_created i then set_st p (Live i false) t else t)
      end
  | OMake p aff => match p_st t p with
                   | Live _ b => if b && aff then (RNone, t) else give_new p aff t
                   | _ => (RNone, t)
                   end
  | OBan p => (RUnit, set_st p (match p_st t p with Live i _ => Live i true | _ => Forever end) t)
  | OFinish => (RUnit, t)
  | OHBan h => match hfind h (p_handles t) with
               | Some (p, _) => match p_st t p with Live i b => (RBool (negb b), set_st p (Live i true) t) | _ => (RUnit, t) end
               | None => (RUnit, t)
               end
  | OUpdate h i => match hfind h (p_handles t) with
                   | Some (p, _) => match p_st t p with
                                    | Live _ true => (RBanned, t)
                                    | Live j false => if i_created i <? i_created j then (ROutdated, t) else (RUnit, if i_created j <? i_created i then set_st p (Live i false) t else t)
                                    | _ => (RUnit, t)
                                    end
                   | None => (RUnit, t)
                   end
  | OInc h => match hfind h (p_handles t) with
              | Some (p, None) => (RBool true, Sp (p_st t) (hset h (Some (p_wnext t)) (p_handles t)) (p_hnext t) (p_wnext t + 1))
              | Some (_, Some _) => (RBool false, t)
              | None => (RUnit, t)
              end
  | ODec h => match hfind h (p_handles t) with
              | Some (p, Some _) => (RBool true, set_hs (hset h None (p_handles t)) t)
              | Some (_, None) => (RBool false, t)
              | None => (RUnit, t)
              end
  | OClone h => match hfind h (p_handles t) with Some (p, g) => give p g t | None => (RUnit, t) end
  | ODrop h => match hfind h (p_handles t) with
               | Some (p, _) =>
                   let t := set_hs (hrm h (p_handles t)) t in
                   (RUnit, if held p (p_handles t) then t else set_st p (match p_st t p with Live _ b => Nobody b | x => x end) t)
               | None => (RUnit, t)
               end
  end.
Fixpoint spec_exec (t : spec) (l : list op) : list result * spec :=
  match l with [] => ([], t) | o :: r => let '(a, t) := spec_step t o in let '(b, t) := spec_exec t r in (a :: b, t) end.

(** The calls that keep to the rules: an insert that asks for affinity is not refused as outdated; the affinity is
    taken only from a handle that shares it with no clone; an update is for the peer of the handle (an assertion of a debug build). *)
Definition safe (t : spec) (o : op) : Prop :=
  match o with
  | OInsert true i true => forall j b, p_st t (i_peer i) = Live j b -> i_created j <= i_created i
  | OUpdate h i => forall p g, hfind h (p_handles t) = Some (p, g) -> i_peer i = p
  | ODec h => forall p w, hfind h (p_handles t) = Some (p, Some w) -> grouped w (hrm h (p_handles t)) = false
  | _ => True
  end.
Fixpoint all_safe (t : spec) (l : list op) : Prop := match l with [] => True | o :: r => safe t o /\ all_safe (snd (spec_step t o)) r end.

(** what is seen *)
Definition sp_contains (t : spec) (p : N) : bool := match p_st t p with Nobody x => x | _ => true end.
Definition sp_banned (t : spec) (p : N) : bool := match p_st t p with Nobody _ => false | Forever => true | Live _ b => b end.
Definition sp_get (t : spec) (p : N) : option info := match p_st t p with Live i _ => Some i | _ => None end.
Definition sp_affinity (t : spec) (p : N) : option affinity :=
  match p_st t p with
  | Nobody _ => None
  | Forever | Live _ true => Some Never
  | Live _ false => Some (if wanted p (p_handles t) then High else Allowed)
  end.
Definition sp_info (t : spec) (h : N) : option (info * bool * affinity) :=
  match hfind h (p_handles t) with
  | Some (p, _) => match sp_get t p, sp_affinity t p with Some i, Some a => Some (i, sp_banned t p, a) | _, _ => None end
  | None => None
  end.

(** ** Lists of handles *)
Section Lists.
Context {A : Type}.
Implicit Types (l : handles A) (a : A) (g : option N).
Definition ids l : list N := map (fun e => fst (fst e)) l.
Lemma hfind_in h l a g : hfind h l = Some (a, g) -> In (h, a, g) l.
Proof.
  induction l as [|[[k b] x] l IH]; cbn [hfind]; [discriminate|]. destruct (N.eqb_spec k h) as [E|E]; [intros H; inversion H; subst; left; reflexivity|right; auto].
Qed.
Lemma hfind_none h l : hfind h l = None -> ~ In h (ids l).
Proof.
  induction l as [|[[k b] x] l IH]; cbn [hfind ids map fst]; [auto|]. destruct (N.eqb_spec k h) as [E|E]; [discriminate|]. intros H [F|F]; [auto|]. exact (IH H F).
Qed.
Lemma in_ids h a g l : In (h, a, g) l -> In h (ids l).
Proof. intros H. unfold ids. apply in_map_iff. exists (h, a, g). auto. Qed.
Lemma in_one h a g a' g' l : NoDup (ids l) -> In (h, a, g) l -> In (h, a', g') l -> a = a' /\ g = g'.
Proof.
  induction l as [|[[k b] x] l IH]; [intros _ []|]. cbn [ids map fst]. intros ND. inversion ND as [|? ? N1 N2]; subst.
  intros [H|H] [H'|H']; [split; congruence| | |apply IH; auto]; exfalso; apply N1.
  - inversion H; subst. exact (in_ids _ _ _ _ H').
  - inversion H'; subst. exact (in_ids _ _ _ _ H).
Qed.
Lemma in_hfind h a g l : NoDup (ids l) -> In (h, a, g) l -> hfind h l = Some (a, g).
Proof.
  intros ND IN. destruct (hfind h l) as [[b x]|] eqn:E.
  - apply hfind_in in E. destruct (in_one _ _ _ _ _ _ ND IN E) as (-> & ->). reflexivity.
  - elim (hfind_none _ _ E). exact (in_ids _ _ _ _ IN).
Qed.
Lemma in_hrm k a g h l : In (k, a, g) (hrm h l) <-> In (k, a, g) l /\ k <> h.
Proof. unfold hrm. rewrite filter_In. cbn [fst]. rewrite negb_true_iff, N.eqb_neq. tauto. Qed.
Lemma in_hset k a g h x l : In (k, a, g) (hset h x l) <-> (k = h /\ g = x /\ exists y, In (h, a, y) l) \/ (k <> h /\ In (k, a, g) l).
Proof.
  unfold hset. rewrite in_map_iff. split.
  - intros ([[k' b] y] & E & IN). cbn [fst] in E. destruct (N.eqb_spec k' h) as [F|F]; inversion E; subst; [left; eauto|right; auto].
  - intros [(-> & -> & y & IN)|(NE & IN)].
    + exists (h, a, y). cbn [fst]. rewrite N.eqb_refl. auto.
    + exists (k, a, g). cbn [fst]. rewrite (proj2 (N.eqb_neq _ _) NE). auto.
Qed.
Lemma ids_hset h x l : ids (hset h x l) = ids l.
Proof. unfold ids, hset. rewrite map_map. apply map_ext. intros [[k b] y]. cbn [fst]. destruct (k =? h); reflexivity. Qed.
Lemma ids_hrm h l : NoDup (ids l) -> NoDup (ids (hrm h l)).
Proof.
  induction l as [|[[k b] x] l IH]; [auto|]. cbn [ids map fst hrm filter]. intros ND. inversion ND as [|? ? N1 N2]; subst. destruct (negb (k =? h)); [|apply IH; auto].
  cbn [map fst]. constructor; [|apply IH; auto]. intros H. apply N1. unfold ids, hrm in *. apply in_map_iff in H. destruct H as ([[k' b'] x'] & E & IN). apply filter_In in IN. apply in_map_iff. exists (k', b', x'). tauto.
Qed.
Lemma grouped_in w l : grouped w l = true <-> exists k a, In (k, a, Some w) l.
Proof.
  unfold grouped. rewrite existsb_exists. split.
  - intros ([[k a] g] & IN & E). cbn [snd] in E. destruct g as [x|]; [|discriminate]. apply N.eqb_eq in E. subst. eauto.
  - intros (k & a & IN). exists (k, a, Some w). split; [exact IN|]. cbn [snd]. apply N.eqb_refl.
Qed.
End Lists.
Lemma held_in p l : held p l = true <-> exists k g, In (k, p, g) l.
Proof.
  unfold held. rewrite existsb_exists. split.
  - intros ([[k a] g] & IN & E). cbn [snd fst] in E. apply N.eqb_eq in E. subst. eauto.
  - intros (k & g & IN). exists (k, p, g). split; [exact IN|]. cbn [snd fst]. apply N.eqb_refl.
Qed.
Lemma wanted_in p l : wanted p l = true <-> exists k w, In (k, p, Some w) l.
Proof.
  unfold wanted. rewrite existsb_exists. split.
  - intros ([[k a] g] & IN & E). cbn [snd fst] in E. apply andb_true_iff in E. destruct E as (E & F). apply N.eqb_eq in E. subst. destruct g as [w|]; [eauto|discriminate].
  - intros (k & w & IN). exists (k, p, Some w). split; [exact IN|]. cbn [snd fst]. rewrite N.eqb_refl. reflexivity.
Qed.
Lemma upd_same {A} k (a : A) f : upd k a f k = a.
Proof. unfold upd. rewrite N.eqb_refl. reflexivity. Qed.
Lemma upd_other {A} k (a : A) f x : x <> k -> upd k a f x = f x.
Proof. intros NE. unfold upd. rewrite (proj2 (N.eqb_neq _ _) NE). reflexivity. Qed.

(** ** What holds of the specification *)
Record wf (t : spec) : Prop := {
  wf_ids : NoDup (ids (p_handles t));
  wf_live : forall h p g, In (h, p, g) (p_handles t) -> h < p_hnext t /\ exists i b, p_st t p = Live i b;
  wf_wid : forall h p w, In (h, p, Some w) (p_handles t) -> w < p_wnext t;
  wf_group : forall h p h' p' w, In (h, p, Some w) (p_handles t) -> In (h', p', Some w) (p_handles t) -> p = p';
  wf_held : forall p i b, p_st t p = Live i b -> i_peer i = p /\ exists h g, In (h, p, g) (p_handles t) }.
Lemma wf_new : wf spec_new.
Proof. split; cbn; try contradiction; [constructor|discriminate]. Qed.

Lemma in_snoc {A} (x y : A) l : In x (l ++ [y]) <-> In x l \/ x = y.
Proof. rewrite in_app_iff. cbn [In]. split; intros [H|H]; auto. destruct H as [H|[]]; auto. Qed.
(** a new handle of a live peer, or of one that is made live by it *)
Lemma wf_give t p g : wf t ->
  match g with Some w => (w = p_wnext t \/ exists h, In (h, p, Some w) (p_handles t)) | None => True end ->
  forall st n, (forall q, q <> p -> st q = p_st t q) -> (exists j c, st p = Live j c /\ i_peer j = p) -> p_wnext t <= n -> (forall w, g = Some w -> w < n) ->
  wf (Sp st (p_handles t ++ [(p_hnext t, p, g)]) (p_hnext t + 1) n).
Proof.
  intros [W1 W2 W3 W4 W5] G st n ST (j & c & SP & JP) LE LT. split; cbn [p_handles p_hnext p_wnext p_st].
  - unfold ids. rewrite map_app. cbn [map fst]. apply NoDup_rev in W1. rewrite <- (rev_involutive (map _ _ ++ _)), rev_app_distr. apply NoDup_rev. cbn [rev app]. constructor; [|exact W1].
    rewrite <- in_rev. intros H. apply in_map_iff in H. destruct H as ([[k a] y] & E & IN). cbn [fst] in E. apply W2 in IN. lia.
  - intros h q x IN. apply in_snoc in IN. destruct IN as [IN|IN].
    + destruct (W2 _ _ _ IN) as (L & i' & b' & E). split; [lia|]. destruct (N.eq_dec q p) as [F|F]; [subst q; eauto|rewrite (ST _ F); eauto].
    + inversion IN; subst. split; [lia|eauto].
  - intros h q w IN. apply in_snoc in IN. destruct IN as [IN|IN]; [specialize (W3 _ _ _ IN); lia|]. inversion IN; subst. auto.
  - intros h q h' q' w IN IN'. apply in_snoc in IN. apply in_snoc in IN'. destruct IN as [IN|IN], IN' as [IN'|IN'].
    + exact (W4 _ _ _ _ _ IN IN').
    + inversion IN'; subst. destruct G as [->|(k & G)]; [specialize (W3 _ _ _ IN); lia|exact (W4 _ _ _ _ _ IN G)].
    + inversion IN; subst. destruct G as [->|(k & G)]; [specialize (W3 _ _ _ IN'); lia|exact (W4 _ _ _ _ _ G IN')].
    + congruence.
  - intros q i' b' E. destruct (N.eq_dec q p) as [F|F].
    + subst q. rewrite SP in E. inversion E; subst. split; [reflexivity|]. exists (p_hnext t), g. apply in_snoc. auto.
    + rewrite (ST _ F) in E. destruct (W5 _ _ _ E) as (A & k & y & IN). split; [exact A|]. exists k, y. apply in_snoc. auto.
Qed.
Lemma wf_set t p x : wf t -> match x with Live i _ => i_peer i = p /\ (exists h g, In (h, p, g) (p_handles t)) | _ => forall h g, ~ In (h, p, g) (p_handles t) end -> wf (set_st p x t).
Proof.
  intros [W1 W2 W3 W4 W5] X. split; cbn [set_st p_handles p_hnext p_wnext p_st]; auto.
  - intros h q g IN. split; [apply (W2 _ _ _ IN)|]. destruct (N.eq_dec q p) as [F|F]; [subst q|rewrite upd_other by exact F; apply (W2 _ _ _ IN)].
    rewrite upd_same. destruct x; [elim (X _ _ IN)|elim (X _ _ IN)|eauto].
  - intros q i b E. destruct (N.eq_dec q p) as [F|F]; [subst q|rewrite upd_other in E by exact F; exact (W5 _ _ _ E)]. rewrite upd_same in E. subst x. exact X.
Qed.

Lemma held_dec p l : (held p l = true /\ exists k g, In (k, p, g) l) \/ (held p l = false /\ forall k g, ~ In (k, p, g) l).
Proof.
  destruct (held p l) eqn:E; [left|right]; split; auto; [apply held_in; exact E|]. intros k g IN. rewrite (proj2 (held_in p l)) in E; [discriminate|eauto].
Qed.
Lemma wf_give_new t p aff st : wf t -> (forall q, q <> p -> st q = p_st t q) -> (exists j c, st p = Live j c /\ i_peer j = p) ->
  wf (snd (give_new p aff (Sp st (p_handles t) (p_hnext t) (p_wnext t)))).
Proof.
  intros W ST L. unfold give_new, give. destruct aff; cbn [snd p_st p_handles p_hnext p_wnext]; apply wf_give; auto; try lia; intros w E; inversion E; lia.
Qed.
Lemma spec_eta t : Sp (p_st t) (p_handles t) (p_hnext t) (p_wnext t) = t.
Proof. destruct t; reflexivity. Qed.
Lemma wf_step t o : wf t -> safe t o -> wf (snd (spec_step t o)).
Proof.
  intros W S. pose proof W as W0. destruct W as [W1 W2 W3 W4 W5]. destruct o as [strict i aff|p aff|p|h|h i|h|h|h|h|]; cbn [spec_step].
  - assert (NEW : wf (snd (give_new (i_peer i) aff (set_st (i_peer i) (Live i false) t)))).
    { apply wf_give_new; [exact W0|intros q NE; apply upd_other; exact NE|]. rewrite upd_same. eauto. }
    destruct (p_st t (i_peer i)) as [lf| |j b] eqn:E; [exact NEW|exact W0|]. destruct b; [exact W0|]. destruct (W5 _ _ _ E) as (JP & _).
    assert (SAME : wf (snd (give_new (i_peer i) aff t))).
    { rewrite <- (spec_eta t) at 1. apply wf_give_new; [exact W0|auto|]. eauto. }
    destruct (i_created i <? i_created j); [destruct strict; [exact W0|exact SAME]|]. destruct (i_created j <? i_created i); [exact NEW|exact SAME].
  - destruct (p_st t p) as [lf| |j b] eqn:E; [exact W0|exact W0|]. destruct (b && aff); [exact W0|]. rewrite <- (spec_eta t) at 1. apply wf_give_new; [exact W0|auto|].
    destruct (W5 _ _ _ E) as (JP & _). eauto.
  - cbn [snd]. apply wf_set; [exact W0|]. destruct (p_st t p) as [lf| |j b] eqn:E; [| |exact (W5 _ _ _ E)]; intros h g IN; destruct (W2 _ _ _ IN) as (_ & i' & b' & F); congruence.
  - destruct (hfind h (p_handles t)) as [[p g]|]; [|exact W0]. destruct (p_st t p) as [lf| |j b] eqn:E; [exact W0|exact W0|]. cbn [snd]. apply wf_set; [exact W0|]. exact (W5 _ _ _ E).
  - destruct (hfind h (p_handles t)) as [[p g]|] eqn:H; [|exact W0]. destruct (p_st t p) as [lf| |j b] eqn:E; [exact W0|exact W0|]. destruct b; [exact W0|].
    destruct (i_created i <? i_created j); [exact W0|]. destruct (i_created j <? i_created i); [|exact W0]. cbn [snd]. apply wf_set; [exact W0|]. split; [exact (S _ _ H)|]. exact (proj2 (W5 _ _ _ E)).
  - destruct (hfind h (p_handles t)) as [[p [g|]]|] eqn:H; [exact W0| |exact W0]. apply hfind_in in H. cbn [snd]. split; cbn [p_handles p_hnext p_wnext p_st].
    + rewrite ids_hset. exact W1.
    + intros k q x IN. apply in_hset in IN. destruct IN as [(-> & -> & y & IN)|(NE & IN)]; eapply W2; exact IN.
    + intros k q w IN. apply in_hset in IN. destruct IN as [(-> & F & y & IN)|(NE & IN)]; [inversion F; lia|]. specialize (W3 _ _ _ IN). lia.
    + intros k q k' q' w IN IN'. apply in_hset in IN. apply in_hset in IN'. destruct IN as [(-> & F & y & IN)|(NE & IN)], IN' as [(-> & F' & y' & IN')|(NE' & IN')].
      * exact (proj1 (in_one _ _ _ _ _ _ W1 IN IN')).
      * inversion F; subst. specialize (W3 _ _ _ IN'). lia.
      * inversion F'; subst. specialize (W3 _ _ _ IN). lia.
      * exact (W4 _ _ _ _ _ IN IN').
    + intros q i b E. destruct (W5 _ _ _ E) as (A & k & y & IN). split; [exact A|]. destruct (N.eq_dec k h) as [F|F]; [|exists k, y; apply in_hset; auto].
      subst k. exists h, (Some (p_wnext t)). apply in_hset. left. eauto.
  - destruct (hfind h (p_handles t)) as [[p [g|]]|] eqn:H; [|exact W0|exact W0]. apply hfind_in in H. cbn [snd]. split; cbn [set_hs p_handles p_hnext p_wnext p_st].
    + rewrite ids_hset. exact W1.
    + intros k q x IN. apply in_hset in IN. destruct IN as [(-> & -> & y & IN)|(NE & IN)]; eapply W2; exact IN.
    + intros k q w IN. apply in_hset in IN. destruct IN as [(-> & F & y & IN)|(NE & IN)]; [discriminate|]. exact (W3 _ _ _ IN).
    + intros k q k' q' w IN IN'. apply in_hset in IN. apply in_hset in IN'. destruct IN as [(-> & F & y & IN)|(NE & IN)]; [discriminate|]. destruct IN' as [(-> & F' & y' & IN')|(NE' & IN')]; [discriminate|].
      exact (W4 _ _ _ _ _ IN IN').
    + intros q i b E. destruct (W5 _ _ _ E) as (A & k & y & IN). split; [exact A|]. destruct (N.eq_dec k h) as [F|F]; [|exists k, y; apply in_hset; auto].
      subst k. exists h, None. apply in_hset. left. eauto.
  - destruct (hfind h (p_handles t)) as [[p g]|] eqn:H; [|exact W0]. apply hfind_in in H. unfold give. cbn [snd]. apply wf_give; auto; try lia.
    + destruct g; [|exact I]. right. eauto.
    + destruct (W2 _ _ _ H) as (_ & i & b & E). exists i, b. split; [exact E|]. exact (proj1 (W5 _ _ _ E)).
    + intros w ->. exact (W3 _ _ _ H).
  - destruct (hfind h (p_handles t)) as [[p g]|] eqn:H; [|exact W0]. apply hfind_in in H. cbn [snd].
    assert (SUB : forall k q x, In (k, q, x) (hrm h (p_handles t)) -> In (k, q, x) (p_handles t)) by (intros k q x IN; apply in_hrm in IN; tauto).
    assert (OTHER : forall q i b, q <> p -> p_st t q = Live i b -> i_peer i = q /\ exists k y, In (k, q, y) (hrm h (p_handles t))).
    { intros q i b NE E. destruct (W5 _ _ _ E) as (A & k & y & IN). split; [exact A|]. exists k, y. apply in_hrm. split; [exact IN|]. intros ->. apply NE. exact (proj1 (in_one _ _ _ _ _ _ W1 IN H)). }
    destruct (held_dec p (p_handles (set_hs (hrm h (p_handles t)) t))) as [(HE & k & g' & IN)|(HE & NO)]; rewrite HE; cbn [set_hs p_handles] in *.
    + split; cbn [p_handles p_hnext p_wnext p_st]; [apply ids_hrm; exact W1|eauto|eauto|eauto|]. intros q i b E. destruct (N.eq_dec q p) as [F|F]; [|exact (OTHER _ _ _ F E)].
      subst q. split; [exact (proj1 (W5 _ _ _ E))|eauto].
    + split; cbn [set_st p_handles p_hnext p_wnext p_st].
      * apply ids_hrm; exact W1.
      * intros k q x IN. destruct (N.eq_dec q p) as [F|F]; [subst q; elim (NO _ _ IN)|]. rewrite upd_other by exact F. eauto.
      * eauto.
      * eauto.
      * intros q i b E. destruct (N.eq_dec q p) as [F|F]; [|rewrite upd_other in E by exact F; exact (OTHER _ _ _ F E)]. subst q. rewrite upd_same in E.
        destruct (W2 _ _ _ H) as (_ & i' & b' & F). cbn [set_hs p_st] in E. rewrite F in E. discriminate.
  - exact W0.
Qed.
