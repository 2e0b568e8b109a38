(** Which peers the node connects to, resolves and broadcasts to. *)
From Coq Require Import List Bool NArith Lia ZArith ZifyN ZifyNat ZifyBool.
From Verif Require Import PsModel PsSpec PsEpochs PsThms.
Import ListNotations.
Local Open Scope N_scope.

(** ** Lists *)

Lemma mem_del p q l : mem q (del p l) = mem q l && negb (q =? p).
Proof.
  unfold del. induction l as [|a l IH]; cbn [filter mem existsb]; [reflexivity|].
  unfold mem in *. destruct (N.eqb_spec a p) as [->|H]; cbn [negb existsb]; rewrite IH.
  - destruct (N.eqb_spec q p); cbn [orb negb andb]; [rewrite !andb_false_r; reflexivity|reflexivity].
  - destruct (N.eqb_spec q a) as [->|]; cbn [orb].
    + destruct (N.eqb_spec a p); [congruence|reflexivity].
    + reflexivity.
Qed.
Lemma mem_add p q l : mem q (add p l) = mem q l || (q =? p).
Proof.
  unfold add. destruct (mem p l) eqn:M.
  - destruct (N.eqb_spec q p) as [->|]; [rewrite M; reflexivity|rewrite orb_false_r; reflexivity].
  - unfold mem. cbn [existsb]. apply orb_comm.
Qed.
Lemma mem_dels ps q l : mem q (dels ps l) = mem q l && negb (mem q ps).
Proof.
  unfold dels. induction l as [|a l IH]; cbn [filter]; [reflexivity|].
  change (mem q (a :: l)) with ((q =? a) || mem q l).
  destruct (mem a ps) eqn:M; cbn [negb].
  - rewrite IH. destruct (N.eqb_spec q a) as [->|]; [rewrite M; cbn; apply andb_false_r|reflexivity].
  - change (mem q (a :: filter (fun q0 => negb (mem q0 ps)) l)) with ((q =? a) || mem q (filter (fun q0 => negb (mem q0 ps)) l)).
    rewrite IH. destruct (N.eqb_spec q a) as [->|]; cbn [orb]; [rewrite M; reflexivity|reflexivity].
Qed.
Lemma mem_nodup q l : mem q (nodup N.eq_dec l) = mem q l.
Proof. apply eq_true_iff_eq. rewrite !mem_In. apply nodup_In. Qed.
Lemma mem_app q a b : mem q (a ++ b) = mem q a || mem q b.
Proof. unfold mem. apply existsb_app. Qed.

Lemma look_put p b m q : look q (put p b m) = if q =? p then (if has p m then Some b else None) else look q m.
Proof.
  unfold has. induction m as [|[a c] m IH]; cbn [put map look fst].
  - destruct (q =? p); reflexivity.
  - unfold put in IH. destruct (N.eqb_spec a p) as [E1|H]; cbn [look].
    + destruct (N.eqb_spec q p) as [E2|H2].
      * assert (E3 : (q =? a) = true) by (apply N.eqb_eq; congruence). rewrite E3.
        assert (E4 : (p =? a) = true) by (apply N.eqb_eq; congruence). rewrite E4. reflexivity.
      * assert (E3 : (q =? a) = false) by (apply N.eqb_neq; congruence). rewrite E3. exact IH.
    + destruct (N.eqb_spec q a) as [E2|H2].
      * destruct (N.eqb_spec q p); [congruence|reflexivity].
      * rewrite IH. destruct (N.eqb_spec q p) as [E2|]; [|reflexivity].
        destruct (N.eqb_spec p a); [congruence|reflexivity].
Qed.
Lemma look_upd p b m q : look q (upd_sub p b m) = if q =? p then (if has p m then Some b else None) else look q m.
Proof.
  unfold upd_sub, differs. destruct (look p m) as [o|] eqn:L.
  - destruct (Bool.eqb o b) eqn:E; cbn [negb].
    + apply eqb_prop in E. subst o. destruct (N.eqb_spec q p) as [->|]; [|reflexivity].
      unfold has. rewrite L. reflexivity.
    + apply look_put.
  - destruct (N.eqb_spec q p) as [->|]; [|reflexivity]. unfold has. rewrite L. reflexivity.
Qed.
Lemma has_upd p b m q : has q (upd_sub p b m) = has q m.
Proof.
  unfold has. rewrite look_upd. destruct (N.eqb_spec q p) as [->|]; [|reflexivity].
  unfold has. destruct (look p m); reflexivity.
Qed.
Lemma has_put p b m q : has q (put p b m) = has q m.
Proof.
  unfold has. rewrite look_put. destruct (N.eqb_spec q p) as [->|]; [|reflexivity].
  unfold has. destruct (look p m); reflexivity.
Qed.
Lemma look_remove p m q : look q (e_remove p m) = if q =? p then None else look q m.
Proof.
  unfold e_remove. induction m as [|[a c] m IH]; cbn [filter look fst].
  - destruct (q =? p); reflexivity.
  - destruct (N.eqb_spec a p) as [->|H]; cbn [negb look].
    + rewrite IH. destruct (N.eqb_spec q p); reflexivity.
    + rewrite IH. destruct (N.eqb_spec q a) as [->|]; [|reflexivity].
      destruct (N.eqb_spec a p); [congruence|reflexivity].
Qed.
Lemma look_removes l : forall m q, look q (e_removes l m) = if mem q l then None else look q m.
Proof.
  induction l as [|p l IH]; intros m q; cbn [e_removes fold_left]; [reflexivity|].
  fold (e_removes l (e_remove p m)). rewrite IH, look_remove.
  change (mem q (p :: l)) with ((q =? p) || mem q l).
  destruct (q =? p); cbn [orb]; [destruct (mem q l); reflexivity|reflexivity].
Qed.
Lemma look_app q a b : look q (a ++ b) = match look q a with Some v => Some v | None => look q b end.
Proof.
  induction a as [|[c d] a IH]; cbn [app look]; [reflexivity|]. destruct (q =? c); [reflexivity|exact IH].
Qed.
Lemma look_insert net p m q : look q (e_insert net p m) =
  match look q m with Some v => Some v | None => if q =? p then Some (net p) else None end.
Proof.
  unfold e_insert, has. destruct (look p m) as [v|] eqn:L.
  - destruct (look q m) eqn:Q; [reflexivity|]. destruct (N.eqb_spec q p) as [->|]; [congruence|reflexivity].
  - rewrite look_app. reflexivity.
Qed.
Lemma look_of_peers all l q : look q (of_peers all l) = if mem q l then Some (mem q all) else None.
Proof.
  unfold of_peers. rewrite <- (mem_nodup q l).
  induction (nodup N.eq_dec l) as [|a m IH]; cbn [map look]; [reflexivity|].
  change (mem q (a :: m)) with ((q =? a) || mem q m).
  destruct (N.eqb_spec q a) as [->|]; cbn [orb]; [reflexivity|exact IH].
Qed.
Lemma has_of_peers all l q : has q (of_peers all l) = mem q l.
Proof. unfold has. rewrite look_of_peers. destruct (mem q l); reflexivity. Qed.

Lemma look_In m q b : look q m = Some b -> In (q, b) m.
Proof.
  induction m as [|[a c] m IH]; cbn [look]; [discriminate|].
  destruct (N.eqb_spec q a) as [->|]; [intros [= ->]; left; reflexivity|]. intros H. right. auto.
Qed.
Lemma In_has m q b : In (q, b) m -> has q m = true.
Proof.
  unfold has. induction m as [|[a c] m IH]; intros H; [destruct H|]. cbn [look].
  destruct (N.eqb_spec q a) as [->|N]; [reflexivity|].
  destruct H as [H|H]; [congruence|auto].
Qed.
Lemma In_look m q b : NoDup (keys m) -> In (q, b) m -> look q m = Some b.
Proof.
  induction m as [|[a c] m IH]; intros N H; [destruct H|]. cbn [look].
  cbn [keys map fst] in N. inversion N as [|? ? N1 N2]; subst.
  destruct H as [[= -> ->]|H].
  - rewrite N.eqb_refl. reflexivity.
  - destruct (N.eqb_spec q a) as [->|]; [|auto].
    exfalso. apply N1. apply (in_map fst) in H. exact H.
Qed.
Lemma has_mem m q : has q m = mem q (keys m).
Proof.
  unfold has, keys. induction m as [|[a c] m IH]; [reflexivity|]. cbn [look map fst].
  change (mem q (a :: map fst m)) with ((q =? a) || mem q (map fst m)).
  destruct (q =? a); [reflexivity|exact IH].
Qed.
Lemma nodup_remove p m : NoDup (keys m) -> NoDup (keys (e_remove p m)).
Proof.
  unfold keys, e_remove. induction m as [|[a c] m IH]; intros N; [constructor|].
  cbn [map fst] in N. inversion N as [|? ? N1 N2]; subst. cbn [filter fst].
  destruct (a =? p); cbn [negb map fst]; [auto|]. constructor; [|auto].
  intros H. apply N1. apply in_map_iff in H as ((b & d) & E & H). cbn [fst] in E. subst b.
  apply filter_In in H as [H _]. apply (in_map fst) in H. exact H.
Qed.
Lemma nodup_removes l : forall m, NoDup (keys m) -> NoDup (keys (e_removes l m)).
Proof.
  induction l as [|p l IH]; intros m N; cbn [e_removes fold_left]; [exact N|].
  apply (IH (e_remove p m)). apply nodup_remove. exact N.
Qed.
Lemma nodup_insert net p m : NoDup (keys m) -> NoDup (keys (e_insert net p m)).
Proof.
  intros N. unfold e_insert. destruct (has p m) eqn:H; [exact N|].
  unfold keys. rewrite map_app. cbn [map fst].
  rewrite has_mem in H.
  apply NoDup_rev in N. rewrite <- (rev_involutive (map fst m ++ [p])). apply NoDup_rev.
  rewrite rev_app_distr. cbn [rev app]. constructor; [|exact N].
  rewrite <- in_rev. intros I. apply mem_In in I. unfold keys in H. congruence.
Qed.
Lemma nodup_put p b m : NoDup (keys m) -> NoDup (keys (put p b m)).
Proof. rewrite keys_put. auto. Qed.
Lemma mem_resolved q m : NoDup (keys m) -> (mem q (resolved_of m) = true <-> look q m = Some true).
Proof.
  intros N. rewrite mem_In. unfold resolved_of. rewrite in_map_iff. split.
  - intros ((a & b) & E & H). cbn [fst] in E. subst a. apply filter_In in H as [H S]. cbn [snd] in S. subst b.
    apply In_look; assumption.
  - intros H. exists (q, true). split; [reflexivity|]. apply filter_In. split; [apply look_In; exact H|reflexivity].
Qed.

(** entries after the members of a set were inserted *)
Definition inserts (net : peer -> bool) (banned : list peer) (vs : list peer) (m : states) : states :=
  fold_left (fun m p => if mem p banned then m else e_insert net p m) vs m.
Lemma look_inserts net banned vs : forall m q,
  (look q m <> None -> look q (inserts net banned vs m) = look q m) /\
  has q (inserts net banned vs m) = has q m || (mem q vs && negb (mem q banned)).
Proof.
  induction vs as [|p vs IH]; intros m q; cbn [inserts fold_left].
  - split; [auto|]. cbn. rewrite orb_false_r. reflexivity.
  - fold (inserts net banned vs (if mem p banned then m else e_insert net p m)).
    destruct (IH (if mem p banned then m else e_insert net p m) q) as [A B].
    change (mem q (p :: vs)) with ((q =? p) || mem q vs).
    assert (C : look q m <> None -> look q (if mem p banned then m else e_insert net p m) = look q m).
    { intros H. destruct (mem p banned); [reflexivity|]. rewrite look_insert. destruct (look q m); [reflexivity|congruence]. }
    split.
    + intros H. rewrite A; [apply C; exact H|]. rewrite (C H). exact H.
    + rewrite B. destruct (mem p banned) eqn:M.
      * destruct (N.eqb_spec q p) as [->|]; cbn [orb]; [|reflexivity]. rewrite M. cbn. rewrite !andb_false_r. reflexivity.
      * assert (D : has q (e_insert net p m) = has q m || (q =? p)).
        { unfold has. rewrite look_insert. destruct (look q m); [reflexivity|]. destruct (q =? p); reflexivity. }
        rewrite D. destruct (N.eqb_spec q p) as [->|]; cbn [orb]; [rewrite M; rewrite !orb_true_r; reflexivity|].
        rewrite orb_false_r. reflexivity.
Qed.
Lemma nodup_inserts net banned vs : forall m, NoDup (keys m) -> NoDup (keys (inserts net banned vs m)).
Proof.
  induction vs as [|p vs IH]; intros m N; cbn [inserts fold_left]; [exact N|].
  apply IH. destruct (mem p banned); [exact N|apply nodup_insert; exact N].
Qed.

(** ** The invariant *)

Definition vs (x : ps) := f_vset (k_data (p_lock x)).
Definition sb (x : ps) := f_sub (k_data (p_lock x)).

Record dinv (author : peer) (d : ful) : Prop := {
  d_al : forall i p, p <> author -> has p (at_slot (f_sub d) i) = true -> has p (at_slot (f_vset d) i) = true;
  d_nd : forall i, NoDup (keys (at_slot (f_sub d) i));
  d_ra : forall p, look p (q2 (f_sub d)) = Some true \/ look p (q3 (f_sub d)) = Some true -> mem p (f_recv d) = true;
  d_rb : forall p, mem p (f_recv d) = true ->
           look p (q2 (f_sub d)) = Some true \/ look p (q3 (f_sub d)) = Some true \/
           (s_next (f_starts d) = None /\ has p (q1 (f_sub d)) = true);
  d_aut : in_any_vset d author = false;
  d_n3 : s_next (f_starts d) = None -> q3 (f_sub d) = [] }.

Record kinv (author : peer) (k : locked) : Prop := {
  n_d : dinv author (k_data k);
  n_ent : forall p, has p (k_entries k) = in_any_vset (k_data k) p && negb (mem p (k_banned k));
  n_ndE : NoDup (keys (k_entries k));
  n_res : forall i p, look p (at_slot (f_sub (k_data k)) i) = Some true ->
            look p (k_entries k) = Some true /\ p <> k_local k /\ p <> author;
  n_w1 : forall p, mem p (k_wait k) = true -> in_any_vset (k_data k) p = true /\ p <> k_local k;
  n_w2 : forall p, look p (k_entries k) = Some false -> p <> k_local k -> mem p (k_wait k) = true }.

(** *** setting a state *)

Definition upd_quad (p : peer) (b : bool) (q : quad states) : quad states :=
  Quad (upd_sub p b (q0 q)) (upd_sub p b (q1 q)) (upd_sub p b (q2 q)) (upd_sub p b (q3 q)).
Lemma at_upd p b q i : at_slot (upd_quad p b q) i = upd_sub p b (at_slot q i).
Proof. destruct i as [|[|[|i]]]; reflexivity. Qed.

Lemma set_state_facts d p b :
  f_vset (fst (set_state d p b)) = upd_quad p b (f_vset d) /\
  f_sub (fst (set_state d p b)) = upd_quad p b (f_sub d) /\
  f_starts (fst (set_state d p b)) = f_starts d /\
  (forall q, mem q (f_recv (fst (set_state d p b))) =
     if q =? p then (if differs p b (q2 (f_sub d)) || differs p b (q3 (f_sub d)) then b else mem p (f_recv d))
     else mem q (f_recv d)).
Proof.
  unfold set_state. cbv zeta.
  destruct (differs p b (q2 (f_sub d)) || differs p b (q3 (f_sub d))) eqn:R.
  - rewrite orb_true_r. cbn [fst f_vset f_sub f_starts f_recv]. repeat split.
    intros q. destruct b; [rewrite mem_add|rewrite mem_del]; destruct (N.eqb_spec q p) as [->|]; cbn [negb];
      rewrite ?orb_true_r, ?andb_false_r, ?orb_false_r, ?andb_true_r; reflexivity.
  - rewrite orb_false_r.
    assert (W : forall q, mem q (f_recv d) = if q =? p then mem p (f_recv d) else mem q (f_recv d)).
    { intros q. destruct (N.eqb_spec q p) as [->|]; reflexivity. }
    destruct (differs p b (q0 (f_sub d)) || differs p b (q1 (f_sub d))); cbn [fst f_vset f_sub f_starts f_recv]; repeat split; apply W.
Qed.

Lemma any_vset_upd d d' p b q : f_vset d' = upd_quad p b (f_vset d) -> in_any_vset d' q = in_any_vset d q.
Proof. intros E. unfold in_any_vset. rewrite E. cbn [upd_quad q0 q1 q2 q3]. rewrite !has_upd. reflexivity. Qed.

Lemma differs_look p b m : differs p b m = false -> has p m = true -> look p m = Some b.
Proof.
  unfold differs, has. destruct (look p m) as [o|]; [|discriminate].
  intros H _. apply negb_false_iff in H. apply eqb_prop in H. congruence.
Qed.

Lemma set_state_dinv author d p b : dinv author d -> dinv author (fst (set_state d p b)).
Proof.
  intros [A N RA RB AU N3]. destruct (set_state_facts d p b) as (V & S & ST & R).
  set (d' := fst (set_state d p b)) in *. constructor.
  - intros i q HQ. rewrite S, V, !at_upd, !has_upd. apply A. exact HQ.
  - intros i. rewrite S, at_upd, keys_upd. apply N.
  - intros q. rewrite S. cbn [upd_quad q2 q3]. rewrite !look_upd, R.
    destruct (N.eqb_spec q p) as [->|]; [|apply RA]. intros H.
    destruct (differs p b (q2 (f_sub d)) || differs p b (q3 (f_sub d))) eqn:D.
    + destruct H as [H|H]; [destruct (has p (q2 (f_sub d))); congruence|destruct (has p (q3 (f_sub d))); congruence].
    + apply orb_false_iff in D as [D2 D3]. apply RA.
      destruct H as [H|H].
      * destruct (has p (q2 (f_sub d))) eqn:Q; [|discriminate]. left. rewrite (differs_look _ _ _ D2 Q). exact H.
      * destruct (has p (q3 (f_sub d))) eqn:Q; [|discriminate]. right. rewrite (differs_look _ _ _ D3 Q). exact H.
  - intros q. rewrite S, R, ST. cbn [upd_quad q1 q2 q3]. rewrite !look_upd, has_upd.
    destruct (N.eqb_spec q p) as [->|]; [|apply RB]. intros H.
    destruct (differs p b (q2 (f_sub d)) || differs p b (q3 (f_sub d))) eqn:D.
    + subst b. apply orb_true_iff in D as [D|D]; unfold differs in D.
      * left. unfold has. destruct (look p (q2 (f_sub d))); [reflexivity|discriminate].
      * right; left. unfold has. destruct (look p (q3 (f_sub d))); [reflexivity|discriminate].
    + apply orb_false_iff in D as [D2 D3]. destruct (RB p H) as [Q|[Q|Q]]; [| |auto].
      * left. assert (Hs : has p (q2 (f_sub d)) = true) by (unfold has; rewrite Q; reflexivity).
        rewrite Hs. rewrite <- (differs_look _ _ _ D2 Hs). exact Q.
      * right; left. assert (Hs : has p (q3 (f_sub d)) = true) by (unfold has; rewrite Q; reflexivity).
        rewrite Hs. rewrite <- (differs_look _ _ _ D3 Hs). exact Q.
  - rewrite (any_vset_upd d d' p b author V). exact AU.
  - rewrite ST, S. intros H. cbn [upd_quad q3]. rewrite (N3 H). reflexivity.
Qed.

(** *** bans *)

Lemma ban_one_kinv author kb p : kinv author (fst kb) -> kinv author (fst (ban_one kb p)).
Proof.
  destruct kb as [k need]. cbn [fst]. intros [D E ND RS W1 W2]. unfold ban_one.
  destruct (in_any_vset (k_data k) p) eqn:V.
  - pose proof (set_state_dinv author (k_data k) p false D) as D'.
    destruct (set_state_facts (k_data k) p false) as (FV & FS & FT & FR).
    destruct (set_state (k_data k) p false) as [d ok]. cbn [fst] in *.
    constructor; cbn [k_data k_entries k_banned k_wait k_local].
    + exact D'.
    + intros q. rewrite (any_vset_upd (k_data k) d p false q FV), mem_add. unfold has. rewrite look_remove.
      destruct (N.eqb_spec q p) as [->|].
      * rewrite orb_true_r, andb_false_r. reflexivity.
      * rewrite orb_false_r. exact (E q).
    + apply nodup_remove. exact ND.
    + intros i q. rewrite FS, at_upd, look_upd. rewrite look_remove.
      destruct (N.eqb_spec q p) as [->|]; [|apply RS]. destruct (has p _); discriminate.
    + intros q Q. rewrite (any_vset_upd (k_data k) d p false q FV). exact (W1 q Q).
    + intros q. rewrite look_remove. destruct (N.eqb_spec q p); [discriminate|]. apply W2.
  - cbn [fst]. constructor; cbn [k_data k_entries k_banned k_wait k_local].
    + exact D.
    + intros q. rewrite mem_add. unfold has. rewrite look_remove.
      destruct (N.eqb_spec q p) as [->|].
      * rewrite orb_true_r, andb_false_r. reflexivity.
      * rewrite orb_false_r. exact (E q).
    + apply nodup_remove. exact ND.
    + intros i q H. destruct (RS i q H) as (A & B & C). rewrite look_remove.
      destruct (N.eqb_spec q p) as [->|]; [|auto].
      exfalso. assert (has p (k_entries k) = true) by (unfold has; rewrite A; reflexivity).
      rewrite (E p), V in H0. discriminate.
    + exact W1.
    + intros q. rewrite look_remove. destruct (N.eqb_spec q p); [discriminate|]. apply W2.
Qed.

Lemma fold_kinv author (f : locked * bool -> peer -> locked * bool) l :
  (forall kb p, In p l -> kinv author (fst kb) -> kinv author (fst (f kb p))) ->
  forall kb, kinv author (fst kb) -> kinv author (fst (fold_left f l kb)).
Proof.
  intros H. induction l as [|p l IH]; intros kb K; cbn [fold_left]; [exact K|].
  apply IH; [intros kb' q Q; apply H; right; exact Q|]. apply H; [left; reflexivity|exact K].
Qed.

Lemma waiters_in m local p : NoDup (keys m) ->
  (mem p (resolved_waiters m local) = true <-> look p m = Some false /\ p <> local).
Proof.
  intros N. rewrite mem_In. unfold resolved_waiters. rewrite in_map_iff. split.
  - intros ((a & b) & E & H). cbn [fst] in E. subst a. apply filter_In in H as [H F]. cbn [fst snd] in F.
    apply negb_true_iff, orb_false_iff in F as [F1 F2]. subst b. apply N.eqb_neq in F1.
    split; [apply In_look; assumption|exact F1].
  - intros [H L]. exists (p, false). split; [reflexivity|]. apply filter_In. split; [apply look_In; exact H|].
    cbn [fst snd]. apply N.eqb_neq in L. rewrite L. reflexivity.
Qed.

Lemma new_task_kinv author k : kinv author k -> kinv author (new_task k).
Proof.
  intros [D E ND RS W1 W2]. constructor; cbn [new_task k_data k_entries k_banned k_wait k_local]; auto.
  - intros p H. apply (waiters_in _ _ _ ND) in H as [H L]. split; [|exact L].
    assert (X : has p (k_entries k) = true) by (unfold has; rewrite H; reflexivity).
    rewrite (E p) in X. apply andb_true_iff in X. apply X.
  - intros p H L. apply (waiters_in _ _ _ ND). auto.
Qed.

Lemma set_banned_kinv author k l : kinv author k -> kinv author (set_banned_k k l).
Proof.
  intros K. unfold set_banned_k.
  pose proof (fold_kinv author ban_one l (fun kb p _ => ban_one_kinv author kb p) (k, false) K) as F.
  destruct (fold_left ban_one l (k, false)) as [k1 need]. cbn [fst] in F.
  destruct need; [apply new_task_kinv|]; exact F.
Qed.

Lemma local_ban_one kb p : k_local (fst (ban_one kb p)) = k_local (fst kb).
Proof.
  destruct kb as [k need]. unfold ban_one. cbn [fst]. destruct (in_any_vset _ _); [|reflexivity].
  destruct (set_state _ _ _). reflexivity.
Qed.
Lemma local_unban_one net kb p : k_local (fst (unban_one net kb p)) = k_local (fst kb).
Proof.
  destruct kb as [k need]. unfold unban_one. cbn [fst]. destruct (in_any_vset _ _); [|reflexivity].
  destruct (look _ _) as [[|]|]; try reflexivity. destruct (set_state _ _ _). reflexivity.
Qed.

(** Unbanning goes through intermediate states in which a new entry is not waited for yet, so
    the waiting part of the invariant is relaxed to "or a new task is due". *)
Record uinv (author : peer) (kb : locked * bool) : Prop := {
  u_d : dinv author (k_data (fst kb));
  u_ent : forall p, has p (k_entries (fst kb)) = in_any_vset (k_data (fst kb)) p && negb (mem p (k_banned (fst kb)));
  u_ndE : NoDup (keys (k_entries (fst kb)));
  u_res : forall i p, look p (at_slot (f_sub (k_data (fst kb))) i) = Some true ->
            look p (k_entries (fst kb)) = Some true /\ p <> k_local (fst kb) /\ p <> author;
  u_w1 : forall p, mem p (k_wait (fst kb)) = true -> in_any_vset (k_data (fst kb)) p = true /\ p <> k_local (fst kb);
  u_w2 : snd kb = true \/ forall p, look p (k_entries (fst kb)) = Some false -> p <> k_local (fst kb) -> mem p (k_wait (fst kb)) = true }.

Lemma unban_one_uinv author net kb p : p <> k_local (fst kb) -> uinv author kb -> uinv author (unban_one net kb p).
Proof.
  destruct kb as [k need]. cbn [fst snd]. intros PL [D E ND RS W1 W2]. cbn [fst snd] in *. unfold unban_one.
  destruct (in_any_vset (k_data k) p) eqn:V.
  - assert (PA : p <> author) by (intros ->; rewrite (d_aut _ _ D) in V; discriminate).
    set (e := e_insert net p (k_entries k)).
    assert (HE : forall q, has q e = in_any_vset (k_data k) q && negb (mem q (del p (k_banned k)))).
    { intros q. unfold e, has. rewrite look_insert, mem_del. specialize (E q). unfold has in E.
      destruct (N.eqb_spec q p) as [->|].
      - rewrite V. cbn [negb]. rewrite andb_false_r. cbn [negb andb]. destruct (look p (k_entries k)); reflexivity.
      - cbn [negb]. rewrite andb_true_r. rewrite <- E. destruct (look q (k_entries k)); reflexivity. }
    assert (KE : forall q b, look q (k_entries k) = Some b -> look q e = Some b).
    { intros q b H. unfold e. rewrite look_insert, H. reflexivity. }
    destruct (look p e) as [b|] eqn:LP.
    2:{ exfalso. specialize (HE p). unfold has in HE. rewrite LP, V, mem_del, N.eqb_refl in HE. cbn in HE.
        rewrite andb_false_r in HE. discriminate. }
    destruct b.
    + pose proof (set_state_dinv author (k_data k) p true D) as D'.
      destruct (set_state_facts (k_data k) p true) as (FV & FS & FT & FR).
      destruct (set_state (k_data k) p true) as [d ok]. cbn [fst] in *.
      constructor; cbn [fst snd k_data k_entries k_banned k_wait k_local].
      * exact D'.
      * intros q. rewrite (any_vset_upd (k_data k) d p true q FV). apply HE.
      * apply nodup_insert. exact ND.
      * intros i q. rewrite FS, at_upd, look_upd.
        destruct (N.eqb_spec q p) as [->|]; [intros _; auto|].
        intros H. destruct (RS i q H) as (A & B & C). auto.
      * intros q Q. rewrite (any_vset_upd (k_data k) d p true q FV). exact (W1 q Q).
      * destruct W2 as [W2|W2]; [left; exact W2|right].
        intros q H L. apply W2; [|exact L]. unfold e in H. rewrite look_insert in H.
        destruct (look q (k_entries k)) eqn:Q; [exact H|].
        destruct (N.eqb_spec q p) as [->|]; [|discriminate]. fold e in LP. unfold e in LP. rewrite look_insert, Q, N.eqb_refl in LP.
        congruence.
    + constructor; cbn [fst snd k_data k_entries k_banned k_wait k_local].
      * exact D.
      * exact HE.
      * apply nodup_insert. exact ND.
      * intros i q H. destruct (RS i q H) as (A & B & C). auto.
      * exact W1.
      * left. reflexivity.
  - constructor; cbn [fst snd k_data k_entries k_banned k_wait k_local]; auto.
    intros q. rewrite mem_del. destruct (N.eqb_spec q p) as [->|].
    + rewrite V. cbn [andb]. rewrite (E p), V. reflexivity.
    + cbn [negb]. rewrite andb_true_r. apply E.
Qed.

Lemma remove_bans_kinv author net k l : ~ In (k_local k) l -> kinv author k -> kinv author (remove_bans_k net k l).
Proof.
  intros NL K. unfold remove_bans_k.
  assert (F : forall l0 kb, k_local (fst kb) = k_local k -> ~ In (k_local k) l0 -> uinv author kb ->
                uinv author (fold_left (unban_one net) l0 kb)).
  { induction l0 as [|p l0 IH]; intros kb LK N U; cbn [fold_left]; [exact U|].
    apply IH.
    - rewrite local_unban_one. exact LK.
    - intros H. apply N. right. exact H.
    - apply unban_one_uinv; [|exact U]. rewrite LK. intros ->. apply N. left. reflexivity. }
  assert (U0 : uinv author (k, false)).
  { destruct K as [D E ND RS W1 W2]. constructor; auto. }
  specialize (F l (k, false) eq_refl NL U0).
  destruct (fold_left (unban_one net) l (k, false)) as [k1 need]. destruct F as [D E ND RS W1 W2]. cbn [fst snd] in *.
  destruct need.
  - constructor; cbn [new_task k_data k_entries k_banned k_wait k_local]; auto.
    + intros p H. apply (waiters_in _ _ _ ND) in H as [H L]. split; [|exact L].
      assert (X : has p (k_entries k1) = true) by (unfold has; rewrite H; reflexivity).
      rewrite (E p) in X. apply andb_true_iff in X. apply X.
    + intros p H L. apply (waiters_in _ _ _ ND). auto.
  - destruct W2 as [W2|W2]; [discriminate|]. constructor; auto.
Qed.

(** *** the network and the task *)

Lemma net_kinv author x p : kinv author (p_lock x) -> kinv author (p_lock (net_resolves x p)).
Proof.
  intros [D E ND RS W1 W2]. constructor; cbn [net_resolves p_lock k_data k_entries k_banned k_wait k_local].
  - exact D.
  - intros q. rewrite has_put. apply E.
  - apply nodup_put. exact ND.
  - intros i q H. destruct (RS i q H) as (A & B & C). rewrite look_put.
    destruct (N.eqb_spec q p) as [->|]; [|auto]. unfold has. rewrite A. auto.
  - exact W1.
  - intros q. rewrite look_put. destruct (N.eqb_spec q p) as [->|]; [|apply W2].
    destruct (has p (k_entries (p_lock x))); discriminate.
Qed.

Lemma task_kinv author x p : can_fire (p_lock x) p = true -> kinv author (p_lock x) -> kinv author (p_lock (task_fires x p)).
Proof.
  intros CF K. pose proof K as [D E ND RS W1 W2]. unfold can_fire in CF. apply andb_true_iff in CF as [CW CL].
  destruct (W1 p CW) as [PV PL].
  assert (PA : p <> author) by (intros ->; rewrite (d_aut _ _ D) in PV; discriminate).
  unfold task_fires. cbv zeta. cbn [p_lock].
  destruct (mem p (k_banned (p_lock x))) eqn:B.
  - assert (NE : look p (k_entries (p_lock x)) = None).
    { specialize (E p). unfold has in E. rewrite B, andb_false_r in E. destruct (look p (k_entries (p_lock x))); [discriminate|reflexivity]. }
    constructor; cbn [k_data k_entries k_banned k_wait k_local].
    + exact D.
    + intros q. unfold has. rewrite look_remove. destruct (N.eqb_spec q p) as [->|]; [rewrite B, andb_false_r; reflexivity|apply E].
    + apply nodup_remove. exact ND.
    + intros i q H. destruct (RS i q H) as (A1 & A2 & A3). rewrite look_remove.
      destruct (N.eqb_spec q p) as [->|]; [congruence|auto].
    + intros q. rewrite mem_del. intros H. apply andb_true_iff in H as [H _]. apply W1. exact H.
    + intros q. rewrite look_remove, mem_del. destruct (N.eqb_spec q p) as [->|]; [discriminate|].
      intros H L. rewrite (W2 q H L). reflexivity.
  - assert (EP : look p (k_entries (p_lock x)) = Some true).
    { specialize (E p). rewrite PV, B in E. cbn in E. unfold has in E.
      destruct (look p (k_entries (p_lock x))) as [[|]|]; [reflexivity|discriminate|discriminate]. }
    unfold set_resolved. cbn [k_data k_local k_entries k_wait k_banned k_sent].
    pose proof (set_state_dinv author (k_data (p_lock x)) p true D) as D'.
    destruct (set_state_facts (k_data (p_lock x)) p true) as (FV & FS & FT & FR).
    destruct (set_state (k_data (p_lock x)) p true) as [d ok]. cbn [fst] in *.
    constructor; cbn [k_data k_entries k_banned k_wait k_local].
    + exact D'.
    + intros q. rewrite (any_vset_upd (k_data (p_lock x)) d p true q FV). apply E.
    + exact ND.
    + intros i q. rewrite FS, at_upd, look_upd. destruct (N.eqb_spec q p) as [->|]; [intros _; auto|apply RS].
    + intros q. rewrite mem_del, (any_vset_upd (k_data (p_lock x)) d p true q FV). intros H.
      apply andb_true_iff in H as [H _]. apply W1. exact H.
    + intros q H L. rewrite mem_del. destruct (N.eqb_spec q p) as [->|]; [congruence|]. rewrite (W2 q H L). reflexivity.
Qed.

(** *** new sets *)

(** the data after [set_next_set], as far as the subsets are concerned only the vset slot 3 changes *)
Lemma set_next_set_shape net k v :
  let e := inserts net (k_banned k) v (k_entries k) in
  let all := map fst (filter (fun y => snd y && negb (fst y =? k_local k)) e) in
  let k' := set_next_set net k v in
  let fg := filter (fun p => negb (has p (q0 (f_vset (k_data k))) || has p (q1 (f_vset (k_data k))) ||
                                   has p (q2 (f_vset (k_data k))) || has p (of_peers all v))) (map fst (q3 (f_vset (k_data k)))) in
  k_local k' = k_local k /\ k_banned k' = k_banned k /\ k_entries k' = e_removes fg e /\
  k_wait k' = resolved_waiters (e_removes fg e) (k_local k) /\
  f_vset (k_data k') = Quad (q0 (f_vset (k_data k))) (q1 (f_vset (k_data k))) (q2 (f_vset (k_data k))) (of_peers all v) /\
  f_sub (k_data k') = f_sub (k_data k) /\ f_starts (k_data k') = f_starts (k_data k) /\
  f_recv (k_data k') = dels fg (f_recv (k_data k)) /\ f_all (k_data k') = all.
Proof. cbn zeta. unfold set_next_set, inserts. cbv zeta. unfold set_next_validator_set. repeat split. Qed.

Lemma mem_filter (f : peer -> bool) p l : mem p (filter f l) = mem p l && f p.
Proof.
  apply eq_true_iff_eq. rewrite andb_true_iff, !mem_In. apply filter_In.
Qed.

(** after new validators were put into slot 3, entries are again the unbanned validators *)
Lemma next_entries author net k v : kinv author k -> mem author v = false ->
  let k' := set_next_set net k v in
  (forall p, has p (k_entries k') = in_any_vset (k_data k') p && negb (mem p (k_banned k'))) /\
  NoDup (keys (k_entries k')) /\
  (forall p, look p (k_entries k) = Some true -> in_any_vset (k_data k') p = true -> look p (k_entries k') = Some true) /\
  (forall p, mem p (f_all (k_data k')) = true -> mem p v = true -> look p (k_entries k') = Some true /\ p <> k_local k) /\
  in_any_vset (k_data k') author = false /\
  (forall p, mem p (k_wait k') = true -> in_any_vset (k_data k') p = true /\ p <> k_local k') /\
  (forall p, look p (k_entries k') = Some false -> p <> k_local k' -> mem p (k_wait k') = true).
Proof.
  intros [D E ND RS W1 W2] AV. cbn zeta.
  destruct (set_next_set_shape net k v) as (S1 & S2 & S3 & S4 & S5 & S6 & S7 & S8 & S9).
  set (k' := set_next_set net k v) in *.
  set (e := inserts net (k_banned k) v (k_entries k)) in *.
  set (all := map fst (filter (fun y => snd y && negb (fst y =? k_local k)) e)) in *.
  match type of S3 with k_entries k' = e_removes ?f e => set (fg := f) in * end.
  assert (NE : NoDup (keys e)) by (apply nodup_inserts; exact ND).
  assert (FG : forall p, mem p fg = has p (q3 (f_vset (k_data k))) &&
                negb (has p (q0 (f_vset (k_data k))) || has p (q1 (f_vset (k_data k))) || has p (q2 (f_vset (k_data k))) || mem p v)).
  { intros p. unfold fg. rewrite mem_filter. fold (keys (q3 (f_vset (k_data k)))). rewrite <- has_mem, has_of_peers. reflexivity. }
  assert (AN : forall p, in_any_vset (k_data k') p =
                has p (q0 (f_vset (k_data k))) || has p (q1 (f_vset (k_data k))) || has p (q2 (f_vset (k_data k))) || mem p v).
  { intros p. unfold in_any_vset. rewrite S5. cbn [q0 q1 q2 q3]. rewrite has_of_peers. reflexivity. }
  assert (HE : forall p, has p (k_entries k') = in_any_vset (k_data k') p && negb (mem p (k_banned k'))).
  { intros p. rewrite S3, S2, AN. unfold has. rewrite look_removes.
    pose proof (proj2 (look_inserts net (k_banned k) v (k_entries k) p)) as HI. fold e in HI. unfold has in HI.
    pose proof (E p) as EP. unfold has in EP. rewrite EP in HI.
    unfold in_any_vset in HI. fold (has p (q0 (f_vset (k_data k)))) (has p (q1 (f_vset (k_data k)))) (has p (q2 (f_vset (k_data k)))) in *.
    specialize (FG p). rewrite FG. clear - HI.
    destruct (has p (q0 (f_vset (k_data k)))), (has p (q1 (f_vset (k_data k)))), (has p (q2 (f_vset (k_data k)))),
      (has p (q3 (f_vset (k_data k)))), (mem p v), (mem p (k_banned k)), (look p e); cbn in *; congruence. }
  assert (NE' : NoDup (keys (k_entries k'))) by (rewrite S3; apply nodup_removes; exact NE).
  split; [exact HE|]. split; [exact NE'|]. split.
  { intros p L V. rewrite S3, look_removes.
    assert (M : mem p fg = false).
    { rewrite FG. rewrite AN in V. rewrite V. cbn [negb]. apply andb_false_r. }
    rewrite M. unfold e. rewrite (proj1 (look_inserts net (k_banned k) v (k_entries k) p)); [exact L|congruence]. }
  split.
  { intros p A V. rewrite S9 in A. unfold all in A. apply mem_In in A. apply in_map_iff in A as ((a & b) & EQ & A).
    cbn [fst] in EQ. subst a. apply filter_In in A as [A F]. cbn [fst snd] in F. apply andb_true_iff in F as [F1 F2]. subst b.
    apply negb_true_iff, N.eqb_neq in F2. split; [|exact F2].
    rewrite S3, look_removes. rewrite FG, V, orb_true_r. cbn [negb]. rewrite andb_false_r. apply In_look; assumption. }
  split.
  { rewrite AN, AV. pose proof (d_aut _ _ D) as Q. unfold in_any_vset in Q.
    apply orb_false_iff in Q as [Q _]. rewrite Q. reflexivity. }
  split.
  - intros p H. rewrite S4 in H. rewrite <- S3 in H. rewrite S1. apply (waiters_in _ _ _ NE') in H as [H L].
    split; [|exact L]. assert (X : has p (k_entries k') = true) by (unfold has; rewrite H; reflexivity).
    rewrite HE in X. apply andb_true_iff in X. apply X.
  - intros p H L. rewrite S4, <- S3. rewrite S1 in L. apply (waiters_in _ _ _ NE'). auto.
Qed.

(** a new whole set without a subset: only while no next epoch is scheduled *)
Lemma next_vset_kinv author net x v : kinv author (p_lock x) -> mem author v = false ->
  s_next (f_starts (k_data (p_lock x))) = None -> kinv author (p_lock (next_vset net x v)).
Proof.
  intros K AV SN. pose proof K as [D E ND RS W1 W2]. cbn [next_vset p_lock].
  destruct (next_entries author net (p_lock x) v K AV) as (N1 & N2 & N3 & N4 & N5 & N6 & N7).
  destruct (set_next_set_shape net (p_lock x) v) as (S1 & S2 & S3 & S4 & S5 & S6 & S7 & S8 & S9).
  set (k' := set_next_set net (p_lock x) v) in *.
  pose proof (d_n3 _ _ D SN) as E3.
  assert (AL : forall i p, p <> author -> has p (at_slot (f_sub (k_data k')) i) = true -> has p (at_slot (f_vset (k_data k')) i) = true).
  { intros i p PA. rewrite S6, S5. destruct i as [|[|[|i]]]; cbn [at_slot q0 q1 q2 q3].
    - apply (d_al _ _ D 0%nat p PA).
    - apply (d_al _ _ D 1%nat p PA).
    - apply (d_al _ _ D 2%nat p PA).
    - rewrite E3. discriminate. }
  assert (SUBV : forall i p, p <> author -> has p (at_slot (f_sub (k_data k')) i) = true -> in_any_vset (k_data k') p = true).
  { intros i p PA H. apply (AL i p PA) in H. unfold in_any_vset.
    destruct i as [|[|[|i]]]; cbn [at_slot] in H; rewrite H, ?orb_true_r; reflexivity. }
  constructor.
  - constructor.
    + exact AL.
    + intros i. rewrite S6. apply (d_nd _ _ D).
    + intros p H. rewrite S6 in H. rewrite S8, mem_dels, mem_filter.
      assert (V2 : look p (q2 (f_sub (k_data (p_lock x)))) = Some true) by (destruct H as [H|H]; [exact H|rewrite E3 in H; discriminate]).
      destruct (RS 2%nat p V2) as (_ & _ & PA).
      assert (HV : has p (q2 (f_vset (k_data (p_lock x)))) = true).
      { apply (d_al _ _ D 2%nat p PA). cbn [at_slot]. unfold has. rewrite V2. reflexivity. }
      rewrite HV. rewrite (d_ra _ _ D p H). rewrite orb_true_r. cbn [orb negb]. rewrite andb_false_r. reflexivity.
    + intros p H. rewrite S8, mem_dels in H. apply andb_true_iff in H as [H _]. rewrite S6, S7. exact (d_rb _ _ D p H).
    + exact N5.
    + intros _. rewrite S6. exact E3.
  - exact N1.
  - exact N2.
  - intros i p H. rewrite S6 in H. destruct (RS i p H) as (A & B & C). rewrite S1. repeat split; try assumption.
    apply N3; [exact A|]. apply (SUBV i p C). rewrite S6. unfold has. rewrite H. reflexivity.
  - exact N6.
  - exact N7.
Qed.

(** an epoch is usable if its working validators are in its whole set, without the genesis author *)
Definition usable (author : peer) (e : epoch) : Prop :=
  mem author (e_vset e) = false /\ forall p, mem p (members e) = true -> mem p (e_vset e) = true.

Lemma schedule_kinv author net x e : kinv author (p_lock x) -> usable author e ->
  kinv author (p_lock (set_next_subset net x e)).
Proof.
  intros K [AV SUB]. unfold set_next_subset. destruct (_ || _); [exact K|]. cbn [p_lock].
  pose proof K as [D E ND RS W1 W2].
  destruct (next_entries author net (p_lock x) (e_vset e) K AV) as (N1 & N2 & N3 & N4 & N5 & N6 & N7).
  destruct (set_next_set_shape net (p_lock x) (e_vset e)) as (S1 & S2 & S3 & S4 & S5 & S6 & S7 & S8 & S9).
  set (k' := set_next_set net (p_lock x) (e_vset e)) in *.
  assert (PM : forall p, mem p (map fst (e_sub e)) = true -> p <> author).
  { intros p H ->. apply SUB in H. congruence. }
  set (na := of_peers (f_all (k_data k')) (map fst (e_sub e))).
  set (d := next_of (set_next_subset_f (k_data k') (e_sub e)) (e_start e)).
  assert (FS : f_sub d = Quad (q0 (f_sub (k_data (p_lock x)))) (q1 (f_sub (k_data (p_lock x)))) (q2 (f_sub (k_data (p_lock x)))) na).
  { unfold d, next_of, set_next_subset_f. cbn [f_sub]. rewrite S6. reflexivity. }
  assert (FV : f_vset d = f_vset (k_data k')) by reflexivity.
  assert (AN : forall p, in_any_vset d p = in_any_vset (k_data k') p) by reflexivity.
  assert (NR : NoDup (keys na)) by (unfold na; rewrite keys_of_peers; apply NoDup_nodup).
  assert (AL : forall i p, p <> author -> has p (at_slot (f_sub d) i) = true -> has p (at_slot (f_vset d) i) = true).
  { intros i p PA. rewrite FS, FV, S5. destruct i as [|[|[|i]]]; cbn [at_slot q0 q1 q2 q3].
    - apply (d_al _ _ D 0%nat p PA).
    - apply (d_al _ _ D 1%nat p PA).
    - apply (d_al _ _ D 2%nat p PA).
    - unfold na. rewrite !has_of_peers. apply SUB. }
  assert (SUBV : forall i p, p <> author -> has p (at_slot (f_sub d) i) = true -> in_any_vset (k_data k') p = true).
  { intros i p PA H. apply (AL i p PA) in H. rewrite FV in H. unfold in_any_vset.
    destruct i as [|[|[|i]]]; cbn [at_slot] in H; rewrite H, ?orb_true_r; reflexivity. }
  assert (RR : forall i p, look p (at_slot (f_sub d) i) = Some true ->
                 look p (k_entries k') = Some true /\ p <> k_local k' /\ p <> author).
  { intros i p H. rewrite S1.
    assert (OLD : forall j, look p (at_slot (f_sub (k_data (p_lock x))) j) = Some true ->
              has p (at_slot (f_sub d) i) = true -> look p (k_entries k') = Some true /\ p <> k_local (p_lock x) /\ p <> author).
    { intros j L HS. destruct (RS j p L) as (A & B & C). repeat split; try assumption. apply N3; [exact A|].
      apply (SUBV i p C HS). }
    assert (HS : has p (at_slot (f_sub d) i) = true) by (unfold has; rewrite H; reflexivity).
    rewrite FS in H. destruct i as [|[|[|i]]]; cbn [at_slot q0 q1 q2 q3] in H.
    - exact (OLD 0%nat H HS).
    - exact (OLD 1%nat H HS).
    - exact (OLD 2%nat H HS).
    - unfold na in H. rewrite look_of_peers in H. destruct (mem p (map fst (e_sub e))) eqn:M; [|discriminate].
      injection H as H. destruct (N4 p H (SUB p M)) as [A B]. repeat split; try assumption. apply PM. exact M. }
  constructor; cbn [with_data k_data k_entries k_banned k_wait k_local].
  - constructor.
    + exact AL.
    + intros i. rewrite FS. destruct i as [|[|[|i]]]; cbn [at_slot q0 q1 q2 q3].
      * apply (d_nd _ _ D 0%nat).
      * apply (d_nd _ _ D 1%nat).
      * apply (d_nd _ _ D 2%nat).
      * exact NR.
    + intros p H. unfold d, next_of, set_next_subset_f. cbn [f_recv]. rewrite mem_nodup, mem_app.
      rewrite FS in H. cbn [q2 q3] in H. rewrite S6. apply orb_true_iff. destruct H as [H|H].
      * left. apply mem_resolved; [apply (d_nd _ _ D 2%nat)|exact H].
      * right. fold na. apply mem_resolved; [exact NR|exact H].
    + intros p. unfold d at 1, next_of, set_next_subset_f. cbn [f_recv]. rewrite mem_nodup, mem_app.
      rewrite S6. fold na. rewrite FS. cbn [q2 q3]. rewrite orb_true_iff. intros [H|H].
      * left. apply mem_resolved in H; [exact H|apply (d_nd _ _ D 2%nat)].
      * right; left. apply mem_resolved in H; [exact H|exact NR].
    + exact N5.
    + discriminate.
  - exact N1.
  - exact N2.
  - exact RR.
  - exact N6.
  - exact N7.
Qed.

(** *** rotation *)

Lemma apply_kinv author x r y : kinv author (p_lock x) -> apply_impl x r = Some y -> kinv author (p_lock y).
Proof.
  intros K. unfold apply_impl.
  destruct (not_due (s_next (f_starts (k_data (p_lock x)))) r) eqn:ND; [intros [= <-]; exact K|].
  pose proof K as [D E NDE RS W1 W2].
  set (d0 := k_data (p_lock x)) in *.
  unfold forget_oldest_k. fold d0. unfold forget_oldest_f. cbv zeta.
  set (gone := filter (fun e => negb (has (fst e) (q1 (f_vset d0))) && negb (has (fst e) (q2 (f_vset d0))) && negb (has (fst e) (q3 (f_vset d0)))) (q0 (f_vset d0))).
  unfold rotate_f. cbn [new_task k_data f_vset f_sub q0 f_starts f_recv f_all f_forget].
  unfold rotate_starts. destruct (s_next (f_starts d0)) as [n|] eqn:SN; [|discriminate].
  destruct (s_curr (f_starts d0) <? n); [|discriminate].
  destruct (rotate_s (forget_oldest_s (p_less x))) as [l|]; [|discriminate]. intros [= <-].
  cbn [p_lock with_data new_task k_local k_entries k_wait k_banned k_sent k_data].
  set (fg := map fst gone).
  assert (FG : forall p, mem p fg = has p (q0 (f_vset d0)) && negb (has p (q1 (f_vset d0))) && negb (has p (q2 (f_vset d0))) && negb (has p (q3 (f_vset d0)))).
  { intros p. apply eq_true_iff_eq. unfold fg, gone. rewrite mem_In, in_map_iff. split.
    - intros ((a & b) & EQ & H). cbn [fst] in EQ. subst a. apply filter_In in H as [H F]. cbn [fst] in F.
      rewrite (In_has _ _ _ H). cbn [andb]. exact F.
    - intros H. apply andb_true_iff in H as [H H3]. apply andb_true_iff in H as [H H2]. apply andb_true_iff in H as [H H1].
      unfold has in H. destruct (look p (q0 (f_vset d0))) as [b|] eqn:L; [|discriminate].
      exists (p, b). split; [reflexivity|]. apply filter_In. split; [apply look_In; exact L|]. cbn [fst]. rewrite H1, H2, H3. reflexivity. }
  assert (OFF : forall p, mem p (map fst (filter snd gone)) = true -> mem p fg = true).
  { intros p H. apply mem_In in H. apply mem_In. apply in_map_iff in H as (a & EQ & H). apply filter_In in H as [H _].
    apply in_map_iff. exists a. auto. }
  set (d' := Ful (rot (Quad [] (q1 (f_vset d0)) (q2 (f_vset d0)) (q3 (f_vset d0))))
                 (rot (Quad [] (q1 (f_sub d0)) (q2 (f_sub d0)) (q3 (f_sub d0))))
                 (Starts (s_prev (f_starts d0)) (s_curr (f_starts d0)) n None)
                 (dels (map fst (filter snd gone)) (f_recv d0)) (dels (map fst (filter snd gone)) (f_all d0)) (f_forget d0 ++ fg)).
  assert (AN : forall p, in_any_vset d' p = has p (q1 (f_vset d0)) || has p (q2 (f_vset d0)) || has p (q3 (f_vset d0))).
  { intros p. unfold in_any_vset, d'. cbn [f_vset rot q0 q1 q2 q3]. rewrite orb_false_r. reflexivity. }
  set (e' := e_removes fg (k_entries (p_lock x))).
  assert (HE : forall p, has p e' = in_any_vset d' p && negb (mem p (k_banned (p_lock x)))).
  { intros p. rewrite AN. unfold e', has. rewrite look_removes. rewrite FG.
    pose proof (E p) as EP. unfold has in EP. unfold in_any_vset in EP.
    fold (has p (q0 (f_vset d0))) (has p (q1 (f_vset d0))) (has p (q2 (f_vset d0))) (has p (q3 (f_vset d0))) in *.
    clear - EP.
    destruct (has p (q0 (f_vset d0))), (has p (q1 (f_vset d0))), (has p (q2 (f_vset d0))), (has p (q3 (f_vset d0))),
      (mem p (k_banned (p_lock x))), (look p (k_entries (p_lock x))); cbn in *; congruence. }
  assert (NE' : NoDup (keys e')) by (apply nodup_removes; exact NDE).
  assert (SH : forall i, at_slot (f_sub d') i = match i with 0%nat => q1 (f_sub d0) | 1%nat => q2 (f_sub d0) | 2%nat => q3 (f_sub d0) | _ => [] end).
  { intros [|[|[|i]]]; reflexivity. }
  assert (SHV : forall i, at_slot (f_vset d') i = match i with 0%nat => q1 (f_vset d0) | 1%nat => q2 (f_vset d0) | 2%nat => q3 (f_vset d0) | _ => [] end).
  { intros [|[|[|i]]]; reflexivity. }
  assert (AL : forall i p, p <> author -> has p (at_slot (f_sub d') i) = true -> has p (at_slot (f_vset d') i) = true).
  { intros i p PA. rewrite SH, SHV. destruct i as [|[|[|i]]].
    - apply (d_al _ _ D 1%nat p PA).
    - apply (d_al _ _ D 2%nat p PA).
    - apply (d_al _ _ D 3%nat p PA).
    - discriminate. }
  assert (SUBV : forall i p, p <> author -> has p (at_slot (f_sub d') i) = true -> in_any_vset d' p = true).
  { intros i p PA H. apply (AL i p PA) in H. rewrite SHV in H. rewrite AN.
    destruct i as [|[|[|i]]]; [rewrite H..|discriminate]; rewrite ?orb_true_r; reflexivity. }
  assert (RR : forall i p, look p (at_slot (f_sub d') i) = Some true -> look p e' = Some true /\ p <> k_local (p_lock x) /\ p <> author).
  { intros i p H.
    assert (HS : has p (at_slot (f_sub d') i) = true) by (unfold has; rewrite H; reflexivity).
    assert (OLD : exists j, look p (at_slot (f_sub d0) j) = Some true).
    { rewrite SH in H. destruct i as [|[|[|i]]]; [exists 1%nat; exact H|exists 2%nat; exact H|exists 3%nat; exact H|discriminate]. }
    destruct OLD as [j L]. destruct (RS j p L) as (A & B & C). repeat split; try assumption.
    unfold e'. rewrite look_removes. pose proof (SUBV i p C HS) as V. rewrite AN in V. rewrite FG.
    destruct (has p (q1 (f_vset d0))), (has p (q2 (f_vset d0))), (has p (q3 (f_vset d0))); cbn in *; rewrite ?andb_false_r; cbn; try exact A; discriminate. }
  constructor; cbn [k_data k_entries k_banned k_wait k_local].
  - constructor.
    + exact AL.
    + intros i. rewrite SH. destruct i as [|[|[|i]]]; [apply (d_nd _ _ D 1%nat)|apply (d_nd _ _ D 2%nat)|apply (d_nd _ _ D 3%nat)|constructor].
    + intros p H. change (mem p (dels (map fst (filter snd gone)) (f_recv d0)) = true). rewrite mem_dels.
      assert (L : look p (q3 (f_sub d0)) = Some true) by (destruct H as [H|H]; [exact H|discriminate]).
      rewrite (d_ra _ _ D p (or_intror L)). cbn [andb]. apply negb_true_iff.
      destruct (mem p (map fst (filter snd gone))) eqn:M; [|reflexivity]. apply OFF in M. rewrite FG in M.
      destruct (RS 3%nat p L) as (_ & _ & C).
      assert (HV : has p (q3 (f_vset d0)) = true).
      { apply (d_al _ _ D 3%nat p C). cbn [at_slot]. unfold has. rewrite L. reflexivity. }
      rewrite HV, andb_false_r in M. discriminate.
    + intros p H. change (mem p (dels (map fst (filter snd gone)) (f_recv d0)) = true) in H. rewrite mem_dels in H. apply andb_true_iff in H as [H _].
      destruct (d_rb _ _ D p H) as [Q|[Q|[Q _]]].
      * right; right. split; [reflexivity|]. change (has p (q2 (f_sub d0)) = true). unfold has. rewrite Q. reflexivity.
      * left. exact Q.
      * exfalso. rewrite SN in Q. discriminate.
    + rewrite AN. pose proof (d_aut _ _ D) as Q. unfold in_any_vset in Q.
      apply orb_false_iff in Q as [Q Q3]. apply orb_false_iff in Q as [Q Q2]. apply orb_false_iff in Q as [_ Q1].
      rewrite Q1, Q2, Q3. reflexivity.
    + intros _. reflexivity.
  - exact HE.
  - exact NE'.
  - exact RR.
  - intros p H. apply (waiters_in _ _ _ NE') in H as [H L]. split; [|exact L].
    assert (X : has p e' = true) by (unfold has; rewrite H; reflexivity). rewrite HE in X. apply andb_true_iff in X. apply X.
  - intros p H L. apply (waiters_in _ _ _ NE'). auto.
Qed.
