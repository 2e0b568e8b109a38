(** Bans, resolution and broadcast receivers: what the users of the schedule see. *)
From Coq Require Import List Bool NArith Lia ZArith ZifyN ZifyNat ZifyBool.
From Verif Require Import PsModel PsSpec PsEpochs PsThms PsPeers.
Import ListNotations.
Local Open Scope N_scope.

(** ** Histories of a working node *)

(** As [follows], and: the working validators of an epoch are in its whole set, the author of the
    genesis point is no validator, a whole set for the next epoch comes with the latest epoch,
    and nobody unbans the node itself. *)
Inductive orderly (T : nat -> epoch) (author local : peer) : nat -> list op -> nat -> Prop :=
| o_nil k : orderly T author local k [] k
| o_peers k k1 k2 net ip l : told T k ip k1 -> usable author (ip_prev ip) -> usable author (ip_curr ip) ->
    mem author (ip_next ip) = false -> (ip_next ip = [] \/ ip_curr ip = T k1) ->
    orderly T author local k1 l k2 -> orderly T author local k (OPeers net ip :: l) k2
| o_unban k k2 net q l : ~ In local q -> orderly T author local k l k2 ->
    orderly T author local k (OUnban net q :: l) k2
| o_other k k2 o l : (forall net ip, o <> OPeers net ip) -> (forall net q, o <> OUnban net q) ->
    orderly T author local k l k2 -> orderly T author local k (o :: l) k2.

Definition works (T : nat -> epoch) (g : round) (author local : peer) (k : nat) (x : ps) : Prop :=
  exists net ip x0 ops k0,
    init net g author ip (ps0 local) = Some x0 /\
    init_epochs g author ip = map T (seq 0 (S k0)) /\
    usable author (ip_prev ip) /\ usable author (ip_curr ip) /\ mem author (ip_next ip) = false /\
    orderly T author local k0 ops k /\ run x0 ops = Some x.

Lemma orderly_follows T author local k l k' : orderly T author local k l k' -> follows T k l k'.
Proof.
  induction 1 as [k|k k1 k2 net ip l TL U1 U2 A N O IH|k k2 net q l NL O IH|k k2 o l N1 N2 O IH].
  - constructor.
  - eapply f_peers; eauto.
  - apply f_other; [discriminate|exact IH].
  - apply f_other; assumption.
Qed.
Theorem works_lives T g author local k x : works T g author local k x -> lives T g author local k x.
Proof.
  intros (net & ip & x0 & ops & k0 & I & E & _ & _ & _ & O & R).
  exists net, ip, x0, ops, k0. repeat split; try assumption. eapply orderly_follows; eauto.
Qed.

(** ** The invariant along a history *)

Record xinv (author local : peer) (x : ps) : Prop := {
  x_k : kinv author (p_lock x);
  x_loc : k_local (p_lock x) = local;
  x_ban : forall p, mem p (k_banned (p_lock x)) = is_banned (p_less x) p }.

Lemma apply_keeps x r y : apply_impl x r = Some y ->
  k_local (p_lock y) = k_local (p_lock x) /\ k_banned (p_lock y) = k_banned (p_lock x) /\ l_banned (p_less y) = l_banned (p_less x).
Proof.
  unfold apply_impl. destruct (not_due _ _); [intros [= <-]; auto|].
  unfold forget_oldest_k. destruct (forget_oldest_f _) as [d fg].
  destruct (rotate_f _) as [d'|]; [|discriminate]. unfold rotate_s.
  destruct (q0 (l_set (forget_oldest_s (p_less x)))); [|discriminate].
  destruct (q0 (l_vec (forget_oldest_s (p_less x)))); [|discriminate].
  destruct (rotate_starts _); [|discriminate]. intros [= <-]. repeat split.
Qed.
Lemma schedule_keeps net x e :
  let y := set_next_subset net x e in
  k_local (p_lock y) = k_local (p_lock x) /\ k_banned (p_lock y) = k_banned (p_lock x) /\ l_banned (p_less y) = l_banned (p_less x).
Proof. cbv zeta. unfold set_next_subset. destruct (_ || _); repeat split. Qed.

Lemma xinv_keep author local x y : xinv author local x -> kinv author (p_lock y) ->
  k_local (p_lock y) = k_local (p_lock x) /\ k_banned (p_lock y) = k_banned (p_lock x) /\ l_banned (p_less y) = l_banned (p_less x) ->
  xinv author local y.
Proof.
  intros [K L B] K' (E1 & E2 & E3). constructor; [exact K'|congruence|].
  intros p. rewrite E2. unfold is_banned. rewrite E3. apply B.
Qed.
Lemma apply_xinv author local x r y : xinv author local x -> apply_impl x r = Some y -> xinv author local y.
Proof.
  intros X A. eapply xinv_keep; [exact X| |exact (apply_keeps _ _ _ A)].
  eapply apply_kinv; [exact (x_k _ _ _ X)|exact A].
Qed.
Lemma schedule_xinv author local net x e : xinv author local x -> usable author e -> xinv author local (set_next_subset net x e).
Proof.
  intros X U. eapply xinv_keep; [exact X| |exact (schedule_keeps net x e)].
  apply schedule_kinv; [exact (x_k _ _ _ X)|exact U].
Qed.
Lemma next_vset_xinv author local net x v : xinv author local x -> mem author v = false ->
  s_next (f_starts (k_data (p_lock x))) = None -> xinv author local (next_vset net x v).
Proof.
  intros X U N. eapply xinv_keep; [exact X|apply next_vset_kinv; [exact (x_k _ _ _ X)|exact U|exact N]|]. repeat split.
Qed.

Lemma mem_fold_add l : forall b p, mem p (fold_left (fun b p => add p b) l b) = mem p b || mem p l.
Proof.
  induction l as [|a l IH]; intros b p; cbn [fold_left]; [cbn; rewrite orb_false_r; reflexivity|].
  rewrite IH, mem_add. change (mem p (a :: l)) with ((p =? a) || mem p l). rewrite orb_assoc. reflexivity.
Qed.
Lemma mem_fold_del l : forall b p, mem p (fold_left (fun b p => del p b) l b) = mem p b && negb (mem p l).
Proof.
  induction l as [|a l IH]; intros b p; cbn [fold_left]; [cbn; rewrite andb_true_r; reflexivity|].
  rewrite IH, mem_del. change (mem p (a :: l)) with ((p =? a) || mem p l). rewrite negb_orb, andb_assoc. reflexivity.
Qed.
Lemma banned_ban_one kb p : k_banned (fst (ban_one kb p)) = add p (k_banned (fst kb)).
Proof.
  destruct kb as [k need]. unfold ban_one. cbn [fst]. destruct (in_any_vset _ _); [|reflexivity].
  destruct (set_state _ _ _). reflexivity.
Qed.
Lemma banned_unban_one net kb p : k_banned (fst (unban_one net kb p)) = del p (k_banned (fst kb)).
Proof.
  destruct kb as [k need]. unfold unban_one. cbn [fst]. destruct (in_any_vset _ _); [|reflexivity].
  destruct (look _ _) as [[|]|]; try reflexivity. destruct (set_state _ _ _). reflexivity.
Qed.
Lemma fold_ban_one l : forall kb,
  k_banned (fst (fold_left ban_one l kb)) = fold_left (fun b p => add p b) l (k_banned (fst kb)) /\
  k_local (fst (fold_left ban_one l kb)) = k_local (fst kb).
Proof.
  induction l as [|a l IH]; intros kb; cbn [fold_left]; [auto|].
  destruct (IH (ban_one kb a)) as [A B]. rewrite A, B, banned_ban_one, local_ban_one. auto.
Qed.
Lemma fold_unban_one net l : forall kb,
  k_banned (fst (fold_left (unban_one net) l kb)) = fold_left (fun b p => del p b) l (k_banned (fst kb)) /\
  k_local (fst (fold_left (unban_one net) l kb)) = k_local (fst kb).
Proof.
  induction l as [|a l IH]; intros kb; cbn [fold_left]; [auto|].
  destruct (IH (unban_one net kb a)) as [A B]. rewrite A, B, banned_unban_one, local_unban_one. auto.
Qed.
Lemma set_banned_keeps k l : k_banned (set_banned_k k l) = fold_left (fun b p => add p b) l (k_banned k) /\ k_local (set_banned_k k l) = k_local k.
Proof.
  unfold set_banned_k. destruct (fold_ban_one l (k, false)) as [A B].
  destruct (fold_left ban_one l (k, false)) as [k1 need]. cbn [fst] in *. destruct need; auto.
Qed.
Lemma remove_bans_keeps net k l : k_banned (remove_bans_k net k l) = fold_left (fun b p => del p b) l (k_banned k) /\ k_local (remove_bans_k net k l) = k_local k.
Proof.
  unfold remove_bans_k. destruct (fold_unban_one net l (k, false)) as [A B].
  destruct (fold_left (unban_one net) l (k, false)) as [k1 need]. cbn [fst] in *. destruct need; auto.
Qed.
Lemma set_banned_xinv author local x l : xinv author local x -> xinv author local (set_banned x l).
Proof.
  intros [K L B]. unfold set_banned. destruct l as [|a l]; [constructor; assumption|].
  destruct (set_banned_keeps (p_lock x) (a :: l)) as [E1 E2]. constructor; cbn [p_lock p_less].
  - apply set_banned_kinv. exact K.
  - congruence.
  - intros p. rewrite E1. unfold is_banned, insert_banned. cbn [l_banned]. rewrite !mem_fold_add, B. reflexivity.
Qed.
Lemma remove_bans_xinv author local net x l : ~ In local l -> xinv author local x -> xinv author local (remove_bans net x l).
Proof.
  intros NL [K L B]. unfold remove_bans. destruct l as [|a l]; [constructor; assumption|].
  destruct (remove_bans_keeps net (p_lock x) (a :: l)) as [E1 E2]. constructor; cbn [p_lock p_less].
  - apply remove_bans_kinv; [rewrite L; exact NL|exact K].
  - congruence.
  - intros p. rewrite E1. unfold is_banned, remove_banned. cbn [l_banned]. rewrite !mem_fold_del, B. reflexivity.
Qed.
Lemma task_xinv author local x p : can_fire (p_lock x) p = true -> xinv author local x -> xinv author local (task_fires x p).
Proof.
  intros C X. eapply xinv_keep; [exact X|apply task_kinv; [exact C|exact (x_k _ _ _ X)]|].
  unfold task_fires. cbn [p_lock p_less]. destruct (mem p (k_banned (p_lock x))); [repeat split|].
  unfold set_resolved. destruct (set_state _ _ _). repeat split.
Qed.
Lemma net_xinv author local x p : xinv author local x -> xinv author local (net_resolves x p).
Proof.
  intros X. eapply xinv_keep; [exact X|apply net_kinv; exact (x_k _ _ _ X)|]. repeat split.
Qed.
Lemma forget_xinv author local x : xinv author local x -> xinv author local (fst (take_forget x)).
Proof.
  intros X. eapply xinv_keep; [exact X| |repeat split].
  destruct X as [[[A1 A2 A3 A4 A5 A6] B C D E F] _ _]. unfold take_forget. cbn [fst p_lock].
  constructor; cbn [with_data k_data k_entries k_banned k_wait k_local f_sub f_vset]; auto.
  constructor; assumption.
Qed.

Lemma apply_scheduled_xinv author local x r y : xinv author local x -> apply_scheduled x r = Some y -> xinv author local y.
Proof.
  intros X. unfold apply_scheduled. destruct (not_due _ _); [intros [= <-]; exact X|]. intros A. eapply apply_xinv; eauto.
Qed.

Lemma set_peers_xinv author local T k k' net ip x g y : timeline T -> xinv author local x -> holds x g -> on_ring T k g ->
  told T k ip k' -> usable author (ip_prev ip) -> usable author (ip_curr ip) -> mem author (ip_next ip) = false ->
  (ip_next ip = [] \/ ip_curr ip = T k') -> set_peers net ip x = Some y -> xinv author local y.
Proof.
  intros HT X H O TL U1 U2 NA CUR. unfold set_peers. cbv zeta.
  pose proof (schedule_holds net x g (ip_prev ip) H) as H1. fold (sched g (ip_prev ip)) in H1.
  pose proof (schedule_xinv author local net x (ip_prev ip) X U1) as X1.
  destruct (apply_holds _ _ (e_start (ip_prev ip)) H1) as (x2 & Y2 & H2).
  fold (adv (sched g (ip_prev ip)) (e_start (ip_prev ip))) in H2.
  pose proof (apply_xinv _ _ _ _ _ X1 Y2) as X2. rewrite Y2. cbn [bindp].
  pose proof (schedule_holds net x2 _ (ip_curr ip) H2) as H3.
  match type of H3 with holds _ ?g' => change g' with (sched (adv (sched g (ip_prev ip)) (e_start (ip_prev ip))) (ip_curr ip)) in H3 end.
  pose proof (schedule_xinv author local net x2 (ip_curr ip) X2 U2) as X3.
  destruct (ip_next ip) as [|v0 vs0] eqn:NV; [intros [= <-]; exact X3|].
  destruct CUR as [CUR|CUR]; [discriminate|].
  destruct (apply_holds _ _ (e_start (ip_curr ip)) H3) as (z & Z & H4). rewrite Z. cbn [bindp]. intros [= <-].
  apply next_vset_xinv; [eapply apply_xinv; eauto|exact NA|].
  pose proof (told_ring T k ip k' g HT O TL) as R.
  set (g3 := sched (adv (sched g (ip_prev ip)) (e_start (ip_prev ip))) (ip_curr ip)) in *.
  rewrite (h_fs _ _ H4). cbn [s_next].
  destruct R as (c & _ & _ & _ & [[_ RN]|[_ RN]]); rewrite RN; cbn [r_n].
  - rewrite RN. reflexivity.
  - rewrite CUR. rewrite N.leb_refl. reflexivity.
Qed.

Lemma do_xinv author local x o y : xinv author local x ->
  (forall net ip, o <> OPeers net ip) -> (forall net q, o = OUnban net q -> ~ In local q) -> do x o = Some y -> xinv author local y.
Proof.
  intros X N1 N2. destruct o as [net ip|r|l|net l| |p|p]; cbn [do].
  - exfalso. apply (N1 net ip). reflexivity.
  - apply apply_scheduled_xinv. exact X.
  - intros [= <-]. apply set_banned_xinv. exact X.
  - intros [= <-]. apply remove_bans_xinv; [apply (N2 net l eq_refl)|exact X].
  - intros [= <-]. apply forget_xinv. exact X.
  - intros [= <-]. apply net_xinv. exact X.
  - destruct (can_fire (p_lock x) p) eqn:C; intros [= <-]; [apply task_xinv; assumption|exact X].
Qed.

Lemma run_xinv author local T ops : forall x g k k' y, timeline T -> xinv author local x -> holds x g -> on_ring T k g ->
  orderly T author local k ops k' -> run x ops = Some y -> xinv author local y.
Proof.
  induction ops as [|o l IH]; intros x g k k' y HT X H R F Y; cbn [run] in Y.
  - injection Y as <-. exact X.
  - destruct (do x o) as [z|] eqn:DO; [|discriminate]. cbn [bindp] in Y.
    inversion F as [|? k1 ? net ip ? TL U1 U2 NA CUR FL|? ? net q ? NL FL|? ? ? ? N1 N2 FL]; subst.
    + assert (X' : xinv author local z) by (cbn [do] in DO; eapply set_peers_xinv; eauto).
      assert (FO : follows T k [OPeers net ip] k1) by (eapply f_peers; [exact TL|constructor]).
      destruct (run_follows T [OPeers net ip] x g k k1 HT H R FO z) as (g' & H' & R').
      { cbn [run]. rewrite DO. reflexivity. }
      eapply IH; eauto.
    + assert (X' : xinv author local z).
      { eapply (do_xinv author local x (OUnban net q)); [exact X|discriminate| |exact DO]. intros n0 l0 EQ; injection EQ as _ EQ; rewrite <- EQ; exact NL. }
      assert (FO : follows T k [OUnban net q] k) by (apply f_other; [discriminate|constructor]).
      destruct (run_follows T [OUnban net q] x g k k HT H R FO z) as (g' & H' & R').
      { cbn [run]. rewrite DO. reflexivity. }
      eapply IH; eauto.
    + assert (X' : xinv author local z).
      { eapply do_xinv; [exact X|exact N1| |exact DO]. intros ? ? E. exfalso. exact (N2 _ _ E). }
      assert (FO : follows T k [o] k) by (apply f_other; [exact N1|constructor]).
      destruct (run_follows T [o] x g k k HT H R FO z) as (g' & H' & R').
      { cbn [run]. rewrite DO. reflexivity. }
      eapply IH; eauto.
Qed.

(** *** the first call *)

Lemma genesis_xinv net g author local x2 : 1 < g ->
  apply_impl (set_next_subset net (ps0 local) (Epoch (g - 1) [] [(author, 0)])) (g - 1) = Some x2 ->
  xinv author local x2 /\ s_next (f_starts (k_data (p_lock x2))) = None.
Proof.
  intros G. unfold set_next_subset. cbn [ps0 p_lock locked0 k_data ful0 f_starts starts0 s_curr e_start e_sub e_vset].
  destruct (N.leb_spec (g - 1) 0); [lia|]. cbn [orb].
  unfold apply_impl. cbn [p_lock with_data k_data next_of f_starts with_next s_next set_next_subset_f not_due].
  rewrite N.ltb_irrefl. cbn [not_due].
  unfold forget_oldest_k, forget_oldest_f, rotate_f, rotate_s, rotate_starts, set_next_set.
  cbn. destruct (N.ltb_spec 0 (g - 1)); [|lia]. intros [= <-]. cbn. split; [|reflexivity]. constructor.
  - constructor; cbn.
    + constructor; cbn.
      * intros i p PA. destruct i as [|[|[|i]]]; cbn; try discriminate. unfold has. cbn.
        destruct (N.eqb_spec p author); [congruence|discriminate].
      * intros [|[|[|i]]]; cbn; repeat constructor. intros [].
      * intros p [Q|Q]; [|discriminate]. destruct (p =? author); discriminate.
      * discriminate.
      * reflexivity.
      * reflexivity.
    + reflexivity.
    + constructor.
    + intros i p. destruct i as [|[|[|i]]]; cbn; try discriminate. destruct (p =? author); discriminate.
    + discriminate.
    + discriminate.
  - reflexivity.
  - reflexivity.
Qed.

Lemma next_after_schedule net x e : s_next (f_starts (k_data (p_lock x))) = None ->
  s_next (f_starts (k_data (p_lock (set_next_subset net x e)))) = None \/
  s_next (f_starts (k_data (p_lock (set_next_subset net x e)))) = Some (e_start e).
Proof. intros N. unfold set_next_subset. destruct (_ || _); [left; exact N|right; reflexivity]. Qed.
Lemma next_after_apply x r y : (s_next (f_starts (k_data (p_lock x))) = None \/ s_next (f_starts (k_data (p_lock x))) = Some r) ->
  apply_impl x r = Some y -> s_next (f_starts (k_data (p_lock y))) = None.
Proof.
  intros N. unfold apply_impl. destruct N as [N|N]; rewrite N; cbn [not_due]; [intros [= <-]; exact N|].
  rewrite N.ltb_irrefl. unfold forget_oldest_k. destruct (forget_oldest_f _) as [d fg].
  destruct (rotate_f _) as [d'|] eqn:RF; [|discriminate]. destruct (rotate_s _); [|discriminate]. intros [= <-].
  cbn [p_lock with_data k_data]. unfold rotate_f in RF. destruct (q0 (f_vset _)); [|discriminate]. destruct (q0 (f_sub _)); [|discriminate].
  unfold rotate_starts in RF. match type of RF with context [s_next ?s] => destruct (s_next s) as [m|]; [|discriminate] end.
  match type of RF with context [?a <? m] => destruct (a <? m); [|discriminate] end.
  injection RF as <-. reflexivity.
Qed.

Lemma usable_clamp author e r : usable author e -> usable author (Epoch r (e_vset e) (e_sub e)).
Proof. intros [A B]. split; [exact A|exact B]. Qed.

Lemma init_xinv net g author ip local x : 1 < g -> usable author (ip_prev ip) -> usable author (ip_curr ip) ->
  mem author (ip_next ip) = false -> init net g author ip (ps0 local) = Some x -> xinv author local x.
Proof.
  intros G U1 U2 NA. unfold init. cbv zeta.
  destruct (apply_impl _ (g - 1)) as [x2|] eqn:A2; [|discriminate]. cbn [bindp].
  destruct (genesis_xinv net g author local x2 G A2) as [X2 N2].
  set (pe := Epoch (N.max (e_start (ip_prev ip)) (g + 1)) (e_vset (ip_prev ip)) (e_sub (ip_prev ip))).
  set (ce := Epoch (N.max (e_start (ip_curr ip)) (g + 1)) (e_vset (ip_curr ip)) (e_sub (ip_curr ip))).
  match goal with |- bindp ?a _ = _ -> _ => destruct a as [x3|] eqn:A3; [|discriminate] end. cbn [bindp].
  assert (W : xinv author local x3 /\ s_next (f_starts (k_data (p_lock x3))) = None).
  { destruct (g + 1 <? e_start (ip_curr ip)).
    - pose proof (schedule_xinv author local net x2 pe X2 (usable_clamp _ _ _ U1)) as X3.
      split; [eapply apply_xinv; eauto|].
      eapply next_after_apply; [|exact A3]. apply (next_after_schedule net x2 pe N2).
    - injection A3 as <-. auto. }
  destruct W as [X3 N3].
  pose proof (schedule_xinv author local net x3 ce X3 (usable_clamp _ _ _ U2)) as X4.
  assert (FIN : forall z, xinv author local z -> xinv author local (Ps (new_task (p_lock z)) (p_less z))).
  { intros z Z. eapply xinv_keep; [exact Z|apply new_task_kinv; exact (x_k _ _ _ Z)|]. repeat split. }
  destruct (ip_next ip) as [|v0 v1]; cbn [bindp].
  - intros [= <-]. apply (FIN _ X4).
  - destruct (apply_impl (set_next_subset net x3 ce) _) as [x5|] eqn:A5; [|discriminate]. cbn [bindp]. intros [= <-].
    apply (FIN (next_vset net x5 (v0 :: v1))). apply next_vset_xinv; [eapply apply_xinv; eauto|exact NA|].
    eapply next_after_apply; [|exact A5]. apply (next_after_schedule net x3 ce N3).
Qed.

Theorem works_xinv T g author local k x : timeline T -> 1 < g -> works T g author local k x -> xinv author local x.
Proof.
  intros HT G (net & ip & x0 & ops & k0 & I & E & U1 & U2 & NA & O & R).
  pose proof (init_xinv net g author ip local x0 G U1 U2 NA I) as X0.
  destruct (init_holds net g author ip local) as (x1 & gr & I1 & H & OR).
  rewrite I in I1. injection I1 as <-.
  eapply run_xinv; eauto.
Qed.

(** ** What the users see *)

(** the peers that the node keeps connections with, and whether the address is known *)
Definition contact (x : ps) (p : peer) : bool := has p (k_entries (p_lock x)).
Definition address_known (x : ps) (p : peer) : Prop := look p (k_entries (p_lock x)) = Some true.
(** the state of a peer as a validator of a round *)
Definition state_at (x : ps) (p : peer) (r : round) : option bool := look p (peers_state_for (k_data (p_lock x)) r).
Definition receives (x : ps) (p : peer) : bool := mem p (f_recv (k_data (p_lock x))).
Definition current_start (x : ps) : round := s_curr (f_starts (k_data (p_lock x))).

Lemma works_ring T g author local k x : timeline T -> 1 < g -> works T g author local k x ->
  exists gr, holds x gr /\ on_ring T k gr.
Proof. intros HT G W. apply (lives_ring T g author local k x HT G). apply works_lives. exact W. Qed.

Lemma state_slot x r : forall p v, state_at x p r = Some v ->
  exists i, look p (at_slot (f_sub (k_data (p_lock x))) i) = Some v.
Proof.
  intros p v. unfold state_at, peers_state_for. destruct (arr_idx _ _) as [i|]; [eauto|discriminate].
Qed.
Lemma has_state x gr p r : holds x gr -> (mem p (peers_for (p_less x) r) = true <-> state_at x p r <> None).
Proof.
  intros H. destruct (holds_answers x gr r H) as (P & _ & S & _).
  rewrite P. rewrite <- (mem_nodup p (vec (ring_at gr r))). rewrite <- S, <- has_mem. unfold has, state_at.
  destruct (look p _); split; congruence.
Qed.

(** The node keeps contact with exactly the validators that are not banned: nobody banned is a
    contact, and every validator of the last three epochs is, unless it is banned. *)
Theorem contacts_are_unbanned_validators T g author local k x :
  timeline T -> 1 < g -> works T g author local k x ->
  (forall p, contact x p = true -> is_banned (p_less x) p = false) /\
  (forall i r p, belongs T k i r -> (k <= i + 2)%nat -> In p (members (T i)) -> p <> author ->
     is_banned (p_less x) p = false -> contact x p = true).
Proof.
  intros HT G W. destruct (works_xinv T g author local k x HT G W) as [K L B].
  destruct (works_ring T g author local k x HT G W) as (gr & H & O). split.
  - intros p C. unfold contact in C. rewrite (n_ent _ _ K) in C. apply andb_true_iff in C as [_ C].
    rewrite <- B. apply negb_true_iff. exact C.
  - intros i r p BL KI M PA NB. unfold contact. rewrite (n_ent _ _ K), B, NB, andb_true_r.
    destruct (ring_answers T k gr i r HT O BL) as [A1 _]. specialize (A1 KI).
    destruct (holds_answers x gr r H) as (P & _).
    assert (ST : state_at x p r <> None).
    { apply (has_state x gr p r H). rewrite P, A1. apply mem_In. exact M. }
    destruct (state_at x p r) as [v|] eqn:SA; [|congruence].
    destruct (state_slot x r p v SA) as [j LJ].
    assert (HV : has p (at_slot (f_vset (k_data (p_lock x))) j) = true).
    { apply (d_al _ _ (n_d _ _ K) j p PA). unfold has. rewrite LJ. reflexivity. }
    unfold in_any_vset. destruct j as [|[|[|j]]]; cbn [at_slot] in HV; rewrite HV, ?orb_true_r; reflexivity.
Qed.

(** A validator shown as resolved has a known address, is not banned and is not the node itself. *)
Theorem resolved_means_reachable T g author local k x p r :
  timeline T -> 1 < g -> works T g author local k x -> state_at x p r = Some true ->
  address_known x p /\ is_banned (p_less x) p = false /\ p <> local /\ In p (peers_for (p_less x) r).
Proof.
  intros HT G W S. destruct (works_xinv T g author local k x HT G W) as [K L B].
  destruct (works_ring T g author local k x HT G W) as (gr & H & O).
  destruct (state_slot x r p true S) as [j LJ]. destruct (n_res _ _ K j p LJ) as (A & C & _).
  split; [exact A|]. split.
  - pose proof (n_ent _ _ K p) as E. unfold has in E. rewrite A in E. symmetry in E. apply andb_true_iff in E as [_ E].
    rewrite <- B. apply negb_true_iff. exact E.
  - split; [congruence|]. apply mem_In. apply (has_state x gr p r H). congruence.
Qed.

(** A contact whose address is not known yet is always waited for. *)
Theorem unknown_address_is_awaited T g author local k x p :
  timeline T -> 1 < g -> works T g author local k x ->
  contact x p = true -> p <> local -> address_known x p \/ mem p (k_wait (p_lock x)) = true.
Proof.
  intros HT G W C PL. destruct (works_xinv T g author local k x HT G W) as [K L B].
  unfold contact, has in C. destruct (look p (k_entries (p_lock x))) as [[|]|] eqn:E; [left; exact E| |discriminate].
  right. apply (n_w2 _ _ K p E). congruence.
Qed.

Lemma set_state_at d p b i q : look q (at_slot (f_sub (fst (set_state d p b))) i) =
  if q =? p then (if has p (at_slot (f_sub d) i) then Some b else None) else look q (at_slot (f_sub d) i).
Proof. destruct (set_state_facts d p b) as (_ & S & _). rewrite S, at_upd. apply look_upd. Qed.

(** When the wait is over the peer is resolved in every round where it is a validator. *)
Theorem resolution_is_seen T g author local k x p y r :
  timeline T -> 1 < g -> works T g author local k x ->
  can_fire (p_lock x) p = true -> is_banned (p_less x) p = false -> do x (OTask p) = Some y ->
  In p (peers_for (p_less y) r) -> state_at y p r = Some true.
Proof.
  intros HT G W C NB D I. destruct (works_xinv T g author local k x HT G W) as [K L B].
  destruct (works_ring T g author local k x HT G W) as (gr & H & O).
  cbn [do] in D. rewrite C in D. injection D as <-.
  assert (PF : peers_for (p_less (task_fires x p)) r = peers_for (p_less x) r) by reflexivity.
  rewrite PF in I. apply mem_In in I. apply (has_state x gr p r H) in I.
  unfold task_fires. rewrite B, NB. unfold set_resolved. cbn [k_data].
  unfold state_at in *. cbn [p_lock]. pose proof (set_state_facts (k_data (p_lock x)) p true) as (_ & _ & ST & _).
  pose proof (fun i => set_state_at (k_data (p_lock x)) p true i p) as SA.
  destruct (set_state (k_data (p_lock x)) p true) as [d ok]. cbn [fst] in *. cbn [k_data].
  unfold peers_state_for in *. rewrite ST. destruct (arr_idx _ _) as [i|]; [|cbn in I; congruence].
  rewrite SA, N.eqb_refl. unfold has. destruct (look p _); [reflexivity|congruence].
Qed.

(** A ban works at once: the peer is no contact, resolved in no round and not an active
    validator, and it gets no broadcasts if it is a validator of the current or the next epoch. *)
Theorem ban_works_at_once T g author local k x l y p :
  timeline T -> 1 < g -> works T g author local k x -> do x (OBan l) = Some y -> In p l ->
  works T g author local k y /\
  contact y p = false /\ (forall r, state_at y p r <> Some true) /\ is_in_active_v_subset (p_less y) p = false.
Proof.
  intros HT G W D I.
  assert (W' : works T g author local k y).
  { destruct W as (net & ip & x0 & ops & k0 & I0 & E & U1 & U2 & NA & O & R).
    exists net, ip, x0, (ops ++ [OBan l]), k0. split; [exact I0|]. split; [exact E|]. split; [exact U1|]. split; [exact U2|]. split; [exact NA|]. split.
    - clear - O. induction O as [k|k k1 k2 net ip l0 TL U1 U2 A N O IH|k k2 net q l0 NL O IH|k k2 o l0 N1 N2 O IH]; cbn [app].
      + apply o_other; [discriminate|discriminate|constructor].
      + eapply o_peers; eauto.
      + apply o_unban; assumption.
      + apply o_other; assumption.
    - assert (RA : forall ops a b o, run a ops = Some b -> run a (ops ++ [o]) = do b o).
      { clear. induction ops as [|o1 ops IH]; intros a b o H; cbn [run app] in *.
        - injection H as <-. destruct (do a o); reflexivity.
        - destruct (do a o1); [|discriminate]. cbn [bindp] in *. auto. }
      rewrite (RA ops x0 x (OBan l) R). exact D. }
  split; [exact W'|].
  assert (NB : is_banned (p_less y) p = true).
  { cbn [do] in D. injection D as <-. unfold set_banned. destruct l as [|a l]; [destruct I|].
    unfold is_banned. cbn [p_less insert_banned l_banned]. rewrite mem_fold_add.
    apply mem_In in I. rewrite I. apply orb_true_r. }
  destruct (contacts_are_unbanned_validators T g author local k y HT G W') as [C _].
  split; [|split].
  - destruct (contact y p) eqn:Q; [|reflexivity]. apply C in Q. congruence.
  - intros r S. destruct (resolved_means_reachable T g author local k y p r HT G W' S) as (_ & Q & _). congruence.
  - unfold is_in_active_v_subset. rewrite NB. cbn [negb].
    destruct (mem p _); [reflexivity|]. destruct (mem p _); [reflexivity|]. destruct (mem p _); [reflexivity|]. destruct (mem p _); reflexivity.
Qed.

(** Broadcasts go to every resolved validator of the current and of the next epoch; a receiver is
    one of these, or, while no next epoch is scheduled, a validator of the previous epoch. *)
Theorem broadcasts_reach_the_right_peers T g author local k x p :
  timeline T -> 1 < g -> works T g author local k x ->
  (forall r, current_start x <= r -> state_at x p r = Some true -> receives x p = true) /\
  (receives x p = true ->
     (exists r, current_start x <= r /\ state_at x p r = Some true) \/
     (s_next (f_starts (k_data (p_lock x))) = None /\
      exists i, k = S i /\ In p (members (T i)))).
Proof.
  intros HT G W. destruct (works_xinv T g author local k x HT G W) as [K L B].
  destruct (works_ring T g author local k x HT G W) as (gr & H & O). pose proof (n_d _ _ K) as D. split.
  - intros r CR S. unfold receives. apply (d_ra _ _ D). unfold state_at, peers_state_for, arr_idx, current_start in *.
    destruct (match s_next _ with Some _ => _ | None => _ end); [right; exact S|].
    destruct (N.leb_spec (s_curr (f_starts (k_data (p_lock x)))) r); [left; exact S|lia].
  - intros R. destruct (d_rb _ _ D p R) as [Q|[Q|[Q1 Q2]]].
    + left. exists (current_start x). split; [lia|].
      unfold state_at, peers_state_for, arr_idx, current_start.
      assert (NN : match s_next (f_starts (k_data (p_lock x))) with Some n => n <=? s_curr (f_starts (k_data (p_lock x))) | None => false end = false).
      { rewrite (h_fs _ _ H). cbn [s_next s_curr]. pose proof (h_next _ _ H) as HN. destruct (r_n gr) as [e|]; [|reflexivity].
        cbn [option_map]. apply N.leb_gt. apply HN. }
      rewrite NN, N.leb_refl. exact Q.
    + left. destruct (s_next (f_starts (k_data (p_lock x)))) as [n|] eqn:SN.
      2:{ rewrite (d_n3 _ _ D SN) in Q. discriminate. }
      exists n. split.
      * unfold current_start. pose proof (h_next _ _ H) as HN. rewrite (h_fs _ _ H) in *. cbn [s_next s_curr] in *.
        destruct (r_n gr) as [e|]; [|discriminate]. cbn [option_map] in SN. injection SN as <-. lia.
      * unfold state_at, peers_state_for, arr_idx. rewrite SN, N.leb_refl. exact Q.
    + right. split; [exact Q1|].
      destruct O as (c & RC & RP & RO & [[CK RN]|[CK RN]]).
      2:{ rewrite (h_fs _ _ H) in Q1. cbn [s_next] in Q1. rewrite RN in Q1. discriminate. }
      subst c. pose proof (h_sub _ _ H) as HS. cbn zeta in HS. destruct HS as (_ & H1 & _).
      rewrite has_mem, H1, mem_nodup, RP in Q2. unfold pick in Q2.
      destruct k as [|i]; [discriminate|]. exists i. split; [reflexivity|].
      apply mem_In. cbn [Nat.ltb Nat.leb] in Q2. replace (S i - 1)%nat with i in Q2 by lia. exact Q2.
Qed.

(** *** lifting a ban *)

Definition full (p : peer) (k : locked) : Prop :=
  look p (k_entries k) = Some true -> forall i, has p (at_slot (f_sub (k_data k)) i) = true ->
  look p (at_slot (f_sub (k_data k)) i) = Some true.
Definition settled (p : peer) (k : locked) : Prop :=
  in_any_vset (k_data k) p = false \/ (look p (k_entries k) <> None /\ full p k).

Lemma unban_one_settles net kb p : settled p (fst (unban_one net kb p)).
Proof.
  destruct kb as [k need]. unfold unban_one.
  destruct (in_any_vset (k_data k) p) eqn:V; [|left; exact V].
  destruct (look p (e_insert net p (k_entries k))) as [[|]|] eqn:E.
  - pose proof (fun i => set_state_at (k_data k) p true i p) as SA.
    pose proof (set_state_facts (k_data k) p true) as (FV & FS & _).
    destruct (set_state (k_data k) p true) as [d ok]. cbn [fst] in *. right. cbn [k_entries]. split; [congruence|].
    intros _ i. cbn [k_data]. rewrite FS, at_upd, has_upd. intros Hs. rewrite FS in SA. specialize (SA i). rewrite at_upd in SA.
    rewrite SA, N.eqb_refl, Hs. reflexivity.
  - right. cbn [fst k_entries]. split; [congruence|]. intros Q. cbn [k_entries] in Q. congruence.
  - exfalso. rewrite look_insert, N.eqb_refl in E. destruct (look p (k_entries k)); discriminate.
Qed.
Lemma unban_one_stays net kb q p : settled p (fst kb) -> settled p (fst (unban_one net kb q)).
Proof.
  destruct (N.eqb_spec q p) as [E|N]; [subst q; intros _; apply unban_one_settles|].
  destruct kb as [k need]. cbn [fst]. intros S. unfold unban_one.
  destruct (in_any_vset (k_data k) q) eqn:V; [|exact S].
  assert (LI : look p (k_entries k) <> None -> look p (e_insert net q (k_entries k)) = look p (k_entries k)).
  { intros Q. rewrite look_insert. destruct (look p (k_entries k)); [reflexivity|congruence]. }
  assert (S2 : forall w b b2 s, settled p (Locked (k_local k) (e_insert net q (k_entries k)) w b s (k_data k)) /\ b2 = b2 :> bool).
  { intros w b b2 s. split; [|reflexivity]. destruct S as [S|[S1 S2]]; [left; exact S|]. right. cbn [k_entries k_data]. rewrite (LI S1). split; [exact S1|].
    intros Q. cbn [k_entries k_data] in *. rewrite (LI S1) in Q. exact (S2 Q). }
  destruct (look q (e_insert net q (k_entries k))) as [[|]|]; cbn [fst]; [|apply (S2 (k_wait k) (del q (k_banned k)) true (k_sent k))|apply (S2 (k_wait k) (del q (k_banned k)) true (k_sent k))].
  pose proof (fun i => set_state_at (k_data k) q true i p) as SA.
  pose proof (set_state_facts (k_data k) q true) as (FV & FS & _).
  destruct (set_state (k_data k) q true) as [d ok]. cbn [fst] in *.
  destruct S as [S|[S1 S2']].
  - left. cbn [k_data]. rewrite (any_vset_upd (k_data k) d q true p FV). exact S.
  - right. cbn [k_entries]. rewrite (LI S1). split; [exact S1|]. intros Q i. cbn [k_entries k_data] in *. rewrite (LI S1) in Q.
    specialize (SA i). destruct (N.eqb_spec p q); [congruence|]. rewrite SA.
    rewrite FS, at_upd, has_upd. exact (S2' Q i).
Qed.

(** Lifting a ban restores the peer: it is a contact again, and resolved in every round where it
    is a validator if its address is known; otherwise it is waited for. *)
Theorem lifted_ban_restores T g author local k x net l y p r :
  timeline T -> 1 < g -> works T g author local k x -> ~ In local l -> do x (OUnban net l) = Some y -> In p l ->
  is_banned (p_less y) p = false /\
  (In p (peers_for (p_less y) r) -> p <> author ->
     contact y p = true /\
     ((address_known y p /\ state_at y p r = Some true) \/ mem p (k_wait (p_lock y)) = true)).
Proof.
  intros HT G W NL D I.
  assert (W' : works T g author local k y).
  { destruct W as (net0 & ip & x0 & ops & k0 & I0 & E & U1 & U2 & NA & O & R).
    exists net0, ip, x0, (ops ++ [OUnban net l]), k0. split; [exact I0|]. split; [exact E|]. split; [exact U1|]. split; [exact U2|]. split; [exact NA|]. split.
    - clear - O NL. induction O as [k|k k1 k2 net0 ip l0 TL U1 U2 A N O IH|k k2 net0 q l0 NL0 O IH|k k2 o l0 N1 N2 O IH]; cbn [app].
      + apply o_unban; [exact NL|constructor].
      + eapply o_peers; eauto.
      + apply o_unban; auto.
      + apply o_other; auto.
    - assert (RA : forall ops a b o, run a ops = Some b -> run a (ops ++ [o]) = do b o).
      { clear. induction ops as [|o1 ops IH]; intros a b o H; cbn [run app] in *.
        - injection H as <-. destruct (do a o); reflexivity.
        - destruct (do a o1); [|discriminate]. cbn [bindp] in *. auto. }
      rewrite (RA ops x0 x (OUnban net l) R). exact D. }
  assert (NB : is_banned (p_less y) p = false).
  { cbn [do] in D. injection D as <-. unfold remove_bans. destruct l as [|a l]; [destruct I|].
    unfold is_banned. cbn [p_less remove_banned l_banned]. rewrite mem_fold_del.
    apply mem_In in I. rewrite I. apply andb_false_r. }
  split; [exact NB|]. intros IP PA.
  destruct (works_xinv T g author local k y HT G W') as [K L B].
  destruct (works_ring T g author local k y HT G W') as (gr & H & O).
  apply mem_In in IP. apply (has_state y gr p r H) in IP.
  destruct (state_at y p r) as [v|] eqn:SA; [|congruence].
  assert (V : in_any_vset (k_data (p_lock y)) p = true).
  { destruct (state_slot y r p v SA) as [j LJ].
    assert (HV : has p (at_slot (f_vset (k_data (p_lock y))) j) = true).
    { apply (d_al _ _ (n_d _ _ K) j p PA). unfold has. rewrite LJ. reflexivity. }
    unfold in_any_vset. destruct j as [|[|[|j]]]; cbn [at_slot] in HV; rewrite HV, ?orb_true_r; reflexivity. }
  assert (C : contact y p = true).
  { unfold contact. rewrite (n_ent _ _ K), V, B, NB. reflexivity. }
  split; [exact C|].
  destruct (unknown_address_is_awaited T g author local k y p HT G W' C) as [AK|AW]; [|left|right; exact AW].
  { intros ->. exact (NL I). }
  split; [exact AK|].
  assert (S : settled p (p_lock y)).
  { cbn [do] in D. injection D as <-. unfold remove_bans. destruct l as [|a l]; [destruct I|]. cbn [p_lock].
    unfold remove_bans_k.
    assert (F : forall l0 kb, In p l0 \/ settled p (fst kb) -> settled p (fst (fold_left (unban_one net) l0 kb))).
    { induction l0 as [|b l0 IH]; intros kb [Q|Q]; cbn [fold_left]; [destruct Q|exact Q| |].
      - destruct Q as [Q|Q]; [subst b; apply IH; right; apply unban_one_settles|apply IH; left; exact Q].
      - apply IH. right. apply unban_one_stays. exact Q. }
    pose proof (F (a :: l) (p_lock x, false) (or_introl I)) as S.
    destruct (fold_left (unban_one net) (a :: l) (p_lock x, false)) as [k1 need]. cbn [fst] in S.
    destruct need; exact S. }
  destruct S as [S|[_ S]]; [congruence|].
  rewrite <- SA. revert SA. unfold state_at, peers_state_for. destruct (arr_idx _ _) as [i|]; [|discriminate]. intros SA.
  apply (S AK i). unfold has. rewrite SA. reflexivity.
Qed.

(** A banned peer gets no broadcasts, unless it is a validator of the previous epoch and no next
    epoch is scheduled. *)
Corollary banned_gets_no_broadcasts T g author local k x p :
  timeline T -> 1 < g -> works T g author local k x -> is_banned (p_less x) p = true ->
  s_next (f_starts (k_data (p_lock x))) <> None \/ (forall i, k = S i -> ~ In p (members (T i))) ->
  receives x p = false.
Proof.
  intros HT G W NB C. destruct (receives x p) eqn:R; [|reflexivity]. exfalso.
  apply (broadcasts_reach_the_right_peers T g author local k x p HT G W) in R as [(r & _ & S)|(N & i & K & M)].
  - destruct (resolved_means_reachable T g author local k x p r HT G W S) as (_ & Q & _). congruence.
  - destruct C as [C|C]; [congruence|exact (C i K M)].
Qed.
