(** Which validators belong to which round: the schedule's slots against the timeline. *)
From Coq Require Import List Bool NArith Lia ZArith ZifyN ZifyNat ZifyBool.
From Verif Require Import PsModel PsSpec.
Import ListNotations.
Local Open Scope N_scope.

(** ** Slots as optional epochs *)

Definition st (e : option epoch) : round := match e with Some e => e_start e | None => 0 end.
Definition sub (e : option epoch) : list (peer * N) := match e with Some e => e_sub e | None => [] end.
Definition vec (e : option epoch) : list peer := map fst (sub e).

Record ring := Ring { r_o : option epoch; r_p : option epoch; r_c : option epoch; r_n : option epoch }.

Definition keys (m : states) : list peer := map fst m.

Record holds (x : ps) (g : ring) : Prop := {
  h_fs : f_starts (k_data (p_lock x)) = Starts (st (r_o g)) (st (r_p g)) (st (r_c g)) (option_map e_start (r_n g));
  h_ls : l_starts (p_less x) = f_starts (k_data (p_lock x));
  h_vec : l_vec (p_less x) = Quad (vec (r_o g)) (vec (r_p g)) (vec (r_c g)) (vec (r_n g));
  h_set : l_set (p_less x) = l_vec (p_less x);
  h_slot : l_slots (p_less x) = Quad (enum_from 0 (sort_idx (sub (r_o g)))) (enum_from 0 (sort_idx (sub (r_p g))))
                                     (enum_from 0 (sort_idx (sub (r_c g)))) (enum_from 0 (sort_idx (sub (r_n g))));
  h_sub : let a := f_sub (k_data (p_lock x)) in
          keys (q0 a) = nodup N.eq_dec (vec (r_o g)) /\ keys (q1 a) = nodup N.eq_dec (vec (r_p g)) /\
          keys (q2 a) = nodup N.eq_dec (vec (r_c g)) /\ keys (q3 a) = nodup N.eq_dec (vec (r_n g));
  h_next : match r_n g with Some e => st (r_c g) < e_start e /\ e_sub e <> [] | None => True end }.

(** the epoch-related part of a state *)
Definition same_epochs (x y : ps) : Prop :=
  f_starts (k_data (p_lock y)) = f_starts (k_data (p_lock x)) /\
  l_starts (p_less y) = l_starts (p_less x) /\ l_vec (p_less y) = l_vec (p_less x) /\
  l_set (p_less y) = l_set (p_less x) /\ l_slots (p_less y) = l_slots (p_less x) /\
  keys (q0 (f_sub (k_data (p_lock y)))) = keys (q0 (f_sub (k_data (p_lock x)))) /\
  keys (q1 (f_sub (k_data (p_lock y)))) = keys (q1 (f_sub (k_data (p_lock x)))) /\
  keys (q2 (f_sub (k_data (p_lock y)))) = keys (q2 (f_sub (k_data (p_lock x)))) /\
  keys (q3 (f_sub (k_data (p_lock y)))) = keys (q3 (f_sub (k_data (p_lock x)))).

Lemma holds_same x y g : holds x g -> same_epochs x y -> holds y g.
Proof.
  intros [A B C D E F G] (s1 & s2 & s3 & s4 & s5 & s6 & s7 & s8 & s9). constructor.
  - rewrite s1. exact A.
  - rewrite s2, s1. exact B.
  - rewrite s3. exact C.
  - rewrite s4, s3. exact D.
  - rewrite s5. exact E.
  - cbn zeta in *. rewrite s6, s7, s8, s9. exact F.
  - exact G.
Qed.

Definition same_data (d e : ful) : Prop :=
  f_starts e = f_starts d /\ keys (q0 (f_sub e)) = keys (q0 (f_sub d)) /\ keys (q1 (f_sub e)) = keys (q1 (f_sub d)) /\
  keys (q2 (f_sub e)) = keys (q2 (f_sub d)) /\ keys (q3 (f_sub e)) = keys (q3 (f_sub d)).

Lemma same_data_refl d : same_data d d.
Proof. repeat split. Qed.
Lemma same_data_trans a b c : same_data a b -> same_data b c -> same_data a c.
Proof. intros (A1 & A2 & A3 & A4 & A5) (B1 & B2 & B3 & B4 & B5). repeat split; congruence. Qed.

Lemma same_lock x k : same_data (k_data (p_lock x)) (k_data k) -> same_epochs x (Ps k (p_less x)).
Proof. intros (A & B & C & D & E). repeat split; assumption. Qed.

Lemma keys_put p b m : keys (put p b m) = keys m.
Proof.
  unfold keys, put. rewrite map_map. apply map_ext. intros [q c]. cbn [fst].
  destruct (q =? p); reflexivity.
Qed.
Lemma keys_upd p b m : keys (upd_sub p b m) = keys m.
Proof. unfold upd_sub. destruct (differs p b m); [apply keys_put|reflexivity]. Qed.

Lemma set_state_same f p b : same_data f (fst (set_state f p b)).
Proof.
  unfold set_state. cbv zeta.
  match goal with |- context [if ?c then (_, true) else _] => destruct c end; cbn [fst];
    repeat split; cbn [f_sub q0 q1 q2 q3]; apply keys_upd.
Qed.

Lemma ban_one_same kb p : same_data (k_data (fst kb)) (k_data (fst (ban_one kb p))).
Proof.
  destruct kb as [k need]. unfold ban_one. cbn [fst].
  destruct (in_any_vset (k_data k) p); [|apply same_data_refl].
  pose proof (set_state_same (k_data k) p false) as S.
  destruct (set_state (k_data k) p false) as [d ok]. exact S.
Qed.
Lemma unban_one_same net kb p : same_data (k_data (fst kb)) (k_data (fst (unban_one net kb p))).
Proof.
  destruct kb as [k need]. unfold unban_one. cbn [fst].
  destruct (in_any_vset (k_data k) p); [|apply same_data_refl].
  destruct (look p (e_insert net p (k_entries k))) as [[|]|]; try apply same_data_refl.
  pose proof (set_state_same (k_data k) p true) as S.
  destruct (set_state (k_data k) p true) as [d ok]. exact S.
Qed.
Lemma fold_same (f : locked * bool -> peer -> locked * bool) l :
  (forall kb p, same_data (k_data (fst kb)) (k_data (fst (f kb p)))) ->
  forall kb, same_data (k_data (fst kb)) (k_data (fst (fold_left f l kb))).
Proof.
  intros H. induction l as [|p l IH]; intros kb; cbn [fold_left]; [apply same_data_refl|].
  exact (same_data_trans _ _ _ (H kb p) (IH (f kb p))).
Qed.

Lemma set_banned_same x l : same_epochs x (set_banned x l).
Proof.
  unfold set_banned. destruct l as [|p0 l0]; [apply same_lock; apply same_data_refl|].
  set (l := p0 :: l0).
  assert (S : same_data (k_data (p_lock x)) (k_data (set_banned_k (p_lock x) l))).
  { unfold set_banned_k.
    pose proof (fold_same ban_one l ban_one_same (p_lock x, false)) as S. cbn [fst] in S.
    destruct (fold_left ban_one l (p_lock x, false)) as [k1 need]. cbn [fst] in S.
    destruct need; exact S. }
  destruct S as (A & B & C & D & E). repeat split; assumption.
Qed.
Lemma remove_bans_same net x l : same_epochs x (remove_bans net x l).
Proof.
  unfold remove_bans. destruct l as [|p0 l0]; [apply same_lock; apply same_data_refl|].
  set (l := p0 :: l0).
  assert (S : same_data (k_data (p_lock x)) (k_data (remove_bans_k net (p_lock x) l))).
  { unfold remove_bans_k.
    pose proof (fold_same (unban_one net) l (unban_one_same net) (p_lock x, false)) as S. cbn [fst] in S.
    destruct (fold_left (unban_one net) l (p_lock x, false)) as [k1 need]. cbn [fst] in S.
    destruct need; exact S. }
  destruct S as (A & B & C & D & E). repeat split; assumption.
Qed.
Lemma take_forget_same x : same_epochs x (fst (take_forget x)).
Proof. apply same_lock. repeat split. Qed.
Lemma net_same x p : same_epochs x (net_resolves x p).
Proof. apply same_lock. apply same_data_refl. Qed.
Lemma task_same x p : same_epochs x (task_fires x p).
Proof.
  unfold task_fires. cbv zeta. apply same_lock.
  destruct (mem p (k_banned (p_lock x))); [apply same_data_refl|].
  unfold set_resolved. cbn [k_data].
  pose proof (set_state_same (k_data (p_lock x)) p true) as S.
  destruct (set_state (k_data (p_lock x)) p true) as [d ok]. exact S.
Qed.
Lemma set_next_set_same net k v : same_data (k_data k) (k_data (set_next_set net k v)).
Proof. unfold set_next_set. cbv zeta. unfold set_next_validator_set. repeat split. Qed.
Lemma next_vset_same net x v : same_epochs x (next_vset net x v).
Proof. apply same_lock. apply set_next_set_same. Qed.
Lemma new_task_same x : same_epochs x (Ps (new_task (p_lock x)) (p_less x)).
Proof. apply same_lock. apply same_data_refl. Qed.

Lemma keys_of_peers all l : keys (of_peers all l) = nodup N.eq_dec l.
Proof. unfold keys, of_peers. rewrite map_map. cbn [fst]. apply map_id. Qed.

Lemma keys_nil (m : states) : keys m = [] -> m = [].
Proof. destruct m; [reflexivity|discriminate]. Qed.

(** ** Scheduling and rotating *)

Lemma schedule_holds net x g e : holds x g ->
  holds (set_next_subset net x e)
    (if (e_start e <=? st (r_c g)) || match e_sub e with [] => true | _ => false end then g
     else Ring (r_o g) (r_p g) (r_c g) (Some e)).
Proof.
  intros H. destruct H as [A B C D E F G]. unfold set_next_subset. rewrite A. cbn [s_curr].
  destruct ((e_start e <=? st (r_c g)) || match e_sub e with [] => true | _ => false end) eqn:Q.
  { constructor; assumption. }
  apply orb_false_iff in Q as [Q1 Q2].
  pose proof (set_next_set_same net (p_lock x) (e_vset e)) as (S1 & S2 & S3 & S4 & S5).
  cbn zeta in F. destruct F as (F0 & F1 & F2 & F3).
  constructor; cbn [p_less p_lock with_data k_data next_of f_starts f_sub set_next_subset_f set_next_peers
                    l_starts l_vec l_set l_slots r_o r_p r_c r_n option_map q0 q1 q2 q3].
  - rewrite S1, A. reflexivity.
  - rewrite B, S1. reflexivity.
  - rewrite C. cbn [q0 q1 q2]. reflexivity.
  - rewrite D. reflexivity.
  - rewrite E. cbn [q0 q1 q2]. reflexivity.
  - rewrite S2, S3, S4. rewrite keys_of_peers. repeat split; assumption.
  - split; [apply N.leb_gt; exact Q1|]. destruct (e_sub e); [discriminate|discriminate].
Qed.

Lemma apply_holds x g r : holds x g ->
  exists y, apply_impl x r = Some y /\
    holds y (match r_n g with
             | Some e => if e_start e <=? r then Ring (r_p g) (r_c g) (Some e) None else g
             | None => g
             end).
Proof.
  intros H. pose proof H as [A B C D E F G]. unfold apply_impl. rewrite A. cbn [s_next].
  destruct (r_n g) as [e|] eqn:N; cbn [option_map not_due]; [|exists x; split; [reflexivity|exact H]].
  destruct (N.ltb_spec r (e_start e)) as [L|L].
  { exists x. split; [reflexivity|]. destruct (N.leb_spec (e_start e) r); [lia|exact H]. }
  destruct (N.leb_spec (e_start e) r) as [_|]; [|lia].
  destruct G as [G1 G2]. cbn zeta in F. destruct F as (F0 & F1 & F2 & F3).
  unfold forget_oldest_k, forget_oldest_f. cbv zeta.
  unfold rotate_f. cbn [new_task k_data f_vset f_sub q0 f_starts].
  unfold rotate_starts. rewrite A. cbn [s_next s_curr option_map s_prev].
  destruct (N.ltb_spec (st (r_c g)) (e_start e)) as [_|]; [|lia].
  unfold rotate_s, forget_oldest_s. cbn [l_set l_vec q0 l_starts].
  unfold rotate_starts. rewrite B, A. cbn [s_next s_curr option_map s_prev].
  destruct (N.ltb_spec (st (r_c g)) (e_start e)) as [_|]; [|lia].
  eexists. split; [reflexivity|].
  constructor; cbn [p_less p_lock with_data new_task k_data f_starts f_sub l_starts l_vec l_set l_slots r_o r_p r_c r_n
                    option_map rot q0 q1 q2 q3 st].
  - reflexivity.
  - reflexivity.
  - rewrite C. cbn [q0 q1 q2 q3]. reflexivity.
  - rewrite D. reflexivity.
  - rewrite E. cbn [q0 q1 q2 q3]. reflexivity.
  - repeat split; try assumption.
  - exact I.
Qed.

Lemma apply_scheduled_impl_eq x g r : holds x g -> apply_scheduled x r = apply_impl x r.
Proof.
  intros H. unfold apply_scheduled, apply_impl. rewrite (h_ls _ _ H).
  destruct (not_due _ r); reflexivity.
Qed.

(** ** What a ring answers *)

Definition ring_at (g : ring) (r : round) : option epoch :=
  if match r_n g with Some e => e_start e <=? r | None => false end then r_n g
  else if st (r_c g) <=? r then r_c g
  else if st (r_p g) <=? r then r_p g
  else if st (r_o g) <=? r then r_o g
  else None.

Definition slots_of (l : list (peer * N)) : option (list (peer * N)) :=
  match l with [] => None | _ => Some (enum_from 0 (sort_idx l)) end.

Lemma holds_answers x g r : holds x g ->
  peers_for (p_less x) r = vec (ring_at g r) /\
  peers_ordered_for (p_less x) r = vec (ring_at g r) /\
  keys (peers_state_for (k_data (p_lock x)) r) = nodup N.eq_dec (vec (ring_at g r)) /\
  stats_slot_map (p_less x) r =
    slots_of (sub (ring_at g r)).
Proof.
  intros [A B C D E F G]. destruct g as [ro rp rc rn]. cbn [r_o r_p r_c r_n] in *. cbn zeta in F. destruct F as (F0 & F1 & F2 & F3).
  assert (K : forall l : list (peer * N), match enum_from 0 (sort_idx l) with [] => None | m => Some m end =
                 slots_of l).
  { intros [|a l]; [reflexivity|].
    assert (W : sort_idx (a :: l) <> []).
    { change (ins_idx a (sort_idx l) <> []). destruct (sort_idx l) as [|b m]; cbn [ins_idx]; [discriminate|].
      destruct (snd a <=? snd b); discriminate. }
    unfold slots_of. destruct (sort_idx (a :: l)) as [|[b c] m]; [congruence|]. reflexivity. }
  unfold peers_for, peers_ordered_for, peers_state_for, stats_slot_map, ring_at.
  rewrite D, C, B, A, E. unfold arr_idx. cbn [r_o r_p r_c r_n]. cbn [s_next s_curr s_prev s_old].
  destruct rn as [e|]; cbn [option_map].
  - destruct (e_start e <=? r); cbn [at_slot q0 q1 q2 q3]; [(split; [|split; [|split]]); first [reflexivity|assumption|apply K]|].
    destruct (st rc <=? r); cbn [at_slot q0 q1 q2 q3]; [(split; [|split; [|split]]); first [reflexivity|assumption|apply K]|].
    destruct (st rp <=? r); cbn [at_slot q0 q1 q2 q3]; [(split; [|split; [|split]]); first [reflexivity|assumption|apply K]|].
    destruct (st ro <=? r); cbn [at_slot q0 q1 q2 q3]; (split; [|split; [|split]]); first [reflexivity|assumption|apply K].
  - destruct (st rc <=? r); cbn [at_slot q0 q1 q2 q3]; [(split; [|split; [|split]]); first [reflexivity|assumption|apply K]|].
    destruct (st rp <=? r); cbn [at_slot q0 q1 q2 q3]; [(split; [|split; [|split]]); first [reflexivity|assumption|apply K]|].
    destruct (st ro <=? r); cbn [at_slot q0 q1 q2 q3]; (split; [|split; [|split]]); first [reflexivity|assumption|apply K].
Qed.

(** ** Rings that follow a timeline *)

Definition pick (T : nat -> epoch) (i d : nat) : option epoch := if (i <? d)%nat then None else Some (T (i - d)%nat).

(** [c] is the epoch in the current slot *)
Definition on_ring (T : nat -> epoch) (k : nat) (g : ring) : Prop :=
  exists c, r_c g = Some (T c) /\ r_p g = pick T c 1 /\ r_o g = pick T c 2 /\
    ((c = k /\ r_n g = None) \/ (k = S c /\ r_n g = Some (T k))).

Lemma starts_lt T i j : timeline T -> (i < j)%nat -> e_start (T i) < e_start (T j).
Proof.
  intros H L. induction j as [|j IH]; [lia|].
  pose proof (proj1 (H j)). destruct (Nat.eq_dec i j) as [->|]; [assumption|].
  assert (e_start (T i) < e_start (T j)) by (apply IH; lia). lia.
Qed.
Lemma starts_le T i j : timeline T -> (i <= j)%nat -> e_start (T i) <= e_start (T j).
Proof.
  intros H L. destruct (Nat.eq_dec i j) as [->|]; [lia|].
  pose proof (starts_lt T i j H ltac:(lia)). lia.
Qed.
Lemma subs_ne T i : timeline T -> e_sub (T 0%nat) <> [] -> e_sub (T i) <> [].
Proof. intros H H0. destruct i; [assumption|]. exact (proj2 (H i)). Qed.

Definition sched (g : ring) (e : epoch) : ring :=
  if (e_start e <=? st (r_c g)) || match e_sub e with [] => true | _ => false end then g
  else Ring (r_o g) (r_p g) (r_c g) (Some e).
Definition adv (g : ring) (r : round) : ring :=
  match r_n g with
  | Some e => if e_start e <=? r then Ring (r_p g) (r_c g) (Some e) None else g
  | None => g
  end.

Lemma adv_ring T k g r : on_ring T k g -> on_ring T k (adv g r).
Proof.
  intros (c & A & B & C & [[-> D]|[-> D]]); unfold adv; rewrite D.
  - exists k. split; [exact A|]. split; [exact B|]. split; [exact C|]. left. auto.
  - destruct (e_start (T (S c)) <=? r).
    + exists (S c). cbn [r_c r_p r_o r_n]. split; [reflexivity|]. split.
      { unfold pick. destruct (Nat.ltb_spec (S c) 1); [lia|].
        replace (S c - 1)%nat with c by lia. exact A. }
      split; [|left; auto].
      rewrite B. unfold pick. destruct (c <? 1)%nat eqn:L.
      * apply Nat.ltb_lt in L. destruct (Nat.ltb_spec (S c) 2); [reflexivity|lia].
      * apply Nat.ltb_ge in L. destruct (Nat.ltb_spec (S c) 2); [lia|].
        replace (S c - 2)%nat with (c - 1)%nat by lia. reflexivity.
    + exists c. split; [exact A|]. split; [exact B|]. split; [exact C|]. right. auto.
Qed.

(** old epochs change nothing *)
Lemma sched_old T k g e : timeline T -> on_ring T k g ->
  (stale T e \/ exists j, (j <= k)%nat /\ e = T j) -> sched g e = g.
Proof.
  intros HT (c & A & B & C & D) H. unfold sched. rewrite A. cbn [st].
  assert (LE : forall i, (i <= c)%nat -> e_start (T i) <= e_start (T c)) by (intros; apply starts_le; assumption).
  destruct H as [[H|H]|(j & H & ->)].
  - pose proof (LE 0%nat ltac:(lia)). destruct (N.leb_spec (e_start e) (e_start (T c))); [reflexivity|lia].
  - rewrite H, orb_true_r. reflexivity.
  - destruct D as [[-> D]|[-> D]].
    + pose proof (LE j H). destruct (N.leb_spec (e_start (T j)) (e_start (T k))); [reflexivity|lia].
    + destruct (Nat.eq_dec j (S c)) as [->|].
      * destruct ((e_start (T (S c)) <=? e_start (T c)) || match e_sub (T (S c)) with [] => true | _ => false end); [reflexivity|].
        destruct g as [o p c' n]. cbn [r_n r_c r_o r_p] in *. subst. reflexivity.
      * pose proof (LE j ltac:(lia)). destruct (N.leb_spec (e_start (T j)) (e_start (T c))); [reflexivity|lia].
Qed.

Lemma told_ring T k ip k' g : timeline T -> on_ring T k g -> told T k ip k' ->
  on_ring T k' (sched (adv (sched g (ip_prev ip)) (e_start (ip_prev ip))) (ip_curr ip)).
Proof.
  intros HT R H. destruct H as [P C|P C].
  - rewrite (sched_old T k g _ HT R P). pose proof (adv_ring T k g (e_start (ip_prev ip)) R) as R1.
    rewrite (sched_old T k _ _ HT R1 C). exact R1.
  - rewrite P, C. rewrite (sched_old T k g (T k) HT R); [|right; exists k; split; [lia|reflexivity]].
    assert (R1 := adv_ring T k g (e_start (T k)) R).
    (* after the rotation the current slot is epoch k *)
    assert (Q : exists o p, adv g (e_start (T k)) = Ring o p (Some (T k)) None /\
                  p = pick T k 1 /\ o = pick T k 2).
    { destruct R1 as (c1 & A1 & B1 & C1 & D1).
      destruct D1 as [[-> D1]|[E D1]].
      - destruct (adv g (e_start (T k))) as [o p cc n]. cbn [r_c r_p r_o r_n] in *. subst.
        eexists _, _. split; [reflexivity|]. auto.
      - exfalso. destruct R as (c & A & B & C0 & [[-> D]|[-> D]]).
        + unfold adv in D1. rewrite D in D1. congruence.
        + unfold adv in D1. rewrite D in D1.
          destruct (N.leb_spec (e_start (T (S c))) (e_start (T (S c)))); [discriminate D1|lia]. }
    destruct Q as (o & p & -> & -> & ->).
    unfold sched. cbn [r_c st].
    destruct (HT k) as [L NE].
    destruct (N.leb_spec (e_start (T (S k))) (e_start (T k))); [lia|].
    destruct (e_sub (T (S k))) eqn:Q; [congruence|]. cbn [orb].
    exists k. cbn [r_c r_p r_o r_n]. repeat split. right. auto.
Qed.

(** ** Answers of a ring on a timeline *)

Lemma ring_answers T k g i r : timeline T -> on_ring T k g -> belongs T k i r ->
  ((k <= i + 2)%nat -> ring_at g r = Some (T i)) /\ (ring_at g r = Some (T i) \/ ring_at g r = None).
Proof.
  intros HT (c & A & B & C & D) (I1 & I2 & I3).
  assert (LT : forall a b, (a < b)%nat -> e_start (T a) < e_start (T b)) by (intros; apply starts_lt; assumption).
  assert (LE : forall a b, (a <= b)%nat -> e_start (T a) <= e_start (T b)) by (intros; apply starts_le; assumption).
  assert (UP : forall j, (i < j)%nat -> (j <= k)%nat -> r < e_start (T j)).
  { intros j H1 H2. pose proof (I3 ltac:(lia)). pose proof (LE (S i) j ltac:(lia)). lia. }
  assert (MAIN : forall j, (i <= j)%nat ->
            (if e_start (T j) <=? r then (i = j) else (i < j)%nat) \/ (j > k)%nat).
  { intros j H1. destruct (Nat.le_gt_cases j k); [|right; lia]. left.
    destruct (Nat.eq_dec i j) as [->|].
    - destruct (N.leb_spec (e_start (T j)) r); [reflexivity|lia].
    - pose proof (UP j ltac:(lia) ltac:(lia)). destruct (N.leb_spec (e_start (T j)) r); lia. }
  unfold ring_at. rewrite A, B, C. cbn [st].
  assert (TAIL : (i <= c)%nat -> (c <= k)%nat -> (k <= S c)%nat ->
      let v := (if e_start (T c) <=? r then Some (T c)
                else if st (pick T c 1) <=? r then pick T c 1
                else if st (pick T c 2) <=? r then pick T c 2 else None) in
      ((c <= i + 2)%nat -> v = Some (T i)) /\ (v = Some (T i) \/ v = None)).
  { intros IC CK KC. cbn zeta.
    destruct (MAIN c IC) as [M|]; [|lia].
    destruct (e_start (T c) <=? r) eqn:Q; [subst i; auto|].
    unfold pick at 1 2 5 6 9 10. destruct (c <? 1)%nat eqn:L1.
    { apply Nat.ltb_lt in L1. lia. }
    apply Nat.ltb_ge in L1. cbn [st].
    destruct (MAIN (c - 1)%nat ltac:(lia)) as [M1|]; [|lia].
    destruct (e_start (T (c - 1)%nat) <=? r) eqn:Q1; [subst i; auto|].
    unfold pick. destruct (c <? 2)%nat eqn:L2.
    { apply Nat.ltb_lt in L2. lia. }
    apply Nat.ltb_ge in L2. cbn [st].
    destruct (le_lt_dec i (c - 2)) as [I5|]; [|lia].
    destruct (MAIN (c - 2)%nat I5) as [M2|]; [|lia].
    destruct (e_start (T (c - 2)%nat) <=? r) eqn:Q2; [subst i; auto|].
    split; [intros; lia|auto]. }
  destruct D as [[-> D]|[-> D]]; rewrite D.
  - apply TAIL; lia.
  - destruct (Nat.eq_dec i (S c)) as [->|].
    + destruct (N.leb_spec (e_start (T (S c))) r); [auto|lia].
    + pose proof (UP (S c) ltac:(lia) ltac:(lia)).
      destruct (N.leb_spec (e_start (T (S c))) r); [lia|].
      destruct (TAIL ltac:(lia) ltac:(lia) ltac:(lia)) as [T1 T2]. split; [intros; apply T1; lia|exact T2].
Qed.

Lemma ring_before T k g r : timeline T -> on_ring T k g -> r < e_start (T 0%nat) -> ring_at g r = None.
Proof.
  intros HT (c & A & B & C & D) L.
  assert (LE : forall b, e_start (T 0%nat) <= e_start (T b)) by (intros; apply starts_le; [assumption|lia]).
  unfold ring_at. rewrite A, B, C. cbn [st].
  assert (Z : (match r_n g with Some e => e_start e <=? r | None => false end) = false).
  { destruct D as [[_ ->]|[_ ->]]; [reflexivity|]. apply N.leb_gt. pose proof (LE k). lia. }
  rewrite Z. destruct (N.leb_spec (e_start (T c)) r); [pose proof (LE c); lia|].
  unfold pick. destruct (c <? 1)%nat; cbn [st].
  { destruct (0 <=? r); [reflexivity|]. destruct (c <? 2)%nat; cbn [st]; [destruct (0 <=? r); reflexivity|].
    destruct (N.leb_spec (e_start (T (c - 2)%nat)) r); [pose proof (LE (c - 2)%nat); lia|reflexivity]. }
  destruct (N.leb_spec (e_start (T (c - 1)%nat)) r); [pose proof (LE (c - 1)%nat); lia|].
  destruct (c <? 2)%nat; cbn [st]; [destruct (0 <=? r); reflexivity|].
  destruct (N.leb_spec (e_start (T (c - 2)%nat)) r); [pose proof (LE (c - 2)%nat); lia|reflexivity].
Qed.

(** ** Runs *)

Lemma set_peers_holds net ip x g : holds x g ->
  exists y g', set_peers net ip x = Some y /\ holds y g' /\
    (g' = sched (adv (sched g (ip_prev ip)) (e_start (ip_prev ip))) (ip_curr ip) \/
     g' = adv (sched (adv (sched g (ip_prev ip)) (e_start (ip_prev ip))) (ip_curr ip)) (e_start (ip_curr ip))).
Proof.
  intros H. unfold set_peers. cbv zeta.
  pose proof (schedule_holds net x g (ip_prev ip) H) as H1. fold (sched g (ip_prev ip)) in H1.
  destruct (apply_holds _ _ (e_start (ip_prev ip)) H1) as (y & Y & H2).
  fold (adv (sched g (ip_prev ip)) (e_start (ip_prev ip))) in H2.
  rewrite Y. cbn [bindp].
  pose proof (schedule_holds net y _ (ip_curr ip) H2) as H3.
  match type of H3 with holds _ ?g' => change g' with (sched (adv (sched g (ip_prev ip)) (e_start (ip_prev ip))) (ip_curr ip)) in H3 end.
  destruct (ip_next ip) as [|v0 vs] eqn:NV.
  - eexists _, _. split; [reflexivity|]. split; [exact H3|]. left. reflexivity.
  - destruct (apply_holds _ _ (e_start (ip_curr ip)) H3) as (z & Z & H4). rewrite Z. cbn [bindp].
    eexists _, _. split; [reflexivity|]. split.
    + eapply holds_same; [exact H4|apply next_vset_same].
    + right. reflexivity.
Qed.

Lemma do_other_holds x g o : holds x g -> (forall net ip, o <> OPeers net ip) ->
  exists y g', do x o = Some y /\ holds y g' /\ (g' = g \/ exists r, g' = adv g r).
Proof.
  intros H N. destruct o; cbn [do].
  - exfalso. eapply N. reflexivity.
  - rewrite (apply_scheduled_impl_eq x g r H). destruct (apply_holds x g r H) as (y & Y & H1).
    exists y, (adv g r). split; [exact Y|]. split; [exact H1|]. right. exists r. reflexivity.
  - eexists _, g. split; [reflexivity|]. split; [|left; reflexivity].
    eapply holds_same; [exact H|apply set_banned_same].
  - eexists _, g. split; [reflexivity|]. split; [|left; reflexivity].
    eapply holds_same; [exact H|apply remove_bans_same].
  - eexists _, g. split; [reflexivity|]. split; [|left; reflexivity].
    eapply holds_same; [exact H|apply take_forget_same].
  - eexists _, g. split; [reflexivity|]. split; [|left; reflexivity].
    eapply holds_same; [exact H|apply net_same].
  - destruct (can_fire (p_lock x) p).
    + eexists _, g. split; [reflexivity|]. split; [|left; reflexivity].
      eapply holds_same; [exact H|apply task_same].
    + exists x, g. split; [reflexivity|]. split; [exact H|left; reflexivity].
Qed.

Lemma do_holds x g o : holds x g -> exists y g', do x o = Some y /\ holds y g'.
Proof.
  intros H.
  assert (W : (exists net ip, o = OPeers net ip) \/ (forall net ip, o <> OPeers net ip)).
  { destruct o; [left; eauto|..]; right; intros; discriminate. }
  destruct W as [(net & ip & ->)|W].
  - destruct (set_peers_holds net ip x g H) as (y & g' & A & B & _). exists y, g'. split; [exact A|exact B].
  - destruct (do_other_holds x g o H W) as (y & g' & A & B & _). exists y, g'. split; [exact A|exact B].
Qed.

Lemma run_holds l : forall x g, holds x g -> exists y g', run x l = Some y /\ holds y g'.
Proof.
  induction l as [|o l IH]; intros x g H; cbn [run]; [eauto|].
  destruct (do_holds x g o H) as (y & g' & A & B). rewrite A. cbn [bindp]. eauto.
Qed.

Lemma run_follows T l : forall x g k k', timeline T -> holds x g -> on_ring T k g -> follows T k l k' ->
  forall y, run x l = Some y -> exists g', holds y g' /\ on_ring T k' g'.
Proof.
  induction l as [|o l IH]; intros x g k k' HT H R F y Y; cbn [run] in Y.
  - inversion F; subst. injection Y as <-. eauto.
  - inversion F as [|k0 k1 k2 net ip l0 TL FL|k0 k2 o0 l0 NP FL]; subst.
    + cbn [do] in Y. destruct (set_peers_holds net ip x g H) as (z & g' & A & B & C).
      rewrite A in Y. cbn [bindp] in Y.
      assert (R' : on_ring T k1 g').
      { pose proof (told_ring T k ip k1 g HT R TL) as W. destruct C as [->| ->]; [exact W|apply adv_ring; exact W]. }
      eapply IH; eauto.
    + destruct (do_other_holds x g o H NP) as (z & g' & A & B & C). rewrite A in Y. cbn [bindp] in Y.
      assert (R' : on_ring T k g') by (destruct C as [->|[r ->]]; [exact R|apply adv_ring; exact R]).
      eapply IH; eauto.
Qed.

Definition ring0 := Ring None None None None.
Lemma holds0 local : holds (ps0 local) ring0.
Proof. constructor; cbn; auto. Qed.

Lemma init_holds net g author ip local :
  exists x gr, init net g author ip (ps0 local) = Some x /\ holds x gr /\
    forall T k0, timeline T -> 1 < g -> init_epochs g author ip = map T (seq 0 (S k0)) -> on_ring T k0 gr.
Proof.
  unfold init. cbv zeta.
  set (e0 := Epoch (g - 1) [] [(author, 0)]).
  pose proof (schedule_holds net (ps0 local) ring0 e0 (holds0 local)) as H1. fold (sched ring0 e0) in H1.
  destruct (apply_holds _ _ (g - 1) H1) as (x2 & X2 & H2). fold (adv (sched ring0 e0) (g - 1)) in H2.
  rewrite X2. cbn [bindp].
  set (g2 := adv (sched ring0 e0) (g - 1)) in *.
  set (pe := Epoch (N.max (e_start (ip_prev ip)) (g + 1)) (e_vset (ip_prev ip)) (e_sub (ip_prev ip))).
  set (ce := Epoch (N.max (e_start (ip_curr ip)) (g + 1)) (e_vset (ip_curr ip)) (e_sub (ip_curr ip))).
  set (g3 := if g + 1 <? e_start (ip_curr ip) then adv (sched g2 pe) (e_start pe) else g2).
  assert (X3 : exists x3, (if g + 1 <? e_start (ip_curr ip)
                           then apply_impl (set_next_subset net x2 pe) (N.max (e_start (ip_prev ip)) (g + 1))
                           else Some x2) = Some x3 /\ holds x3 g3).
  { unfold g3. destruct (g + 1 <? e_start (ip_curr ip)).
    - pose proof (schedule_holds net x2 g2 pe H2) as H3. fold (sched g2 pe) in H3.
      destruct (apply_holds _ _ (e_start pe) H3) as (x3 & Y3 & H4). exists x3. split; [exact Y3|exact H4].
    - exists x2. split; [reflexivity|exact H2]. }
  destruct X3 as (x3 & X3 & H3). rewrite X3. cbn [bindp].
  pose proof (schedule_holds net x3 g3 ce H3) as H4. fold (sched g3 ce) in H4.
  assert (RING : forall T k0, timeline T -> 1 < g -> init_epochs g author ip = map T (seq 0 (S k0)) -> on_ring T k0 (sched g3 ce)).
  { intros T k0 HT G1 IE. unfold init_epochs in IE. cbv zeta in IE. fold e0 pe ce in IE.
    assert (G2 : g2 = Ring None None (Some e0) None).
    { unfold g2, sched, ring0. cbn [r_c st e_start e0 e_sub]. destruct (N.leb_spec (g - 1) 0); [lia|]. cbn [orb].
      unfold adv. cbn [r_n r_p r_c e_start e0]. destruct (N.leb_spec (g - 1) (g - 1)); [reflexivity|lia]. }
    destruct k0 as [|k0].
    { exfalso. cbn [seq map] in IE. injection IE as _ IE. destruct (_ && _) in IE; discriminate IE. }
    cbn [seq map] in IE. injection IE as E0 IE.
    destruct (N.ltb_spec (g + 1) (e_start (ip_curr ip))) as [L|L].
    - destruct (e_sub (ip_prev ip)) as [|s0 ss] eqn:SP; cbn [andb app] in IE.
      + (* no previous epoch *)
        injection IE as E1 IE. destruct k0; [|discriminate IE].
        assert (G3 : g3 = Ring None None (Some e0) None).
        { unfold g3. destruct (N.ltb_spec (g + 1) (e_start (ip_curr ip))); [|lia].
          unfold sched. cbn [pe e_sub]. rewrite orb_true_r. rewrite G2. reflexivity. }
        rewrite G3. destruct (HT 0%nat) as [A B]. rewrite <- E0, <- E1 in *.
        unfold sched. cbn [r_c st]. destruct (N.leb_spec (e_start ce) (e_start e0)); [lia|].
        destruct (e_sub ce) eqn:Q; [congruence|]. cbn [orb].
        exists 0%nat. cbn [r_c r_p r_o r_n]. rewrite E0. repeat split. right. split; [reflexivity|]. rewrite <- E1. reflexivity.
      + destruct k0 as [|k0]; [discriminate IE|]. cbn [seq map] in IE. injection IE as E1 E2 IE2.
        destruct k0; [|discriminate].
        assert (G3 : g3 = Ring None (Some e0) (Some pe) None).
        { unfold g3. destruct (N.ltb_spec (g + 1) (e_start (ip_curr ip))); [|lia].
          rewrite G2. unfold sched. cbn [r_c st]. destruct (HT 0%nat) as [A B]. rewrite <- E0, <- E1 in *.
          destruct (N.leb_spec (e_start pe) (e_start e0)); [lia|].
          destruct (e_sub pe) eqn:Q; [congruence|]. cbn [orb].
          unfold adv. cbn [r_n r_p r_c]. destruct (N.leb_spec (e_start pe) (e_start pe)); [reflexivity|lia]. }
        rewrite G3. destruct (HT 1%nat) as [A B]. rewrite <- E1, <- E2 in *.
        unfold sched. cbn [r_c st]. destruct (N.leb_spec (e_start ce) (e_start pe)); [lia|].
        destruct (e_sub ce) eqn:Q; [congruence|]. cbn [orb].
        exists 1%nat. cbn [r_c r_p r_o r_n]. rewrite E1. repeat split.
        * unfold pick. cbn. rewrite <- E0. reflexivity.
        * right. split; [reflexivity|]. rewrite <- E2. reflexivity.
    - cbn [andb app] in IE. injection IE as E1 IE. destruct k0; [|discriminate].
      assert (G3 : g3 = Ring None None (Some e0) None).
      { unfold g3. destruct (N.ltb_spec (g + 1) (e_start (ip_curr ip))); [lia|]. exact G2. }
      rewrite G3. destruct (HT 0%nat) as [A B]. rewrite <- E0, <- E1 in *.
      unfold sched. cbn [r_c st]. destruct (N.leb_spec (e_start ce) (e_start e0)); [lia|].
      destruct (e_sub ce) eqn:Q; [congruence|]. cbn [orb].
      exists 0%nat. cbn [r_c r_p r_o r_n]. rewrite E0. repeat split. right. split; [reflexivity|]. rewrite <- E1. reflexivity. }
  destruct (ip_next ip) as [|v0 vs] eqn:NV; cbn [bindp].
  - eexists _, (sched g3 ce). split; [reflexivity|]. split; [|exact RING].
    eapply holds_same; [exact H4|apply new_task_same].
  - destruct (apply_holds _ _ (e_start ce) H4) as (x4 & X4 & H5). fold (adv (sched g3 ce) (e_start ce)) in H5.
    change (N.max (e_start (ip_curr ip)) (g + 1)) with (e_start ce). rewrite X4. cbn [bindp].
    eexists _, (adv (sched g3 ce) (e_start ce)). split; [reflexivity|]. split.
    + eapply holds_same; [eapply holds_same; [exact H5|apply next_vset_same]|apply new_task_same].
    + intros. apply adv_ring. apply RING; assumption.
Qed.

Lemma lives_ring T g author local k x : timeline T -> 1 < g -> lives T g author local k x ->
  exists gr, holds x gr /\ on_ring T k gr.
Proof.
  intros HT G (net & ip & x0 & ops & k0 & I & E & F & R).
  destruct (init_holds net g author ip local) as (x1 & gr & I1 & H & O).
  rewrite I in I1. injection I1 as <-.
  eapply run_follows; eauto.
Qed.
