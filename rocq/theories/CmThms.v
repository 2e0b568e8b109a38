(** What who asks for a connection relies on. *)
From Coq Require Import List Bool Arith NArith Lia Permutation Sorted.
From Coq Require Import ZifyN ZifyNat ZifyBool.
From Verif Require Import CmModel CmInv.
Import ListNotations.

Lemma inv_start g now : inv g [] (start now).
Proof. split; cbn; try constructor; try contradiction. Qed.
Lemma set_delayed_id s : set_delayed (s_delayed s) (s_queue s) s = s.
Proof. destruct s; reflexivity. Qed.
Lemma inv_expire g x s k p y : inv g x s -> In (k, p, y) (s_queue s) -> (y <= s_now s)%N -> inv g x (execute_expired p (set_delayed (s_delayed s) (rm_key k (s_queue s)) s)).
Proof.
  intros V IN L. pose proof V as [V1 V2 V3 V4 V5 V6 V7 V8 V9 V10 V11 V12]. unfold execute_expired. cbn [set_delayed s_now s_delayed s_queue]. rewrite (split_is p (s_now s) _ V9). apply (inv_fold_send g (fun d => AErr (d_err d))).
  assert (E : fold_left (fun q d => rm_key (d_key d) q) (filter (due p (s_now s)) (s_delayed s)) (rm_key k (s_queue s)) = fold_left (fun q d => rm_key (d_key d) q) (filter (due p (s_now s)) (s_delayed s)) (s_queue s)).
  { rewrite V6 in *. rewrite (rm_key_map k _ V7). rewrite !rm_keys_fold, filter_filter. f_equal. apply filter_ext_in. intros d ID. destruct (Nat.eqb_spec (d_key d) k) as [F|F]; [|reflexivity]. cbn [negb andb]. symmetry. apply negb_false_iff.
    apply in_map_iff in IN. destruct IN as (e & KE & IE). unfold key_of in KE. inversion KE; subst. rewrite (key_one _ _ _ V7 ID IE) by congruence. rewrite has_key_filter; auto. unfold due, of_peer. rewrite N.eqb_refl. cbn [andb]. apply N.leb_le. exact L. }
  rewrite E. apply (inv_drop g x s (due p (s_now s)) V).
Qed.
Lemma inv_result g s t r : inv g [] s -> In t (s_tasks s) -> exists s', connecting_result g t r (set_tasks (rm_task (t_id t) (s_tasks s)) s) = Some s' /\ inv g [] s'.
Proof.
  intros V IN. unfold connecting_result. change (get_entry (t_addr t) (set_tasks (rm_task (t_id t) (s_tasks s)) s)) with (get_entry (t_addr t) s).
  assert (OTHER : forall a e, In (a, e) (s_entries s) -> e_task e = t_id t -> a = t_addr t /\ e_seq e = t_seq t).
  { intros a e IE E. destruct (v_live _ _ _ V _ _ IE) as (u & U1 & U2 & U3 & U4 & _). assert (u = t) by (apply (task_one _ _ _ (v_tids _ _ _ V)); auto; congruence). subst u. auto. }
  destruct (get_entry (t_addr t) s) as [e|] eqn:GE.
  2:{ eexists. split; [reflexivity|]. apply inv_reap; [exact V|]. intros a e IE E. destruct (OTHER _ _ IE E) as (-> & _). exact (get_entry_none _ _ GE _ IE). }
  destruct (N.eqb_spec (e_seq e) (t_seq t)) as [SQ|SQ]; cbn [negb].
  2:{ eexists. split; [reflexivity|]. apply inv_reap; [exact V|]. intros a f IE E. destruct (OTHER _ _ IE E) as (-> & F). apply SQ. rewrite <- F.
      pose proof (get_entry_in _ _ _ GE) as IG. f_equal. pose proof (v_addrs _ _ _ V) as ND. clear - ND IE IG. induction (s_entries s) as [|[b h] l IH]; [destruct IE|]. cbn [map fst] in ND. inversion ND as [|? ? N1 N2]; subst.
      destruct IE as [IE|IE], IG as [IG|IG]; [congruence| | |auto]; exfalso; apply N1.
      - inversion IE; subst. apply in_map_iff. exists (t_addr t, e). auto.
      - inversion IG; subst. apply in_map_iff. exists (t_addr t, f). auto. }
  pose proof (inv_take _ _ _ _ _ V GE) as V1. set (s1 := set_entries (rm_entry (t_addr t) (s_entries s)) s) in *.
  assert (V2 : inv g (e_cbs e ++ []) (set_tasks (rm_task (t_id t) (s_tasks s1)) s1)).
  { apply inv_reap; [exact V1|]. intros a f IE E. cbn [s1 set_entries s_entries] in IE. apply in_rm_entry in IE. destruct IE as (IE & NE). exact (NE (proj1 (OTHER _ _ IE E))). }
  change (set_entries (rm_entry (t_addr t) (s_entries (set_tasks (rm_task (t_id t) (s_tasks s)) s))) (set_tasks (rm_task (t_id t) (s_tasks s)) s)) with (set_tasks (rm_task (t_id t) (s_tasks s1)) s1).
  set (s2 := set_tasks (rm_task (t_id t) (s_tasks s1)) s1) in *. destruct r as [c|closed err].
  - pose proof (inv_add _ _ _ c V2) as V3. destruct (add g c s2) as [c' s3]. cbn [snd] in V3. destruct (inv_resolved _ _ _ c' V3) as (s4 & -> & V4). eexists. split; [reflexivity|]. apply inv_send. exact V4.
  - destruct (closed && negb match e_cbs e with [] => true | _ => false end); (eexists; split; [reflexivity|]); [apply inv_push|apply inv_send]; exact V2.
Qed.
Lemma answered_or_waits g s k : inv g [] s -> k < s_cb s -> answered k s <> None \/ waits k s = true.
Proof.
  intros V L. assert (IN : In k (cbs_of s)). { apply (Permutation_in _ (Permutation_sym (v_cbs _ _ _ V))). apply in_seq. lia. }
  unfold cbs_of in IN. apply in_app_or in IN. destruct IN as [IN|IN].
  - left. unfold answered. destruct (find _ _) as [[j a]|] eqn:F; [discriminate|]. apply in_map_iff in IN. destruct IN as ([j a] & <- & IN). apply (find_none _ _ F) in IN. cbn [fst] in IN. rewrite Nat.eqb_refl in IN. discriminate.
  - right. unfold waits. apply in_app_or in IN. apply orb_true_iff. destruct IN as [IN|IN]; [left|right]; apply in_flat_map in IN; destruct IN as (y & Y1 & Y2); apply existsb_exists; exists y; split; auto; apply existsb_exists; exists k; split; auto; apply Nat.eqb_refl.
Qed.
Lemma retain_some g s : inv g [] s -> forall l b, (forall p k, In (p, k) l -> k < s_cb s) -> exists l' b', retain_dials g s l b = Some (l', b') /\ (forall p k, In (p, k) l' -> In (p, k) l).
Proof.
  intros V. induction l as [|[p k] l IH]; intros b H; cbn [retain_dials]; [eauto|].
  assert (H' : forall q j, In (q, j) l -> j < s_cb s) by (intros q j IN; apply (H q j); right; exact IN).
  assert (G : forall b0, exists l' b', retain_dials g s l b0 = Some (l', b') /\ (forall q j, In (q, j) l' -> In (q, j) l)) by (intros b0; exact (IH b0 H')).
  pose proof (answered_or_waits g s k V (H p k (or_introl eq_refl))) as A. destruct (answered k s) as [[c|e]|].
  - destruct (G (rm_backoff p b)) as (l' & b' & -> & I). exists l', b'. split; [reflexivity|]. intros q j IN. right. auto.
  - match goal with |- context [retain_dials g s l ?c] => destruct (G c) as (l' & b' & -> & I) end. exists l', b'. split; [reflexivity|]. intros q j IN. right. auto.
  - destruct A as [A|A]; [elim A; reflexivity|]. rewrite A. destruct (G b) as (l' & b' & -> & I). exists ((p, k) :: l'), b'. split; [reflexivity|]. intros q j [IN|IN]; [left; exact IN|right; auto].
Qed.
Lemma inv_dials g x s l b : inv g x s -> (forall p k, In (p, k) l -> k < s_cb s) -> inv g x (set_dials l b s).
Proof. intros [V1 V2 V3 V4 V5 V6 V7 V8 V9 V10 V11 V12] H. split; auto. Qed.
Lemma dial_cb g a p cb s : s_cb (dial_peer g a p cb s) = s_cb s /\ s_dials (dial_peer g a p cb s) = s_dials s.
Proof. unfold dial_peer. destruct (get_active p s); [auto|]. destruct (get_entry a s) as [e|]; [destruct (_ && _); auto|auto]. Qed.
Lemma inv_start_dial g s x : inv g [] s -> inv g [] (start_dial g s x).
Proof.
  intros V. destruct x as [[p a] aff]. unfold start_dial. pose proof (inv_dial g [] (new_cb s) a p (s_cb s) (inv_new_cb g [] s V)) as V1. destruct (dial_cb g a p (s_cb s) (new_cb s)) as (E1 & E2).
  apply inv_dials; [exact V1|]. intros q k IN. rewrite E1. apply in_app_or in IN. destruct IN as [IN|[IN|[]]]; [apply (v_dials _ _ _ V1) in IN; rewrite E1 in IN; exact IN|]. inversion IN; subst. cbn [new_cb s_cb]. lia.
Qed.
Lemma inv_check g s known : inv g [] s -> exists s', check g known s = Some s' /\ inv g [] s'.
Proof.
  intros V. unfold check. destruct (retain_some g s V (s_dials s) (s_backoff s) (v_dials _ _ _ V)) as (l & b & -> & SUB). eexists. split; [reflexivity|].
  assert (V1 : inv g [] (set_dials l b s)) by (apply inv_dials; [exact V|]; intros p k IN; exact (v_dials _ _ _ V _ _ (SUB _ _ IN))).
  set (s1 := set_dials l b s) in *. clearbody s1. generalize (firstn (g_dials g - length (s_tasks s1)) (filter (dial_wanted g s1) known)). intros todo. revert s1 V1. induction todo as [|x todo IH]; intros s1 V1; [exact V1|]. cbn [fold_left]. apply IH. apply inv_start_dial. exact V1.
Qed.
Lemma inv_step g s e : inv g [] s -> exists s', step g s e = Some s' /\ inv g [] s'.
Proof.
  intros V. destruct e as [a p|a p aff|t r|t|k|known|id|d]; cbn [step].
  - eexists. split; [reflexivity|]. apply inv_dial. apply inv_new_cb. exact V.
  - eexists. split; [reflexivity|]. apply inv_incoming. exact V.
  - destruct (find _ (s_tasks s)) as [x|] eqn:F; [|eauto]. apply find_key in F. destruct F as (IN & <-). apply inv_result; auto.
  - destruct (find _ (s_tasks s)) as [x|] eqn:F; [|eauto]. apply find_key in F. destruct F as (IN & <-). destruct (t_aborted x) eqn:AB; [|eauto]. eexists. split; [reflexivity|]. apply inv_reap; [exact V|].
    intros a e IE E. destruct (v_live _ _ _ V _ _ IE) as (u & U1 & U2 & _ & _ & _ & U3). assert (u = x) by (apply (task_one _ _ _ (v_tids _ _ _ V)); auto; congruence). congruence.
  - destruct (find _ (s_queue s)) as [[[j p] y]|] eqn:F; [|eauto]. apply find_some in F. destruct F as (IN & E). cbn [fst] in E. apply Nat.eqb_eq in E. subst j. destruct (N.leb_spec y (s_now s)) as [L|L]; [|eauto].
    eexists. split; [reflexivity|]. apply (inv_expire g [] s k p y); auto.
  - apply inv_check. exact V.
  - eexists. split; [reflexivity|]. apply inv_active; [exact V|]. apply nodup_filter. exact (v_active _ _ _ V).
  - eexists. split; [reflexivity|]. destruct V as [V1 V2 V3 V4 V5 V6 V7 V8 V9 V10 V11 V12]. split; auto. intros x IN. cbn [s_now s_delayed] in *. specialize (V10 _ IN). lia.
Qed.
Lemma inv_run g l : forall s, inv g [] s -> exists s', run g s l = Some s' /\ inv g [] s'.
Proof.
  induction l as [|e l IH]; intros s V; [exists s; auto|]. cbn [run]. destruct (inv_step g s e V) as (s' & -> & V'). exact (IH s' V').
Qed.
Lemma reachable g now l s : run g (start now) l = Some s -> inv g [] s.
Proof. intros R. destruct (inv_run g l _ (inv_start g now)) as (s' & E & V). congruence. Qed.

(** ** No history makes the manager panic: no callback goes away without an answer, and every delayed callback has its key. *)
Theorem never_panics g now l : run g (start now) l <> None.
Proof. destruct (inv_run g l _ (inv_start g now)) as (s & -> & _). discriminate. Qed.

(** *** The requests: every [EConnect], and every dial of a check, has the next number. *)
(** A request has one answer at most. *)
Theorem answered_at_most_once g now l s : run g (start now) l = Some s -> NoDup (map fst (s_answers s)) /\ forall k a, In (k, a) (s_answers s) -> k < s_cb s.
Proof.
  intros R. pose proof (reachable _ _ _ _ R) as V. pose proof (v_cbs _ _ _ V) as P. cbn [app] in P. unfold cbs_of in P. split.
  - assert (ND : NoDup (map fst (s_answers s) ++ entry_cbs (s_entries s) ++ delayed_cbs (s_delayed s))) by (apply (Permutation_NoDup (Permutation_sym P)); apply seq_NoDup).
    revert ND. generalize (map fst (s_answers s)) as A. generalize (entry_cbs (s_entries s) ++ delayed_cbs (s_delayed s)) as B. intros B A. induction A as [|x A IH]; cbn [app]; intros ND; [constructor|]. inversion ND as [|? ? N1 N2]; subst. constructor; [|auto]. intros H. apply N1. apply in_or_app. auto.
  - intros k a IN. assert (H : In k (seq 0 (s_cb s))) by (apply (Permutation_in _ P); apply in_or_app; left; apply in_map_iff; exists (k, a); auto). apply in_seq in H. lia.
Qed.
(** A request is answered, or waits in an entry whose own task is still to give its result and is not aborted, or is delayed with its key in the queue. *)
Theorem request_is_not_lost g now l s k : run g (start now) l = Some s -> k < s_cb s ->
  (exists a, In (k, a) (s_answers s)) \/
  (exists a e t, In (a, e) (s_entries s) /\ In k (e_cbs e) /\ In t (s_tasks s) /\ t_addr t = a /\ t_seq t = e_seq e /\ t_aborted t = false) \/
  (exists d, In d (s_delayed s) /\ In k (d_cbs d) /\ In (d_key d, d_peer d, d_exp d) (s_queue s) /\ (d_exp d <= s_now s + g_delay g)%N).
Proof.
  intros R L. pose proof (reachable _ _ _ _ R) as V. assert (IN : In k (cbs_of s)). { apply (Permutation_in _ (Permutation_sym (v_cbs _ _ _ V))). apply in_seq. lia. }
  unfold cbs_of in IN. apply in_app_or in IN. destruct IN as [IN|IN]; [|apply in_app_or in IN; destruct IN as [IN|IN]; right].
  - left. apply in_map_iff in IN. destruct IN as ([j a] & <- & IN). eauto.
  - left. apply in_flat_map in IN. destruct IN as ([a e] & IE & IK). destruct (v_live _ _ _ V _ _ IE) as (t & T1 & _ & T3 & T4 & _ & T5). exists a, e, t. auto 10.
  - right. apply in_flat_map in IN. destruct IN as (d & ID & IK). exists d. split; [exact ID|]. split; [exact IK|]. split; [|exact (v_late _ _ _ V _ ID)]. rewrite (v_queue _ _ _ V). apply (in_map key_of). exact ID.
Qed.
(** When no task runs and nothing is delayed every request is answered. *)
Theorem all_answered_at_rest g now l s k : run g (start now) l = Some s -> s_tasks s = [] -> s_queue s = [] -> k < s_cb s -> exists a, In (k, a) (s_answers s).
Proof.
  intros R T Q L. destruct (request_is_not_lost _ _ _ _ _ R L) as [A|[(a & e & t & _ & _ & IN & _)|(d & _ & _ & IN & _)]]; [exact A|rewrite T in IN; destruct IN|rewrite Q in IN; destruct IN].
Qed.
