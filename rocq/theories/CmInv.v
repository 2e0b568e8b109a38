(** Every request to connect is answered or waits for something that will happen. *)
From Coq Require Import List Bool Arith NArith Lia Permutation Sorted.
From Coq Require Import ZifyN ZifyNat ZifyBool.
From Verif Require Import CmModel.
Import ListNotations.

Definition entry_cbs (l : list (addr * pending)) : list nat := flat_map (fun x => e_cbs (snd x)) l.
Definition delayed_cbs (l : list delayed) : list nat := flat_map d_cbs l.
Definition cbs_of (s : state) : list nat := map fst (s_answers s) ++ entry_cbs (s_entries s) ++ delayed_cbs (s_delayed s).
Definition key_of (d : delayed) : nat * peer * N := (d_key d, d_peer d, d_exp d).
Definition live (l : list task) (a : addr) (e : pending) : Prop := exists t, In t l /\ t_id t = e_task e /\ t_addr t = a /\ t_seq t = e_seq e /\ t_origin t = e_origin e /\ t_aborted t = false.
(** [x]: callbacks that are held in between *)
Record inv (g : config) (x : list nat) (s : state) : Prop := {
  v_cbs : Permutation (x ++ cbs_of s) (seq 0 (s_cb s));
  v_addrs : NoDup (map fst (s_entries s));
  v_tids : NoDup (map t_id (s_tasks s)); v_tid : forall t, In t (s_tasks s) -> t_id t < s_tid s;
  v_live : forall a e, In (a, e) (s_entries s) -> live (s_tasks s) a e;
  v_queue : s_queue s = map key_of (s_delayed s);
  v_keys : NoDup (map d_key (s_delayed s)); v_key : forall d, In d (s_delayed s) -> d_key d < s_key s;
  v_exp : StronglySorted (fun a b => (d_exp a <= d_exp b)%N) (s_delayed s); v_late : forall d, In d (s_delayed s) -> (d_exp d <= s_now s + g_delay g)%N;
  v_dials : forall p k, In (p, k) (s_dials s) -> k < s_cb s;
  v_active : NoDup (map c_peer (s_active s)) }.

(** ** Lists *)
Lemma find_key {A} (f : A -> nat) k (l : list A) x : find (fun y => Nat.eqb (f y) k) l = Some x -> In x l /\ f x = k.
Proof. intros H. destruct (find_some _ _ H) as (A1 & A2). apply Nat.eqb_eq in A2. auto. Qed.
Lemma nodup_filter {A B} (f : A -> B) p (l : list A) : NoDup (map f l) -> NoDup (map f (filter p l)).
Proof.
  induction l as [|x l IH]; [auto|]. cbn [map filter]. intros ND. inversion ND as [|? ? N1 N2]; subst. destruct (p x); [|auto]. cbn [map]. constructor; [|auto].
  intros H. apply N1. apply in_map_iff in H. destruct H as (y & E & IN). apply filter_In in IN. rewrite <- E. apply in_map. tauto.
Qed.
Lemma nodup_snoc {A} (l : list A) x : NoDup l -> ~ In x l -> NoDup (l ++ [x]).
Proof. intros ND NI. apply NoDup_rev in ND. rewrite <- (rev_involutive (l ++ [x])), rev_app_distr. apply NoDup_rev. cbn [rev app]. constructor; [rewrite <- in_rev; exact NI|exact ND]. Qed.
Lemma sorted_filter {A} (R : A -> A -> Prop) p l : StronglySorted R l -> StronglySorted R (filter p l).
Proof.
  induction l as [|x l IH]; intros S; [constructor|]. inversion S as [|? ? S1 S2]; subst. cbn [filter]. destruct (p x); [|auto]. constructor; [auto|].
  rewrite Forall_forall in *. intros y IN. apply filter_In in IN. apply S2. tauto.
Qed.
Lemma sorted_snoc {A} (R : A -> A -> Prop) l x : StronglySorted R l -> (forall y, In y l -> R y x) -> StronglySorted R (l ++ [x]).
Proof.
  induction l as [|y l IH]; intros S H; cbn [app]; [repeat constructor|]. inversion S as [|? ? S1 S2]; subst. constructor; [apply IH; auto; intros z IN; apply H; right; exact IN|].
  apply Forall_app. split; [exact S2|]. constructor; [|constructor]. apply H. left. reflexivity.
Qed.
Lemma filter_idem {A} (p : A -> bool) l : filter p (filter p l) = filter p l.
Proof. induction l as [|x l IH]; [reflexivity|]. cbn [filter]. destruct (p x) eqn:E; [cbn [filter]; rewrite E, IH; reflexivity|exact IH]. Qed.
Lemma rm_entry_idem a l : rm_entry a (rm_entry a l) = rm_entry a l.
Proof. apply filter_idem. Qed.
Lemma rm_entry_none a l : (forall e, ~ In (a, e) l) -> rm_entry a l = l.
Proof.
  intros H. unfold rm_entry. induction l as [|[b e] l IH]; [reflexivity|]. cbn [filter fst]. destruct (N.eqb_spec b a) as [E|E].
  - subst b. elim (H e). left. reflexivity.
  - cbn [negb]. rewrite IH; [reflexivity|]. intros f IN. apply (H f). right. exact IN.
Qed.
Lemma in_rm_entry a b e l : In (b, e) (rm_entry a l) <-> In (b, e) l /\ b <> a.
Proof. unfold rm_entry. rewrite filter_In. cbn [fst]. rewrite negb_true_iff, N.eqb_neq. tauto. Qed.
Lemma get_entry_in a s e : get_entry a s = Some e -> In (a, e) (s_entries s).
Proof. unfold get_entry. destruct (find _ _) as [[b f]|] eqn:F; [|discriminate]. intros H. inversion H; subst. destruct (find_some _ _ F) as (IN & E). cbn [fst] in E. apply N.eqb_eq in E. subst b. exact IN. Qed.
Lemma get_entry_none a s : get_entry a s = None -> forall e, ~ In (a, e) (s_entries s).
Proof. unfold get_entry. destruct (find _ _) as [[b f]|] eqn:F; [discriminate|]. intros _ e IN. apply (find_none _ _ F) in IN. cbn [fst] in IN. rewrite N.eqb_refl in IN. discriminate. Qed.
Lemma entry_cbs_rm a e l : NoDup (map fst l) -> In (a, e) l -> Permutation (entry_cbs l) (e_cbs e ++ entry_cbs (rm_entry a l)).
Proof.
  induction l as [|[b f] l IH]; [intros _ []|]. cbn [map fst]. intros ND. inversion ND as [|? ? N1 N2]; subst. intros [H|H].
  - inversion H; subst. cbn [entry_cbs flat_map snd rm_entry filter fst]. rewrite N.eqb_refl. cbn [negb]. fold (rm_entry a l). rewrite rm_entry_none; [reflexivity|]. intros e' IN. apply N1. apply in_map_iff. exists (a, e'). auto.
  - cbn [entry_cbs flat_map snd rm_entry filter fst]. destruct (N.eqb_spec b a) as [E|E].
    + subst b. exfalso. apply N1. apply in_map_iff. exists (a, e). auto.
    + cbn [negb flat_map snd]. fold (rm_entry a l) (entry_cbs l) (entry_cbs (rm_entry a l)). rewrite (IH N2 H). rewrite !app_assoc. apply Permutation_app_tail. apply Permutation_app_comm.
Qed.
Lemma task_one l t u : NoDup (map t_id l) -> In t l -> In u l -> t_id t = t_id u -> t = u.
Proof.
  induction l as [|x l IH]; [intros _ []|]. cbn [map]. intros ND. inversion ND as [|? ? N1 N2]; subst. intros [H|H] [H'|H'] E; subst; auto; exfalso; apply N1.
  - rewrite E. apply in_map. exact H'.
  - rewrite <- E. apply in_map. exact H.
Qed.
Lemma abort_ids t l : map t_id (abort t l) = map t_id l.
Proof. unfold abort. rewrite map_map. apply map_ext. intros x. destruct (Nat.eqb (t_id x) t); reflexivity. Qed.
Lemma in_abort t l x : In x (abort t l) -> exists y, In y l /\ t_id x = t_id y /\ (t_id y <> t -> x = y).
Proof. unfold abort. intros IN. apply in_map_iff in IN. destruct IN as (y & E & IN). exists y. split; [exact IN|]. destruct (Nat.eqb_spec (t_id y) t) as [F|F]; subst x; cbn [t_id]; split; auto. intros; contradiction. Qed.
Lemma abort_in t l x : In x l -> t_id x <> t -> In x (abort t l).
Proof. intros IN NE. unfold abort. apply in_map_iff. exists x. rewrite (proj2 (Nat.eqb_neq _ _) NE). auto. Qed.
Lemma live_rm l t a e : live l a e -> e_task e <> t -> live (rm_task t l) a e.
Proof. intros (x & IN & A & B) NE. exists x. split; [|auto]. unfold rm_task. apply filter_In. split; [exact IN|]. apply negb_true_iff. apply Nat.eqb_neq. congruence. Qed.

(** ** What keeps the invariant *)
Ltac perm := apply (proj2 (Permutation_count_occ Nat.eq_dec _ _)); let n := fresh "n" in intros n;
  repeat match goal with H : Permutation _ _ |- _ => let Q := fresh "Q" in pose proof (proj1 (Permutation_count_occ Nat.eq_dec _ _) H n) as Q; clear H end;
  rewrite ?count_occ_app in *; lia.
Lemma map_fst_pair {A B} (a : B) (l : list A) : map fst (map (fun k => (k, a)) l) = l.
Proof. rewrite map_map. cbn [fst]. apply map_id. Qed.
Lemma inv_send g x s cbs a : inv g (cbs ++ x) s -> inv g x (send cbs a s).
Proof.
  intros [V1 V2 V3 V4 V5 V6 V7 V8 V9 V10 V11 V12]. split; auto. cbn [send s_cb]. unfold cbs_of in *. cbn [send s_answers s_entries s_delayed]. rewrite map_app, map_fst_pair. perm.
Qed.
(** an entry is taken out *)
Lemma inv_take g x s a e : inv g x s -> get_entry a s = Some e -> inv g (e_cbs e ++ x) (set_entries (rm_entry a (s_entries s)) s).
Proof.
  intros [V1 V2 V3 V4 V5 V6 V7 V8 V9 V10 V11 V12] GE. apply get_entry_in in GE. split; auto; cbn [set_entries s_cb s_entries s_tasks].
  - unfold cbs_of in *. cbn [set_entries s_answers s_entries s_delayed]. pose proof (entry_cbs_rm _ _ _ V2 GE) as P. perm.
  - apply nodup_filter. exact V2.
  - intros b f IN. apply in_rm_entry in IN. apply V5. tauto.
Qed.
(** a task that no entry has *)
Lemma inv_tasks g x s l : inv g x s -> map t_id l = map t_id (s_tasks s) \/ (NoDup (map t_id l) /\ forall t, In t l -> In t (s_tasks s)) -> (forall a e, In (a, e) (s_entries s) -> live l a e) -> inv g x (set_tasks l s).
Proof.
  intros [V1 V2 V3 V4 V5 V6 V7 V8 V9 V10 V11 V12] C L. split; auto; cbn [set_tasks s_tasks s_tid].
  - destruct C as [-> |(C & _)]; assumption.
  - intros t IN. destruct C as [C|(_ & C)]; [|auto]. assert (H : In (t_id t) (map t_id (s_tasks s))) by (rewrite <- C; apply in_map; exact IN). apply in_map_iff in H. destruct H as (u & <- & H). auto.
Qed.
Lemma other_task g x s a e b f : inv g x s -> In (a, e) (s_entries s) -> In (b, f) (s_entries s) -> e_task e = e_task f -> a = b.
Proof.
  intros V IN IN' E. destruct (v_live _ _ _ V _ _ IN) as (t & T1 & T2 & T3 & _). destruct (v_live _ _ _ V _ _ IN') as (u & U1 & U2 & U3 & _).
  assert (t = u) by (apply (task_one _ _ _ (v_tids _ _ _ V)); auto; congruence). congruence.
Qed.
Lemma inv_abort g x s t : inv g x s -> (forall a e, In (a, e) (s_entries s) -> e_task e <> t) -> inv g x (set_tasks (abort t (s_tasks s)) s).
Proof.
  intros V H. apply inv_tasks; [exact V|left; apply abort_ids|]. intros a e IN. destruct (v_live _ _ _ V _ _ IN) as (u & U1 & U2 & U3). exists u. split; [|auto]. apply abort_in; [exact U1|]. rewrite U2. exact (H _ _ IN).
Qed.
Lemma inv_reap g x s t : inv g x s -> (forall a e, In (a, e) (s_entries s) -> e_task e <> t) -> inv g x (set_tasks (rm_task t (s_tasks s)) s).
Proof.
  intros V H. apply inv_tasks; [exact V|right|].
  - split; [apply nodup_filter; exact (v_tids _ _ _ V)|]. intros u IN. apply filter_In in IN. tauto.
  - intros a e IN. apply live_rm; [exact (v_live _ _ _ V _ _ IN)|exact (H _ _ IN)].
Qed.
Lemma inv_spawn g x s a p seq o cbs : inv g (cbs ++ x) s -> (forall e, ~ In (a, e) (s_entries s)) -> inv g x (spawn a p seq o cbs s).
Proof.
  intros [V1 V2 V3 V4 V5 V6 V7 V8 V9 V10 V11 V12] NE. unfold spawn. rewrite rm_entry_none by exact NE. split; auto; cbn [s_cb s_entries s_tasks s_tid].
  - unfold cbs_of in *. cbn [s_answers s_entries s_delayed]. unfold entry_cbs in *. rewrite flat_map_app. cbn [flat_map snd e_cbs]. rewrite app_nil_r. perm.
  - rewrite map_app. cbn [map fst]. apply nodup_snoc; [exact V2|]. intros H. apply in_map_iff in H. destruct H as ([b e] & E & IN). cbn [fst] in E. subst b. exact (NE _ IN).
  - rewrite map_app. cbn [map t_id]. apply nodup_snoc; [exact V3|]. intros H. apply in_map_iff in H. destruct H as (u & E & IN). specialize (V4 _ IN). lia.
  - intros t IN. apply in_app_or in IN. destruct IN as [IN|[<-|[]]]; [specialize (V4 _ IN); lia|cbn [t_id]; lia].
  - intros b e IN. apply in_app_or in IN. destruct IN as [IN|[IN|[]]].
    + destruct (V5 _ _ IN) as (t & T & T'). exists t. split; [apply in_or_app; auto|exact T'].
    + inversion IN; subst. exists (Task (s_tid s) b seq p o false). split; [apply in_or_app; right; left; reflexivity|]. cbn. auto.
Qed.
Lemma spawn_take a p seq o cbs s : spawn a p seq o cbs s = spawn a p seq o cbs (set_entries (rm_entry a (s_entries s)) s).
Proof. unfold spawn. cbn [set_entries s_now s_active s_entries s_tasks s_delayed s_queue s_dials s_backoff s_answers s_cb s_tid s_key]. rewrite rm_entry_idem. reflexivity. Qed.
Lemma not_in_rm a e l : ~ In (a, e) (rm_entry a l).
Proof. intros H. apply in_rm_entry in H. tauto. Qed.
(** the entry gets a new task *)
Lemma inv_replace g x s a p seq o e y : inv g (y ++ x) s -> get_entry a s = Some e -> inv g x (spawn a p seq o (e_cbs e ++ y) (set_tasks (abort (e_task e) (s_tasks s)) s)).
Proof.
  intros V GE. rewrite spawn_take. pose proof (inv_take _ _ _ _ _ V GE) as V1. apply inv_spawn; [|intros f; exact (not_in_rm _ _ _)]. rewrite <- app_assoc.
  change (inv g (e_cbs e ++ y ++ x) (set_tasks (abort (e_task e) (s_tasks (set_entries (rm_entry a (s_entries s)) s))) (set_entries (rm_entry a (s_entries s)) s))).
  apply inv_abort; [exact V1|]. intros b f IN. cbn [set_entries s_entries] in IN. apply in_rm_entry in IN. destruct IN as (IN & NE). intros E. apply NE. exact (other_task _ _ _ _ _ _ _ V IN (get_entry_in _ _ _ GE) E).
Qed.
Lemma inv_push_cb g x s a e y : inv g (y ++ x) s -> get_entry a s = Some e -> inv g x (set_entries (rm_entry a (s_entries s) ++ [(a, Pend (e_seq e) (e_origin e) (e_cbs e ++ y) (e_task e))]) s).
Proof.
  intros V GE. pose proof (get_entry_in _ _ _ GE) as IN0. pose proof V as [V1 V2 V3 V4 V5 V6 V7 V8 V9 V10 V11 V12]. split; auto; cbn [set_entries s_cb s_entries s_tasks].
  - unfold cbs_of in *. cbn [set_entries s_answers s_entries s_delayed]. pose proof (entry_cbs_rm _ _ _ V2 IN0) as P. unfold entry_cbs in *. rewrite flat_map_app. cbn [flat_map snd e_cbs]. rewrite app_nil_r. perm.
  - rewrite map_app. cbn [map fst]. apply nodup_snoc; [apply nodup_filter; exact V2|]. intros H. apply in_map_iff in H. destruct H as ([b f] & E & IN). cbn [fst] in E. subst b. exact (not_in_rm _ _ _ IN).
  - intros b f IN. apply in_app_or in IN. destruct IN as [IN|[IN|[]]]; [apply in_rm_entry in IN; apply V5; tauto|]. inversion IN; subst. destruct (V5 _ _ IN0) as (t & T). exists t. exact T.
Qed.
Lemma inv_dial g x s a p cb : inv g (cb :: x) s -> inv g x (dial_peer g a p cb s).
Proof.
  intros V. unfold dial_peer. destruct (get_active p s); [apply (inv_send g x s [cb]); exact V|]. destruct (get_entry a s) as [e|] eqn:GE.
  - destruct (tie_breaking (g_local g) p (e_origin e) Outbound && negb (is_outbound (e_origin e))); [apply (inv_replace g x s a p _ _ e [cb]); auto|apply (inv_push_cb g x s a e [cb]); auto].
  - apply inv_spawn; [exact V|]. exact (get_entry_none _ _ GE).
Qed.
Lemma inv_new_cb g x s : inv g x s -> inv g (s_cb s :: x) (new_cb s).
Proof.
  intros [V1 V2 V3 V4 V5 V6 V7 V8 V9 V10 V11 V12]. split; auto; cbn [new_cb s_cb s_dials].
  - rewrite seq_S. cbn [Nat.add]. change (cbs_of (new_cb s)) with (cbs_of s). change (s_cb s :: x) with ([s_cb s] ++ x). perm.
  - intros p k IN. specialize (V11 _ _ IN). lia.
Qed.
Lemma inv_incoming g s a p aff : inv g [] s -> inv g [] (incoming g a p aff s).
Proof.
  intros V. unfold incoming. destruct (accepted g aff s); [|exact V]. destruct (get_entry a s) as [e|] eqn:GE.
  - destruct (tie_breaking (g_local g) p (e_origin e) Inbound); [|exact V]. rewrite <- (app_nil_r (e_cbs e)). apply (inv_replace g [] s a p _ _ e []); auto.
  - apply inv_spawn; [exact V|]. exact (get_entry_none _ _ GE).
Qed.
Lemma inv_active g x s l : inv g x s -> NoDup (map c_peer l) -> inv g x (set_active l s).
Proof. intros [V1 V2 V3 V4 V5 V6 V7 V8 V9 V10 V11 V12] ND. split; auto. Qed.
Lemma inv_add g x s c : inv g x s -> inv g x (snd (add g c s)).
Proof.
  intros V. pose proof (v_active _ _ _ V) as ND. unfold add, get_active. destruct (find _ (s_active s)) as [old|] eqn:F.
  - destruct (tie_breaking _ _ _ _); [|exact V]. cbn [snd]. apply inv_active; [exact V|]. rewrite map_app. cbn [map]. apply nodup_snoc; [apply nodup_filter; exact ND|].
    intros H. apply in_map_iff in H. destruct H as (y & E & IN). apply filter_In in IN. rewrite E, N.eqb_refl in IN. destruct IN. discriminate.
  - cbn [snd]. apply inv_active; [exact V|]. rewrite map_app. cbn [map]. apply nodup_snoc; [exact ND|]. intros H. apply in_map_iff in H. destruct H as (y & E & IN). apply (find_none _ _ F) in IN. rewrite E, N.eqb_refl in IN. discriminate.
Qed.

(** *** Delayed callbacks *)
Lemma inv_push g x s p e cbs : inv g (cbs ++ x) s -> inv g x (push_delayed g p e cbs s).
Proof.
  intros [V1 V2 V3 V4 V5 V6 V7 V8 V9 V10 V11 V12]. unfold push_delayed. split; auto; cbn [s_cb s_delayed s_queue s_key s_now].
  - unfold cbs_of in *. cbn [s_answers s_entries s_delayed]. unfold delayed_cbs in *. rewrite flat_map_app. cbn [flat_map d_cbs]. rewrite app_nil_r. perm.
  - rewrite map_app, V6. reflexivity.
  - rewrite map_app. cbn [map d_key]. apply nodup_snoc; [exact V7|]. intros H. apply in_map_iff in H. destruct H as (d & E & IN). specialize (V8 _ IN). lia.
  - intros d IN. apply in_app_or in IN. destruct IN as [IN|[<-|[]]]; [specialize (V8 _ IN); lia|cbn [d_key]; lia].
  - apply sorted_snoc; [exact V9|]. intros d IN. exact (V10 _ IN).
  - intros d IN. apply in_app_or in IN. destruct IN as [IN|[<-|[]]]; [exact (V10 _ IN)|cbn [d_exp]; lia].
Qed.
(** some of the items go, with their keys *)
Lemma rm_key_map k l : NoDup (map d_key l) -> rm_key k (map key_of l) = map key_of (filter (fun d => negb (Nat.eqb (d_key d) k)) l).
Proof.
  intros _. unfold rm_key. induction l as [|d l IH]; [reflexivity|]. cbn [map filter]. unfold key_of at 1. cbn [fst]. destruct (Nat.eqb (d_key d) k); cbn [negb map]; rewrite IH; reflexivity.
Qed.
Lemma filter_filter {A} (p q : A -> bool) l : filter p (filter q l) = filter (fun x => q x && p x) l.
Proof. induction l as [|x l IH]; [reflexivity|]. cbn [filter]. destruct (q x); cbn [filter andb]; [destruct (p x); rewrite IH; reflexivity|exact IH]. Qed.
Definition has_key (out : list delayed) (d : delayed) : bool := existsb (fun x => Nat.eqb (d_key x) (d_key d)) out.
Lemma rm_keys_fold out : forall l, fold_left (fun q d => rm_key (d_key d) q) out (map key_of l) = map key_of (filter (fun d => negb (has_key out d)) l).
Proof.
  induction out as [|x out IH]; intros l; cbn [fold_left].
  - unfold has_key. cbn [existsb negb]. induction l as [|d l IHl]; [reflexivity|]. cbn [filter map]. rewrite IHl at 1. reflexivity.
  - assert (E : rm_key (d_key x) (map key_of l) = map key_of (filter (fun d => negb (Nat.eqb (d_key d) (d_key x))) l)).
    { clear. unfold rm_key. induction l as [|d l IH]; [reflexivity|]. cbn [map filter]. unfold key_of at 1. cbn [fst]. destruct (Nat.eqb (d_key d) (d_key x)); cbn [negb map]; rewrite IH; reflexivity. }
    rewrite E, IH, filter_filter. f_equal. apply filter_ext. intros d. unfold has_key. cbn [existsb]. rewrite (Nat.eqb_sym (d_key x)). destruct (Nat.eqb (d_key d) (d_key x)); reflexivity.
Qed.
Lemma rm_keys_some items : forall q, NoDup (map d_key items) -> (forall d, In d items -> in_queue (d_key d) q = true) -> rm_keys items q = Some (fold_left (fun q d => rm_key (d_key d) q) items q).
Proof.
  induction items as [|d items IH]; intros q ND H; [reflexivity|]. cbn [rm_keys fold_left]. rewrite (H d) by (left; reflexivity). inversion ND as [|? ? N1 N2]; subst. apply IH; [exact N2|]. intros e IN.
  specialize (H e (or_intror IN)). unfold in_queue in *. apply existsb_exists in H. destruct H as (y & Y1 & Y2). apply existsb_exists. exists y. split; [|exact Y2]. unfold rm_key. apply filter_In. split; [exact Y1|].
  apply negb_true_iff. apply Nat.eqb_neq. apply Nat.eqb_eq in Y2. rewrite Y2. intros E. apply N1. rewrite <- E. apply in_map. exact IN.
Qed.
Lemma key_one l d e : NoDup (map d_key l) -> In d l -> In e l -> d_key d = d_key e -> d = e.
Proof.
  induction l as [|x l IH]; [intros _ []|]. cbn [map]. intros ND. inversion ND as [|? ? N1 N2]; subst. intros [H|H] [H'|H'] E; subst; auto; exfalso; apply N1.
  - rewrite E. apply in_map. exact H'.
  - rewrite <- E. apply in_map. exact H.
Qed.
(** the items that satisfy [p] go *)
Lemma has_key_filter p l d : NoDup (map d_key l) -> In d l -> has_key (filter p l) d = p d.
Proof.
  intros ND IN. apply eq_true_iff_eq. unfold has_key. rewrite existsb_exists. split.
  - intros (x & X & E). apply filter_In in X. apply Nat.eqb_eq in E. destruct X as (X & P). rewrite <- (key_one _ _ _ ND X IN E). exact P.
  - intros P. exists d. split; [apply filter_In; auto|apply Nat.eqb_refl].
Qed.
Lemma queue_filter p l : NoDup (map d_key l) -> fold_left (fun q d => rm_key (d_key d) q) (filter p l) (map key_of l) = map key_of (filter (fun d => negb (p d)) l).
Proof. intros ND. rewrite rm_keys_fold. f_equal. apply filter_ext_in. intros d IN. rewrite (has_key_filter p l d ND IN). reflexivity. Qed.
Lemma cbs_filter p l : Permutation (delayed_cbs l) (delayed_cbs (filter p l) ++ delayed_cbs (filter (fun d => negb (p d)) l)).
Proof.
  induction l as [|d l IH]; [reflexivity|]. cbn [delayed_cbs flat_map filter]. fold (delayed_cbs l). destruct (p d); cbn [negb flat_map]; unfold delayed_cbs in *; perm.
Qed.
Lemma inv_drop g x s p : inv g x s ->
  inv g (delayed_cbs (filter p (s_delayed s)) ++ x) (set_delayed (filter (fun d => negb (p d)) (s_delayed s)) (fold_left (fun q d => rm_key (d_key d) q) (filter p (s_delayed s)) (s_queue s)) s).
Proof.
  intros [V1 V2 V3 V4 V5 V6 V7 V8 V9 V10 V11 V12]. split; auto; cbn [set_delayed s_cb s_delayed s_queue s_key s_now].
  - unfold cbs_of in *. cbn [set_delayed s_answers s_entries s_delayed]. pose proof (cbs_filter p (s_delayed s)) as P. perm.
  - rewrite V6. apply queue_filter. exact V7.
  - apply nodup_filter. exact V7.
  - intros d IN. apply filter_In in IN. apply V8. tauto.
  - apply sorted_filter. exact V9.
  - intros d IN. apply filter_In in IN. apply V10. tauto.
Qed.
Lemma inv_fold_send g (f : delayed -> answer) l : forall x s, inv g (delayed_cbs l ++ x) s -> inv g x (fold_left (fun s d => send (d_cbs d) (f d) s) l s).
Proof.
  induction l as [|d l IH]; intros x s V; [exact V|]. cbn [fold_left]. apply IH. apply inv_send. cbn [delayed_cbs flat_map] in V. rewrite <- app_assoc in V. exact V.
Qed.
Lemma inv_resolved g x s c : inv g x s -> exists s', execute_resolved c s = Some s' /\ inv g x s'.
Proof.
  intros V. unfold execute_resolved. set (p := of_peer (c_peer c)). rewrite (rm_keys_some (filter p (s_delayed s)) (s_queue s)).
  - eexists. split; [reflexivity|]. apply (inv_fold_send g (fun _ => AOk c)). apply inv_drop. exact V.
  - apply nodup_filter. exact (v_keys _ _ _ V).
  - intros d IN. apply filter_In in IN. rewrite (v_queue _ _ _ V). unfold in_queue. apply existsb_exists. exists (key_of d). split; [apply in_map; tauto|]. apply Nat.eqb_refl.
Qed.
(** the expired ones at the front of the peer are all that are expired *)
Definition due (p : peer) (now : N) (d : delayed) : bool := of_peer p d && (d_exp d <=? now)%N.
Lemma split_is p now l : StronglySorted (fun a b => (d_exp a <= d_exp b)%N) l -> split_expired p now l = (filter (due p now) l, filter (fun d => negb (due p now d)) l).
Proof.
  induction l as [|d l IH]; intros S; [reflexivity|]. inversion S as [|? ? S1 S2]; subst. cbn [split_expired filter]. rewrite (IH S1). assert (D : due p now d = of_peer p d && (d_exp d <=? now)%N) by reflexivity. rewrite D. destruct (of_peer p d) eqn:E; cbn [andb negb]; [|reflexivity].
  destruct (N.leb_spec (d_exp d) now) as [L|L]; cbn [negb]; [reflexivity|]. assert (NO : forall e, In e l -> due p now e = false).
  { intros e IN. rewrite Forall_forall in S2. specialize (S2 _ IN). unfold due. rewrite (proj2 (N.leb_gt (d_exp e) now)) by lia. apply andb_false_r. }
  assert (F1 : filter (due p now) l = []). { clear - NO. induction l as [|e l IH]; [reflexivity|]. cbn [filter]. rewrite (NO e) by (left; reflexivity). apply IH. intros x IN. apply NO. right. exact IN. }
  assert (F2 : filter (fun d => negb (due p now d)) l = l). { clear - NO. induction l as [|e l IH]; [reflexivity|]. cbn [filter]. rewrite (NO e) by (left; reflexivity). cbn [negb]. rewrite IH; [reflexivity|]. intros x IN. apply NO. right. exact IN. }
  rewrite F1, F2. reflexivity.
Qed.
