(** Who gets which answer, when, and whom the manager dials. *)
From Coq Require Import List Bool Arith NArith Lia Permutation Sorted.
From Coq Require Import ZifyN ZifyNat ZifyBool.
From Verif Require Import CmModel CmInv CmThms.
Import ListNotations.

(** ** What one step does *)
Lemma fold_send_is h l : forall s, let s' := fold_left (fun s d => send (d_cbs d) (h d) s) l s in
  s_answers s' = s_answers s ++ flat_map (fun d => map (fun k => (k, h d)) (d_cbs d)) l /\ s_active s' = s_active s /\ s_entries s' = s_entries s /\ s_delayed s' = s_delayed s /\ s_tasks s' = s_tasks s /\ s_dials s' = s_dials s /\ s_cb s' = s_cb s /\ s_now s' = s_now s.
Proof.
  induction l as [|d l IH]; intros s; cbn [fold_left flat_map]; [rewrite app_nil_r; auto 10|]. specialize (IH (send (d_cbs d) (h d) s)). cbv zeta in IH. destruct IH as (A & B & C & D & E & F & G & H).
  rewrite A, B, C, D, E, F, G, H. cbn [send s_answers s_active s_entries s_delayed s_tasks s_dials s_cb s_now]. rewrite <- app_assoc. auto 10.
Qed.
Lemma get_active_is p s c : get_active p s = Some c -> In c (s_active s) /\ c_peer c = p.
Proof. unfold get_active. intros H. apply find_some in H. destruct H as (A & B). apply N.eqb_eq in B. auto. Qed.
Lemma dial_is g a p cb s : let s' := dial_peer g a p cb s in
  s_answers s' = s_answers s ++ match get_active p s with Some c => [(cb, AOk c)] | None => [] end /\
  s_active s' = s_active s /\ s_delayed s' = s_delayed s /\ s_backoff s' = s_backoff s /\ s_now s' = s_now s /\
  (forall b e k, In (b, e) (s_entries s') -> In k (e_cbs e) -> (b = a /\ k = cb) \/ exists e0, In (b, e0) (s_entries s) /\ In k (e_cbs e0)) /\
  (forall t, In t (s_tasks s') -> (exists u, In u (s_tasks s) /\ t_peer t = t_peer u /\ t_addr t = t_addr u) \/ (t_addr t = a /\ t_peer t = p)) /\
  length (s_tasks s') <= S (length (s_tasks s)).
Proof.
  cbv zeta. unfold dial_peer. destruct (get_active p s) as [c|].
  - cbn [send s_answers s_active s_delayed s_backoff s_now s_entries s_tasks map]. do 5 (split; [reflexivity|]). split; [intros; right; eauto|]. split; [intros; left; eauto|lia].
  - rewrite app_nil_r. destruct (get_entry a s) as [e0|] eqn:GE.
    + pose proof (get_entry_in _ _ _ GE) as IN0. destruct (_ && _).
      * cbn [spawn set_tasks s_answers s_active s_delayed s_backoff s_now s_entries s_tasks]. do 5 (split; [reflexivity|]). split; [|split].
        -- intros b e k IN IK. apply in_app_or in IN. destruct IN as [IN|[IN|[]]]; [apply in_rm_entry in IN; right; exists e; tauto|]. inversion IN; subst. cbn [e_cbs] in IK. apply in_app_or in IK. destruct IK as [IK|[IK|[]]]; [right; eauto|left; auto].
        -- intros t IN. apply in_app_or in IN. destruct IN as [IN|[IN|[]]]; [|subst t; right; auto]. left. unfold abort in IN. apply in_map_iff in IN. destruct IN as (u & E & IN). exists u. split; [exact IN|]. destruct (Nat.eqb (t_id u) (e_task e0)); subst t; auto.
        -- rewrite app_length. unfold abort. rewrite map_length. cbn. lia.
      * cbn [set_entries s_answers s_active s_delayed s_backoff s_now s_entries s_tasks]. do 5 (split; [reflexivity|]). split; [|split; [|lia]].
        -- intros b e k IN IK. apply in_app_or in IN. destruct IN as [IN|[IN|[]]]; [apply in_rm_entry in IN; right; exists e; tauto|]. inversion IN; subst. cbn [e_cbs] in IK. apply in_app_or in IK. destruct IK as [IK|[IK|[]]]; [right; eauto|left; auto].
        -- intros t IN. left. eauto.
    + cbn [spawn s_answers s_active s_delayed s_backoff s_now s_entries s_tasks]. do 5 (split; [reflexivity|]). split; [|split].
      * intros b e k IN IK. apply in_app_or in IN. destruct IN as [IN|[IN|[]]]; [apply in_rm_entry in IN; right; exists e; tauto|]. inversion IN; subst. cbn [e_cbs] in IK. destruct IK as [IK|[]]. left. auto.
      * intros t IN. apply in_app_or in IN. destruct IN as [IN|[IN|[]]]; [left; eauto|]. subst t. right. auto.
      * rewrite app_length. cbn. lia.
Qed.
Lemma incoming_is g a p aff s : let s' := incoming g a p aff s in
  s_answers s' = s_answers s /\ s_active s' = s_active s /\ s_delayed s' = s_delayed s /\ s_dials s' = s_dials s /\ s_cb s' = s_cb s /\ s_now s' = s_now s /\
  (forall b e k, In (b, e) (s_entries s') -> In k (e_cbs e) -> exists e0, In (b, e0) (s_entries s) /\ In k (e_cbs e0)) /\
  (forall t, In t (s_tasks s') -> (exists u, In u (s_tasks s) /\ t_peer t = t_peer u /\ t_addr t = t_addr u) \/ (t_addr t = a /\ t_peer t = p)).
Proof.
  cbv zeta. unfold incoming. destruct (accepted g aff s); [|do 6 (split; [reflexivity|]); split; eauto]. destruct (get_entry a s) as [e0|] eqn:GE.
  - destruct (tie_breaking _ _ _ _); [|do 6 (split; [reflexivity|]); split; eauto]. cbn [spawn set_tasks s_answers s_active s_delayed s_dials s_cb s_now s_entries s_tasks]. do 6 (split; [reflexivity|]). split.
    + intros b e k IN IK. apply in_app_or in IN. destruct IN as [IN|[IN|[]]]; [apply in_rm_entry in IN; exists e; tauto|]. inversion IN; subst. cbn [e_cbs] in IK. exists e0. split; [exact (get_entry_in _ _ _ GE)|exact IK].
    + intros t IN. apply in_app_or in IN. destruct IN as [IN|[IN|[]]]; [|subst t; right; auto]. left. unfold abort in IN. apply in_map_iff in IN. destruct IN as (u & E & IN). exists u. split; [exact IN|]. destruct (Nat.eqb (t_id u) (e_task e0)); subst t; auto.
  - cbn [spawn s_answers s_active s_delayed s_dials s_cb s_now s_entries s_tasks]. do 6 (split; [reflexivity|]). split.
    + intros b e k IN IK. apply in_app_or in IN. destruct IN as [IN|[IN|[]]]; [apply in_rm_entry in IN; exists e; tauto|]. inversion IN; subst. destruct IK.
    + intros t IN. apply in_app_or in IN. destruct IN as [IN|[IN|[]]]; [left; eauto|]. subst t. right. auto.
Qed.
Lemma add_is g c s : let c' := fst (add g c s) in let s' := snd (add g c s) in
  c_peer c' = c_peer c /\ In c' (s_active s') /\ s_answers s' = s_answers s /\ s_delayed s' = s_delayed s /\ s_queue s' = s_queue s /\ s_entries s' = s_entries s /\ s_tasks s' = s_tasks s /\ s_dials s' = s_dials s /\ s_cb s' = s_cb s /\ s_now s' = s_now s.
Proof.
  cbv zeta. unfold add. destruct (get_active (c_peer c) s) as [old|] eqn:GA.
  - destruct (get_active_is _ _ _ GA) as (A & B). destruct (tie_breaking _ _ _ _); cbn [fst snd set_active s_active s_answers s_delayed s_queue s_entries s_tasks s_dials s_cb s_now]; [|auto 12]. split; [reflexivity|]. split; [apply in_or_app; right; left; reflexivity|]. auto 10.
  - cbn [fst snd set_active s_active s_answers s_delayed s_queue s_entries s_tasks s_dials s_cb s_now]. split; [reflexivity|]. split; [apply in_or_app; right; left; reflexivity|]. auto 10.
Qed.
Lemma resolved_is c s s' : execute_resolved c s = Some s' ->
  s_answers s' = s_answers s ++ flat_map (fun d => map (fun k => (k, AOk c)) (d_cbs d)) (filter (of_peer (c_peer c)) (s_delayed s)) /\
  s_delayed s' = filter (fun d => negb (of_peer (c_peer c) d)) (s_delayed s) /\ s_active s' = s_active s /\ s_entries s' = s_entries s /\ s_tasks s' = s_tasks s /\ s_dials s' = s_dials s /\ s_cb s' = s_cb s /\ s_now s' = s_now s.
Proof.
  unfold execute_resolved. destruct (rm_keys _ _) as [q|]; [|discriminate]. intros H. inversion H; subst s'. destruct (fold_send_is (fun _ => AOk c) (filter (of_peer (c_peer c)) (s_delayed s)) (set_delayed (filter (fun d => negb (of_peer (c_peer c) d)) (s_delayed s)) q s)) as (A & B & C & D & E & F & G & I).
  rewrite A, B, C, D, E, F, G, I. auto 10.
Qed.
Lemma split_sub p now l : (forall d, In d (fst (split_expired p now l)) -> In d l /\ d_peer d = p /\ (d_exp d <= now)%N) /\ (forall d, In d (snd (split_expired p now l)) -> In d l).
Proof.
  induction l as [|d l (A & B)]; cbn [split_expired]; [split; intros d []|]. destruct (split_expired p now l) as [x y]. cbn [fst snd] in *. unfold of_peer. destruct (N.eqb_spec (d_peer d) p) as [E|E].
  - destruct (N.leb_spec (d_exp d) now) as [L|L]; cbn [fst snd]; split.
    + intros e [<-|IN]; [cbn; auto|]. destruct (A e IN) as (A1 & A2). cbn. auto.
    + intros e IN. right. auto.
    + intros e [].
    + auto.
  - cbn [fst snd]. split; [intros e IN; destruct (A e IN) as (A1 & A2); cbn; auto|]. intros e [<-|IN]; [left; reflexivity|right; auto].
Qed.
Lemma expired_is p s : let s' := execute_expired p s in
  s_answers s' = s_answers s ++ flat_map (fun d => map (fun k => (k, AErr (d_err d))) (d_cbs d)) (fst (split_expired p (s_now s) (s_delayed s))) /\
  s_delayed s' = snd (split_expired p (s_now s) (s_delayed s)) /\ s_active s' = s_active s /\ s_entries s' = s_entries s /\ s_tasks s' = s_tasks s /\ s_dials s' = s_dials s /\ s_cb s' = s_cb s /\ s_now s' = s_now s.
Proof.
  cbv zeta. unfold execute_expired. destruct (split_expired p (s_now s) (s_delayed s)) as [out rest]. cbn [fst snd].
  destruct (fold_send_is (fun d => AErr (d_err d)) out (set_delayed rest (fold_left (fun q d => rm_key (d_key d) q) out (s_queue s)) s)) as (A & B & C & D & E & F & G & I). rewrite A, B, C, D, E, F, G, I. auto 10.
Qed.

(** ** Answers are never taken back, and each is true when it is given *)
(** what an answer given by event [e] between [s] and [s'] says *)
Definition answer_true (s s' : state) (e : event) (k : nat) (a : answer) : Prop :=
  match a with
  | AOk c => In c (s_active s')
  | AErr err => (exists t closed, e = EDone t (RErr closed err) /\ closed = false) \/ (exists j d, e = EExpire j /\ In d (s_delayed s) /\ In k (d_cbs d) /\ d_err d = err /\ (d_exp d <= s_now s)%N)
  end.
Lemma fold_dial_is g todo : forall s, let s' := fold_left (start_dial g) todo s in
  s_active s' = s_active s /\ s_delayed s' = s_delayed s /\ s_backoff s' = s_backoff s /\ s_now s' = s_now s /\
  (exists l, s_answers s' = s_answers s ++ l /\ forall k a, In (k, a) l -> exists c, a = AOk c /\ In c (s_active s)) /\
  (forall p k, In (p, k) (s_dials s') -> In (p, k) (s_dials s) \/ exists x, In x todo /\ fst (fst x) = p) /\
  (forall x, In x todo -> exists k, In (fst (fst x), k) (s_dials s')) /\ (forall y, In y (s_dials s) -> In y (s_dials s')) /\
  length (s_tasks s') <= length (s_tasks s) + length todo.
Proof.
  induction todo as [|[[p a] aff] todo IH]; intros s; cbv zeta; cbn [fold_left length].
  - do 4 (split; [reflexivity|]). split; [exists []; rewrite app_nil_r; split; [reflexivity|intros k a []]|]. split; [auto|]. split; [intros x []|]. split; [auto|]. lia.
  - destruct (IH (start_dial g s (p, a, aff))) as (A & B & C & D & (l & E1 & E2) & F & G & H & I). clear IH. set (s' := fold_left (start_dial g) todo (start_dial g s (p, a, aff))) in *. clearbody s'.
    destruct (dial_is g a p (s_cb s) (new_cb s)) as (J1 & J2 & J3 & J4 & J5 & _ & _ & J8). destruct (dial_cb g a p (s_cb s) (new_cb s)) as (_ & J9). unfold start_dial in *. set (s1 := dial_peer g a p (s_cb s) (new_cb s)) in *. clearbody s1.
    cbn [set_dials s_active s_delayed s_backoff s_now s_answers s_dials s_tasks] in *. rewrite J9 in *. rewrite J2 in *. rewrite A, B, C, D, E1, J1, J3, J4, J5. do 4 (split; [reflexivity|]). change (s_dials (new_cb s)) with (s_dials s) in *. change (s_tasks (new_cb s)) with (s_tasks s) in J8. change (s_active (new_cb s)) with (s_active s) in *. change (s_answers (new_cb s)) with (s_answers s).
    split; [|split; [|split; [|split]]].
    + exists (match get_active p (new_cb s) with Some c => [(s_cb s, AOk c)] | None => [] end ++ l). rewrite <- app_assoc. split; [reflexivity|]. intros k x IN. apply in_app_or in IN. destruct IN as [IN|IN]; [|exact (E2 _ _ IN)].
      destruct (get_active p (new_cb s)) as [c|] eqn:GA; [|destruct IN]. destruct IN as [IN|[]]. inversion IN; subst. exists c. split; [reflexivity|]. exact (proj1 (get_active_is _ _ _ GA)).
    + intros q k IN. destruct (F _ _ IN) as [IN'|(x & X & Y)]; [|right; exists x; split; [right; exact X|exact Y]]. apply in_app_or in IN'. destruct IN' as [IN'|[IN'|[]]]; [left; exact IN'|]. inversion IN'; subst. right. exists (q, a, aff). split; [left; reflexivity|reflexivity].
    + intros x [<-|IN]; [|exact (G x IN)]. exists (s_cb s). apply H. apply in_or_app. right. left. reflexivity.
    + intros y IN. apply H. apply in_or_app. left. exact IN.
    + lia.
Qed.
Lemma check_is g known s s' : check g known s = Some s' -> exists l b, retain_dials g s (s_dials s) (s_backoff s) = Some (l, b) /\
  s' = fold_left (start_dial g) (firstn (g_dials g - length (s_tasks s)) (filter (dial_wanted g (set_dials l b s)) known)) (set_dials l b s).
Proof. unfold check. destruct (retain_dials g s (s_dials s) (s_backoff s)) as [[l b]|]; [|discriminate]. intros H. inversion H. exists l, b. split; reflexivity. Qed.

Theorem answers_stay_and_are_true g s e s' : step g s e = Some s' -> exists l, s_answers s' = s_answers s ++ l /\ forall k a, In (k, a) l -> answer_true s s' e k a.
Proof.
  destruct e as [a p|a p aff|t r|t|j|known|id|d]; cbn [step]; intros R.
  - inversion R; subst s'; clear R. destruct (dial_is g a p (s_cb s) (new_cb s)) as (J1 & J2 & _). rewrite J1. eexists. split; [reflexivity|]. intros k x IN. destruct (get_active p (new_cb s)) as [c|] eqn:GA; [|destruct IN]. destruct IN as [IN|[]]. inversion IN; subst. cbn [answer_true]. rewrite J2. exact (proj1 (get_active_is _ _ _ GA)).
  - inversion R; subst s'; clear R. destruct (incoming_is g a p aff s) as (J1 & _). rewrite J1. exists []. rewrite app_nil_r. split; [reflexivity|intros k x []].
  - assert (Z : forall q, s_answers q = s_answers s -> exists l, s_answers q = s_answers s ++ l /\ forall k a, In (k, a) l -> answer_true s q (EDone t r) k a) by (intros q ->; exists []; rewrite app_nil_r; split; [reflexivity|intros k x []]).
    destruct (find _ (s_tasks s)) as [x|] eqn:F; [|inversion R; subst s'; auto]. unfold connecting_result in R. destruct (get_entry _ _) as [e|]; [|inversion R; subst s'; apply Z; reflexivity]. destruct (negb (e_seq e =? t_seq x)%N); [inversion R; subst s'; apply Z; reflexivity|]. cbv zeta in R.
    match type of R with context [add g _ ?q] => set (s2 := q) in * | _ => idtac end. destruct r as [c|closed err].
    + destruct (add_is g c s2) as (_ & A2 & A3 & _). destruct (add g c s2) as [c' s3]. cbn [fst snd] in *. destruct (execute_resolved c' s3) as [s4|] eqn:X; [|discriminate]. inversion R; subst s'; clear R. destruct (resolved_is _ _ _ X) as (B1 & _ & B3 & _).
      cbn [send s_answers s_active]. rewrite B1, A3, <- app_assoc. eexists. split; [reflexivity|]. intros k a IN. assert (E : a = AOk c'). { apply in_app_or in IN. destruct IN as [IN|IN]; [apply in_flat_map in IN; destruct IN as (d & _ & IN)|]; apply in_map_iff in IN; destruct IN as (y & E & _); inversion E; reflexivity. }
      subst a. cbn [answer_true send s_active]. rewrite B3. exact A2.
    + destruct closed; cbn [andb] in R; [|inversion R; subst s'; clear R; cbn [send s_answers]; eexists; split; [reflexivity|]; intros k a IN; apply in_map_iff in IN; destruct IN as (y & E & _); inversion E; subst; left; eauto].
      destruct (e_cbs e); cbn [negb] in R; inversion R; subst s'; apply Z; [cbn [send s_answers map]; apply app_nil_r|reflexivity].
  - exists []. rewrite app_nil_r. split; [|intros k x []]. destruct (find _ (s_tasks s)) as [x|]; [destruct (t_aborted x)|]; inversion R; reflexivity.
  - destruct (find _ (s_queue s)) as [[[i p] y]|]; [destruct (y <=? s_now s)%N|]; inversion R; subst s'; clear R; try (exists []; rewrite app_nil_r; split; [reflexivity|intros k x []]).
    match goal with |- context [execute_expired p ?q] => destruct (expired_is p q) as (A & _) end. rewrite A. cbn [set_delayed s_answers s_now s_delayed]. eexists. split; [reflexivity|]. intros k a IN. apply in_flat_map in IN. destruct IN as (d & D & IN). apply in_map_iff in IN. destruct IN as (y' & E & IY). inversion E; subst.
    apply (proj1 (split_sub p (s_now s) (s_delayed s))) in D. destruct D as (D1 & D2 & D3). right. exists j, d. auto 10.
  - destruct (check_is _ _ _ _ R) as (l & b & _ & ->). destruct (fold_dial_is g (firstn (g_dials g - length (s_tasks s)) (filter (dial_wanted g (set_dials l b s)) known)) (set_dials l b s)) as (A & _ & _ & _ & (m & M1 & M2) & _). rewrite M1. exists m. split; [reflexivity|]. intros k a IN. destruct (M2 _ _ IN) as (c & -> & AC). cbn [answer_true]. rewrite A. exact AC.
  - inversion R. exists []. rewrite app_nil_r. split; [reflexivity|intros k x []].
  - inversion R. exists []. rewrite app_nil_r. split; [reflexivity|intros k x []].
Qed.
Lemma answers_run g l : forall s s', run g s l = Some s' -> exists m, s_answers s' = s_answers s ++ m.
Proof.
  induction l as [|e l IH]; intros s s' R; cbn [run] in R; [inversion R; exists []; rewrite app_nil_r; reflexivity|]. destruct (step g s e) as [s1|] eqn:S1; [|discriminate]. destruct (answers_stay_and_are_true _ _ _ _ S1) as (m & M & _). destruct (IH _ _ R) as (n & N). exists (m ++ n). rewrite N, M, app_assoc. reflexivity.
Qed.

(** ** A closed connection is not an error at once *)
(** where request [k] is after its connection was closed: with another connection, or waiting until [x], or refused after it *)
Definition held (k : nat) (p : peer) (x err : N) (s : state) : Prop :=
  (exists d, In d (s_delayed s) /\ In k (d_cbs d) /\ d_peer d = p /\ d_exp d = x /\ d_err d = err) \/ (exists c, In (k, AOk c) (s_answers s) /\ c_peer c = p) \/ (In (k, AErr err) (s_answers s) /\ (x <= s_now s)%N).
Lemma step_now g s e s' : step g s e = Some s' -> (s_now s <= s_now s')%N.
Proof.
  destruct e as [a p|a p aff|t r|t|j|known|id|d]; cbn [step]; intros R.
  - inversion R. destruct (dial_is g a p (s_cb s) (new_cb s)) as (_ & _ & _ & _ & J & _). rewrite J. cbn. lia.
  - inversion R. destruct (incoming_is g a p aff s) as (_ & _ & _ & _ & _ & J & _). rewrite J. lia.
  - destruct (find _ (s_tasks s)) as [x|]; [|inversion R; lia]. unfold connecting_result in R. destruct (get_entry _ _) as [e|]; [|inversion R; cbn; lia]. destruct (negb _); [inversion R; cbn; lia|]. cbv zeta in R. destruct r as [c|closed err].
    + match type of R with context [add g _ ?q] => set (s2 := q) in * end. destruct (add_is g c s2) as (_ & _ & _ & _ & _ & _ & _ & _ & _ & A). destruct (add g c s2) as [c' s3]. cbn [fst snd] in *. destruct (execute_resolved c' s3) as [s4|] eqn:X; [|discriminate]. inversion R; subst s'; clear R. destruct (resolved_is _ _ _ X) as (_ & _ & _ & _ & _ & _ & _ & B). cbn [send s_now]. rewrite B, A. cbn. lia.
    + destruct (_ && _); inversion R; cbn; lia.
  - destruct (find _ (s_tasks s)) as [x|]; [destruct (t_aborted x)|]; inversion R; cbn; lia.
  - destruct (find _ (s_queue s)) as [[[i p] y]|]; [destruct (y <=? s_now s)%N|]; inversion R; try lia. match goal with |- context [execute_expired p ?q] => destruct (expired_is p q) as (_ & _ & _ & _ & _ & _ & _ & A) end. rewrite A. cbn. lia.
  - destruct (check_is _ _ _ _ R) as (l & b & _ & ->). destruct (fold_dial_is g (firstn (g_dials g - length (s_tasks s)) (filter (dial_wanted g (set_dials l b s)) known)) (set_dials l b s)) as (_ & _ & _ & A & _). rewrite A. cbn. lia.
  - inversion R. cbn. lia.
  - inversion R. cbn. lia.
Qed.
(** a delayed item stays, or goes with an answer to all that it holds *)
Lemma delayed_step g s e s' d : inv g [] s -> step g s e = Some s' -> In d (s_delayed s) ->
  In d (s_delayed s') \/ (exists c, c_peer c = d_peer d /\ forall k, In k (d_cbs d) -> In (k, AOk c) (s_answers s')) \/ ((d_exp d <= s_now s')%N /\ forall k, In k (d_cbs d) -> In (k, AErr (d_err d)) (s_answers s')).
Proof.
  intros V. destruct e as [a p|a p aff|t r|t|j|known|id|y]; cbn [step]; intros R ID.
  - inversion R. destruct (dial_is g a p (s_cb s) (new_cb s)) as (_ & _ & J & _). rewrite J. auto.
  - inversion R. destruct (incoming_is g a p aff s) as (_ & _ & J & _). rewrite J. auto.
  - destruct (find _ (s_tasks s)) as [x|]; [|inversion R; subst; auto]. unfold connecting_result in R. destruct (get_entry _ _) as [e|]; [|inversion R; auto]. destruct (negb _); [inversion R; auto|]. cbv zeta in R. destruct r as [c|closed err].
    + match type of R with context [add g _ ?q] => set (s2 := q) in * end. destruct (add_is g c s2) as (P & _ & _ & A & _). destruct (add g c s2) as [c' s3]. cbn [fst snd] in *. destruct (execute_resolved c' s3) as [s4|] eqn:X; [|discriminate]. inversion R; subst s'; clear R. destruct (resolved_is _ _ _ X) as (B1 & B2 & _). cbn [send s_now s_delayed s_answers]. rewrite B1, B2, A. change (s_delayed s2) with (s_delayed s).
      destruct (of_peer (c_peer c') d) eqn:O.
      * right. left. exists c'. split; [unfold of_peer in O; apply N.eqb_eq in O; congruence|]. intros k IK. apply in_or_app. left. apply in_or_app. right. apply in_flat_map. exists d. split; [apply filter_In; auto|]. apply in_map_iff. exists k. auto.
      * left. apply filter_In. rewrite O. auto.
    + destruct (_ && _); inversion R; left; [apply in_or_app; left|]; exact ID.
  - destruct (find _ (s_tasks s)) as [x|]; [destruct (t_aborted x)|]; inversion R; subst; auto.
  - destruct (find _ (s_queue s)) as [[[i p] y]|]; [destruct (y <=? s_now s)%N|]; inversion R; subst; auto. match goal with |- context [execute_expired p ?q] => destruct (expired_is p q) as (A1 & A2 & _ & _ & _ & _ & _ & A3); set (s2 := q) in * end. rewrite A1, A2, A3. change (s_delayed s2) with (s_delayed s). change (s_now s2) with (s_now s).
    rewrite (split_is p (s_now s) _ (v_exp _ _ _ V)). cbn [fst snd]. destruct (due p (s_now s) d) eqn:D.
    + right. right. split; [unfold due in D; apply andb_true_iff in D; destruct D as (_ & D); apply N.leb_le in D; exact D|]. intros k IK. apply in_or_app. right. apply in_flat_map. exists d. split; [apply filter_In; auto|]. apply in_map_iff. exists k. auto.
    + left. apply filter_In. rewrite D. auto.
  - destruct (check_is _ _ _ _ R) as (l & b & _ & ->). destruct (fold_dial_is g (firstn (g_dials g - length (s_tasks s)) (filter (dial_wanted g (set_dials l b s)) known)) (set_dials l b s)) as (_ & A & _). rewrite A. auto.
  - inversion R. auto.
  - inversion R. auto.
Qed.
Lemma held_step g s e s' k p x err : inv g [] s -> step g s e = Some s' -> held k p x err s -> held k p x err s'.
Proof.
  intros V R. destruct (answers_stay_and_are_true _ _ _ _ R) as (m & M & _). intros [(d & D1 & D2 & D3 & D4 & D5)|[(c & C & C')|(E & L)]].
  - destruct (delayed_step _ _ _ _ _ V R D1) as [H|[(c & C & H)|(L & H)]]; unfold held; [left; exists d; auto 10|right; left; exists c; split; [auto|congruence]|right; right; split; [rewrite <- D5; auto|congruence]].
  - right. left. exists c. rewrite M. split; [apply in_or_app; auto|exact C'].
  - right. right. rewrite M. split; [apply in_or_app; auto|]. pose proof (step_now _ _ _ _ R). lia.
Qed.
Lemma held_run g k p x err l : forall s s', inv g [] s -> run g s l = Some s' -> held k p x err s -> held k p x err s'.
Proof.
  induction l as [|e l IH]; intros s s' V R H; cbn [run] in R; [inversion R; subst; exact H|]. destruct (inv_step g s e V) as (s1 & S1 & V1). rewrite S1 in R. apply (IH s1 s' V1 R). exact (held_step _ _ _ _ _ _ _ _ V S1 H).
Qed.
Lemma run_app g l1 : forall s l2 s', run g s (l1 ++ l2) = Some s' <-> exists s1, run g s l1 = Some s1 /\ run g s1 l2 = Some s'.
Proof.
  induction l1 as [|e l1 IH]; intros s l2 s'; cbn [app run].
  - split; [intros H; exists s; auto|intros (s1 & E & H); inversion E; subst; exact H].
  - destruct (step g s e) as [s1|]; [apply IH|]. split; [discriminate|intros (? & H & _); discriminate].
Qed.
(** A request that waits for a connection that was closed during the handshake is not refused before the delay is over; it gets any connection to that peer that is made until then; and when it is refused, it is with that error. *)
Theorem closed_connection_waits g now l1 l2 s1 s2 s3 t err a e x k :
  run g (start now) l1 = Some s1 -> step g s1 (EDone t (RErr true err)) = Some s2 -> run g s2 l2 = Some s3 ->
  In x (s_tasks s1) -> t_id x = t -> get_entry a s1 = Some e -> a = t_addr x -> e_seq e = t_seq x -> In k (e_cbs e) ->
  (forall ans, ~ In (k, ans) (s_answers s2)) /\
  (forall c, In (k, AOk c) (s_answers s3) -> c_peer c = t_peer x) /\
  (forall err', In (k, AErr err') (s_answers s3) -> err' = err /\ (s_now s1 + g_delay g <= s_now s3)%N).
Proof.
  intros R1 S R2 IT ET GE -> SQ IK. pose proof (reachable _ _ _ _ R1) as V1. destruct (inv_step g s1 (EDone t (RErr true err)) V1) as (s2' & S' & V2). assert (s2' = s2) by congruence. subst s2'. clear S'.
  assert (H : held k (t_peer x) (s_now s1 + g_delay g) err s2 /\ forall ans, ~ In (k, ans) (s_answers s2)).
  { cbn [step] in S. assert (F : find (fun y => Nat.eqb (t_id y) t) (s_tasks s1) = Some x).
    { destruct (find _ (s_tasks s1)) as [y|] eqn:F; [|exfalso; apply (find_none _ _ F) in IT; rewrite ET, Nat.eqb_refl in IT; discriminate]. apply find_key in F. destruct F as (F1 & F2). f_equal. apply (task_one _ _ _ (v_tids _ _ _ V1)); auto. congruence. }
    rewrite F in S. unfold connecting_result in S. change (get_entry (t_addr x) (set_tasks (rm_task t (s_tasks s1)) s1)) with (get_entry (t_addr x) s1) in S. rewrite GE, SQ, N.eqb_refl in S. cbv zeta in S. cbn [negb andb] in S. destruct (e_cbs e) as [|k0 r] eqn:EC; [destruct IK|]. cbn [negb] in S.
    inversion S; subst s2; clear S. split.
    - left. eexists. split; [apply in_or_app; right; left; reflexivity|]. cbn. auto.
    - intros ans IA. cbn [push_delayed set_entries set_tasks s_answers] in IA. pose proof (v_cbs _ _ _ V1) as P. cbn [app] in P. unfold cbs_of in P. assert (ND : NoDup (map fst (s_answers s1) ++ entry_cbs (s_entries s1) ++ delayed_cbs (s_delayed s1))) by (apply (Permutation_NoDup (Permutation_sym P)); apply seq_NoDup).
      assert (IE : In k (entry_cbs (s_entries s1))) by (apply in_flat_map; exists (t_addr x, e); split; [exact (get_entry_in _ _ _ GE)|cbn [snd]; rewrite EC; exact IK]). apply (in_map fst) in IA. cbn [fst] in IA.
      clear - ND IA IE. induction (map fst (s_answers s1)) as [|y A IH]; [destruct IA|]. cbn [app] in ND. inversion ND as [|? ? N1 N2]; subst. destruct IA as [->|IA]; [apply N1; apply in_or_app; right; apply in_or_app; auto|auto]. }
  destruct H as (H & NA). split; [exact NA|]. pose proof (held_run g k _ _ _ l2 s2 s3 V2 R2 H) as H3. destruct (inv_run g l2 s2 V2) as (s3' & E3 & V3). assert (s3' = s3) by congruence. subst s3'.
  assert (ONE : forall a1 a2, In (k, a1) (s_answers s3) -> In (k, a2) (s_answers s3) -> a1 = a2).
  { assert (R3 : run g (start now) (l1 ++ (EDone t (RErr true err)) :: l2) = Some s3) by (apply run_app; exists s1; split; [exact R1|]; cbn [run]; rewrite S; exact R2). destruct (answered_at_most_once _ _ _ _ R3) as (ND & _). revert ND. clear. intros ND a1 a2 I1 I2. induction (s_answers s3) as [|[j a] A IH]; [destruct I1|]. cbn [map fst] in ND. inversion ND as [|? ? N1 N2]; subst. destruct I1 as [I1|I1], I2 as [I2|I2]; [congruence| | |auto]; exfalso; apply N1; [inversion I1; subst; apply (in_map fst) in I2; exact I2|inversion I2; subst; apply (in_map fst) in I1; exact I1]. }
  assert (HELD : forall ans, In (k, ans) (s_answers s3) -> ~ exists d, In d (s_delayed s3) /\ In k (d_cbs d)).
  { intros ans IA (d & D1 & D2). pose proof (v_cbs _ _ _ V3) as P. cbn [app] in P. unfold cbs_of in P. assert (ND : NoDup (map fst (s_answers s3) ++ entry_cbs (s_entries s3) ++ delayed_cbs (s_delayed s3))) by (apply (Permutation_NoDup (Permutation_sym P)); apply seq_NoDup).
    assert (IE : In k (delayed_cbs (s_delayed s3))) by (apply in_flat_map; exists d; auto). apply (in_map fst) in IA. cbn [fst] in IA. clear - ND IA IE. induction (map fst (s_answers s3)) as [|y A IH]; [destruct IA|]. cbn [app] in ND. inversion ND as [|? ? N1 N2]; subst. destruct IA as [->|IA]; [apply N1; apply in_or_app; right; apply in_or_app; auto|auto]. }
  split.
  - intros c IC. destruct H3 as [(d & D1 & D2 & _)|[(c' & C & C')|(E & _)]]; [elim (HELD _ IC); eauto|specialize (ONE _ _ IC C); inversion ONE; subst; exact C'|specialize (ONE _ _ IC E); discriminate].
  - intros err' IC. destruct H3 as [(d & D1 & D2 & _)|[(c' & C & C')|(E & L)]]; [elim (HELD _ IC); eauto|specialize (ONE _ _ IC C); discriminate|specialize (ONE _ _ IC E); inversion ONE; subst; auto].
Qed.
