(** Property C15: the round threshold. [t_exec (t_new f skew) es = Some t]: the events [es] - arrivals split in
    counter-increment and send, loop iterations of the waiter with arbitrary clock readings, timer expirations,
    get_reached - are executed in this order from a new threshold. [adds es] are the points added. *)
From Verif Require Import ThresholdModel ThresholdProofs.
From Coq Require Import Permutation Sorted ZArith ZifyN ZifyNat ZifyBool.
Local Open Scope N_scope.
Local Opaque be de.

Lemma exec_gen es : forall t t', t_inv t -> NoDup (map pi_author (t_added t ++ adds es)) ->
  N.of_nat (length (t_added t ++ adds es)) <= t_cap t -> t_exec t es = Some t' ->
  t_inv t' /\ t_target t' = t_target t /\ t_cap t' = t_cap t /\ t_added t' = t_added t ++ adds es /\
  (t_reached t = true -> t_reached t' = true).
Proof.
  induction es as [|e es IH]; intros t t' Hi Hn Hs; cbn [t_exec].
  - intros E; injection E as <-. cbn [adds]. rewrite app_nil_r. auto.
  - destruct (t_enabled t e) eqn:He; [|discriminate].
    assert (Ha : forall i, e = EvInc i -> ~ In (pi_author i) (map pi_author (t_added t)) /\ N.of_nat (length (t_added t)) < t_cap t).
    { intros i ->. cbn [adds] in *. rewrite app_length in Hs. cbn [length] in Hs. split; [|lia].
      rewrite map_app in Hn. cbn [map] in Hn. intros Hin. eapply nodup_app_disj; [exact Hn|exact Hin|now left]. }
    destruct (t_step_ok t e Hi He Ha) as (t1 & -> & Hi1 & H1 & H2 & H3 & H4).
    assert (Hadd : t_added t1 ++ adds es = t_added t ++ adds (e :: es)).
    { rewrite H4. destruct e; cbn [adds]; rewrite ?app_nil_r; auto. now rewrite <- app_assoc. }
    intros E. destruct (IH t1 t' Hi1) as (A & B & C & D & F).
    + now rewrite Hadd.
    + now rewrite Hadd, H2.
    + exact E.
    + split; auto. split; [congruence|]. split; [congruence|]. split; [congruence|auto].
Qed.

Lemma exec_new es f skew t : f <= pc_max -> NoDup (map pi_author (adds es)) -> N.of_nat (length (adds es)) <= full f ->
  t_exec (t_new f skew) es = Some t -> t_inv t /\ t_target t = majority f /\ t_cap t = full f /\ t_added t = adds es.
Proof.
  intros Hf Hn Hs E. destruct (exec_gen es (t_new f skew) t (t_new_inv f skew Hf) Hn Hs E) as (A & B & C & D & _). auto.
Qed.

(** No panic: with at most one point per author and at most 3F+1 points, no enabled event panics - neither the u8 counters
    nor the channel overflow nor is an author counted twice - whatever the interleaving and the clocks. *)
Theorem C15_no_panic : forall f skew es t e, f <= pc_max -> t_exec (t_new f skew) es = Some t -> t_enabled t e = true ->
  NoDup (map pi_author (adds (es ++ [e]))) -> N.of_nat (length (adds (es ++ [e]))) <= full f ->
  exists t', t_step t e = Some t'.
Proof.
  intros f skew es t e Hf E He Hn Hs.
  assert (Hadd : adds (es ++ [e]) = adds es ++ match e with EvInc i => [i] | _ => [] end).
  { clear. induction es as [|x es IH]; cbn [app adds]; [destruct e; reflexivity|]. destruct x; auto. cbn [app]. now rewrite IH. }
  rewrite Hadd in *.
  assert (Hn' : NoDup (map pi_author (adds es))).
  { rewrite map_app in Hn. clear - Hn. induction (map pi_author (adds es)) as [|a r IH]; [constructor|]. cbn in Hn. inversion Hn; subst.
    constructor; auto. intros H; apply H1, in_or_app; auto. }
  rewrite app_length in Hs.
  destruct (exec_new es f skew t Hf Hn' ltac:(lia) E) as (Hi & _ & Hc & Ha).
  destruct (t_step_ok t e Hi He) as (t' & -> & _); eauto.
  intros i ->. rewrite Ha, Hc. cbn [length] in Hs. split; [|lia].
  rewrite map_app in Hn. intros Hin. eapply nodup_app_disj; [exact Hn|exact Hin|now left].
Qed.
Print Assumptions C15_no_panic.

(** Conservation: at every moment every added point is in exactly one place: handed out, ready, delayed, in the
    channel (or about to be sent), or discarded as too far in the future; the published counters agree. *)
Theorem C15_conservation : forall f skew es t, f <= pc_max -> t_exec (t_new f skew) es = Some t ->
  NoDup (map pi_author (adds es)) -> N.of_nat (length (adds es)) <= full f ->
  Permutation (t_taken t ++ t_ready t ++ t_delayed t ++ t_chan t ++ t_pending t ++ t_discarded t) (adds es) /\
  let c := tc_unpack (t_count t) in
  tc_target c = majority f /\ tc_delayed c = N.of_nat (length (t_delayed t)) /\
  tc_chan c = N.of_nat (length (t_chan t) + length (t_pending t)) /\
  (t_reached t = false -> tc_ready c = N.of_nat (length (t_ready t))).
Proof.
  intros f skew es t Hf E Hn Hs. destruct (exec_new es f skew t Hf Hn Hs E) as (Hi & Ht & Hc & Ha).
  destruct (ti_count _ Hi) as (r & _ & Hr & Hcnt). pose proof (ti_perm _ Hi) as Hp. rewrite Ha in Hp. split; [exact Hp|].
  cbv zeta. rewrite Hcnt. cbn [tc_target tc_ready tc_delayed tc_chan]. auto.
Qed.
Print Assumptions C15_conservation.

(** Soundness: when the threshold is reached, at least 2F+1 points of distinct authors, all of them added before, are ready
    (or were ready and handed out); and get_reached hands out at least 2F+1 such points. *)
Theorem C15_reached_sound : forall f skew es t, f <= pc_max -> t_exec (t_new f skew) es = Some t ->
  NoDup (map pi_author (adds es)) -> N.of_nat (length (adds es)) <= full f -> t_reached t = true ->
  majority f <= N.of_nat (length (t_taken t ++ t_ready t)) /\ NoDup (map pi_author (t_taken t ++ t_ready t)) /\
  incl (t_taken t ++ t_ready t) (adds es).
Proof.
  intros f skew es t Hf E Hn Hs Hr. destruct (exec_new es f skew t Hf Hn Hs E) as (Hi & Ht & Hc & Ha).
  split; [rewrite <- Ht; exact (ti_reached _ Hi Hr)|]. pose proof (ti_perm _ Hi) as Hp. rewrite Ha in Hp. unfold all_of in Hp.
  rewrite app_assoc in Hp. split.
  - eapply nodup_perm_pre; [symmetry; exact Hp|exact Hn|]. eexists; reflexivity.
  - intros x Hx. eapply Permutation_in; [exact Hp|]. apply in_or_app; auto.
Qed.
Print Assumptions C15_reached_sound.

Theorem C15_get_reached : forall f skew es t mt t', f <= pc_max -> t_exec (t_new f skew) es = Some t ->
  NoDup (map pi_author (adds es)) -> N.of_nat (length (adds es)) <= full f -> t_reached t = true -> t_taken t = [] ->
  t_step t (EvTake mt) = Some t' -> majority f <= N.of_nat (length (t_taken t')) /\ NoDup (map pi_author (t_taken t')) /\
  incl (t_taken t') (adds es) /\ incl (t_ready t) (t_taken t').
Proof.
  intros f skew es t mt t' Hf E Hn Hs Hr Htk Hstep.
  assert (E' : t_exec (t_new f skew) (es ++ [EvTake mt]) = Some t').
  { clear - E Hr Hstep. revert E. generalize (t_new f skew). induction es as [|e es IH]; intros t0; cbn [app t_exec].
    - intros E; injection E as ->. cbn [t_enabled]. now rewrite Hr, Hstep.
    - destruct (t_enabled t0 e); [|discriminate]. destruct (t_step t0 e); [|discriminate]. apply IH. }
  assert (Hadd : adds (es ++ [EvTake mt]) = adds es).
  { clear. induction es as [|x es IH]; cbn [app adds]; auto. destruct x; auto. now rewrite IH. }
  assert (Hr' : t_reached t' = true /\ t_ready t' = [] /\ incl (t_ready t) (t_taken t')).
  { cbn [t_step] in Hstep. rewrite Hr in Hstep. cbn [negb] in Hstep.
    destruct (take_delayed mt (t_delayed t) (t_ready t)) as [[del rd]|] eqn:E1; [|discriminate].
    destruct (take_chan mt (t_chan t) del rd []) as [[[del' rd'] disc]|] eqn:E2; [|discriminate].
    destruct (255 <? _); [discriminate|]. destruct (set_decrease _ _ _ _); [|discriminate]. injection Hstep as <-.
    cbn [t_reached t_ready t_taken]. split; auto. split; auto. rewrite Htk. cbn [app].
    destruct (take_delayed_spec _ _ _ _ _ E1) as (mv & _ & ->). destruct (take_chan_spec _ _ _ _ _ _ _ _ E2) as (md & mr & mx & _ & _ & -> & _).
    intros x Hx. rewrite !in_app_iff. auto. }
  destruct Hr' as (Hr1 & Hr2 & Hr3).
  destruct (C15_reached_sound f skew _ t' Hf E') as (A & B & C); rewrite ?Hadd; auto.
  rewrite Hr2, app_nil_r, Hadd in *. auto.
Qed.
Print Assumptions C15_get_reached.

(** Monotone: once reached, always reached *)
Theorem C15_reached_stable : forall f skew es es' t t', f <= pc_max -> t_exec (t_new f skew) es = Some t -> t_exec t es' = Some t' ->
  NoDup (map pi_author (adds es ++ adds es')) -> N.of_nat (length (adds es ++ adds es')) <= full f ->
  t_reached t = true -> t_reached t' = true.
Proof.
  intros f skew es es' t t' Hf E E' Hn Hs Hr.
  assert (Hn' : NoDup (map pi_author (adds es))).
  { rewrite map_app in Hn. clear - Hn. induction (map pi_author (adds es)) as [|a r IH]; [constructor|]. cbn in Hn. inversion Hn; subst.
    constructor; auto. intros H; apply H1, in_or_app; auto. }
  assert (Hs' : N.of_nat (length (adds es)) <= full f) by (rewrite app_length in Hs; lia).
  destruct (exec_new es f skew t Hf Hn' Hs' E) as (Hi & Ht & Hc & Ha).
  destruct (exec_gen es' t t' Hi) as (_ & _ & _ & _ & H); auto; rewrite Ha; auto. now rewrite Hc.
Qed.
Print Assumptions C15_reached_stable.

(** Completeness: if together with the ready ones enough points wait in the channel and the clock has passed their
    times, then receiving them one after another reaches the threshold. *)
Lemma drain now n : forall t, t_inv t -> t_reached t = false -> length (t_chan t) = n ->
  Forall (fun i => pi_time i <= now) (t_chan t) -> t_target t <= N.of_nat (length (t_ready t) + n) ->
  exists es t', t_exec t es = Some t' /\ t_reached t' = true /\ Forall (fun e => e = EvRecv now now \/ e = EvCheck) es.
Proof.
  induction n as [|n IH]; intros t Hi Hr Hl Hf Hle.
  - exists [EvCheck]. cbn [t_exec t_enabled t_step]. rewrite Hr. destruct (t_target t <=? _) eqn:E; [|lia].
    eexists. split; [reflexivity|]. split; [reflexivity|]. constructor; [auto|constructor].
  - destruct (t_target t <=? N.of_nat (length (t_ready t))) eqn:Et.
    { exists [EvCheck]. cbn [t_exec t_enabled t_step]. rewrite Hr, Et. eexists. split; [reflexivity|]. split; [reflexivity|]. constructor; [auto|constructor]. }
    assert (He : t_enabled t (EvRecv now now) = true). { cbn [t_enabled]. rewrite Hr, Hl. cbn [negb]. destruct (_ <? _) eqn:E; [|lia]. reflexivity. }
    destruct (t_step_ok t (EvRecv now now) Hi He ltac:(discriminate)) as (t1 & E1 & Hi1 & Ht1 & _).
    destruct (IH t1) as (es & t' & E & Hr' & HF); auto.
    + cbn [t_step] in E1. destruct (t_chan t) as [|i ch]; [discriminate|].
      repeat match type of E1 with context[if ?b then _ else _] => destruct b | context[match ?x with Some _ => _ | None => _ end] => destruct x end; try discriminate; injection E1 as <-; exact Hr.
    + cbn [t_step] in E1. destruct (t_chan t) as [|i ch]; [discriminate|]. cbn [length] in Hl.
      repeat match type of E1 with context[if ?b then _ else _] => destruct b | context[match ?x with Some _ => _ | None => _ end] => destruct x end; try discriminate; injection E1 as <-; cbn [t_upd t_chan]; lia.
    + cbn [t_step] in E1. destruct (t_chan t) as [|i ch]; [discriminate|]. inversion Hf; subst.
      repeat match type of E1 with context[if ?b then _ else _] => destruct b | context[match ?x with Some _ => _ | None => _ end] => destruct x end; try discriminate; injection E1 as <-; cbn [t_upd t_chan]; auto.
    + cbn [t_step] in E1. destruct (t_chan t) as [|i ch]; [discriminate|]. inversion Hf; subst.
      replace (pi_time i - now) with 0 in E1 by lia. destruct (too_far <? 0) eqn:E0; [unfold too_far in E0; lia|].
      cbv zeta in E1. change (0 <? 0) with false in E1. cbv iota in E1. change (0 <? 0) with false in E1. cbv iota in E1.
      destruct (push_ready (t_ready t) i) as [rd|] eqn:Ep; [|discriminate]. apply push_ready_some in Ep. subst rd.
      destruct (set_decrease _ _ _ _); [|discriminate]. injection E1 as <-. cbn [t_upd t_ready t_target]. rewrite app_length. cbn [length]. lia.
    + exists (EvRecv now now :: es), t'. cbn [t_exec]. rewrite He, E1. auto.
Qed.

Theorem C15_reached_complete : forall f skew es t now, f <= pc_max -> t_exec (t_new f skew) es = Some t ->
  NoDup (map pi_author (adds es)) -> N.of_nat (length (adds es)) <= full f ->
  Forall (fun i => pi_time i <= now) (t_chan t) ->
  majority f <= N.of_nat (length (t_ready t) + length (t_chan t)) -> t_reached t = false ->
  exists es' t', t_exec t es' = Some t' /\ t_reached t' = true /\ Forall (fun e => e = EvRecv now now \/ e = EvCheck) es'.
Proof.
  intros f skew es t now Hf E Hn Hs HF Hm Hr. destruct (exec_new es f skew t Hf Hn Hs E) as (Hi & Ht & _).
  eapply drain; eauto. now rewrite Ht.
Qed.
Print Assumptions C15_reached_complete.

(** a second point of one author makes the consumer panic, it is never counted *)
Theorem C15_second_point_not_counted : forall ready i, In (pi_author i) (map pi_author ready) -> push_ready ready i = None.
Proof.
  intros ready i H. unfold push_ready. destruct (existsb _ ready) eqn:E; auto. apply in_map_iff in H as (j & Hj & Hin).
  assert (Hc : existsb (fun j => pi_author j =? pi_author i) ready = true) by (apply existsb_exists; exists j; split; auto; now apply N.eqb_eq).
  congruence.
Qed.
Print Assumptions C15_second_point_not_counted.

Example C15_example :
  match t_exec (t_new 1 5) [EvInc (PI 1 10 0); EvSend 0; EvInc (PI 2 90 0); EvInc (PI 3 20 0); EvSend 1; EvRecv 15 15; EvSend 0; EvRecv 15 30; EvCheck; EvRecv 30 30; EvExpire 0; EvCheck; EvTake 100] with
  | Some t => t_reached t = true /\ map pi_author (t_taken t) = [1; 3; 2] /\ tc_unpack (t_count t) = TC 3 3 0 0
  | None => False
  end.
Proof. vm_compute. auto. Qed.

(** * The clock. A point is [due] at a reading when its time is not after it; it is discarded only when it is more than
    365 days in the future. *)
Definition due (now : N) (i : pinfo) : Prop := pi_time i <= now.
Definition absurd_time (now : N) (i : pinfo) : Prop := now + 365 * 24 * 3600 * 1000 < pi_time i.

(** receiving one point: it becomes ready iff it is due at one of the two clock readings, it is dropped iff its time is absurd,
    else it is delayed *)
Theorem C15_receive_by_time : forall t mt now t', t_step t (EvRecv mt now) = Some t' ->
  exists i r, t_chan t = i :: r /\ t_chan t' = r /\ t_taken t' = t_taken t /\ t_reached t' = t_reached t /\
  ((absurd_time mt i /\ t_ready t' = t_ready t /\ t_delayed t' = t_delayed t /\ t_discarded t' = t_discarded t ++ [i]) \/
   (~ absurd_time mt i /\ (due mt i \/ due now i) /\ t_ready t' = t_ready t ++ [i] /\ t_delayed t' = t_delayed t /\ t_discarded t' = t_discarded t) \/
   (~ absurd_time mt i /\ ~ due mt i /\ ~ due now i /\ t_ready t' = t_ready t /\ t_delayed t' = t_delayed t ++ [i] /\ t_discarded t' = t_discarded t)).
Proof.
  intros t mt now t' E. cbn [t_step] in E. destruct (t_chan t) as [|i ch]; [discriminate|]. exists i, ch.
  unfold absurd_time, due. change too_far with (365 * 24 * 3600 * 1000) in E. remember (365 * 24 * 3600 * 1000) as year eqn:Y. clear Y.
  destruct (N.ltb_spec year (pi_time i - mt)) as [L|L].
  - destruct (set_decrease _ _ 1 _) as [c|]; [|discriminate]. injection E as <-. cbn. split; auto. split; auto. split; auto. split; auto. left.
    split; [lia|]. auto.
  - destruct (N.ltb_spec 0 (pi_time i - mt)) as [L1|L1].
    + destruct (N.ltb_spec 0 (pi_time i - now)) as [L2|L2].
      * destruct (set_decrease _ _ 1 _) as [c|]; [|discriminate]. injection E as <-. cbn. split; auto. split; auto. split; auto. split; auto.
        right; right. split; [lia|]. split; [lia|]. split; [lia|auto].
      * destruct (push_ready _ i) as [rd|] eqn:P; [|discriminate]. apply push_ready_some in P. subst rd.
        destruct (set_decrease _ _ 1 _) as [c|]; [|discriminate]. injection E as <-. cbn. split; auto. split; auto. split; auto. split; auto.
        right; left. split; [lia|]. split; [lia|auto].
    + destruct (N.ltb_spec 0 (pi_time i - mt)) as [L2|L2]; [lia|].
      destruct (push_ready _ i) as [rd|] eqn:P; [|discriminate]. apply push_ready_some in P. subst rd.
      destruct (set_decrease _ _ 1 _) as [c|]; [|discriminate]. injection E as <-. cbn. split; auto. split; auto. split; auto. split; auto.
      right; left. split; [lia|]. split; [lia|auto].
Qed.

Lemma take_delayed_time mt del : forall rd del' rd', take_delayed mt del rd = Some (del', rd') ->
  exists moved, del = moved ++ del' /\ rd' = rd ++ moved /\ Forall (due mt) moved /\
    match del' with [] => True | i :: _ => ~ due mt i end.
Proof.
  induction del as [|i r IH]; intros rd del' rd'; cbn [take_delayed].
  - intros E; injection E as <- <-. exists []. rewrite !app_nil_r. auto.
  - destruct (N.ltb_spec 0 (pi_time i - mt)) as [L|L].
    { intros E; injection E as <- <-. exists []. rewrite !app_nil_r. split; auto. split; auto. split; auto. unfold due. lia. }
    destruct (push_ready rd i) as [rd2|] eqn:E; [|discriminate]. apply push_ready_some in E. subst rd2.
    intros E. destruct (IH _ _ _ E) as (mv & -> & -> & F & H). exists (i :: mv). split; auto. split; [now rewrite <- app_assoc|].
    split; auto. constructor; auto. unfold due. lia.
Qed.
Lemma take_chan_time mt ch : forall del rd disc del' rd' disc', take_chan mt ch del rd disc = Some (del', rd', disc') ->
  rd' = rd ++ filter (fun i => pi_time i <=? mt) ch /\
  del' = del ++ filter (fun i => (mt <? pi_time i) && (pi_time i <=? mt + 365 * 24 * 3600 * 1000)) ch /\
  disc' = disc ++ filter (fun i => mt + 365 * 24 * 3600 * 1000 <? pi_time i) ch.
Proof.
  change too_far with (365 * 24 * 3600 * 1000). 
  induction ch as [|i r IH]; intros del rd disc del' rd' disc'; cbn [take_chan filter].
  - intros E; injection E as <- <- <-. rewrite !app_nil_r. auto.
  - change too_far with (365 * 24 * 3600 * 1000). remember (365 * 24 * 3600 * 1000) as year eqn:Y. clear Y.
    destruct (N.ltb_spec year (pi_time i - mt)) as [L|L].
    { intros E. apply IH in E as (-> & -> & ->). destruct (N.leb_spec (pi_time i) mt); [lia|]. destruct (N.ltb_spec mt (pi_time i)); [|lia].
      destruct (N.leb_spec (pi_time i) (mt + year)); [lia|]. destruct (N.ltb_spec (mt + year) (pi_time i)); [|lia]. cbn [andb]. now rewrite <- app_assoc. }
    destruct (N.ltb_spec 0 (pi_time i - mt)) as [L1|L1].
    { intros E. apply IH in E as (-> & -> & ->). destruct (N.leb_spec (pi_time i) mt); [lia|]. destruct (N.ltb_spec mt (pi_time i)); [|lia].
      destruct (N.leb_spec (pi_time i) (mt + year)); [|lia]. destruct (N.ltb_spec (mt + year) (pi_time i)); [lia|]. cbn [andb]. now rewrite <- app_assoc. }
    destruct (push_ready rd i) as [rd2|] eqn:E; [|discriminate]. apply push_ready_some in E. subst rd2.
    intros E. apply IH in E as (-> & -> & ->). destruct (N.leb_spec (pi_time i) mt); [|lia]. destruct (N.ltb_spec mt (pi_time i)); [lia|].
    destruct (N.ltb_spec (mt + year) (pi_time i)); [lia|]. cbn [andb]. now rewrite <- app_assoc.
Qed.

(** get_reached at clock [mt]: the result is the ready points, then the delayed points that are due (the delay queue yields its
    points in the order of their deadlines: [sorted by time]), then the due points of the channel; the channel is emptied, what
    is not due stays delayed, absurd times are dropped. *)
Theorem C15_get_reached_by_time : forall t mt t', t_step t (EvTake mt) = Some t' ->
  StronglySorted (fun a b => pi_time a <= pi_time b) (t_delayed t) ->
  t_taken t' = t_taken t ++ t_ready t ++ filter (fun i => pi_time i <=? mt) (t_delayed t ++ t_chan t) /\
  t_delayed t' = filter (fun i => mt <? pi_time i) (t_delayed t) ++
                 filter (fun i => (mt <? pi_time i) && (pi_time i <=? mt + 365 * 24 * 3600 * 1000)) (t_chan t) /\
  t_discarded t' = t_discarded t ++ filter (fun i => mt + 365 * 24 * 3600 * 1000 <? pi_time i) (t_chan t) /\
  t_chan t' = [] /\ t_ready t' = [].
Proof.
  intros t mt t' E S0. cbn [t_step] in E. destruct (t_reached t); [|discriminate]. cbn [negb] in E.
  destruct (take_delayed mt (t_delayed t) (t_ready t)) as [[del rd]|] eqn:E1; [|discriminate].
  destruct (take_chan mt (t_chan t) del rd []) as [[[del' rd'] disc]|] eqn:E2; [|discriminate].
  destruct (255 <? N.of_nat (length (t_chan t))); [discriminate|]. destruct (set_decrease _ _ _ _) as [c|]; [|discriminate].
  injection E as <-. cbn [t_taken t_delayed t_discarded t_chan t_ready].
  apply take_delayed_time in E1 as (mv & Ed & -> & F & Hd). apply take_chan_time in E2 as (-> & -> & ->).
  assert (A : filter (fun i => pi_time i <=? mt) (t_delayed t) = mv /\ filter (fun i => mt <? pi_time i) (t_delayed t) = del).
  { rewrite Ed in *. rewrite !filter_app.
    assert (A1 : filter (fun i => pi_time i <=? mt) mv = mv /\ filter (fun i => mt <? pi_time i) mv = []).
    { clear - F. induction F as [|x l H F IH]; [auto|]. unfold due in H. cbn [filter]. destruct (N.leb_spec (pi_time x) mt); [|lia].
      destruct (N.ltb_spec mt (pi_time x)); [lia|]. destruct IH as [-> ->]. auto. }
    assert (A2 : Forall (fun i => mt < pi_time i) del).
    { clear A1. assert (S1 : StronglySorted (fun a b => pi_time a <= pi_time b) del).
      { clear - S0. induction mv as [|x m IH]; auto. cbn in S0. inversion S0; auto. }
      destruct del as [|x r]; [constructor|]. unfold due in Hd. inversion S1; subst. constructor; [lia|].
      eapply Forall_impl; [|exact H2]. cbn. lia. }
    destruct A1 as [-> ->].
    assert (A3 : filter (fun i => pi_time i <=? mt) del = [] /\ filter (fun i => mt <? pi_time i) del = del).
    { clear - A2. induction A2 as [|x l H F IH]; [auto|]. cbn [filter]. destruct (N.leb_spec (pi_time x) mt); [lia|].
      destruct (N.ltb_spec mt (pi_time x)); [|lia]. destruct IH as [-> ->]. auto. }
    destruct A3 as [-> ->]. now rewrite app_nil_r. }
  destruct A as [A B]. rewrite filter_app, A, B. cbn [app]. rewrite <- !app_assoc. auto.
Qed.
Example C15_time_example :
  match t_exec (t_new 1 5) [EvInc (PI 1 10 0); EvInc (PI 2 12 0); EvInc (PI 3 20 0); EvInc (PI 4 40 0); EvSend 0; EvSend 0; EvSend 0; EvSend 0;
     EvRecv 15 15; EvRecv 15 15; EvRecv 15 30; EvCheck; EvTake 35] with
  | Some t => map pi_author (t_taken t) = [1; 2; 3] /\ map pi_author (t_delayed t) = [4]
  | None => False
  end.
Proof. vm_compute. auto. Qed.
Print Assumptions C15_receive_by_time.
Print Assumptions C15_get_reached_by_time.
