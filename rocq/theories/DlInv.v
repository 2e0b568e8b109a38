(** Invariants of a download. *)
From Coq Require Import List Bool NArith Lia ZArith ZifyN ZifyNat ZifyBool.
From Verif Require Import OMap VomModel VomProofs PeerCountModel DlModel DlQueue.
Import ListNotations.
Local Open Scope N_scope.

(** peers whose answer is awaited or is being parsed *)
Definition slot_peers (s : option (peer * parsed)) : list peer := match s with Some e => [fst e] | None => [] end.
Definition pending (y : task) : list peer := d_down y ++ slot_peers (d_slot y) ++ map fst (d_pq y).
Definition known (c : conf) (p : peer) : Prop := In p (map fst (c_vset c)) \/ p = c_author c.
Definition signer (c : conf) (p : peer) : Prop := In p (map fst (c_vset c)).
Definition flying (q : queue) (p : peer) : Prop := exists s, q_get p q = Some s /\ t_flight s = true.

Lemma has_In p l : has p l = true <-> In p l.
Proof. unfold has. rewrite existsb_exists. split; [intros (x & H & E); apply N.eqb_eq in E; subst; exact H|intros H; exists p; split; [exact H|apply N.eqb_refl]]. Qed.
Lemma rm_in p l x : NoDup l -> In x (rm p l) <-> In x l /\ x <> p.
Proof.
  induction l as [|a l IH]; intros N; cbn [rm]; [cbn [In]; tauto|]. inversion N as [|? ? N1 N2]; subst. destruct (N.eqb_spec a p) as [E|E].
  - subst a. split; [intros H; split; [right; exact H|congruence]|]. intros [[H|H] D]; [congruence|exact H].
  - cbn [In]. rewrite (IH N2). split; [intros [H|[H D]]; [split; [left; exact H|congruence]|tauto]|]. intros [[H|H] D]; tauto.
Qed.
Lemma rm_nd p l : NoDup l -> NoDup (rm p l).
Proof.
  induction l as [|a l IH]; intros N; cbn [rm]; [exact N|]. inversion N as [|? ? N1 N2]; subst. destruct (a =? p); [exact N2|].
  constructor; [|exact (IH N2)]. rewrite (rm_in p l a N2). tauto.
Qed.
Lemma rm_len p l : In p l -> (length (rm p l) + 1 = length l)%nat.
Proof. induction l as [|a l IH]; cbn [rm In length]; [intros []|]. destruct (N.eqb_spec a p) as [E|E]; [lia|]. intros [H|H]; [contradiction|]. cbn [length]. specialize (IH H). lia. Qed.
Lemma nd_app_l {A} (l m : list A) : NoDup (l ++ m) -> NoDup l.
Proof. induction l as [|a l IH]; cbn [app]; intros N; [constructor|]. inversion N as [|? ? N1 N2]; subst. constructor; [intros H; apply N1; apply in_app_iff; auto|auto]. Qed.
Lemma rm_app p l m : In p l -> rm p (l ++ m) = rm p l ++ m.
Proof. induction l as [|a l IH]; cbn [app rm In]; [intros []|]. destruct (N.eqb_spec a p) as [E|E]; [reflexivity|]. intros [H|H]; [contradiction|]. cbn [app]. f_equal. auto. Qed.

(** the part of the invariant about the queue, with the list of pending peers;
    [nw]: the counter of attempts did not wrap *)
Record qinv (c : conf) (nw : bool) (q : queue) (pend : list peer) (nf : list peer) (attempt : N) (asked : list (peer * N)) : Prop := {
  i_ok : q_ok q;
  i_known : forall p s, q_get p q = Some s -> known c p;
  i_nd : NoDup pend;
  i_fly : forall p, In p pend <-> flying q p;
  i_nf_nd : NoDup nf;
  i_nf : forall p, In p nf -> signer c p /\ q_get p q = None;
  i_asked_kn : forall p a, In (p, a) asked -> known c p;
  i_asked_nd : nw = true -> NoDup asked;
  i_asked : nw = true -> forall p a, In (p, a) asked -> a <= attempt /\ forall s, q_get p q = Some s -> exists b, t_last s = Some b /\ a <= b;
  i_last : nw = true -> forall p s b, q_get p q = Some s -> t_last s = Some b -> b <= attempt /\ In (p, b) asked;
  i_left : forall p, signer c p -> q_get p q = None -> In p nf }.

Definition tinv (c : conf) (nw : bool) (y : task) : Prop :=
  (d_out y = None -> qinv c nw (d_q y) (pending y) (d_nf y) (d_attempt y) (d_asked y) /\ N.of_nat (length (d_nf y)) < majority_of_others (c_f c)) /\
  (d_slot y = None -> d_out y = None -> d_pq y = []).

(** changing a status but not [flight] and [last] *)
Lemma q_same c nw q pend nf a asked p f : qinv c nw q pend nf a asked -> (forall s, t_flight (f s) = t_flight s) -> (forall s, t_last (f s) = t_last s) ->
  qinv c nw (q_update_ p f q) pend nf a asked.
Proof.
  intros [V1 V2 V3 V4 V5 V6 V0 V7 V8 V9 V10] F1 F2. destruct (update__ok p f q V1) as [O G].
  assert (GS : forall x s, q_get x (q_update_ p f q) = Some s -> exists s0, q_get x q = Some s0 /\ t_flight s = t_flight s0 /\ t_last s = t_last s0).
  { intros x s. rewrite G. destruct (x =? p); [|eauto]. destruct (q_get x q) as [s0|]; [|discriminate]. cbn [option_map]. intros [= <-]. exists s0. auto. }
  assert (GR : forall x s0, q_get x q = Some s0 -> exists s, q_get x (q_update_ p f q) = Some s /\ t_flight s = t_flight s0 /\ t_last s = t_last s0).
  { intros x s0 E. rewrite G. destruct (x =? p); [|eauto]. rewrite E. cbn [option_map]. exists (f s0). auto. }
  assert (GN : forall x, q_get x (q_update_ p f q) = None <-> q_get x q = None).
  { intros x. rewrite G. destruct (x =? p); [|tauto]. destruct (q_get x q); cbn [option_map]; [split; discriminate|tauto]. }
  constructor; auto.
  - intros x s E. destruct (GS x s E) as (s0 & E0 & _). eauto.
  - intros x. rewrite V4. unfold flying. split; intros (s & E & T).
    + destruct (GR x s E) as (s' & E' & T' & _). exists s'. split; [exact E'|congruence].
    + destruct (GS x s E) as (s' & E' & T' & _). exists s'. split; [exact E'|congruence].
  - intros x H. rewrite GN. auto.
  - intros NW x b H. destruct (V8 NW x b H) as (B & D). split; [exact B|]. intros s E. destruct (GS x s E) as (s0 & E0 & _ & L). rewrite L. eauto.
  - intros NW x s b E L. destruct (GS x s E) as (s0 & E0 & _ & L0). rewrite L0 in L. eauto.
  - intros x. rewrite GN. auto.
Qed.

(** the peer will be asked again *)
Lemma q_retry c nw q pend nf a asked p q' : qinv c nw q pend nf a asked -> q_update p retry_later q = Some q' -> qinv c nw q' (rm p pend) nf a asked.
Proof.
  intros [V1 V2 V3 V4 V5 V6 V0 V7 V8 V9 V10] U. destruct (update_ok p retry_later q q' V1 U) as (O & _ & G).
  assert (GS : forall x s, q_get x q' = Some s -> exists s0, q_get x q = Some s0 /\ t_last s = t_last s0).
  { intros x s. rewrite G. destruct (x =? p); [|eauto]. destruct (q_get x q) as [s0|]; [|discriminate]. cbn [option_map]. intros [= <-]. exists s0. auto. }
  assert (GN : forall x, q_get x q' = None <-> q_get x q = None).
  { intros x. rewrite G. destruct (x =? p); [|tauto]. destruct (q_get x q); cbn [option_map]; [split; discriminate|tauto]. }
  constructor; auto.
  - intros x s E. destruct (GS x s E) as (s0 & E0 & _). eauto.
  - apply rm_nd. exact V3.
  - intros x. rewrite (rm_in p pend x V3), V4. unfold flying. rewrite G. destruct (N.eqb_spec x p) as [E|E].
    + split; [tauto|]. intros (s & E2 & T). destruct (q_get x q); [|discriminate]. cbn [option_map] in E2. injection E2 as <-. discriminate.
    + tauto.
  - intros x H. rewrite GN. auto.
  - intros NW x b H. destruct (V8 NW x b H) as (B & D). split; [exact B|]. intros s E. destruct (GS x s E) as (s0 & E0 & L). rewrite L. eauto.
  - intros NW x s b E L. destruct (GS x s E) as (s0 & E0 & L0). rewrite L0 in L. eauto.
  - intros x. rewrite GN. auto.
Qed.

(** a definite answer that is counted *)
Lemma q_count c nw q pend nf a asked p : qinv c nw q pend nf a asked -> In p pend ->
  let nf' := if out_of_vset c && (p =? c_author c) then nf else if has p nf then nf else p :: nf in
  qinv c nw (fst (vm_remove N.compare p q)) (rm p pend) nf' a asked.
Proof.
  intros [V1 V2 V3 V4 V5 V6 V0 V7 V8 V9 V10] IP nf'. destruct (remove_ok p q V1) as (O & _ & G).
  assert (GS : forall x s, q_get x (fst (vm_remove N.compare p q)) = Some s -> x <> p /\ q_get x q = Some s).
  { intros x s. rewrite G. destruct (N.eqb_spec x p); [discriminate|auto]. }
  apply V4 in IP as (sp & GP & TP).
  assert (NP : ~ In p nf) by (intros H; destruct (V6 p H); congruence).
  assert (HP : has p nf = false) by (destruct (has p nf) eqn:E; [apply has_In in E; contradiction|reflexivity]).
  assert (NE : nf' = nf /\ out_of_vset c = true /\ p = c_author c \/ nf' = p :: nf /\ signer c p).
  { unfold nf'. rewrite HP. destruct (out_of_vset c) eqn:OV; cbn [andb].
    - destruct (N.eqb_spec p (c_author c)) as [E|E]; [left; auto|]. right. split; [reflexivity|]. destruct (V2 p sp GP); [assumption|contradiction].
    - right. split; [reflexivity|]. destruct (V2 p sp GP) as [H|H]; [exact H|]. subst p. unfold out_of_vset in OV. apply negb_false_iff, has_In in OV. exact OV. }
  constructor; auto.
  - intros x s E. destruct (GS x s E). eauto.
  - apply rm_nd. exact V3.
  - intros x. rewrite (rm_in p pend x V3), V4. unfold flying. rewrite G. destruct (N.eqb_spec x p) as [E|E].
    + split; [tauto|]. intros (s & E2 & T). discriminate.
    + tauto.
  - destruct NE as [(-> & _)|(-> & _)]; [exact V5|constructor; assumption].
  - intros x H. assert (Q : x = p /\ signer c p \/ In x nf) by (destruct NE as [(E & _)|(E & S)]; rewrite E in H; [auto|destruct H as [<-|H]; auto]).
    rewrite G. destruct Q as [(-> & S)|H']; [rewrite N.eqb_refl; auto|]. destruct (V6 x H') as [A B]. split; [exact A|]. destruct (x =? p); auto.
  - intros NW x b H. destruct (V8 NW x b H) as (B & D). split; [exact B|]. intros s E. destruct (GS x s E). eauto.
  - intros NW x s b E L. destruct (GS x s E). eauto.
  - intros x S. rewrite G. destruct (N.eqb_spec x p) as [E|E].
    + intros _. subst x. destruct NE as [(_ & OV & E)|(-> & _)]; [|left; reflexivity]. exfalso. unfold out_of_vset in OV. apply negb_true_iff in OV.
      unfold signer in S. rewrite E in S. apply has_In in S. congruence.
    + intros H. specialize (V10 x S H). destruct NE as [(-> & _)|(-> & _)]; [exact V10|right; exact V10].
Qed.

(** asking one more peer *)
Lemma q_take c nw q pend nf a asked p q' : qinv c nw q pend nf a asked -> take_to_flight a q = Some (p, q') ->
  qinv c nw q' (p :: pend) nf a ((p, a) :: asked).
Proof.
  intros [V1 V2 V3 V4 V5 V6 V0 V7 V8 V9 V10] T. destruct (take_some a q p q' V1 T) as (s & GP & R & _ & O & G).
  unfold is_ready in R. apply andb_true_iff in R as [R RL]. apply andb_true_iff in R as [RR RF]. apply negb_true_iff in RF.
  constructor; auto.
  - intros x u. rewrite G. destruct (N.eqb_spec x p) as [E|E]; [intros _; subst x; eauto|eauto].
  - constructor; [|exact V3]. rewrite V4. intros (u & GU & FU). congruence.
  - intros x. cbn [In]. rewrite V4. unfold flying. rewrite G. destruct (N.eqb_spec x p) as [E|E].
    + split; [intros _; eexists; split; reflexivity|auto].
    + split; [intros [H|H]; [congruence|exact H]|auto].
  - intros x H. destruct (V6 x H) as [A B]. split; [exact A|]. rewrite G. destruct (N.eqb_spec x p); [congruence|exact B].
  - intros x b [H|H]; [injection H as -> ->; eauto|eauto].
  - intros NW. constructor; [|exact (V7 NW)]. intros H. destruct (V8 NW p a H) as (_ & D). destruct (D s GP) as (b & L & LE). rewrite L in RL. lia.
  - intros NW x b [H|H].
    + injection H as -> ->. split; [lia|]. intros u. rewrite G, N.eqb_refl. intros [= <-]. exists b. cbn [t_last]. split; [reflexivity|lia].
    + destruct (V8 NW x b H) as (B & D). split; [exact B|]. intros u. rewrite G. destruct (N.eqb_spec x p) as [E|E]; [|auto].
      intros [= <-]. exists a. cbn [t_last]. auto.
  - intros NW x u b. rewrite G. destruct (N.eqb_spec x p) as [E|E].
    + intros [= <-]. cbn [t_last]. intros [= <-]. subst x. split; [lia|left; reflexivity].
    + intros H L. destruct (V9 NW x u b H L). split; [assumption|right; assumption].
  - intros x S. rewrite G. destruct (x =? p); [discriminate|auto].
Qed.

Lemma take_n_inv c nw k y : qinv c nw (d_q y) (pending y) (d_nf y) (d_attempt y) (d_asked y) ->
  let y' := take_n k y in
  qinv c nw (d_q y') (pending y') (d_nf y') (d_attempt y') (d_asked y') /\ d_nf y' = d_nf y /\ d_slot y' = d_slot y /\ d_pq y' = d_pq y /\ d_out y' = d_out y /\ d_attempt y' = d_attempt y.
Proof.
  revert y. induction k as [|k IH]; intros y I; cbn [take_n]; [cbn zeta; auto 10|]. destruct (take_to_flight (d_attempt y) (d_q y)) as [[p q]|] eqn:T; [|cbn zeta; auto 10].
  specialize (IH (Task q (p :: d_down y) (d_slot y) (d_pq y) (d_nf y) (d_attempt y) ((p, d_attempt y) :: d_asked y) (d_out y))).
  cbn zeta in *. cbn [d_q d_nf d_attempt d_asked d_slot d_pq d_out] in IH. apply IH. unfold pending in *. cbn [d_down d_slot d_pq]. exact (q_take c nw _ _ _ _ _ p q I T).
Qed.
Lemma tinv_random c nw y : tinv c nw y -> tinv c nw (download_random c y) /\ d_out (download_random c y) = d_out y /\ d_slot (download_random c y) = d_slot y /\ d_attempt (download_random c y) = d_attempt y.
Proof.
  intros [H1 H2]. unfold download_random. destruct (d_out y) as [o|] eqn:O.
  - assert (X : forall k y, d_out (take_n k y) = d_out y /\ d_slot (take_n k y) = d_slot y /\ d_attempt (take_n k y) = d_attempt y).
    { clear. induction k as [|k IH]; intros y; cbn [take_n]; [auto|]. destruct (take_to_flight (d_attempt y) (d_q y)) as [[p q]|]; [|auto].
      match goal with |- context [take_n k ?z] => destruct (IH z) as (A & B & D) end. rewrite A, B, D. auto. }
    set (k := N.to_nat _). destruct (X k y) as (A & B & D). rewrite A, B, D, O. split; [|auto]. split; rewrite A, O; discriminate.
  - destruct (H1 eq_refl) as [I L]. set (k := N.to_nat _). destruct (take_n_inv c nw k y I) as (I' & A & B & D & E & F). cbn zeta in *. rewrite E, B, F.
    split; [|auto]. split; [intros _; rewrite A in *; split; [exact I'|exact L]|]. rewrite B, E, D, O. exact H2.
Qed.

Lemma inspect_inv c nw p r v y : forall pend, qinv c nw (d_q y) pend (d_nf y) (d_attempt y) (d_asked y) -> In p pend ->
  exists y' o, inspect c p r v y = Some (y', o) /\ d_down y' = d_down y /\ d_slot y' = d_slot y /\ d_pq y' = d_pq y /\ d_out y' = d_out y /\ d_attempt y' = d_attempt y /\ d_asked y' = d_asked y /\
    (o = None -> qinv c nw (d_q y') (rm p pend) (d_nf y') (d_attempt y') (d_asked y')).
Proof.
  intros pend I IP. pose proof (proj1 (i_fly _ _ _ _ _ _ _ I p) IP) as (s & GP & FP). pose proof (q_count c nw (d_q y) pend (d_nf y) (d_attempt y) (d_asked y) p I IP) as QC. cbn zeta in QC.
  destruct (remove_ok p (d_q y) (i_ok _ _ _ _ _ _ _ I)) as (_ & RM & _). rewrite GP in RM.
  assert (RL : exists q, q_update p retry_later (d_q y) = Some q) by (unfold q_update; rewrite GP; eauto). destruct RL as (q' & RL).
  pose proof (q_retry c nw _ _ _ _ _ p q' I RL) as QR.
  assert (NFE : forall q, d_nf (on_not_found c p (with_q y q)) = (if out_of_vset c && (p =? c_author c) then d_nf y else if has p (d_nf y) then d_nf y else p :: d_nf y) /\ d_q (on_not_found c p (with_q y q)) = q /\
    d_down (on_not_found c p (with_q y q)) = d_down y /\ d_slot (on_not_found c p (with_q y q)) = d_slot y /\ d_pq (on_not_found c p (with_q y q)) = d_pq y /\ d_out (on_not_found c p (with_q y q)) = d_out y /\
    d_attempt (on_not_found c p (with_q y q)) = d_attempt y /\ d_asked (on_not_found c p (with_q y q)) = d_asked y).
  { intros q. unfold on_not_found. cbn [with_q d_nf]. destruct (out_of_vset c && (p =? c_author c)); [cbn; auto 10|]. destruct (has p (d_nf y)); cbn; auto 10. }
  unfold inspect. rewrite RL. destruct (vm_remove N.compare p (d_q y)) as [q r0]. cbn [fst snd] in *. subst r0. rewrite FP. destruct (NFE q) as (E1 & E2 & E3 & E4 & E5 & E6 & E7 & E8).
  assert (NFC : exists y' o, Some (on_not_found c p (with_q y q), @None outcome) = Some (y', o) /\ d_down y' = d_down y /\ d_slot y' = d_slot y /\ d_pq y' = d_pq y /\ d_out y' = d_out y /\ d_attempt y' = d_attempt y /\ d_asked y' = d_asked y /\
    (o = None -> qinv c nw (d_q y') (rm p pend) (d_nf y') (d_attempt y') (d_asked y'))).
  { eexists. eexists. split; [reflexivity|]. rewrite E1, E2, E3, E4, E5, E6, E7, E8. auto 10. }
  destruct r as [[i|i| |]| | | |]; try exact NFC.
  - destruct (i =? c_id c); [|exact NFC]. eexists. eexists. split; [reflexivity|]. cbn [with_q d_down d_slot d_pq d_out d_attempt d_asked]. do 6 (split; [reflexivity|]). discriminate.
  - destruct (i =? c_id c); [|exact NFC]. eexists. eexists. split; [reflexivity|]. cbn [with_q d_down d_slot d_pq d_out d_attempt d_asked]. do 6 (split; [reflexivity|]). discriminate.
  - eexists. eexists. split; [reflexivity|]. cbn [with_q d_down d_slot d_pq d_out d_attempt d_asked d_q d_nf]. do 6 (split; [reflexivity|]). intros _. exact QR.
  - eexists. eexists. split; [reflexivity|]. cbn [with_q d_down d_slot d_pq d_out d_attempt d_asked d_q d_nf]. do 6 (split; [reflexivity|]). intros _. exact QR.
Qed.
