(** What a download promises. *)
From Coq Require Import List Bool NArith Lia ZArith ZifyN ZifyNat ZifyBool Permutation.
From Verif Require Import OMap VomModel VomProofs PeerCountModel PeerCountProps DlModel DlQueue DlInv DlSteps.
Import ListNotations.
Local Open Scope N_scope.

(** ** Small specification *)

(** the parsed response is not the requested point *)
Definition worthless (c : conf) (x : parsed) : Prop :=
  match x with PBad | PTl => True | PPoint i | PIllFormed i => i <> c_id c end.
(** peer [p] answered that it has no point, or with something else than the point *)
Definition denied (c : conf) (l : list event) (p : peer) : Prop :=
  In (EResponse p RNone) l \/ In (EResponse p RTl) l \/ exists x, In (EResponse p (RDefined x)) l /\ worthless c x.
(** the last reported state of a peer *)
Fixpoint find_state (p : peer) (l : list (peer * bool)) : bool :=
  match l with [] => false | e :: r => if fst e =? p then snd e else find_state p r end.
Definition state0 (c : conf) (p : peer) : bool := if p =? c_author c then c_author_res c else find_state p (c_vset c).
Definition report (p : peer) (s : bool) (e : event) : bool := match e with EUpdate q r => if q =? p then r else s | _ => s end.
Definition reported (c : conf) (l : list event) (p : peer) : bool := fold_left (report p) l (state0 c p).
(** how many queries may be under way *)
Definition limit (c : conf) (attempt : N) : N := N.min (N.max (c_down c * attempt) 1) (c_f c + 1).
(** [p] may be asked: resolved, not asked at the moment and not asked in this attempt *)
Definition may_be_asked (y : task) (attempt : N) (p : peer) : Prop :=
  exists s, q_get p (d_q y) = Some s /\ t_res s = true /\ t_flight s = false /\ (t_last s = None \/ exists b, t_last s = Some b /\ b < attempt).

Lemma ready_may y a p : may_be_asked y a p <-> exists s, q_get p (d_q y) = Some s /\ is_ready s a = true.
Proof.
  unfold may_be_asked, is_ready. split.
  - intros (s & G & R & F & L). exists s. split; [exact G|]. rewrite R, F. cbn [andb negb]. destruct L as [-> |(b & -> & LT)]; [reflexivity|]. lia.
  - intros (s & G & R). exists s. split; [exact G|]. apply andb_true_iff in R as [R L]. apply andb_true_iff in R as [R F]. apply negb_true_iff in F.
    repeat split; auto. destruct (t_last s) as [b|]; [right; exists b; split; [reflexivity|lia]|left; reflexivity].
Qed.

(** ** No panic, one query at a time *)

Theorem download_never_panics c l y e : conf_ok c -> runs c l y -> enabled y e = true -> step c y e <> None.
Proof.
  intros OK R EN. destruct (runs_tinv c l y OK R) as [T _]. destruct (step_tinv c false y e (T false ltac:(discriminate)) EN ltac:(discriminate)) as (z & E & _). rewrite E. discriminate.
Qed.
(** A peer has one query at most, and none while its answer waits to be parsed; only signers and the author are asked. *)
Theorem one_query_at_a_time c l y : conf_ok c -> runs c l y -> d_out y = None -> NoDup (pending y) /\ forall p, In p (pending y) -> known c p.
Proof.
  intros OK R O. destruct (runs_tinv c l y OK R) as [T _]. destruct (T false ltac:(discriminate)) as [T1 _]. destruct (T1 O) as [I _].
  split; [exact (i_nd _ _ _ _ _ _ _ I)|]. intros p H. apply (i_fly _ _ _ _ _ _ _ I) in H as (s & G & _). exact (i_known _ _ _ _ _ _ _ I p s G).
Qed.

(** ** What one round of asking does *)

Lemma take_n_spec c nw k y : qinv c nw (d_q y) (pending y) (d_nf y) (d_attempt y) (d_asked y) -> exists new,
  let y' := take_n k y in
  d_asked y' = map (fun p => (p, d_attempt y)) new ++ d_asked y /\ d_down y' = new ++ d_down y /\ (length new <= k)%nat /\
  ((length new < k)%nat -> forall p, ~ may_be_asked y' (d_attempt y) p) /\
  (forall p, In p new -> may_be_asked y (d_attempt y) p) /\
  (forall p, ~ In p new -> q_get p (d_q y') = q_get p (d_q y)) /\
  (forall p x s u, In p new -> ~ In x new -> q_get p (d_q y) = Some s -> q_get x (d_q y) = Some u -> st_le s u) /\
  (forall p, q_get p (d_q y') = None <-> q_get p (d_q y) = None) /\
  (forall p s', q_get p (d_q y') = Some s' -> exists s, q_get p (d_q y) = Some s /\ t_res s' = t_res s).
Proof.
  revert y. induction k as [|k IH]; intros y I; cbn [take_n].
  - exists []. cbn zeta. cbn [map app length]. split; [reflexivity|]. split; [reflexivity|]. split; [lia|]. split; [intros Z; lia|]. split; [intros p []|]. split; [reflexivity|]. split; [intros p x s u []|]. split; [intros p; tauto|eauto].
  - destruct (take_to_flight (d_attempt y) (d_q y)) as [[p q]|] eqn:T.
    + set (y1 := Task q (p :: d_down y) (d_slot y) (d_pq y) (d_nf y) (d_attempt y) ((p, d_attempt y) :: d_asked y) (d_out y)).
      pose proof (i_ok _ _ _ _ _ _ _ I) as OK. destruct (take_some _ _ _ _ OK T) as (s & GP & RD & BEST & OKQ & GQ).
      assert (I1 : qinv c nw (d_q y1) (pending y1) (d_nf y1) (d_attempt y1) (d_asked y1)) by (unfold pending, y1; cbn [d_q d_down d_slot d_pq d_nf d_attempt d_asked]; exact (q_take c nw _ _ _ _ _ p q I T)).
      destruct (IH y1 I1) as (new & A1 & A2 & A3 & A4 & A5 & A6 & A7 & A8 & A9). cbn zeta in *. change (d_attempt y1) with (d_attempt y) in *. change (d_q y1) with q in *.
      assert (NP : ~ In p new).
      { intros H. destruct (A5 p H) as (u & GU & _ & FU & _). change (d_q y1) with q in GU. rewrite GQ, N.eqb_refl in GU. injection GU as <-. discriminate. }
      exists (new ++ [p]). split; [rewrite A1, map_app, <- app_assoc; reflexivity|]. split; [rewrite A2, <- app_assoc; reflexivity|].
      split; [rewrite app_length; cbn [length]; lia|]. split; [rewrite app_length; cbn [length]; intros H; apply A4; lia|]. split; [|split; [|split; [|split]]].
      * intros x H. apply in_app_iff in H as [H|[<-|[]]]; [|apply ready_may; eauto]. destruct (A5 x H) as (u & GU & Q). change (d_q y1) with q in GU. rewrite GQ in GU. destruct (N.eqb_spec x p) as [E|E]; [subst; contradiction|]. exists u. auto.
      * intros x H. rewrite in_app_iff in H. cbn [In] in H. rewrite A6 by tauto. rewrite GQ. destruct (N.eqb_spec x p) as [E|E]; [subst; tauto|reflexivity].
      * intros a x sa u H1 H2 G1 G2. rewrite in_app_iff in H2. cbn [In] in H2. apply in_app_iff in H1 as [H1|[<-|[]]]; [|rewrite GP in G1; injection G1 as <-; eauto].
        apply (A7 a x); [exact H1|tauto| |]; rewrite GQ.
        -- destruct (N.eqb_spec a p) as [E|E]; [subst; contradiction|exact G1].
        -- destruct (N.eqb_spec x p) as [E|E]; [subst; tauto|exact G2].
      * intros x. rewrite A8, GQ. destruct (N.eqb_spec x p) as [E|E]; [subst x; rewrite GP; split; discriminate|tauto].
      * intros x s' H. destruct (A9 x s' H) as (u & GU & RU). rewrite GQ in GU. destruct (N.eqb_spec x p) as [E|E]; [|eauto]. subst x. injection GU as <-. exists s. auto.
    + exists []. cbn zeta. cbn [map app length]. pose proof (i_ok _ _ _ _ _ _ _ I) as OK. split; [reflexivity|]. split; [reflexivity|]. split; [lia|]. split; [intros _ p M; apply ready_may in M as (s & G & RD); rewrite (take_none _ _ _ _ OK T G) in RD; discriminate|]. split; [intros p []|]. split; [reflexivity|]. split; [intros p x s u []|]. split; [intros p; tauto|eauto].
Qed.

Lemma random_spec c nw y : qinv c nw (d_q y) (pending y) (d_nf y) (d_attempt y) (d_asked y) -> exists new,
  let y' := download_random c y in
  d_asked y' = map (fun p => (p, d_attempt y)) new ++ d_asked y /\ d_down y' = new ++ d_down y /\
  (N.of_nat (length (d_down y')) <= N.max (limit c (d_attempt y)) (N.of_nat (length (d_down y)))) /\
  (limit c (d_attempt y) <= N.of_nat (length (d_down y')) \/ forall p, ~ may_be_asked y' (d_attempt y) p) /\
  (forall p, In p new -> may_be_asked y (d_attempt y) p) /\
  (forall p x s u, In p new -> ~ In x new -> q_get p (d_q y) = Some s -> q_get x (d_q y) = Some u -> st_le s u) /\
  (forall p, q_get p (d_q y') = None <-> q_get p (d_q y) = None) /\
  (forall p s', q_get p (d_q y') = Some s' -> exists s, q_get p (d_q y) = Some s /\ t_res s' = t_res s).
Proof.
  intros I. unfold download_random. set (k := N.to_nat _). destruct (take_n_spec c nw k y I) as (new & A1 & A2 & A3 & A4 & A5 & A6 & A7 & A8 & A9). cbn zeta in *. exists new.
  assert (K : N.of_nat k = limit c (d_attempt y) - N.of_nat (length (d_down y))) by (unfold k, current_peers, limit, reliable_minority; lia).
  assert (LL : length (d_down (take_n k y)) = (length new + length (d_down y))%nat) by (rewrite A2, app_length; reflexivity).
  split; [exact A1|]. split; [exact A2|]. split; [lia|]. split; [|auto].
  destruct (Nat.ltb_spec (length new) k) as [C|C]; [right; exact (A4 C)|left; lia].
Qed.

(** ** Steps, seen from outside *)

Definition entries (y : task) : list (peer * parsed) := match d_slot y with Some e => e :: d_pq y | None => d_pq y end.
Definition definite (r : resp) : bool := match r with RTryLater | RNetwork => false | _ => true end.
Definition bad_resp (c : conf) (r : resp) : Prop := match r with RNone | RTl => True | RDefined x => worthless c x | _ => False end.

Lemma inspect_facts c p r v y y' o : q_ok (d_q y) -> inspect c p r v y = Some (y', o) ->
  (forall x s', q_get x (d_q y') = Some s' -> exists s, q_get x (d_q y) = Some s /\ t_res s' = t_res s) /\
  (definite r = true -> q_get p (d_q y') = None) /\
  (forall x, In x (d_nf y') -> In x (d_nf y) \/ x = p /\ bad_resp c r) /\
  match o with
  | None => bad_resp c r \/ definite r = false
  | Some (OVerified i) => r = RDefined (PPoint i) /\ i = c_id c /\ v = true
  | Some (OIllFormed i) => i = c_id c /\ (r = RDefined (PIllFormed i) \/ r = RDefined (PPoint i) /\ v = false)
  | _ => False
  end.
Proof.
  intros OK H. unfold inspect in H.
  assert (LAST : forall k : task -> task * option outcome, match vm_remove N.compare p (d_q y) with (q, Some s) => if t_flight s then Some (k (with_q y q)) else None | (_, None) => None end = Some (y', o) ->
    exists q, k (with_q y q) = (y', o) /\ (forall x, q_get x q = if x =? p then None else q_get x (d_q y))).
  { intros k E. destruct (remove_ok p (d_q y) OK) as (_ & _ & G). destruct (vm_remove N.compare p (d_q y)) as [q [s|]]; [|discriminate]. destruct (t_flight s); [|discriminate]. injection E as E. exists q. auto. }
  assert (NF : forall q, (forall x, q_get x q = if x =? p then None else q_get x (d_q y)) -> (on_not_found c p (with_q y q), @None outcome) = (y', o) -> bad_resp c r ->
    (forall x s', q_get x (d_q y') = Some s' -> exists s, q_get x (d_q y) = Some s /\ t_res s' = t_res s) /\
    (definite r = true -> q_get p (d_q y') = None) /\ (forall x, In x (d_nf y') -> In x (d_nf y) \/ x = p /\ bad_resp c r) /\ o = None).
  { intros q G [= <- <-] B. assert (QE : d_q (on_not_found c p (with_q y q)) = q) by (unfold on_not_found; destruct (_ && _); [reflexivity|destruct (has _ _); reflexivity]).
    rewrite QE. split; [intros x s'; rewrite G; destruct (x =? p); [discriminate|eauto]|]. split; [intros _; rewrite G, N.eqb_refl; reflexivity|]. split; [|reflexivity].
    intros x. unfold on_not_found. cbn [with_q d_nf]. destruct (_ && _); [auto|]. destruct (has p (d_nf y)); [auto|]. cbn [with_nf d_nf In]. intros [<-|IN]; auto. }
  assert (RT : forall r', r = r' -> definite r' = false -> match q_update p retry_later (d_q y) with Some q => Some (with_q y q, None) | None => None end = Some (y', o) ->
    (forall x s', q_get x (d_q y') = Some s' -> exists s, q_get x (d_q y) = Some s /\ t_res s' = t_res s) /\
    (definite r = true -> q_get p (d_q y') = None) /\ (forall x, In x (d_nf y') -> In x (d_nf y) \/ x = p /\ bad_resp c r) /\ o = None).
  { intros r' -> D E. destruct (q_update p retry_later (d_q y)) as [q|] eqn:U; [|discriminate]. injection E as <- <-. destruct (update_ok _ _ _ _ OK U) as (_ & _ & G). cbn [with_q d_q d_nf].
    split; [intros x s'; rewrite G; destruct (x =? p); [|eauto]; destruct (q_get x (d_q y)) as [s|]; [|discriminate]; cbn [option_map]; intros [= <-]; exists s; auto|].
    split; [congruence|]. auto. }
  assert (DONE : forall q, (forall x, q_get x q = if x =? p then None else q_get x (d_q y)) -> y' = with_q y q -> 
    (forall x s', q_get x (d_q y') = Some s' -> exists s, q_get x (d_q y) = Some s /\ t_res s' = t_res s) /\
    (definite r = true -> q_get p (d_q y') = None) /\ (forall x, In x (d_nf y') -> In x (d_nf y) \/ x = p /\ bad_resp c r)).
  { intros q G ->. cbn [with_q d_q d_nf]. split; [intros x s'; rewrite G; destruct (x =? p); [discriminate|eauto]|]. split; [intros _; rewrite G, N.eqb_refl; reflexivity|auto]. }
  destruct r as [[i|i| |]| | | |].
  - apply (LAST (fun y => if i =? c_id c then (y, Some (if v then OVerified i else OIllFormed i)) else (on_not_found c p y, None))) in H as (q & H & G). destruct (N.eqb_spec i (c_id c)) as [E|E].
    + injection H as H1 H2. destruct (DONE q G (eq_sym H1)) as (A & B & D). split; [exact A|]. split; [exact B|]. split; [exact D|]. subst o. destruct v; auto.
    + destruct (NF q G H E) as (A & B & D & ->). split; [exact A|]. split; [exact B|]. split; [exact D|]. left. exact E.
  - apply (LAST (fun y => if i =? c_id c then (y, Some (OIllFormed i)) else (on_not_found c p y, None))) in H as (q & H & G). destruct (N.eqb_spec i (c_id c)) as [E|E].
    + injection H as H1 H2. destruct (DONE q G (eq_sym H1)) as (A & B & D). split; [exact A|]. split; [exact B|]. split; [exact D|]. subst o. auto.
    + destruct (NF q G H E) as (A & B & D & ->). split; [exact A|]. split; [exact B|]. split; [exact D|]. left. exact E.
  - apply (LAST (fun y => (on_not_found c p y, None))) in H as (q & H & G). destruct (NF q G H Logic.I) as (A & B & D & ->). split; [exact A|]. split; [exact B|]. split; [exact D|]. left. exact Logic.I.
  - apply (LAST (fun y => (on_not_found c p y, None))) in H as (q & H & G). destruct (NF q G H Logic.I) as (A & B & D & ->). split; [exact A|]. split; [exact B|]. split; [exact D|]. left. exact Logic.I.
  - apply (LAST (fun y => (on_not_found c p y, None))) in H as (q & H & G). destruct (NF q G H Logic.I) as (A & B & D & ->). split; [exact A|]. split; [exact B|]. split; [exact D|]. left. exact Logic.I.
  - apply (LAST (fun y => (on_not_found c p y, None))) in H as (q & H & G). destruct (NF q G H Logic.I) as (A & B & D & ->). split; [exact A|]. split; [exact B|]. split; [exact D|]. left. exact Logic.I.
  - destruct (RT _ eq_refl eq_refl H) as (A & B & D & ->). split; [exact A|]. split; [exact B|]. split; [exact D|]. right. reflexivity.
  - destruct (RT _ eq_refl eq_refl H) as (A & B & D & ->). split; [exact A|]. split; [exact B|]. split; [exact D|]. right. reflexivity.
Qed.

(** the answer that a step handles, if any *)
Definition handled (y : task) (e : event) : option (peer * resp) :=
  match e with
  | EResponse p (RDefined _) => None
  | EResponse p r => Some (p, r)
  | EParsed _ => match d_slot y with Some (p, x) => Some (p, RDefined x) | None => None end
  | _ => None
  end.

(** A step is a change [y1] and then maybe new queries. *)
Lemma step_cases c nw y e y' : tinv c nw y -> enabled y e = true -> step c y e = Some y' -> (nw = true -> e = ETick -> d_attempt y < u32_max) -> exists y1,
  tinv c nw y1 /\ d_attempt y1 = d_attempt y /\ d_asked y1 = d_asked y /\ d_nf y' = d_nf y1 /\ d_slot y' = d_slot y1 /\ d_pq y' = d_pq y1 /\ d_out y' = d_out y1 /\
  (forall x s', q_get x (d_q y1) = Some s' -> exists s, q_get x (d_q y) = Some s /\ t_res s' = report x (t_res s) e) /\
  (forall x, In x (d_nf y1) -> In x (d_nf y) \/ exists r, handled y e = Some (x, r) /\ bad_resp c r) /\
  (forall x, In x (entries y1) -> In x (entries y) \/ e = EResponse (fst x) (RDefined (snd x))) /\
  (d_out y1 = None -> forall x, In x (entries y) -> In x (entries y1) \/ handled y e = Some (fst x, RDefined (snd x))) /\
  (d_out y1 = None -> forall p x, e = EResponse p (RDefined x) -> In (p, x) (entries y1)) /\
  (forall p r, handled y e = Some (p, r) -> definite r = true -> q_get p (d_q y1) = None) /\
  (match d_out y1 with
   | None => True
   | Some ONotFound => majority_of_others (c_f c) <= N.of_nat (length (d_nf y1))
   | Some (OVerified i) => i = c_id c /\ e = EParsed true /\ exists p, handled y e = Some (p, RDefined (PPoint i))
   | Some (OIllFormed i) => i = c_id c /\ exists p, handled y e = Some (p, RDefined (PIllFormed i)) \/ e = EParsed false /\ handled y e = Some (p, RDefined (PPoint i))
   | Some OBroadcast => e = EBroadcast true
   | Some OCancelled => e = EClosed
   end) /\
  (d_out y1 = None -> match handled y e with Some (_, r) => bad_resp c r \/ definite r = false | None => e <> EBroadcast true /\ e <> EClosed end) /\
  (d_q y' = d_q y1 /\ d_asked y' = d_asked y1 /\ d_down y' = d_down y1 /\ (d_out y1 = None -> e <> ETick /\ (d_slot y1 = None -> handled y e = None))
   \/ d_out y1 = None /\ d_slot y1 = None /\ d_q y' = d_q (download_random c y1) /\ d_asked y' = d_asked (download_random c y1) /\ d_down y' = d_down (download_random c y1)).
Proof.
  intros T EN ST NWR. unfold enabled in EN. destruct (d_out y) as [o|] eqn:O; [discriminate|]. pose proof T as [T1 T2]. destruct (T1 O) as [I L]. clear T1.
  assert (OK : q_ok (d_q y)) by exact (i_ok _ _ _ _ _ _ _ I).
  assert (UPD : forall p f, (forall s, t_flight (f s) = t_flight s) -> (forall s, t_last (f s) = t_last s) -> tinv c nw (with_q y (q_update_ p f (d_q y)))).
  { intros p f F1 F2. split; cbn [with_q d_out d_q d_nf d_attempt d_asked d_slot d_pq]; [|exact T2].
    intros _. split; [|exact L]. unfold pending in *. cbn [with_q d_down d_slot d_pq]. apply q_same; [exact I|exact F1|exact F2]. }
  destruct e as [[]|p|p r| | |p r|v|]; cbn [step] in ST.
  - injection ST as <-. exists (with_out y OBroadcast). cbn [with_out d_attempt d_asked d_nf d_slot d_pq d_out d_q d_down handled report entries]. unfold entries. cbn [with_out d_slot d_pq].
    split; [split; cbn [with_out d_out]; discriminate|]. repeat (split; [first [reflexivity | discriminate | solve [eauto]]|]). left. repeat (split; [reflexivity|]). discriminate.
  - injection ST as <-. exists y. cbn [handled report]. rewrite O. 
    split; [exact T|]. repeat (split; [first [reflexivity | discriminate | solve [eauto]]|]). split; [intros _; split; discriminate|]. left. repeat (split; [reflexivity|]). intros _. split; [discriminate|reflexivity].
  - injection ST as <-. match goal with |- context [with_q y ?q] => exists (with_q y q) end. cbn [with_q d_attempt d_asked d_nf d_slot d_pq d_out d_q d_down handled report]. unfold entries. cbn [with_q d_slot d_pq]. rewrite O.
    split; [apply UPD; reflexivity|]. do 6 (split; [reflexivity|]). split.
    { intros x s'. rewrite (proj2 (update__ok p _ (d_q y) OK)). destruct (x =? p); [|eauto]. destruct (q_get x (d_q y)) as [s|]; [|discriminate]. cbn [option_map]. intros [= <-]. exists s. auto. }
    repeat (split; [first [reflexivity | discriminate | solve [eauto]]|]). split; [intros _; split; discriminate|]. left. repeat (split; [reflexivity|]). intros _. split; [discriminate|reflexivity].
  - injection ST as <-. match goal with |- context [with_q y ?q] => exists (with_q y q) end. cbn [with_q d_attempt d_asked d_nf d_slot d_pq d_out d_q d_down handled]. unfold entries. cbn [with_q d_slot d_pq]. rewrite O.
    split; [apply UPD; reflexivity|]. do 6 (split; [reflexivity|]). split.
    { intros x s'. rewrite (proj2 (update__ok p _ (d_q y) OK)). cbn [report]. rewrite (N.eqb_sym p x). destruct (x =? p); [|eauto]. destruct (q_get x (d_q y)) as [s|]; [|discriminate]. cbn [option_map]. intros [= <-]. exists s. auto. }
    repeat (split; [first [reflexivity | discriminate | solve [eauto]]|]). split; [intros _; split; discriminate|]. left. repeat (split; [reflexivity|]). intros _. split; [discriminate|reflexivity].
  - injection ST as <-. exists y. cbn [handled report]. rewrite O. 
    split; [exact T|]. repeat (split; [first [reflexivity | discriminate | solve [eauto]]|]). split; [intros _; split; discriminate|]. left. repeat (split; [reflexivity|]). intros _. split; [discriminate|reflexivity].
  - injection ST as <-. exists (with_out y OCancelled). cbn [with_out d_attempt d_asked d_nf d_slot d_pq d_out d_q d_down handled report entries]. unfold entries. cbn [with_out d_slot d_pq].
    split; [split; cbn [with_out d_out]; discriminate|]. repeat (split; [first [reflexivity | discriminate | solve [eauto]]|]). left. repeat (split; [reflexivity|]). discriminate.
  - apply has_In in EN. assert (IP : In p (pending y)) by (unfold pending; apply in_app_iff; auto).
    assert (RP : rm p (pending y) = rm p (d_down y) ++ slot_peers (d_slot y) ++ map fst (d_pq y)) by (unfold pending; apply rm_app; exact EN).
    assert (GEN : (forall x, r <> RDefined x) -> match inspect c p r false (with_down y (rm p (d_down y))) with
        | Some x => Some (match d_out (decide c x) with Some _ => decide c x | None => match d_slot (decide c x) with Some _ => decide c x | None => download_random c (decide c x) end end)
        | None => None end = Some y' -> exists y1,
      tinv c nw y1 /\ d_attempt y1 = d_attempt y /\ d_asked y1 = d_asked y /\ d_nf y' = d_nf y1 /\ d_slot y' = d_slot y1 /\ d_pq y' = d_pq y1 /\ d_out y' = d_out y1 /\
      (forall x s', q_get x (d_q y1) = Some s' -> exists s, q_get x (d_q y) = Some s /\ t_res s' = t_res s) /\
      (forall x, In x (d_nf y1) -> In x (d_nf y) \/ x = p /\ bad_resp c r) /\ entries y1 = entries y /\
      (definite r = true -> q_get p (d_q y1) = None) /\
      (d_out y1 = None \/ d_out y1 = Some ONotFound /\ majority_of_others (c_f c) <= N.of_nat (length (d_nf y1))) /\ (bad_resp c r \/ definite r = false) /\
      (d_q y' = d_q y1 /\ d_asked y' = d_asked y1 /\ d_down y' = d_down y1 /\ (d_out y1 = None -> d_slot y1 <> None)
        \/ d_out y1 = None /\ d_slot y1 = None /\ d_q y' = d_q (download_random c y1) /\ d_asked y' = d_asked (download_random c y1) /\ d_down y' = d_down (download_random c y1))).
    { intros ND ST'. destruct (inspect_inv c nw p r false (with_down y (rm p (d_down y))) (pending y)) as (z0 & o & E & D1 & D2 & D3 & D4 & D5 & D6 & Q); [exact I|exact IP|].
      rewrite E in ST'. injection ST' as <-. cbn [with_down d_down d_slot d_pq d_out d_attempt d_asked] in *.
      destruct (inspect_facts c p r false (with_down y (rm p (d_down y))) z0 o OK E) as (X1 & X2 & X3 & X4). cbn [with_down d_q d_nf] in X1, X3.
      assert (NO : o = None) by (destruct o as [[| i | i | |]|]; try contradiction; try reflexivity; [destruct X4 as (X4 & _); exfalso; exact (ND _ X4)|destruct X4 as (_ & [X4|(X4 & _)]); exfalso; exact (ND _ X4)]).
      subst o. destruct (decide_inv c nw z0 None (rm p (pending y)) ltac:(congruence) Q) as (F1 & F2 & F3 & F4 & F5 & F6 & F7 & FQ). cbn zeta in *.
      set (z := decide c (z0, None)) in *. exists z.
      assert (TZ : tinv c nw z).
      { split; [|rewrite F2, F3, D2, D3; intros S _; exact (T2 S O)]. intros OZ. destruct (FQ OZ) as (_ & IZ & LZ). split; [|exact LZ].
        rewrite RP in IZ. unfold pending. rewrite F1, F2, F3, D1, D2, D3. exact IZ. }
      split; [exact TZ|]. split; [congruence|]. split; [congruence|].
      assert (EE : entries z = entries y) by (unfold entries; rewrite F2, F3, D2, D3; reflexivity).
      assert (OZ : d_out z = None \/ d_out z = Some ONotFound /\ majority_of_others (c_f c) <= N.of_nat (length (d_nf z))).
      { unfold z, decide. cbn [fst snd]. destruct (N.leb_spec (majority_of_others (c_f c)) (N.of_nat (length (d_nf z0)))) as [C|C]; [right; cbn [with_out d_out d_nf]; auto|left; congruence]. }
      assert (REST : (forall x s', q_get x (d_q z) = Some s' -> exists s, q_get x (d_q y) = Some s /\ t_res s' = t_res s) /\
        (forall x, In x (d_nf z) -> In x (d_nf y) \/ x = p /\ bad_resp c r) /\ entries z = entries y /\ (definite r = true -> q_get p (d_q z) = None)) by (rewrite F6, F7; auto).
      destruct (d_out z) eqn:EO; [do 4 (split; [congruence|]); destruct REST as (A & B & C & D); do 6 (split; [assumption|]); left; repeat (split; [reflexivity|]); discriminate|].
      destruct (d_slot z) eqn:SZ; [do 4 (split; [congruence|]); destruct REST as (A & B & C & D); do 6 (split; [assumption|]); left; repeat (split; [reflexivity|]); discriminate|].
      destruct (proj1 TZ EO) as [IZ _]. destruct (take_n_inv c nw (N.to_nat (current_peers (d_attempt z) (N.of_nat (length (d_down z))) (c_f c) (c_down c))) z IZ) as (_ & G1 & G2 & G3 & G4 & _). cbn zeta in *.
      fold (download_random c z) in G1, G2, G3, G4. rewrite G1, G2, G3, G4, SZ, EO. do 4 (split; [reflexivity|]). destruct REST as (A & B & C & D). do 6 (split; [assumption|]). right. auto. }
    assert (FIN : (forall x, r <> RDefined x) -> handled y (EResponse p r) = Some (p, r)) by (intros ND; destruct r; try reflexivity; exfalso; exact (ND _ eq_refl)).
    assert (DD : (exists x, r = RDefined x) \/ forall x, r <> RDefined x) by (destruct r; [left; eauto|right; discriminate|right; discriminate|right; discriminate|right; discriminate]).
    destruct DD as [(x & ->)|ND].
    2: { assert (ST' := GEN ND). destruct ST' as (y1 & A1 & A2 & A3 & A4 & A5 & A6 & A7 & A8 & A9 & A10 & A11 & A12 & A13 & A14).
      { clear - ST ND. destruct r; first [exact ST | exfalso; exact (ND _ eq_refl)]. }
      exists y1. cbn [report]. rewrite (FIN ND). do 7 (split; [assumption|]). split; [exact A8|]. split; [intros x H; destruct (A9 x H) as [H'|(-> & B)]; [left; exact H'|right; eauto]|].
      rewrite A10. split; [auto|]. split; [auto|]. split; [intros _ p0 x [= _ E0]; exfalso; exact (ND _ E0)|]. split; [intros p0 r0 [= <- <-]; exact A11|]. split; [destruct A12 as [-> |(-> & B)]; [exact Logic.I|exact B]|]. split; [intros _; exact A13|].
      destruct A14 as [(B1 & B2 & B3 & B4)|B]; [left; do 3 (split; [assumption|]); intros Z; split; [discriminate|]; intros S; exfalso; exact (B4 Z S)|right; exact B]. }
    clear GEN FIN. injection ST as <-. cbn [with_down d_slot d_pq handled]. destruct (d_slot y) as [s|] eqn:S.
    + exists (with_slot (with_down y (rm p (d_down y))) (Some s) (d_pq y ++ [(p, x)])). destruct (step_tinv c nw y (EResponse p (RDefined x)) T) as (z & E & TZ & _); [unfold enabled; rewrite O; apply has_In; exact EN|discriminate|].
      cbn [step with_down d_slot d_pq] in E. rewrite S in E. injection E as <-. split; [exact TZ|]. cbn [with_slot with_down d_attempt d_asked d_nf d_slot d_pq d_out d_q d_down report]. unfold entries. cbn [with_slot with_down d_slot d_pq]. rewrite O, S.
      do 6 (split; [reflexivity|]). split; [eauto|]. split; [eauto|]. split; [intros z [<-|H]; [left; left; reflexivity|]; apply in_app_iff in H as [H|[<-|[]]]; [left; right; exact H|right; reflexivity]|].
      split; [intros _ z [<-|H]; left; [left; reflexivity|right; apply in_app_iff; auto]|]. split; [intros _ p0 x0 [= <- <-]; right; apply in_app_iff; right; left; reflexivity|]. split; [discriminate|]. split; [exact Logic.I|]. split; [intros _; split; discriminate|].
      left. do 3 (split; [reflexivity|]). intros _. split; [discriminate|reflexivity].
    + exists (with_slot (with_down y (rm p (d_down y))) (Some (p, x)) (d_pq y)). destruct (step_tinv c nw y (EResponse p (RDefined x)) T) as (z & E & TZ & _); [unfold enabled; rewrite O; apply has_In; exact EN|discriminate|].
      cbn [step with_down d_slot d_pq] in E. rewrite S in E. injection E as <-. split; [exact TZ|]. cbn [with_slot with_down d_attempt d_asked d_nf d_slot d_pq d_out d_q d_down report]. unfold entries. cbn [with_slot with_down d_slot d_pq]. rewrite O, S.
      do 6 (split; [reflexivity|]). split; [eauto|]. split; [eauto|]. split; [intros z [<-|H]; [right; reflexivity|left; exact H]|].
      split; [intros _ z H; left; right; exact H|]. split; [intros _ p0 x0 [= <- <-]; left; reflexivity|]. split; [discriminate|]. split; [exact Logic.I|]. split; [intros _; split; discriminate|].
      left. do 3 (split; [reflexivity|]). intros _. split; [discriminate|reflexivity].
  - destruct (d_slot y) as [[p x]|] eqn:S; [|discriminate]. cbn [handled report]. rewrite S.
    assert (PE : pending y = d_down y ++ p :: map fst (d_pq y)) by (unfold pending; rewrite S; reflexivity).
    assert (IP : In p (pending y)) by (rewrite PE; apply in_app_iff; right; left; reflexivity).
    destruct (inspect_inv c nw p (RDefined x) v y (pending y) I IP) as (y0 & o & E & D1 & D2 & D3 & D4 & D5 & D6 & Q). rewrite E in ST.
    destruct (inspect_facts c p (RDefined x) v y y0 o OK E) as (X1 & X2 & X3 & X4).
    destruct (decide_inv c nw y0 o (rm p (pending y)) ltac:(congruence) Q) as (F1 & F2 & F3 & F4 & F5 & F6 & F7 & FQ). cbn zeta in *.
    assert (OUT : match d_out (decide c (y0, o)) with None => bad_resp c (RDefined x) | Some ONotFound => majority_of_others (c_f c) <= N.of_nat (length (d_nf (decide c (y0, o))))
       | Some (OVerified i) => i = c_id c /\ EParsed v = EParsed true /\ exists p0, Some (p, RDefined x) = Some (p0, RDefined (PPoint i))
       | Some (OIllFormed i) => i = c_id c /\ exists p0, Some (p, RDefined x) = Some (p0, RDefined (PIllFormed i)) \/ EParsed v = EParsed false /\ Some (p, RDefined x) = Some (p0, RDefined (PPoint i))
       | Some OBroadcast => EParsed v = EBroadcast true | Some OCancelled => EParsed v = EClosed end).
    { unfold decide. cbn [fst snd]. destruct o as [o|].
      - cbn [with_out d_out]. destruct o as [| i | i | |]; try contradiction.
        + destruct X4 as (B1 & B2 & ->). injection B1 as ->. split; [exact B2|]. split; [reflexivity|]. exists p. reflexivity.
        + destruct X4 as (B1 & [B2|(B2 & ->)]); injection B2 as ->; (split; [exact B1|]); exists p; auto.
      - destruct (N.leb_spec (majority_of_others (c_f c)) (N.of_nat (length (d_nf y0)))) as [C|C].
        + cbn [with_out d_out d_nf]. exact C.
        + rewrite D4, O. destruct X4 as [X4|X4]; [exact X4|discriminate]. }
    set (z := decide c (y0, o)) in *.
    assert (REST : (forall x0 s', q_get x0 (d_q z) = Some s' -> exists s, q_get x0 (d_q y) = Some s /\ t_res s' = t_res s) /\
      (forall x0, In x0 (d_nf z) -> In x0 (d_nf y) \/ exists r, Some (p, RDefined x) = Some (x0, r) /\ bad_resp c r) /\ q_get p (d_q z) = None).
    { rewrite F6, F7. split; [exact X1|]. split; [|exact (X2 eq_refl)]. intros a H. destruct (X3 a H) as [H'|(-> & B)]; [left; exact H'|right; eauto]. }
    destruct REST as (R1 & R2 & R3). destruct (d_out z) eqn:OZ.
    + injection ST as <-. exists (with_slot z None (d_pq z)). split; [split; cbn [with_slot d_out]; rewrite OZ; discriminate|]. cbn [with_slot d_attempt d_asked d_nf d_slot d_pq d_out d_q d_down]. unfold entries. cbn [with_slot d_slot d_pq]. rewrite OZ, S.
      split; [congruence|]. split; [congruence|]. do 4 (split; [reflexivity|]). split; [exact R1|]. split; [exact R2|]. split; [intros a H; left; right; rewrite F3, D3 in H; exact H|]. split; [discriminate|]. split; [discriminate|].
      split; [intros p0 r0 [= <- <-] _; exact R3|]. split; [exact OUT|]. split; [discriminate|]. left. do 3 (split; [reflexivity|]). discriminate.
    + destruct (FQ eq_refl) as (_ & IZ & LZ). rewrite PE, (rm_mid p) in IZ by (rewrite <- PE; exact (i_nd _ _ _ _ _ _ _ I)). destruct (rev (d_pq z)) as [|e r] eqn:RV.
      * assert (PZ : d_pq y = []) by (rewrite <- D3, <- F3, <- (rev_involutive (d_pq z)), RV; reflexivity). injection ST as <-.
        assert (TW : tinv c nw (with_slot z None [])).
        { split; cbn [with_slot d_out d_q d_nf d_attempt d_asked d_slot d_pq d_down]; [|reflexivity]. intros _. split; [|exact LZ].
          unfold pending. cbn [with_slot d_slot d_pq d_down slot_peers map app]. rewrite F1, D1. rewrite PZ in IZ. exact IZ. }
        exists (with_slot z None []). split; [exact TW|].
        destruct (proj1 TW OZ) as [IW _]. destruct (take_n_inv c nw (N.to_nat (current_peers (d_attempt (with_slot z None [])) (N.of_nat (length (d_down (with_slot z None [])))) (c_f c) (c_down c))) _ IW) as (_ & G1 & G2 & G3 & G4 & _). cbn zeta in *.
        fold (download_random c (with_slot z None [])) in G1, G2, G3, G4. rewrite G1, G2, G3, G4. cbn [with_slot d_attempt d_asked d_nf d_slot d_pq d_out d_q]. unfold entries. cbn [with_slot d_slot d_pq]. rewrite S, OZ, PZ.
        split; [congruence|]. split; [congruence|]. do 4 (split; [reflexivity|]). split; [exact R1|]. split; [exact R2|]. split; [intros a []|]. split; [intros _ a [<-|[]]; right; reflexivity|]. split; [discriminate|].
        split; [intros p0 r0 [= <- <-] _; exact R3|]. split; [exact Logic.I|]. split; [intros _; left; exact OUT|]. right. auto.
      * assert (PZ : d_pq y = rev r ++ [e]) by (rewrite <- D3, <- F3, <- (rev_involutive (d_pq z)), RV; reflexivity). injection ST as <-.
        exists (with_slot z (Some e) (rev r)). split.
        { split; cbn [with_slot d_out d_q d_nf d_attempt d_asked d_slot d_pq d_down]; [|discriminate]. intros _. split; [|exact LZ].
          refine (q_perm c nw _ _ _ _ _ _ _ IZ). unfold pending. cbn [with_slot d_slot d_pq d_down slot_peers app]. rewrite F1, D1, PZ, map_app. apply Permutation_app_head. cbn [map].
          rewrite <- Permutation_cons_append. reflexivity. }
        cbn [with_slot d_attempt d_asked d_nf d_slot d_pq d_out d_q d_down]. unfold entries. cbn [with_slot d_slot d_pq]. rewrite OZ, S, PZ.
        split; [congruence|]. split; [congruence|]. do 4 (split; [reflexivity|]). split; [exact R1|]. split; [exact R2|].
        split; [intros a [<-|H]; left; right; apply in_app_iff; [right; left; reflexivity|left; exact H]|].
        split; [intros _ a [<-|H]; [right; reflexivity|left]; apply in_app_iff in H as [H|[<-|[]]]; [right; exact H|left; reflexivity]|]. split; [discriminate|].
        split; [intros p0 r0 [= <- <-] _; exact R3|]. split; [exact Logic.I|]. split; [intros _; left; exact OUT|]. left. do 3 (split; [reflexivity|]). intros _. split; discriminate.
  - destruct (d_slot y) as [s|] eqn:S; [discriminate|]. injection ST as <-. exists y. split; [exact T|].
    destruct (take_n_inv c nw (N.to_nat (current_peers (d_attempt y) (N.of_nat (length (d_down y))) (c_f c) (c_down c))) _ I) as (_ & G1 & G2 & G3 & G4 & _). cbn zeta in *.
    fold (download_random c y) in G1, G2, G3, G4. cbn [d_attempt d_asked d_nf d_slot d_pq d_out d_q d_down handled report]. rewrite O. rewrite G1, G2, G3, G4.
    do 2 (split; [reflexivity|]). do 3 (split; [congruence|]). split; [exact O|]. split; [eauto|]. split; [eauto|]. split; [auto|]. split; [auto|]. split; [discriminate|]. split; [discriminate|]. split; [exact Logic.I|].
    split; [intros _; split; discriminate|]. right. auto.
Qed.
