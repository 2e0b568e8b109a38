(** What subscribers, readers of the counter and the two ends of a connection rely on. *)
From Coq Require Import List Bool Arith NArith Lia Permutation.
From Coq Require Import ZifyN ZifyNat ZifyBool.
From Verif Require Import CmModel CmInv ApModel.
Import ListNotations.

Definition cnt {A} (h : A -> bool) (l : list A) : nat := length (filter h l).
Lemma cnt_app {A} h (l1 l2 : list A) : cnt h (l1 ++ l2) = cnt h l1 + cnt h l2.
Proof. unfold cnt. rewrite filter_app, app_length. reflexivity. Qed.
Lemma cnt_cons {A} h (x : A) l : cnt h (x :: l) = (if h x then 1 else 0) + cnt h l.
Proof. unfold cnt. cbn [filter]. destruct (h x); reflexivity. Qed.
Lemma cnt_set {A} h (l : list A) : forall i x y, nth_error l i = Some x -> cnt h (set_nth i y l) + (if h x then 1 else 0) = cnt h l + (if h y then 1 else 0).
Proof.
  induction l as [|z l IH]; intros [|i] x y E; cbn [nth_error] in E; try discriminate; cbn [set_nth]; rewrite !cnt_cons; [inversion E; subst; lia|specialize (IH i x y E); lia].
Qed.
Lemma cnt_del {A} h (l : list A) : forall i x, nth_error l i = Some x -> cnt h (del_nth i l) + (if h x then 1 else 0) = cnt h l.
Proof.
  induction l as [|z l IH]; intros [|i] x E; cbn [nth_error] in E; try discriminate; cbn [del_nth]; rewrite !cnt_cons; [inversion E; subst; lia|specialize (IH i x E); lia].
Qed.
Lemma cnt_split {A} h k (l : list A) : cnt k l = cnt k (filter h l) + cnt k (filter (fun x => negb (h x)) l).
Proof. induction l as [|x l IH]; [reflexivity|]. cbn [filter]. destruct (h x); cbn [negb]; rewrite !cnt_cons, IH; lia. Qed.
Lemma cnt_none {A} h (l : list A) : (forall x, In x l -> h x = false) -> cnt h l = 0.
Proof. induction l as [|x l IH]; intros H; [reflexivity|]. rewrite cnt_cons, (H x (or_introl eq_refl)), IH; [reflexivity|]. intros y IN. apply H. right. exact IN. Qed.
Lemma cnt_len {A} (l : list A) : cnt (fun _ => true) l = length l.
Proof. unfold cnt. f_equal. induction l as [|x l IH]; [reflexivity|]. cbn [filter]. congruence. Qed.

(** ** The counter and the events *)
Definition is_new (p : peer) (n : note) : bool := match n with New q => (q =? p)%N | Lost _ => false end.
Definition is_lost (p : peer) (n : note) : bool := match n with Lost q => (q =? p)%N | New _ => false end.
Definition removing_of (p : peer) (x : peer * bool) : bool := (fst x =? p)%N.
Definition one {A} (o : option A) (h : A -> bool) : nat := match o with Some x => if h x then 1 else 0 | None => 0 end.
Record table_ok (t : table) : Prop := {
  k_nodup : NoDup (map c_peer (b_map t));
  k_adding : forall c, b_adding t = Some c -> b_new t = None /\ forall x, In x (b_map t) -> c_peer x <> c_peer c;
  k_len : b_len t = length (b_map t) + one (b_adding t) (fun _ => true) + cnt snd (b_removing t);
  k_events : forall p, cnt (is_new p) (b_log t) + one (b_new t) (N.eqb p) = cnt (is_lost p) (b_log t) + cnt (removing_of p) (b_removing t) + cnt (at_peer p) (b_map t) }.
Lemma find_at p l c : find (at_peer p) l = Some c -> In c l /\ c_peer c = p.
Proof. intros F. apply find_some in F. destruct F as (A & B). apply N.eqb_eq in B. auto. Qed.
Lemma find_at_none p l : find (at_peer p) l = None -> forall c, In c l -> c_peer c <> p.
Proof. intros F c IN E. apply (find_none _ _ F) in IN. unfold at_peer in IN. rewrite E, N.eqb_refl in IN. discriminate. Qed.
Lemma nodup_one p l c : NoDup (map c_peer l) -> find (at_peer p) l = Some c -> filter (at_peer p) l = [c].
Proof.
  induction l as [|x l IH]; [discriminate|]. cbn [map find filter]. intros ND F. inversion ND as [|? ? N1 N2]; subst. destruct (at_peer p x) eqn:E; [|exact (IH N2 F)]. inversion F; subst x. f_equal. clear - N1 E. unfold at_peer in E. apply N.eqb_eq in E. subst p.
  induction l as [|y l IH]; [reflexivity|]. cbn [filter]. unfold at_peer at 1. destruct (N.eqb_spec (c_peer y) (c_peer c)) as [F|F]; [elim N1; rewrite <- F; left; reflexivity|]. apply IH. intros H. apply N1. right. exact H.
Qed.
Lemma nodup_out p l : NoDup (map c_peer l) -> NoDup (map c_peer (filter (fun x => negb (at_peer p x)) l)).
Proof. apply nodup_filter. Qed.
Lemma not_out p l x : In x (filter (fun x => negb (at_peer p x)) l) -> In x l /\ c_peer x <> p.
Proof. intros IN. apply filter_In in IN. destruct IN as (A & B). split; [exact A|]. apply negb_true_iff in B. apply N.eqb_neq in B. exact B. Qed.
Lemma fresh_ok : table_ok fresh.
Proof. split; cbn; try constructor; try discriminate; reflexivity. Qed.
Lemma next_ok local t o : table_ok t -> table_ok (next local t o).
Proof.
  intros [A B C D]. destruct o as [c| | |p id|i|i]; cbn [next].
  - destruct (b_adding t) as [c0|] eqn:E1; [split; rewrite ?E1; auto|]. destruct (b_new t) as [p0|] eqn:E2; [split; rewrite ?E1, ?E2; auto|]. destruct (find _ (b_map t)) as [old|] eqn:F.
    + destruct (tie_breaking _ _ _ _); [|split; cbn; auto; discriminate]. pose proof (nodup_one _ _ _ A F) as ONE. destruct (find_at _ _ _ F) as (F1 & F2). split; cbn [b_map b_len b_log b_adding b_new b_removing].
      * rewrite map_app. cbn [map]. apply nodup_snoc; [apply nodup_out; exact A|]. intros H. apply in_map_iff in H. destruct H as (x & E & IN). apply not_out in IN. tauto.
      * discriminate.
      * rewrite app_length. cbn [length one]. rewrite C. cbn [one]. pose proof (cnt_split (at_peer (c_peer c)) (fun _ => true) (b_map t)) as S. rewrite !cnt_len, ONE in S. cbn [length] in S. lia.
      * intros p. specialize (D p). rewrite !cnt_app, !cnt_cons. cbn [is_new is_lost one] in *. change (cnt (is_new p) []) with 0. change (cnt (is_lost p) []) with 0. change (cnt (at_peer p) []) with 0. pose proof (cnt_split (at_peer (c_peer c)) (at_peer p) (b_map t)) as S. rewrite ONE, cnt_cons in S. change (cnt (at_peer p) []) with 0 in S.
        change (at_peer p old) with (c_peer old =? p)%N in S. change (at_peer p c) with (c_peer c =? p)%N. rewrite F2 in S. rewrite (N.eqb_sym p (c_peer c)). lia.
    + split; cbn [b_map b_len b_log b_adding b_new b_removing one]; auto.
      * intros x E. inversion E; subst x. split; [reflexivity|]. exact (find_at_none _ _ F).
      * cbn [one] in C. lia.
  - destruct (b_adding t) as [c|] eqn:E1; [|split; rewrite ?E1; auto]. destruct (B c eq_refl) as (B1 & B2). rewrite B1 in D. split; cbn [b_map b_len b_log b_adding b_new b_removing].
    + rewrite map_app. cbn [map]. apply nodup_snoc; [exact A|]. intros H. apply in_map_iff in H. destruct H as (x & E & IN). exact (B2 x IN E).
    + discriminate.
    + rewrite app_length. cbn [length one] in *. lia.
    + intros p. specialize (D p). rewrite cnt_app, cnt_cons. change (cnt (at_peer p) []) with 0. cbn [one] in *. change (at_peer p c) with (c_peer c =? p)%N. rewrite (N.eqb_sym p (c_peer c)). lia.
  - destruct (b_new t) as [p0|] eqn:E2; [|split; rewrite ?E2; auto]. split; cbn [b_map b_len b_log b_adding b_new b_removing]; auto.
    + intros c E. destruct (B c E) as (B1 & _). discriminate.
    + intros p. specialize (D p). rewrite !cnt_app, !cnt_cons. cbn [is_new is_lost one] in *. change (cnt (is_new p) []) with 0. change (cnt (is_lost p) []) with 0. rewrite (N.eqb_sym p p0) in D. lia.
  - destruct (locked p t); [split; auto|]. destruct (find _ (b_map t)) as [c|] eqn:F; [|split; auto]. destruct (taken id c); [|split; auto]. pose proof (nodup_one _ _ _ A F) as ONE. destruct (find_at _ _ _ F) as (F1 & F2). split; cbn [b_map b_len b_log b_adding b_new b_removing].
    + apply nodup_out. exact A.
    + intros x E. destruct (B x E) as (B1 & B2). split; [exact B1|]. intros y IN. apply not_out in IN. apply B2. tauto.
    + rewrite cnt_app, cnt_cons. change (cnt snd (@nil (peer * bool))) with 0. cbn [snd]. pose proof (cnt_split (at_peer p) (fun _ => true) (b_map t)) as S. rewrite !cnt_len, ONE in S. cbn [length] in S. lia.
    + intros q. specialize (D q). rewrite cnt_app, cnt_cons. change (cnt (removing_of q) []) with 0. change (removing_of q (p, true)) with (p =? q)%N. pose proof (cnt_split (at_peer p) (at_peer q) (b_map t)) as S. rewrite ONE, cnt_cons in S. change (cnt (at_peer q) []) with 0 in S. change (at_peer q c) with (c_peer c =? q)%N in S. rewrite F2 in S. lia.
  - destruct (nth_error (b_removing t) i) as [[p [|]]|] eqn:E; [|split; auto|split; auto]. pose proof (cnt_set snd _ i _ (p, false) E) as S. cbn [snd] in S. split; cbn [b_map b_len b_log b_adding b_new b_removing]; auto; [lia|]. intros q. specialize (D q). pose proof (cnt_set (removing_of q) _ i _ (p, false) E) as S2. change (removing_of q (p, true)) with (p =? q)%N in S2. change (removing_of q (p, false)) with (p =? q)%N in S2. lia.
  - destruct (nth_error (b_removing t) i) as [[p [|]]|] eqn:E; [split; auto| |split; auto]. pose proof (cnt_del snd _ i _ E) as S. cbn [snd] in S. split; cbn [b_map b_len b_log b_adding b_new b_removing]; auto; [lia|]. intros q. specialize (D q). pose proof (cnt_del (removing_of q) _ i _ E) as S2. change (removing_of q (p, false)) with (p =? q)%N in S2. rewrite !cnt_app, !cnt_cons. cbn [is_new is_lost]. change (cnt (is_new q) []) with 0. change (cnt (is_lost q) []) with 0. lia.
Qed.
Lemma runs_ok local l : forall t, table_ok t -> table_ok (runs local t l).
Proof. induction l as [|o l IH]; intros t H; [exact H|]. exact (IH _ (next_ok local t o H)). Qed.
(** The counter is never below the number of active peers, and equals it when nothing is going on; it never goes below zero. *)
Theorem counter_is_not_below local l t : t = runs local fresh l -> length (b_map t) <= b_len t /\ (at_rest t -> b_len t = length (b_map t)) /\ (forall i p, nth_error (b_removing t) i = Some (p, true) -> 1 <= b_len t).
Proof.
  intros ->. pose proof (k_len _ (runs_ok local l _ fresh_ok)) as L. split; [lia|]. split.
  - intros (A & _ & C). rewrite A, C in L. cbn in L. lia.
  - intros i p E. pose proof (cnt_del snd _ i _ E) as S. cbn [snd] in S. lia.
Qed.
(** One connection of a peer at a time. *)
Theorem one_connection_of_a_peer local l c d : let t := runs local fresh l in In c (b_map t) -> In d (b_map t) -> c_peer c = c_peer d -> c = d.
Proof.
  intros t. pose proof (k_nodup _ (runs_ok local l _ fresh_ok)) as ND. fold t in ND. clearbody t. revert ND. induction (b_map t) as [|x m IH]; [intros _ []|]. cbn [map]. intros ND. inversion ND as [|? ? N1 N2]; subst. intros [H|H] [H'|H'] E; subst; auto; exfalso; apply N1.
  - rewrite E. apply in_map. exact H'.
  - rewrite <- E. apply in_map. exact H.
Qed.
(** At rest the events of a peer are balanced: one more came than went exactly if it is connected. *)
Theorem events_balance local l p : let t := runs local fresh l in at_rest t -> cnt (is_new p) (b_log t) = cnt (is_lost p) (b_log t) + (if existsb (at_peer p) (b_map t) then 1 else 0).
Proof.
  intros t (A & B & C). pose proof (runs_ok local l _ fresh_ok) as OK. fold t in OK. pose proof (k_events _ OK p) as E. rewrite B, C in E. cbn in E. pose proof (k_nodup _ OK) as ND. assert (G : cnt (at_peer p) (b_map t) = if existsb (at_peer p) (b_map t) then 1 else 0); [|lia].
  destruct (find (at_peer p) (b_map t)) as [c|] eqn:F.
  - unfold cnt. rewrite (nodup_one _ _ _ ND F). destruct (find_some _ _ F) as (F1 & F2). rewrite (proj2 (existsb_exists _ _)); [reflexivity|eauto].
  - assert (H : existsb (at_peer p) (b_map t) = false). { destruct (existsb (at_peer p) (b_map t)) eqn:X; [|reflexivity]. apply existsb_exists in X. destruct X as (y & Y1 & Y2). rewrite (find_none _ _ F y Y1) in Y2. discriminate. } rewrite H. apply cnt_none. exact (find_none _ _ F).
Qed.

(** ** No connection is forgotten *)
Fixpoint begun (local : peer) (t : table) (l : list op) : list N :=
  match l with
  | [] => []
  | o :: r => match o, b_adding t, b_new t with AStart c, None, None => [c_id c] | _, _, _ => [] end ++ begun local (next local t o) r
  end.
Definition ids (o : option conn) : list N := match o with Some c => [c_id c] | None => [] end.
Definition all_ids (t : table) : list N := map c_id (b_map t) ++ ids (b_adding t) ++ b_closed t.
Ltac permN := apply (proj2 (Permutation_count_occ N.eq_dec _ _)); let n := fresh "n" in intros n;
  repeat match goal with H : Permutation _ _ |- _ => let Q := fresh "Q" in pose proof (proj1 (Permutation_count_occ N.eq_dec _ _) H n) as Q; clear H end;
  rewrite ?count_occ_app in *; change (count_occ N.eq_dec [] n) with 0 in *; lia.
Lemma take_ids p l c : NoDup (map c_peer l) -> find (at_peer p) l = Some c -> Permutation (map c_id l) ([c_id c] ++ map c_id (filter (fun x => negb (at_peer p x)) l)).
Proof.
  intros ND F. assert (P : Permutation (map c_id l) (map c_id (filter (at_peer p) l) ++ map c_id (filter (fun x => negb (at_peer p x)) l))).
  { clear. induction l as [|x l IH]; [reflexivity|]. cbn [filter map]. destruct (at_peer p x); cbn [negb map app]; [constructor; exact IH|]. rewrite IH. apply Permutation_middle. }
  rewrite (nodup_one _ _ _ ND F) in P. exact P.
Qed.
Lemma next_ids local t o : table_ok t -> Permutation (all_ids (next local t o)) (match o, b_adding t, b_new t with AStart c, None, None => [c_id c] | _, _, _ => [] end ++ all_ids t).
Proof.
  intros [A B _ _]. unfold all_ids. destruct o as [c| | |p id|i|i]; cbn [next].
  - destruct (b_adding t) as [c0|] eqn:E1; [rewrite E1; reflexivity|]. destruct (b_new t) as [p0|] eqn:E2; [rewrite E1; reflexivity|]. destruct (find _ (b_map t)) as [old|] eqn:F.
    + destruct (tie_breaking _ _ _ _); cbn [b_map b_adding b_closed ids]; [|permN]. pose proof (take_ids _ _ _ A F). rewrite map_app. cbn [map]. permN.
    + cbn [b_map b_adding b_closed ids]. permN.
  - destruct (b_adding t) as [c|] eqn:E1; [|rewrite E1; reflexivity]. cbn [b_map b_adding b_closed ids]. rewrite map_app. cbn [map]. permN.
  - destruct (b_new t); reflexivity.
  - destruct (locked p t); [reflexivity|]. destruct (find _ (b_map t)) as [c|] eqn:F; [|reflexivity]. destruct (taken id c); [|reflexivity]. cbn [b_map b_adding b_closed]. pose proof (take_ids _ _ _ A F). permN.
  - destruct (nth_error _ i) as [[p [|]]|]; reflexivity.
  - destruct (nth_error _ i) as [[p [|]]|]; reflexivity.
Qed.
Lemma runs_ids local l : forall t, table_ok t -> Permutation (all_ids (runs local t l)) (begun local t l ++ all_ids t).
Proof.
  induction l as [|o l IH]; intros t H; [reflexivity|]. cbn [begun]. change (runs local t (o :: l)) with (runs local (next local t o) l). rewrite (IH _ (next_ok local t o H)). pose proof (next_ids local t o H) as P. rewrite P. set (x := match o with AStart c => _ | _ => _ end). clear P. clearbody x. permN.
Qed.
(** Every connection that was given to the table is in it or was closed, and not both. *)
Theorem kept_or_closed local l : let t := runs local fresh l in b_adding t = None ->
  Permutation (begun local fresh l) (map c_id (b_map t) ++ b_closed t) /\ (NoDup (begun local fresh l) -> forall c, In c (b_map t) -> ~ In (c_id c) (b_closed t)).
Proof.
  intros t AN. pose proof (runs_ids local l _ fresh_ok) as P. fold t in P. change (all_ids fresh) with (@nil N) in P. rewrite app_nil_r in P. unfold all_ids in P. rewrite AN in P. cbn [ids app] in P. split; [symmetry; exact P|]. intros ND c IN IC. assert (ND' : NoDup (map c_id (b_map t) ++ b_closed t)) by (apply (Permutation_NoDup (Permutation_sym P)); exact ND).
  apply (in_map c_id) in IN. clear - ND' IN IC. induction (map c_id (b_map t)) as [|x m IH]; [destruct IN|]. cbn [app] in ND'. inversion ND' as [|? ? N1 N2]; subst. destruct IN as [->|IN]; [apply N1; apply in_or_app; auto|auto].
Qed.

(** ** The order of events: right if a peer's addition and removal do not overlap *)
Definition shown_by (p : peer) (b : bool) (n : note) : bool := match n with New q => if (q =? p)%N then true else b | Lost q => if (q =? p)%N then false else b end.
(** what a subscriber has of the peer after all events *)
Definition shown (p : peer) (log : list note) : bool := fold_left (shown_by p) log false.
Fixpoint apart (local : peer) (t : table) (l : list op) : Prop :=
  match l with
  | [] => True
  | o :: r => match o with AStart c => cnt (removing_of (c_peer c)) (b_removing t) = 0 | RTake p _ => b_new t <> Some p | _ => True end /\ apart local (next local t o) r
  end.
Definition ordered (t : table) : Prop := forall p,
  (b_new t = Some p -> cnt (at_peer p) (b_map t) = 1 /\ cnt (removing_of p) (b_removing t) = 0) /\
  (1 <= cnt (removing_of p) (b_removing t) -> cnt (at_peer p) (b_map t) = 0 /\ locked p t = false /\ cnt (removing_of p) (b_removing t) = 1) /\
  (b_new t <> Some p -> cnt (removing_of p) (b_removing t) = 0 -> shown p (b_log t) = existsb (at_peer p) (b_map t)).
Lemma shown_app p l n : shown p (l ++ [n]) = shown_by p (shown p l) n.
Proof. unfold shown. rewrite fold_left_app. reflexivity. Qed.
Lemma cnt_ex {A} h (l : list A) : (existsb h l = true <-> 1 <= cnt h l).
Proof.
  induction l as [|x l IH]; [cbn; split; [discriminate|lia]|]. rewrite cnt_cons. cbn [existsb]. destruct (h x); cbn [orb]; [split; [lia|reflexivity]|]. rewrite IH. lia.
Qed.
Lemma ex_cnt {A} h (l : list A) b : (b = true <-> 1 <= cnt h l) -> b = existsb h l.
Proof. intros H. apply eq_true_iff_eq. rewrite cnt_ex. exact H. Qed.
Lemma map_cnt p t : table_ok t -> cnt (at_peer p) (b_map t) <= 1.
Proof.
  intros [A _ _ _]. destruct (find (at_peer p) (b_map t)) as [c|] eqn:F; [unfold cnt; rewrite (nodup_one _ _ _ A F); cbn; lia|]. rewrite cnt_none; [lia|exact (find_none _ _ F)].
Qed.
Lemma next_ordered local t o : table_ok t -> ordered t -> apart local t [o] -> ordered (next local t o).
Proof.
  intros OK ORD (AP & _) q. pose proof OK as [A B _ _]. pose proof (next_ok local t o OK) as OK'. destruct (ORD q) as (H1 & H2 & H3). pose proof (map_cnt q t OK) as M1. pose proof (map_cnt q _ OK') as M2.
  destruct o as [c| | |p id|i|i]; cbn [next] in *.
  - destruct (b_adding t) as [c0|] eqn:E1; [exact (ORD q)|]. destruct (b_new t) as [p0|] eqn:E2; [exact (ORD q)|]. destruct (find _ (b_map t)) as [old|] eqn:F.
    + destruct (tie_breaking _ _ _ _); cbn [b_map b_len b_log b_adding b_new b_removing] in *; unfold locked; cbn [b_adding].
      * destruct (find_at _ _ _ F) as (F1 & F2). assert (CC : cnt (at_peer q) (filter (fun x => negb (at_peer (c_peer c) x)) (b_map t) ++ [c]) = cnt (at_peer q) (b_map t)).
        { rewrite cnt_app, cnt_cons. change (cnt (at_peer q) []) with 0. pose proof (cnt_split (at_peer (c_peer c)) (at_peer q) (b_map t)) as S. rewrite (nodup_one _ _ _ A F), cnt_cons in S. change (cnt (at_peer q) []) with 0 in S. change (at_peer q old) with (c_peer old =? q)%N in S. change (at_peer q c) with (c_peer c =? q)%N. rewrite F2 in S. lia. }
        rewrite CC. split; [|split].
        -- intros E. inversion E; subst q. split; [|exact AP]. assert (1 <= cnt (at_peer (c_peer c)) (b_map t)) by (unfold cnt; rewrite (nodup_one _ _ _ A F); cbn; lia). lia.
        -- intros R. destruct (H2 R) as (R1 & R2 & R3). auto.
        -- intros NE R. rewrite shown_app. cbn [shown_by]. destruct (N.eqb_spec (c_peer c) q) as [EQ|NQ]; [elim NE; rewrite EQ; reflexivity|]. rewrite (H3 ltac:(discriminate) R). apply eq_true_iff_eq. rewrite !cnt_ex, CC. tauto.
      * split; [discriminate|]. split; [intros R; destruct (H2 R) as (R1 & R2 & R3); auto|exact H3].
    + cbn [b_map b_len b_log b_adding b_new b_removing] in *. unfold locked. cbn [b_adding]. split; [discriminate|]. split; [|exact H3]. intros R. destruct (H2 R) as (R1 & R2 & R3). split; [exact R1|]. split; [|exact R3]. unfold at_peer. destruct (N.eqb_spec (c_peer c) q) as [E|E]; [subst q; lia|reflexivity].
  - destruct (b_adding t) as [c|] eqn:E1; [|exact (ORD q)]. destruct (B c eq_refl) as (B1 & B2). cbn [b_map b_len b_log b_adding b_new b_removing] in *. unfold locked in *. rewrite E1 in H2. cbn [b_adding]. rewrite cnt_app, cnt_cons. change (cnt (at_peer q) []) with 0. change (at_peer q c) with (c_peer c =? q)%N in *. split; [|split].
    + intros E. inversion E; subst q. rewrite N.eqb_refl. split.
      * rewrite cnt_none; [reflexivity|]. intros x IN. unfold at_peer. apply N.eqb_neq. exact (B2 x IN).
      * destruct (cnt (removing_of (c_peer c)) (b_removing t)) eqn:R; [reflexivity|]. exfalso. destruct H2 as (_ & R2 & _); [lia|]. rewrite N.eqb_refl in R2. discriminate.
    + intros R. destruct (H2 R) as (R1 & R2 & R3). rewrite R2. split; [lia|]. auto.
    + intros NE R. rewrite H3; [|congruence|exact R]. rewrite existsb_app. cbn [existsb]. change (at_peer q c) with (c_peer c =? q)%N. destruct (N.eqb_spec (c_peer c) q) as [EQ|NQ]; [elim NE; rewrite EQ; reflexivity|]. rewrite !orb_false_r. reflexivity.
  - destruct (b_new t) as [p0|] eqn:E2; [|exact (ORD q)]. cbn [b_map b_len b_log b_adding b_new b_removing] in *. unfold locked in *. cbn [b_adding]. split; [discriminate|]. split; [exact H2|]. intros _ R. rewrite shown_app. cbn [shown_by]. destruct (N.eqb_spec p0 q) as [->|NQ].
    + destruct (H1 eq_refl) as (X & _). symmetry. apply cnt_ex. lia.
    + apply H3; [congruence|exact R].
  - destruct (locked p t) eqn:LK; [exact (ORD q)|]. destruct (find _ (b_map t)) as [c|] eqn:F; [|exact (ORD q)]. destruct (taken id c); [|exact (ORD q)]. cbn [b_map b_len b_log b_adding b_new b_removing] in *. unfold locked in *. cbn [b_adding].
    pose proof (cnt_split (at_peer p) (at_peer q) (b_map t)) as S. rewrite (nodup_one _ _ _ A F), cnt_cons in S. change (cnt (at_peer q) []) with 0 in S. destruct (find_at _ _ _ F) as (F1 & F2). change (at_peer q c) with (c_peer c =? q)%N in S. rewrite F2 in S.
    rewrite cnt_app, cnt_cons. change (cnt (removing_of q) []) with 0. change (removing_of q (p, true)) with (p =? q)%N. destruct (N.eqb_spec p q) as [<-|NQ].
    + split; [intros E; elim AP; exact E|]. split; [|intros _ R; lia]. intros _. split; [lia|]. split; [exact LK|]. destruct (cnt (removing_of p) (b_removing t)) as [|n] eqn:R; [reflexivity|]. destruct H2 as (R1 & _); [lia|]. lia.
    + assert (CC : cnt (at_peer q) (filter (fun x => negb (at_peer p x)) (b_map t)) = cnt (at_peer q) (b_map t)) by lia. rewrite CC, !Nat.add_0_r. split; [exact H1|]. split; [exact H2|]. intros NE R. rewrite (H3 NE R). apply eq_true_iff_eq. rewrite !cnt_ex, CC. tauto.
  - destruct (nth_error (b_removing t) i) as [[p [|]]|] eqn:E; [|exact (ORD q)|exact (ORD q)]. cbn [b_map b_len b_log b_adding b_new b_removing] in *. unfold locked in *. cbn [b_adding]. pose proof (cnt_set (removing_of q) _ i _ (p, false) E) as S2. change (removing_of q (p, true)) with (p =? q)%N in S2. change (removing_of q (p, false)) with (p =? q)%N in S2. assert (CC : cnt (removing_of q) (set_nth i (p, false) (b_removing t)) = cnt (removing_of q) (b_removing t)) by lia. rewrite CC. auto.
  - destruct (nth_error (b_removing t) i) as [[p [|]]|] eqn:E; [exact (ORD q)| |exact (ORD q)]. cbn [b_map b_len b_log b_adding b_new b_removing] in *. unfold locked in *. cbn [b_adding]. pose proof (cnt_del (removing_of q) _ i _ E) as S2. change (removing_of q (p, false)) with (p =? q)%N in S2. destruct (N.eqb_spec p q) as [->|NQ].
    + destruct H2 as (R1 & R2 & R3); [lia|]. assert (CC : cnt (removing_of q) (del_nth i (b_removing t)) = 0) by lia. rewrite CC. split; [intros NE; destruct (H1 NE); lia|]. split; [lia|]. intros _ _. rewrite shown_app. cbn [shown_by]. rewrite N.eqb_refl. apply ex_cnt. rewrite R1. split; [discriminate|lia].
    + assert (CC : cnt (removing_of q) (del_nth i (b_removing t)) = cnt (removing_of q) (b_removing t)) by lia. rewrite CC. split; [exact H1|]. split; [exact H2|]. intros NE R. rewrite shown_app. cbn [shown_by]. rewrite (proj2 (N.eqb_neq _ _) NQ). auto.
Qed.
(** If no addition of a peer overlaps a removal of it, at rest a subscriber has exactly the peers that are connected. *)
Theorem subscribers_agree_if_apart local l p : let t := runs local fresh l in apart local fresh l -> at_rest t -> shown p (b_log t) = existsb (at_peer p) (b_map t).
Proof.
  intros t AP (_ & R2 & R3). assert (G : forall l t, table_ok t -> ordered t -> apart local t l -> ordered (runs local t l)).
  { clear. induction l as [|o l IH]; intros t OK ORD AP; [exact ORD|]. cbn [apart] in AP. apply (IH (next local t o)); [apply next_ok; exact OK| |tauto]. apply next_ordered; auto. cbn [apart]. tauto. }
  assert (O0 : ordered fresh) by (intros q; cbn; repeat split; try discriminate; try lia). destruct (G l fresh fresh_ok O0 AP p) as (_ & _ & H). fold t in H. apply H; [rewrite R2; discriminate|rewrite R3; reflexivity].
Qed.

(** The handler of a connection takes out that one only: a connection that replaced it stays. *)
Theorem handler_removes_only_its_own local t p i c : In c (b_map t) -> table_ok t -> c_id c <> i -> In c (b_map (next local t (RTake p (Some i)))).
Proof.
  intros IN OK NE. cbn [next]. destruct (locked p t); [exact IN|]. destruct (find (at_peer p) (b_map t)) as [d|] eqn:F; [|exact IN]. cbn [taken]. destruct (N.eqb_spec (c_id d) i) as [E|E]; [|exact IN]. cbn [b_map]. apply filter_In. split; [exact IN|]. apply negb_true_iff. apply N.eqb_neq. intros EP. apply NE.
  pose proof (nodup_one _ _ _ (k_nodup _ OK) F) as ONE. assert (H : In c (filter (at_peer p) (b_map t))) by (apply filter_In; split; [exact IN|apply N.eqb_eq; exact EP]). rewrite ONE in H. destruct H as [<-|[]]. exact E.
Qed.
