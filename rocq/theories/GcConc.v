(** Calls of one bucket that overlap.

    Models rate_limit.rs 307-330 with its steps: the load of the time, the comparison, and the exchange,
    which may fail without a reason. Any number of calls, in any interleaving. *)
From Coq Require Import List Bool NArith Lia.
From Coq Require Import ZArith ZifyN ZifyNat ZifyBool.
From Verif Require Import TbBucket GcModel GcBucket.
Import ListNotations.
Local Open Scope N_scope.

(** ** The model *)

(** a call that read the clock at [now]: before its load, with the time that it read, or answered *)
Inductive pc := Start | Read (tat : N) | Done (ok : bool).
Record thread := Th { th_now : N; th_pc : pc }.
(** [s_log]: the calls in the order in which they were decided, with their answers *)
Record state := St { s_tat : N; s_threads : list thread; s_log : list (N * bool) }.
Inductive event := EStart (now : N) | EStep (i : nat) (spurious : bool).
Fixpoint set_nth {A} (i : nat) (a : A) (l : list A) : list A := match i, l with _, [] => [] | O, _ :: r => a :: r | S i, x :: r => x :: set_nth i a r end.
Definition cstep (l : traffic) (s : state) (e : event) : state :=
  match e with
  | EStart now => St (s_tat s) (s_threads s ++ [Th now Start]) (s_log s)
  | EStep i spurious =>
      match nth_error (s_threads s) i with
      | Some (Th now Start) => St (s_tat s) (set_nth i (Th now (Read (s_tat s))) (s_threads s)) (s_log s)
      | Some (Th now (Read tat)) =>
          if now <? tat - tolerance_of l then St (s_tat s) (set_nth i (Th now (Done false)) (s_threads s)) (s_log s ++ [(now, false)])
          else if (s_tat s =? tat) && negb spurious
               then St (sat_add (N.max tat now) (interval_of l)) (set_nth i (Th now (Done true)) (s_threads s)) (s_log s ++ [(now, true)])
               else St (s_tat s) (set_nth i (Th now (Read (s_tat s))) (s_threads s)) (s_log s)
      | _ => s
      end
  end.
Definition crun (l : traffic) (es : list event) : state := fold_left (cstep l) es (St 0 [] []).

(** ** One after the other *)

Definition upto (l : traffic) (s : state) : Prop := s_tat s <= u64_max /\ Forall (fun t => match th_pc t with Read tat => tat <= s_tat s | _ => True end) (s_threads s).
Lemma set_nth_forall {A} (P : A -> Prop) i a l : Forall P l -> P a -> Forall P (set_nth i a l).
Proof. revert i. induction l as [|x l IH]; intros [|i] F H; cbn [set_nth]; try constructor; inversion F; subst; auto. Qed.
Lemma sat_more a b : a <= u64_max -> a <= sat_add a b. Proof. unfold sat_add. lia. Qed.
Lemma cstep_upto l s e : (forall now, e = EStart now -> now <= u64_max) -> Forall (fun t => th_now t <= u64_max) (s_threads s) -> upto l s ->
  upto l (cstep l s e) /\ s_tat s <= s_tat (cstep l s e) /\ Forall (fun t => th_now t <= u64_max) (s_threads (cstep l s e)).
Proof.
  intros NB TB (U1 & U2). destruct e as [now|i sp]; cbn [cstep].
  - cbn [s_tat s_threads]. split; [split; [exact U1|apply Forall_app; split; [exact U2|repeat constructor]]|]. split; [lia|]. apply Forall_app; split; [exact TB|]. constructor; [apply NB; reflexivity|constructor].
  - destruct (nth_error (s_threads s) i) as [[now p]|] eqn:E; [|split; [split; assumption|split; [lia|exact TB]]].
    pose proof (proj1 (Forall_forall _ _) TB _ (nth_error_In _ _ E)) as NW. cbn [th_now] in NW.
    destruct p as [|tat|ok]; [| |split; [split; assumption|split; [lia|exact TB]]].
    + cbn [s_tat s_threads]. split; [split; [exact U1|apply set_nth_forall; [exact U2|cbn [th_pc s_tat]; lia]]|]. split; [lia|apply set_nth_forall; assumption].
    + destruct (N.ltb_spec now (tat - tolerance_of l)) as [L|L].
      * cbn [s_tat s_threads]. split; [split; [exact U1|apply set_nth_forall; [exact U2|exact I]]|]. split; [lia|apply set_nth_forall; assumption].
      * destruct (N.eqb_spec (s_tat s) tat) as [Et|NE]; [destruct sp|]; cbn [andb negb s_tat s_threads].
        -- split; [split; [exact U1|apply set_nth_forall; [exact U2|cbn [th_pc s_tat]; lia]]|]. split; [lia|apply set_nth_forall; assumption].
        -- subst tat. assert (M : s_tat s <= sat_add (N.max (s_tat s) now) (interval_of l)) by (unfold sat_add; lia). split; [split; [cbn [s_tat]; unfold sat_add; lia|]|split; [exact M|apply set_nth_forall; assumption]].
           apply set_nth_forall; [|exact I]. rewrite Forall_forall in *. intros t HT. specialize (U2 t HT). cbn [s_tat]. destruct (th_pc t); [exact I|lia|exact I].
        -- split; [split; [exact U1|apply set_nth_forall; [exact U2|cbn [th_pc s_tat]; lia]]|]. split; [lia|apply set_nth_forall; assumption].
Qed.
Lemma grants_last l : forall a tat t, grants l tat (a ++ [t]) = grants l tat a ++ match try_claim l (tat_after l tat a) t with inl _ => [false] | inr _ => [true] end.
Proof. intros a tat t. rewrite grants_app. cbn [grants]. destruct (try_claim l (tat_after l tat a) t); reflexivity. Qed.
Lemma tat_after_app l a b : forall tat, tat_after l tat (a ++ b) = tat_after l (tat_after l tat a) b.
Proof. induction a as [|t a IH]; intros tat; cbn [app tat_after]; [reflexivity|]. destruct (try_claim l tat t); apply IH. Qed.
Definition in_turn (l : traffic) (s : state) : Prop := map snd (s_log s) = grants l 0 (map fst (s_log s)) /\ s_tat s = tat_after l 0 (map fst (s_log s)).
Lemma cstep_turn l s e : upto l s -> in_turn l s -> in_turn l (cstep l s e).
Proof.
  intros (_ & U2) (A & B). destruct e as [now|i sp]; cbn [cstep]; [split; assumption|]. destruct (nth_error (s_threads s) i) as [[now p]|] eqn:E; [|split; assumption].
  pose proof (proj1 (Forall_forall _ _) U2 _ (nth_error_In _ _ E)) as TL. cbn [th_pc] in TL. destruct p as [|tat|ok]; try (split; assumption).
  destruct (N.ltb_spec now (tat - tolerance_of l)) as [L|L].
  - assert (R : exists after, try_claim l (s_tat s) now = inl after) by (unfold try_claim; rewrite (proj2 (N.ltb_lt now (s_tat s - tolerance_of l))) by lia; eauto). destruct R as (after & R).
    split; cbn [s_log s_tat]; rewrite !map_app; cbn [map fst snd]; [rewrite grants_last, <- B, R, A; reflexivity|]. rewrite tat_after_app, <- B. cbn [tat_after]. rewrite R. reflexivity.
  - destruct (N.eqb_spec (s_tat s) tat) as [Et|NE]; [destruct sp|]; cbn [andb negb]; try (split; assumption). subst tat.
    assert (R : try_claim l (s_tat s) now = inr (sat_add (N.max (s_tat s) now) (interval_of l))) by (apply claim_when; lia).
    split; cbn [s_log s_tat]; rewrite !map_app; cbn [map fst snd]; [rewrite grants_last, <- B, R, A; reflexivity|]. rewrite tat_after_app, <- B. cbn [tat_after]. rewrite R. reflexivity.
Qed.
Definition clock_ok (es : list event) : Prop := forall now, In (EStart now) es -> now <= u64_max.
Lemma crun_facts l es : clock_ok es -> upto l (crun l es) /\ in_turn l (crun l es) /\ Forall (fun t => th_now t <= u64_max) (s_threads (crun l es)).
Proof.
  unfold crun. pattern es. apply rev_ind; clear es.
  - intros _. split; [split; [vm_compute; discriminate|constructor]|]. split; [split; reflexivity|constructor].
  - intros e es IH CK. rewrite fold_left_app. cbn [fold_left]. destruct IH as (U & T & NB); [intros now H; apply CK; apply in_or_app; left; exact H|].
    assert (NW : forall now, e = EStart now -> now <= u64_max) by (intros now ->; apply CK; apply in_or_app; right; left; reflexivity).
    destruct (cstep_upto l _ e NW NB U) as (U' & _ & NB'). split; [exact U'|]. split; [apply cstep_turn; assumption|exact NB'].
Qed.

(** However the calls overlap, their answers are those of the same calls one after the other, in the
    order in which they were decided. *)
Theorem overlapping_calls_are_in_turn l es : clock_ok es -> map snd (s_log (crun l es)) = grants l 0 (map fst (s_log (crun l es))).
Proof. intros CK. destruct (crun_facts l es CK) as (_ & (T & _) & _). exact T. Qed.

(** ** No more than the limit *)

Definition granted_in (t d : N) (log : list (N * bool)) : N := count (fun x => inside t d (fst x) && snd x) log.
Lemma granted_cons t d x log : granted_in t d (x :: log) = (if inside t d (fst x) && snd x then 1 else 0) + granted_in t d log.
Proof. unfold granted_in. rewrite count_cons. reflexivity. Qed.
Lemma grants_any l t d : 0 < burst l -> fits l (t + d) -> forall ts tat k, t + k * interval_of l <= tat \/ tat = u64_max \/ k = 0 -> k <= permitted l d ->
  granted_in t d (combine ts (grants l tat ts)) + k <= permitted l d.
Proof.
  intros B F. pose proof (interval_pos l) as IP. pose proof (tolerance_fits l (t + d) F) as TO. unfold fits in F. induction ts as [|x ts IH]; intros tat k H K; cbn [grants combine]; [unfold granted_in, count; cbn; lia|].
  destruct (try_claim l tat x) as [after|tat'] eqn:E; cbn [combine]; rewrite granted_cons; cbn [fst snd].
  - rewrite andb_false_r. apply (IH tat k H K).
  - rewrite andb_true_r. destruct (claim_ok _ _ _ _ E) as (A & ->). destruct (inside t d x) eqn:IN.
    + unfold inside in IN. assert (IN' : t <= x /\ x <= t + d) by lia. clear IN E. assert (NM : tat < u64_max) by (clear - A TO F IN' B IP; nia).
      assert (NS : sat_add (N.max tat x) (interval_of l) = N.max tat x + interval_of l) by (unfold sat_add; clear - A TO F IN' B IP; nia).
      assert (H' : t + (k + 1) * interval_of l <= sat_add (N.max tat x) (interval_of l)) by (rewrite NS; clear - H IN' NM; destruct H as [H|[H|H]]; [nia|lia|subst k; nia]).
      assert (K' : k + 1 <= permitted l d).
      { unfold permitted. assert (X : k - (burst l - 1) <= d / interval_of l).
        { apply N.div_le_lower_bound; [lia|]. clear - H A TO IN' NM B IP. destruct H as [H|[H|H]]; [|lia|subst k; lia].
          destruct (N.le_gt_cases k (burst l - 1)) as [C|C]; [replace (k - (burst l - 1)) with 0 by lia; lia|].
          assert (exists z, k = (burst l - 1) + z) as (z & ->) by (exists (k - (burst l - 1)); lia). replace (burst l - 1 + z - (burst l - 1)) with z by lia. nia. }
        clear - X B. set (q := d / interval_of l) in *. clearbody q. lia. }
      pose proof (IH (sat_add (N.max tat x) (interval_of l)) (k + 1) (or_introl H') K'). lia.
    + assert (H' : t + k * interval_of l <= sat_add (N.max tat x) (interval_of l) \/ sat_add (N.max tat x) (interval_of l) = u64_max \/ k = 0).
      { unfold sat_add. clear - H. destruct H as [H|[H|H]]; [|right; left; lia|right; right; exact H]. destruct (N.le_gt_cases (N.max tat x + interval_of l) u64_max); [left|right; left]; lia. }
      pose proof (IH _ k H' K). lia.
Qed.
(** Whatever the order of the clock readings, of the calls that read the clock within [d] ms no more
    than the limit permits are granted. *)
Theorem overlapping_calls_keep_the_rate l es t d : clock_ok es -> 0 < burst l -> fits l (t + d) -> granted_in t d (s_log (crun l es)) <= permitted l d.
Proof.
  intros CK B F. pose proof (overlapping_calls_are_in_turn l es CK) as T. pose proof (grants_any l t d B F (map fst (s_log (crun l es))) 0 0 ltac:(right; right; reflexivity) ltac:(lia)) as X.
  rewrite <- T in X. assert (Z : combine (map fst (s_log (crun l es))) (map snd (s_log (crun l es))) = s_log (crun l es)) by (generalize (s_log (crun l es)); intros m; induction m as [|[a b] m IH]; [reflexivity|cbn; f_equal; exact IH]).
  rewrite Z in X. lia.
Qed.

(** ** The answers of the calls are those of the log *)

Definition done_with (b : bool) (now : N) (t : thread) : bool := (th_now t =? now) && match th_pc t with Done ok => Bool.eqb ok b | _ => false end.
Lemma count_set {A} (f : A -> bool) i a l x : nth_error l i = Some x -> count f (set_nth i a l) + (if f x then 1 else 0) = count f l + (if f a then 1 else 0).
Proof.
  revert i. induction l as [|y l IH]; intros [|i] E; cbn in E; try discriminate; cbn [set_nth]; rewrite !count_cons.
  - inversion E; subst. lia.
  - pose proof (IH i E). lia.
Qed.
Theorem answers_are_the_log l es b now : count (done_with b now) (s_threads (crun l es)) = count (fun x => (fst x =? now) && Bool.eqb (snd x) b) (s_log (crun l es)).
Proof.
  unfold crun. pattern es. apply rev_ind; clear es; [reflexivity|]. intros e es IH. rewrite fold_left_app. cbn [fold_left]. set (s := fold_left (cstep l) es (St 0 [] [])) in *. clearbody s.
  destruct e as [n|i sp]; cbn [cstep].
  - cbn [s_threads s_log]. rewrite count_app, IH. unfold count at 2. cbn [filter done_with]. unfold done_with. cbn [th_now th_pc]. rewrite andb_false_r. cbn [length]. lia.
  - destruct (nth_error (s_threads s) i) as [[n p]|] eqn:E; [|exact IH]. destruct p as [|tat|ok]; [| |exact IH].
    + cbn [s_threads s_log]. pose proof (count_set (done_with b now) i (Th n (Read (s_tat s))) _ _ E) as C. unfold done_with in C at 2 4. cbn [th_now th_pc] in C. rewrite !andb_false_r in C. lia.
    + assert (Z : done_with b now (Th n (Read tat)) = false) by (unfold done_with; cbn [th_pc]; apply andb_false_r).
      assert (D : forall ok, count (done_with b now) (set_nth i (Th n (Done ok)) (s_threads s)) = count (fun x : N * bool => (fst x =? now) && Bool.eqb (snd x) b) (s_log s ++ [(n, ok)])).
      { intros ok. pose proof (count_set (done_with b now) i (Th n (Done ok)) _ _ E) as C. rewrite Z in C. rewrite count_app, <- IH. unfold count at 3. cbn [filter fst snd]. unfold done_with in C at 3. cbn [th_now th_pc] in C.
        destruct ((n =? now) && Bool.eqb ok b); cbn [length]; lia. }
      destruct (n <? tat - tolerance_of l); [apply D|]. destruct ((s_tat s =? tat) && negb sp); [apply D|]. cbn [s_threads s_log].
      pose proof (count_set (done_with b now) i (Th n (Read (s_tat s))) _ _ E) as C. rewrite Z in C. unfold done_with in C at 3. cbn [th_now th_pc] in C. rewrite andb_false_r in C. lia.
Qed.

(** Two calls read the same time and one exchange fails: it reads again and is refused. *)
Example two_overlap : s_log (crun (Traffic 1 1) [EStart 1000; EStart 1000; EStep 0 false; EStep 1 false; EStep 1 true; EStep 0 false; EStep 1 false; EStep 1 false]) = [(1000, true); (1000, false)].
Proof. vm_compute. reflexivity. Qed.
