(** * Retry and tuple providers: proofs (C50). *)
From Coq Require Import List Arith Bool Lia.
From Verif Require Import ProvModel.
Import ListNotations.

(** ** Retry *)
Lemma retry_from_spec {R} (ans : nat -> option R) i k :
  let (r, n) := retry_from ans i k in
  i < n <= S (i + k) /\ ans (n - 1) = r /\ (forall j, i <= j < n - 1 -> ans j = None) /\
  (r = None -> n = S (i + k)).
Proof.
  revert i. induction k as [|k IH]; intros i; cbn [retry_from].
  - destruct (ans i) eqn:E; replace (S i - 1) with i by lia; (split; [lia|]; split; [exact E|]; split; [lia|]); intros; lia.
  - destruct (ans i) eqn:E.
    + replace (S i - 1) with i by lia. split; [lia|]. split; [exact E|]. split; [lia|discriminate].
    + specialize (IH (S i)). destruct (retry_from ans (S i) k) as [r n]. destruct IH as (A&B&C&D).
      split; [lia|]. split; [exact B|]. split.
      * intros j Hj. destruct (Nat.eq_dec j i) as [->|Ne]; [exact E|apply C; lia].
      * intros Er. specialize (D Er). lia.
Qed.

(** get_next_block returns the first block the wrapped provider gives within
    [attempts + 1] requests, makes no request after it, and returns None only
    after [attempts + 1] empty answers. *)
Theorem retry_correct {R} attempts (ans : nat -> option R) :
  let (r, n) := retry attempts ans in
  1 <= n <= attempts + 1 /\ ans (n - 1) = r /\ (forall j, j < n - 1 -> ans j = None) /\
  (r = None <-> forall j, j <= attempts -> ans j = None).
Proof.
  unfold retry. assert (H := retry_from_spec ans 0 attempts). destruct (retry_from ans 0 attempts) as [r n].
  destruct H as (A&B&C&D). split; [lia|]. split; [exact B|]. split; [intros j Hj; apply C; lia|]. split.
  - intros Er j Hj. specialize (D Er). destruct (Nat.eq_dec j attempts) as [->|Ne].
    + replace (n - 1) with attempts in B by lia. congruence.
    + apply C. lia.
  - intros H. rewrite <- B. apply H. lia.
Qed.

(** ** Tuple providers *)
(** A future finishes at its [d]-th poll with answer [r]: *)
Definition finishes {R} (f : nat -> option (option R)) (d : nat) (r : option R) : Prop :=
  f d = Some r /\ forall j, j < d -> f j = None.

Definition live0 {R} (f : nat -> option (option R)) : slot R := SlLive 0 f.

(** The slot of future [f] after [n] rounds that did not end the race. *)
Definition slot_at {R} (f : nat -> option (option R)) (n : nat) (x : slot R) : Prop :=
  (x = SlLive n f /\ (forall j, j < n -> f j = None)) \/
  (x = SlGone /\ exists d, d < n /\ finishes f d None).

Lemma sel_poll_spec {R} (fs : list (nat -> option (option R))) n xs b :
  Forall2 (fun f x => slot_at f n x) fs xs ->
  let (p, xs') := sel_poll xs b in
  match p with
  | SpReady r => exists k f, nth_error fs k = Some f /\ finishes f n (Some r) /\
                   forall j g, j < k -> nth_error fs j = Some g -> g n <> None -> exists d, d <= n /\ finishes g d None
  | SpNone => b = true /\ forall f, In f fs -> exists d, d <= n /\ finishes f d None
  | SpPending => Forall2 (fun f x => slot_at f (S n) x) fs xs' /\
                 (b = false \/ exists f, In f fs /\ forall j, j <= n -> f j = None)
  end.
Proof.
  intros H. revert b. induction H as [|f x fs xs Hx Hs IH]; intros b.
  - cbn. destruct b; [split; [reflexivity|intros f []]|]. split; [constructor|auto].
  - cbn [sel_poll]. destruct Hx as [(->&Hp)|(->&d&Hd&Hf)].
    + destruct (f n) as [[r|]|] eqn:E.
      * exists 0, f. split; [reflexivity|]. split; [split; assumption|]. intros j g Hj. lia.
      * specialize (IH b). destruct (sel_poll xs b) as [p xs']. destruct p as [r| |].
        -- destruct IH as (k&g&A&B&C). exists (S k), g. split; [exact A|]. split; [exact B|].
           intros [|j] h Hj Hh Hn; cbn in Hh.
           ++ injection Hh as <-. exists n. split; [lia|]. split; assumption.
           ++ apply (C j h); [lia|exact Hh|exact Hn].
        -- destruct IH as (A&B). split; [exact A|]. intros g [<-|Hg]; [|auto]. exists n. split; [lia|]. split; assumption.
        -- destruct IH as (A&B). split.
           ++ constructor; [|exact A]. right. split; [reflexivity|]. exists n. split; [lia|]. split; assumption.
           ++ destruct B as [B|(g&B1&B2)]; [auto|]. right. exists g. split; [right; exact B1|exact B2].
      * specialize (IH false). destruct (sel_poll xs false) as [p xs']. destruct p as [r| |].
        -- destruct IH as (k&g&A&B&C). exists (S k), g. split; [exact A|]. split; [exact B|].
           intros [|j] h Hj Hh Hn; cbn in Hh.
           ++ injection Hh as <-. contradiction.
           ++ apply (C j h); [lia|exact Hh|exact Hn].
        -- destruct IH as (A&_). discriminate.
        -- destruct IH as (A&B).
           assert (Hp' : forall j, j <= n -> f j = None).
           { intros j Hj. destruct (Nat.eq_dec j n) as [->|Ne]; [exact E|apply Hp; lia]. }
           split.
           ++ constructor; [|exact A]. left. split; [reflexivity|]. intros j Hj. apply Hp'. lia.
           ++ right. exists f. split; [left; reflexivity|exact Hp'].
    + specialize (IH b). destruct (sel_poll xs b) as [p xs']. destruct p as [r| |].
      * destruct IH as (k&g&A&B&C). exists (S k), g. split; [exact A|]. split; [exact B|].
        intros [|j] h Hj Hh Hn; cbn in Hh.
        -- injection Hh as <-. exists d. split; [lia|exact Hf].
        -- apply (C j h); [lia|exact Hh|exact Hn].
      * destruct IH as (A&B). split; [exact A|]. intros g [<-|Hg]; [|auto]. exists d. split; [lia|exact Hf].
      * destruct IH as (A&B). split.
        -- constructor; [|exact A]. right. split; [reflexivity|]. exists d. split; [lia|exact Hf].
        -- destruct B as [B|(g&B1&B2)]; [auto|]. right. exists g. split; [right; exact B1|exact B2].
Qed.

Lemma finishes_fun {R} (f : nat -> option (option R)) d r d' r' : finishes f d r -> finishes f d' r' -> d = d' /\ r = r'.
Proof.
  intros [A B] [C D]. destruct (Nat.lt_trichotomy d d') as [L|[->|L]].
  - specialize (D _ L). congruence.
  - split; [reflexivity|congruence].
  - specialize (B _ L). congruence.
Qed.

Lemma sel_run_spec {R} (fs : list (nat -> option (option R))) rounds n xs :
  Forall2 (fun f x => slot_at f n x) fs xs ->
  match fst (sel_run rounds xs) with
  | SpReady r => exists d k f, n <= d < n + rounds /\ nth_error fs k = Some f /\ finishes f d (Some r) /\
                 (forall g e v, In g fs -> finishes g e (Some v) -> d <= e) /\
                 (forall j g, j < k -> nth_error fs j = Some g -> forall v, ~ finishes g d (Some v))
  | SpNone => forall f, In f fs -> exists d, d < n + rounds /\ finishes f d None
  | SpPending => exists f, rounds = 0 \/ (In f fs /\ forall j, j < n + rounds -> f j = None)
  end.
Proof.
  revert n xs. induction rounds as [|k IH]; intros n xs H; cbn [sel_run].
  - cbn. exists (fun _ => None). auto.
  - assert (P := sel_poll_spec fs n xs true H). destruct (sel_poll xs true) as [p xs']. destruct p as [r| |].
    + cbn. destruct P as (i&f&A&B&C). exists n, i, f. split; [lia|]. split; [exact A|]. split; [exact B|]. split.
      * intros g e v Hg Hf. destruct (Nat.le_gt_cases n e) as [L|L]; [exact L|]. exfalso.
        destruct (In_nth_error _ _ Hg) as (j&Hj).
        assert (G : forall fs xs, Forall2 (fun f x => slot_at f n x) fs xs -> In g fs -> exists x, slot_at g n x).
        { clear. intros fs xs H. induction H; intros []; subst; eauto. }
        destruct (G _ _ H Hg) as (x&[(_&X)|(_&d&_&X)]).
        -- destruct Hf as [Hf _]. rewrite (X e L) in Hf. discriminate.
        -- destruct (finishes_fun _ _ _ _ _ X Hf). discriminate.
      * intros j g Hj Hg v Hf. destruct (C j g Hj Hg) as (d&_&X).
        -- destruct Hf as [Hf _]. congruence.
        -- destruct (finishes_fun _ _ _ _ _ X Hf). discriminate.
    + cbn. destruct P as (_&P). intros f Hf. destruct (P f Hf) as (d&A&B). exists d. split; [lia|exact B].
    + destruct P as (P&Q). specialize (IH (S n) xs' P). destruct (fst (sel_run k xs')) as [r| |].
      * destruct IH as (d&i&f&A&B). exists d, i, f. split; [lia|exact B].
      * intros f Hf. destruct (IH f Hf) as (d&A&B). exists d. split; [lia|exact B].
      * destruct Q as [Q|(f&Q1&Q2)]; [discriminate|]. destruct IH as (g&[->|(G1&G2)]).
        -- exists f. right. split; [exact Q1|]. intros j Hj. apply Q2. lia.
        -- exists g. right. split; [exact G1|]. intros j Hj. apply G2. lia.
Qed.

(** Racing any number of futures: the answer is a block of a future that
    finishes earliest among those that give one (the first of them in the
    tuple); it is empty only when all are empty; the race ends in the round in
    which a block is there or the last future is empty. *)
Theorem select_correct {R} (fs : list (nat -> option (option R))) rounds : 0 < rounds ->
  match fst (sel_run rounds (map live0 fs)) with
  | SpReady r => exists d k f, d < rounds /\ nth_error fs k = Some f /\ finishes f d (Some r) /\
                 (forall g e v, In g fs -> finishes g e (Some v) -> d <= e) /\
                 (forall j g, j < k -> nth_error fs j = Some g -> forall v, ~ finishes g d (Some v))
  | SpNone => forall f, In f fs -> exists d, d < rounds /\ finishes f d None
  | SpPending => exists f, In f fs /\ forall j, j < rounds -> f j = None
  end.
Proof.
  intros Hr.
  assert (H : Forall2 (fun f x => slot_at f 0 x) fs (map live0 fs)).
  { clear. induction fs as [|f fs IH]; cbn; constructor; auto. left. split; [reflexivity|]. intros j Hj. lia. }
  assert (P := sel_run_spec fs rounds 0 _ H). destruct (fst (sel_run rounds (map live0 fs))) as [r| |].
  - destruct P as (d&k&f&A&B). exists d, k, f. split; [lia|exact B].
  - exact P.
  - destruct P as (f&[->|P]); [lia|]. exists f. exact P.
Qed.

(** If some future gives a block and none is polled for ever, a block is returned. *)
Theorem select_not_lost {R} (fs : list (nat -> option (option R))) f d v : In f fs -> finishes f d (Some v) ->
  exists r, fst (sel_run (S d) (map live0 fs)) = SpReady r.
Proof.
  intros Hf Hd. assert (P := select_correct fs (S d) ltac:(lia)).
  destruct (fst (sel_run (S d) (map live0 fs))) as [r| |] eqn:E; [eauto| |].
  - exfalso. destruct (P f Hf) as (e&_&X). destruct (finishes_fun _ _ _ _ _ X Hd). discriminate.
  - exfalso. destruct P as (g&Hg&Pg).
    (* the block of [f] is seen in round d at the latest *)
    assert (H : Forall2 (fun f x => slot_at f 0 x) fs (map live0 fs)).
    { clear. induction fs as [|h fs IH]; cbn; constructor; auto. left. split; [reflexivity|]. intros j Hj. lia. }
    assert (G : forall k n xs, Forall2 (fun f x => slot_at f n x) fs xs -> fst (sel_run k xs) = SpPending ->
                forall h e w, In h fs -> finishes h e (Some w) -> n <= e -> n + k <= e).
    { clear. induction k as [|k IH]; intros n xs H E h e w Hh Hw Hn; [lia|]. cbn [sel_run] in E.
      assert (P := sel_poll_spec fs n xs true H). destruct (sel_poll xs true) as [p xs'] eqn:Ep.
      destruct p as [r| |]; [discriminate|discriminate|]. destruct P as (P&_).
      destruct (Nat.eq_dec n e) as [->|Ne]; [|specialize (IH _ _ P E h e w Hh Hw ltac:(lia)); lia].
      exfalso. assert (G : forall fs xs, Forall2 (fun f x => slot_at f (S e) x) fs xs -> In h fs -> exists x, slot_at h (S e) x).
      { clear. intros fs xs H. induction H; intros []; subst; eauto. }
      destruct (G _ _ P Hh) as (x&[(_&X)|(_&d&_&X)]).
      - destruct Hw as [Hw _]. rewrite (X e ltac:(lia)) in Hw. discriminate.
      - destruct (finishes_fun _ _ _ _ _ X Hw). discriminate. }
    specialize (G _ _ _ H E f d v Hf Hd ltac:(lia)). lia.
Qed.

Lemma retry_nonvacuous : retry 2 (fun i => if Nat.eqb i 2 then Some 7 else None) = (Some 7, 3) /\
  retry 1 (fun i => if Nat.eqb i 2 then Some 7 else None) = (None, 2).
Proof. split; reflexivity. Qed.

Lemma select_nonvacuous :
  let f := fun d r (j : nat) => if Nat.eqb j d then Some r else if Nat.ltb j d then None else Some None in
  finishes (f 2 (Some 5)) 2 (Some 5) /\
  fst (sel_run 9 (map live0 [f 0 None; f 3 (Some 4); f 2 (Some 5)])) = SpReady 5.
Proof.
  cbv zeta. split; [|reflexivity]. split; [reflexivity|]. intros [|[|j]] H; [reflexivity|reflexivity|lia].
Qed.
