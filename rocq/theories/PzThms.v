(** C94: theorems about resolving peers. *)
From Coq Require Import List NArith Bool Arith Lia ZifyN ZifyNat ZifyBool.
From Verif Require Import PzModel.
Import ListNotations.
Local Open Scope N_scope.

Lemma put_case {A} (f : N -> A) k v x : put f k v x = if x =? k then v else f x.
Proof. reflexivity. Qed.
Lemma mem_spec p l : mem p l = true <-> In p l.
Proof. unfold mem. rewrite existsb_exists. split; [intros (x & I & E); replace p with x by lia; assumption|intros I; exists p; split; [assumption|apply N.eqb_refl]]. Qed.
Lemma remove_other p q l : In q l -> q <> p -> In q (remove_one p l).
Proof.
  induction l as [|x l IH]; [intros []|]. intros [->|I] NE; cbn [remove_one].
  - destruct (N.eqb_spec q p); [congruence|now left].
  - destruct (x =? p); [assumption|right; auto].
Qed.

Definition inv (s : st) : Prop :=
  (forall p i, tasks s p = Some i -> i < next s /\ peer_of s i = p /\ ((0 < strong s i)%nat \/ In p (drops s))) /\
  (forall i, (0 < strong s i)%nat -> i < next s /\ tasks s (peer_of s i) = Some i) /\
  (forall w i g z, waiters s w = Some (i, g, z) -> i < next s /\ g <= gen s i /\
     (z = true -> match prog s i with Told => g < gen s i | _ => True end)).
Lemma inv_make s p known : inv s -> (forall i, tasks s p = Some i -> strong s i = 0%nat) -> inv (make s p known).
Proof.
  intros (T & L & W) D. unfold inv, make. cbn [tasks strong peer_of next drops waiters gen prog]. repeat apply conj.
  - intros q i. rewrite !put_case. destruct (N.eqb_spec q p) as [->|NE].
    + intros [= <-]. rewrite N.eqb_refl. repeat apply conj; [lia|reflexivity|left; lia].
    + intros X. destruct (T q i X) as (A & B & C). destruct (N.eqb_spec i (next s)); [lia|]. repeat apply conj; [lia|exact B|exact C].
  - intros i. rewrite !put_case. destruct (N.eqb_spec i (next s)) as [->|NE].
    + intros _. rewrite N.eqb_refl. split; [lia|reflexivity].
    + intros X. destruct (L i X) as [A B]. split; [lia|]. destruct (N.eqb_spec (peer_of s i) p) as [E|]; [|exact B].
      rewrite E in B. specialize (D i B). lia.
  - intros w i g z X. destruct (W w i g z X) as (A & B & C). rewrite put_case. destruct (N.eqb_spec i (next s)); [lia|]. repeat apply conj; [lia|exact B|exact C].
Qed.
Lemma inv_strong s i : inv s -> (0 < strong s i)%nat -> inv (set_strong s i (S (strong s i))).
Proof.
  intros (T & L & W) P. unfold inv, set_strong. cbn [tasks strong peer_of next drops waiters gen prog]. repeat apply conj.
  - intros q j X. destruct (T q j X) as (A & B & C). rewrite put_case. repeat apply conj; [exact A|exact B|]. destruct (j =? i); [left; lia|exact C].
  - intros j. rewrite put_case. destruct (N.eqb_spec j i) as [->|]; [intros _; now apply L|apply L].
  - exact W.
Qed.
Lemma inv_step s o : inv s -> inv (step s o).
Proof.
  intros I. pose proof I as (T & L & W). destruct o as [p known|i|i|p|i|i|w i|w]; cbn [step].
  - destruct (tasks s p) as [i|] eqn:E; [destruct (Nat.ltb_spec 0 (strong s i))|].
    + now apply inv_strong.
    + apply inv_make; [exact I|]. intros j X. rewrite E in X. injection X as <-. lia.
    + apply inv_make; [exact I|]. intros j X. congruence.
  - destruct (Nat.ltb_spec 0 (strong s i)); [now apply inv_strong|exact I].
  - destruct (strong s i) as [|n] eqn:E; [exact I|]. unfold inv. cbn [tasks strong peer_of next drops waiters gen prog]. repeat apply conj.
    + intros q j X. destruct (T q j X) as (A & B & C). rewrite put_case. repeat apply conj; [exact A|exact B|].
      destruct (N.eqb_spec j i) as [->|NE].
      * destruct (Nat.eqb_spec n 0); [right; left; exact B|left; lia].
      * destruct C as [C|C]; [now left|]. right. destruct (n =? 0)%nat; [now right|exact C].
    + intros j. rewrite put_case. destruct (N.eqb_spec j i) as [->|]; [intros _; apply L; lia|apply L].
    + exact W.
  - destruct (mem p (drops s)) eqn:E; [|exact I]. unfold inv. cbn [tasks strong peer_of next drops waiters gen prog].
    assert (G : forall q j, (match tasks s p with Some j => if (strong s j =? 0)%nat then put (tasks s) p None else tasks s | None => tasks s end) q = Some j ->
      tasks s q = Some j /\ (q <> p \/ (0 < strong s j)%nat)).
    { intros q j. destruct (tasks s p) as [k|] eqn:EP.
      - destruct (Nat.eqb_spec (strong s k) 0).
        + rewrite put_case. destruct (N.eqb_spec q p); [discriminate|auto].
        + intros X. split; [exact X|]. destruct (N.eq_dec q p) as [->|]; [|now left]. right. rewrite EP in X. injection X as ->. lia.
      - intros X. split; [exact X|]. left. intros ->. congruence. }
    repeat apply conj.
    + intros q j X. apply G in X as [X D]. destruct (T q j X) as (A & B & C). repeat apply conj; [exact A|exact B|].
      destruct C as [C|C]; [now left|]. destruct D as [D|D]; [right; now apply remove_other|now left].
    + intros j X. destruct (L j X) as [A B]. split; [exact A|]. destruct (tasks s p) as [k|] eqn:EP; [|exact B]. destruct (Nat.eqb_spec (strong s k) 0); [|exact B].
      rewrite put_case. destruct (N.eqb_spec (peer_of s j) p) as [EQ|]; [|exact B]. rewrite EQ, EP in B. injection B as ->. lia.
    + exact W.
  - assert (G : forall v g, (gen s i <= g) -> (v = Told -> gen s i < g) -> inv (set_prog s i v g)).
    { intros v g LE LT. repeat apply conj; [exact T|exact L|]. intros w j g' z X. cbn [set_prog waiters next gen prog] in *. destruct (W w j g' z X) as (A & B & C).
      rewrite !put_case. destruct (N.eqb_spec j i) as [->|]; [|auto]. repeat apply conj; [exact A|lia|]. intros Z. destruct v; try exact Logic.I. specialize (LT eq_refl). lia. }
    destruct (prog s i); [apply G|apply G|apply G|exact I]; intros; try discriminate; lia.
  - exact I.
  - destruct (N.ltb_spec i (next s)); [|exact I]. repeat apply conj; [exact T|exact L|]. cbn [set_waiter waiters next gen prog]. intros x j g z. rewrite put_case.
    destruct (x =? w); [|apply W]. intros [= <- <- <-]. repeat apply conj; [assumption|lia|discriminate].
  - destruct (waiters s w) as [[[i g] [|]]|] eqn:E; [| |exact I].
    + destruct (gen s i =? g); [exact I|]. repeat apply conj; [exact T|exact L|]. cbn [set_waiter waiters next gen prog]. intros x j g' z. rewrite put_case.
      destruct (x =? w); [|apply W]. intros [= <- <- <-]. destruct (W _ _ _ _ E). repeat apply conj; [assumption|lia|discriminate].
    + destruct (prog s i) eqn:EP; [|exact I|exact I|].
      * repeat apply conj; [exact T|exact L|]. cbn [set_waiter waiters next gen prog]. intros x j g' z. rewrite put_case.
        destruct (x =? w); [|apply W]. intros [= <- <- <-]. destruct (W _ _ _ _ E) as (A & B & _). rewrite EP. auto.
      * repeat apply conj; [exact T|exact L|]. cbn [set_waiter waiters next gen prog]. intros x j g' z. rewrite put_case. destruct (x =? w); [discriminate|apply W].
Qed.
Lemma inv_run h : inv (run init h).
Proof.
  unfold run. assert (G : forall s, inv s -> inv (fold_left step h s)) by (induction h as [|o h IH]; intros s I; [exact I|apply IH; now apply inv_step]).
  apply G. unfold inv, init. cbn. repeat apply conj; intros; try discriminate; lia.
Qed.

(** ** Theorems *)
(** All handles of a peer share one state, however drops and inserts interleave. *)
Theorem one_state_of_a_peer : forall h i j, let s := run init h in
  (0 < strong s i)%nat -> (0 < strong s j)%nat -> peer_of s i = peer_of s j -> i = j.
Proof. intros h i j s A B E. destruct (inv_run h) as (_ & L & _). fold s in L. destruct (L i A) as [_ X]. destruct (L j B) as [_ Y]. congruence. Qed.
(** [insert] gives a handle of the peer, of the state which others have, if any. *)
Theorem insert_is_right : forall h p known, let s := run init h in let s' := step s (OInsert p known) in
  peer_of s' (inserted s p) = p /\ strong s' (inserted s p) = S (if inserted s p =? next s then 0%nat else strong s (inserted s p)) /\
  (forall i, (0 < strong s i)%nat -> peer_of s i = p -> inserted s p = i) /\
  ((forall i, (0 < strong s i)%nat -> peer_of s i <> p) -> inserted s p = next s /\ prog s' (next s) = if known then Told else Unset).
Proof.
  intros h p known s s'. destruct (inv_run h) as (T & L & _). fold s in T, L. subst s'. unfold inserted. cbn [step]. destruct (tasks s p) as [i|] eqn:E.
  - destruct (T p i E) as (A & B & C). destruct (Nat.ltb_spec 0 (strong s i)) as [P|P].
    + cbn [set_strong peer_of strong]. rewrite put_case, N.eqb_refl. destruct (N.eqb_spec i (next s)); [lia|]. split; [exact B|]. split; [reflexivity|]. split.
      * intros j X Y. destruct (L j X) as [_ Z]. rewrite Y, E in Z. now injection Z.
      * intros X. exfalso. exact (X i P B).
    + cbn [make peer_of strong prog]. rewrite !put_case, N.eqb_refl. split; [reflexivity|]. split; [reflexivity|]. split; [|intros _; split; reflexivity].
      intros j X Y. destruct (L j X) as [_ Z]. rewrite Y, E in Z. injection Z as ->. lia.
  - cbn [make peer_of strong prog]. rewrite !put_case, N.eqb_refl. split; [reflexivity|]. split; [reflexivity|]. split; [|intros _; split; reflexivity].
    intros j X Y. destruct (L j X) as [_ Z]. congruence.
Qed.
(** Once all drops are done the map has a peer exactly if there is a handle of it. *)
Theorem nothing_left_over : forall h p, let s := run init h in drops s = [] ->
  (tasks s p <> None <-> exists i, (0 < strong s i)%nat /\ peer_of s i = p).
Proof.
  intros h p s D. destruct (inv_run h) as (T & L & _). fold s in T, L. split.
  - intros X. destruct (tasks s p) as [i|] eqn:E; [|congruence]. destruct (T p i E) as (_ & B & [C|C]); [eauto|]. rewrite D in C. destruct C.
  - intros (i & P & <-). destruct (L i P) as [_ X]. congruence.
Qed.
(** Nobody waits for a peer which is resolved without being woken; woken, it leaves. *)
Theorem resolver_no_lost_wakeup : forall h w i g, let s := run init h in waiters s w = Some (i, g, true) -> prog s i = Told ->
  gen s i <> g /\ waiters (step (step s (OCheck w)) (OCheck w)) w = None.
Proof.
  intros h w i g s E P. destruct (inv_run h) as (_ & _ & W). fold s in W. destruct (W _ _ _ _ E) as (_ & _ & C). specialize (C eq_refl). rewrite P in C.
  split; [lia|]. cbn [step]. rewrite E. destruct (N.eqb_spec (gen s i) g); [lia|]. cbn [set_waiter waiters]. rewrite put_case, N.eqb_refl. cbn [set_waiter prog]. rewrite P.
  cbn [set_waiter waiters]. now rewrite put_case, N.eqb_refl.
Qed.
(** One who leaves finds the peer resolved, and it stays so. *)
Theorem resolved_when_left : forall s w i g z, waiters s w = Some (i, g, z) -> waiters (step s (OCheck w)) w = None -> flag (prog s i) = true.
Proof.
  intros s w i g z E. cbn [step]. rewrite E. destruct z.
  - destruct (gen s i =? g); [congruence|]. cbn [set_waiter waiters]. rewrite put_case, N.eqb_refl. discriminate.
  - destruct (prog s i); [|congruence|congruence|reflexivity]. cbn [set_waiter waiters]. rewrite put_case, N.eqb_refl. discriminate.
Qed.
Theorem resolved_stays : forall h o i, let s := run init h in i < next s -> flag (prog s i) = true -> flag (prog (step s o) i) = true.
Proof.
  intros h o i s LT F. destruct o as [p known|j|j|p|j|j|w j|w]; cbn [step]; try exact F.
  - assert (M : flag (prog (make s p known) i) = true) by (cbn [make prog]; rewrite put_case; destruct (N.eqb_spec i (next s)); [lia|exact F]).
    destruct (tasks s p) as [k|]; [destruct (0 <? strong s k)%nat|]; [exact F|exact M|exact M].
  - destruct (0 <? strong s j)%nat; exact F.
  - destruct (strong s j); exact F.
  - destruct (mem p (drops s)); exact F.
  - destruct (prog s j) eqn:E; [| | |exact F]; cbn [set_prog prog]; rewrite put_case; destruct (N.eqb_spec i j) as [->|]; try exact F; try reflexivity; rewrite E in F; discriminate.
  - destruct (j <? next s); exact F.
  - destruct (waiters s w) as [[[k g] [|]]|]; [destruct (gen s k =? g)|destruct (prog s k)|]; exact F.
Qed.
(** An info is looked for anew at [before] seconds to its end, but never sooner than [min_ttl] after its start. *)
Theorem timings_are_right : forall min_ttl before created expires, expires <= max_u32 -> created <= max_u32 ->
  (created + min_ttl <= expires - before -> update_at min_ttl before created expires = expires - before) /\
  (expires - before <= created + min_ttl -> update_at min_ttl before created expires = N.min (created + min_ttl) max_u32).
Proof. intros m b c e E C. unfold update_at, max_u32 in *. split; intros H; lia. Qed.
