(** Property C14: BFT quorum arithmetic. *)
From Verif Require Import PeerCountModel.
From Coq Require Import ZArith ZifyN ZifyNat ZifyBool.
Ltac Zify.zify_post_hook ::= Z.div_mod_to_equations.
Local Open Scope N_scope.

(** size of a list as N *)
Definition size {A} (l : list A) : N := N.of_nat (length l).

Lemma pc_spec n f : peer_count n = PcOk f -> 3 <= n /\ 1 <= f /\ n <= full f /\ full f <= n + 2 /\ full f <= 255.
Proof.
  unfold peer_count, full. destruct (n <? 3) eqn:E1; [discriminate|].
  destruct (255 <? (n + 1) / 3 * 3 + 1) eqn:E2; [discriminate|]. intros E; injection E as <-. lia.
Qed.

(** which validator set sizes are accepted, and the thresholds relative to the accepted size *)
Theorem C14_accepted_sizes : forall n,
  (peer_count n = PcErr <-> n < 3) /\
  (peer_count n = PcPanic <-> 253 < n) /\
  (forall f, peer_count n = PcOk f -> n <= full f <= n + 2 /\ full f <= 255 /\ f <= pc_max /\ 1 <= f /\
     majority f <= n /\ reliable_minority f <= n).
Proof.
  intros n. unfold peer_count. split; [|split].
  - destruct (n <? 3) eqn:E1; [split; auto; lia|]. destruct (255 <? _); split; intros; try discriminate; lia.
  - destruct (n <? 3) eqn:E1; [split; [discriminate|lia]|]. destruct (255 <? (n + 1) / 3 * 3 + 1) eqn:E2; split; auto; try discriminate; lia.
  - intros f E. destruct (pc_spec n f E) as (H1 & H2 & H3 & H4 & H5). unfold full, pc_max, majority, reliable_minority in *. lia.
Qed.
Print Assumptions C14_accepted_sizes.

Section Sets.
  Context {P : Type} (dec : forall a b : P, {a = b} + {a <> b}).
  Definition inb (l : list P) (x : P) : bool := if in_dec dec x l then true else false.
  Lemma inb_spec l x : inb l x = true <-> In x l.
  Proof. unfold inb. destruct (in_dec dec x l); split; auto; discriminate. Qed.

  Lemma filter_split (f : P -> bool) l : (length (filter f l) + length (filter (fun x => negb (f x)) l) = length l)%nat.
  Proof. induction l as [|a l IH]; cbn; auto. destruct (f a); cbn; lia. Qed.

  Lemma nodup_app (A B : list P) : NoDup A -> NoDup B -> (forall x, In x A -> ~ In x B) -> NoDup (A ++ B).
  Proof.
    induction 1 as [|a A Ha HA IH]; cbn; auto. intros HB Hd. constructor.
    - rewrite in_app_iff. intros [H|H]; [contradiction|]. apply (Hd a); [now left|auto].
    - apply IH; [exact HB|]. intros x Hx. apply Hd. now right.
  Qed.

  (** |A| + |B| <= |A ∩ B| + |peers| *)
  Lemma inter_size (peers A B : list P) : NoDup A -> NoDup B -> incl A peers -> incl B peers ->
    (length A + length B <= length (filter (inb B) A) + length peers)%nat.
  Proof.
    intros HA HB IA IB. pose proof (filter_split (inb B) A) as Hs.
    assert (Hu : (length (B ++ filter (fun x => negb (inb B x)) A) <= length peers)%nat).
    { apply NoDup_incl_length.
      - apply nodup_app; auto. { now apply NoDup_filter. }
        intros x Hx Hf. apply filter_In in Hf as [_ Hf]. apply inb_spec in Hx. rewrite Hx in Hf. discriminate.
      - intros x Hx. apply in_app_or in Hx as [Hx|Hx]; auto. apply filter_In in Hx as [Hx _]. auto. }
    rewrite app_length in Hu. lia.
  Qed.

  Lemma honest_exists (A faulty : list P) : NoDup A -> (length faulty < length A)%nat -> exists x, In x A /\ ~ In x faulty.
  Proof.
    intros HA Hl. destruct (filter (fun x => negb (inb faulty x)) A) as [|x r] eqn:E.
    - exfalso. assert (incl A faulty). { intros x Hx. destruct (in_dec dec x faulty) as [|Hn]; auto. exfalso.
        assert (In x (filter (fun x => negb (inb faulty x)) A)).
        { apply filter_In. split; auto. unfold inb. destruct (in_dec dec x faulty); auto. }
        rewrite E in H. exact H. }
      pose proof (NoDup_incl_length HA H). lia.
    - exists x. assert (Hx : In x (filter (fun x => negb (inb faulty x)) A)) by (rewrite E; now left).
      apply filter_In in Hx as [Hx1 Hx2]. split; auto. intros H. apply inb_spec in H. rewrite H in Hx2. discriminate.
  Qed.

  (** two majorities share more than F peers, hence an honest one, whoever the at most F faulty peers are *)
  Theorem C14_majorities_intersect : forall n f peers A B faulty, peer_count n = PcOk f ->
    size peers = n -> NoDup A -> NoDup B -> incl A peers -> incl B peers ->
    majority f <= size A -> majority f <= size B -> size faulty <= f ->
    reliable_minority f <= size (filter (inb B) A) /\
    exists x, In x A /\ In x B /\ ~ In x faulty.
  Proof.
    intros n f peers A B faulty E Hn HA HB IA IB MA MB HF. destruct (pc_spec n f E) as (_ & _ & H1 & _).
    unfold full, majority, reliable_minority, size in *.
    pose proof (inter_size peers A B HA HB IA IB) as Hi.
    assert (Hs : f + 1 <= N.of_nat (length (filter (inb B) A))) by lia.
    split; [exact Hs|]. destruct (honest_exists (filter (inb B) A) faulty) as (x & Hx & Hh).
    - now apply NoDup_filter. - lia.
    - apply filter_In in Hx as [Hx1 Hx2]. apply inb_spec in Hx2. exists x. auto.
  Qed.

  (** a majority and a reliable minority always share a peer; a reliable minority contains an honest peer *)
  Theorem C14_majority_meets_minority : forall n f (peers A B : list P), peer_count n = PcOk f ->
    size peers = n -> NoDup A -> NoDup B -> incl A peers -> incl B peers ->
    majority f <= size A -> reliable_minority f <= size B -> exists x, In x A /\ In x B.
  Proof.
    intros n f peers A B E Hn HA HB IA IB MA MB. destruct (pc_spec n f E) as (_ & _ & H1 & _).
    unfold full, majority, reliable_minority, size in *.
    pose proof (inter_size peers A B HA HB IA IB) as Hi.
    destruct (filter (inb B) A) as [|x r] eqn:Ef; [cbn in Hi; lia|].
    assert (Hx : In x (filter (inb B) A)) by (rewrite Ef; now left).
    apply filter_In in Hx as [Hx1 Hx2]. apply inb_spec in Hx2. eauto.
  Qed.

  Theorem C14_reliable_minority_honest : forall f (B faulty : list P), NoDup B -> reliable_minority f <= size B -> size faulty <= f ->
    exists x, In x B /\ ~ In x faulty.
  Proof. intros f B faulty HB H1 H2. apply honest_exists; auto. unfold reliable_minority, size in *. lia. Qed.

  (** an author has a majority of others exactly when it has, with itself, a majority *)
  Theorem C14_author_and_others : forall f (author : P) others, NoDup others -> ~ In author others ->
    (majority_of_others f <= size others <-> majority f <= size (author :: others)) /\ NoDup (author :: others).
  Proof. intros f a o H1 H2. split; [|constructor; auto]. unfold majority, majority_of_others, size in *. cbn [length]. lia. Qed.

  (** liveness: the honest peers alone form a majority exactly when the number of faulty peers is at most F minus the
      number of seats missing to 3F+1 *)
  Theorem C14_majority_reachable : forall n f peers faulty, peer_count n = PcOk f -> size peers = n ->
    NoDup peers -> NoDup faulty -> incl faulty peers ->
    (majority f <= size (filter (fun x => negb (inb faulty x)) peers) <-> size faulty + (full f - n) <= f).
  Proof.
    intros n f peers faulty E Hn HP HF IF. destruct (pc_spec n f E) as (_ & _ & H1 & _).
    assert (Hl : length (filter (inb faulty) peers) = length faulty).
    { apply Nat.le_antisymm.
      - apply NoDup_incl_length; [now apply NoDup_filter|]. intros x Hx. apply filter_In in Hx as [_ Hx]. now apply inb_spec.
      - apply NoDup_incl_length; auto. intros x Hx. apply filter_In. split; auto. now apply inb_spec. }
    pose proof (filter_split (inb faulty) peers) as Hs. unfold full, majority, size in *. lia.
  Qed.
End Sets.
Print Assumptions C14_majorities_intersect.
Print Assumptions C14_majority_meets_minority.
Print Assumptions C14_reliable_minority_honest.
Print Assumptions C14_author_and_others.
Print Assumptions C14_majority_reachable.

(** finding: with five validators the classical bound allows one fault (3*1+1 <= 5), but the majority is all five *)
Theorem C14_five_validators_refuted : exists f, peer_count 5 = PcOk f /\ 3 * 1 + 1 <= 5 /\ 5 - 1 < majority f.
Proof. exists 2. vm_compute. repeat split; congruence. Qed.
Print Assumptions C14_five_validators_refuted.

Example C14_example : exists f (A B : list nat), peer_count 7 = PcOk f /\ NoDup A /\ NoDup B /\ incl A (seq 0 7) /\ incl B (seq 0 7) /\
  majority f <= size A /\ majority f <= size B /\ filter (inb PeanoNat.Nat.eq_dec B) A = [2; 3; 4]%nat.
Proof.
  exists 2, [0; 1; 2; 3; 4]%nat, [2; 3; 4; 5; 6]%nat. split; [reflexivity|].
  split; [repeat constructor; cbn; lia|]. split; [repeat constructor; cbn; lia|].
  split; [intros x; cbn; lia|]. split; [intros x; cbn; lia|]. split; [vm_compute; congruence|]. split; [vm_compute; congruence|]. reflexivity.
Qed.
