(** * MBufIndex: the index of slots by number of messages *)

From Coq Require Import List NArith ZArith Bool PeanoNat Permutation Lia.
From Verif Require Import AMap MBufModel MBufSpec MBufBasics MBufInv MBufSlots MBufLoops MBufStep2.
Import ListNotations.

Lemma presize_nth n : forall l k, nth k (presize n l) [] = nth k l [].
Proof.
  induction n as [|n IH]; intros l k.
  - destruct l; [|reflexivity]. cbn. destruct k as [|[|k]]; reflexivity.
  - destruct l as [|x l]; cbn [presize]; destruct k; cbn [nth]; try reflexivity; rewrite IH; [now destruct k|reflexivity].
Qed.
Lemma presize_len n : forall l, n < length (presize n l).
Proof.
  induction n as [|n IH]; intros [|x l]; cbn [presize length]; try lia.
  - specialize (IH []). lia.
  - specialize (IH l). lia.
Qed.
Lemma put_nth n x : forall l k, nth k (put n x l) [] = if Nat.eqb k n && Nat.ltb n (length l) then x else nth k l [].
Proof.
  revert n. intros n l. revert n. induction l as [|y l IH]; intros n k.
  - rewrite andb_comm. destruct n; reflexivity.
  - destruct n as [|n].
    + destruct k; reflexivity.
    + destruct k as [|k]; [reflexivity|].
      change (nth (S k) (put (S n) x (y :: l)) []) with (nth k (put n x l) []). rewrite IH. reflexivity.
Qed.

Lemma bucket_add_in n id l k j :
  In j (nth k (bucket_add n id l) []) <-> In j (nth k l []) \/ (k = n /\ j = id).
Proof.
  unfold bucket_add. rewrite put_nth. pose proof (presize_len n l) as HL. apply Nat.ltb_lt in HL. rewrite HL, andb_true_r.
  destruct (Nateqs k n) as [->|Hn]; rewrite !presize_nth.
  - destruct (memb id (nth n l [])) eqn:M.
    + apply memb_in in M. split; [now left|]. intros [H|[_ ->]]; assumption.
    + rewrite in_app_iff. cbn [In]. intuition congruence.
  - intuition congruence.
Qed.

Lemma apply_index us : forall x j k,
  In j (nth k (k_index (apply_upds us x)) []) <->
  In j (nth k (k_index x) []) \/ exists u, In (j, u) us /\ k = u_ni u + u_ne u.
Proof.
  induction us as [|[id u] us IH]; intros x j k; cbn [apply_upds].
  - split; [now left|]. intros [H|(u & [] & _)]; assumption.
  - rewrite IH. unfold apply_upd at 1. cbn [k_index].
    assert (E : k_index (if Nat.eqb (u_oi u + u_oe u) 0 then x
                         else mkIdx (note_removed (u_oi u + u_oe u) id (k_rem x)) (k_index x)
                              (k_int x - Z.of_nat (u_oi u)) (k_ext x - Z.of_nat (u_oe u))) = k_index x)
      by (destruct (Nat.eqb _ 0); reflexivity).
    rewrite E, bucket_add_in. split.
    + intros [[H|[-> ->]]|(u' & Hu & ->)].
      * now left.
      * right. exists u. split; [now left|reflexivity].
      * right. exists u'. split; [now right|reflexivity].
    + intros [H|(u' & [Hu|Hu] & ->)].
      * left. now left.
      * injection Hu as -> ->. left. right. auto.
      * right. exists u'. auto.
Qed.

Lemma apply_rem us : forall x old l j, In (old, l) (k_rem (apply_upds us x)) -> In j l ->
  (exists l', In (old, l') (k_rem x) /\ In j l') \/ exists u, In (j, u) us /\ old = u_oi u + u_oe u.
Proof.
  induction us as [|[id u] us IH]; intros x old l j H Hj; cbn [apply_upds] in H; [left; eauto|].
  destruct (IH _ _ _ _ H Hj) as [(l' & H1 & H2)|(u' & H1 & H2)]; [|right; exists u'; split; [now right|assumption]].
  unfold apply_upd in H1. cbn [k_rem] in H1. destruct (Nateqs (u_oi u + u_oe u) 0) as [Z|Z]; [left; eauto|].
  cbn [k_rem] in H1. unfold note_removed in H1.
  assert (ST : forall (m : amap nat (list nat)) k v q w, In (q, w) (sset k v m) -> (q = k /\ w = v) \/ In (q, w) m).
  { clear. induction m as [|[a b] m IH]; intros k v q w; cbn [aset In].
    - intros [[= -> ->]|[]]; now left.
    - destruct (Nateqs k a) as [->|Hn]; cbn [In].
      + intros [[= -> ->]|H]; auto.
      + intros [[= -> ->]|H]; auto. destruct (IH _ _ _ _ H); auto. }
  destruct (sget (u_oi u + u_oe u) (k_rem x)) as [l0|] eqn:E0.
  - destruct (ST _ _ _ _ _ H1) as [[-> ->]|H3]; [|left; eauto].
    destruct H2 as [<-|H2]; [right; exists u; split; [now left|reflexivity]|].
    left. exists l0. split; [now apply (aget_some_in Nat.eqb Nateqs)|assumption].
  - destruct (ST _ _ _ _ _ H1) as [[-> ->]|H3]; [destruct H2|left; eauto].
Qed.

Lemma apply_sums us : forall x,
  k_int (apply_upds us x) = (k_int x + usum d_int us)%Z /\ k_ext (apply_upds us x) = (k_ext x + usum d_ext us)%Z.
Proof.
  induction us as [|[id u] us IH]; intros x; cbn [apply_upds usum]; [lia|].
  destruct (IH (apply_upd id u x)) as [H1 H2]. rewrite H1, H2. unfold apply_upd. cbn [k_int k_ext].
  unfold d_int at 2, d_ext at 2. destruct (Nateqs (u_oi u + u_oe u) 0); cbn [k_int k_ext]; lia.
Qed.

Lemma drop_old_sub rem : forall ix k j, In j (nth k (drop_old rem ix) []) -> In j (nth k ix []).
Proof.
  induction rem as [|[old l] rem IH]; intros ix k j H; cbn [drop_old] in H; [assumption|].
  apply IH in H. destruct (Nat.leb (length ix) old); [assumption|]. rewrite put_nth in H.
  destruct (Nateqs k old) as [->|]; cbn [andb] in H; [|assumption].
  destruct (Nat.ltb old (length ix)); [|assumption]. apply filter_In in H. tauto.
Qed.
Lemma drop_old_keep rem : forall ix k j, In j (nth k ix []) -> (forall l, In (k, l) rem -> ~ In j l) ->
  In j (nth k (drop_old rem ix) []).
Proof.
  induction rem as [|[old l] rem IH]; intros ix k j H NR; cbn [drop_old]; [assumption|].
  apply IH; [|intros l' H'; apply NR; now right].
  destruct (Nat.leb (length ix) old); [assumption|]. rewrite put_nth.
  destruct (Nateqs k old) as [->|]; cbn [andb]; [|assumption].
  destruct (Nat.ltb old (length ix)); [|assumption]. apply filter_In. split; [assumption|].
  apply negb_true_iff, Bool.not_true_iff_false. intros M. apply memb_in in M. apply (NR l); [now left|assumption].
Qed.

Lemma concat_firstn_in j V : forall (ix : list (list nat)),
  In j (concat (firstn V ix)) <-> exists n, n < V /\ In j (nth n ix []).
Proof.
  induction V as [|V IH]; intros ix.
  - cbn. split; [contradiction|]. intros (n & H & _). lia.
  - destruct ix as [|x ix]; cbn [firstn concat].
    + split; [contradiction|]. intros (n & _ & H). destruct n; destruct H.
    + rewrite in_app_iff, IH. split.
      * intros [H|(n & H1 & H2)]; [exists 0; split; [lia|assumption]|exists (S n); split; [lia|assumption]].
      * intros ([|n] & H1 & H2); [now left|right; exists n; split; [lia|assumption]].
Qed.
