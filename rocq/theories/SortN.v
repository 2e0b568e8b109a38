(** Sorted lists of numbers: existence and uniqueness of the sorted permutation. Library file, models no code. *)
From Coq Require Export List Arith NArith Permutation Sorting.Sorted Lia Bool.
Export ListNotations.
Local Open Scope N_scope.

Fixpoint ins (x : N) (l : list N) : list N :=
  match l with [] => [x] | y :: r => if x <=? y then x :: l else y :: ins x r end.
Definition isort (l : list N) : list N := fold_right ins [] l.

Lemma ins_perm x l : Permutation (ins x l) (x :: l).
Proof. induction l as [|y l IH]; cbn [ins]; auto. destruct (x <=? y); auto. rewrite IH. constructor. Qed.
Lemma isort_perm l : Permutation (isort l) l.
Proof. induction l as [|x l IH]; cbn [isort fold_right]; auto. rewrite ins_perm. constructor. exact IH. Qed.
Lemma ins_sorted x l : StronglySorted N.le l -> StronglySorted N.le (ins x l).
Proof.
  induction l as [|y l IH]; intros S; cbn [ins]; [repeat constructor|]. inversion S; subst.
  destruct (N.leb_spec x y).
  - constructor; auto. constructor; auto. eapply Forall_impl; [|eassumption]. cbn. intros; lia.
  - constructor; auto. rewrite ins_perm. constructor; [lia|assumption].
Qed.
Lemma isort_sorted l : StronglySorted N.le (isort l).
Proof. induction l; cbn [isort fold_right]; [constructor|]. now apply ins_sorted. Qed.

Lemma sorted_unique : forall a b, StronglySorted N.le a -> StronglySorted N.le b -> Permutation a b -> a = b.
Proof.
  induction a as [|x a IH]; intros b Sa Sb P.
  - apply Permutation_nil in P. now subst.
  - destruct b as [|y b]; [apply Permutation_sym, Permutation_nil in P; discriminate|].
    inversion Sa; inversion Sb; subst.
    assert (x = y).
    { assert (I1 : In x (y :: b)) by (eapply Permutation_in; [exact P|now left]).
      assert (I2 : In y (x :: a)) by (eapply Permutation_in; [symmetry; exact P|now left]).
      rewrite Forall_forall in H2, H6. destruct I1 as [|I1]; [auto|]. destruct I2 as [|I2]; [auto|].
      specialize (H2 _ I2). specialize (H6 _ I1). lia. }
    subst. f_equal. apply IH; auto. now apply Permutation_cons_inv in P.
Qed.
Lemma sorted_app a b : StronglySorted N.le a -> StronglySorted N.le b -> (forall x y, In x a -> In y b -> x <= y) -> StronglySorted N.le (a ++ b).
Proof.
  induction a as [|x a IH]; intros Sa Sb H; cbn [app]; auto. inversion Sa; subst. constructor.
  - apply IH; auto. intros; apply H; auto; now right.
  - apply Forall_app. split; auto. apply Forall_forall. intros y Hy. apply H; auto. now left.
Qed.
