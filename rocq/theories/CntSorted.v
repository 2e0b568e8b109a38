(* C62: the bulk operations of the bitmaps get their rows in increasing order. *)
From Coq Require Import NArith List Bool Lia Sorting.Sorted Sorting.Permutation.
From Verif Require Import AMap CntModel CntProofs.
Import ListNotations.
Open Scope N_scope.

Definition incr (l : list ctrans) : Prop := StronglySorted N.lt (map t_idx l).
Lemma sorted_snoc l x : StronglySorted N.lt l -> (forall y, In y l -> y < x) -> StronglySorted N.lt (l ++ [x]).
Proof.
  intros H. induction H as [|a l H IH F]; intros L; cbn [app]; [repeat constructor|]. constructor.
  - apply IH. intros y Hy. apply L. now right.
  - apply Forall_app. split; [exact F|]. repeat constructor. apply L. now left.
Qed.
Lemma ct_ins_in t l x : In x (map t_idx (ct_ins t l)) <-> x = t_idx t \/ In x (map t_idx l).
Proof.
  assert (P := Permutation_map t_idx (ct_ins_perm t l)). cbn [map] in P. split; intros H.
  - apply (Permutation_in _ P) in H. destruct H as [H|H]; [left; now symmetry|now right].
  - apply (Permutation_in _ (Permutation_sym P)). destruct H as [->|H]; [now left|now right].
Qed.
Lemma ct_ins_incr t l : incr l -> ~ In (t_idx t) (map t_idx l) -> incr (ct_ins t l).
Proof.
  unfold incr. induction l as [|x r IH]; cbn [ct_ins map]; intros H NI; [repeat constructor|].
  inversion H as [|a b H1 H2]; subst. destruct (N.leb_spec (t_idx t) (t_idx x)) as [L|L]; cbn [map].
  - constructor; [exact H|]. assert (LT : t_idx t < t_idx x) by (cbn [In] in NI; lia).
    constructor; [exact LT|]. rewrite Forall_forall in *. intros y Hy. specialize (H2 y Hy). lia.
  - constructor; [apply IH; [exact H1|]; intros Q; apply NI; now right|].
    rewrite Forall_forall in *. intros y Hy. apply ct_ins_in in Hy. destruct Hy as [->|Hy]; [exact L|now apply H2].
Qed.
Lemma ct_sort_incr l : NoDup (map t_idx l) -> incr (ct_sort l).
Proof.
  induction l as [|x r IH]; cbn [map]; intros H; [constructor|]. inversion H; subst.
  change (incr (ct_ins x (ct_sort r))). apply ct_ins_incr; [now apply IH|]. intros Q.
  apply (Permutation_in _ (Permutation_map t_idx (ct_sort_perm r))) in Q. contradiction.
Qed.
Definition flag_ok (s : cscratch) : Prop :=
  s_sorted s = true -> incr (s_trans s) /\
    match s_last s with
    | Some p => In p (map t_idx (s_trans s)) /\ forall y, In y (map t_idx (s_trans s)) -> y <= p
    | None => s_trans s = []
    end.
Lemma flag_push s t : flag_ok s -> flag_ok (cs_push s t).
Proof.
  unfold flag_ok, cs_push. intros H. destruct (_ && _); [exact H|]. cbn [s_sorted s_trans s_last].
  intros E. rewrite map_app. cbn [map]. destruct (s_last s) as [p|].
  - destruct (N.leb_spec (t_idx t) p) as [L|L]; [discriminate|]. destruct (H E) as [A [B C]]. split.
    + unfold incr. rewrite map_app. cbn [map]. apply sorted_snoc; [exact A|]. intros y Hy. specialize (C y Hy). lia.
    + split; [apply in_or_app; right; now left|]. intros y Hy. apply in_app_or in Hy.
      destruct Hy as [Hy|[<-|[]]]; [specialize (C y Hy); lia|lia].
  - destruct (H E) as [A B]. rewrite B. split; [repeat constructor|]. cbn [map app]. split; [now left|].
    intros y [<-|[]]. lia.
Qed.
Theorem counters_batch_sorted ts : NoDup (map t_idx ts) ->
  StronglySorted N.lt (map t_idx (prepare_order (fold_left cs_push ts cs_empty))).
Proof.
  intros ND.
  assert (F : flag_ok (fold_left cs_push ts cs_empty)).
  { assert (G : forall l s, flag_ok s -> flag_ok (fold_left cs_push l s)).
    { induction l as [|t l IH]; cbn [fold_left]; intros s H; [exact H|]. apply IH. now apply flag_push. }
    apply G. intros _. cbn [cs_empty s_trans s_last]. split; [constructor|reflexivity]. }
  assert (T := pushes ts cs_empty). cbn zeta in T. destruct T as (T & _). cbn [cs_empty s_trans app] in T.
  unfold prepare_order. destruct (s_sorted _) eqn:E; [exact (proj1 (F E))|].
  apply ct_sort_incr. rewrite T. now apply nodup_filter_idx.
Qed.
Theorem counters_batch_sorted_example :
  map t_idx (prepare_order (fold_left cs_push [mkCT 5 0 3; mkCT 2 4 1; mkCT 9 1 2] cs_empty)) = [2; 5; 9].
Proof. reflexivity. Qed.
