(* Both traversals end, however the threads are scheduled. *)
From Coq Require Import NArith ZArith List Bool Lia Arith.
From Coq Require Import ZifyN ZifyNat ZifyBool.
From Verif Require Import AMap CntModel CntSpec RcModel RcSpec RcBasics RcStore RcRemove.
Import ListNotations.
Open Scope N_scope.

Definition kidw (content : N -> cellc) (h : N) : nat := (5 * length (cc_refs (content h)))%nat.
Fixpoint undone (content : N -> cellc) (dn : N -> bool) (U : list N) : nat :=
  match U with
  | [] => 0%nat
  | h :: t => ((if dn h then 0 else kidw content h) + undone content dn t)%nat
  end.
Lemma undone_le content dn dn' U : (forall h, dn h = true -> dn' h = true) ->
  (undone content dn' U <= undone content dn U)%nat.
Proof.
  intros H. induction U as [|h U IH]; cbn [undone]; [lia|]. specialize (H h).
  destruct (dn h); [rewrite H by reflexivity; lia|destruct (dn' h); lia].
Qed.
Lemma undone_lt content dn dn' U x : (forall h, dn h = true -> dn' h = true) -> In x U ->
  dn x = false -> dn' x = true ->
  (undone content dn' U + kidw content x <= undone content dn U)%nat.
Proof.
  intros H Hx F T. induction U as [|h U IH]; [destruct Hx|]. cbn [undone].
  pose proof (undone_le content dn dn' U H). destruct Hx as [->|Hx].
  - rewrite F, T. lia.
  - specialize (IH Hx). specialize (H h). destruct (dn h); [rewrite H by reflexivity; lia|destruct (dn' h); lia].
Qed.

Fixpoint stackw (st : list (list N)) : nat :=
  match st with [] => 0%nat | l :: t => (1 + 5 * length l + stackw t)%nat end.
Definition spcw (p : spc) : nat := match p with SCell _ => 3%nat | SSlow _ _ => 2%nat | SIter => 0%nat end.
Fixpoint sthrw (l : list sthr) : nat :=
  match l with [] => 0%nat | t :: r => (1 + spcw (st_pc t) + stackw (st_stack t) + sthrw r)%nat end.
Lemma sthrw_app a b : sthrw (a ++ b) = (sthrw a + sthrw b)%nat.
Proof. induction a as [|x a IH]; cbn [app sthrw]; [reflexivity|rewrite IH; lia]. Qed.
Definition sdone (tx : list (N * added)) (h : N) : bool := match get h tx with Some _ => true | None => false end.
Definition smu (content : N -> cellc) (U : list N) (s : sctx * list sthr) : nat :=
  (undone content (sdone (x_tx (fst s))) U + sthrw (snd s))%nat.

Lemma sdone_aset tx h a : forall k, sdone tx k = true -> sdone (aset N.eqb h a tx) k = true.
Proof. intros k. unfold sdone. rewrite nget_aset. destruct (k =? h); [reflexivity|auto]. Qed.
Lemma sdone_new tx h a : sdone (aset N.eqb h a tx) h = true.
Proof. unfold sdone. now rewrite nget_aset, N.eqb_refl. Qed.

Lemma sstep_mu fp content sp d U c a t b c' ts :
  (forall h, In h (tbag t) -> In h U) -> sstep fp content sp d c t = (c', ts) ->
  (smu content U (c', a ++ ts ++ b) < smu content U (c, a ++ t :: b))%nat.
Proof.
  intros HU ST. unfold smu. cbn [fst snd]. change (t :: b) with ([t] ++ b). rewrite !sthrw_app.
  assert (KEY : (undone content (sdone (x_tx c')) U + sthrw ts < undone content (sdone (x_tx c)) U + sthrw [t])%nat); [|lia].
  destruct t as [pc st]. unfold sstep in ST. cbn [st_pc st_stack] in ST.
  destruct pc as [h|h ex|].
  - destruct (get h (x_tx c)) as [x|] eqn:E.
    + injection ST as <- <-. cbn [x_tx sthrw st_pc st_stack spcw].
      pose proof (undone_le content (sdone (x_tx c)) (sdone (aset N.eqb h (add_n 1 x) (x_tx c))) U (sdone_aset _ _ _)). lia.
    + destruct (existing fp d (x_cache c) (length st) h) as [ex cache]. injection ST as <- <-.
      cbn [x_tx sthrw st_pc st_stack spcw]. lia.
  - destruct (get h (x_tx c)) as [x|] eqn:E.
    + injection ST as <- <-. cbn [x_tx sthrw st_pc st_stack spcw].
      pose proof (undone_le content (sdone (x_tx c)) (sdone (aset N.eqb h (add_n 1 x) (x_tx c))) U (sdone_aset _ _ _)). lia.
    + destruct ex as [i|].
      * injection ST as <- <-. cbn [x_tx sthrw st_pc st_stack spcw].
        pose proof (undone_le content (sdone (x_tx c)) (sdone (aset N.eqb h (mkAdd i (cget (d_rc d) i) 1 None) (x_tx c))) U (sdone_aset _ _ _)). lia.
      * injection ST as <- <-. cbn [x_tx sthrw st_pc st_stack spcw stackw].
        assert (F : sdone (x_tx c) h = false) by (unfold sdone; now rewrite E).
        assert (HI : In h U) by (apply HU; unfold tbag; cbn [st_pc st_stack pc_h]; now left).
        pose proof (undone_lt content (sdone (x_tx c)) (sdone (aset N.eqb h (mkAdd (x_next c) 0 1 (Some (content h))) (x_tx c)))
                      U h (sdone_aset _ _ _) HI F (sdone_new _ _ _)) as Q.
        unfold kidw in Q at 1. lia.
  - destruct st as [|[|h rest] st].
    + injection ST as <- <-. cbn [sthrw st_pc st_stack spcw stackw]. lia.
    + injection ST as <- <-. cbn [sthrw st_pc st_stack spcw stackw length]. lia.
    + destruct (sp h).
      * destruct (get h (x_del c)) as [n|]; injection ST as <- <-; cbn [x_tx sthrw st_pc st_stack spcw stackw length]; lia.
      * injection ST as <- <-. cbn [x_tx sthrw st_pc st_stack spcw stackw length]. lia.
Qed.

Lemma srun_bound fp content sp d R r U n s' : GOOD fp content d R ->
  (forall h, reach content r h -> In h U) ->
  srun fp content sp d n (sstart d r) s' -> (n + smu content U s' <= smu content U (sstart d r))%nat.
Proof.
  intros G HU H. remember (sstart d r) as s0 eqn:E0. induction H as [s|n s c a t b c' ts H IH ST|n s c l h v H IH E|n s c l h H IH].
  - lia.
  - specialize (IH E0). subst s. pose proof (srun_ok fp content sp d R r n _ _ G H (sstart_ok fp content d R r G)) as I. cbn [fst snd] in I.
    assert (HT : forall h, In h (tbag t) -> In h U).
    { intros h Hh. apply HU. apply (si_reach _ _ _ _ _ I). unfold bag. rewrite flat_map_app, in_app_iff. right.
      cbn [flat_map]. apply in_app_iff. now left. }
    pose proof (sstep_mu fp content sp d U c a t b c' ts HT ST). lia.
  - exact (IH E0).
  - exact (IH E0).
Qed.

(* ---- removal ---- *)
Definition rpcw (p : rpc) : nat := match p with RCell _ => 3%nat | RSlow _ _ _ _ _ => 2%nat | RIter => 0%nat end.
Fixpoint rthrw (l : list rthr) : nat :=
  match l with [] => 0%nat | t :: r => (1 + rpcw (rt_pc t) + stackw (rt_stack t) + rthrw r)%nat end.
Lemma rthrw_app a b : rthrw (a ++ b) = (rthrw a + rthrw b)%nat.
Proof. induction a as [|x a IH]; cbn [app rthrw]; [reflexivity|rewrite IH; lia]. Qed.
Definition rdone (tx : list (N * removed)) (h : N) : bool :=
  match get h tx with Some v => r_old v =? r_rem v | None => false end.
Definition rmu (content : N -> cellc) (d : cdb) (s : rctx * list rthr) : nat :=
  (undone content (rdone (y_tx (fst s))) (stored d) + rthrw (snd s))%nat.

(* replacing the entry of a cell that is not yet gone *)
Lemma rdone_aset tx h v : rdone tx h = false -> forall k, rdone tx k = true -> rdone (aset N.eqb h v tx) k = true.
Proof.
  intros F k. unfold rdone. rewrite nget_aset. destruct (N.eqb_spec k h) as [->|]; [|auto].
  intros T. unfold rdone in F. congruence.
Qed.
Lemma rdone_new tx h v : rdone (aset N.eqb h v tx) h = (r_old v =? r_rem v).
Proof. unfold rdone. now rewrite nget_aset, N.eqb_refl. Qed.

Lemma rset_mu content d tx h v : rdone tx h = false -> In h (stored d) ->
  (undone content (rdone (aset N.eqb h v tx)) (stored d) + (if N.eqb (r_old v) (r_rem v) then kidw content h else 0)
   <= undone content (rdone tx) (stored d))%nat.
Proof.
  intros F HS. destruct (r_old v =? r_rem v) eqn:B.
  - apply undone_lt; [now apply rdone_aset|exact HS|exact F|now rewrite rdone_new].
  - pose proof (undone_le content (rdone tx) (rdone (aset N.eqb h v tx)) (stored d) (rdone_aset tx h v F)). lia.
Qed.
Lemma descend_w b refs st : stackw (descend b refs st) = ((if b then 1 + 5 * length refs else 0) + stackw st)%nat.
Proof. unfold descend. destruct b; cbn [stackw]; lia. Qed.

Lemma rbump_mu content d c h v v' bb : rent_ok content d h v -> get h (y_tx c) = Some v ->
  add_removes 1 v = Some (v', bb) ->
  (undone content (rdone (aset N.eqb h v' (y_tx c))) (stored d) + (if bb then 5 * length (r_refs v) else 0)
   <= undone content (rdone (y_tx c)) (stored d))%nat.
Proof.
  intros (w & L & _ & _ & B3 & _) E A. unfold add_removes in A.
  destruct (N.ltb_spec (r_old v) (r_rem v + 1)) as [|LE]; [discriminate|]. injection A as <- <-.
  assert (F : rdone (y_tx c) h = false) by (unfold rdone; rewrite E; apply N.eqb_neq; lia).
  assert (HS : In h (stored d)) by (apply in_stored; now exists w).
  pose proof (rset_mu content d (y_tx c) h (mkRem (r_idx v) (r_nur v) (r_old v) (r_rem v + 1) (r_refs v)) F HS) as Q.
  cbn [r_old r_rem] in Q. unfold kidw in Q at 1. rewrite B3 in Q |- *. exact Q.
Qed.

Lemma rstep_mu fp content sp d R r c a t b c' ts : GOOD fp content d R -> In r R ->
  RI content d r c (a ++ t :: b) -> rstep sp d c t = Some (c', ts) ->
  (rmu content d (c', a ++ ts ++ b) < rmu content d (c, a ++ t :: b))%nat.
Proof.
  intros G HR I ST. unfold rmu. cbn [fst snd]. change (t :: b) with ([t] ++ b). rewrite !rthrw_app.
  assert (KEY : (undone content (rdone (y_tx c')) (stored d) + rthrw ts
                 < undone content (rdone (y_tx c)) (stored d) + rthrw [t])%nat); [|lia].
  assert (IT : In t (a ++ t :: b)) by (apply in_app_iff; right; now left).
  destruct t as [pc st]. unfold rstep in ST. cbn [rt_pc rt_stack] in ST.
  destruct pc as [h|h i nu o rf|].
  - destruct (get h (y_tx c)) as [v|] eqn:E.
    + destruct (add_removes 1 v) as [[v' bb]|] eqn:A; [|discriminate]. injection ST as <- <-.
      pose proof (rbump_mu content d c h v v' bb (ri_ent _ _ _ _ _ I h v E) E A) as Q.
      cbn [y_tx rthrw rt_pc rt_stack rpcw]. rewrite descend_w. destruct bb; lia.
    + destruct (find_del d (y_cache c) h) as [[[i nu] rf]|]; [|discriminate]. injection ST as <- <-.
      cbn [y_tx rthrw rt_pc rt_stack rpcw]. lia.
  - destruct (get h (y_tx c)) as [v|] eqn:E.
    + destruct (add_removes 1 v) as [[v' bb]|] eqn:A; [|discriminate]. injection ST as <- <-.
      pose proof (rbump_mu content d c h v v' bb (ri_ent _ _ _ _ _ I h v E) E A) as Q.
      cbn [y_tx rthrw rt_pc rt_stack rpcw]. rewrite descend_w. destruct bb; lia.
    + injection ST as <- <-.
      destruct (ri_slow _ _ _ _ _ I _ h i nu o rf IT eq_refl) as (w & L & _ & _ & B & _).
      assert (F : rdone (y_tx c) h = false) by (unfold rdone; now rewrite E).
      assert (HS : In h (stored d)) by (apply in_stored; now exists w).
      pose proof (rset_mu content d (y_tx c) h (mkRem i nu o 1 rf) F HS) as Q.
      cbn [r_old r_rem] in Q. unfold kidw in Q at 1. rewrite <- B in Q.
      cbn [y_tx rthrw rt_pc rt_stack rpcw]. rewrite descend_w. destruct (o =? 1); lia.
  - destruct st as [|[|h rest] st].
    + injection ST as <- <-. cbn [rthrw rt_pc rt_stack rpcw stackw]. lia.
    + injection ST as <- <-. cbn [rthrw rt_pc rt_stack rpcw stackw length]. lia.
    + destruct (sp h).
      * destruct (get h (y_del c)) as [n|]; injection ST as <- <-; cbn [y_tx rthrw rt_pc rt_stack rpcw stackw length]; lia.
      * injection ST as <- <-. cbn [y_tx rthrw rt_pc rt_stack rpcw stackw length]. lia.
Qed.

Lemma rrun_bound fp content sp d R r n s' : GOOD fp content d R -> In r R ->
  rrun sp d n (rstart d r) s' -> (n + rmu content d s' <= rmu content d (rstart d r))%nat.
Proof.
  intros G HR H. remember (rstart d r) as s0 eqn:E0. induction H as [s|n s c a t b c' ts H IH ST|n s c l h v H IH E|n s c l h H IH].
  - lia.
  - specialize (IH E0). subst s.
    pose proof (rrun_ok fp content d R r G HR sp n _ _ H (rstart_ok fp content d R r G)) as I. cbn [fst snd] in I.
    pose proof (rstep_mu fp content sp d R r c a t b c' ts G HR I ST). lia.
  - exact (IH E0).
  - exact (IH E0).
Qed.
