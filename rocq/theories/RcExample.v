(* Concrete runs of the cell storage, and two leaks. *)
From Coq Require Import NArith ZArith List Bool Lia Arith.
From Coq Require Import ZifyN ZifyNat ZifyBool.
From Verif Require Import AMap CntModel CntSpec RcModel RcSpec RcBasics RcThms.
Import ListNotations.
Open Scope N_scope.

(* a scheduler: at every step a number chooses the thread *)
Fixpoint xpick {A} (i : nat) (l : list A) : option (list A * A * list A) :=
  match l with
  | [] => None
  | x :: t => match i with
              | O => Some ([], x, t)
              | S j => match xpick j t with
                       | Some (a, y, b) => Some (x :: a, y, b)
                       | None => Some ([], x, t)
                       end
              end
  end.
Lemma xpick_ok {A} i : forall (l : list A) a x b, xpick i l = Some (a, x, b) -> l = a ++ x :: b.
Proof.
  induction i as [|i IH]; intros [|y l] a x b; cbn [xpick]; try discriminate.
  - intros [= <- <- <-]. reflexivity.
  - destruct (xpick i l) as [[[a' z] b']|] eqn:E; intros [= <- <- <-]; [|reflexivity]. cbn [app]. now rewrite <- (IH l a' z b' E).
Qed.
Fixpoint xstore fp content sp d (sched : list nat) (s : sctx * list sthr) : sctx * list sthr :=
  match sched with
  | [] => s
  | i :: r =>
    match xpick i (snd s) with
    | None => s
    | Some (a, t, b) => let '(c', ts) := sstep fp content sp d (fst s) t in xstore fp content sp d r (c', a ++ ts ++ b)
    end
  end.
Lemma xstore_run fp content sp d sched : forall n s0 s, srun fp content sp d n s0 s ->
  exists m, srun fp content sp d m s0 (xstore fp content sp d sched s).
Proof.
  induction sched as [|i r IH]; intros n s0 [c l] H; cbn [xstore fst snd]; [now exists n|].
  destruct (xpick i l) as [[[a t] b]|] eqn:E; [|now exists n]. apply xpick_ok in E. subst l.
  destruct (sstep fp content sp d c t) as [c' ts] eqn:ST.
  apply (IH (S n)). exact (sr_thread fp content sp d n s0 c a t b c' ts H ST).
Qed.
Fixpoint xremove sp d (sched : list nat) (s : rctx * list rthr) : rctx * list rthr :=
  match sched with
  | [] => s
  | i :: r =>
    match xpick i (snd s) with
    | None => s
    | Some (a, t, b) =>
      match rstep sp d (fst s) t with
      | None => s
      | Some (c', ts) => xremove sp d r (c', a ++ ts ++ b)
      end
    end
  end.
Lemma xremove_run sp d sched : forall n s0 s, rrun sp d n s0 s ->
  exists m, rrun sp d m s0 (xremove sp d sched s).
Proof.
  induction sched as [|i r IH]; intros n s0 [c l] H; cbn [xremove fst snd]; [now exists n|].
  destruct (xpick i l) as [[[a t] b]|] eqn:E; [|now exists n]. apply xpick_ok in E. subst l.
  destruct (rstep sp d c t) as [[c' ts]|] eqn:ST; [|now exists n].
  apply (IH (S n)). exact (rr_thread sp d n s0 c a t b c' ts H ST).
Qed.
Definition xs_all fp content root_of sp pr sched d blk : option (sctx * cdb) :=
  let s := xstore fp content sp d sched (sstart d (root_of blk)) in
  match snd s with
  | [] => match sfin fp d (fst s) pr blk (root_of blk) with Some d' => Some (fst s, d') | None => None end
  | _ => None
  end.
Lemma xs_all_ok fp content root_of clean sp pr sched d fl R blk c d' :
  rchist fp content root_of clean (mkCN d fl None) R -> ~ In blk fl ->
  xs_all fp content root_of sp pr sched d blk = Some (c, d') ->
  rchist fp content root_of clean (mkCN d' fl (Some blk)) (root_of blk :: R).
Proof.
  intros H NI E. unfold xs_all in E.
  destruct (xstore_run fp content sp d sched 0 _ _ (sr_refl fp content sp d (sstart d (root_of blk)))) as (m & RN).
  destruct (xstore fp content sp d sched (sstart d (root_of blk))) as [c0 l]. cbn [fst snd] in E.
  destruct l; [|discriminate]. destruct (sfin fp d c0 pr blk (root_of blk)) as [d2|] eqn:EF; [|discriminate].
  injection E as <- <-. exact (rh_store fp content root_of clean d fl R blk sp m c0 pr d2 H NI RN EF).
Qed.
Definition xr_all fp (root_of : N -> N) sp sched d blk : option (rctx * cdb) :=
  let s := xremove sp d sched (rstart d (root_of blk)) in
  match snd s with
  | [] => match rfin fp d (fst s) blk with Some d' => Some (fst s, d') | None => None end
  | _ => None
  end.
Lemma xr_all_run fp root_of sp sched d blk c d' : xr_all fp root_of sp sched d blk = Some (c, d') ->
  exists n, rrun sp d n (rstart d (root_of blk)) (c, []) /\ rfin fp d c blk = Some d'.
Proof.
  intros E. unfold xr_all in E.
  destruct (xremove_run sp d sched 0 _ _ (rr_refl sp d (rstart d (root_of blk)))) as (m & RN).
  destruct (xremove sp d sched (rstart d (root_of blk))) as [c0 l]. cbn [fst snd] in E.
  destruct l; [|discriminate]. destruct (rfin fp d c0 blk) as [d2|] eqn:EF; [|discriminate].
  injection E as <- <-. exists m. now split.
Qed.

(* the references of two states that share cells: 1 and 5 are roots, 2, 3 and
   7 are split off *)
Definition xcont (h : N) : cellc :=
  mkCell (h + 1000)
    (match h with 1 => [2; 3] | 2 => [4; 4] | 3 => [4; 6] | 5 => [2; 7] | 7 => [6; 8] | 9 => [10; 10] | 10 => [11] | _ => [] end).
Definition xroot (b : N) : N := match b with 100 => 1 | 101 => 5 | _ => 9 end.
Definition xfp (h : N) : N := h mod 4.
Definition xsp (h : N) : bool := nmem h [2; 3; 7].
Definition xsched : list nat := [0; 1; 0; 2; 1; 0; 1; 2; 0; 1; 1; 0; 2; 2; 1; 0; 1; 0; 1; 2; 0; 0; 1; 1; 0; 2; 1; 0; 1; 0; 0; 0; 0; 0; 0; 0; 0; 0; 0; 0; 0; 0; 0; 0; 0; 0; 0; 0; 0; 0; 0; 0; 0; 0; 0; 0; 0; 0; 0; 0]%nat.

Lemma xcont_refs h k : In k (cc_refs (xcont h)) ->
  In (h, k) [(1, 2); (1, 3); (2, 4); (3, 4); (3, 6); (5, 2); (5, 7); (7, 6); (7, 8); (9, 10); (10, 11)].
Proof.
  unfold xcont. cbn [cc_refs].
  destruct h as [|p]; [intros []|].
  do 4 (destruct p as [p|p|]; cbn [In]; try (intros []; fail);
        try (intros Q; repeat (destruct Q as [<-|Q]; [cbn [In]; tauto|]); destruct Q; fail)).
Qed.
Lemma xacyclic : acyclic xcont.
Proof.
  exists (fun h => N.to_nat (nth (N.to_nat h) [0; 9; 7; 7; 1; 9; 1; 7; 1; 9; 7; 1] 0)).
  intros h k Hk. apply xcont_refs in Hk. cbn [In] in Hk.
  repeat (destruct Hk as [[= <- <-]|Hk]; [vm_compute; lia|]). destruct Hk.
Qed.


Definition xget {A} (o : option (A * cdb)) : cdb := match o with Some (_, d) => d | None => cdb_new end.
Definition xsome {A} (o : option A) : bool := match o with Some _ => true | None => false end.
Lemma xget_eq {A} (o : option (A * cdb)) : xsome o = true -> exists c, o = Some (c, xget o).
Proof. destruct o as [[c d]|]; [intros _; now exists c|discriminate]. Qed.

(* checking split_ok: W lists all cells below the root *)
Definition xclosed (content : N -> cellc) (W : list N) : bool :=
  forallb (fun h => forallb (fun k => nmem k W) (cc_refs (content h))) W.
Definition xsplit (content : N -> cellc) (d : cdb) (W S : list N) (root : N) : bool :=
  xclosed content W && nmem root W &&
  forallb (fun h => let n := occ h [root] + refs_to content h W in (n <=? 1) || (n <? rcount d h)) S.
Lemma xreach content W r h : xclosed content W = true -> In r W -> reach content r h -> In h W.
Proof.
  intros C Hr H. induction H as [x|r x k H IH K]; [exact Hr|]. specialize (IH Hr).
  unfold xclosed in C. rewrite forallb_forall in C. specialize (C x IH). rewrite forallb_forall in C.
  apply nmem_in. exact (C k K).
Qed.
Lemma xsplit_ok content d W S sp root : xsplit content d W S root = true -> (forall h, sp h = true -> In h S) ->
  split_ok content d sp root.
Proof.
  intros X HS U h ND HU Sh. unfold xsplit in X. apply andb_true_iff in X. destruct X as [X X3].
  apply andb_true_iff in X. destruct X as [X1 X2]. apply nmem_in in X2. rewrite forallb_forall in X3.
  specialize (X3 h (HS h Sh)). cbn zeta in X3.
  pose proof (refs_incl content h U W ND (fun u Hu => xreach content W root u X1 X2 (HU u Hu))) as L.
  apply orb_true_iff in X3. destruct X3 as [Q|Q]; [apply N.leb_le in Q; left|apply N.ltb_lt in Q; right]; lia.
Qed.

(* store both states with three threads (with promotion of old cells by the
   second store and a flush and restart between), remove the first *)
Definition o1 := Eval vm_compute in xs_all xfp xcont xroot xsp (fun _ => false) xsched cdb_new 100.
Lemma o1_eq : xs_all xfp xcont xroot xsp (fun _ => false) xsched cdb_new 100 = o1.
Proof. vm_compute. reflexivity. Qed.
Definition o2 := Eval vm_compute in xs_all xfp xcont xroot xsp (fun h => nmem h [1; 4]) xsched (xget o1) 101.
Lemma o2_eq : xs_all xfp xcont xroot xsp (fun h => nmem h [1; 4]) xsched (xget o1) 101 = o2.
Proof. vm_compute. reflexivity. Qed.
Definition d3 := restart xfp (xget o2).
Definition o4 := Eval vm_compute in xr_all xfp xroot xsp xsched d3 100.
Lemma o4_eq : xr_all xfp xroot xsp xsched d3 100 = o4.
Proof. vm_compute. reflexivity. Qed.
Definition o5 := Eval vm_compute in xr_all xfp xroot xsp xsched (xget o4) 101.
Lemma o5_eq : xr_all xfp xroot xsp xsched (xget o4) 101 = o5.
Proof. vm_compute. reflexivity. Qed.

Lemma xsp_in h : xsp h = true -> In h [2; 3; 7].
Proof. apply nmem_in. Qed.

Lemma xhist2 : rchist xfp xcont xroot true (mkCN d3 [101; 100] None) [5; 1].
Proof.
  destruct (xget_eq o1) as (c1 & E1); [vm_compute; reflexivity|]. rewrite <- o1_eq in E1 at 1.
  destruct (xget_eq o2) as (c2 & E2); [vm_compute; reflexivity|]. rewrite <- o2_eq in E2 at 1.
  apply (rh_crash xfp xcont xroot true _ _ None); [|reflexivity]. apply rh_flag.
  change [5; 1] with [xroot 101; xroot 100].
  refine (xs_all_ok xfp xcont xroot true xsp (fun h => nmem h [1; 4]) xsched (xget o1) [100] [xroot 100] 101 c2 (xget o2) _ _ E2);
    [|intros [Q|[]]; discriminate].
  apply rh_flag.
  refine (xs_all_ok xfp xcont xroot true xsp (fun _ => false) xsched cdb_new [] [] 100 c1 (xget o1) _ _ E1); [|intros []].
  apply rh_new.
Qed.
Lemma xhist4 : rchist xfp xcont xroot true (mkCN (xget o4) [101; 100] None) [5].
Proof.
  destruct (xget_eq o4) as (c4 & E4); [vm_compute; reflexivity|]. rewrite <- o4_eq in E4 at 1.
  destruct (xr_all_run _ _ _ _ _ _ _ _ E4) as (n & RN & EF).
  apply (rh_remove xfp xcont xroot true d3 _ [5] [] 100 xsp n c4); [exact xhist2|vm_compute; reflexivity| |exact RN|exact EF].
  apply (xsplit_ok xcont d3 [1; 2; 3; 4; 6] [2; 3; 7]); [vm_compute; reflexivity|exact xsp_in].
Qed.
Lemma xhist5 : rchist xfp xcont xroot true (mkCN (xget o5) [101; 100] None) [].
Proof.
  destruct (xget_eq o5) as (c5 & E5); [vm_compute; reflexivity|]. rewrite <- o5_eq in E5 at 1.
  destruct (xr_all_run _ _ _ _ _ _ _ _ E5) as (n & RN & EF).
  apply (rh_remove xfp xcont xroot true (xget o4) _ [] [] 101 xsp n c5); [exact xhist4|vm_compute; reflexivity| |exact RN|exact EF].
  apply (xsplit_ok xcont (xget o4) [5; 2; 7; 4; 6; 8] [2; 3; 7]); [vm_compute; reflexivity|exact xsp_in].
Qed.

Definition xshow (d : cdb) : list (N * option (N * N)) :=
  map (fun h => (h, match load_raw d h with Some (i, x) => Some (cc_data x, d_rc d i) | None => None end)) [1; 2; 3; 4; 5; 6; 7; 8].

Theorem cells_example :
  acyclic xcont /\
  rchist xfp xcont xroot true (mkCN d3 [101; 100] None) [5; 1] /\
  rchist xfp xcont xroot true (mkCN (xget o4) [101; 100] None) [5] /\
  rchist xfp xcont xroot true (mkCN (xget o5) [101; 100] None) [] /\
  akeys (d_rows d3) = [1; 4] /\
  xshow d3 = [(1, Some (1001, 1)); (2, Some (1002, 2)); (3, Some (1003, 1)); (4, Some (1004, 3));
              (5, Some (1005, 1)); (6, Some (1006, 2)); (7, Some (1007, 1)); (8, Some (1008, 1))] /\
  xshow (xget o4) = [(1, None); (2, Some (1002, 1)); (3, None); (4, Some (1004, 2));
              (5, Some (1005, 1)); (6, Some (1006, 1)); (7, Some (1007, 1)); (8, Some (1008, 1))] /\
  stored (xget o5) = [].
Proof.
  split; [exact xacyclic|]. split; [exact xhist2|]. split; [exact xhist4|]. split; [exact xhist5|].
  split; [vm_compute; reflexivity|]. split; [vm_compute; reflexivity|]. split; vm_compute; reflexivity.
Qed.

(* ---- leak 1: a crash between the batch and the block handle ---- *)
(* The batch (cells, counters, the state's root) is written, the node dies
   before the handle in the other database says so; the state is stored again
   on restart and its root is counted twice.  After its removal the table of
   states is empty and every cell is still there, for good. *)
Definition l1 := restart xfp (xget o1).
Definition o2b := Eval vm_compute in xs_all xfp xcont xroot xsp (fun _ => false) xsched l1 100.
Lemma o2b_eq : xs_all xfp xcont xroot xsp (fun _ => false) xsched l1 100 = o2b.
Proof. vm_compute. reflexivity. Qed.
Definition o3b := Eval vm_compute in xr_all xfp xroot xsp xsched (xget o2b) 100.
Lemma o3b_eq : xr_all xfp xroot xsp xsched (xget o2b) 100 = o3b.
Proof. vm_compute. reflexivity. Qed.
Theorem crash_window_leak :
  exists nd R, rchist xfp xcont xroot false nd R /\ d_states (n_db nd) = [] /\ In 100 (n_flags nd) /\
    map (fun h => xsome (load_raw (n_db nd) h)) [1; 2; 3; 4; 6] = [true; true; true; true; true].
Proof.
  exists (mkCN (xget o3b) [100] None), [1].
  destruct (xget_eq o1) as (c1 & E1); [vm_compute; reflexivity|]. rewrite <- o1_eq in E1 at 1.
  destruct (xget_eq o2b) as (c2 & E2); [vm_compute; reflexivity|]. rewrite <- o2b_eq in E2 at 1.
  destruct (xget_eq o3b) as (c3 & E3); [vm_compute; reflexivity|]. rewrite <- o3b_eq in E3 at 1.
  destruct (xr_all_run _ _ _ _ _ _ _ _ E3) as (n & RN & EF).
  split; [|split; [vm_compute; reflexivity|split; [now left|vm_compute; reflexivity]]].
  apply (rh_remove xfp xcont xroot false (xget o2b) _ [] [1] 100 xsp n c3); [|vm_compute; reflexivity| |exact RN|exact EF].
  2: { apply (xsplit_ok xcont _ [1; 2; 3; 4; 6] [2; 3; 7]); [vm_compute; reflexivity|exact xsp_in]. }
  cbn [app]. change (xroot 100) with 1. apply rh_flag.
  apply (xs_all_ok xfp xcont xroot false xsp (fun _ => false) xsched l1 [] [1] 100 c2); [|intros []|exact E2].
  apply (rh_crash xfp xcont xroot false _ _ (Some 100)); [|discriminate].
  exact (xs_all_ok xfp xcont xroot false xsp (fun _ => false) xsched cdb_new [] [] 100 c1 _ (rh_new _ _ _ _) (fun x => x) E1).
Qed.

(* ---- leak 2: a detached subtree met twice ---- *)
(* If the root of a detached subtree is referred to twice below the removed
   root and by nothing else, its thread sees one removal and does not go
   down; the delayed removal then deletes the cell, the references it returns
   are ignored and the cells below stay. *)
Definition ysp (h : N) : bool := nmem h [10].
Definition o1c := Eval vm_compute in xs_all xfp xcont xroot ysp (fun _ => false) xsched cdb_new 102.
Lemma o1c_eq : xs_all xfp xcont xroot ysp (fun _ => false) xsched cdb_new 102 = o1c.
Proof. vm_compute. reflexivity. Qed.
Definition o2c := Eval vm_compute in xr_all xfp xroot ysp xsched (xget o1c) 102.
Lemma o2c_eq : xr_all xfp xroot ysp xsched (xget o1c) 102 = o2c.
Proof. vm_compute. reflexivity. Qed.
Theorem detached_twice_leak :
  exists d R c n d', rchist xfp xcont xroot true (mkCN d [102] None) R /\
    aget N.eqb 102 (d_states d) = Some (xroot 102) /\ ~ split_ok xcont d ysp (xroot 102) /\
    rrun ysp d n (rstart d (xroot 102)) (c, []) /\ rfin xfp d c 102 = Some d' /\
    d_states d' = [] /\ load_raw d' 9 = None /\ load_raw d' 10 = None /\ load_raw d' 11 <> None.
Proof.
  destruct (xget_eq o1c) as (c1 & E1); [vm_compute; reflexivity|]. rewrite <- o1c_eq in E1 at 1.
  destruct (xget_eq o2c) as (c2 & E2); [vm_compute; reflexivity|]. rewrite <- o2c_eq in E2 at 1.
  destruct (xr_all_run _ _ _ _ _ _ _ _ E2) as (n & RN & EF).
  exists (xget o1c), [9], c2, n, (xget o2c).
  split. { apply rh_flag. exact (xs_all_ok xfp xcont xroot true ysp (fun _ => false) xsched cdb_new [] [] 102 c1 _ (rh_new _ _ _ _) (fun x => x) E1). }
  split; [vm_compute; reflexivity|]. split.
  { intros SO. destruct (SO [9] 10) as [Q|Q].
    - constructor; [intros []|constructor].
    - intros u [<-|[]]. constructor.
    - reflexivity.
    - vm_compute in Q. apply Q. reflexivity.
    - vm_compute in Q. discriminate. }
  split; [exact RN|]. split; [exact EF|]. split; [vm_compute; reflexivity|]. split; [vm_compute; reflexivity|].
  split; [vm_compute; reflexivity|]. vm_compute. discriminate.
Qed.
