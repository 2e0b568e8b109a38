(* A concrete run of the nursery: two cells are stored, the process dies in
   the middle of the next append, restarts, dies between the checkpoint state
   and the truncation of the log, restarts, promotes, removes. *)
From Coq Require Import NArith List Bool Permutation.
From Verif Require Import AMap Bytes WalModel WalSpec WalFormat WalNur WalOps WalInv WalThms.
Import ListNotations.
Open Scope N_scope.

Definition xhf (b : bytes) : bytes := repeat (N.of_nat (length b) mod 256) 32.
Definition xA : chash := repeat 1 32.
Definition xB : chash := repeat 2 32.
Definition xC : chash := repeat 3 32.
Definition xo1 := OStore 1 [mkNR xA 0 1 [10; 11]; mkNR xB 1 1 [20]].
Definition xo2 := OStore 101 [mkNR xC 2 101 [30; 31; 32]].
Definition xo3 := ORemove [xA; xC].

Definition op_okb (log : list wop) (o : wop) : bool :=
  match o with
  | OStore round ins =>
    match ins with
    | [a] => true
    | [a; b] => negb (beqb (nr_hash a) (nr_hash b))
    | _ => false
    end &&
    forallb (fun r => (Nat.eqb (length (nr_hash r)) 32) && (nr_idx r <? 2 ^ 64) && (nr_round r <? 2 ^ 32) &&
      (N.of_nat (length (nr_data r)) <? 2 ^ 16) && (nr_round r =? round) &&
      negb (is_some (live log (nr_hash r)))) ins
  | _ => true
  end.
Lemma op_okb_ok log o : op_okb log o = true -> op_ok log o.
Proof.
  destruct o as [round ins|hs|]; [|intros _; exact Logic.I..]. cbn [op_okb op_ok]. intros H.
  apply andb_true_iff in H. destruct H as [H1 H2]. split.
  - destruct ins as [|a [|b [|c t]]]; try discriminate.
    + cbn [map]. constructor; [intros []|constructor].
    + cbn [map]. constructor; [|constructor; [intros []|constructor]].
      intros [E|[]]. rewrite E, beqb_refl in H1. discriminate.
  - intros r Hr. rewrite forallb_forall in H2. specialize (H2 r Hr).
    repeat (apply andb_true_iff in H2; destruct H2 as [H2 ?]).
    split; [split; [now apply PeanoNat.Nat.eqb_eq|split; [now apply N.ltb_lt|split; now apply N.ltb_lt]]|].
    split; [now apply N.eqb_eq|]. destruct (live log (nr_hash r)); [discriminate|reflexivity].
Qed.
Definition counts_fitb (w : wnode) (o : wop) : bool :=
  let '(d, _, _, _) := op_delta w o in
  (N.of_nat (length (nd_ins d)) <? 2 ^ 32) && (N.of_nat (length (nd_rem d)) <? 2 ^ 32) &&
  (w_committed w + 1 <? 2 ^ 64).

Definition xstage (k : disk) (w : wnode) (o : wop) : option (disk * wnode * wbatch) :=
  match op_stage xhf w o with
  | Some (w', rec, b) => Some (set_wal k (Some (wal_of k ++ rec)), w', b)
  | None => None
  end.
Lemma xstage_reach t k w o k' w' b : wreach xhf t (k, Idle w) -> op_okb (k_log k) o = true ->
  counts_fitb w o = true -> xstage k w o = Some (k', w', b) -> wreach xhf t (k', Staged w' b).
Proof.
  intros R OK CF ST. unfold xstage in ST. destruct (op_stage xhf w o) as [[[w2 rec] b2]|] eqn:E; [|discriminate].
  injection ST as <- <- <-. unfold counts_fitb in CF. destruct (op_delta w o) as [[[d puts] dels] n] eqn:OD.
  apply andb_true_iff in CF. destruct CF as [CF C3]. apply andb_true_iff in CF. destruct CF as [C1 C2].
  eapply wr_step; [exact R|]. apply (ws_stage xhf t k w o d puts dels n w2 rec b2); [exact (op_okb_ok _ _ OK)|exact OD| |exact E].
  split; [now apply N.ltb_lt|]. split; now apply N.ltb_lt.
Qed.
Lemma xtorn_reach t k w o j rec w' b : wreach xhf t (k, Idle w) -> op_okb (k_log k) o = true ->
  counts_fitb w o = true -> op_stage xhf w o = Some (w', rec, b) ->
  wreach xhf t (set_wal k (Some (wal_of k ++ firstn j rec)), Down).
Proof.
  intros R OK CF E. unfold counts_fitb in CF. destruct (op_delta w o) as [[[d puts] dels] n] eqn:OD.
  apply andb_true_iff in CF. destruct CF as [CF C3]. apply andb_true_iff in CF. destruct CF as [C1 C2].
  eapply wr_step; [exact R|]. apply (ws_torn xhf t k w o d puts dels n w' rec b j); [exact (op_okb_ok _ _ OK)|exact OD| |exact E].
  split; [now apply N.ltb_lt|]. split; now apply N.ltb_lt.
Qed.

Definition orr {A} (d : A) (o : option A) : A := match o with Some x => x | None => d end.
Definition w00 := mkWN 0 0 0 nu_new.
Definition b00 := mkWB [] [] None OFlush.
Definition s3 (k : disk) (w : wnode) (o : wop) := orr (disk_new, w00, b00) (xstage k w o).

(* create, open, store *)
Definition x1 := Eval vm_compute in orr (disk_new, w00) (wopen xhf (set_wal disk_new (Some []))).
Definition x2 := Eval vm_compute in s3 (fst x1) (snd x1) xo1.
Definition x3 := Eval vm_compute in write_batch (fst (fst x2)) (snd x2).
Definition x3w := Eval vm_compute in snd (fst x2).
(* a torn append of the next operation *)
Definition x4r := Eval vm_compute in orr (w00, [], b00) (op_stage xhf x3w xo2).
Definition x4 := Eval vm_compute in set_wal x3 (Some (wal_of x3 ++ firstn 50 (snd (fst x4r)))).
Definition x5 := Eval vm_compute in orr (disk_new, w00) (wopen xhf x4).
(* a checkpoint up to the state, then a crash *)
Definition xsnap := Eval vm_compute in rev (nu_snapshot (w_nur (snd x5))).
Definition x6 := Eval vm_compute in ck_tmp (fst x5) (w_committed (snd x5)) (ckpt_rec xhf (snd x5) xsnap).
Definition xhash := Eval vm_compute in firstn 32 (ckpt_rec xhf (snd x5) xsnap).
Definition x7 := Eval vm_compute in ck_rename x6 (w_committed (snd x5)).
Definition x8 := Eval vm_compute in ck_state x7 (w_committed (snd x5)) xhash.
Definition x9 := Eval vm_compute in orr (disk_new, w00) (wopen xhf x8).
(* promotion and removal *)
Definition x10 := Eval vm_compute in s3 (fst x9) (snd x9) xo2.
Definition x11 := Eval vm_compute in write_batch (fst (fst x10)) (snd x10).
Definition x11w := Eval vm_compute in snd (fst x10).
Definition x12 := Eval vm_compute in s3 x11 x11w xo3.
Definition x13 := Eval vm_compute in write_batch (fst (fst x12)) (snd x12).
Definition x13w := Eval vm_compute in snd (fst x12).

Lemma xhf_len : forall b, length (xhf b) = 32%nat.
Proof. intros b. apply repeat_length. Qed.

Lemma x3_reach : wreach xhf 10 (x3, Idle x3w).
Proof.
  assert (R0 : wreach xhf 10 (set_wal disk_new (Some []), Down)).
  { eapply wr_step; [apply wr_init|]. apply ws_create. reflexivity. }
  assert (R1 : wreach xhf 10 (fst x1, Idle (snd x1))).
  { eapply wr_step; [exact R0|]. apply ws_open. vm_compute. reflexivity. }
  assert (R2 : wreach xhf 10 (fst (fst x2), Staged (snd (fst x2)) (snd x2))).
  { apply (xstage_reach 10 (fst x1) (snd x1) xo1 _ _ _ R1); vm_compute; reflexivity. }
  change x3 with (write_batch (fst (fst x2)) (snd x2)).
  eapply wr_step; [exact R2|]. apply ws_write.
Qed.
Lemma x4_reach : wreach xhf 10 (x4, Down).
Proof.
  change x4 with (set_wal x3 (Some (wal_of x3 ++ firstn 50 (snd (fst x4r))))).
  apply (xtorn_reach 10 x3 x3w xo2 50 _ (fst (fst x4r)) (snd x4r) x3_reach); vm_compute; reflexivity.
Qed.
Lemma x8_reach : wreach xhf 10 (x8, Down).
Proof.
  assert (R5 : wreach xhf 10 (fst x5, Idle (snd x5))).
  { eapply wr_step; [exact x4_reach|]. apply ws_open. vm_compute. reflexivity. }
  assert (R6 : wreach xhf 10 (x6, CkTmp (snd x5) xhash)).
  { eapply wr_step; [exact R5|].
    change x6 with (ck_tmp (fst x5) (w_committed (snd x5)) (ckpt_rec xhf (snd x5) xsnap)).
    change xhash with (firstn 32 (ckpt_rec xhf (snd x5) xsnap)).
    apply ws_ck_tmp; [vm_compute; reflexivity| |vm_compute; reflexivity].
    change xsnap with (rev (nu_snapshot (w_nur (snd x5)))). symmetry. apply Permutation_rev. }
  assert (R7 : wreach xhf 10 (x7, CkRenamed (snd x5) xhash)).
  { eapply wr_step; [exact R6|]. apply ws_ck_rename. }
  assert (R8 : wreach xhf 10 (x8, CkState (ck_node (snd x5)))).
  { eapply wr_step; [exact R7|]. apply ws_ck_state. }
  eapply wr_step; [exact R8|]. apply ws_crash.
Qed.
Lemma x10_reach : wreach xhf 10 (fst (fst x10), Staged (snd (fst x10)) (snd x10)).
Proof.
  assert (R9 : wreach xhf 10 (fst x9, Idle (snd x9))).
  { eapply wr_step; [exact x8_reach|]. apply ws_open. vm_compute. reflexivity. }
  apply (xstage_reach 10 (fst x9) (snd x9) xo2 _ _ _ R9); vm_compute; reflexivity.
Qed.
Lemma x13_reach : wreach xhf 10 (x13, Idle x13w).
Proof.
  assert (R11 : wreach xhf 10 (x11, Idle x11w)).
  { change x11 with (write_batch (fst (fst x10)) (snd x10)). eapply wr_step; [exact x10_reach|]. apply ws_write. }
  assert (R12 : wreach xhf 10 (fst (fst x12), Staged (snd (fst x12)) (snd x12))).
  { apply (xstage_reach 10 x11 x11w xo3 _ _ _ R11); vm_compute; reflexivity. }
  change x13 with (write_batch (fst (fst x12)) (snd x12)). eapply wr_step; [exact R12|]. apply ws_write.
Qed.

Theorem nursery_example :
  (forall b, length (xhf b) = 32%nat) /\
  wreach xhf 10 (x4, Down) /\ wreach xhf 10 (x8, Down) /\ wreach xhf 10 (x13, Idle x13w) /\
  map (read_cell (fst x5) (snd x5)) [xA; xB; xC] = [Some (0, [10; 11]); Some (1, [20]); None] /\
  (0 < length (wal_of x8))%nat /\ k_ckpt x8 = Some 1 /\
  map (read_cell (fst x9) (snd x9)) [xA; xB; xC] = [Some (0, [10; 11]); Some (1, [20]); None] /\
  map (read_cell x13 x13w) [xA; xB; xC] = [None; Some (1, [20]); None] /\
  map fst (k_rows x13) = [xB] /\ k_log x13 = [xo1; xo2; xo3].
Proof.
  split; [exact xhf_len|]. split; [exact x4_reach|]. split; [exact x8_reach|]. split; [exact x13_reach|].
  vm_compute. repeat split. repeat constructor.
Qed.

(* between the nursery update and the write of the batch a promoted cell is
   in neither place: a concurrent reader depends on the raw cell cache *)
Theorem nursery_staged_gap : exists k w b,
  wreach xhf 10 (k, Staged w b) /\
  live (k_log k) xA = Some (0, [10; 11]) /\ live (k_log k ++ [b_op b]) xA = Some (0, [10; 11]) /\
  read_cell k w xA = None.
Proof.
  exists (fst (fst x10)), (snd (fst x10)), (snd x10). split; [exact x10_reach|]. vm_compute. repeat split.
Qed.
