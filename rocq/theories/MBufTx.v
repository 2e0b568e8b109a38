(** * MBufTx: a transaction changes nothing but what [rollback] will find *)

From Coq Require Import List NArith ZArith Bool PeanoNat Permutation Lia.
From Verif Require Import AMap MBufModel MBufSpec MBufBasics MBufInv MBufSlots MBufLoops MBufStep2 MBufIndex MBufFill.
Import ListNotations.

Definition strip_b (b : buffer) : buffer := mkB (b_msgs b) (b_int b) (b_ext b) (b_min b) None.
Definition strip_f (f : fstate) : fstate := set_buf (strip_b (f_buf f)) f.
Definition strip_r (r : fres) : fres := mkRes (strip_b (r_buf r)) (r_group r) (r_skip r) (r_keys r) (r_count r) (r_expired r).

Lemma strip_save a l b : save a l (strip_b b) = strip_b (save a l b).
Proof. reflexivity. Qed.

Section Strip.
Variable fl : filt.
Variable chk : N -> bool.
Variable V : nat.

Lemma strip_move a cx f : move fl a cx (strip_f f) = (strip_f (fst (move fl a cx f)), snd (move fl a cx f)).
Proof.
  unfold move. cbn [strip_f set_buf f_buf strip_b b_msgs f_msgs].
  destruct (mget a (b_msgs (f_buf f))) as [l|]; [|reflexivity].
  destruct (Nat.eqb _ 0); [reflexivity|].
  destruct (pop_loop fl _ l) as [[c r] k]. destruct (Nat.eqb _ 0); reflexivity.
Qed.
Lemma strip_try a f : try_skip fl a (strip_f f) = strip_f (try_skip fl a f).
Proof.
  unfold try_skip. destruct (can_skip fl); [|reflexivity]. cbn [strip_f set_buf f_buf strip_b b_msgs].
  destruct (mget a (b_msgs (f_buf f))); reflexivity.
Qed.
Lemma strip_check a f : check_skip chk a (strip_f f) = (fst (check_skip chk a f), strip_f (snd (check_skip chk a f))).
Proof.
  unfold check_skip. cbn [strip_f set_buf f_skip]. destruct (existsb _ _); [reflexivity|]. destruct (chk a); reflexivity.
Qed.

Lemma strip_walk1 rest : forall cx f, walk1 fl chk rest cx (strip_f f) =
  let '(r, f', p) := walk1 fl chk rest cx f in (r, strip_f f', p).
Proof.
  induction rest as [|a t IH]; intros cx f; cbn [walk1]; [reflexivity|].
  change (f_msgs (strip_f f)) with (f_msgs f). destruct (mhas a (f_msgs f)).
  - rewrite strip_try. apply IH.
  - rewrite strip_check. destruct (check_skip chk a f) as [sk f1]. cbn [fst snd]. destruct sk.
    + rewrite strip_try. apply IH.
    + rewrite strip_move. destruct (move fl a cx f1) as [f2 cx2]. cbn [fst snd].
      change (slot_of (c_id cx2) (strip_f f2)) with (slot_of (c_id cx2) f2).
      destruct (Nat.ltb 0 _); [reflexivity|apply IH].
Qed.

Lemma strip_step1 fuel : forall id rem nf used rest f, step1 fl chk V fuel id rem nf used rest (strip_f f) =
  match step1 fl chk V fuel id rem nf used rest f with
  | Some (u, r, f') => Some (u, r, strip_f f') | None => None end.
Proof.
  induction fuel as [|fuel IH]; intros id rem nf used rest f; cbn [step1]; [reflexivity|].
  change (slot_of id (strip_f f)) with (slot_of id f).
  change (set_last (max_last (f_last (strip_f f)) id) (set_slots (sset id (slot_of id f) (f_slots (strip_f f))) (strip_f f)))
    with (strip_f (set_last (max_last (f_last f) id) (set_slots (sset id (slot_of id f) (f_slots f)) f))).
  destruct (enter V id (slot_of id f)) as [cx|]; [|reflexivity]. rewrite strip_walk1.
  destruct (walk1 fl chk rest cx _) as [[rest2 f2] push].
  change (slot_of id (strip_f f2)) with (slot_of id f2).
  destruct (Nat.eqb _ 0); [reflexivity|]. destruct rem; [|apply IH].
  destruct (if push then nf ++ [id] else nf); [reflexivity|apply IH].
Qed.

Lemma strip_own accs : forall cx f, own fl chk accs cx (strip_f f) =
  (strip_f (fst (own fl chk accs cx f)), snd (own fl chk accs cx f)).
Proof.
  induction accs as [|a t IH]; intros cx f; cbn [own]; [reflexivity|].
  rewrite strip_check. destruct (check_skip chk a f) as [sk f1]. cbn [fst snd]. destruct sk.
  - rewrite strip_try. apply IH.
  - rewrite strip_move. destruct (move fl a cx f1) as [f2 cx2]. cbn [fst snd].
    destruct (Nat.eqb _ 0); [reflexivity|apply IH].
Qed.
Lemma strip_others rest : forall cx f, others fl chk rest cx (strip_f f) =
  (fst (others fl chk rest cx f), strip_f (snd (others fl chk rest cx f))).
Proof.
  induction rest as [|a t IH]; intros cx f; cbn [others]; [reflexivity|].
  change (f_msgs (strip_f f)) with (f_msgs f). destruct (mhas a (f_msgs f)).
  - rewrite strip_try. apply IH.
  - rewrite strip_check. destruct (check_skip chk a f) as [sk f1]. cbn [fst snd]. destruct sk.
    + rewrite strip_try. apply IH.
    + rewrite strip_move. destruct (move fl a cx f1) as [f2 cx2]. cbn [fst snd].
      destruct (Nat.eqb _ 0); [reflexivity|apply IH].
Qed.
Lemma strip_step2 ids : forall used rest f, step2 fl chk V ids used rest (strip_f f) =
  match step2 fl chk V ids used rest f with Some (r, f') => Some (r, strip_f f') | None => None end.
Proof.
  induction ids as [|id t IH]; intros used rest f; cbn [step2]; [reflexivity|].
  destruct (memb id used); [apply IH|]. change (f_slots (strip_f f)) with (f_slots f).
  destruct (sget id (f_slots f)) as [s|]; [|reflexivity]. destruct (enter V id s) as [cx|]; [|reflexivity].
  rewrite strip_own. destruct (own fl chk (s_accs s) cx f) as [f1 cx1]. cbn [fst snd].
  destruct (Nat.eqb _ 0); [apply IH|]. rewrite strip_others.
  destruct (others fl chk rest cx1 f1) as [rest2 f2]. cbn [fst snd]. apply IH.
Qed.
Lemma strip_rest rest : forall f, skip_rest fl rest (strip_f f) = strip_f (skip_rest fl rest f).
Proof. induction rest as [|a t IH]; intros f; cbn [skip_rest]; [reflexivity|]. rewrite strip_try. apply IH. Qed.

Lemma strip_fill SC skipped g b : fill fl chk SC V skipped g (strip_b b) =
  match fill fl chk SC V skipped g b with Some r => Some (strip_r r) | None => None end.
Proof.
  unfold fill. change (b_msgs (strip_b b)) with (b_msgs b).
  change (mkF (strip_b b) (g_msgs g) (g_slots g) (g_last g) [] [] 0 skipped 0)
    with (strip_f (mkF b (g_msgs g) (g_slots g) (g_last g) [] [] 0 skipped 0)).
  set (f := mkF b (g_msgs g) (g_slots g) (g_last g) [] [] 0 skipped 0).
  assert (E1 : match SC - length (g_slots g) with
     | O => Some ([], akeys (b_msgs b), strip_f f)
     | S k => step1 fl chk V (2 * length (akeys (b_msgs b)) + 3) (next_slot g) k [] [] (akeys (b_msgs b)) (strip_f f) end =
     match (match SC - length (g_slots g) with
     | O => Some ([], akeys (b_msgs b), f)
     | S k => step1 fl chk V (2 * length (akeys (b_msgs b)) + 3) (next_slot g) k [] [] (akeys (b_msgs b)) f end)
     with Some (u, r, f') => Some (u, r, strip_f f') | None => None end).
  { destruct (SC - length (g_slots g)); [reflexivity|apply strip_step1]. }
  rewrite E1. clear E1.
  destruct (match SC - length (g_slots g) with
     | O => Some ([], akeys (b_msgs b), f)
     | S k => step1 fl chk V (2 * length (akeys (b_msgs b)) + 3) (next_slot g) k [] [] (akeys (b_msgs b)) f end)
    as [[[used rest] f1]|]; [|reflexivity].
  rewrite strip_step2. destruct (step2 fl chk V _ used rest f1) as [[rest2 f2]|]; [|reflexivity].
  assert (E3 : (if can_skip fl then skip_rest fl rest2 (strip_f f2) else strip_f f2) =
               strip_f (if can_skip fl then skip_rest fl rest2 f2 else f2))
    by (destruct (can_skip fl); [apply strip_rest|reflexivity]).
  rewrite E3. reflexivity.
Qed.
End Strip.
