(** * MBufExamples: concrete runs for C59-C61, and the index that keeps stale slots *)

From Coq Require Import List NArith ZArith Bool PeanoNat Permutation Lia.
From Verif Require Import AMap MBufModel MBufSpec MBufBasics MBufInv MBufSlots MBufLoops MBufStep2 MBufIndex MBufFill MBufTx MBufThms MBufHist MBufAdd.
Import ListNotations.

(** What [check_is_filled] of the group says [true] to is a full group. *)
Theorem is_filled_sound SC V g : wf_group V g -> g_is_filled SC V g = true ->
  SC <= length (g_slots g) /\ forall id s, sget id (g_slots g) = Some s -> s_count s = V.
Proof.
  intros WG H. unfold g_is_filled in H. destruct (Nat.ltb_spec 0 (SC - length (g_slots g))) as [L|L]; [discriminate|].
  split; [lia|]. intros id s Es. destruct (wg_slot _ _ WG _ _ Es) as (_ & _ & _ & HC).
  destruct (Nat.eq_dec (s_count s) V) as [E|E]; [assumption|exfalso].
  pose proof (wg_index _ _ WG _ _ Es) as Hin. assert (HL : s_count s < V) by lia.
  rewrite forallb_forall in H.
  assert (LN : s_count s < length (g_index g)).
  { destruct (Nat.ltb_spec (s_count s) (length (g_index g))) as [X|X]; [assumption|]. rewrite nth_overflow in Hin by assumption. destruct Hin. }
  assert (In (nth (s_count s) (g_index g) []) (firstn V (g_index g))) as Hx.
  { rewrite <- (firstn_skipn V (g_index g)) at 1. rewrite app_nth1; [|rewrite firstn_length; lia].
    apply nth_In. rewrite firstn_length. lia. }
  specialize (H _ Hx). destruct (nth (s_count s) (g_index g) []); [destruct Hin|discriminate].
Qed.

(** ** A run *)
Definition xint a k : msg := mkMsg a k None.
Definition xext a t : msg := mkMsg a 0 (Some t).

Definition xb : buffer := Eval vm_compute in
  fold_left (fun b m => add_message m b)
    [xint 1 11; xint 1 12; xint 1 13; xext 2 5; xext 2 50; xint 3 31; xext 4 7; xint 5 51] b_empty.
Lemma xb_fold ms : forall b, wf_buffer b -> wf_buffer (fold_left (fun b m => add_message m b) ms b).
Proof. induction ms as [|m ms IH]; intros b W; [exact W|]. cbn [fold_left]. apply IH, add_wf, W. Qed.
Lemma xb_wf : wf_buffer xb.
Proof.
  change xb with (fold_left (fun b m => add_message m b)
    [xint 1 11; xint 1 12; xint 1 13; xext 2 5; xext 2 50; xint 3 31; xext 4 7; xint 5 51] b_empty).
  apply xb_fold, wf_empty.
Qed.

(** Three slots of two; account 5 is refused; externals before time 10 have expired. *)
Definition xr : fres := Eval vm_compute in
  match fill (SkipExpired 10) (fun a => N.eqb a 5) 3 2 [] g_empty xb with
  | Some r => r | None => mkRes b_empty g_empty [] [] 0 0 end.
Example x_run : fill (SkipExpired 10) (fun a => N.eqb a 5) 3 2 [] g_empty xb = Some xr.
Proof. vm_compute. reflexivity. Qed.
Example x_result : r_count xr = 4 /\ r_expired xr = 2 /\ r_keys xr = [11; 12; 31]%N /\ r_skip xr = [5%N] /\
  collected 1 (r_group xr) = [xint 1 11; xint 1 12] /\ waiting 1 (r_buf xr) = [xint 1 13] /\
  collected 2 (r_group xr) = [xext 2 50] /\ waiting 4 (r_buf xr) = [] /\ collected 4 (r_group xr) = [] /\
  waiting 5 (r_buf xr) = [xint 5 51] /\ b_int (r_buf xr) = 2%Z /\ b_ext (r_buf xr) = 0%Z /\
  map (fun e => (fst e, s_accs (snd e), s_count (snd e))) (g_slots (r_group xr)) = [(1, [1%N], 2); (2, [2%N], 1); (3, [3%N], 1)].
Proof. vm_compute. repeat split. Qed.
Example x_wf : wf_buffer (r_buf xr) /\ wf_group 2 (r_group xr).
Proof.
  destruct (fill_total (SkipExpired 10) (fun a => N.eqb a 5) 3 2 [] g_empty xb) as (r & E & W1 & W2);
    [lia|apply xb_wf|apply wf_group_empty|].
  rewrite x_run in E. injection E as <-. auto.
Qed.
Example x_maximal : in_full_slot 2 1 (r_group xr).
Proof. exists 1, (mkSlot [1%N] 2 0). vm_compute. repeat split. now left. Qed.

(** A second group from another buffer, and the sum. *)
Definition yb : buffer := Eval vm_compute in
  fold_left (fun b m => add_message m b) [xint 5 52; xint 1 14; xint 6 61] b_empty.
Lemma yb_wf : wf_buffer yb.
Proof.
  change yb with (fold_left (fun b m => add_message m b) [xint 5 52; xint 1 14; xint 6 61] b_empty). apply xb_fold, wf_empty.
Qed.
Definition yr : fres := Eval vm_compute in
  match fill IncludeAll (fun a => mhas a (g_msgs (r_group xr))) 2 2 [] g_empty yb with
  | Some r => r | None => mkRes b_empty g_empty [] [] 0 0 end.
Example y_run : fill IncludeAll (fun a => mhas a (g_msgs (r_group xr))) 2 2 [] g_empty yb = Some yr.
Proof. vm_compute. reflexivity. Qed.
(** Account 1, in the first group, is refused by the check, so the sum exists. *)
Example y_sum : waiting 1 (r_buf yr) = [xint 1 14] /\
  exists s, g_add (r_group xr) (r_group yr) = Some s /\ collected 5 s = [xint 5 52] /\ g_int s = 5%Z /\ g_ext s = 1%Z /\
            length (g_slots s) = 5.
Proof. split; [vm_compute; reflexivity|]. eexists. split; [vm_compute; reflexivity|]. vm_compute. repeat split. Qed.

(** A transaction: begin, add, fill, remove, roll back. *)
Definition xtx : option buffer :=
  match b_begin xb with
  | Some b1 => match brun b1 [OAdd (xint 9 91); OFill IncludeAll (fun _ => false) 3 2 [] g_empty; OAdd (xint 3 32);
                              ORemove (fun a => N.eqb a 1)] with
               | Some b2 => b_rollback b2
               | None => None
               end
  | None => None
  end.
Example x_rollback : xtx = Some xb.
Proof. vm_compute. reflexivity. Qed.

(** ** The index keeps stale slots

    [remove_slot_ids.entry(old).and_modify(|s| insert).or_default()] does not put the first slot
    of each bucket into the set of those to remove (messages_buffer.rs:459-466). *)
Definition z1 : fres := Eval vm_compute in
  match fill IncludeAll (fun _ => false) 1 3 [] g_empty (add_message (xint 1 11) b_empty) with
  | Some r => r | None => mkRes b_empty g_empty [] [] 0 0 end.
Definition z2 : fres := Eval vm_compute in
  match fill IncludeAll (fun _ => false) 1 3 [] (r_group z1) (add_message (xint 1 13) (add_message (xint 1 12) (r_buf z1))) with
  | Some r => r | None => mkRes b_empty g_empty [] [] 0 0 end.
Lemma z1_wf : wf_buffer (r_buf z1) /\ wf_group 3 (r_group z1).
Proof.
  destruct (fill_total IncludeAll (fun _ => false) 1 3 [] g_empty (add_message (xint 1 11) b_empty)) as (r & E & W1 & W2);
    [lia|apply add_wf, wf_empty|apply wf_group_empty|].
  assert (r = z1) as -> by (vm_compute in E; injection E as <-; reflexivity). auto.
Qed.
Lemma z2_wf : wf_group 3 (r_group z2).
Proof.
  destruct (fill_total IncludeAll (fun _ => false) 1 3 [] (r_group z1) (add_message (xint 1 13) (add_message (xint 1 12) (r_buf z1)))) as (r & E & W1 & W2);
    [lia|apply add_wf, add_wf, z1_wf|apply z1_wf|].
  assert (r = z2) as -> by (vm_compute in E; injection E as <-; reflexivity). auto.
Qed.

(** Refuted: [check_is_filled] recognises a full group. All slots asked for are full, yet it
    says the group is not filled. *)
Theorem is_filled_incomplete_refuted : exists g, wf_group 3 g /\
  length (g_slots g) = 1 /\ (forall id s, sget id (g_slots g) = Some s -> s_count s = 3) /\
  g_is_filled 1 3 g = false.
Proof.
  exists (r_group z2). split; [apply z2_wf|]. split; [reflexivity|]. split; [|vm_compute; reflexivity].
  intros id s. change (g_slots (r_group z2)) with [(1, mkSlot [1%N] 3 0)]. cbn [aget].
  destruct (Nat.eqb id 1); [|discriminate]. now intros [= <-].
Qed.

(** Refuted: a call with a smaller slot size goes on with the group. The stale entry leads it to a
    slot above the size, where the capacity underflows; without it the slot would be left alone. *)
Theorem smaller_slot_panics_refuted : exists g b, wf_group 3 g /\ wf_buffer b /\
  fill IncludeAll (fun _ => false) 1 2 [] g b = None /\
  fill IncludeAll (fun _ => false) 1 2 []
    (mkG (g_msgs g) (g_slots g) (g_last g) [[]; []; []; [1]] (g_int g) (g_ext g)) b <> None.
Proof.
  exists (r_group z2), b_empty. split; [apply z2_wf|]. split; [apply wf_empty|].
  split; [vm_compute; reflexivity|]. vm_compute. discriminate.
Qed.
