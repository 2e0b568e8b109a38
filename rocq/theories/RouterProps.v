(** Property C12: the partition router. *)
From Verif Require Import RouterModel RouterProofs.
Local Open Scope N_scope.

(** *** Specification: the partition last assigned to an address by accepted insertions
    (insertions into the default partition 0 and of variable addresses are rejected). *)
Fixpoint last_src (ops : list rop) (a : raddr) : option N :=
  match ops with
  | [] => None
  | o :: rest =>
      match last_src rest a with
      | Some p => Some p
      | None => match o with
                | RSrc (IStd a') p => if ra_eqb a a' && negb (p =? 0) then Some p else None
                | _ => None end
      end
  end.
Fixpoint last_dst (ops : list rop) (a : raddr) : option N :=
  match ops with
  | [] => None
  | o :: rest =>
      match last_dst rest a with
      | Some p => Some p
      | None => match o with
                | RDst (IStd a') p => if ra_eqb a a' && negb (p =? 0) then Some p else None
                | _ => None end
      end
  end.

Lemma assigned_src_last ops a d :
  assigned_src ops a d = match last_src ops a with Some p => Some p | None => d end.
Proof.
  unfold assigned_src. revert d; induction ops as [|o ops IH]; intros d; cbn [fold_left last_src]; auto.
  rewrite IH. destruct (last_src ops a); auto.
  destruct o as [[a'|t] p|[a'|t] p]; auto. destruct (ra_eqb a a' && negb (p =? 0)); auto.
Qed.
Lemma assigned_dst_last ops a d :
  assigned_dst ops a d = match last_dst ops a with Some p => Some p | None => d end.
Proof.
  unfold assigned_dst. revert d; induction ops as [|o ops IH]; intros d; cbn [fold_left last_dst]; auto.
  rewrite IH. destruct (last_dst ops a); auto.
  destruct o as [[a'|t] p|[a'|t] p]; auto. destruct (ra_eqb a a' && negb (p =? 0)); auto.
Qed.

(** C12: after any sequence of insertions, the partition of a message is the last one assigned to its
    destination, else the last one assigned to its source, else the default partition 0. *)
Theorem C12_lookup : forall ops s d,
  get_partition (fold_left rstep ops rt_empty) (Some (IStd s)) (IStd d) =
  match last_dst ops d with
  | Some p => p
  | None => match last_src ops s with Some p => p | None => 0 end
  end.
Proof.
  intros ops s d. unfold get_partition. cbn [from_int_addr].
  rewrite run_dst, run_src, assigned_dst_last, assigned_src_last. cbn [rt_dst rt_src rt_empty aget].
  destruct (last_dst ops d); auto. destruct (last_src ops s); auto.
Qed.
Print Assumptions C12_lookup.

(** C12: exporting the router and rebuilding it preserves every lookup; the export is
    strictly sorted (as the TL encoder requires) and never mentions the default partition. *)
Theorem C12_export_import : forall ops s d,
  let r := fold_left rstep ops rt_empty in
  get_partition (with_partitions (to_router_partitions_src r) (to_router_partitions_dst r)) s d =
  get_partition r s d.
Proof. intros ops s d r. apply export_import, run_ok, rt_ok_empty. Qed.
Print Assumptions C12_export_import.

Theorem C12_export_well_formed : forall ops,
  let r := fold_left rstep ops rt_empty in
  forall ps, ps = to_router_partitions_src r \/ ps = to_router_partitions_dst r ->
  parts_sorted ps /\ forall a p, in_parts ps a p -> p <> 0.
Proof.
  intros ops r ps Hps. pose proof (run_ok ops rt_empty rt_ok_empty) as [N1 N2].
  destruct Hps as [-> | ->].
  - destruct (to_parts_spec (rt_src r)) as [H1 H2]. split; [exact H1|].
    intros a p Hin. apply H2 in Hin. apply (aget_in ra_eqb ra_eqb_spec) in Hin; [|exact N1].
    subst r. rewrite run_src in Hin. eapply assigned_src_nz; [|exact Hin]. discriminate.
  - destruct (to_parts_spec (rt_dst r)) as [H1 H2]. split; [exact H1|].
    intros a p Hin. apply H2 in Hin. apply (aget_in ra_eqb ra_eqb_spec) in Hin; [|exact N2].
    subst r. rewrite run_dst in Hin. eapply assigned_dst_nz; [|exact Hin]. discriminate.
Qed.
Print Assumptions C12_export_well_formed.

(** C12 (counters): as long as no registered address is moved to another partition, the per-partition
    counters are the numbers of registered addresses. *)
Theorem C12_partition_counters_partial : forall ops,
  never_moving rt_empty ops ->
  let r := fold_left rstep ops rt_empty in
  forall p, stat_of p (rt_stats r) = count_in p (rt_src r) + count_in p (rt_dst r).
Proof. intros ops H r. apply run_stats; [exact H|]. intros p. reflexivity. Qed.
Print Assumptions C12_partition_counters_partial.

(** ... and the unrestricted statement is false of the code: re-inserting an address with another
    partition does not update the counters. *)
Theorem C12_partition_counters_refuted : exists ops p,
  let r := fold_left rstep ops rt_empty in
  stat_of p (rt_stats r) <> count_in p (rt_src r) + count_in p (rt_dst r).
Proof. exists [RSrc (IStd (RA 0 7)) 1; RSrc (IStd (RA 0 7)) 2], 2. vm_compute. discriminate. Qed.
Print Assumptions C12_partition_counters_refuted.

Example C12_example :
  let ops := [RSrc (IStd (RA 0 7)) 1; RDst (IStd (RA (-1) 9)) 2; RDst (IStd (RA 0 7)) 0] in
  never_moving rt_empty ops /\
  let r := fold_left rstep ops rt_empty in
  get_partition r (Some (IStd (RA 0 7))) (IStd (RA (-1) 9)) = 2 /\
  get_partition r (Some (IStd (RA 0 7))) (IStd (RA 0 8)) = 1 /\
  get_partition r (Some (IStd (RA 0 5))) (IStd (RA 0 7)) = 0.
Proof. cbn. repeat split; try reflexivity; intros; discriminate. Qed.
