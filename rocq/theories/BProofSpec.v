(** * Block proofs: specification. *)
From Coq Require Import List NArith ZArith Bool Lia Permutation.
From Verif Require Import BProofModel.
Import ListNotations.
Open Scope N_scope.

Fixpoint wsum (l : list vdesc) : N := match l with [] => 0 | v :: r => vd_weight v + wsum r end.

(** The masterchain subset of a validator set: its first [main] members. *)
Definition mc_members (vs : vset) : list vdesc := firstn (vs_main vs) (vs_list vs).

(** [s] is a sub-collection of the members [l]: some of its positions, each at most once. *)
Inductive sub {A} : list A -> list A -> Prop :=
| sub_nil : sub [] []
| sub_take : forall x s l, sub s l -> sub (x :: s) (x :: l)
| sub_skip : forall x s l, sub s l -> sub s (x :: l).

Section Spec.
Variable body : N -> bbody.
Variable ext_check : list vdesc -> list (N * N) -> N * N -> option N.
Variable ext_subset : vset -> N -> bool -> option (list vdesc * N).
Variable sh_full sh_can_split : N -> bool.

(** [signed k d]: validator [k] signed the data [d] = (root hash, file hash). *)
Variable signed : N -> N * N -> Prop.

(** What is assumed of the two functions of tycho-types:
    the weight returned is that of distinct members with a valid signature
    (signatures cannot be forged); *)
Definition check_contract : Prop := forall l d data w, ext_check l d data = Some w ->
  exists s, sub s l /\ Forall (fun v => signed (vd_key v) data) s /\ w = wsum s.
(** the masterchain subset is a reordering of the first [main] validators,
    whatever the switch round. *)
Definition subset_contract : Prop := forall vs r sh l h, ext_subset vs r sh = Some (l, h) ->
  Permutation l (mc_members vs).

Definition data_of (p : bproof) : N * N := (id_root (pf_id p), id_file (pf_id p)).

(** More than two thirds of the weight of [vs] signed [d]. *)
Definition quorum_signed (vs : vset) (d : N * N) : Prop :=
  exists s, sub s (mc_members vs) /\ Forall (fun v => signed (vd_key v) d) s /\
            2 * wsum (mc_members vs) < 3 * wsum s.

(** The configuration of the zerostate and of the key blocks. *)
Definition info_of (d : N * N) : binfo := bb_info (body (fst d)).
Definition block_vset (d : N * N) : option vset :=
  match bb_extra (body (fst d)) with Some (Some c) => bc_vset c | _ => None end.
Definition state_vset (z : mstate) : option vset :=
  match ms_config z with Some c => bc_vset c | None => None end.

(** Proofs accepted from zerostate [z] on: each one checked against the
    zerostate or against an accepted proof of its previous key block. *)
Inductive accepted (z : mstate) : bproof -> Prop :=
| acc_state : forall p i,
    pre_check body sh_full sh_can_split p = Some i -> bi_prev_key i = id_seq (ms_id z) ->
    check_with_state body ext_check ext_subset p z i = true -> accepted z p
| acc_key : forall p kp i, accepted z kp ->
    pre_check body sh_full sh_can_split p = Some i ->
    check_with_key body ext_check ext_subset sh_full sh_can_split p kp i = true -> accepted z p.

(** Two signed blocks of one history: one block per seqno, no key block skipped. *)
Definition one_history (d1 d2 : N * N) : Prop :=
  (bi_seqno (info_of d1) = bi_seqno (info_of d2) -> d1 = d2) /\
  (bi_key (info_of d1) = true -> bi_seqno (info_of d1) < bi_seqno (info_of d2) ->
   bi_seqno (info_of d1) <= bi_prev_key (info_of d2)).

(** A validator that signs blocks of one history only. *)
Definition honest (k : N) : Prop := forall d1 d2, signed k d1 -> signed k d2 -> one_history d1 d2.

(** At most one third of the weight of [vs] is not honest. *)
Definition mostly_honest (vs : vset) : Prop := forall s, sub s (mc_members vs) ->
  Forall (fun v => ~ honest (vd_key v)) s -> 3 * wsum s <= wsum (mc_members vs).
End Spec.
