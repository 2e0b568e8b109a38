(** * StatSpec: what the merged status of a point should be *)

From Coq Require Import List NArith Bool.
From Verif Require Import Bytes StatModel.
Import ListNotations.
Open Scope N_scope.

Definition u8 (n : N) : Prop := n < 256.
Definition u32 (n : N) : Prop := n < 2 ^ 32.

(** A status as the node makes it: integers in range, a commit at a non-zero round, a root cause
    and an author of the right length. *)
Definition commit_wf (c : option (N * N)) : Prop :=
  match c with Some (r, s) => 0 < r /\ u32 r /\ u32 s | None => True end.
Definition wf (s : status) : Prop :=
  match s with
  | SValid _ _ a c | SComm _ a c => u8 a /\ commit_wf c
  | STrans _ _ a c r => u8 a /\ commit_wf c /\ length r = 120%nat /\ bytes_ok r
  | SNotFound _ a => length a = 36%nat /\ bytes_ok a
  | _ => True
  end.

(** The kinds in the order of their priority, point_status/mod.rs:26-37. *)
Definition prio (s : status) : N :=
  match s with
  | SProven _ => 0 | SNotFound _ _ => 1 | SFound _ => 2 | SIll _ _ => 3 | SInvalid _ _ => 4
  | SComm _ _ _ => 5 | STrans _ _ _ _ _ => 6 | SValid _ _ _ _ => 7
  end.

Definition proof_of (s : status) : bool :=
  match s with
  | SValid _ p _ _ | STrans p _ _ _ _ | SComm p _ _ | SInvalid p _ | SIll p _ | SFound p | SNotFound p _ | SProven p => p
  end.
Definition first_of (s : status) : bool := match s with SValid f _ _ _ => f | _ => false end.
Definition dag_of (s : status) : bool := match s with STrans _ d _ _ _ | SInvalid _ d => d | _ => false end.
Definition final_of (s : status) : bool := match s with SIll _ f => f | _ => false end.
Definition anchor_of (s : status) : N := match s with SValid _ _ a _ | STrans _ _ a _ _ | SComm _ a _ => a | _ => 0 end.
Definition commit_of (s : status) : option (N * N) :=
  match s with SValid _ _ _ c | STrans _ _ _ c _ | SComm _ _ c => c | _ => None end.
Definition root_of (s : status) : option bytes := match s with STrans _ _ _ _ r => Some r | _ => None end.
Definition author_of (s : status) : option bytes := match s with SNotFound _ a => Some a | _ => None end.

(** Commits in the order of their anchor and place in it, none before all. *)
Definition commit_le (a b : option (N * N)) : Prop :=
  match a, b with
  | None, _ => True
  | Some _, None => False
  | Some (r, s), Some (r', s') => r < r' \/ r = r' /\ s <= s'
  end.

(** The status with everything the node decides on, without the root cause and the author. *)
Definition strip (s : status) : status :=
  match s with
  | STrans p d a c _ => STrans p d a c []
  | SNotFound p _ => SNotFound p []
  | s => s
  end.
