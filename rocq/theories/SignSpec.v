(** * SignSpec: what the signatures of a node promise *)

From Coq Require Import List NArith Bool.
From Verif Require Import SignModel.
Import ListNotations.
Open Scope N_scope.

(** Any history of one location, with restarts at any point. *)
Inductive reach (rnd skew : N) (tm : N -> N) : loc -> Prop :=
| R_init : reach rnd skew tm loc_init
| R_step l s l' : reach rnd skew tm l -> exec rnd skew tm l s = Some l' -> reach rnd skew tm l'.

(** No valid point has taken the location without its status being stored yet. *)
Definition settled (l : loc) : Prop :=
  forall d v fr fv, t_get d (l_tasks l) = Some (THalf v fr fv) \/ t_get d (l_tasks l) = Some (TAcq v fr fv) ->
    v_valid v = false.

(** Histories in which the process stops only in settled states. *)
Inductive clean_reach (rnd skew : N) (tm : N -> N) : loc -> Prop :=
| CR_init : clean_reach rnd skew tm loc_init
| CR_step l s l' : clean_reach rnd skew tm l ->
    (forall f b, s = LRestart f b -> settled l) ->
    exec rnd skew tm l s = Some l' -> clean_reach rnd skew tm l'.

(** The node has signed [d] in its [n]th run. *)
Definition signed (l : loc) (n : nat) (d : N) : Prop := In (n, d) (l_log l).

(** A call made since the last start has answered. *)
Definition answered (l : loc) (b : bool) : Prop := In (CRet (Some b)) (l_calls l).

(** Stored as the first valid point of its location. *)
Definition stored_first (l : loc) (d : N) : Prop :=
  exists r, db_get d (l_db l) = Some r /\ r_kind r = KValid /\ r_first r = true.


(** The steps a run of the node may attempt in a state: those of its tasks and calls. An attempt
    that fails is a panic. *)
Definition enabled (l : loc) (s : label) : Prop :=
  match s with
  | LNew d => t_get d (l_tasks l) = None
  | LFound d => t_get d (l_tasks l) = Some TWork
  | LAcq1 d v => t_get d (l_tasks l) = Some TWork /\ verdict_ok v = true
  | LAcq2 d => exists v fr fv, t_get d (l_tasks l) = Some (THalf v fr fv)
  | LStore d => exists v fr fv, t_get d (l_tasks l) = Some (TAcq v fr fv)
  | LResolve d => exists v fr fv, t_get d (l_tasks l) = Some (TStored v fr fv)
  | LMove n => exists c, nth_error (l_calls l) n = Some c /\ forall r, c <> CRet r
  | LProof _ | LCommit _ | LSign _ _ _ | LReject | LRestart _ _ => True
  end.
