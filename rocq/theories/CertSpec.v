(** * Certificates: specification. *)
From Coq Require Import List NArith Bool.
From Verif Require Import CertModel.
Import ListNotations.
Open Scope N_scope.

(** [q] is found from [p] by following published dependencies [d] rounds back:
    one round for an include, two for a witness; only through points that satisfy [ok]. *)
Inductive back (log : list event) (ok : N -> Prop) (p : N) : N -> N -> Prop :=
| back_self : back log ok p p 0
| back_inc : forall q d i w r, back log ok p q d -> In (EDeps q i w) log -> In r i -> ok r -> back log ok p r (d + 1)
| back_wit : forall q d i w r, back log ok p q d -> In (EDeps q i w) log -> In r w -> ok r -> back log ok p r (d + 2).

(** [q] is at most [depth] rounds below a point proved directly. *)
Definition certified_by (depth : N) (log : list event) (ok : N -> Prop) (q : N) : Prop :=
  exists p d, In (ECertify p) log /\ back log ok p q d /\ d <= depth.

(** No call is under way. *)
Definition quiescent (s : state) : Prop := forall t, s_thr s t = TIdle.

(** A call under way on thread [t]: its own steps. *)
Definition own_step (t : N) (l : label) : Prop :=
  match l with LWrite t' | LComplete t' => t' = t | LTrav t' _ => t' = t | _ => False end.
