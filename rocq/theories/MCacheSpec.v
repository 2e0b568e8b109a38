(** * MCacheSpec: what the collator relies on from the mempool adapter's cache *)

From Coq Require Import List NArith Bool.
From Verif Require Import MCacheModel.
Import ListNotations.
Open Scope N_scope.

(** [mreach s H]: [s] is reachable, in any interleaving of writers, notifications and readers,
    and [H] is the chain of anchors the mempool has produced: accepted pushes in order, without
    those annulled by a reopening that drops data. The mempool produces anchors in ascending
    order, each naming its predecessor or nothing (the first after a start or a gap); it may
    produce again an anchor that is still cached. *)
Definition env (s : msys) (H : list manchor) (l : mstep) : Prop :=
  match l with
  | LPush a =>
      (exists b, In b (d_anchors (s_data s)) /\ m_id b = m_id a) \/
      ((forall b, In b H -> m_id b < m_id a) /\
       (m_prev a = None \/ exists H' b, H = H' ++ [b] /\ m_prev a = Some (m_id b)))
  | _ => True
  end.

Definition chain_next (s : msys) (H : list manchor) (l : mstep) : list manchor :=
  match l with
  | LPush a =>
      match lookup (m_id a) (d_anchors (s_data s)) with Some _ => H | None => H ++ [a] end
  | LReopen true =>
      match d_off (s_data s) with
      | Some after => filter (fun b => m_id b <=? after) H
      | None => H
      end
  | _ => H
  end.

Inductive mreach : msys -> list manchor -> Prop :=
| MR_init : mreach ms_init []
| MR_step s H l s' : mreach s H -> env s H l -> mexec s l = Some s' ->
    mreach s' (chain_next s H l).

(** An anchor a reader may see. *)
Definition visible (d : mdata) (id : N) : Prop :=
  match d_off d with Some after => id <= after | None => True end.

Definition cached (d : mdata) (a : manchor) : Prop := In a (d_anchors d).

(** The same anchor, as far as a repeated push is concerned. *)
Definition same_anchor (old new : manchor) : Prop :=
  m_ct old = m_ct new /\ m_exts old = m_exts new /\ m_author old = m_author new /\
  (m_prev new = None \/ m_prev old = m_prev new).

Definition done (p : phase) : bool := match p with PDone _ _ => true | _ => false end.
Definition req (p : phase) : request :=
  match p with PStart r | PSub r _ | PWait r _ | PDone r _ => r end.
