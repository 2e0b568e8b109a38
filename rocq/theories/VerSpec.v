(** Specification vocabulary for the point verifier, in words of points and their dependencies. *)
From Verif Require Import VerModel.
Local Open Scope N_scope.

(** the points a point depends on: one round back (includes), two rounds back (witness) *)
Definition dep_ids (i : info) : list pid :=
  map (fun e => mkPid (i_round i - 1) (snd e) (fst e)) (i_includes i) ++
  map (fun e => mkPid (i_round i - 2) (snd e) (fst e)) (i_witness i).

(** A set of at least two thirds of the peers of a round: with n peers, F = (n+1)/3 of 3F+1 may be faulty *)
Definition faults (n : N) : N := (n + 1) / 3.

(** What a verified point that is not the genesis looks like *)
Record proper (c : vconf) (peers : round -> list peer) (i : info) : Prop := {
  pr_after : 0 < c_genesis c /\ c_genesis c < i_round i;
  pr_role : i_role i <> Genesis;
  pr_author : In (i_author i) (peers (i_round i));
  (* enough distinct includes, all by peers of the previous round *)
  pr_inc_known : forall p d, In (p, d) (i_includes i) -> In p (peers (i_round i - 1));
  pr_inc_count : if i_round i - 1 =? c_genesis c
                 then N.of_nat (length (peers (i_round i - 1))) = 1 /\ 1 <= N.of_nat (length (i_includes i))
                 else 3 <= N.of_nat (length (peers (i_round i - 1))) /\
                      2 * faults (N.of_nat (length (peers (i_round i - 1)))) + 1 <= N.of_nat (length (i_includes i));
  pr_wit_known : forall p d, In (p, d) (i_witness i) -> In p (peers (i_round i - 2)) /\ p <> i_author i;
  pr_wit_none : i_round i - 1 = c_genesis c -> i_witness i = [];
  (* the previous point of the author is referenced iff it is proved by signatures of 2F other peers of the round *)
  pr_proved : (exists d, In (i_author i, d) (i_includes i)) <-> i_evidence i <> [];
  pr_evidence : forall p s, In (p, s) (i_evidence i) -> In p (peers (i_round i)) /\ p <> i_author i;
  pr_ev_count : i_evidence i <> [] ->
     3 <= N.of_nat (length (peers (i_round i))) /\
     2 * faults (N.of_nat (length (peers (i_round i)))) <= N.of_nat (length (i_evidence i));
  pr_time : i_atime i < i_time i;
  pr_payload : i_pbytes i <= c_payload c;
  (* a link leads strictly back, not across the genesis, and through a dependency *)
  pr_self : forall r, anchor_link r i = ToSelf -> exists d, In (i_author i, d) (i_includes i);
  pr_link : forall r, anchor_link r i <> ToSelf ->
     exists th to, anchor_through r i = Some th /\ In th (dep_ids i) /\ anchor_id r i = Some to /\
       p_round to = anchor_round r i /\ c_genesis c <= p_round to /\ p_round to <= p_round th /\
       (match anchor_link r i with Indirect _ => p_round to < p_round th | _ => to = th end) /\
       p_round th < i_round i;
  pr_chain : forall l, indirect_proof i = Some l -> p_round (il_to l) + 3 <= i_round i /\
     c_genesis c <= p_round (il_to l) /\
     exists th, through_id i (il_path l) = Some th /\ In th (dep_ids i) /\ p_round (il_to l) < p_round th;
  pr_sticky : forall n, sticky_anchors i = Some n -> n < c_sticky c }.

(** ** Histories of judgements *)
Definition info_of (v : verdict) : option info :=
  match v with VdValid i | VdTrans i _ | VdInvalid i _ => Some i | _ => None end.
(** the point was judged valid, or valid but for its dependencies *)
Definition passed (v : verdict) (i : info) : Prop := v = VdValid i \/ exists root, v = VdTrans i root.

Section Paths.
  Context (h : list entry).
  Definition judged (a : nat) (v : verdict) : Prop := exists e, nth_error h a = Some e /\ e_v e = v.
  (** judgement [a] of a point read judgement [b] of one of the point's dependencies, certified or not at that time *)
  Definition dep_read (a b : nat) (certified : bool) : Prop :=
    exists e i dp, nth_error h a = Some e /\ info_of (e_v e) = Some i /\
      In (b, dp) (e_deps e) /\ In (d_id dp) (dep_ids i) /\ d_cert dp = certified.
  (** or judgement [b] of the target of one of the point's links *)
  Definition link_read (a b : nat) (certified : bool) : Prop :=
    exists e dp, nth_error h a = Some e /\ In (b, dp) (e_inds e) /\ d_cert dp = certified.
  (** a chain of dependencies none of which was certified when it was read *)
  Inductive uncertified_path : nat -> nat -> Prop :=
  | up_one a b : dep_read a b false -> uncertified_path a b
  | up_cons a b d : dep_read a b false -> uncertified_path b d -> uncertified_path a d.
  (** a chain of dependencies, every point of which but the last one was judged to be right (passed) *)
  Inductive passed_path : nat -> nat -> Prop :=
  | pp_refl a : passed_path a a
  | pp_cons a b d v i cert : judged a v -> passed v i -> dep_read a b cert -> passed_path b d -> passed_path a d.
  (** a chain of dependencies and link targets none of which was certified when it was read *)
  Inductive blames : nat -> nat -> Prop :=
  | bl_one a b : dep_read a b false \/ link_read a b false -> blames a b
  | bl_cons a b d : dep_read a b false \/ link_read a b false -> blames b d -> blames a d.
  (** [n] steps to the previous points of the same author, each of the previous round and certified when it was read *)
  Inductive own_path : nat -> nat -> nat -> Prop :=
  | op_refl a : own_path 0 a a
  | op_cons n a b d i k vb : (exists v, judged a v /\ passed v i) -> dep_read a b true -> judged b vb -> info_of vb = Some k ->
      i_author k = i_author i -> i_round k + 1 = i_round i -> own_path n b d -> own_path (S n) a d.
End Paths.
(** the anchor proof a point takes over from its dependencies: a proof itself takes over the one it is chained to *)
Definition inherited (i : info) : option pid :=
  match i_role i with
  | Regular _ _ => anchor_id SProof i
  | AnchorProof l _ => Some (il_to l)
  | _ => None
  end.
(** what two results have in common when only the order of reads differs *)
Definition same_result (r r' : result) : Prop :=
  match r, r' with
  | RsIll e, RsIll e' => e = e'
  | RsInvalid _, RsInvalid _ => True
  | RsTrans v, RsTrans v' => p_round (il_to (v_link v)) = p_round (il_to (v_link v')) /\
                             has_dag_round (v_reason v) = has_dag_round (v_reason v')
  | RsValid, RsValid => True
  | _, _ => False
  end.
