(** Specification vocabulary for the points a node produces (C73, C74). *)
From Verif Require Import VerModel VerSpec ProdModel.
Local Open Scope N_scope.

(** the validator sets of the rounds around the point have legal sizes; the genesis has one peer *)
Definition legal_sets (c : vconf) (peers : round -> list peer) (r : round) : Prop :=
  forall q, q <= r -> r <= q + 2 ->
    (q = c_genesis c -> length (peers q) = 1%nat) /\
    (c_genesis c < q -> 3 <= N.of_nat (length (peers q)) /\ N.of_nat (length (peers q)) <= 253).

(** a verified point of [p] at round [q]; its time is not the last representable one *)
Record point_at (c : vconf) (peers : round -> list peer) (q : round) (p : peer) (k : info) : Prop := {
  pa_author : i_author k = p;
  pa_round : i_round k = q;
  pa_member : In p (peers q);
  pa_verified : basic_verify c peers k = VOk;
  pa_types : info_ok k;
  pa_time : i_time k < u64_max }.

(** what the dag offers to the producer: it is scheduled, the points are verified ones of the right rounds, each dated at
    most the allowed skew ahead of the node's clock *)
Record head_ok (c : vconf) (peers : round -> list peer) (hd : phead) (me : peer) : Prop := {
  ho_me : hd_me hd = Some me;
  ho_member : In me (peers (hd_round hd));
  ho_genesis : 0 < c_genesis c /\ c_genesis c < hd_round hd /\ hd_round hd <= u32_max;
  ho_sets : legal_sets c peers (hd_round hd);
  ho_types : hd_now hd <= u64_max /\ c_sticky c <= 255;
  ho_count : hd_count hd = if hd_round hd - 1 =? c_genesis c then 0
                           else faults (N.of_nat (length (peers (hd_round hd - 1))));
  ho_reached : forall p k, In (p, k) (hd_reached hd) -> point_at c peers (hd_round hd - 1) p k;
  ho_reached_once : NoDup (map fst (hd_reached hd));
  ho_signed : forall locs p k, hd_locs hd = Some locs -> In (p, Some k) locs ->
      point_at c peers (hd_round hd - 2) p k /\ c_genesis c < hd_round hd - 1;
  ho_locs_once : forall locs, hd_locs hd = Some locs -> NoDup (map fst locs);
  ho_skew : forall k, (exists p, In (p, k) (hd_reached hd)) \/
      (exists locs p, hd_locs hd = Some locs /\ In (p, Some k) locs) -> i_time k <= hd_now hd + c_skew c }.

(** what the node remembers of its last point: signatures come from other peers of the current round, one each; its own
    point of the round before the last, when signed, is included in its last point *)
Record last_ok (c : vconf) (peers : round -> list peer) (hd : phead) (me : peer) (l : lastown) : Prop := {
  la_signers : lo_signers l = faults (N.of_nat (length (peers (hd_round hd))));
  la_evidence : forall p s, In (p, s) (lo_evidence l) -> In p (peers (hd_round hd)) /\ p <> me;
  la_evidence_once : NoDup (map fst (lo_evidence l));
  la_own : forall locs k, hd_locs hd = Some locs -> In (me, Some k) locs -> exists d, In (me, d) (lo_includes l);
  la_point : forall k, In (me, k) (hd_reached hd) -> i_digest k = lo_digest l -> lo_sticky l = sticky_anchors k }.
(** only the last point of the previous round matters *)
Definition memory_ok (c : vconf) (peers : round -> list peer) (hd : phead) (me : peer) (last : option lastown) : Prop :=
  forall l, last = Some l -> lo_round l = hd_round hd - 1 -> last_ok c peers hd me l.

(** the dependencies of a produced point *)
Definition used (last : option lastown) (me : peer) (hd : phead) (k : info) : Prop :=
  (exists p, In (p, k) (hd_reached hd)) \/ (exists p, In (p, k) (witness_of last me hd)).

(** ** Validity *)
(** when the node's previous point is an anchor proof, no other point of that round is one *)
Definition no_rival (hd : phead) (me : peer) : Prop :=
  forall k, In (me, k) (hd_reached hd) -> anchor_proof k = ToSelf ->
  forall p j, In (p, j) (hd_reached hd) -> anchor_round SProof j = hd_round hd - 1 -> p = me.
(** in the judge's history an id stands for one point *)
Definition ids_bind (h : list entry) : Prop :=
  forall a b v w i j, judged h a v -> judged h b w -> info_of v = Some i -> info_of w = Some j -> i_id i = i_id j -> i = j.
(** no invalid point under judgement [a] *)
Definition clean (h : list entry) (a : nat) : Prop :=
  forall z j r, passed_path h a z -> ~ judged h z (VdInvalid j r).
