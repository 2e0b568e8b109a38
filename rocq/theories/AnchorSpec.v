(** * AnchorSpec: what the users of the anchors cache rely on *)

From Coq Require Import List NArith Bool Sorted.
From Verif Require Import AnchorModel.
Import ListNotations.
Open Scope N_scope.

(** ** Transactions *)

(** What a collation attempt may do with the cache. *)
Inductive txop := TPop | TAbove (ct : N).

(** The same calls made in a transaction and made directly on the cache; the anchors popped, in
    order. *)
Fixpoint run_tx (ops : list txop) (t : tx) : tx * list anchor :=
  match ops with
  | [] => (t, [])
  | TPop :: r =>
      let '(t1, res) := tx_pop t in
      let '(t2, out) := run_tx r t1 in
      (t2, match res with Some (_, a) => a :: out | None => out end)
  | TAbove ct :: r => run_tx r (tx_above ct t)
  end.
Fixpoint run_plain (ops : list txop) (c : acache) : acache * list anchor :=
  match ops with
  | [] => (c, [])
  | TPop :: r =>
      let '(c1, res) := pop_front c in
      let '(c2, out) := run_plain r c1 in
      (c2, match res with Some (_, a) => a :: out | None => out end)
  | TAbove ct :: r => run_plain r (fst (remove_above ct c))
  end.

(** ** The mempool's anchors *)

(** Ids and chain times grow together along the chain; ids are positive. *)
Definition chain (M : list anchor) : Prop :=
  StronglySorted (fun a b => a_id a < a_id b /\ a_ct a < a_ct b) M /\
  Forall (fun a => 0 < a_id a) M.

(** ** Histories of the cache *)

(** Any history: successful or failing imports of either kind, pops, cuts, resets on a new
    genesis (mod.rs:431-476; [g] is the dummy anchor at the genesis round, without externals),
    committed or abandoned transactions. *)
Inductive reach (M : list anchor) : acache -> Prop :=
| R_empty : reach M ac_empty
| R_next c ok : reach M c -> reach M (fst (import_next M ok c))
| R_pop c : reach M c -> reach M (fst (pop_front c))
| R_above c ct : reach M c -> reach M (fst (remove_above ct c))
| R_init c fuel ok p off B cur : reach M c -> (length M < fuel)%nat ->
    reach M (snd (fst (fst (import_init fuel M ok p off B cur c))))
| R_genesis c g : reach M c -> In g M -> a_our g = 0 ->
    reach M (add_info (info_of g 0) (clear c))
| R_clear c : reach M c -> reach M (clear c)
| R_tx c ops (done : bool) : reach M c ->
    reach M (tx_drop (if done then tx_commit (fst (run_tx ops (tx_new c)))
                      else fst (run_tx ops (tx_new c)))).

(** Some imported anchor is not younger than [ct]. *)
Definition covered (ct : N) (c : acache) : Prop := exists i, In i (ac_hist c) /\ i_ct i <= ct.

(** All the cuts of a transaction are at covered times. *)
Fixpoint covered_ops (ops : list txop) (c : acache) : Prop :=
  match ops with
  | [] => True
  | TPop :: r => covered_ops r (fst (pop_front c))
  | TAbove ct :: r => covered ct c /\ covered_ops r (fst (remove_above ct c))
  end.

(** Collation between two initial imports: [flow M c out c'] says that [c'] follows [c] and the
    anchors in [out] were taken for good, in this order. *)
Inductive flow (M : list anchor) (c : acache) : list anchor -> acache -> Prop :=
| F_start : flow M c [] c
| F_next out d ok : flow M c out d -> flow M c out (fst (import_next M ok d))
| F_pop out d d' k a : flow M c out d -> pop_front d = (d', Some (k, a)) ->
    flow M c (out ++ [a]) d'
| F_above out d ct : flow M c out d -> covered ct d -> flow M c out (fst (remove_above ct d))
| F_commit out d ops : flow M c out d -> covered_ops ops d ->
    flow M c (out ++ snd (run_tx ops (tx_new d)))
             (tx_drop (tx_commit (fst (run_tx ops (tx_new d)))))
| F_abandon out d ops : flow M c out d ->
    flow M c out (tx_drop (fst (run_tx ops (tx_new d)))).

(** The anchors waiting in the cache. *)
Definition waiting (c : acache) : list anchor := map c_anchor (ac_cache c).

(** The anchors of [M] with externals for this shard, with ids in the given range. *)
Definition ours (M : list anchor) (above upto : N) : list anchor :=
  filter (fun a => (0 <? a_our a) && (above <? a_id a) && (a_id a <=? upto)) M.

(** The outcome of an initial import and the cache it leaves. *)
Definition res_state (r : iout * acache * list source * N) : acache := snd (fst (fst r)).
Definition res_out (r : iout * acache * list source * N) : iout := fst (fst (fst r)).
