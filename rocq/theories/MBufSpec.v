(** * MBufSpec: what the collator relies on in its message buffers and groups *)

From Coq Require Import List NArith ZArith Bool PeanoNat Permutation.
From Verif Require Import AMap MBufModel.
Import ListNotations.

(** ** Observations *)

(** The messages of an account in a map, in order. *)
Definition of_acc (a : N) (m : amap N (list msg)) : list msg :=
  match mget a m with Some l => l | None => [] end.

(** The messages waiting for an account in a buffer; those collected for it in a group. *)
Definition waiting (a : N) (b : buffer) : list msg := of_acc a (b_msgs b).
Definition collected (a : N) (g : group) : list msg := of_acc a (g_msgs g).

(** All messages of a map. *)
Definition all_msgs (m : amap N (list msg)) : list msg := concat (map snd m).

Definition nint (l : list msg) : nat := length (filter is_int l).
Definition next (l : list msg) : nat := length (filter is_ext l).

(** ** A buffer between two calls *)
Record wf_buffer (b : buffer) : Prop := {
  wb_keys : NoDup (akeys (b_msgs b));
  (* no empty account, every message in the queue of its account *)
  wb_acc : forall a l, mget a (b_msgs b) = Some l -> l <> [] /\ Forall (fun m => m_acc m = a) l;
  (* the counters are the numbers of messages *)
  wb_int : b_int b = Z.of_nat (nint (all_msgs (b_msgs b)));
  wb_ext : b_ext b = Z.of_nat (next (all_msgs (b_msgs b)));
  (* the least chain time is a lower bound *)
  wb_min : forall m ct, In m (all_msgs (b_msgs b)) -> m_ext m = Some ct ->
           exists c, b_min b = Some c /\ (c <= ct)%N }.

Fixpoint sum_over (f : N -> nat) (l : list N) : nat :=
  match l with [] => 0 | a :: t => f a + sum_over f t end.

(** ** A group between two calls: [V] is the greatest number of messages in a slot *)
Record wf_group (V : nat) (g : group) : Prop := {
  wg_keys : NoDup (akeys (g_msgs g));
  wg_acc : forall a l, mget a (g_msgs g) = Some l -> l <> [] /\ Forall (fun m => m_acc m = a) l;
  wg_slots : NoDup (akeys (g_slots g));
  (* every slot: different accounts, exact counters, not empty, not over the limit *)
  wg_slot : forall id s, sget id (g_slots g) = Some s ->
            NoDup (s_accs s) /\
            s_int s = sum_over (fun a => nint (collected a g)) (s_accs s) /\
            s_ext s = sum_over (fun a => next (collected a g)) (s_accs s) /\
            1 <= s_count s <= V;
  (* every account is in one slot *)
  wg_in : forall a, In a (akeys (g_msgs g)) <->
                    exists id s, sget id (g_slots g) = Some s /\ In a (s_accs s);
  wg_once : forall a i j s t, sget i (g_slots g) = Some s -> sget j (g_slots g) = Some t ->
            In a (s_accs s) -> In a (s_accs t) -> i = j;
  (* totals *)
  wg_int : g_int g = Z.of_nat (nint (all_msgs (g_msgs g)));
  wg_ext : g_ext g = Z.of_nat (next (all_msgs (g_msgs g)));
  (* new slots get new ids; the index finds every slot at its count *)
  wg_last : forall id, In id (akeys (g_slots g)) -> exists l, g_last g = Some l /\ id <= l;
  wg_index : forall id s, sget id (g_slots g) = Some s -> In id (nth (s_count s) (g_index g) []);
  wg_index_ids : forall id n, In id (nth n (g_index g) []) -> In id (akeys (g_slots g)) }.

(** ** A call of [fill_message_group] *)

(** An account that may not be touched: reported before, or refused by the caller's check. *)
Definition refused (skipped : list N) (chk : N -> bool) (a : N) : Prop := In a skipped \/ chk a = true.

Definition keep (fl : filt) (m : msg) : bool := negb (should_skip fl m).

(** For one account: a prefix of the waiting messages, without the expired ones, is appended to
    the group; the others stay, in order, perhaps without the expired ones. *)
Definition account_moved (fl : filt) (refused_ : Prop) (w g w' g' : list msg) : Prop :=
  exists p r, w = p ++ r /\ g' = g ++ filter (keep fl) p /\
              (w' = r \/ w' = filter (keep fl) r) /\ (refused_ -> p = []).

(** The slot of an account is full. *)
Definition in_full_slot (V : nat) (a : N) (g : group) : Prop :=
  exists id s, sget id (g_slots g) = Some s /\ In a (s_accs s) /\ s_count s = V.

(** ** Histories of one buffer *)
Inductive bop :=
| OAdd (m : msg)
| OFill (fl : filt) (chk : N -> bool) (slots_count V : nat) (skipped : list N) (g : group)
| ORemove (rm : N -> bool).

(** One step: the buffer afterwards, and what was put into a group for each account. *)
Definition bstep (b : buffer) (o : bop) : option buffer :=
  match o with
  | OAdd m => Some (add_message m b)
  | OFill fl chk n V sk g => match fill fl chk n V sk g b with Some r => Some (r_buf r) | None => None end
  | ORemove rm => Some (remove_int_messages rm b)
  end.
Fixpoint brun (b : buffer) (os : list bop) : option buffer :=
  match os with
  | [] => Some b
  | o :: t => match bstep b o with Some b' => brun b' t | None => None end
  end.

(** An operation used as intended: groups are well formed, only internal messages are removed. *)
Definition op_ok (b : buffer) (o : bop) : Prop :=
  match o with
  | OAdd _ => True
  | OFill _ _ _ V _ g => 1 <= V /\ wf_group V g
  | ORemove rm => forall a m, rm a = true -> In m (waiting a b) -> is_int m = true
  end.
Fixpoint run_ok (b : buffer) (os : list bop) : Prop :=
  match os with
  | [] => True
  | o :: t => op_ok b o /\ forall b', bstep b o = Some b' -> run_ok b' t
  end.

(** A history seen by one account: what was added for it and what groups got for it, in order. *)
Inductive account_run (a : N) (b : buffer) : list msg -> list msg -> buffer -> Prop :=
| AR_start : account_run a b [] [] b
| AR_add added out b1 m : account_run a b added out b1 ->
    account_run a b (added ++ if N.eqb a (m_acc m) then [m] else []) out (add_message m b1)
| AR_fill added out b1 fl chk n V sk g r c : account_run a b added out b1 ->
    1 <= V -> wf_group V g -> fill fl chk n V sk g b1 = Some r ->
    collected a (r_group r) = collected a g ++ c ->
    account_run a b added (out ++ c) (r_buf r)
| AR_remove added out b1 rm : account_run a b added out b1 ->
    (forall k m, rm k = true -> In m (waiting k b1) -> is_int m = true) -> rm a = false ->
    account_run a b added out (remove_int_messages rm b1).

(** [thinned k l]: [k] is [l] without some external messages. *)
Inductive thinned : list msg -> list msg -> Prop :=
| Th_nil : thinned [] []
| Th_keep m k l : thinned k l -> thinned (m :: k) (m :: l)
| Th_drop m k l : is_ext m = true -> thinned k l -> thinned k (m :: l).
