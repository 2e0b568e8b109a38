(** What the users of the peer schedule rely on, without the schedule's slots. *)
From Coq Require Import List Bool NArith Lia.
From Verif Require Import PsModel.
Import ListNotations.
Local Open Scope N_scope.

(** The epochs of the chain in order: epoch 0 is the genesis pseudo epoch, every later one
    starts after the one before it and has validators. *)
Definition timeline (T : nat -> epoch) : Prop :=
  forall i, e_start (T i) < e_start (T (S i)) /\ e_sub (T (S i)) <> [].

(** Round [r] belongs to epoch [i], as far as the epochs up to [k] tell. *)
Definition belongs (T : nat -> epoch) (k i : nat) (r : round) : Prop :=
  (i <= k)%nat /\ e_start (T i) <= r /\ ((i < k)%nat -> r < e_start (T (S i))).

Definition members (e : epoch) : list peer := map fst (e_sub e).

(** The epochs that a start tells a node about: genesis, the previous epoch if the current one
    began after genesis, and the current one; no epoch begins before the round after genesis. *)
Definition init_epochs (g : round) (author : peer) (ip : init_peers) : list epoch :=
  let clamp e := Epoch (N.max (e_start e) (g + 1)) (e_vset e) (e_sub e) in
  Epoch (g - 1) [] [(author, 0)] ::
  (if (g + 1 <? e_start (ip_curr ip)) && match e_sub (ip_prev ip) with [] => false | _ => true end
   then [clamp (ip_prev ip)] else []) ++
  [clamp (ip_curr ip)].

(** An epoch that a node does not have to know: older than genesis, or without validators. *)
Definition stale (T : nat -> epoch) (e : epoch) : Prop := e_start e <= e_start (T 0%nat) \/ e_sub e = [].

(** One update of the validators, to a node that was told the epochs up to [k]; it then knows the
    epochs up to [k']. Updates may repeat old ones, but they do not skip: a new epoch comes
    together with the one before it, and that one is known. *)
Inductive told (T : nat -> epoch) (k : nat) (ip : init_peers) : nat -> Prop :=
| told_old : (stale T (ip_prev ip) \/ exists j, (j <= k)%nat /\ ip_prev ip = T j) ->
             (stale T (ip_curr ip) \/ exists j, (j <= k)%nat /\ ip_curr ip = T j) -> told T k ip k
| told_new : ip_prev ip = T k -> ip_curr ip = T (S k) -> told T k ip (S k).

(** A history of everything that happens at a node: validator updates as above, and in any order
    and number the DAG reaching rounds, bans, the network resolving peers. *)
Inductive follows (T : nat -> epoch) : nat -> list op -> nat -> Prop :=
| f_nil k : follows T k [] k
| f_peers k k1 k2 net ip l : told T k ip k1 -> follows T k1 l k2 -> follows T k (OPeers net ip :: l) k2
| f_other k k2 o l : (forall net ip, o <> OPeers net ip) -> follows T k l k2 -> follows T k (o :: l) k2.

(** A node starts with some [init] call and lives through a history. *)
Definition lives (T : nat -> epoch) (g : round) (author local : peer) (k : nat) (x : ps) : Prop :=
  exists net ip x0 ops k0,
    init net g author ip (ps0 local) = Some x0 /\
    init_epochs g author ip = map T (seq 0 (S k0)) /\
    follows T k0 ops k /\ run x0 ops = Some x.

(** What a node that started late is told of a timeline: genesis, then epochs from [b] on. *)
Definition since (T : nat -> epoch) (b : nat) (n : nat) : epoch :=
  match n with O => T O | S m => T (b + m)%nat end.
