(** Limits of queries between mempool peers.

    Models consensus/src/intercom/core/query/token_bucket.rs, permit.rs, bcast_rate_limit.rs and
    download_rate_limit.rs (UploaderLimits). An instant is a number of nanoseconds; instants are
    those read by the calls, in the order of the calls under the lock of the entry (they need not be
    sorted). A permit counter is an object with a number, since permits outlive a removed entry. Each
    call is one step: the entry of the map is locked; the counter of permits is one atomic operation
    inside it, and the drop of a permit is one too. [now + window] does not overflow. *)
From Coq Require Import List Bool NArith Lia.
Import ListNotations.
Local Open Scope N_scope.

(** token_bucket.rs 3-8 *)
Record config := Cfg { window : N; tokens : N; soft_rejects : N }.
(** token_bucket.rs 39-42 *)
Record bucket := Bk { next_refill : N; left_tokens : N }.
(** token_bucket.rs 10-13 *)
Record soft := Soft { s_bucket : bucket; soft_rejected : N }.

(** token_bucket.rs 45-50 *)
Definition bucket_new (now : N) (c : config) : bucket := Bk (now + window c) (tokens c).
(** token_bucket.rs 52-63 *)
Definition passes (c : config) (now : N) (b : bucket) : bool * bucket :=
  let b := if next_refill b <=? now then Bk (now + window c) (tokens c) else b in
  if 0 <? left_tokens b then (true, Bk (next_refill b) (left_tokens b - 1)) else (false, b).

(** token_bucket.rs 16-21 *)
Definition soft_new (now : N) (c : config) : soft := Soft (bucket_new now c) 0.
(** [Ok(true)], [Ok(false)], [Err(())] *)
Inductive verdict := Pass | SoftReject | HardReject.
(** token_bucket.rs 23-33 *)
Definition allows (c : config) (now : N) (s : soft) : verdict * soft :=
  let '(ok, b) := passes c now (s_bucket s) in
  if ok then (Pass, Soft b 0)
  else if soft_rejected s <? soft_rejects c then (SoftReject, Soft b (soft_rejected s + 1))
  else (HardReject, Soft b (soft_rejected s)).

(** answers of a bucket to calls at the given instants *)
Fixpoint pass_run (c : config) (b : bucket) (l : list N) : list bool :=
  match l with [] => [] | now :: r => let '(ok, b) := passes c now b in ok :: pass_run c b r end.
Fixpoint allow_run (c : config) (s : soft) (l : list N) : list verdict :=
  match l with [] => [] | now :: r => let '(v, s) := allows c now s in v :: allow_run c s r end.
Fixpoint pass_after (c : config) (b : bucket) (l : list N) : bucket :=
  match l with [] => b | now :: r => pass_after c (snd (passes c now b)) r end.
Fixpoint allow_after (c : config) (s : soft) (l : list N) : soft :=
  match l with [] => s | now :: r => allow_after c (snd (allows c now s)) r end.

(** ** Limits of a peer *)

(** [ReceiverLimit] and [SenderLimit]; a sender does not use [soft_rejected]. bcast_rate_limit.rs 24-28, 86-90.
    UploaderLimits has no buckets but [e_rej], download_rate_limit.rs 63-66. *)
Record entry := En { e_bcast : soft; e_sig : soft; e_obj : N; e_rej : N }.
Record limits := Lims { l_map : list (N * entry); l_left : list (N * N); l_next : N; l_held : list N }.

Record lconf := LC { lc_bcast : config; lc_sig : config; lc_permits : N; lc_upload : N }.
Definition lookup {A} (p : N) (m : list (N * A)) : option A := option_map snd (find (fun e => fst e =? p) m).
Definition set {A} (p : N) (a : A) (m : list (N * A)) : list (N * A) := (p, a) :: filter (fun e => negb (fst e =? p)) m.
Definition lims_new : limits := Lims [] [] 0 [].

(** the kinds of calls: [Upload] is UploaderLimits::try_acquire *)
Inductive kind := Bcast | Sig | Upload.
Inductive answer := Granted (obj : N) | Soft_ | Hard_.
(** [or_insert_with]: bcast_rate_limit.rs 42, 54, 63-69 and 104, 114, 122-128; download_rate_limit.rs 86-89 *)
Definition with_entry (lc : lconf) (now : N) (k : kind) (p : N) (x : limits) : limits * entry :=
  match lookup p (l_map x) with
  | Some e => (x, e)
  | None =>
      let e := En (soft_new now (lc_bcast lc)) (soft_new now (lc_sig lc)) (l_next x) 0 in
      (Lims (set p e (l_map x)) (set (l_next x) (match k with Upload => lc_upload lc | _ => lc_permits lc end) (l_left x)) (l_next x + 1) (l_held x), e)
  end.
(** permit.rs 14-23 *)
Definition try_acquire (o : N) (x : limits) : option limits :=
  match lookup o (l_left x) with
  | Some n => if 0 <? n then Some (Lims (l_map x) (set o (n - 1) (l_left x)) (l_next x) (o :: l_held x)) else None
  | None => None
  end.
Definition put (p : N) (e : entry) (x : limits) : limits := Lims (set p e (l_map x)) (l_left x) (l_next x) (l_held x).

(** bcast_rate_limit.rs 39-61 *)
Definition receive (lc : lconf) (k : kind) (p now : N) (x : limits) : answer * limits :=
  let '(x, e) := with_entry lc now k p x in
  let acquire x := match try_acquire (e_obj e) x with Some x => (Granted (e_obj e), x) | None => (Soft_, x) end in
  match k with
  | Bcast =>
      let '(v, s) := allows (lc_bcast lc) now (e_bcast e) in
      let x := put p (En s (e_sig e) (e_obj e) (e_rej e)) x in
      match v with Pass => acquire x | SoftReject => (Soft_, x) | HardReject => (Hard_, x) end
  | Sig =>
      let '(v, s) := allows (lc_sig lc) now (e_sig e) in
      let x := put p (En (e_bcast e) s (e_obj e) (e_rej e)) x in
      match v with Pass => acquire x | SoftReject => (Soft_, x) | HardReject => (Hard_, x) end
  | Upload =>
      (* download_rate_limit.rs 77-103 *)
      match try_acquire (e_obj e) x with
      | Some x => (Granted (e_obj e), put p (En (e_bcast e) (e_sig e) (e_obj e) 0) x)
      | None =>
          if e_rej e <? lc_upload lc then (Soft_, put p (En (e_bcast e) (e_sig e) (e_obj e) (e_rej e + 1)) x) else (Hard_, x)
      end
  end.
(** bcast_rate_limit.rs 101-120: [Err] is [Hard_]; only the bucket is used *)
Definition send (lc : lconf) (k : kind) (p now : N) (x : limits) : answer * limits :=
  let '(x, e) := with_entry lc now k p x in
  let acquire x := match try_acquire (e_obj e) x with Some x => (Granted (e_obj e), x) | None => (Hard_, x) end in
  match k with
  | Bcast =>
      let '(ok, b) := passes (lc_bcast lc) now (s_bucket (e_bcast e)) in
      let x := put p (En (Soft b 0) (e_sig e) (e_obj e) (e_rej e)) x in
      if ok then acquire x else (Hard_, x)
  | _ =>
      let '(ok, b) := passes (lc_sig lc) now (s_bucket (e_sig e)) in
      let x := put p (En (e_bcast e) (Soft b 0) (e_obj e) (e_rej e)) x in
      if ok then acquire x else (Hard_, x)
  end.

Fixpoint rm1 (o : N) (l : list N) : list N := match l with [] => [] | x :: r => if x =? o then r else x :: rm1 o r end.
(** permit.rs 27-31: the addition wraps in [u8] *)
Definition drop_permit (o : N) (x : limits) : limits :=
  Lims (l_map x) (match lookup o (l_left x) with Some n => set o ((n + 1) mod 256) (l_left x) | None => l_left x end) (l_next x) (rm1 o (l_held x)).
(** bcast_rate_limit.rs 71-75, 130-134; download_rate_limit.rs 105-109 *)
Definition remove (ps : list N) (x : limits) : limits :=
  Lims (filter (fun e => negb (existsb (N.eqb (fst e)) ps)) (l_map x)) (l_left x) (l_next x) (l_held x).

(** a use of one of the maps: [side]: the receiver's or the sender's *)
Inductive event := ECall (k : kind) (p now : N) | EDrop (o : N) | ERemove (ps : list N).
Inductive side := Receiver | Sender.
Definition kind_ok (u : bool) (k : kind) : bool := match k with Upload => u | _ => negb u end.
Definition step (d : side) (lc : lconf) (x : limits) (e : event) : limits * option answer :=
  match e with
  | ECall k p now => let '(a, x) := match d with Receiver => receive lc k p now x | Sender => send lc k p now x end in (x, Some a)
  | EDrop o => (drop_permit o x, None)
  | ERemove ps => (remove ps x, None)
  end.
(** [u]: the map is UploaderLimits; a permit is dropped only if held *)
Definition enabled (u : bool) (x : limits) (e : event) : bool :=
  match e with ECall k _ _ => kind_ok u k | EDrop o => existsb (N.eqb o) (l_held x) | ERemove _ => true end.
(** the history of calls and answers *)
Inductive runs (d : side) (u : bool) (lc : lconf) : list (event * option answer) -> limits -> Prop :=
| t_nil : runs d u lc [] lims_new
| t_snoc l x e x' a : runs d u lc l x -> enabled u x e = true -> step d lc x e = (x', a) -> runs d u lc (l ++ [(e, a)]) x'.

(** bcast_rate_limit.rs 141-161; the product and the doubling fit: [min_sign_attempts] is [u8] *)
Definition bcast_config (min_sign_attempts broadcast_retry_millis : N) : config :=
  Cfg (min_sign_attempts * broadcast_retry_millis * 1000000) (min_sign_attempts * 2) (min_sign_attempts * 2).
Definition sig_config (min_sign_attempts broadcast_retry_millis : N) : config :=
  let b := bcast_config min_sign_attempts broadcast_retry_millis in Cfg (window b) (tokens b * 2) (soft_rejects b * 2).
