(** The limiter of requests of addresses (GCRA with a cooldown).

    Models util/src/rate_limit.rs. Times are milliseconds. A call of [check] is one step here; what
    concurrent calls do is in GcConc. The limit of a class is always the same, as in both users
    (rpc/src/endpoint/rate_limits.rs 59-67, core/src/blockchain_rpc/rate_limits.rs 63-74), so that it
    does not matter that a bucket keeps the limit of its first use. *)
From Coq Require Import List Bool NArith Lia.
Import ListNotations.
Local Open Scope N_scope.

Definition key := N.
Definition class := N.
Definition u64_max : N := 18446744073709551615.
Definition sat_add (a b : N) : N := N.min (a + b) u64_max.

(** rate_limit.rs 13-33, 290-305: rate per second and burst, both not zero and [u32]; [div_ceil] *)
Record traffic := Traffic { rate_per_sec : N; burst : N }.
Definition interval_of (l : traffic) : N := let r := N.min (rate_per_sec l) 1000 in N.max ((1000 + r - 1) / r) 1.
Definition tolerance_of (l : traffic) : N := N.min (interval_of l * (burst l - 1)) u64_max.

(** rate_limit.rs 35-65: after [normalize] *)
Record config := GCfg { g_rejects : N; g_cooldown : N; g_prune : N; g_ttl : N }.
Definition normalize (c : config) : config :=
  GCfg (N.max (N.min (g_rejects c) 254) 1) (g_cooldown c) (if g_prune c =? 0 then 1000 else g_prune c) (if g_ttl c =? 0 then 1000 else g_ttl c).

(** [AtomicBucket::try_claim], rate_limit.rs 307-330, not interrupted: [inl after] or the new time *)
Definition try_claim (l : traffic) (tat now : N) : N + N :=
  let allowed_at := tat - tolerance_of l in
  if now <? allowed_at then inl allowed_at else inr (sat_add (N.max tat now) (interval_of l)).

(** [PeerLimiter], rate_limit.rs 180-201 *)
Record peer := Peer { p_tat : class -> N; p_rejects : N; p_cooldown : N; p_seen : N }.
Definition peer_new (now : N) : peer := Peer (fun _ => 0) 0 0 now.
Inductive verdict := Allow | Reject (retry_after : N).
Definition upd {A} (k : N) (a : A) (f : N -> A) : N -> A := fun x => if x =? k then a else f x.

(** rate_limit.rs 203-238, 252-264 *)
Definition peer_check (lim : class -> traffic) (c : config) (cl : class) (now : N) (p : peer) : verdict * peer :=
  if now <? p_cooldown p then (Reject (p_cooldown p - now), Peer (p_tat p) (p_rejects p) (p_cooldown p) now)
  else match try_claim (lim cl) (p_tat p cl) now with
       | inr tat => (Allow, Peer (upd cl tat (p_tat p)) 0 (p_cooldown p) now)
       | inl after =>
           let rejects := N.min (p_rejects p + 1) 255 in
           let p := if g_rejects c <=? rejects then Peer (p_tat p) 0 (N.max (p_cooldown p) (sat_add now (g_cooldown c))) now
                    else Peer (p_tat p) ((p_rejects p + 1) mod 256) (p_cooldown p) now in
           (Reject (if now <? p_cooldown p then p_cooldown p - now else after - now), p)
       end.
(** rate_limit.rs 266-273 *)
Definition is_expired (c : config) (now : N) (p : peer) : bool := g_ttl c <=? now - p_seen p.
Definition in_cooldown (now : N) (p : peer) : bool := now <? p_cooldown p.

(** [RateLimiterInner], rate_limit.rs 97-101 *)
Record limiter := Lim { l_states : key -> option peer; l_last_prune : N }.
Definition limiter_new (now : N) : limiter := Lim (fun _ => None) now.
(** rate_limit.rs 153-177 *)
Definition maybe_prune (c : config) (now : N) (x : limiter) : limiter :=
  if now - l_last_prune x <? g_prune c then x
  else Lim (fun k => match l_states x k with
                     | Some p => if in_cooldown now p || negb (is_expired c now p) then Some p else None
                     | None => None
                     end) now.
(** rate_limit.rs 131-151 *)
Definition get_peer (c : config) (k : key) (now : N) (x : limiter) : peer :=
  match l_states x k with
  | Some p => if is_expired c now p then peer_new now else p
  | None => peer_new now
  end.
(** rate_limit.rs 122-129 *)
Definition check (lim : class -> traffic) (c : config) (k : key) (cl : class) (now : N) (x : limiter) : verdict * limiter :=
  let x := maybe_prune c now x in
  let '(v, p) := peer_check lim c cl now (get_peer c k now x) in
  (v, Lim (upd k (Some p) (l_states x)) (l_last_prune x)).

(** a call: key, class, time *)
Definition call := (key * class * N)%type.
Fixpoint check_run (lim : class -> traffic) (c : config) (x : limiter) (l : list call) : list verdict :=
  match l with [] => [] | (k, cl, now) :: r => let '(v, x) := check lim c k cl now x in v :: check_run lim c x r end.
(** the answers of a limiter made at [t0] *)
Definition limiter_run (lim : class -> traffic) (c : config) (t0 : N) (l : list call) : list verdict := check_run lim (normalize c) (limiter_new t0) l.
