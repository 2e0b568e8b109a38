(** The known peers of a node: what is known of a peer, who is banned, who is wanted.

    Models network/src/network/connection_manager.rs 1152-1669: [KnownPeers], [KnownPeerHandle] and
    [KnownPeerInner]. An entry of the map holds a weak reference, the handles hold the strong ones: an
    inner value is alive while a handle has it. A call is one step, except for the drop of a handle,
    which gives up the reference in one step and removes the entry in another. Unbounded: the address
    list, the expiration and the signature of an info are a tag. [KnownPeers::remove] is called by
    nobody else; weak handles only make handles and are not modelled. Arithmetic is that of a release
    build: [current - 1] wraps (1586), the [debug_assert]s are absent. *)
From Coq Require Import List Bool NArith.
Import ListNotations.
Local Open Scope N_scope.

Record info := Info { i_peer : N; i_created : N; i_tag : N }.
(** 1669 *)
Definition BANNED : N := 18446744073709551615.
Record inner := Inner { n_info : info; n_aff : N }.
(** 1553-1558 *)
Definition is_banned (n : inner) : bool := n_aff n =? BANNED.
Inductive affinity := High | Allowed | Never.
Definition compute_affinity (n : inner) : affinity := if n_aff n =? 0 then Allowed else if n_aff n =? BANNED then Never else High.
(** 1560-1594 *)
Definition increase (n : inner) : bool * inner := if n_aff n =? BANNED then (false, n) else (true, Inner (n_info n) (n_aff n + 1)).
Definition decrease (n : inner) : bool * inner := if n_aff n =? BANNED then (false, n) else (true, Inner (n_info n) (if n_aff n =? 0 then BANNED else n_aff n - 1)).
(** 1596-1667: [None] if banned. The affinity that was added stays also if the info is outdated *)
Definition try_update (n : inner) (i : info) (aff : bool) : option bool * inner :=
  let '(ok, n1) := if aff then increase n else (negb (is_banned n), n) in
  if negb ok then (None, n)
  else match i_created (n_info n1) ?= i_created i with
       | Eq => (Some true, n1)
       | Lt => (Some true, Inner i (n_aff n1))
       | Gt => (Some false, n1)
       end.

(** handles: a number, what it refers to, and the wrapper that counts for affinity (shared by its clones) *)
Section Handles.
Context {A : Type}.
Definition handles := list (N * A * option N).
Fixpoint hfind (h : N) (l : handles) : option (A * option N) := match l with [] => None | (k, a, g) :: r => if k =? h then Some (a, g) else hfind h r end.
Definition hrm (h : N) (l : handles) : handles := filter (fun e => negb (fst (fst e) =? h)) l.
Definition hset (h : N) (g : option N) (l : handles) : handles := map (fun e => if fst (fst e) =? h then (fst e, g) else e) l.
Definition grouped (g : N) (l : handles) : bool := existsb (fun e => match snd e with Some x => x =? g | None => false end) l.
End Handles.
Arguments handles : clear implicits.

Inductive entry := Stored (ix : nat) | EBanned.
Record state := St { s_entries : N -> option entry; s_inners : list inner; s_handles : handles nat; s_hnext : N; s_wnext : N; s_pending : list N }.
Definition new : state := St (fun _ => None) [] [] 0 0 [].
Definition upd {A} (k : N) (a : A) (f : N -> A) : N -> A := fun x => if x =? k then a else f x.
Definition inner0 : inner := Inner (Info 0 0 0) 0.
Definition get_inner (s : state) (ix : nat) : inner := nth ix (s_inners s) inner0.
Fixpoint set_nth {A} (i : nat) (a : A) (l : list A) : list A := match i, l with _, [] => [] | O, _ :: r => a :: r | S i, x :: r => x :: set_nth i a r end.
Definition set_inner (ix : nat) (n : inner) (s : state) : state := St (s_entries s) (set_nth ix n (s_inners s)) (s_handles s) (s_hnext s) (s_wnext s) (s_pending s).
Definition set_entry (p : N) (e : option entry) (s : state) : state := St (upd p e (s_entries s)) (s_inners s) (s_handles s) (s_hnext s) (s_wnext s) (s_pending s).
Definition set_handles (l : handles nat) (s : state) : state := St (s_entries s) (s_inners s) l (s_hnext s) (s_wnext s) (s_pending s).
(** [Weak::upgrade] *)
Definition alive (s : state) (ix : nat) : bool := existsb (fun e => Nat.eqb (snd (fst e)) ix) (s_handles s).

Inductive result := RHandle (h : N) | RBanned | ROutdated | RNone | RBool (b : bool) | RUnit.
(** 1330-1340 *)
Definition new_handle (ix : nat) (aff : bool) (s : state) : result * state :=
  (RHandle (s_hnext s), St (s_entries s) (s_inners s) (s_handles s ++ [(s_hnext s, ix, if aff then Some (s_wnext s) else None)]) (s_hnext s + 1) (if aff then s_wnext s + 1 else s_wnext s) (s_pending s)).
(** [KnownPeerInner::new], 1540-1551, and the entry for it *)
Definition new_inner (i : info) (aff : bool) (s : state) : result * state :=
  let ix := length (s_inners s) in
  new_handle ix aff (St (upd (i_peer i) (Some (Stored ix)) (s_entries s)) (s_inners s ++ [Inner i (if aff then 1 else 0)]) (s_handles s) (s_hnext s) (s_wnext s) (s_pending s)).
(** 1233-1313: [insert] if [strict], else [insert_allow_outdated] *)
Definition insert (strict : bool) (i : info) (aff : bool) (s : state) : result * state :=
  match s_entries s (i_peer i) with
  | None => new_inner i aff s
  | Some EBanned => (RBanned, s)
  | Some (Stored ix) =>
      if alive s ix then
        match try_update (get_inner s ix) i aff with
        | (None, _) => (RBanned, s)
        | (Some updated, n) => let s := set_inner ix n s in if updated || negb strict then new_handle ix aff s else (ROutdated, s)
        end
      else new_inner i aff s
  end.
(** 1214-1229 *)
Definition make_handle (p : N) (aff : bool) (s : state) : result * state :=
  match s_entries s p with
  | Some (Stored ix) =>
      if alive s ix then
        if aff then let '(ok, n) := increase (get_inner s ix) in if ok then new_handle ix true (set_inner ix n s) else (RNone, s)
        else new_handle ix false s
      else (RNone, s)
  | _ => (RNone, s)
  end.
(** 1189-1212 *)
Definition ban (p : N) (s : state) : state :=
  match s_entries s p with
  | None => set_entry p (Some EBanned) s
  | Some EBanned => s
  | Some (Stored ix) => if alive s ix then set_inner ix (Inner (n_info (get_inner s ix)) BANNED) s else set_entry p (Some EBanned) s
  end.

Inductive op :=
| OInsert (strict : bool) (i : info) (aff : bool) | OMake (p : N) (aff : bool) | OBan (p : N)
| OHBan (h : N) | OUpdate (h : N) (i : info) | OInc (h : N) | ODec (h : N) | OClone (h : N) | ODrop (h : N)
| OFinish. (* the other half of the first drop that is not finished *)

(** 1472-1505: gives up the reference *)
Definition drop_handle (h : N) (ix : nat) (g : option N) (s : state) : state :=
  let s := set_handles (hrm h (s_handles s)) s in
  let last := match g with Some w => negb (grouped w (s_handles s)) | None => true end in
  if negb last then s
  else
    let '(banned, n) := match g with
                        | Some _ => let '(ok, n) := decrease (get_inner s ix) in (negb ok || is_banned n, n)
                        | None => (is_banned (get_inner s ix), get_inner s ix)
                        end in
    let s := set_inner ix n s in
    if banned || alive s ix then s
    else St (s_entries s) (s_inners s) (s_handles s) (s_hnext s) (s_wnext s) (s_pending s ++ [i_peer (n_info n)]).
(** 1506-1512: removes the entry, whatever it is now *)
Definition finish (s : state) : state :=
  match s_pending s with
  | [] => s
  | p :: r => St (upd p None (s_entries s)) (s_inners s) (s_handles s) (s_hnext s) (s_wnext s) r
  end.

Definition step (s : state) (o : op) : result * state :=
  match o with
  | OInsert strict i aff => insert strict i aff s
  | OMake p aff => make_handle p aff s
  | OBan p => (RUnit, ban p s)
  | OFinish => (RUnit, finish s)
  | OHBan h => (* 1368-1371 *)
      match hfind h (s_handles s) with
      | Some (ix, _) => (RBool (negb (is_banned (get_inner s ix))), set_inner ix (Inner (n_info (get_inner s ix)) BANNED) s)
      | None => (RUnit, s)
      end
  | OUpdate h i => (* 1360-1366 *)
      match hfind h (s_handles s) with
      | Some (ix, _) => match try_update (get_inner s ix) i false with
                        | (None, _) => (RBanned, s)
                        | (Some true, n) => (RUnit, set_inner ix n s)
                        | (Some false, n) => (ROutdated, set_inner ix n s)
                        end
      | None => (RUnit, s)
      end
  | OInc h => (* 1373-1401 *)
      match hfind h (s_handles s) with
      | Some (ix, None) =>
          let s := set_inner ix (snd (increase (get_inner s ix))) s in
          (RBool true, St (s_entries s) (s_inners s) (hset h (Some (s_wnext s)) (s_handles s)) (s_hnext s) (s_wnext s + 1) (s_pending s))
      | Some (_, Some _) => (RBool false, s)
      | None => (RUnit, s)
      end
  | ODec h => (* 1403-1432 *)
      match hfind h (s_handles s) with
      | Some (ix, Some _) => (RBool true, set_handles (hset h None (s_handles s)) (set_inner ix (snd (decrease (get_inner s ix))) s))
      | Some (_, None) => (RBool false, s)
      | None => (RUnit, s)
      end
  | OClone h =>
      match hfind h (s_handles s) with
      | Some (ix, g) => (RHandle (s_hnext s), St (s_entries s) (s_inners s) (s_handles s ++ [(s_hnext s, ix, g)]) (s_hnext s + 1) (s_wnext s) (s_pending s))
      | None => (RUnit, s)
      end
  | ODrop h => match hfind h (s_handles s) with Some (ix, g) => (RUnit, drop_handle h ix g s) | None => (RUnit, s) end
  end.

(** ** What can be seen: 1162-1187, 1317-1358 *)
Definition k_contains (s : state) (p : N) : bool := match s_entries s p with Some _ => true | None => false end.
Definition k_banned (s : state) (p : N) : bool := match s_entries s p with Some (Stored ix) => alive s ix && is_banned (get_inner s ix) | Some EBanned => true | None => false end.
Definition k_get (s : state) (p : N) : option info := match s_entries s p with Some (Stored ix) => if alive s ix then Some (n_info (get_inner s ix)) else None | _ => None end.
Definition k_affinity (s : state) (p : N) : option affinity :=
  match s_entries s p with Some (Stored ix) => if alive s ix then Some (compute_affinity (get_inner s ix)) else None | Some EBanned => Some Never | None => None end.
Definition h_info (s : state) (h : N) : option (info * bool * affinity) :=
  match hfind h (s_handles s) with Some (ix, _) => let n := get_inner s ix in Some (n_info n, is_banned n, compute_affinity n) | None => None end.

Fixpoint exec (s : state) (l : list op) : list result * state :=
  match l with [] => ([], s) | o :: r => let '(a, s) := step s o in let '(b, s) := exec s r in (a :: b, s) end.
(** every drop is finished before the next call *)
Definition seq_step (s : state) (o : op) : result * state := let '(a, s) := step s o in (a, match o with ODrop _ => finish s | _ => s end).
Fixpoint seq_exec (s : state) (l : list op) : list result * state :=
  match l with [] => ([], s) | o :: r => let '(a, s) := seq_step s o in let '(b, s) := seq_exec s r in (a :: b, s) end.
