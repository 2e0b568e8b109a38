(** C87: the storage of the DHT (network/src/dht/storage.rs).

    What is simplified.  The key of the cache is the BLAKE3 hash of the boxed key of the value;
    here it is the key itself (collisions are not modelled).  A stored value is the value, not its
    TL bytes (the round trip of the TL primitives is C02/C28's subject); a stored value which is
    not a group value is then "not deserializable as [MergedValue]".  The [moka] cache loses
    entries by capacity, by time to live, by idleness and by [ValueExpiry]: here any key can be
    lost at any moment ([OEvict]), which covers all of them.  An [entry(..).or_insert_with_if(..)]
    of [moka] is atomic for its key.  The clock of [now_sec] is a number given with each call. *)
From Coq Require Import List NArith Bool.
Import ListNotations.
Local Open Scope N_scope.

(** network/src/dht/storage.rs:18-22 *)
Inductive source := Local | Remote.
(** network/src/proto/dht.rs:24-46, 59-88: [PeerValueKey] and [MergedValueKey] (boxed with
    different TL ids, so that their hashes differ) *)
Inductive key := KPeer (name owner : N) | KMerged (name group : N).
(** network/src/proto/dht.rs:112-122, 154-161: [PeerValueRef] and [MergedValueRef] as one record
    (the signature of a group value is not there: any number) *)
Record value := Val { v_key : key; v_data : list N; v_exp : N; v_sig : N }.
(** network/src/dht/storage.rs:275-289 (the ones which the code below returns; a merger may return
    any) *)
Inductive error := ValueExpired | UnsupportedTtl | InvalidSignature | InvalidSource | Other (e : N).
(** network/src/dht/storage.rs:24-37: [DhtValueMerger]; [m_merge source new stored] is the mutated
    [stored] if it returns true *)
Record merger := Merger { m_check : source -> value -> option error; m_merge : source -> value -> value -> option value }.
(** network/src/overlay/entries_merger.rs:6-37 *)
Definition public_merger : merger :=
  Merger (fun s _ => match s with Local => None | Remote => Some InvalidSource end)
         (fun s new _ => match s with Local => Some new | Remote => None end).

Definition key_eqb (a b : key) : bool :=
  match a, b with
  | KPeer n o, KPeer n' o' => (n =? n') && (o =? o')
  | KMerged n g, KMerged n' g' => (n =? n') && (g =? g')
  | _, _ => false
  end.

(** network/src/dht/storage.rs:101-105: the cache and the mergers (functions: one entry per key) *)
Record storage := Sto { s_cache : key -> option value; s_mergers : N -> option merger }.
Definition fresh : storage := Sto (fun _ => None) (fun _ => None).
Definition put (k : key) (v : option value) (c : key -> option value) : key -> option value := fun x => if key_eqb x k then v else c x.
Definition put_merger (g : N) (m : option merger) (c : N -> option merger) : N -> option merger := fun x => if x =? g then m else c x.

Section Storage.
(** network/src/types/peer_id.rs [as_public_key] together with [verify_tl] of the value without its
    signature: does this signature of this peer fit this content?  Any function. *)
Context (verify : N -> key -> list N -> N -> N -> bool).
(** network/src/dht/storage.rs:104, 73: [max_ttl_sec] *)
Context (max_ttl : N).

Definition signed (v : value) : bool :=
  match v_key v with KPeer _ o => verify o (v_key v) (v_data v) (v_exp v) (v_sig v) | KMerged _ _ => true end.

(** network/src/dht/storage.rs:126-129 *)
Definition get (now : N) (k : key) (s : storage) : option value :=
  match s_cache s k with Some v => if now <? v_exp v then Some v else None | None => None end.

Inductive result := Done (fresh : bool) | Err (e : error).
(** [or_insert_with_if]: [init], and the replacement for a present value, if any *)
Definition or_insert (k : key) (init : value) (replace : value -> option value) (s : storage) : result * storage :=
  match s_cache s k with
  | None => (Done true, Sto (put k (Some init) (s_cache s)) (s_mergers s))
  | Some prev => match replace prev with
                 | Some v => (Done true, Sto (put k (Some v) (s_cache s)) (s_mergers s))
                 | None => (Done false, s)
                 end
  end.
(** network/src/dht/storage.rs:150-169 *)
Definition insert_signed (v : value) (s : storage) : result * storage :=
  if negb (signed v) then (Err InvalidSignature, s)
  else or_insert (v_key v) v (fun prev => if v_exp prev <? v_exp v then Some v else None) s.
(** network/src/dht/storage.rs:171-224 *)
Definition insert_merged (g : N) (src : source) (v : value) (s : storage) : result * storage :=
  match s_mergers s g with
  | None => (Done false, s)
  | Some m => match m_check m src v with
              | Some e => (Err e, s)
              | None => or_insert (v_key v) v
                          (fun prev => match v_key prev with KMerged _ _ => m_merge m src v prev | KPeer _ _ => Some v end) s
              end
  end.
(** network/src/dht/storage.rs:131-148 *)
Definition insert (now : N) (src : source) (v : value) (s : storage) : result * storage :=
  if v_exp v <=? now then (Err ValueExpired, s)
  else if max_ttl <? v_exp v - now then (Err UnsupportedTtl, s)
  else match v_key v with KPeer _ _ => insert_signed v s | KMerged _ g => insert_merged g src v s end.

(** The history of a storage: [insert], [get] (which changes nothing), [insert_merger] and
    [remove_merger] (network/src/dht/storage.rs:112-124), and a loss of any key at any moment. *)
Inductive op := OInsert (now : N) (src : source) (v : value) | OMerger (g : N) (m : option merger) | OEvict (k : key).
Definition step (s : storage) (o : op) : storage :=
  match o with
  | OInsert now src v => snd (insert now src v s)
  | OMerger g m => Sto (s_cache s) (put_merger g m (s_mergers s))
  | OEvict k => Sto (put k None (s_cache s)) (s_mergers s)
  end.
Definition run (l : list op) (s : storage) : storage := fold_left step l s.

(** network/src/proto/dht.rs:201-215: [Value::verify_ext], the check of a found value *)
Definition verify_ext (at_ : N) (k : key) (v : value) : bool := (at_ <=? v_exp v) && key_eqb k (v_key v) && signed v.
(** network/src/proto/dht.rs:193-195 and network/src/dht/mod.rs:700-714: what a node answers to a
    search and what the asking one makes of it (clocks may differ) *)
Definition asked (there here : N) (k : key) (s : storage) : option value :=
  match get there k s with Some v => if verify_ext here k v then Some v else None | None => None end.
End Storage.
