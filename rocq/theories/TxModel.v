(** Model of the transactional containers of [util/src/transactional].

    The containers nest ([TransactionalBTreeMap<K, TransactionalOption<..>>], structs with
    [#[derive(Transactional)]]), so the model is a small universe of shapes: every theorem is for
    every nesting.  [A] is the type of plain values, [K] the type of keys (both arbitrary).

    Simplifications: the Rust maps are association lists with distinct keys ([AMap]); HashMap and
    BTreeMap have textually identical transactional code (hashmap.rs L24-59, L121-161 and btreemap.rs
    L25-60, L145-185), so one shape [SMap] stands for both, and it also has the BTreeMap-only [retain].
    [clone] is the identity.  A [&mut V] handed out by [get_mut]/[iter_mut]/[inner_mut] is used
    only through the operations of [V] itself (not to overwrite the whole [V] with another one and
    not to begin/commit a nested transaction); [TransactionalBTreeMap::inner_mut], documented as
    bypassing transactions, is not an operation of the model. *)
From Verif Require Import AMap.

Section Tx.
  Context {K A : Type} (eqb : K -> K -> bool).

  (** shapes: a plain value, an option, a map, a derived struct of two transactional fields
      (n fields by nesting), a derived struct with one [#[tx(skip)]] field *)
  Inductive shape : Type :=
  | SVal | SOpt (s : shape) | SMap (s : shape) | SPair (s1 s2 : shape) | SSkip (s : shape).

  (** util/src/transactional/value.rs:5-8 *)
  Record tval := MkTval { tv_value : A; tv_snapshot : option A }.
  (** util/src/transactional/option.rs:3-7 *)
  Record topt (T : Type) := MkTopt { to_value : option T; to_snapshot : option (option T) }.
  (** util/src/transactional/hashmap.rs:11-14 and btreemap.rs:12-15 *)
  Record mtx (T : Type) := MkMtx { mt_added : list K; mt_removed : list (K * T) }.
  (** util/src/transactional/hashmap.rs:6-9 and btreemap.rs:7-10 *)
  Record tmap (T : Type) := MkTmap { tm_inner : list (K * T); tm_tx : option (mtx T) }.
  Arguments MkTopt {T}. Arguments to_value {T}. Arguments to_snapshot {T}.
  Arguments MkMtx {T}. Arguments mt_added {T}. Arguments mt_removed {T}.
  Arguments MkTmap {T}. Arguments tm_inner {T}. Arguments tm_tx {T}.

  (** the Rust type of a shape *)
  Fixpoint obj (s : shape) : Type :=
    match s with
    | SVal => tval
    | SOpt s => topt (obj s)
    | SMap s => tmap (obj s)
    | SPair s1 s2 => (obj s1 * obj s2)%type
    | SSkip s => (obj s * A)%type
    end.

  Definition mapv {X Y} (f : X -> Y) (m : list (K * X)) : list (K * Y) :=
    map (fun e => (fst e, f (snd e))) m.
  Definition memk (k : K) (l : list K) : bool := existsb (eqb k) l.
  Definition delk (k : K) (l : list K) : list K := filter (fun x => negb (eqb k x)) l.

  (** ** in_tx: util/src/transactional/value.rs:73-75, option.rs:40-42 and 74-76,
      hashmap.rs:158-160, btreemap.rs:182-184, util-proc/src/derive_transactional.rs:35-40 *)
  Fixpoint in_tx (s : shape) : obj s -> bool :=
    match s return obj s -> bool with
    | SVal => fun x => match tv_snapshot x with Some _ => true | None => false end
    | SOpt s => fun x : topt (obj s) =>
        orb (match to_value x with Some v => in_tx s v | None => false end)
            (match to_snapshot x with Some _ => true | None => false end)
    | SMap s => fun x : tmap (obj s) => match tm_tx x with Some _ => true | None => false end
    | SPair s1 s2 => fun x => orb (in_tx s1 (fst x)) (in_tx s2 (snd x))
    | SSkip s => fun x => in_tx s (fst x)
    end.

  (** ** begin: value.rs:57-60, option.rs:46-52, hashmap.rs:122-131, btreemap.rs:146-155,
      util-proc/src/derive_transactional.rs:44-46 *)
  Fixpoint begin (s : shape) : obj s -> obj s :=
    match s return obj s -> obj s with
    | SVal => fun x => MkTval (tv_value x) (Some (tv_value x))
    | SOpt s => fun x : topt (obj s) =>
        match to_value x with
        | Some v => MkTopt (Some (begin s v)) (to_snapshot x)
        | None => MkTopt None (Some None)
        end
    | SMap s => fun x : tmap (obj s) => MkTmap (mapv (begin s) (tm_inner x)) (Some (MkMtx [] []))
    | SPair s1 s2 => fun x => (begin s1 (fst x), begin s2 (snd x))
    | SSkip s => fun x => (begin s (fst x), snd x)
    end.

  (** the debug assertions on the way: value.rs:58, hashmap.rs:123, btreemap.rs:147 *)
  Fixpoint begin_ok (s : shape) : obj s -> bool :=
    match s return obj s -> bool with
    | SVal => fun x => match tv_snapshot x with Some _ => false | None => true end
    | SOpt s => fun x : topt (obj s) => match to_value x with Some v => begin_ok s v | None => true end
    | SMap s => fun x : tmap (obj s) =>
        andb (match tm_tx x with Some _ => false | None => true end)
             (forallb (fun e => begin_ok s (snd e)) (tm_inner x))
    | SPair s1 s2 => fun x => andb (begin_ok s1 (fst x)) (begin_ok s2 (snd x))
    | SSkip s => fun x => begin_ok s (fst x)
    end.

  (** ** commit: value.rs:62-65, option.rs:54-61, hashmap.rs:133-140, btreemap.rs:157-164,
      util-proc/src/derive_transactional.rs:48-50 *)
  Fixpoint commit (s : shape) : obj s -> obj s :=
    match s return obj s -> obj s with
    | SVal => fun x => MkTval (tv_value x) None
    | SOpt s => fun x : topt (obj s) =>
        MkTopt (match to_value x with
                | Some v => Some (if in_tx s v then commit s v else v)
                | None => None
                end) None
    | SMap s => fun x : tmap (obj s) =>
        MkTmap (mapv (fun v => if in_tx s v then commit s v else v) (tm_inner x)) None
    | SPair s1 s2 => fun x => (commit s1 (fst x), commit s2 (snd x))
    | SSkip s => fun x => (commit s (fst x), snd x)
    end.

  (** the debug assertion of value.rs:63 *)
  Fixpoint commit_ok (s : shape) : obj s -> bool :=
    match s return obj s -> bool with
    | SVal => fun x => match tv_snapshot x with Some _ => true | None => false end
    | SOpt s => fun x : topt (obj s) =>
        match to_value x with
        | Some v => if in_tx s v then commit_ok s v else true
        | None => true
        end
    | SMap s => fun x : tmap (obj s) =>
        forallb (fun e => if in_tx s (snd e) then commit_ok s (snd e) else true) (tm_inner x)
    | SPair s1 s2 => fun x => andb (commit_ok s1 (fst x)) (commit_ok s2 (snd x))
    | SSkip s => fun x => commit_ok s (fst x)
    end.

  (** first half of the map rollback: hashmap.rs:143-150 and btreemap.rs:167-174 *)
  Definition map_restore {T} (x : tmap T) : list (K * T) :=
    match tm_tx x with
    | Some tx =>
        fold_left (fun m e => aset eqb (fst e) (snd e) m) (mt_removed tx)
          (fold_left (fun m k => adel eqb k m) (mt_added tx) (tm_inner x))
    | None => tm_inner x
    end.

  (** ** rollback: value.rs:67-71, option.rs:63-72, hashmap.rs:142-156, btreemap.rs:166-180,
      util-proc/src/derive_transactional.rs:52-54 *)
  Fixpoint rollback (s : shape) : obj s -> obj s :=
    match s return obj s -> obj s with
    | SVal => fun x =>
        match tv_snapshot x with Some v => MkTval v None | None => x end
    | SOpt s => fun x : topt (obj s) =>
        let v := match to_snapshot x with Some o => o | None => to_value x end in
        MkTopt (match v with
                | Some v => Some (if in_tx s v then rollback s v else v)
                | None => None
                end) None
    | SMap s => fun x : tmap (obj s) =>
        MkTmap (mapv (fun v => if in_tx s v then rollback s v else v) (map_restore x)) None
    | SPair s1 s2 => fun x => (rollback s1 (fst x), rollback s2 (snd x))
    | SSkip s => fun x => (rollback s (fst x), snd x)
    end.

  (** ** Operations of the containers themselves *)

  (** option.rs:25-30 and 40-42 (tx_active) *)
  Definition opt_set (s : shape) (new : option (obj s)) (x : topt (obj s)) : topt (obj s) :=
    let snap :=
      match to_snapshot x with
      | Some o => Some o
      | None => if in_tx (SOpt s) x then Some (to_value x) else None
      end in
    MkTopt new snap.

  (** hashmap.rs:24-44 and btreemap.rs:25-45 *)
  Definition map_insert {T} (k : K) (v : T) (x : tmap T) : tmap T * bool :=
    let old := aget eqb k (tm_inner x) in
    let inner := aset eqb k v (tm_inner x) in
    match tm_tx x with
    | Some tx =>
        match old with
        | Some ov =>
            let tx' :=
              if negb (memk k (mt_added tx)) && negb (amem eqb k (mt_removed tx))
              then MkMtx (mt_added tx) (aset eqb k ov (mt_removed tx))
              else tx in
            (MkTmap inner (Some tx'), true)
        | None =>
            let tx' :=
              if negb (amem eqb k (mt_removed tx))
              then MkMtx (k :: delk k (mt_added tx)) (mt_removed tx)
              else tx in
            (MkTmap inner (Some tx'), false)
        end
    | None => (MkTmap inner None, match old with Some _ => true | None => false end)
    end.

  (** hashmap.rs:46-59 and btreemap.rs:47-60 *)
  Definition map_remove {T} (k : K) (x : tmap T) : tmap T * bool :=
    match aget eqb k (tm_inner x) with
    | None => (x, false)
    | Some v =>
        let inner := adel eqb k (tm_inner x) in
        match tm_tx x with
        | Some tx =>
            if memk k (mt_added tx)
            then (MkTmap inner (Some (MkMtx (delk k (mt_added tx)) (mt_removed tx))), true)
            else if negb (amem eqb k (mt_removed tx))
                 then (MkTmap inner (Some (MkMtx (mt_added tx) (aset eqb k v (mt_removed tx)))), true)
                 else (MkTmap inner (Some tx), true)
        | None => (MkTmap inner None, true)
        end
    end.

  (** ** Plain contents: what the same nesting of ordinary Rust containers would hold *)
  Fixpoint plain (s : shape) : Type :=
    match s with
    | SVal => A
    | SOpt s => option (plain s)
    | SMap s => list (K * plain s)
    | SPair s1 s2 => (plain s1 * plain s2)%type
    | SSkip s => (plain s * A)%type
    end.

  (** what an observer reads: deref (value.rs:19-24), inner() (option.rs:17-19), get/iter
      (hashmap.rs:61-63, 85-87) *)
  Fixpoint read (s : shape) : obj s -> plain s :=
    match s return obj s -> plain s with
    | SVal => tv_value
    | SOpt s => fun x : topt (obj s) => option_map (read s) (to_value x)
    | SMap s => fun x : tmap (obj s) => mapv (read s) (tm_inner x)
    | SPair s1 s2 => fun x => (read s1 (fst x), read s2 (snd x))
    | SSkip s => fun x => (read s (fst x), snd x)
    end.

  (** fresh objects: [new]/[from] (value.rs:10-16, option.rs:10-15, hashmap.rs:115-119) *)
  Fixpoint mk (s : shape) : plain s -> obj s :=
    match s return plain s -> obj s with
    | SVal => fun a => MkTval a None
    | SOpt s => fun o : option (plain s) => MkTopt (option_map (mk s) o) None
    | SMap s => fun m : list (K * plain s) => MkTmap (mapv (mk s) m) None
    | SPair s1 s2 => fun p => (mk s1 (fst p), mk s2 (snd p))
    | SSkip s => fun p => (mk s (fst p), snd p)
    end.

  (** ** Programs run inside (or outside) a transaction.  [OEach] is [iter_mut]/[values_mut],
      [ORetain] is [TransactionalBTreeMap::retain] (btreemap.rs:62-75) with a closure that runs a
      program on each value and then decides by key and content. *)
  Inductive op : shape -> Type :=
  | ONop {s} : op s
  | OSeq {s} (a b : op s) : op s
  | OMod (f : A -> A) : op SVal
  | OSet {s} (new : option (plain s)) : op (SOpt s)
  | OInner {s} (o : op s) : op (SOpt s)
  | OInsert {s} (k : K) (v : plain s) : op (SMap s)
  | ORemove {s} (k : K) : op (SMap s)
  | OGetMut {s} (k : K) (o : op s) : op (SMap s)
  | OEach {s} (f : K -> op s) : op (SMap s)
  | ORetain {s} (f : K -> op s) (p : K -> plain s -> bool) : op (SMap s)
  | OFst {s1 s2} (o : op s1) : op (SPair s1 s2)
  | OSnd {s1 s2} (o : op s2) : op (SPair s1 s2)
  | OTx {s} (o : op s) : op (SSkip s)
  | OSkipped {s} (f : A -> A) : op (SSkip s).

  (** [get_mut(k)] followed by an update of the value (hashmap.rs:65-67) *)
  Definition upd {T} (k : K) (f : T -> T) (m : list (K * T)) : list (K * T) :=
    map (fun e => if eqb k (fst e) then (fst e, f (snd e)) else e) m.

  Definition map_remove_all {T} (ks : list K) (x : tmap T) : tmap T :=
    fold_left (fun x k => fst (map_remove k x)) ks x.

  (** running a program; the second component lists the booleans [insert]/[remove] returned
      (in order; those of programs run under an iterator are dropped) *)
  Fixpoint run {s} (o : op s) : obj s -> obj s * list bool :=
    match o in op s return obj s -> obj s * list bool with
    | ONop => fun x => (x, [])
    | OSeq a b => fun x => (fst (run b (fst (run a x))), snd (run a x) ++ snd (run b (fst (run a x))))
    | OMod f => fun x => (MkTval (f (tv_value x)) (tv_snapshot x), [])
    | @OSet s new => fun x => (opt_set s (option_map (mk s) new) x, [])
    | @OInner s o => fun x : topt (obj s) =>
        match to_value x with
        | Some v => (MkTopt (Some (fst (run o v))) (to_snapshot x), snd (run o v))
        | None => (x, [])
        end
    | @OInsert s k v => fun x : tmap (obj s) => (fst (map_insert k (mk s v) x), [snd (map_insert k (mk s v) x)])
    | @ORemove s k => fun x : tmap (obj s) => (fst (map_remove k x), [snd (map_remove k x)])
    | @OGetMut s k o => fun x : tmap (obj s) =>
        (MkTmap (upd k (fun v => fst (run o v)) (tm_inner x)) (tm_tx x),
         match aget eqb k (tm_inner x) with Some v => snd (run o v) | None => [] end)
    | @OEach s f => fun x : tmap (obj s) =>
        (MkTmap (map (fun e => (fst e, fst (run (f (fst e)) (snd e)))) (tm_inner x)) (tm_tx x), [])
    | @ORetain s f p => fun x : tmap (obj s) =>
        let inner := map (fun e => (fst e, fst (run (f (fst e)) (snd e)))) (tm_inner x) in
        let dead := map fst (filter (fun e => negb (p (fst e) (read s (snd e)))) inner) in
        (map_remove_all dead (MkTmap inner (tm_tx x)), [])
    | @OFst s1 s2 o => fun x => ((fst (run o (fst x)), snd x), snd (run o (fst x)))
    | @OSnd s1 s2 o => fun x => ((fst x, fst (run o (snd x))), snd (run o (snd x)))
    | @OTx s o => fun x => ((fst (run o (fst x)), snd x), snd (run o (fst x)))
    | @OSkipped s f => fun x => ((fst x, f (snd x)), [])
    end.
End Tx.
Arguments MkTopt {T}. Arguments to_value {T}. Arguments to_snapshot {T}.
Arguments MkMtx {K T}. Arguments mt_added {K T}. Arguments mt_removed {K T}.
Arguments MkTmap {K T}. Arguments tm_inner {K T}. Arguments tm_tx {K T}.
