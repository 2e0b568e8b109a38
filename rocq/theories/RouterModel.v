(** collator/src/internal_queue/types/router.rs: PartitionRouter. *)
From Verif Require Export QueueKeysModel AMap OMap.
Local Open Scope N_scope.

Definition ra_eqb (a b : raddr) : bool := Z.eqb (ra_wc a) (ra_wc b) && (ra_acc a =? ra_acc b).
(** derived [Ord] of RouterAddr (block-util/src/queue/proto.rs:312): signed workchain, then account *)
Definition ra_cmp (a b : raddr) : comparison :=
  cmp_then (Z.compare (ra_wc a) (ra_wc b)) (ra_acc a ?= ra_acc b).

(** IntAddr of tycho-types: standard address (workchain, account) or variable-length address *)
Inductive intaddr := IStd (a : raddr) | IVar (tag : N).
(** proto.rs:339-344 RouterAddr::from_int_addr *)
Definition from_int_addr (a : intaddr) : option raddr :=
  match a with IStd r => Some r | IVar _ => None end.

(** BTreeMap<QueuePartitionIdx, BTreeSet<RouterAddr>> (proto.rs:515) *)
Definition raset := omap raddr unit.
Definition rparts := omap N raset.

(** router.rs:8-12. HashMaps are association lists. *)
Record router := RT {
  rt_src : amap raddr N;
  rt_dst : amap raddr N;
  rt_stats : amap N N }.
Definition rt_empty : router := RT [] [] [].

(** [entry(k).and_modify(|c| *c += d).or_insert(d)] *)
Definition stat_add (k d : N) (m : amap N N) : amap N N :=
  aset N.eqb k (match aget N.eqb k m with Some c => c + d | None => d end) m.

(** router.rs:26 [result.extend(accounts.iter().map(|account| (account, partition)))] *)
Definition extend_part (p : N) (accs : raset) (res : amap raddr N) : amap raddr N :=
  fold_left (fun (r : amap raddr N) (e : raddr * unit) => aset ra_eqb (fst e) p r) accs res.

(** router.rs:17-30 [convert]: for each partition count the accounts and extend the map *)
Definition convert (ps : rparts) (stats : amap N N) : amap raddr N * amap N N :=
  fold_left (fun '(res, st) '(p, accs) =>
      (extend_part p accs res,
       stat_add p (N.of_nat (length accs)) st)) ps ([], stats).

(** router.rs:15-37 *)
Definition with_partitions (src dst : rparts) : router :=
  let '(s, st1) := convert src [] in
  let '(d, st2) := convert dst st1 in
  RT s d st2.

(** router.rs:41-55 *)
Definition get_partition (r : router) (src : option intaddr) (dst : intaddr) : N :=
  let by_dst := match from_int_addr dst with Some a => aget ra_eqb a (rt_dst r) | None => None end in
  match by_dst with
  | Some p => p
  | None =>
      let by_src := match src with
                    | Some s => match from_int_addr s with
                                | Some a => aget ra_eqb a (rt_src r) | None => None end
                    | None => None end in
      match by_src with Some p => p | None => 0 end
  end.

(** router.rs:58-76; [None] is the [bail!] *)
Definition insert_src (r : router) (addr : intaddr) (p : N) : option router :=
  if p =? 0 then None else
  match from_int_addr addr with
  | None => None
  | Some a =>
      let fresh := match aget ra_eqb a (rt_src r) with None => true | Some _ => false end in
      Some (RT (aset ra_eqb a p (rt_src r)) (rt_dst r)
               (if fresh then stat_add p 1 (rt_stats r) else rt_stats r))
  end.

(** router.rs:79-97 *)
Definition insert_dst (r : router) (addr : intaddr) (p : N) : option router :=
  if p =? 0 then None else
  match from_int_addr addr with
  | None => None
  | Some a =>
      let fresh := match aget ra_eqb a (rt_dst r) with None => true | Some _ => false end in
      Some (RT (rt_src r) (aset ra_eqb a p (rt_dst r))
               (if fresh then stat_add p 1 (rt_stats r) else rt_stats r))
  end.

(** router.rs:103-123 [to_router_partitions_src]/[_dst]:
    [entry(partition).or_insert(BTreeSet::new()).insert(addr)] for every entry *)
Definition to_parts (m : amap raddr N) : rparts :=
  fold_left (fun res '(a, p) =>
     let s := match oget N.compare p res with Some s => s | None => [] end in
     oput N.compare p (oput ra_cmp a tt s) res) m [].
Definition to_router_partitions_src (r : router) : rparts := to_parts (rt_src r).
Definition to_router_partitions_dst (r : router) : rparts := to_parts (rt_dst r).

(** a use of the API: a call that errs leaves the router as it was *)
Inductive rop := RSrc (a : intaddr) (p : N) | RDst (a : intaddr) (p : N).
Definition rstep (r : router) (o : rop) : router :=
  match (match o with RSrc a p => insert_src r a p | RDst a p => insert_dst r a p end) with
  | Some r' => r' | None => r end.
