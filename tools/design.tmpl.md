# Formal model of broxus/tycho in Rocq (Coq 8.16.1)

## Layout

`rocq/theories/` holds, per area:

* `*Model.v`  – executable Gallina transcription of the Rust code; each definition cites the `/repo` file and lines.
* `*Spec.v`   – (where needed) the independent specification the theorems refer to.
* `*Proofs.v`, `*Inv.v`, `*Hist.v`, … – lemmas and invariants.
* `*Props.v`  – the property theorems: a small specification, the theorem, `Print Assumptions`, and an `Example`
  (or `_example` lemma) in which a concrete non-trivial case meets the hypotheses.
* Theorems named `_refuted` are proved counter-examples: the English claim (or a natural strengthening) is false of the
  code. `_partial` means the theorem covers part of the claim; the rest is said in MANIFEST.json and below.

Numbers are `N`/`Z`. Machine wrap-around is written out where the code relies on it; elsewhere range hypotheses
(`x < 2^64`) are stated. A Rust panic or `bail!` is an explicit error value (`None` or a constructor).
Hash maps are association lists without duplicate keys (`AMap.v`) and results are stated up to their iteration order;
BTreeMaps are strictly sorted lists (`OMap.v`); RocksDB column families are byte-keyed sorted tables (`KV.v`) with
`delete_range`, `seek` and atomic write batches.

## Properties: what is modelled and how it is proved

| id | what is modelled (theories/…) | proof |
|----|------------------|------------------|
| C01, C02 | QueueKeysModel: StoredValue codecs of all queue keys as byte lists; `next_value` with its byte-wise carry loop | big-endian library (Bytes.v), lexicographic order; induction on bytes |
| C03, C04, C37 | TlModel: TL reader and writer of QueueDiff, diff lists, QueueStateHeader/QueueState, BigBytes | parser/printer combinator lemmas; the accepted language is characterised exactly |
| C05–C10, C31 | QueueStoreModel: transaction.rs, snapshot.rs, queue.rs, gc.rs over the byte-keyed KV store | invariant by induction over all histories of apply/commit/clear/gc/restart |
| C11 | QueueIterModel: bounded ranges, shard iterators, k-way merge, positions | merge invariant over every heap tie-break and hash order |
| C12 | RouterModel | map lemmas |
| C13, C36 | ProcModel: processed-upto conversions, minimal positions, statistics ranges | dictionary round trips, minimum lemmas |
| C14 | PeerCountModel | finite-set cardinalities |
| C15 | ThresholdModel: every half of `add` and every loop iteration of `reached` is a step | invariant over all interleavings, timers and clock values |
| C16 | VomModel | sortedness invariant, refinement to a set specification |
| C17–C19, C34, C35 | DagModel: DagBack and Committer over an arbitrary growing DAG | invariants over call sequences; determinism by sorting |
| C20 | TxModel: a universe of nested transactional shapes | refinement to plain container + saved snapshot, induction on the shape |
| C21 | SemModel: each atomic operation / critical section of PrioritySemaphore is one step | invariant over all interleavings |
| C22, C32 | MedianModel: two-heap median, overflow-safe average | invariant lower half ≤ upper half |
| C23 | MetaModel: flag word, storage merges, crashes | bitwise lemmas, invariant over interleavings |
| C24 | PkgModel | as C01 |
| C25 | RefcountModel: merge operator, every grouping RocksDB may choose | sum invariant |
| C26, C27, C30, C33 | DhtModel: xor distance, routing table, random refresh keys | bit lemmas, table invariants, counter-examples for C27 |
| C28 | DedupModel | invariant relating the map to the history |
| C29 | ShardModel: calc_split_merge_actions | refinement: actions map the old set to the new set |
| C38, C39 | StatsModel: QueueStatistics overlay, TrackedQueueStatistics, CumulativeStatistics with staged decrements | refinement to counters; invariant relating the diff table, the staged set and the log of applied diffs |
| C40-C43 | ValModel: the validator session as an interleaving machine, one shared-memory access per step (validate_block, exchange_signatures, add_signature, receive_signature, cancel, cancel_until) | invariants over all reachable states: slot validity, weight accounting, unique owner, scan of cancel_until; measures for progress |
| C44-C47 | StriderModel: BlockStrider::run, download/process of shard blocks, PersistentBlockStriderState as an interleaving machine with crashes; storage is one write-ahead log of which a crash keeps any prefix. Not modelled: GC of handles, TempBlockStriderState, ancestry over splits/merges (the code does not follow it either), metrics. Provider contract assumed: get_next gives a successor, get_block the requested block | invariant over all reachable states relating the trace, the log and the phase of each task; measure for progress; separate invariant for too deep shards |
| C48 | ProvModel: ChainBlockProvider as an interleaving machine, one atomic access or one answer per step | invariant over reachable states, trace predicate proved step by step |
| C49 | ProvModel: CycleBlockProvider state (mutex sections are atomic) driven by the strider loop with its prefetch | invariant relating current/switch_at to the giver of each block |
| C50 | ProvModel: SelectNonEmptyFut::poll over any number of futures (the code has 2 to 5), RetryBlockProvider; a future is the sequence of its poll results; wakers are not modelled | induction on rounds and on the tuple |
| C51 | BProofModel: pre_check_block_proof, check_with_prev_key_block_proof, check_with_master_state, check_signatures with checked u64 arithmetic. Hashes bind content (a function from hash to block); Merkle proofs, BOC parsing and ed25519 are not modelled; the two tycho-types functions are hypotheses of the theorems (check_contract, subset_contract) | case analysis, intersection of weighted quorums |
| C52 | BProofModel: ProofChecker::check_proof with its zerostate and key block caches over a store | induction on the sum of the seqnos of two accepted blocks; invariant over node histories |
| C53 | CertModel: the packed u16 word with its bit operations, certify_deeper, set_deps in three steps, the traversal with its three thread-local maps; one atomic access per step; all accesses of one word are in its modification order (single location), the publication of deps is modelled by their contents; a digest has one certificate | invariant: every dependency of a published point has its height or is covered by work under way; lexicographic measure for the end of calls |
| C54 | AnchorModel: the cache, its import history and transactions, import_next_anchor and import_init_anchors against a fixed mempool chain with arbitrary failures; metrics and logs left out | invariant: history and waiting anchors are the chain's segment since a lower bound; sorted lists with the same members are equal |
| C55 | MCacheModel: the cache data, the two readers' loops split into subscribe / look / wait, writers split into change / notify; IndexMap as a list, binary search by contract on ascending keys (proved ascending) | invariant over interleavings: the cached anchors are the tail of the chain; a sleeping reader without a pending notification has nothing to return |
| C56 | StatModel: bytes of the eight statuses, read_flags, decode, merge_bytes; compaction as joining any adjacent operands; link and peer id bytes opaque | componentwise lattice: max of kinds, or of flags, max of commits; lex max of byte strings |
| C57, C58 | SignModel: one author and round: first-resolved and first-valid cells, signature cell, tasks split at each atomic step, sign / get_or_reject split at each cell, stored flags, restart with restore order and history reset; verdicts arbitrary; own points and record removal left out | invariant over all interleavings; restore by a sorted fold; a three-run script refutes C58 |
| C59, C61 | MBufModel: add_message, fill_message_group with its two steps, slot and index maps, filter and account check arbitrary, MessageGroup::add and check_is_filled; contents of messages opaque, ops_count left out | loop invariants for each of the nested loops, then the index update; histories by induction |
| C60 | the same model with the saved queues of a transaction | the transaction only records: strip; saved plus current always gives the start |
| C62 | CntModel: bitmap levels, map of large counts, live counter, update batches, snapshot format; the roaring serialization is a parameter with a round-trip hypothesis | representation relation between levels and a plain table, kept by every operation |
| C63 | WalModel: record, row and checkpoint formats byte by byte, nursery maps and round buckets, disk with WAL, checkpoint files, RocksDB state keys and rows, every intermediate disk state of append, checkpoint and open; stripes, recycled buffers and metrics left out; BLAKE3 is any function to 32 bytes | invariant of disk and process over all steps and crashes: the log is the encoding of the deltas after the checkpoint, replay gives the map of all deltas, that map with the rows is the live map |
| C64 | RcModel: both parallel traversals as threads with stacks whose every access to a shared map is a step, transactions, delayed additions and removals, raw cell cache, filter of fingerprints with false positives, promotions, flush, restart, block handle flags; counters are the table of C62, durable cells the map of C63; hashes are numbers with one content each | counting invariant of a running transaction (pending + counted = references from new or dropped cells), bounded measures, and the invariant rc = references over histories |
| C65 | TrkModel: map and minimum as in the code, each lock section one step, calls in progress as a list, u32 counters wrap | counting invariant: counter = handles + drops before their first section; a zero counter has a drop waiting for the write lock |
| C66 | SgcModel: table of direct states with its key order, handles, contents of blocks as a function of the id, the tracker of C65, GC as separate steps (edge, heights, candidates, each removal); ghosts: all states ever stored, all edges used; memory cache of states not modelled | invariant: a removed state was outside some used edge, whose heights are seqnos of direct states at or below its tops; tail length of a stored block is at most seqno mod step |
| C67 | VerModel: points with includes, witness, evidence, roles and links; BasicVerifier check by check; peer sets are any function of the round; signatures not modelled | every check of the code equivalent to one clause of `proper` (VerSpec), both directions; intersections by counting |
| C68 | VerModel: `validate` with all its checks in order, verdicts, the latest invalid dependency, leaders with an arbitrary coin, and histories of judgements where each one reads earlier judgements (possibly reloaded from the storage) in any order | strong induction on the position of a judgement in the history; the latest cause is a maximum of a key, so order does not matter |
| C69 | BcModel: the master and shard groups of the blocks cache with every method as one step on entries (own with status, or received), known heights, last own master blocks | invariant over histories (ginv, linv); outcome of each call in terms of the block held at a height |
| C70 | the extraction loop with its queue, on association lists, with enough fuel proved from the count of links | invariant J of the loop (visited set, removed set, accumulated blocks, justification of each) compared with the inductive `belongs` of BcSpec |
| C71 | as C69, with the incremental range; the waiting set is a function of the history of calls and results | simulation of the range by the waiting set over histories |
| C72 | statuses, signatures, `commit_valid` of commit.rs, fees of shard groups | origin of each held candidate in the history; fees as a sum over the history |
| C73 | ProdModel: Producer::create with its links, role, time, witness and the gate of round_task.rs, as a function of what it reads from the dag; points and verifier of C67 | the produced point satisfies the characterization of verified points (VerProper) and each check of the validator, using facts about histories of a judge (VerChain) for link targets |
| C74 | as C73 | case analysis of the role choice; totality from the existence of link sources |
| C75 | PsModel: the four slots of starts, subsets, vectors and slot maps, all calls of PeerSchedule as steps | abstraction of the slots to a ring of epochs on a timeline (PsEpochs), invariant over histories; theorems in PsThms |
| C76 | PsModel kb_new, kb_round, kb_apply | arithmetic |
| C77 | PsModel locked state: overlay entries, waiters, bans, resolved sets, receivers | invariant over histories (PsPeers), final theorems in PsBans, run in PsExample |
| C78 | BrModel: Broadcaster with pending futures as multisets, Collector, the two channels, as one transition system | invariants over runs (BrInv), histories of updates (BrMore), futures (BrAsk), exclusivity in calm runs (BrCalm) |
| C79 | BrModel step | invariant `ginv` over runs (BrEnd), runs in BrExample |
| C80 | LimModel: LimiterInner and the semaphores of the rounds with the calls that use them, one step per lock or semaphore operation | invariant `linv` (LimThms), theorems in LimSpec, a weight for termination |
| C81 | DlModel: PeerQueue over the map of VomModel and DownloadTask with one event per arm of the select loop | invariant `tinv` (DlInv, DlSteps), one case lemma for steps (`step_cases`), theorems in DlSpec, DlThms, DlMore |
| C82 | TbModel: TokenBucket, SoftTokenBucket, QueryPermits, and the maps of limits with one event per call, dropped permit and removal | TbBucket: buckets over lists of instants by induction with the start of the window; TbLimits: invariant on permits and on the history of each peer; TbThms: theorems over histories |
| C83 | GcModel: AtomicBucket, PeerLimiter, the map of entries with pruning and expiry; GcStreams: whitelist, normalize_ip, ActiveStreamLimiter with guards; GcConc: the load and exchange steps of overlapping claims | GcBucket: invariant that each grant moves the time by an interval; GcPeer: simulation between the limiter and one key that forgets nothing; GcThms, GcCool: theorems over histories; GcStreams: invariant between counts and guards; GcConc: linearization at the deciding step |
| C84 | KnModel: KnownPeers with weak references, KnownPeerHandle and its clones, KnownPeerInner; a drop in two steps | KnSpec: a table of peers and a list of handles; KnRefine: simulation (the counter of affinity is the number of distinct groups of clones); KnThms, KnBan: theorems over histories of the model |
| C85 | CmModel: the events of the manager's loop on the pending entries, tasks, delayed callbacks, dials, backoffs and active peers; None is a panic | CmInv: every callback is in exactly one place (a permutation), every entry has its own live task, the queue has the keys of the delayed ones; CmThms, CmMore, CmPeer: theorems over histories; CmEx: runs |
| C86 | ApModel: the table with the parts of each operation as steps (the lock of an entry during an addition), and two nodes with the links between them | ApThms: counting invariants over steps, a permutation of connections, order of events when apart; ApPair: invariant of two nodes; table_is_add links the table to CmModel |
| C87 | DsModel: the storage as a map from keys to values with mergers, clock and signature function arbitrary | DsThms: induction over histories; the slot of a peer key equals the newest of the offered values |
| C88 | DqModel: find_value and find_peers over the routing table of DhtModel, answers as events in any order | DqInv: candidates have a history of additions (C26, C27), requests; DqFind: invariants over answers, counting, nearness to the target, reachability; DqWalk: chains of answers, the newest info; DqWalkNear: the nearest within the depth; DqEx: cases |
| C89 | PoModel: additions in their stretches between awaits (reserve, check, drop, insert, settle), sweeps, bans, unknown peers; responses and requests over any sample; the registry of overlays | PoThms: invariant over all interleavings; newest-of-list specification of an addition; PoEx: cases and findings |
| C90 | MoModel: event histories, current bans, the channel to the scheduler, its delay queue, the journal, restore | MoHist: a history holds the newest counted events of the window; MoThms: invariant (the bans of a peer under way ascend and end in the one in force; what a restart reads at any later moment); MoLoad: what store.rs leaves out does not matter; MoEx: cases and findings |
| C91 | JpModel: a batch of records, the counting of its points, merge operands, deletion by range | JpThms: merging is a sum; invariant (a point is counted by the records which say it is stored); JpEx: cases and findings |
| C92 | NbModel: statistics of a neighbour, weights, choice, updates in two steps with versions of the list, waiters, fines | NbThms: scores by arithmetic on bits; NbChoice: a number is drawn from the interval of its neighbour; NbList: invariants; NbEx: cases and findings |
| C93 | VtModel: the queue of sets, the listener in steps, resolving, trackers with their epoch, a round of pings | VtThms: invariant (a tracker of the current epoch holds resolved peers only; resolved and pending make up the set); VtEx: cases and findings |
| C94 | PzModel: map of weak states, strong counts, drops in two steps, the task in three steps under the lock, waiters with the count of notifications they saw | PzThms: invariant (a live state is the one in the map; a dead one in the map has its removal to come; a sleeping waiter saw less notifications than there were once it is resolved); PzEx: cases and a finding |
| C95 | TqModel: the list, handles with their note, tasks with their status (an aborted task can still end by itself), joins as steps | TqThms: invariant over clean histories (the handle of an overlay is the one task of it that is not cancelled); TqEx: cases and findings |
@@NEW@@

## Trusted base

* Coq 8.16.1's kernel (`coqc`; no `vm_compute`-bypassing flags, no switched-off check).
* `Print Assumptions` of every theorem in the `*Props.v` files prints **Closed under the global context**: no theorem
  depends on any axiom, neither ours (there are none) nor the standard library's.
  A scan of the loaded libraries may list the seven constants `Coq.ssr.ssrunder.Under_rel.*`: they belong to the
  standard library's ssreflect support file, which `From Coq Require Import …` loads; no theorem uses them.
* No Admitted, no Module Type / functor / Declare Module, no plugin beyond those of the standard tactics
  (`lia`, `ring`).  Libraries used: Coq's standard library only.
* The transcription of the Rust text into `*Model.v`, checked only by reading (each definition cites its lines).

## Modelled / not modelled

Modelled: the functions cited in the `*Model.v` files. Not modelled, and trusted to meet their contract:

* the runtime: tokio, threads, memory ordering (atomics are sequentially consistent steps), `Drop` order;
* RocksDB internals: a batch is atomic, iterators read a consistent snapshot, `delete_range` is `[from, to)`,
  merge operands may be combined in any grouping that keeps their order (C23, C25);
* cryptography: hashes and signatures are abstract numbers; where collision-freedom matters (C04 binding, C18, C35)
  it is a visible hypothesis;
* BOC/cell serialisation of tycho-types, its dictionaries (as sorted tables), `ShardIdent` arithmetic (prefix paths);
* networking, timeouts (except C15, whose clock is an arbitrary input), metrics and tracing;
* u32/u64 exhaustion of round numbers and logical times, except where a theorem names it.

Per file, further simplifications are stated in the header comment of the `*Model.v` file and beside the definition.

## Environment assumptions that are hypotheses of the theorems

* Queue histories (C05–C11, C31): `QueueStoreSpec.op_env` – message keys of a diff lie in its (min, max] range, seqnos and
  ranges of a shard grow, GC is only run with scheduled bounds.
* C15: one producer per point object; times are arbitrary.
* C17–C19, C34, C35: the DAG only grows, links go to lower rounds, `OReset`/gap calls are those of the engine (`env_calls`).
* C25 (live value kept): writers never release a reference they do not own.

## Findings (each a theorem `_refuted` or a note in the model)

* C05: a statistics record whose max key is exactly `next_value(pointer)` survives `clear_uncommitted` for workchain ≥ 0;
  a `parts` set that misses a partition leaves stale messages.
* C07: `RouterAddr::MIN/MAX` are signed extremes while the stored workchain byte is unsigned, so GC of statistics misses
  or over-deletes records at the end points of the range.
* C10: a top shard whose diff was already garbage collected is ignored when the GC bound is computed.
* C12: per-partition counters are wrong after an address moves between partitions.
* C14: 254 validators panic (253 is the maximum); with n = 5 a majority needs all five.
* C20: a derived struct whose fields are all `#[tx(skip)]` never is `in_tx()`.
* C21: a permit is lost when a spuriously polled queued future takes a permit and then finds the semaphore closed.
* C22: saturating middle sum near `u128::MAX`. C32: after an overflow the average leaves the range of the values.
* C23: the second setter of a flag returns before the flag is durable. C25: payload lost when the count is transiently negative.
* C27: `closest()` visits buckets D, D+1..256, then D−1..0 although buckets below D are closer; in one bucket the oldest win.
* C29: merges yield no action; an empty current set yields Adds followed by Splits of absent shards.
* C33: `random_key_at_distance` is "within distance".
* C01 area: `storage-traits` `BlockId::deserialize` panics with trailing bytes and does not advance the reader;
  `CommitPointerValue::deserialize` does not advance past the seqno; `ShardsInternalMessagesKey::SIZE_HINT` is 52, real size 54.
* C13/C36: `seqno - shard_descr.seqno` can wrap; `unwrap`s on a missing shard are characterised by `C36_defined_iff`.
* C37: BigBytes padding bytes are unchecked on read. C03: `len() as u32` on write is unchecked in release.
* C17–C19: an error in the middle of a commit drops the data of anchors already dequeued while their points stay marked;
  the chain check accepts a link below the last committed proof (only `<=`); across commits only author and round of the used
  proof are compared; `Committer::init` after a gap can set `full_history_bottom` too low when
  dedup_rounds < commit_history_rounds (not the default configuration).
* C39: overlapping destination shards (around a split) inside one transaction are subtracted twice and panic; a zero count or a
  processed position that moves back inside a transaction leads to a panic later.
* C40: the threshold is computed with saturating_mul; for a total weight of 2^63 or more it drops below two thirds and two nodes can
  complete different blocks (C40_huge_weights_refuted). Validator lists with a public key listed twice collapse to the last entry, and
  the weight sum wraps in release builds.
* C41: two concurrent validate_block calls for different blocks of one seqno and a cancel_until between their two checks make the node
  hand out signatures for both blocks, although both calls return Skipped (C41_equivocation_race_refuted).
* C47: MAX_DEPTH 32 rejects a shard with exactly 32 unprocessed blocks even though the 33rd is committed; nothing ties the limit to the
  configured max_uncommitted_chain_length (31 by default), so such a masterchain block is never passed, over all restarts
  (strider_depth_stuck).
* C45: in process_shard_blocks the preparation of the next block is spawned before the result of the previous preparation is looked at,
  so it may start after the predecessor's preparation failed. The comment "start processing in parallel" is not true of the shard
  futures: they are polled only after all downloads ended.
* C46: commit_shard without a block handle writes nothing and reports success, so the same blocks can be handled twice in one life.
* C49: CycleBlockProvider documents "shard blocks are fetched from the same provider as their master block"; this fails when the new
  provider has no further block yet: the prefetch toggles the pending switch back while the block is in work
  (cycle_same_provider_refuted). The combinator is also not used by the node (cli/src/node/mod.rs warns against it).
* C51: the switch round (catchain seqno / vset switch round) and the consensus info used to order the subset are read from the
  unsigned part of the proof; whoever serves a proof may choose them. Under the contract this changes only the order of the subset
  and the short hash, so no quorum is lost, but check_consensus_info is applied only to non-key blocks checked against a state.
- C54: cutting the anchors cache at a chain time below the only remembered import keeps that import as the last imported anchor although the anchor itself is dropped, so the next import skips its externals (`uncovered_cut_loses`); externals_stream therefore asks that cuts are at covered times. The count of anchors above the shard's last import, from which work units are reduced, depends on what the node happened to have cached (`import_count_depends_on_cache`).
- C55: when the first cached anchor has no prev_id, a request for the successor of any older id is answered with it, even if anchors in between were produced and cleared (`next_skips_cleared`). A repeated push with a prev_id over a cached anchor without one is reported as a fork, the converse is accepted (`push_again`).
- C56: when several records of a transitively invalid point differ in flags, which root cause survives depends on how the database joined them (`root_cause_refuted`); nothing else does.
- C58: a restarted node that finds valid but unmarked points chooses one in memory (`acquire_restore` sets first_valid) and does not store the mark. If the point that took the location before the crash was not stored, a fork is chosen and signed; that point is then validated again and stored unmarked; after the next restart the order of restore (proof, then digest) may choose it and it is signed too (`two_signatures_across_restarts_refuted`). One crash of this kind is a known trade-off in the code's comments; with the mark stored at restore there would be no second change. Not modelled: `new_local_valid` writes the mark for the node's own point before it is taken and rolls it back later, so a crash in between may leave two marks, and restore then panics.
- C61: fill_message_group collects the slot ids to remove from the index with `entry(..).and_modify(insert).or_default()`, which never records the first slot of each bucket, so stale ids stay in `index_by_msgs_count`. Slots are then visited more than once (only wasted work), `MessageGroup::check_is_filled` says false for a full group (`is_filled_incomplete_refuted`; it has no callers besides tests), and a later fill of the same group with a smaller `slot_vert_size` underflows `slot_vert_size - msgs_count` (`smaller_slot_panics_refuted`; the size is constant within a group today).
- C63: WAL and checkpoint files are written without fsync while RocksDB has its own WAL; a power loss (not a process crash) can lose log bytes below the committed number, and then `open` refuses to start. The theorems cover process crashes.
- C63: between the nursery update and the write of the RocksDB batch a promoted cell is in neither (`nursery_staged_gap`); concurrent loads depend on the raw cell cache, which is bounded and may evict it.
- C62: a row that does not exist reads as count one (`counters_absent_is_one`): existence must be known from elsewhere.
- C64: a node that dies between the RocksDB batch of a state and `set_has_shard_state` (another database) stores the state again after restart; its root is then counted twice and one removal does not free it: the cells stay forever (`crash_window_leak`).
- C64: `remove_cell_mt` ignores the references returned by `add_removes` when it applies delayed removals. If a `split_at` cell is referenced twice below the removed root and nowhere else, the cell is deleted and everything below it leaks (`detached_twice_leak`). Account subtrees with different keys have different hashes, so the shard account split should not produce this; nothing checks it.
- C64: a load that read a row before a concurrent removal deleted it may put the dead row into the raw cell cache afterwards; a later store trusts the cache when the filter gives a false positive and would reuse the dead row number. The model's loads are atomic and do not contain this race.
- C66: `compute_recent_blocks` takes the latest direct state at or below a top block by seqno only. If this node's own candidate of that seqno range was rejected but its state had been stored directly (new cells threshold), it hides the last direct state of the real chain; that one is removed and the top block cannot be loaded any more (`gc_fork_breaks_load`).
- C66: a shard that the edge block does not know (for example a new workchain) loses all its states except the zerostate on every run until the edge block knows it (`gc_new_shard_removed`): `contains_shard_seqno_ext` ends in `unwrap_or_default`.
- C66: the tracker is read once when a run starts; a state loaded during the run does not hold the run back although the tracker now reports it (`gc_late_handle`).
- C66: lowering `store_shard_state_step` between restarts can make the last blocks unloadable: their nearest direct state may be further away than the new step allows (the model has one constant step).
- C68: the verdict on a point depends on which other versions of the author's previous point the node happened to receive before validation: with an invalid, transitively invalid or ill-formed one the point is Invalid, without it is Valid (`other_version_matters`); such nodes agree again only through certification.
- C68: that a point is certified is not kept in the stored status of the point itself (only the flag that its proof was seen), and an invalid point that is certified no longer taints its dependants; so MAX_HISTORY windows differ between nodes as well (`cause` in VerCheck skips certified points).
- C70: extraction removes the entry found at a visited height before it checks that the entry refers to the master block: a block of another master block (or another block at that height: lookups ignore the hash) leaves the cache without being returned (`stray_block_dropped`).
- C70: when a shard splits below one master block, the reversed breadth-first order can list a block before its predecessor (`split_breaks_order`).
- C71: remove_next_collated_blocks_from_cache keeps only entries of kind Received: an own candidate that was also received (on chain, waiting) above the given height is dropped while the range still covers it; a later pop from there fails or skips it (`waiting_block_lost`).
- C71: extraction of a master block that is not on chain does not move the start of the range, so received blocks below it keep waiting although the GC boundary is set above them (the hypothesis `keeps_waiting` excludes it).
- C72: validation results are matched by height only: a late result of an old candidate marks a new candidate of the same height as validated, and it is handed over with the signatures of the old one (`foreign_signatures`); also a Validated candidate can be turned into ValidationSkipped by a later result.
- C73: two colluding faulty peers make an honest node's own point invalid: a leader dates its anchor proof two skews ahead of the clock, the other includes it in a point dated one skew ahead. Every point is judged valid; an honest node that includes the second point, within its clock skew, links to the proof, dates its own point by its clock and finds it Invalid (DependencyTimeTooFarInFuture, verifier.rs:627), upon which it panics (dag_point_future.rs:221). All honest nodes that include that point do (`future_dated_proof_breaks_own_point`).
- C75: when the collator replaces an epoch that was not reached (finalize.rs is_curr_switch_after_pause), the switch round stays the same; a node that rotated to the replaced epoch early (an update with a non-empty next set applies the current epoch at once) ignores the replacement as outdated, another node takes it: they disagree on the validators of all rounds from the switch (`replaced_epoch_splits_nodes`). A scheduled epoch that an update skips is lost (`skipped_epoch_is_lost`).
- C77: a resolve task that is replaced (by a ban, a new set) while a peer of it is resolved but not polled loses the peer: nobody waits for it and it stays Unknown until the next epoch (`replaced_task_loses_a_peer`); a validator of the previous epoch banned after the switch stays a broadcast receiver (`banned_receiver`); a banned member of the whole set stays Resolved for `peer_state` (`banned_but_resolved`); unbanning the node's own id can make it Resolved (`unbanned_self_is_resolved`).
- C79: the point is sent to all receivers of broadcasts, also to those that are no validators of the next round, and a malformed answer (TL error) of any of them is counted as a rejection; F+1 such peers end the round as failed although 2F validators signed (`strangers_fail_the_round`). A failed round steps to the next one without 2F+1 includes.
- C78: a peer that signed and then is reported resolved again is asked again and may be counted both as signed and as rejected (`signed_and_rejected`); an update that reports the author as resolved makes the node query itself (`author_asked`; see C77 for when this happens). The comment in broadcaster.rs that a peer is in a single state holds for calm broadcasts only.
- C80: when a granted call is cancelled after its entry was removed and made again for new calls of the same round (the branch named ABA), its permit goes to that round even if a higher round waits (`a_cancelled_call_bypasses_priority`); the comment calls this fair.
- C81: if the stream of peer updates lags, the lost updates are not recovered (RecvError::Lagged is only logged): a peer that became resolved meanwhile is never asked by this download (`lagged_peer_not_asked`). The comment on `run` says that the author of the point has top priority; the author is only a depender like others (`tick_asks_in_order`). After 2^32 ticks the counter of attempts wraps to 0 and peers already asked are not ready until it catches up.
- C82: the soft rejections equal the tokens, which is exactly enough if queries arrive after equal delays; if the delays differ by even a small part of the window, a sender that keeps its own limits may be rejected hard, which is reported to the moderator (`small_delays_may_ban`); soft rejections of twice the tokens would suffice for delays up to one window (`delayed_sender_never_banned`). The limit of two permits per peer makes such bursts unlikely. The sender takes a token also when it then gets no permit and sends nothing.
- C83: an entry that expired is replaced by the next call even while its key is in the cooldown, though the pruning keeps such entries: with `state_ttl` shorter than `cooldown` the cooldown is not kept (`cooldown_is_lost`); with `state_ttl` shorter than the refill of a burst the burst can be had again (`burst_again`). The interval is rounded up to whole milliseconds: a limit of 501 to 999 per second is kept as 500, and 300 as 250 (`rate_501_is_500`, `interval_exact`). With a cooldown shorter than the interval the time to come back is too short (`retry_too_soon`). The limiter of the public overlay uses the address as it is, while the RPC uses the /64 network of IPv6 addresses: one IPv6 host may use as many buckets as it has addresses.
- C84: the ban of a known peer is forgotten with its last handle: the entry stays (the comment at connection_manager.rs 1494 says that banned peers are not removed), but it is only a dead reference, and the next insertion succeeds (`ban_is_forgotten`). `make_handle` without affinity gives a handle of a banned peer (`banned_has_a_handle`). An insertion with affinity that is refused as outdated keeps the affinity it added: the peer stays wanted for ever (`affinity_leaks`). `decrease_affinity` on two clones takes the shared affinity twice: the counter wraps to the value that means banned; a debug build panics (`clones_ban`). A drop removes the entry of the peer after the last reference is gone, whatever the entry is by then: a peer inserted in between is not known although there is a handle of it, an older info can follow, and a ban does not reach that handle (`removed_under_a_handle`).
- C85: pending entries are found by address alone. A request for one peer at an address where a connection of another peer is pending is answered with the other peer's connection (`another_peer_is_given`); for a dial of a check that fails a debug assertion, and in a release build the backoff of the wanted peer is cleared. The number of an entry starts at 0 with each new entry, so a result of an aborted task that was there before the abort and is taken only after the entry is gone and a new one of the same address is made is taken for the new one's: its request gets the old result and the connection of its own task is dropped (`stale_result`). The limit of connections counts only active ones and only when an unknown peer comes in: those that are pending, and those dialed or known, go beyond it.
- C86: the events of the table can come in the wrong order: a removal sends its event after the entry is free, so when the handler of a connection has taken it out and the manager adds the next one, subscribers see New, New, Lost and take a connected peer for lost (`lost_after_new`); with a removal right after an addition they see Lost, New of a peer that is gone (`new_after_lost`). Two connections dialed by the same node that are finished in different orders at the two ends are both closed (`redial_closes_both`).
- C87: the publishing call of the DHT uses the longest time to live that a storage takes as its default, so a node whose clock is even a second behind the publishing one refuses every such value (`default_ttl`, `late_clock_refuses`). A peer that publishes a new value within the same second as the previous one, or for a shorter time, is told nothing and its value is not stored, on its own node as well (`not_later_is_lost`).
- C88: a search of peers fixes the depth of the peers told of by a peer when it answers; a shorter way to that peer learnt later is not passed on, so which peers within the depth are asked depends on the order of answers (`order_of_answers`). The target itself, if it is a peer, is never asked.
- C89: an overlay at its capacity refuses whole lists, also the renewals of peers it has, so their entries expire though renewed in time (`renewal_lost`); renewals behind the last new peer that fits are dropped too. A list of unsigned entries takes the room of a good one while it is checked (`room_taken_by_worthless_list`). A peer banned between check and insertion is inserted, until the next sweep (`banned_peer_inserted`). `add_public_overlay` and `add_private_overlay` of one id at the same time both succeed (`both_kinds`). `PublicOverlayEntries::choose` panics on an empty set (the range 0..0) although its comment says `None`; nothing in the repository calls it.
- C90: a request to unban is refused ("no ban to remove" or not done) while the peer is banned, if the ban it would end, or a longer one, was made after the request was queued and before it was handled (`unban_refused`, `unban_before_the_ban`). An event whose ban is shorter than the one in force still writes a ban record that was never applied (`a_ban_only_in_the_journal`). `BanCache::restore` tells the scheduler of a ban also when it could not store it, which would make it panic later; this is harmless only since nothing else can ban before restore ends.
- C90: an operator who deletes a range of the journal deletes bans and unbans with it: after a restart a peer unbanned before is banned again (`deleted_unban`), or one banned is not (`deleted_ban`).
- C91: a record which says that a point is not stored goes on saying so when a later record has brought it, and does not keep it then (`flag_stays_false`). The comment of `clean_events` that some records are left without points is out of date (`readable_iff_stored`). `RecordBatch` would count a whole point twice if an event gave it twice (no event gives one today).
- C92: `Neighbours::update` reads the list without the lock and overwrites it whatever happened meanwhile: overtaken by `try_apply_score` it brings removed neighbours back, and then does not wake who waits for them (`sleeps_on`). A full list loses its worst neighbour at each update even if there is nobody to take its place; the next update takes it, or an unreliable or malicious one, back with the score of a new one (`worst_for_nothing`, `forgotten`). `get_sorted_neighbours` (not called) sorts the index itself by cumulative weight, the greatest first: after it the choice is always the same or none, and weights underflow (`sorted_index`). A roundtrip of 0 ms is left out of the average when it is the oldest of four (`zero_left_out`).
- C93: in a round of pings, when no spare validator is left, the first ping that fails ends the round (`None => break` in `track_resolved`): answers under way are dropped, and the node can be left without any target for its external messages although most validators are alive; targets of the round before are lost too (`first_failure_ends_the_round`, `targets_lost`). The comment there ("leave it as is") suggests that this was not meant.
- C94: `set_stale` is only called with true, so a handle that was stale once stays stale although its peer is resolved later (`stale_forever`, `stale_and_resolved`). When the known peers refuse an info because of a ban, the task of the handle ends for good (the TODO in `run_task` says so) and `insert` goes on giving the dead state while anybody holds a handle: not modelled as a step (a task that ended is one that is never scheduled), so no liveness of resolving is claimed.
- C95: `TasksStream::next` removes the handle by overlay, not by task. When an overlay is removed after its task ended (the abort has no effect then) and is added and started again before that end is seen, the end of the old task drops the handle of the new one: a second task of the overlay runs beside it (`two_at_once`), the first is not aborted when the overlay is removed (`left_over`), and a note of the new task is spent on the old (`note_stolen`). C95 is stated for histories without that race, and the hypothesis is explicit in the theorems (`clean`). Also, a forced discovery of an overlay which is not in the list any more is never cancelled (`forced`).
@@FIND@@

## Method: wrong programs

`seeded/LOG.jsonl` records each deliberate edit of the model in a scratch copy, the theorems that failed, and the theorems
tightened because they did not.
