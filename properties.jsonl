{"id": "C01", "title": "Queue storage keys: encoding is injective and byte order equals logical order", "statement": "Serializing a queue storage key (internal message key, statistics key, diff tail key, diff info key, commit pointer key) and deserializing it gives the same key back, leaving the rest of the buffer; and for two message keys the RocksDB byte order of the encodings is the order by (partition, shard workchain+prefix encoding, lt, hash), so that within a (partition, shard) a range scan visits messages in (lt, hash) order.", "quantifier": "all keys (every partition, shard, lt, hash, destination) and all pairs of keys", "why_tests_cant": "The order has to hold for every pair of 54-byte (or longer) keys; a unit test compares a few literals and never meets the carry/sign boundaries.", "anchors": ["block-util/src/queue/proto.rs:QueueKey,RouterAddr,QueuePartitionIdx", "collator/src/storage/models.rs:ShardsInternalMessagesKey,StatKey,DiffTailKey,DiffInfoKey,CommitPointerKey", "storage-traits/src/stored_value.rs:ShardIdent"]}
{"id": "C02", "title": "Next queue key is the immediate successor", "statement": "QueueKey::next_value returns the smallest key strictly greater than the argument in (lt, hash) order - no key lies in between - and returns the argument itself only for QueueKey::MAX.", "quantifier": "all queue keys (all lt in u64, all 256-bit hashes)", "why_tests_cant": "The interesting cases are carries through 32 bytes and the lt rollover; 2^320 inputs.", "anchors": ["block-util/src/queue/proto.rs:QueueKey::next_value"]}
{"id": "C03", "title": "Queue diff wire format round-trips and rejects malformed diffs", "statement": "Writing a well-formed QueueDiff in TL and reading the bytes back yields the same diff and consumes exactly the written bytes; the reader rejects max_message < min_message, non-ascending processed-to shards, non-ascending router partitions/accounts and non-ascending message hashes; anything the reader accepts satisfies those rules.", "quantifier": "all queue diffs, all byte strings offered to the reader", "why_tests_cant": "Acceptance is a statement about every byte string; fuzzing samples it.", "anchors": ["block-util/src/queue/proto.rs:QueueDiff,processed_to_map,router_partitions_map,messages_list", "block-util/src/tl.rs"]}
{"id": "C04", "title": "A list of queue diffs that decodes is a hash chain with strictly descending seqnos", "statement": "queue_diffs_list accepts only 1..=1000 diffs whose seqnos strictly descend and whose prev_hash equals the hash of the following (older) diff, and round-trips every such list.", "quantifier": "all byte strings / all lists of diffs", "why_tests_cant": "Needs every prefix of every list.", "anchors": ["block-util/src/queue/proto.rs:queue_diffs_list"]}
{"id": "C05", "title": "Uncommitted queue state is exactly what a restart discards", "statement": "clear_uncommitted removes, for every shard with a commit pointer, exactly the messages, statistics and diff tails whose key is strictly greater than the pointer and the diff infos above the pointer's seqno, and everything for a top shard without pointer; nothing at or below a pointer and nothing of other shards is removed.", "quantifier": "all queue storage contents, all commit pointer sets, all top-shard lists", "why_tests_cant": "The boundary key (exactly the pointer) and the byte-range ends have to be right for every content; tests use a handful of messages.", "anchors": ["collator/src/storage/transaction.rs:clear_uncommitted,delete", "collator/src/internal_queue/state/storage.rs:clear_uncommitted"]}
{"id": "C06", "title": "Queue garbage collection deletes all and only the processed prefix", "statement": "Deleting a range [from, to] of a (partition, shard) removes exactly the messages and diff tails of that shard and partition with from <= key <= to, together with the diff infos named by the removed tails, and keeps every other message.", "quantifier": "all queue storage contents, all ranges", "why_tests_cant": "Inclusive/exclusive ends at byte level for every content.", "anchors": ["collator/src/storage/transaction.rs:delete,delete_diff_tails_and_collect_seqno", "collator/src/internal_queue/state/storage.rs:delete"]}
{"id": "C07", "title": "Queue garbage collection removes the statistics of the processed prefix", "statement": "Deleting a range [from, to] removes every statistics record of that shard and partition whose diff max_message lies in [from, to], whatever the destination address.", "quantifier": "all statistics contents incl. negative workchains", "why_tests_cant": "Fails only for particular destination workchains at particular keys.", "anchors": ["collator/src/storage/transaction.rs:delete", "block-util/src/queue/proto.rs:RouterAddr"]}
{"id": "C08", "title": "Queue diff application: commit pointers are monotone and no committed message is lost by a restart", "statement": "In every history of prepare_diff, commit_diff, clear_uncommitted_state (restart) and GC steps, the commit pointer of every shard only moves forward, and every message of a committed diff that is still above the GC bound remains readable after any restart.", "quantifier": "all histories of queue operations with all diffs", "why_tests_cant": "Histories are unbounded and restarts can fall anywhere.", "anchors": ["collator/src/internal_queue/queue.rs:prepare_diff,commit_diff,clear_uncommitted_state", "collator/src/internal_queue/state/storage.rs", "collator/src/internal_queue/gc.rs"]}
{"id": "C09", "title": "A queue diff is applied at most once and in seqno order without gaps", "statement": "prepare_diff + write for (shard, seqno): if that (shard, seqno) is already applied nothing changes (skipped for the same hash, rejected for another one); otherwise it is accepted only if its seqno is exactly the last applied seqno + 1 whenever a check is requested and the last applied diff lies in the requested zone (both/committed/uncommitted), and its messages lie strictly above the shard's commit pointer; after acceptance its messages and info are readable and the last applied seqno is the diff's; an applied diff can only be applied again after a restart discarded it as uncommitted or GC removed it.", "quantifier": "all states, all diffs", "why_tests_cant": "A property of all histories.", "anchors": ["collator/src/internal_queue/queue.rs:prepare_diff"]}
{"id": "C10", "title": "Queue GC never passes a message that some shard has not processed", "statement": "commit_diff computes the GC bound of every source shard as the minimum over all committed shard diffs of the processed-to key for that shard; a message above the processed-to position of at least one of the top shards is never scheduled for deletion by that commit, and a bound never moves backwards.", "quantifier": "all sets of top blocks and their processed-to maps", "why_tests_cant": "Quantifies over all maps of all shards.", "anchors": ["collator/src/internal_queue/queue.rs:commit_diff", "collator/src/internal_queue/gc.rs:gc_task"]}
{"id": "C11", "title": "The queue iterator returns every addressed message of the ranges exactly once in global order", "statement": "Draining the state iterator over a set of per-shard ranges yields exactly the stored messages of the partition whose key is in the range of their shard and whose destination is accepted by the receiver shard, each once, in ascending (lt, hash) order across shards; at every moment the reported per-shard position is the last key read.", "quantifier": "all stored message sets, all ranges (closed/open bounds), all receiver shards", "why_tests_cant": "All contents and all interleavings of shards in the merge heap.", "anchors": ["collator/src/internal_queue/state/state_iterator.rs", "collator/src/internal_queue/state/shard_iterator.rs", "collator/src/internal_queue/types/ranges.rs"]}
{"id": "C12", "title": "Partition router: lookup order and export/import round-trip", "statement": "A router returns the partition registered for the destination, else the one registered for the source, else partition 0; exporting a router to partition maps and rebuilding it gives the same lookups for every pair of addresses; partition 0 is never stored explicitly.", "quantifier": "all insertion sequences, all address pairs", "why_tests_cant": "All histories of insertions and all addresses.", "anchors": ["collator/src/internal_queue/types/router.rs"]}
{"id": "C13", "title": "Processed-upto state survives serialization to and from the block state", "statement": "Converting the collator's processed-upto info to the blockchain representation and back is the identity on everything but documented normalisations; the minimal externals/internals positions computed from it are lower bounds of, and attained by, the per-range positions.", "quantifier": "all processed-upto values", "why_tests_cant": "All maps of partitions, ranges and shards.", "anchors": ["collator/src/types/processed_upto.rs"]}
{"id": "C14", "title": "BFT quorum arithmetic", "statement": "For every validator set size n >= 3 that is accepted, with f = floor((n+1)/3) faults assumed by the thresholds: two majorities (2f+1) of the 3f+1 full set intersect in at least f+1 peers, so in at least one honest one; a majority and a reliable minority always intersect; the majority is reachable by honest peers; sizes below 3 are rejected.", "quantifier": "all peer counts and all subsets of peers", "why_tests_cant": "Sets are exponentially many; the sub-n 'full' size 3f+1 may exceed n.", "anchors": ["consensus/src/models/peer_count.rs"]}
{"id": "C15", "title": "Dependency threshold is reached exactly when the majority of points is ready", "statement": "Over any sequence of point arrivals by distinct authors, the round threshold reports reached iff at least the configured number of points of that round were counted, never un-reaches, and a second point of the same author is never counted.", "quantifier": "all arrival sequences", "why_tests_cant": "All interleavings of arrivals.", "anchors": ["consensus/src/dag/threshold.rs"]}
{"id": "C16", "title": "Value-ordered bounded map keeps the greatest entries", "statement": "After any sequence of upserts and removals the map holds at most one entry per key, at most max_len entries, sorted by (value, key); an upsert into a full map evicts exactly the least entry (possibly the new one); max() is the greatest entry.", "quantifier": "all operation sequences", "why_tests_cant": "All sequences of operations.", "anchors": ["consensus/src/utils/value_ordered_map.rs"]}
{"id": "C17", "title": "Consensus commit emits each DAG point at most once", "statement": "Over any sequence of commits on a growing DAG, no point appears twice in the emitted histories.", "quantifier": "all DAGs and commit sequences", "why_tests_cant": "DAG shapes and commit schedules are unbounded.", "anchors": ["consensus/src/dag/commit/mod.rs:Committer", "consensus/src/dag/commit/back.rs:gather_uncommitted"]}
{"id": "C18", "title": "Consensus commit emits a causally closed history", "statement": "The history of a committed anchor contains every not yet committed point reachable from the anchor through includes/witness links within the history depth, and only such points, and points are ordered by round so that no point precedes one it depends on.", "quantifier": "all DAGs", "why_tests_cant": "All graph shapes.", "anchors": ["consensus/src/dag/commit/back.rs:gather_uncommitted"]}
{"id": "C19", "title": "Anchors are committed in increasing round order along the anchor chain", "statement": "Anchors are dequeued in strictly increasing round order, each the direct predecessor candidate of the next in the chain of anchor links, irrespective of the trigger order.", "quantifier": "all DAGs and trigger sequences", "why_tests_cant": "All schedules.", "anchors": ["consensus/src/dag/commit/back.rs:anchor_chain", "consensus/src/dag/commit/mod.rs"]}
{"id": "C20", "title": "Transactional containers: rollback restores, commit keeps", "statement": "For transactional value, option, hash map and btree map: after begin, any sequence of operations and rollback, every lookup answers exactly as before begin; after commit it answers as the sequence of operations on a plain container.", "quantifier": "all operation sequences and initial contents", "why_tests_cant": "All sequences, incl. insert-remove-insert of one key.", "anchors": ["util/src/transactional/value.rs", "util/src/transactional/hashmap.rs", "util/src/transactional/btreemap.rs", "util/src/transactional/option.rs"]}
{"id": "C21", "title": "Priority semaphore conserves permits and serves priority waiters first", "statement": "In every interleaving of acquire, release, forget and drop, available permits plus permits held equals the permits issued; a waiter is only served when no earlier waiter of the same class waits and no priority waiter waits before an ordinary one; no permit stays available while somebody waits.", "quantifier": "all schedules of operations", "why_tests_cant": "Interleavings.", "anchors": ["util/src/sync/priority_semaphore.rs"]}
{"id": "C22", "title": "Streaming median equals the true median", "statement": "After adding any sequence of values, the streaming median equals the median of the sorted sequence (average of two middle values, rounded down, for even counts).", "quantifier": "all sequences", "why_tests_cant": "All sequences of values.", "anchors": ["util/src/num/median.rs"]}
{"id": "C23", "title": "Block handle flags only accumulate and survive storage", "statement": "Adding flags to block meta sets exactly those flags, reports whether something changed, keeps the masterchain reference seqno; encoding and decoding keep everything; concurrent setting through storage merges never loses a flag.", "quantifier": "all flag sets, seqnos and merge orders", "why_tests_cant": "All orders of merges.", "anchors": ["core/src/storage/block_handle/meta.rs", "core/src/storage/tables.rs:block_handle merge"]}
{"id": "C24", "title": "Package entry keys round-trip and their byte order equals their logical order", "statement": "Encoding then decoding a package entry key is the identity, and the encoded byte order equals Ord on keys, with all entries of one block contiguous.", "quantifier": "all keys", "why_tests_cant": "2^392 keys.", "anchors": ["core/src/storage/block/package_entry.rs"]}
{"id": "C25", "title": "Reference-counted storage: merge is order independent and exact", "statement": "The stored reference count after any sequence and any grouping of merge operations equals the sum of the increments, the value is present iff the count is positive, and the count never turns a live value into a deleted one.", "quantifier": "all sequences and groupings of merge operands", "why_tests_cant": "RocksDB may group operands arbitrarily.", "anchors": ["storage/src/kv/refcount.rs"]}
{"id": "C26", "title": "DHT routing table invariants", "statement": "After any sequence of additions and removals the routing table contains no duplicates, never the local node, no bucket exceeds its limit, every node sits in the bucket of its distance.", "quantifier": "all operation sequences", "why_tests_cant": "All sequences and ids.", "anchors": ["network/src/dht/routing.rs"]}
{"id": "C27", "title": "DHT closest() returns the closest known nodes", "statement": "closest(key, n) returns n known nodes such that no other known node has a smaller XOR distance class to the key.", "quantifier": "all tables, all keys", "why_tests_cant": "All tables and keys.", "anchors": ["network/src/dht/routing.rs:closest", "network/src/dht/mod.rs:xor_distance"]}
{"id": "C28", "title": "External message deduplication window", "statement": "A message hash is reported unique iff it was not seen within the dedup threshold of rounds; replays within the window are always rejected and expired entries are always forgotten.", "quantifier": "all sequences of (round, hash) with monotone rounds", "why_tests_cant": "All sequences.", "anchors": ["collator/src/mempool/impls/common/deduplicator.rs"]}
{"id": "C29", "title": "Shard split/merge plan transforms the old shard set into the new one", "statement": "calc_split_merge_actions returns actions that, applied to the current shards, yield exactly the target shards, or an error.", "quantifier": "all pairs of shard sets", "why_tests_cant": "All shard partitions.", "anchors": ["collator/src/utils/shard.rs"]}
{"id": "C30", "title": "XOR distance classes form an ultrametric", "statement": "xor_distance is 0 exactly for equal ids, symmetric, at most 256, and d(a,c) <= max(d(a,b), d(b,c)).", "quantifier": "all 256-bit ids", "why_tests_cant": "2^512 pairs.", "anchors": ["network/src/dht/mod.rs:xor_distance"]}
{"id": "C31", "title": "Queue diff statistics are exact counts", "statement": "For every diff, the statistics computed from it give for every (partition, destination) exactly the number of its messages routed to that partition with that destination, and for every workchain the number of messages to it; applying the diff stores exactly those records (none with count 0) and leaves all other statistics untouched.", "quantifier": "all diffs, routers, reachable queue states, partitions and destinations", "why_tests_cant": "counts aggregate over arbitrary message maps and router tables", "anchors": ["collator/src/internal_queue/types/stats.rs: DiffStatistics::from_diff", "collator/src/internal_queue/state/storage.rs: add_statistics"]}
{"id":"C32","title":"Running average never panics and is exact until overflow","statement":"The overflow-safe running average accepts every sequence of u128 values without panicking, is undefined only before the first value, and equals the rounded-down arithmetic mean as long as the total fits in 128 bits.","quantifier":"all sequences of u128 values","why_tests_cant":"the overflow path depends on the whole history of values; only an invariant over all sequences excludes a division by zero or a wrong mean","anchors":["util/src/num/safe_avg.rs:SafeUnsignedAvg"]}
{"id": "C33", "title": "Random refresh keys stay within the bucket distance and cover it", "statement": "The key generated to refresh bucket d lies at distance at most d from the local id for every output of the random generator, and every key within distance d is generated by some output.", "quantifier": "all local ids, all distances 0..256, all random outputs", "why_tests_cant": "a sampled random generator covers a negligible part of the 2^256 keys", "anchors": ["network/src/dht/mod.rs:random_key_at_distance"]}
{"id": "C34", "title": "An executable anchor always carries its complete history window", "statement": "Every anchor the committer marks executable has, as its history, every point the anchor reaches within commit_history_rounds (above genesis) that no earlier dequeued anchor took: no gap, drop, reset or restart offset can make an executable anchor with a truncated history.", "quantifier": "all DAGs, all sequences of commits, drops, removals and gap resets made the way the engine makes them", "why_tests_cant": "A truncated history needs a particular combination of gap position, window and anchor round.", "anchors": ["consensus/src/dag/commit/mod.rs:init,drop_upto,remove_committed,dequeue_anchor", "consensus/src/dag/commit/back.rs:gather_uncommitted", "consensus/src/engine/impl_.rs"]}
{"id": "C35", "title": "Nodes agree on the content and order of every executable anchor history", "statement": "Two nodes that both mark the same anchor executable and committed the same anchors within its history window emit the identical list of points for it, irrespective of hash map iteration order, the batching of commits, gaps and where their DAGs begin.", "quantifier": "all DAGs and pairs of executions", "why_tests_cant": "Divergence depends on hash seeds and on schedules of two nodes.", "anchors": ["consensus/src/dag/commit/back.rs:gather_uncommitted", "consensus/src/dag/commit/mod.rs"]}
{"id": "C36", "title": "Cumulative-statistics ranges cover exactly the unprocessed known messages", "statement": "The ranges computed from all shards' processed-to positions contain a message of a shard exactly when some partition of some shard that tracks that shard has not processed it and its logical time is at most the shard's known end time; every tracked shard gets exactly one range; the table of all shards' positions holds the current shard's (and, for shard blocks, the masterchain's) fresh positions and the masterchain state's positions for the others.", "quantifier": "all processed-to tables (in any hash-map order), shards, end times and message keys", "why_tests_cant": "Ranges over all tables, partitions, shards and keys.", "anchors": ["collator/src/internal_queue/types/ranges.rs: compute_cumulative_stats_ranges", "collator/src/types/processed_upto.rs: build_all_shards_processed_to_by_partitions, find_min_processed_to_by_shards"]}
{"id": "C37", "title": "Persistent queue state format round-trips and is accepted only when well-formed", "statement": "Writing a queue state (header with a chain of diffs, message chunks) and reading it back yields the same state and consumes exactly the written bytes; anything the reader accepts is a header satisfying the diff and chain rules followed by at most ten million chunks of at most 100 MiB each, each padded to four bytes (padding content is not checked).", "quantifier": "all queue states and all byte strings offered to the reader", "why_tests_cant": "Acceptance is a statement about every byte string.", "anchors": ["block-util/src/queue/proto.rs: QueueState, QueueStateHeader, state_messages_list", "util/src/tl.rs: BigBytes, BigBytesRef"]}
{"id": "C38", "title": "Queue statistics tables are exact counters with rollback", "statement": "A tracked queue statistics table, under any sequence of append, decrement_for_account, begin, commit and rollback, answers every lookup and iteration with the counters those operations define (rollback restores the counters at begin, commit keeps them), its tracked total is the sum of the listed counts of the tracked shard, and it panics exactly when a counter would go below zero or a transaction is begun twice or ended without being begun.", "quantifier": "all operation sequences, all accounts, all shard membership functions", "why_tests_cant": "The overlay of a transaction over a base map has to agree with plain counters for every interleaving of operations, including removal of zero entries.", "anchors": ["collator/src/internal_queue/types/stats.rs QueueStatistics, StatisticsView", "collator/src/collator/statistics/queue.rs TrackedQueueStatistics"]}
{"id": "C39", "title": "Cumulative statistics count exactly the unprocessed messages", "statement": "After any history of applied diffs, processed-to updates, reads and transactions, the initial statistics of a partition give for every account the number of messages in the applied (not rolled back) diffs that the destination shard has not processed according to the positions in force; the remaining statistics give the same for other shards' accounts and, for the own shard, the received messages minus those read; the aggregate is the sum over partitions; no operation panics.", "quantifier": "all histories with disjoint destination shards and positions that do not move back, all partitions and accounts", "why_tests_cant": "Decrements are staged inside transactions and retained later; a double or missed decrement depends on the order of updates, diffs, commits and rollbacks.", "anchors": ["collator/src/collator/statistics/cumulative.rs CumulativeStatistics"]}
{"id": "C40", "title": "A completed block validation carries a two-thirds quorum", "statement": "When validate_block returns Complete, its signatures are of distinct members of the validator set, the node itself included, each verifies for exactly that block, the reported weight is their exact total and exceeds two thirds of the weight of the whole set; any two completed validations over one set, on any nodes, share signers of more than one third of the weight; the call never panics or runs out of validators to ask.", "quantifier": "all validator sets whose doubled weight fits u64, all interleavings of validate_block, signature RPCs with arbitrary payloads, fetched answers, cancel and cancel_until", "why_tests_cant": "Signatures arrive by three concurrent paths (cache, RPC, fetch) with compare-and-swap races; quorum intersection is about all pairs of executions.", "anchors": ["collator/src/validator/impls/std_impl/session.rs ValidatorSession::new, validate_block, reuse_signatures, receive_signature, add_signature"]}
{"id": "C41", "title": "One validated block per seqno and no equivocation", "statement": "In one session at most one validate_block call per seqno ever returns Complete. Every signature of its own the node sends to a peer for a seqno is for a block of that seqno that was submitted to validate_block, and as long as no cancellation has covered the seqno all of them are for the same block.", "quantifier": "all interleavings of any number of concurrent validate_block calls for the same or different blocks, RPCs and cancellations", "why_tests_cant": "Depends on the order of the insertion into the block tree, the second cancellation check, removals by cancel_until and concurrent RPCs.", "anchors": ["collator/src/validator/impls/std_impl/session.rs validate_block, cancel_until, exchange_signatures"]}
{"id": "C42", "title": "Accepted peer signatures are valid, stable and counted exactly once", "statement": "Every signature the session accepts for a block is of another member of the set and verifies for that block; once accepted it is never dropped or replaced; when no addition is in flight the running weight equals the weight of the accepted signatures and the block is marked validated exactly when they exceed two thirds; a peer gets the node's signature only after its own signature for the block was accepted or the block has a quorum.", "quantifier": "all interleavings, all peer behaviours", "why_tests_cant": "The slot is filled, the weight added and the flag set by separate atomic operations of racing threads.", "anchors": ["collator/src/validator/impls/std_impl/session.rs SessionState::add_signature, BlockSignaturesBuilder::build, exchange_signatures"]}
{"id": "C43", "title": "Cancelling block validation is never lost and never overreaches", "statement": "cancel and cancel_until always return; after one has returned, every validate_block call for a covered seqno, wherever it was at the time and also if made later, can return by its own steps alone, and one that is waiting for signatures sees the cancellation at once; validate_block returns Skipped only for seqnos covered by some cancellation.", "quantifier": "all interleavings, every point of validate_block at which the cancellation may run", "why_tests_cant": "A registration that slips between the two checks and the scan of the block tree would wait for ever; tests cannot place the cancellation at every point.", "anchors": ["collator/src/validator/impls/std_impl/session.rs cancel, cancel_until, validate_block"]}
{"id": "C44", "title": "Masterchain blocks are followed in order, without gaps, across restarts", "statement": "Whatever the schedule of downloads, preparations and handlers, and wherever the process dies, the masterchain blocks recorded as processed form one chain from the initial block, each one the successor of the one before with seqnos growing by one; every download, preparation, handler call and commit made for a masterchain block is made for the successor of the last recorded one; the storage holds exactly the operations that completed and survived.", "quantifier": "all interleavings of the shard tasks and of the master task, every number of crashes at every point keeping any prefix of the writes, all block graphs", "why_tests_cant": "The order is produced by concurrent futures and by the persisted position; tests run one schedule and no crash points.", "anchors": ["core/src/block_strider/mod.rs BlockStrider::run, fetch_next_master_block, process_mc_block, process_shard_blocks", "core/src/block_strider/state.rs PersistentBlockStriderState"]}
{"id": "C45", "title": "A block is handled only after everything it depends on", "statement": "A masterchain block is handled and committed only after each block of each of its shards down to already processed blocks was handled and recorded; a shard block is handled only after its own preparation and after its predecessor in the shard was handled; a commit record is only ever written when all that work is recorded before it in the surviving storage; preparation of a block starts only after the preparation of its predecessor ended.", "quantifier": "all interleavings, crash points and block graphs (without following ancestry over splits and merges, as in the code)", "why_tests_cant": "Shards are processed by concurrent tasks and a restart resumes from partially committed shards.", "anchors": ["core/src/block_strider/mod.rs download_shard_blocks, process_shard_blocks, ShardBlocks, ShardsProcessor"]}
{"id": "C46", "title": "Committed blocks are not processed again", "statement": "No block already recorded as committed is ever downloaded, prepared or handled again; and in one life of the process no block is handled twice, as long as every shard commit found its block handle.", "quantifier": "all interleavings, crash points and block graphs", "why_tests_cant": "Needs an induction over histories with restarts.", "anchors": ["core/src/block_strider/mod.rs", "core/src/block_strider/state.rs is_committed, commit_shard"]}
{"id": "C47", "title": "The strider makes progress on shallow masterchain blocks, and only on those", "statement": "While no operation fails, a masterchain block that needs fewer than 32 unprocessed blocks in each shard is completed within a bounded number of steps under every schedule, and some step is always possible; a masterchain block with 32 or more unprocessed blocks in one shard is never handled or committed, in any life of the process.", "quantifier": "all interleavings; for the second part also all crash points", "why_tests_cant": "Termination under every schedule and impossibility over all histories are not testable.", "anchors": ["core/src/block_strider/mod.rs ShardBlocks::push, MAX_DEPTH, process_shard_blocks"]}
{"id": "C48", "title": "Chained block providers switch once, in order, and release the first provider safely", "statement": "With any number of concurrent calls: the right provider is asked for nothing before the left one answered None to a get_next_block; no call begun after the right one was first asked asks the left one for a block; the left one is dropped only after its own successful cleanup for a masterchain seqno above the last block it gave, and nothing is asked from it afterwards; a cleanup that reached the right provider and returned has released the left one, unless that one was asked for a block not yet cleaned up; answers are passed through unchanged and get_next_block is empty only if the right provider is empty.", "quantifier": "all interleavings of any number of concurrent calls, all answers of the two providers, seqnos below u32::MAX - 1", "why_tests_cant": "The switch is two separate atomics read and written by racing calls.", "anchors": ["core/src/block_strider/provider/mod.rs ChainBlockProvider"]}
{"id": "C49", "title": "Cycled block providers stick to the provider that works, and alternate when it does not", "statement": "Driven by the strider loop: the first request for a block goes to the provider that gave the block before; after every empty answer the other provider is asked at once, so both are asked in turn and the call never gives up; shard blocks are asked from the provider that gave their masterchain block, unless both the request that produced that block and the request for the block after it were answered empty at least once (in which case the documented claim fails).", "quantifier": "all interleavings of the prefetch with shard requests and cleanups, all answers, seqnos below u32::MAX - 1", "why_tests_cant": "The prefetch changes the switching state while the previous block is still in work.", "anchors": ["core/src/block_strider/provider/mod.rs CycleBlockProvider", "core/src/block_strider/mod.rs BlockStrider::run"]}
{"id": "C50", "title": "Racing and retrying providers do not lose blocks", "statement": "Racing any number of provider futures returns a block of one that finishes earliest among those that give one, the first in the tuple on a tie, and is empty only when all are empty; a block given by any of them is never lost. A retrying provider returns the first block within attempts + 1 requests, makes no request after it and is empty only after attempts + 1 empty answers.", "quantifier": "all numbers of futures, all finishing times and answers, all retry limits", "why_tests_cant": "Quantifies over all orders of completion.", "anchors": ["core/src/block_strider/provider/futures.rs SelectNonEmptyFut", "core/src/block_strider/provider/mod.rs RetryBlockProvider, impl_provider_tuple"]}
{"id": "C51", "title": "A masterchain block proof is accepted only with signatures of more than two thirds of the right validators", "statement": "If check_with_prev_key_block_proof or check_with_master_state accepts a proof, then distinct members of the masterchain subset of the validator set found in the referenced key block (or state) with more than two thirds of the total weight signed exactly its root and file hash; the referenced key block is a key block, its seqno is the prev_key_block_seqno of the header and is below the seqno of the block, and the header with the given root hash agrees with the block id. Exactly two thirds do not suffice; a quorum gathered by a validator session passes. Two blocks accepted with the same set have common signers of more than one third of the weight.", "quantifier": "all proofs, headers, validator sets, signature dictionaries and weights", "why_tests_cant": "Soundness of a check over all forged inputs.", "anchors": ["block-util/src/block/block_proof_stuff.rs BlockProofStuff", "core/src/block_strider/provider/mod.rs ProofChecker"]}
{"id": "C52", "title": "Nodes that start from one zerostate do not accept two masterchain blocks of one seqno", "statement": "If in every validator set of the zerostate and of the accepted key blocks the validators that sign two blocks of one seqno, or skip a key block, have at most one third of the weight, then any two nodes (any histories of ProofChecker::check_proof calls, stored proofs and cached key blocks) accept at most one block id per seqno, and no accepted block skips an accepted key block. The checker's caches do not change the result of a check, and a check that passed gives the proof of the requested block with the hash of the given queue diff.", "quantifier": "all histories of checks on any number of nodes, all proofs given by peers", "why_tests_cant": "A fork would need an adversarial history of key blocks; quantifies over all of them.", "anchors": ["core/src/block_strider/provider/mod.rs ProofChecker", "block-util/src/block/block_proof_stuff.rs BlockProofStuff"]}
{"id": "C53", "title": "Certificates of mempool points reach exactly the history under a proved point", "statement": "With any number of threads calling certify, set_deps and set_committed concurrently, in any order and with certificates dropped at any time: a certified point is at most commit_history_rounds rounds below a point on which certify was called (one round per include, two per witness); once no call is under way every such point, found through certificates not dropped, is certified, so the result does not depend on the order of the calls; has_proof holds exactly for the points certify was called on; dependencies are set at most once and never read before they are set; set_committed succeeds at most once per point and only on certified ones; marks are never taken back; every call ends and none blocks another.", "quantifier": "all interleavings of any number of calls at the granularity of single atomic accesses, all dependency graphs, all drops, commit_history_rounds 1..=255", "why_tests_cant": "Lock-free code: the races cannot be enumerated by tests.", "anchors": ["consensus/src/models/cert.rs Cert, CertInner, CertDirectRefs::traverse_certify"]}
{"id": "C54", "title": "The collator's anchors cache hands out every external-bearing anchor once, in order", "statement": "In any history of imports, pops, cuts, resets and transactions: a transaction that is dropped or rolled back leaves the cache exactly as it was, a committed one as the same calls made directly; waiting anchors are the mempool's own anchors with externals for this shard, in its order; popping takes the oldest; cutting at a chain time drops exactly the younger ones; the read-only lookup of the last imported anchor agrees with what the cut will leave. After a successful initial import, in any collation flow, the anchors handed out for good followed by those still waiting are exactly the mempool's anchors with externals for this shard from processed_to on up to the last imported one: each once, none skipped. The initial import ends, and succeeds when the mempool has processed_to and an anchor reaching the last block time.", "quantifier": "all mempool chains, cache histories, transaction contents, commit/drop points, mempool failures", "why_tests_cant": "The cache is reused across forks and cancelled attempts; no test enumerates the histories.", "anchors": ["collator/src/collator/anchors_cache.rs AnchorsCache, AnchorsCacheTransaction", "collator/src/collator/mod.rs import_next_anchor, import_init_anchors"]}
{"id": "C55", "title": "The mempool adapter's cache answers by id and by predecessor, and never loses a wake-up", "statement": "For any interleaving of pushes, closing, reopening, clearing, notifications and readers: get_anchor_by_id returns the anchor exactly when it is cached and visible, says it will not come exactly when a later visible one is cached and it is not, and otherwise waits; get_next_anchor returns the successor of the given anchor, with nothing the mempool produced in between while that anchor is cached, and is never refused then; no reader gets an anchor past the id at which the cache was closed; clearing and reopening drop exactly the anchors they say; a repeated push changes nothing and is refused exactly when it differs; no notification is lost: a reader sleeping with no notification outstanding has nothing to return, and one whose answer is there finishes within three of its own steps.", "quantifier": "all interleavings of any number of readers and writers, all chains", "why_tests_cant": "Lost wake-ups are races between subscription, lock and notification.", "anchors": ["collator/src/mempool/impls/common/cache.rs Cache push, close, reopen, clear, get_anchor_by_id, get_next_anchor"]}
{"id": "C56", "title": "The stored status of a mempool point does not depend on how the database joins its records", "statement": "Status records are only ever merged. For any set of written records, in any order, repeated any number of times, some unreadable, and joined by the database in any adjacent groups at any time, the node reads the same status: the highest-priority kind written, proof and first-valid marks if any record had them, all anchor flags, and the latest commit. Joining never produces an unreadable record and never loses a commit or a mark.", "quantifier": "all lists of byte records, orders, repetitions and groupings", "why_tests_cant": "RocksDB chooses the groups; a test sees one grouping.", "anchors": ["consensus/src/models/point_status/all_stored.rs merge_bytes, read_flags, decode", "consensus/src/models/point_status/*.rs write_to, fill, read", "consensus/src/storage/tables.rs points_status_merge"]}
{"id": "C57", "title": "A node signs at most one point per author and round while it runs, and keeps to its answers", "statement": "In any interleaving of broadcasts, downloads, forks, validations, statuses being stored, signature requests, rejections and restarts: at most one point of an author at a round is signed between two starts; all answers given agree, and after a rejection nothing is signed; the signed point is the first valid one, counted once towards its round, and no fork is counted; a signature is made only on a request with a key, at the point's round or the next, for a time ahead of the clock by less than the skew; no assertion fails; at most one stored record is marked first valid.", "quantifier": "all interleavings of any number of tasks, calls and restarts", "why_tests_cant": "The once-cells are raced by broadcast, download and signature tasks.", "anchors": ["consensus/src/dag/dag_location.rs InclusionState, Signable", "consensus/src/dag/dag_point_future.rs", "consensus/src/engine/impl_.rs restore", "consensus/src/models/point_restore.rs restore_order_asc"]}
{"id": "C58", "title": "Over all restarts a node signs one point per author and round", "statement": "Whatever the crash points, all signatures a node ever gives for one author and round are for one point.", "quantifier": "all histories with crashes at any step, with and without a history reset", "why_tests_cant": "Needs crashes between two specific steps in two runs.", "anchors": ["consensus/src/dag/dag_location.rs acquire, acquire_restore", "consensus/src/dag/dag_point_future.rs new_restore", "consensus/src/storage/store.rs set_status, reset_statuses"]}
{"id": "C59", "title": "Collecting messages into groups loses, repeats and reorders none", "statement": "For every buffer, group, filter, account check and slot limits: filling a group never panics; for each account a prefix of its waiting messages, in order, is appended to the group and the others keep waiting in order; only expired external messages may be dropped, and each drop is counted; an account refused by the check or already reported is untouched; slots hold different accounts, at most the allowed number of messages and slots, and all counters are the numbers of messages. Over any history of additions, fills and removals, the messages of an account leave in the order they came, all internal ones included.", "quantifier": "all buffers, groups, filters, checks, limits and histories", "why_tests_cant": "The outcome depends on the slot occupancy left by earlier calls and on the account checks.", "anchors": ["collator/src/collator/messages_buffer.rs MessagesBuffer::add_message, fill_message_group, remove_int_messages_by_accounts, MessageGroup::add, SaturatingAddAssign", "collator/src/collator/messages_reader/externals_reader.rs", "collator/src/collator/messages_reader/internals_range_reader.rs"]}
{"id": "C60", "title": "A cancelled collation leaves the message buffers as they were", "statement": "Begin a transaction on a buffer, do any additions, fills and removals, then roll back: every account has the messages it had, in the same order, and all counters are back. With a commit the buffer is what the same operations give without a transaction. Both always succeed after a begin.", "quantifier": "all buffers and all lists of operations", "why_tests_cant": "Rollback keeps only the queues that were touched; a missed save shows in one order only.", "anchors": ["collator/src/collator/messages_buffer.rs begin, commit, rollback, save_original"]}
{"id": "C61", "title": "A group is not left with room while its messages wait", "statement": "After a fill, if messages of an account that is not refused still wait, then either the account's slot is full, or the group has all the slots asked for and every slot is full. When the group's own check says full, every slot is full and no slot is missing.", "quantifier": "all buffers, groups, checks and limits", "why_tests_cant": "Depends on the slot index left by earlier calls.", "anchors": ["collator/src/collator/messages_buffer.rs fill_message_group, MessageGroup::check_is_filled"]}
{"id": "C62", "title": "Reference counters read back what was written", "statement": "For every history of the compact reference counters (allocation of row numbers, batches of updates pushed in any order, snapshots read back after a restart): the count of an existing row is the one last written, whatever its size; the number of live rows is exact; a newly allocated row number is not in use; a snapshot is always readable and gives the same counts.", "quantifier": "all histories of allocations, update batches and reloads, all counts below 2^64", "why_tests_cant": "Counts move between an implicit one, bitmaps of several levels and a map as they grow and shrink; only some sequences visit each move.", "anchors": ["core/src/storage/shard_state/counters.rs CellCounters, CountersBatch, serialize, deserialize"]}
{"id": "C63", "title": "The cell nursery survives a crash at any point", "statement": "For every history of stores, removals, flushes and checkpoints and a process crash at any point of any of them (in the middle of a log append or of a checkpoint file, between the files and the RocksDB batch, during recovery): the storage opens again and shows exactly the cells of the operations whose RocksDB batch was written, each readable with its data, none twice; no internal assertion aborts the process; cells move to RocksDB rows exactly when they are 100 rounds old; a damaged checkpoint file is refused.", "quantifier": "all histories and crash points of a process", "why_tests_cant": "A crash can hit between any two of the file and database writes; the combinations of torn tails, stale checkpoints and promotions are unbounded.", "anchors": ["core/src/storage/shard_state/nursery_persistence/mod.rs NurseryPersistence::open, append_commit, checkpoint_if_needed, replay_wal", "core/src/storage/shard_state/nursery_persistence/format.rs encode_record, decode_record", "core/src/storage/shard_state/cell_nursery.rs CellNursery", "core/src/storage/shard_state/row_format.rs"]}
{"id": "C64", "title": "Stored states share cells without losing or leaking any", "statement": "For every history of storing and removing states (in parallel threads, any schedule), flushes, cache loads and evictions, and crashes: every cell of every stored state can be loaded with its content; what can be loaded is exactly what some still-counted root needs; every counter equals the number of references; storing and removing never abort, fail or run forever; and, unless the node dies between writing a state and marking its block handle, a cell exists only while some stored state needs it.", "quantifier": "all histories of states over all cell graphs without cycles, all thread schedules, all split sets that are met once", "why_tests_cant": "Sharing patterns, thread interleavings and the order of removals are unbounded; a single missed or doubled reference only shows when another state disappears later.", "anchors": ["core/src/storage/shard_state/cell_storage.rs store_cell_mt, remove_cell_mt, get_raw_idx_for_insert, get_raw_idx_for_delete, RemovedCell::add_removes, prepare_persistent_state_save", "core/src/storage/shard_state/mod.rs store_state_root, remove_outdated_states"]}
{"id": "C65", "title": "A state in memory holds back garbage collection", "statement": "For any number of threads making and dropping handles in any interleaving: while a handle with masterchain seqno s exists, the tracker reports some seqno not above s; what it reports is the seqno of an existing handle or of one whose drop is still running; when nothing is running it is exactly the least one, and none when there are no handles; and of two handles the safer one protects what both protect.", "quantifier": "all interleavings of any number of insertions and drops, with fewer than 2^32 handles at a time", "why_tests_cant": "The counter is changed under a read lock and the entry is removed later under a write lock; a handle made between the two appears only under particular interleavings.", "anchors": ["block-util/src/state/min_ref_mc_state.rs MinRefMcStateTracker::seqno, insert, insert_seqno, Inner::insert, Inner::remove, RefMcStateHandle::min_safe"]}
{"id": "C66", "title": "States garbage collection keeps every state that is still needed", "statement": "For every history of stored blocks and states, GC runs interleaved step by step with everything else, tracked states in memory, flags and restarts: a stored block that is not older than the edges of the runs (a masterchain block at or after the edge block; a shard block that is or descends from a top shard block of the edge block) loads exactly as if GC had never run, from a direct state fewer than `store_shard_state_step` blocks away and the updates of the blocks after it; nothing with seqno 0, nothing flagged and nothing at or after the edge is removed; the edge is not above the requested seqno nor above what any tracked state in memory needs; a run that nothing interferes with removes exactly the rest; without a known edge or without a direct state for a shard nothing is removed.", "quantifier": "all histories of blocks, stores, flag changes, GC runs, tracker operations and restarts; all contents of blocks without splits and merges; any store step", "why_tests_cant": "The state of a block is rebuilt from an older one, so removing one table row too many shows only later, for particular distances between direct states and particular edges.", "anchors": ["core/src/storage/shard_state/mod.rs remove_outdated_states, compute_recent_blocks, find_mc_block_id, load_state_ext, load_state_or_update, load_prev_state_root_no_cache, begin_store_next_state", "block-util/src/block/top_blocks.rs ShardHeights::contains_shard_seqno_ext, TopBlocks::contains_shard_seqno"]}
{"id": "C67", "title": "A verified mempool point is well-formed and backed by quorums", "statement": "The basic verifier accepts a point (other than the genesis) exactly when: its round is after the genesis; the author is a peer of the round; it includes points of at least 2F+1 distinct peers of the previous round (or the single genesis); its witnesses are by peers of the round before that and not by the author; it references the author's previous point if and only if it carries evidence, which is at least 2F signatures of other peers of the round; links to the anchor proof and trigger lead strictly back, not across the genesis, and through a listed dependency, authors of link targets being known; a chained proof is at least 3 rounds back; the number of sticky anchors is below the limit; the payload fits; the time is after the anchor time. The genesis is accepted only without dependencies, payload and evidence. Hence any two accepted points of one round have F+1 common include authors, and two accepted points of one author and round are backed by at least F common signers.", "quantifier": "all points, peer sets per round, configurations", "why_tests_cant": "The set of malformed points is unbounded; a missed case admits a point that breaks the quorum argument of the whole DAG.", "anchors": ["consensus/src/dag/verifier.rs Verifier::verify, BasicVerifier", "consensus/src/models/point/data.rs check_non_genesis_structure, indirect_link_error, is_proof_link_ok", "consensus/src/models/point/info.rs check_structure, check_evidence", "consensus/src/models/point/link.rs"]}
{"id": "C68", "title": "Validity of mempool points is consistent along the DAG", "statement": "For every history of judgements on a node, of any points received in any order with any interleaving, dropped rounds, points not found, rolled back or reloaded after a restart: a point that passes validation (Valid or TransInvalid) had all its dependencies found and well-formed, of earlier rounds, not too far in the future, and none knows a newer anchor trigger or proof than the point; its link to a trigger or proof can be followed through dependencies with the same destination to a point which is that trigger or proof (or to a point that was judged invalid), and the anchor time of the point is the time of the candidate that proof was made for; the trigger belongs to the proof the point takes over; the previous point of the author was certified and earlier in time, and right after a proof comes a trigger; an anchor proof is by the leader of a round that is 1 modulo 3, one author per round on all nodes, and is chained to the newest proof that its dependencies know; sticky anchors are a run of own points, shorter than the limit, that starts at a proof by the leader; a point that depends on an invalid one through uncertified points is not Valid for MAX_HISTORY rounds after it, and every TransInvalid point has a chain of uncertified reads to the invalid point its root cause names; the verdict does not depend on the order in which dependencies resolve; validation of a verified point never panics.", "quantifier": "all histories of verified, ill-formed, missing, dropped, rolled back and reloaded points; all configurations, peer schedules and leader schedules", "why_tests_cant": "Holds by induction over an unbounded DAG; tests look at single points with given dependencies.", "anchors": ["consensus/src/dag/verifier.rs Verifier::validate, check_deps, check_indirect_links, dependency, is_proof_ok, check_trigger_target", "consensus/src/dag/proof_leader.rs ProofLeader, align_genesis", "consensus/src/dag/dag_point_future.rs acquire_validated, from_restore", "consensus/src/models/dag_point.rs DagPoint", "consensus/src/models/point/data.rs anchor_link, anchor_id, is_proof_link_ok", "consensus/src/models/point/info.rs chained_anchor_proof_to_through, trigger_bound_proof_id"]}
{"id": "C69", "title": "The collator's blocks cache holds one block per height and the network's block wins", "statement": "For every sequence of calls on the cache: at most one block is held per chain and height, and it is a block of that chain and height; a block received from the network is skipped exactly when its height is not above the known one, and otherwise is the block held from then on; mismatch is reported exactly when another block was held there, received-and-collated exactly when the same one was; an own candidate never replaces a received block, and fails exactly when an own candidate is already held; a block known to be on chain is never exchanged while the height is held; heights accepted from the network strictly increase per chain; after a mismatch the reported last own master block lies below the received block (or below the master block it belongs to); the reported last own master block was stored by the node and agrees with the block held at its height; a pop only takes blocks that are on chain.", "quantifier": "all sequences of store_collated, store_received, validation results, pops, extractions, garbage collections and removals, with any blocks", "why_tests_cant": "The state is a race between own collation and blocks from the network in any order; a wrong branch forks the node only in rare orders.", "anchors": ["collator/src/manager/blocks_cache.rs BlocksCache, BlocksCacheGroup::store_collated_block, store_received_block, check_refresh_last_known_synced", "collator/src/manager/types.rs BlockCacheEntry, BlockCacheEntryData, CandidateStatus"]}
{"id": "C70", "title": "Taking a master block out of the cache takes exactly its shard blocks", "statement": "Whenever pop or extraction returns a master block with shard blocks: the master block is the one held at its height; a shard block is returned if and only if it belongs to the master block, that is, it is reachable from the newly included top shard blocks over predecessors that are held and refer to the same master block; none is returned twice; everything returned has left the cache and counts as known, so that receiving it again is skipped; nothing else leaves the cache but blocks at heights named as predecessor or top; and, when no block of the subgraph has two successors, predecessors come before successors.", "quantifier": "all reachable caches, any shape of the shard graph and any links", "why_tests_cant": "The walk is over an arbitrary graph while it is being deleted; order and completeness need an invariant of the loop.", "anchors": ["collator/src/manager/blocks_cache.rs pop_front_applied_mc_block_subgraph, extract_mc_block_subgraph_for_sync, extract_mc_block_subgraph"]}
{"id": "C71", "title": "The range of waiting master blocks is the set of received blocks not processed yet", "statement": "At any moment the cache reports no range exactly when no received master block is waiting (received, and since then neither an own master block of that or a greater height was stored nor an on-chain one taken out), and otherwise a range that ends with the newest waiting block and covers all of them; with no gaps in the received heights it is exactly the waiting set. If collection boundaries and removals respect the waiting blocks, every one of them is held, and popping from the start of the range never fails: it takes the lowest waiting block, leaves exactly the others waiting, and the last flag is set exactly for the last one. A pop takes the first on-chain block from the given height.", "quantifier": "all sequences of calls; for the second part all those whose GC boundaries and removals spare waiting blocks", "why_tests_cant": "The range is kept incrementally by several calls that race with each other; sync decisions depend on it.", "anchors": ["collator/src/manager/blocks_cache.rs MasterBlocksCacheData move_range_start, move_range_end, pop_front_applied_mc_block_subgraph, gc_prev_blocks, remove_next_collated_blocks_from_cache, set_gc_to_boundary"]}
{"id": "C72", "title": "Only validated own master blocks are handed over, and shard fees are reported once", "statement": "A commit hands blocks over for application only if the master block is an own candidate, stored before, reported as validated and not known to be on chain; it then hands over that block with the signatures reported (for that very block if results come for the held candidate) and exactly the own shard blocks of its subgraph that are not on chain; the queue diff is committed and the anchor reported at once exactly for an on-chain block; validation results never change an on-chain block. The top shard blocks offered to the next master block are, for exactly the shards with a block for it, the highest such block, together with the sum of fees of all candidates of the shard accepted since the last report, so that reported plus unreported fees equal all fees earned as long as no reset happens.", "quantifier": "all sequences of calls", "why_tests_cant": "Depends on the whole history of candidates, validations and reports.", "anchors": ["collator/src/manager/commit.rs commit_valid_master_block, send_block_to_sync", "collator/src/manager/blocks_cache.rs store_master_block_validation_result, get_top_shard_blocks_info_for_mc_block, ShardBlocksCacheData, reset_top_shard_blocks_additional_info"]}
{"id": "C73", "title": "A node's own point is accepted by every node that holds its dependencies", "statement": "Whenever the node produces a point from verified dependencies and its memory of its own last point: the point passes the structural checks every peer applies to it (basic verification), its id is the round and the node; and every judge that has judged the point's dependencies and the targets of its links as valid, without an invalid point below them, judges the point valid, whatever the rest of its history. The links of the point are at least as new as those of each dependency.", "quantifier": "all validator sets of legal size, all dags and orders of iteration, all memories of the last point, clocks and payloads, all histories of the judge", "why_tests_cant": "The checks of the verifier relate the point to all its dependencies and to far link targets; a node whose own point is rejected panics.", "anchors": ["consensus/src/dag/producer.rs Producer::new_point, create, anchor_links, link_source, link, get_time, witness", "consensus/src/engine/round_task.rs own_point_task", "consensus/src/dag/verifier.rs BasicVerifier::verify, Verifier::validate", "consensus/src/dag/dag_point_future.rs new_local_valid"]}
{"id": "C74", "title": "A node makes at most one point per round, with the contents and the role it has to have", "statement": "A point is made only for a round after that of the last own point, and right after it only when the last one has signatures of 2F peers. It includes exactly the points that reached the threshold, and witnesses exactly the signed points of two rounds back that the last own point did not include (all but the own one after a pause). It is dated by the clock unless that is behind the anchor time or the own previous point, and always after both. A leader with no anchor proof in the last rounds makes one; an anchor proof is followed by sticky anchors as configured, then by the trigger; other points have no role. While the node's memory agrees with the dag the producer never panics and yields a point or reports missing signatures; each error has exactly its cause.", "quantifier": "all dags, memories, clocks, configurations", "why_tests_cant": "Roles depend on histories of rounds; a missed duty stalls the anchor chain, a doubled point is an equivocation.", "anchors": ["consensus/src/dag/producer.rs", "consensus/src/engine/round_task.rs own_point_task", "consensus/src/dag/threshold.rs get_reached"]}
{"id": "C75", "title": "The schedule attributes every round to the validators of its epoch", "statement": "Whatever order of validator updates, DAG progress, bans and network events a node goes through (updates may repeat, but do not skip an epoch), its schedule answers the validators of a round's own epoch for the last three epochs it was told of, with one and the same list, set and state table; for older rounds it answers either those or nobody, never another epoch's; nobody before genesis. Two nodes that started at different times agree on every round both still know. The node signs a round with its key only if it is a validator of it. Statistics are given for one epoch only, with slots that are the ranks of the validators by their position in the config. No call ever panics.", "quantifier": "all timelines of epochs, all start points, all histories of updates, rounds, bans, resolutions", "why_tests_cant": "The rotation of four slots happens at any moment relative to updates; an off by one epoch makes honest nodes reject each other's points.", "anchors": ["consensus/src/intercom/peer_schedule/epoch_starts.rs EpochStarts", "consensus/src/intercom/peer_schedule/stateless.rs PeerScheduleStateless", "consensus/src/intercom/peer_schedule/stateful.rs PeerScheduleStateful", "consensus/src/intercom/peer_schedule/impl_.rs PeerSchedule::init, set_peers, apply_scheduled", "consensus/src/intercom/peer_schedule/stats_ranges.rs"]}
{"id": "C76", "title": "A new validator set never takes over in a round that can already exist", "statement": "The switch round that a key block chooses is after every round the mempool can have reached (last processed anchor plus the allowed lag), rounds of the current epoch keep it; switch rounds never decrease and strictly grow once the current epoch was reached; from the switch on the new epoch and the one before it cover the whole history that the mempool keeps; with a new genesis the new set begins right after it.", "quantifier": "all consensus infos, processed anchors, configurations", "why_tests_cant": "Quantifies over all chains; a wrong bound gives points of one round to two validator sets.", "anchors": ["collator/src/collator/do_collate/finalize.rs vset_update_start, create_mc_state_extra"]}
{"id": "C77", "title": "Bans and resolution of peers: contacts, receivers of broadcasts, waiting", "statement": "In every history the node keeps contact exactly with the validators of the epochs it keeps that are not banned; a validator shown as resolved has a known address, is not banned and is not the node itself; a contact with an unknown address is always waited for, and when it becomes known the peer is resolved in every round where it is a validator. A ban works at once in every epoch, lifting it restores the peer. Broadcasts go to every resolved validator of the current and the next epoch; every receiver is one of these or, while no next epoch is scheduled, a validator of the previous epoch.", "quantifier": "all histories of validator updates, rounds, bans, resolutions, all networks", "why_tests_cant": "Bans, rotations and resolutions interleave freely and touch four overlapping sets; tests cover single steps.", "anchors": ["consensus/src/intercom/peer_schedule/locked.rs PeerScheduleLocked", "consensus/src/intercom/peer_schedule/stateful.rs set_state, set_next_validator_set, forget_oldest", "consensus/src/intercom/peer_schedule/impl_.rs set_banned, remove_bans, resolve_peers_task"]}
{"id": "C78", "title": "Broadcasting the own point: evidence is genuine, nobody is forgotten, nobody is asked twice", "statement": "While a node broadcasts its point, in this round and after it, the evidence it gathers consists of correct signatures of validators of the next round, at most one of each, and not of the author. The point goes at once to every receiver but the author. A peer has at most one query of ours at a time. A validator of the next round that the node was told of and that is not out is never forgotten: it has a query, is queued for the next attempt, has rejected the point or has signed it; at each attempt the queued ones are asked again; when the counter of attempts wraps, the point is broadcast anew. Once a peer is out no query to it begins. If nobody comes online meanwhile and the counters do not wrap, a peer is in one of these states only, so that 2F signatures rule out F+1 rejections of validators. No answer, update or timer makes the broadcast panic.", "quantifier": "all validator sets and receivers, all orders of answers, errors, peer updates, attempts and the end of the round", "why_tests_cant": "Answers of many peers interleave with retries, peer updates and the end of the round; a peer lost from all queues would only show as a rare stall.", "anchors": ["consensus/src/intercom/broadcast/broadcaster.rs Broadcaster", "consensus/src/intercom/broadcast/collector.rs", "consensus/src/engine/round_task.rs own_point_task, run"]}
{"id": "C79", "title": "A round ends only for a reason", "statement": "The broadcaster signals once: approval only if there is no own point or after the minimal number of attempts with 2F signatures and less than F+1 rejections, failure only with F+1 rejections; and it does so at the first status for which this holds. The collector ends the round only if enough points of the round are validated and the approval came, or the failure came, or the consensus or the known anchors are further than the round; when both conditions hold it ends at once, and it ends once.", "quantifier": "all interleavings of the collector, the broadcaster, the points of others, the timers and the watched rounds", "why_tests_cant": "Two tasks talk over a watch and a oneshot channel; the order of their events is up to the scheduler.", "anchors": ["consensus/src/intercom/broadcast/broadcaster.rs should_finish", "consensus/src/intercom/broadcast/collector.rs CollectorTask::run, should_fail, is_ready, match_watched_rounds"]}
{"id": "C80", "title": "The download limiter: no more than the permitted number at a time, newest rounds first, no permit lost", "statement": "With p permits (1 to 65535) there are never more than p guards at a time, whatever the order of calls of enter, their cancellation at any moment and the drops of guards; nothing panics. Each permit is free, in a guard or on its way to a call, so that after all calls and guards are gone the limiter is as new. No call waits while a permit is free, and if all runnable tasks have run a call waits only because p guards are held. A dropped guard serves the waiting round that is the highest, within it the call that waits longest; it becomes a free permit only if no call needs it. Without new calls the work is bounded, and from every state all the pending calls can be served.", "quantifier": "all numbers of permits, all rounds, all interleavings of calls, polls, cancellations, cleanups and drops of guards", "why_tests_cant": "A permit leaks or is duplicated only if a cancellation falls between a grant and the poll of the granted task, possibly after the entry of the round was removed and made again; the repository's tests run a few hundred tasks without cancellation.", "anchors": ["consensus/src/intercom/dependency/limiter.rs Limiter, LimiterInner, Waiter, LimiterGuard"]}
{"id": "C81", "title": "The downloader: asks only resolved peers, each once at a time, gives up only after 2F denials, returns only the point", "statement": "A download of a point never panics. It asks only signers and the author, only while they were last reported resolved, a peer once at a time and at most once in an attempt, and at most F + 1 peers are asked at a time. At a tick it asks as many as the attempt allows or all that may be asked, those first that were asked longest ago, then with fewer failures, then those that depend on the point. A peer that gave a definite answer is not asked again. NotFound is returned only after 2F different signers answered that they do not have the point or sent something else, and at the latest when the 2F-th such answer is handled; while the search goes on, a signer other than the node itself can still answer. A verified result is the requested point, sent by an asked peer and accepted by the verifier; the requested point ends the search as soon as it is parsed. The result of a broadcast or the end of the peer updates ends it too.", "quantifier": "all validator sets of legal size, all peer states, dependers, updates, answers in any order, verdicts and ticks", "why_tests_cant": "Depends on the order of answers, ticks, parsing and peer updates over a whole download; the repository's tests check the peer queue on a few peers and the arithmetic of current_peers.", "anchors": ["consensus/src/intercom/dependency/downloader.rs Downloader::run, DownloadTask, current_peers, parse", "consensus/src/intercom/dependency/peer_queue.rs PeerQueue, PeerStatus", "consensus/src/utils (ValueOrderedMap)"]}
{"id": "C82", "title": "Rate limits between peers: honest peers are not rejected hard, nobody exceeds twice the rate, permits are neither lost nor duplicated", "statement": "A bucket passes at most twice its tokens within any interval of one window and at most k times its tokens in k windows from its creation, whatever the order of calls. A peer whose calls within any window are at most the tokens always passes; if they are at most the tokens plus the soft rejections it is never rejected hard. A call is rejected hard exactly if the configured number of calls was rejected since the last that passed. The receiver answers the calls of each kind of each peer as one bucket, whatever other peers do; a call within the rate is rejected only softly and only while all permits of that peer are held. If a sender limits itself with the same configuration and its calls arrive after equal delays, it is never rejected hard. A download query is served exactly while fewer than the configured number of the same peer are served. Every permit is free or held; peers do not share permits.", "quantifier": "all configurations, all sequences of calls at any instants, drops of permits and removals of peers", "why_tests_cant": "The worst cases are particular alignments of calls with refills of the two buckets at sender and receiver; the repository's tests fill one bucket at a few instants.", "anchors": ["consensus/src/intercom/core/query/token_bucket.rs TokenBucket, SoftTokenBucket", "consensus/src/intercom/core/query/permit.rs QueryPermits", "consensus/src/intercom/core/bcast_rate_limit.rs BcastReceiverLimits, BcastSenderLimits, bcast_config, sig_config", "consensus/src/intercom/core/download_rate_limit.rs UploaderLimits"]}
{"id": "C83", "title": "Limits of requests of addresses: the rate is kept, who stays in it is served, the cooldown is exact", "statement": "In any window of d milliseconds no more calls of one key and one class are allowed than the burst and one per interval (hence no more than the burst and the rate times d), whatever other keys and classes do. A key whose calls stay within the limits of all classes is never refused, from its first call and again after it rested. A refused call is told exactly how long to wait. As many refusals in a row as the threshold shut the key out for exactly the cooldown from the last of them, and calls in between do not prolong it; without such a run each class is answered by its own bucket alone. Removing expired entries cannot be noticed. Calls of one bucket that overlap are answered as if one after the other. No network of addresses holds more streams than the limit, a stream is refused exactly at the limit, and nothing is kept for addresses without open streams.", "quantifier": "all limits and configurations, all sequences of calls of any keys and classes at nondecreasing instants, all interleavings of overlapping calls of a bucket, all sequences of opened and closed streams", "why_tests_cant": "The worst case depends on how calls align with the refill of the bucket, on which entries expired and on races of exchanges; the repository's tests make a few calls in a row.", "anchors": ["util/src/rate_limit.rs RateLimiter, PeerLimiter, AtomicBucket, RateLimitConfig::normalize, TrafficLimit::normalize", "rpc/src/endpoint/rate_limits.rs RpcRateLimiter, ActiveStreamLimiter, ActiveStreamGuard", "rpc/src/util/ip.rs normalize_ip", "network/src/overlay/rate_limits.rs PolicyRateLimiter::check"]}
{"id": "C84", "title": "Known peers: the newest info is kept, all handles of a peer agree, a peer is known exactly while there is a handle of it, bans and affinity", "statement": "For calls made one after another every answer is that of a simple table of peers and handles. The info of an accepted call is taken exactly if it is newer than what is known, and what is known of a peer does not get older while the peer is known. All handles of a peer show the same info, ban and affinity, which are what the table shows. A peer is known exactly as long as there is a handle of it, and leaves nothing behind if it was never banned. A banned peer is refused by insertions, updates and requests for affinity; it stays banned with the info it had as long as it is known, and for good if it was not known when it was banned. A peer is wanted exactly if it is not banned and some handle of it holds an affinity.", "quantifier": "all histories of insertions, requests for handles, bans, updates, changes of affinity, clones and drops for any peers, without overlapping calls, in which insertions with affinity are not outdated and no affinity shared by clones is given back before a drop", "why_tests_cant": "The entries hold weak references whose life depends on all handles and clones; the repository's tests follow a few histories.", "anchors": ["network/src/network/connection_manager.rs KnownPeers::contains, KnownPeers::is_banned, KnownPeers::get, KnownPeers::get_affinity, KnownPeers::ban, KnownPeers::make_handle, KnownPeers::insert, KnownPeers::insert_allow_outdated", "network/src/network/connection_manager.rs KnownPeerHandle, KnownPeerInner::try_update_peer_info, KnownPeerHandleState::drop"]}
{"id": "C85", "title": "Connection manager: every request to connect is answered once, by a connection that is kept to the peer that was asked for; dials follow affinity, backoff and limit", "statement": "No history makes the manager panic. Every request is answered at most once, and until it is answered it waits for a task that runs for its address or for a timer that is set; so when no task and no timer is left every request is answered. An answer that is a connection is the connection kept for that peer at that moment. If every address is one peer's, who asked for a peer gets a connection to that peer. A request whose connection was closed during the handshake is not refused before the delay is over, is answered by any connection to the peer that is made until then, and is refused only with that error. A check dials only wanted peers that are not connected, not being dialed and past their backoff, all of them if there is room, and leaves no more tasks than allowed; a peer whose dial failed for the n-th time in a row is not dialed again for min(max, step*n). Incoming connections of refused peers, and of unknown ones at the limit, change nothing; others get a task unless a dial of the same address has precedence.", "quantifier": "all histories of requests, incoming connections, results of tasks in any order (also late results of aborted tasks), expirations, checks, lost connections and passing of time", "why_tests_cant": "Requests, tasks, timers and checks interleave in unboundedly many ways and callbacks move between three places; the repository's tests start a few nodes.", "anchors": ["network/src/network/connection_manager.rs ConnectionManager::handle_connectivity_check, handle_incoming, handle_incoming_impl, handle_connecting_result, add_peer, dial_peer, DelayedCallbacksQueue, DialBackoffState, simultaneous_dial_tie_breaking, ActivePeersInner::add"]}
{"id": "C86", "title": "Active peers: one connection of a peer, no connection forgotten, the counter, the events, and both ends keep the same connection", "statement": "Whatever overlaps with the additions of the manager, a peer has one connection at most; every connection given to the table is in it or was closed, and not both; the counter of connections is never below their number, never goes below zero and equals it when nothing is going on; and then as many events of a new peer as of a lost one were sent, one more if the peer is connected. If no addition of a peer overlaps a removal of it, a subscriber then has exactly the connected peers. When two nodes dial each other, any number of times from the node with the smaller id and once from the other, in whatever order the ends finish and notice closed connections, both ends keep the connection dialed by the greater id, it is not closed, and every other one is.", "quantifier": "all interleavings of the parts of additions and removals by any threads; all orders of additions and noticed closings at two nodes", "why_tests_cant": "The parts of additions and removals interleave and two nodes decide on their own; the repository's test of simultaneous dials sees a few schedules.", "anchors": ["network/src/network/connection_manager.rs ActivePeersInner::add, remove, remove_with_stable_id, len, send_event, simultaneous_dial_tie_breaking", "network/src/network/request_handler.rs InboundRequestHandler::start"]}
{"id": "C87", "title": "DHT storage: what is stored under a key, by whom, for how long, and what a search returns", "statement": "A value is taken only if it is not expired and ends at most the longest time to live from now. A value of a peer is taken only with the signature of that peer, whoever sends it, and between two losses of its key a storage holds exactly the newest (by end) of the values it was offered, the first of equally new ones; so nodes offered the same values in any order agree. Nothing expired is served, a value is served under its own key only, for less than the longest time to live after its insertion, and an insertion that is no error leaves a value at least as new being served at once. Group values are stored only while the group has a merger; with the merger of public overlays only the node itself can store them, always replacing. What a storage serves, the asking node takes, unless the clock of the asking one is past the end.", "quantifier": "all histories of insertions by anyone, changes of mergers and losses of keys at any moment; any clock, any signature function, any mergers", "why_tests_cant": "Histories, clocks and evictions are unbounded; the repository's tests store and find single values.", "anchors": ["network/src/dht/storage.rs Storage::insert, get, insert_signed_value, insert_merged_value", "network/src/proto/dht.rs Value::verify_ext", "network/src/overlay/entries_merger.rs PublicOverlayEntriesMerger", "network/src/dht/mod.rs handle_store, handle_find_value"]}
{"id": "C88", "title": "DHT searches: whom they ask, what they return, that they end, and that a value held by a reachable peer is found", "statement": "Whatever the answers and their order, a search asks a peer at most once, never the node itself nor the target, and only first candidates and peers offered with a valid signature that are not banned; it ends after as many answers as requests, at most one for every peer. A search of a value returns the first answer that passes the check, and nothing only if no answer taken does. When it ends with nothing, every usable peer offered was asked or max_k peers at least as near to the target were; so in a network that does not change, a good value held by any peer reachable through answers is found if the search asks fewer than max_k peers. A search of peers asks only peers at most the given number of answers away from the first candidates, and returns exactly the peers told of with valid signatures, without the node itself, each with the newest info.", "quantifier": "all answers of all peers in any order, all first candidates, all max_k and depths; no peer info expires during the search for the statement on the nearest", "why_tests_cant": "Answers and their order are chosen by the network; the repository's tests use five nodes in a chain.", "anchors": ["network/src/dht/query.rs Query::new, find_value, find_peers, retain_candidate, process_only_valid", "network/src/dht/routing.rs RoutingTable::add, visit_closest"]}
{"id": "C89", "title": "Public overlay: room, one sound entry per peer, renewal, bans, what is exchanged", "statement": "However additions, sweeps, bans and requests interleave: the room counter equals the entries plus the room reserved plus what is still to be subtracted, never underflows or passes the capacity, and is exact when nothing is under way; there is at most one entry per peer, each rightly signed, none of the node itself; an entry only becomes newer and leaves only by a sweep that finds it expired or its peer banned, and a sweep leaves nothing else out; a banned peer without an entry gets none until unbanned, unless its entry had been checked before the ban, and then the next sweep removes it; its requests are refused. An undisturbed addition takes the good entries in order until the room is used up, keeps the newest of each peer, and says whether anything changed; a full overlay takes nothing. A response holds as many entries as there are, up to the limit, of distinct peers not named in the request; a request holds the own entry and as many others as fit, never the peer asked. The unknown peers queue holds each peer once, up to its capacity, and only peers neither banned nor known when they asked. An overlay id is never both public and private if additions do not race.", "quantifier": "all histories of reservations, checks, drops, insertions, pending subtractions, sweeps, bans, requests; all lists, times and samples", "why_tests_cant": "The tests add a few lists from a few threads; races between reservation, check, ban and insertion need a schedule.", "anchors": ["network/src/overlay/public_overlay.rs PublicOverlay::add_untrusted_entries, remove_invalid_entries, check_peer_id, ban_peer, PublicOverlayEntries::insert, choose_multiple, UnknownPeersQueue", "network/src/overlay/mod.rs handle_exchange_public_entries, add_public_overlay, add_private_overlay", "network/src/overlay/background_tasks.rs exchange_public_entries", "network/src/proto/overlay.rs PublicEntry::is_expired"]}
{"id": "C90", "title": "Moderator: who is banned, until when, and what a restart brings back", "statement": "However reports, manual bans and unbans, the scheduler and restarts interleave, and whatever the ban configuration: no assertion fails, and the peers refused at network level are exactly those with a ban in force. A counted event bans its peer iff it is in the window ending at the latest event and more events of its tag than tolerated lie in that window (at once if none is tolerated); bans last exactly as long as asked unless a longer one is in force, only become longer, and end only at their time or on request. A request to unban is refused only if the peer is not banned or a longer ban is on its way to the scheduler. Once messages are handled, which ends, a ban whose time has come is ended. A restart brings back exactly the bans not yet ended and the counted events, writes no record, and needs an ascending journal, which it always is; leaving out the records older than any ban may last, and the events older than their windows, restores the same bans and answers later events the same.", "quantifier": "all configurations, all histories of reports, bans, unbans, deliveries, time and restarts; every order of restored peers", "why_tests_cant": "The tests replay a few event sequences of one peer; the order of deliveries against bans, and restarts at any moment, need a schedule.", "anchors": ["consensus/src/moderator/ban/peer_events.rs PeerEvents::maybe_ban_until", "consensus/src/moderator/ban/current_bans.rs CurrentBans::upsert", "consensus/src/moderator/ban/cache.rs BanCache::restore, maybe_ban, manual_ban, unban", "consensus/src/moderator/ban/state.rs BanState", "consensus/src/moderator/ban/core.rs BanCore, UnbanScheduler", "consensus/src/moderator/storage/store.rs load_restore"]}
{"id": "C91", "title": "Moderator's journal: points are kept while a record needs them", "statement": "However batches of records and deletions of time ranges interleave: no operation fails, and the journal keeps a point exactly while some kept record says it is stored, counted once for each such record and with the bytes of the point. A stored batch adds one record per item, which refers to each point named by the item once and says of it truly whether it is stored: the journal had it already or the mempool has it now. A deletion removes the records of the range and no others; when no record is left no point is. The database may merge the operands of a key in any grouping with the same result.", "quantifier": "all histories of batches and deletions, whatever points the mempool still has; all lists of operands about the same bytes and all their parts", "why_tests_cant": "The tests merge a few hand-made operands; counts over a whole history of shared points, and the groupings of a compaction, need all of them.", "anchors": ["consensus/src/moderator/journal/batch.rs RecordBatch", "consensus/src/moderator/journal/point_ref_count.rs JournalPoint::merge_bytes", "consensus/src/moderator/storage/store.rs store_records, get_point, delete", "consensus/src/moderator/storage/db.rs clean_events", "consensus/src/moderator/storage/tables.rs journal_points_merge"]}
{"id": "C92", "title": "Neighbours in the public overlay: score, choice, updates, waiting", "statement": "Whatever requests, punishments, updates and score tasks come, in whatever order they overlap: scores stay in 0..128 and the weights of neighbours to choose in 16..144; 15 failures in a row make any neighbour unreliable, malice at once, two successes make it reliable; the penalty for failures in a row is due exactly if the last four results failed; the average roundtrip is of the last four. A neighbour is chosen with a probability of exactly its weight less its fine (at least 1), and several are distinct and as many as asked for. Each peer is in the list once at most, never more than allowed; an update removes exactly the unreliable and expired, and one of the least score if there is no room, and adds only new peers, in order; a score task overtaken by another change does nothing. The index to choose from always holds neighbours of the current list. Fines are powers of two up to 16 and change exactly as answers are useful. Somebody waiting for peers is woken once they are there, if no update is overtaken.", "quantifier": "all scores and sequences of requests; all lists, weights, fines and drawn numbers; all histories of overlapping updates, score tasks and waiters", "why_tests_cant": "There are no tests of the list under overlapping tasks; probabilities of a random choice and lost wake-ups cannot be tested by examples.", "anchors": ["core/src/overlay_client/neighbour.rs TrackedStats, PackedSmaBuffer", "core/src/overlay_client/neighbours.rs Neighbours, SelectionIndex, RequestHistory"]}
{"id": "C93", "title": "Broadcast targets: validators of the latest set that answer", "statement": "However validator sets arrive, peers are resolved, and trackers of old and new sets ping, are aborted or go on: the targets of broadcasts are distinct, at most as many as configured, all resolved, never the node itself, and from the moment the lists are prepared for a set only members of this set; of that set every other peer is resolved or being resolved, none twice; the last set sent is the one that counts. A round of pings finds only validators that answered in it, and as many as configured or all that are not expired unless a ping failed; it ends.", "quantifier": "all histories of sets, resolutions, rounds, answers and aborted trackers, all shuffles", "why_tests_cant": "There are no tests; the race of an aborted tracker with a new set needs a schedule.", "anchors": ["core/src/overlay_client/validators.rs ValidatorsResolver, Validators::listen, prepare_peers, resolve, track_resolved"]}
{"id": "C94", "title": "Peer resolver: one state of a peer, no lost wakeup, nothing left over", "statement": "However inserts, clones, drops (the last handle first, its removal from the map later) and the resolving task interleave: all live handles of a peer share one state; an insert gives a handle of that peer, of the existing state if there is one and of a new one only if there is none; once all drops are done the map holds exactly the peers that have handles. Nobody waits for a peer that is resolved without being woken; who leaves finds it resolved, and it stays so. An info is looked for anew a configured time before its end, but never sooner than the least time after its start.", "quantifier": "all histories of inserts, clones, drops, removals, steps of tasks and waiters over all peers; all infos and configs", "why_tests_cant": "There are no tests of the resolver; the races of a drop with an insert and of a wait with a notification need schedules.", "anchors": ["network/src/dht/peer_resolver.rs PeerResolver::insert, PeerResolverHandle (Clone, Drop, wait_resolved), PeerResolverHandleData::mark_resolved, PeerResolverInner::run_task, compute_timings"]}
{"id": "C95", "title": "Periodic tasks of overlays: one at a time, none lost, none left over", "statement": "In every history of new lists of overlays, ticks, spawned tasks, their ends and cancellations in which an overlay is not started again before the task cancelled with its removal was seen to be over: at any moment at most one task of an overlay runs that was not told to end; a new list aborts exactly the tasks of removed overlays and leaves the others alone; a spawn starts a task or notes that the one under way is to be followed by another; the note is kept until that task's end is seen, and then the overlay is run again exactly if there is one; a removed overlay is not run again by a late end; and what the stream gives is an overlay of the current list.", "quantifier": "all histories of lists, spawns, ends, cancellations, ticks and joins, over all overlays", "why_tests_cant": "There are no tests of the stream; the race of an abort with a task that has just ended needs a schedule.", "anchors": ["network/src/overlay/tasks_stream.rs TasksStream::next, rebuild_ext, spawn, IdsStream::rebuild", "network/src/overlay/background_tasks.rs start_background_tasks"]}
