c('C01','proved','C01_message_key_roundtrip C01_stat_key_roundtrip C01_diff_tail_key_roundtrip C01_diff_info_key_roundtrip C01_commit_pointer_roundtrip C01_message_key_order C01_scan_order_within_shard C01_encodings_injective','byte level model of the StoredValue codecs')
c('C02','proved','C02_next_value_successor C02_next_value_saturates','byte-wise carry loop modelled')
c('C12','partial','C12_lookup C12_export_import C12_export_well_formed C12_partition_counters_partial C12_partition_counters_refuted','lookup and export/import proved in full; the per-partition counters are exact only when an address is not moved between partitions (refuted otherwise)')
c('C05','partial','C05_clear_messages C05_clear_diffs C05_clear_statistics_partial C05_clear_statistics_refuted','messages, diff tails and diff infos: exact, for every reachable state. Statistics: exact except for a record whose max key is exactly next_value(pointer), which survives for workchain >= 0 (refuted with a reachable history)')
c('C06','proved','C06_delete_exact','for every reachable state and every list of ranges')
c('C07','partial','C07_statistics_partial C07_statistics_refuted','exact effect proved; the claim itself is false of the code at the end points (finding): RouterAddr::MIN/MAX are signed extremes while the stored workchain byte is unsigned')
c('C08','proved','C08_pointer_monotone C08_committed_message_survives C08_diff_integrity','all histories of apply/commit/clear/gc/restart under the environment assumptions of QueueStoreSpec.op_env')
c('C09','proved','C09_accepted C09_at_most_once C09_gap_refuted','C09_gap_refuted shows why the zone qualification in the statement is needed')
c('C10','partial','C10_commit_bound C10_gc_only_scheduled C10_gc_position_monotone C10_missing_top_refuted','the bound is the minimum over the top diffs that are found; a not updated top shard whose diff was garbage collected is ignored, so a message it has not processed can be deleted (finding)')
c('C31','proved','C31_diff_statistics_count C31_stored_statistics','')
c('C14','proved','C14_accepted_sizes C14_majorities_intersect C14_majority_meets_minority C14_reliable_minority_honest C14_author_and_others C14_majority_reachable C14_five_validators_refuted','finding: for n=3F-1 or 3F validators the majority tolerates fewer crashed peers than floor((n-1)/3)')
c('C15','proved','C15_no_panic C15_conservation C15_reached_sound C15_get_reached C15_reached_stable C15_reached_complete C15_second_point_not_counted C15_receive_by_time C15_get_reached_by_time','every interleaving of senders, waiter iterations, timers and clock readings; the tokio channel, timer wheel and lock are modelled by their contracts')
c('C16','proved','C16_invariant C16_upsert C16_remove C16_max C16_from_iter','IndexMap modelled as its entry sequence; binary search by its contract')
c('C22','proved','C22_median_exact C22_median C22_saturation_refuted','exact for all u128 sequences; the plain median whenever the values are below 2^127; saturation of the middle sum shown by C22_saturation_refuted')
c('C32','proved','C32_average_total C32_average_exact C32_overflow_step C32_average_in_range_refuted','')
c('C25','proved','C25_count_exact C25_live_value_kept C25_transient_negative_refuted','every history of writes, partial and full merges; live payload kept under the writers discipline stated in the theorem, refuted without it')
c('C23','proved','C23_add_flags C23_remove_flags C23_roundtrip C23_merge_grouping C23_no_flag_lost C23_second_setter_refuted C23_retained_during_gc','all interleavings of setters, RocksDB merges, compactions and crashes; finding: a setter that finds the flag already set in memory returns before it is durable')
c('C24','proved','C24_key_roundtrip C24_decode_sound C24_order C24_block_contiguous C24_connection_key_injective C24_block_id_le_roundtrip','ShardIdent::new of tycho-types is an arbitrary validity predicate')
c('C28','proved','C28_unique_iff C28_clean_exact C28_no_panic','all histories with non-decreasing rounds starting at 1, checks after clean(r) are for later rounds')
c('C20','proved','C20_rollback_restores C20_commit_keeps C20_no_tx_plain C20_in_tx_and_asserts','every nesting of value/option/map/derived struct, every program, every history of transactions; #[tx(skip)] fields and TransactionalBTreeMap::inner_mut (documented bypass) excluded')
c('C29','partial','C29_split_plan C29_split_plan_reaches_target C29_merge_refuted C29_from_empty_refuted C29_both_empty','true whenever the target subdivides the current shards; false of the code for merges and for an empty current set (refuted theorems)')
c('C26','proved','C26_table_invariants C26_add C26_retain','all histories; expiry answers and the known-peers callback are arbitrary inputs')
c('C27','partial','C27_closest_known_distinct C27_closest_partial C27_closest_to_self C27_closest_refuted C27_same_bucket_refuted','full claim false of the code: buckets are visited D, D+1.., 256, then D-1..0, but nodes below D are closer than those above')
c('C30','proved','C30_distance_is_xor_bit_length C30_ultrametric','all 32-byte ids')
c('C33','proved','C33_random_key_within_distance C33_every_key_in_range_reachable C33_exact_distance_refuted','all rng outputs; "at distance" is really "within distance"')
c('C21','proved','C21_conservation C21_quiescent_balance C21_no_idle_permit C21_queued_nodes_alive C21_grant_order C21_arrival_order C21_release_serves_waiter C21_no_overflow C21_permit_lost_on_close_refuted','all interleavings of atomic operations and critical sections, unbounded callers; conservation until close(), a permit can be lost by a poll racing with close (refuted theorem)')
c('C17','proved','commit_each_point_once commit_marks_once','Any call sequence including failed commits, gaps and resets; the "committed twice" assertion is unreachable.')
c('C18','proved','commit_history_exact','History = reachable within the window minus earlier histories, sorted by round. Digest collisions excluded by the binding hypothesis.')
c('C19','proved','commit_anchor_order commit_order_asserts_hold','Strict order over all commits; links exact within a commit, round and author across commits; the code itself accepts a chain link that goes below the last committed proof (excluded by point validation, not modelled).')
c('C34','proved','commit_executable_full_history','')
c('C35','proved','commit_agreement','Assumes both nodes committed the same anchors within the window and that ids (hashes) name the same points.')

c('C11','proved','C11_drain C11_position C11_total C11_duplicate_shard C11_resume','Every reachable store, any hash-map order, any heap tie-break; bounds may be inclusive or exclusive, a bound just past QueueKey::MAX is not expressible. Position = last key returned or skipped; reading on from the positions loses and repeats nothing. ShardIdent::contains_address (tycho-types) by its contract.')
c('C13','proved','C13_roundtrip C13_written_wf C13_roundtrip_back C13_load_fails_iff C13_min_internals C13_min_internals_defined C13_find_min C13_min_externals C13_min_externals_same C13_has_offset','both directions of the conversion; validity of a shard ident is an arbitrary predicate; leaf cell encodings trusted')
c('C36','proved','C36_stats_cover C36_one_range_per_shard C36_defined_iff C36_all_shards','the unwrap on a missing shard end time is characterised, not excluded')
c('C03','proved','C03_read_exact C03_roundtrip C03_rejects_malformed C03_rejects_wrong_id C03_rejects_truncated C03_deserialize C03_builder','the accepted language is characterised exactly; hash function, constructor ids and shard validity are arbitrary parameters')
c('C04','proved','C04_read_exact C04_chain_binding','exact characterisation; binding assumes an injective hash')
c('C37','proved','C37_state_exact C37_state_roundtrip C37_aligned','padding bytes are shown to be unchecked')
c('C38','proved','C38_tracked_statistics','counters are unbounded numbers; decrements are by at least one')
c('C39','proved','C39_cumulative_statistics C39_example C39_overlapping_shards_refuted C39_zero_count_refuted C39_backward_position_refuted','hypotheses are the callers guarantees in StatsSpec.sop_env; the refuted theorems show that each is needed')
c('C40','proved','C40_complete_is_quorum C40_quorums_intersect C40_no_panic C40_nonvacuous C40_huge_weights_refuted','sequentially consistent interleavings; doubled total weight below 2^64 (the refuted theorem shows it is needed)')
c('C41','proved','C41_one_complete_per_seqno C41_own_signature_source C41_no_equivocation C41_equivocation_race_refuted','the refuted theorem exhibits the race after a cancellation that the last clause excludes')
c('C42','proved','C42_accepted_valid C42_accepted_stable C42_validated_is_quorum C42_quorum_noticed C42_answer_needs_signature C42_nonvacuous','')
c('C43','proved','C43_cancellation_not_lost C43_waiting_call_skips C43_cancel_returns C43_skipped_only_if_cancelled C43_nonvacuous','progress is possibility by own steps: no fairness or timing is modelled')
c('C44','proved','strider_master_chain strider_works_on_next strider_seqnos strider_storage strider_example','provider contract assumed: get_next returns a successor, get_block the requested block')
c('C45','proved','strider_complete strider_pred_first strider_prepare_order strider_commit_sound strider_example','the preparation clause is exactly what the code gives: the predecessor preparation may have failed, see findings')
c('C46','proved','strider_no_rework strider_once strider_example','')
c('C47','proved','strider_progress strider_depth_stuck strider_stuck_example strider_shallow_example','')
c('C48','proved','chain_right_after_left chain_no_way_back chain_drop_safe chain_left_released chain_answers chain_asked_before_answer chain_nonvacuous','')
c('C49','proved','cycle_same_provider cycle_sticky cycle_alternate cycle_answer cycle_same_provider_refuted cycle_nonvacuous','the refuted theorem is the documented claim without the exception')
c('C50','proved','retry_correct select_correct select_not_lost retry_nonvacuous select_nonvacuous','')
c('C51','proved','pre_check_sound key_check_quorum state_check_quorum quorum_is_enough double_sign_third session_quorum_passes two_thirds_rejected','Dict::check_signatures and compute_mc_subset_indexed of tycho-types are not in the repository; their contracts are explicit hypotheses')
c('C52','proved','no_fork no_key_block_skipped check_proof_sound check_proof_cache_transparent node_accepts_only_accepted nodes_agree no_fork_nonvacuous','same contracts as C51')
c('C53','proved','cert_sound cert_complete cert_exact cert_order_independent has_proof_exact cert_memory_safe cert_deps_once commit_once commit_result cert_monotone cert_progress cert_calls_end cert_run cert_nonvacuous cert_quiet_example','')
c('C54','proved','tx_restores tx_commits lookup_is_cut cache_faithful pending_in_range_exact pop_takes_oldest cut_drops_younger init_last externals_stream init_ends init_succeeds exM_chain anchors_init_example anchors_flow_example','uncovered_cut_loses and import_count_depends_on_cache show what does not hold')
c('C55','proved','by_id_exact next_is_successor next_served next_refused closed_hides writers_exact push_again no_lost_wakeup reader_finishes answer_from_state mcache_run_example next_skips_cleared','')
c('C56','proved','status_roundtrip merge_order merge_permutation merge_ignores_unreadable compaction_invisible merged_status merge_is_rmerge root_cause_refuted','the root cause of a transitively invalid point and the author of a missing one do depend on the groups: root_cause_refuted')
c('C57','proved','sign_once_per_run sign_answers sign_answer_stays signed_is_first_valid signature_conditions location_never_panics one_first_stored','own points are left out')
c('C58','partial','sign_once_across_restarts_partial stored_first_binds two_signatures_across_restarts_refuted','missing: crashes between a valid point taking the location and its status being stored; there the claim is false of the code')
c('C59','proved','fill_total fill_accounts fill_conserves fill_slots cheap_check_sound add_wf remove_wf remove_waiting in_order internals_in_order add_ok add_panics fill_drops_expired is_full_exact','MessageGroup::add panics when the two groups share an account (add_panics); add_ok for disjoint ones')
c('C60','proved','rollback_restores commit_keeps tx_end_total run_total','message contents are opaque')
c('C61','proved','fill_maximal is_filled_sound is_filled_incomplete_refuted smaller_slot_panics_refuted','the converse of the check is false of the code: is_filled_incomplete_refuted')
c('C62','proved','counters_read_back counters_absent_is_one counters_live_exact counters_alloc_fresh counters_order_irrelevant counters_batch_sorted counters_snapshot counters_example counters_batch_sorted_example','the byte form of a roaring bitmap is a hypothesis (codec_ok), met by xser in the example')
c('C63','proved','nursery_recovers nursery_exact nursery_no_abort nursery_durable nursery_promotes nursery_flush checkpoint_tampered_refused record_roundtrip row_roundtrip nursery_example nursery_staged_gap','process crashes only: the files are not fsynced, so power loss is outside the property; callers insert only absent cells (op_ok), see C64')
c('C64','proved','states_loadable cells_exact no_leak all_removed_empty refcounts_exact store_succeeds store_terminates remove_succeeds store_counters remove_counters store_inserts_fresh cells_example crash_window_leak detached_twice_leak','the no-leak part excludes the crash window shown by crash_window_leak, and removal assumes split_ok (each detached subtree root met once or also referenced elsewhere), see detached_twice_leak')
c('C65','proved','tracker_protects tracker_held tracker_exact min_safe_protects tracker_example','')
c('C66','proved','gc_preserves_loads gc_states_loadable gc_removes_only_old gc_edge_safe gc_heights_exact gc_needs_direct_states gc_run_exact gc_example gc_fork_breaks_load gc_new_shard_removed gc_late_handle','loading assumes that no direct state of a rejected fork lies at or below the top block (no_fork); gc_fork_breaks_load shows it is needed')
c('C67','proved','verified_is_proper proper_is_verified verified_genesis includes_intersect proofs_intersect x_verified x_equivocation','signatures themselves are checked by check_evidence, not modelled')
c('C68','proved','dependency_checked dependencies_read anchors_grow anchor_path anchor_time_of_candidate prev_point trigger_after_proof trigger_of_proof proof_chain sticky_prev sticky_run proof_by_leader leader_must_prove one_prover align_genesis_spec invalid_taints valid_is_clean trans_has_cause other_versions order_irrelevant dropped_is_invalid validate_total xh_hist other_version_matters','a path may end early at a point that was judged invalid; the pseudorandom choice of leaders is any function')
c('C69','proved','own_last_survives ex1_own block_at_its_height received_outcome collated_outcome applied_block_stays exchanged_only_by_received received_heights_increase applied_below_known mismatch_cuts_own_chain own_last_agrees own_last_is_stored taken_out_is_on_chain ex1_orderly ex1_facts','every method is one atomic step; own_last_agrees assumes GC boundaries at known heights')
c('C70','proved','peek_tells_pop ex1_peek taken_exactly taken_leaves taken_known taken_in_order ex1_pop_eq ex1_taken ex1_one_successor split_breaks_order stray_block_dropped','the order is proved when no block of the subgraph has two successors; split_breaks_order shows that it fails otherwise')
c('C71','proved','range_covers_waiting range_is_waiting reported_range pop_first extract_by_height waiting_blocks_are_held range_start_pops ex1_orderly ex1_facts waiting_block_lost','waiting_block_lost shows that the condition on removals is needed')
c('C72','proved','own_shard_block_offers ex1_offers commit_hands_over commit_of_validated commit_of_applied validation_spares_applied top_blocks_answer fees_are_conserved ex6_matched ex6_commit ex1_tops foreign_signatures','foreign_signatures shows that the condition on validation results is needed')
c('C73','proved','produced_verified produced_valid produced_newest x_regular x_paused x_leads x_sticks x_triggers x_follows future_dated_proof_breaks_own_point','hypotheses: no second anchor proof of the previous round besides the own one (needs more than F faulty peers), link targets dated at most the skew after the point: future_dated_proof_breaks_own_point shows that the code does not ensure the second one')
c('C74','proved','produced_once produced_contents produced_duty produced_or_waits produced_errors x_regular x_paused x_leads x_sticks x_triggers x_follows x_errors','debug assertions are not modelled')
c('C75','proved','schedule_never_panics right_validators nobody_before_genesis views_agree nodes_agree own_keys lives_local slots_are_ranks statistics_of_one_epoch example_works example_answers replaced_epoch_splits_nodes skipped_epoch_is_lost','hypothesis: updates follow one timeline without skipping or replacing epochs; the last two theorems show that the collator can replace an epoch and what happens then')
c('C76','proved','switch_is_beyond_reach history_spans_two_epochs switch_rounds_grow new_genesis_switch switch_example','u32 bound left out')
c('C77','proved','works_lives works_xinv contacts_are_unbanned_validators resolved_means_reachable unknown_address_is_awaited resolution_is_seen ban_works_at_once broadcasts_reach_the_right_peers banned_gets_no_broadcasts lifted_ban_restores example_works replaced_task_loses_a_peer banned_receiver banned_but_resolved unbanned_self_is_resolved','hypotheses: working validators are in the whole set, the genesis author is no validator, nobody unbans the node itself; the last four theorems are deviations found in the code')
c('C78','proved','round_never_panics rejections_are_deserved answers_are_handled one_query_per_peer evidence_is_genuine nobody_forgotten no_query_to_the_absent author_never_signs point_goes_to_all attempt_asks_again retry_asks_again wrapped_attempt_starts_over one_state_per_peer signatures_rule_out_failure good_runs good_calm good_applies mid_applies signed_and_rejected author_asked absent_is_dropped back_is_asked','the broadcast of an older point (after a restart) is covered by round_never_panics and one_query_per_peer; the examples show what happens without the hypotheses (re-resolved peers, an update about the author)')
c('C79','proved','signals_are_justified signals_are_prompt round_ends_for_a_reason failure_needs_rejections ready_round_is_over round_ends_once good_round strangers_fail_the_round','that points are validated (EThreshold) is an event here, see the threshold claims; rejections of peers that are no validators count too (strangers_fail_the_round)')
c('C80','proved','limiter_never_panics at_most_permitted_guards permits_are_conserved nothing_is_lost a_free_permit_means_no_waiting waiting_means_all_guards_taken a_dropped_guard_serves_the_highest_round a_dropped_guard_goes_to_the_first_in_line limiter_never_stuck limiter_work_is_bounded every_call_is_served n1_runs n5_runs a_cancelled_call_bypasses_priority','the order of rounds is claimed for dropped guards only: the permit of a cancelled call may go to its own round although a higher one waits (a_cancelled_call_bypasses_priority); tokio Semaphore is modelled by its documented behaviour (fair queue, forget_permits takes stored permits only)')
c('C81','proved','download_never_panics one_query_at_a_time at_most_minority_asked queries_go_to_resolved_peers one_query_per_attempt asks_as_many_as_allowed tick_respects_limit tick_asks_in_order answered_peers_are_left_alone not_found_is_deserved stops_at_the_majority stops_at_the_majority_of_denials never_runs_out verified_is_the_point ill_formed_is_the_point other_results the_point_ends_the_search not_found_reached found_reached lagged_peer_not_asked','one_query_per_attempt holds for the first 2^32 - 1 ticks, after which the counter of attempts wraps; Point::parse and the verifier are inputs')
c('C82','proved','long_run_rate at_most_twice_the_tokens passes_in_windows never_banned_within_the_limit always_passes_within_the_rate soft_bucket_passes_the_same hard_after_soft honest_sender_never_banned delayed_sender_never_banned small_delays_may_ban permits_of_an_entry permits_are_per_peer receiver_answers receiver_never_bans_within_the_limit receiver_grants_within_the_rate sender_answers sender_keeps_the_rate honest_peers_do_not_ban real_configurations upload_answers','DownloaderLimits (a semaphore per peer on the asking side) is not modelled; instants are those read by the calls and [now + window] does not overflow')
c('C83','proved','answers_are_of_the_key keys_are_apart rate_is_kept rate_is_kept_per_second permitted_rate interval_exact bucket_rate bucket_conforming conforming_key_is_served retry_after_is_exact cooldown_from_the_last_refusal cooldown_counts_anew no_cooldown_without_run rpc_check_is one_key_for_a_network overlay_check_is streams_are_limited refused_exactly_at_the_limit entries_are_of_open_streams overlapping_calls_are_in_turn overlapping_calls_keep_the_rate answers_are_the_log','overlap is modelled for the calls of one bucket; the counter of refusals and the cooldown are modelled with one call after the other; the entries live at least as long as the cooldown and the refill of a burst (else see the findings)')
c('C84','proved','known_peers_refine handles_agree known_while_held nothing_left newest_info info_never_goes_back ban_bans banned_is_refused banned_for_good ban_while_known high_if_wanted','calls that overlap with the two halves of a drop are modelled (exec) but only a race is shown for them; see the findings')
c('C85','proved','never_panics answered_at_most_once request_is_not_lost all_answered_at_rest answers_stay_and_are_true closed_connection_waits connects_to_the_right_peer dial_connects_to_the_right_peer only_wanted_peers_are_dialed wanted_peers_are_dialed failed_dials_back_off no_dial_before_the_backoff dials_are_limited refused_when_unwelcome accepted_when_welcome','the right peer is given only if every address is one peer\'s; see the findings. The handshake is not modelled: the result of a task is any')
c('C86','proved','counter_is_not_below one_connection_of_a_peer events_balance kept_or_closed subscribers_agree_if_apart handler_removes_only_its_own both_keep_the_same kept_for_good table_is_add','without the hypothesis that additions and removals of a peer do not overlap the order of events can be wrong; see the findings')
c('C87','proved','peer_insert_answer insert_frame served_after_insert peer_origin served_alive peer_slot converge no_merger group_origin remote_refused local_replaces own_key found_is_taken default_ttl late_clock_refuses not_later_is_lost','losses of keys in moka are an event at any moment; hashes of keys are the keys')
c('C88','proved','asked_once result_is_valid no_result search_ends nearest_are_asked reachable_value_is_found walk_asks walk_result walk_result_others walk_ends walk_nearest','the depth of a search of peers depends on the order of answers; see the findings')
c('C89','proved','count_is_exact entries_are_sound entries_only_get_newer sweep_is_exact full_overlay_takes_nothing add_is_exact banned_stays_out sweep_removes_banned requests_of_banned_refused queue_grows_only_by response_is_exact request_is_exact one_kind_if_one_at_a_time each_map_distinct','findings: a full overlay does not renew what it has; worthless lists in flight take room; a race of two additions makes an id both public and private')
c('C90','proved','ban_iff_too_many ban_at_once held_keys_bounded old_events_may_be_forgotten no_panic_and_network_agrees bans_end_only manual_ban_is_exact event_bans unban_is_exact expired_ban_ends messages_end restart_reproduces journal_ascends history_is_journal old_records_not_needed old_events_not_needed','findings: an unban is refused though the peer is banned; bans only in the journal')
c('C91','proved','merge_any_grouping points_are_counted readable_iff_stored store_is_exact delete_is_exact nothing_left','findings: is_stored is never raised later; a comment says deletions leave records without points, they do not')
c('C92','proved','score_bounded selection_score_bounded failures_make_unreliable successes_make_reliable malice_makes_unreliable penalised_iff_four_failures average_of_the_last_four choose_is_weighted choose_multiple_is_sound fines_bounded fine_is_exact neighbours_bounded index_is_of_the_list update_is_exact apply_is_exact no_lost_wakeup','findings: an update overtaken by a score task loses a wake-up; a full list loses a neighbour at each update; punishments are forgotten')
c('C93','proved','targets_are_current nobody_forgotten last_set_wins round_is_sound round_ends','finding: the first failed ping without a spare validator ends the round and drops those which would answer')
c('C94','proved','one_state_of_a_peer insert_is_right nothing_left_over resolver_no_lost_wakeup resolved_when_left resolved_stays timings_are_right','findings: stale is never reset; the task ends for good on a ban')
c('C95','proved','one_task_at_a_time rebuild_is_exact spawn_is_noted note_is_kept run_again_if_noted removed_not_run_again next_gives_listed','finding: without the hypothesis on histories, which the program does not ensure, two tasks of an overlay run at once and one is left over')
