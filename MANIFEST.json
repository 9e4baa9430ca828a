{
 "claims": [
  {
   "property": "C01",
   "status": "partial",
   "theorems": [
    "C01_framing_round_trip",
    "C01_framing_cut_connection",
    "C01_oversize_sent_refuted"
   ],
   "note": "Round trip proved for every message sequence, chunking and compression setting when bodies are at most maxMessage, plus exact behaviour when the connection is cut at any byte. The sender does not check the size: an oversize frame is sent without error and the receiver answers ErrTooLong (refuted direction)."
  },
  {
   "property": "C02",
   "status": "proved",
   "theorems": [
    "C02_writeFull_all_or_prefix",
    "C02_writeFull_completes",
    "C02_writeFull_one_retry"
   ],
   "note": "For every buffer and every script of short writes and errors."
  },
  {
   "property": "C03",
   "status": "proved",
   "theorems": [
    "C03_magic_codec_bijection",
    "C03_wrong_magic_refused",
    "C03_delivery_needs_magic"
   ],
   "note": "All strings and all byte values."
  },
  {
   "property": "C04",
   "status": "partial",
   "theorems": [
    "C04_server_follows_client",
    "C04_client_uses_own",
    "C04_late_send_loop_refuted"
   ],
   "note": "Proved for every event sequence on a connection whose second blabber is already built; refuted when the send loop's newBlabber runs after the first request was read (it resets lastReadMagic7)."
  },
  {
   "property": "C05",
   "status": "partial",
   "theorems": [
    "C05_usable_compressions",
    "C05_documented_compression_refuted"
   ],
   "note": "none, s2 and no-system-compression are usable; lz4 and zstd are accepted by configuration and crash the first send (refuted)."
  },
  {
   "property": "C06",
   "status": "partial",
   "theorems": [
    "C06_encrypted_round_trip",
    "C06_oversized_estimate_refuted"
   ],
   "note": "Proved for every message sequence whose size estimate fits the buffer; refuted otherwise: with compression off and an estimate above the buffer, the bytes encrypted are not the message."
  },
  {
   "property": "C07",
   "status": "partial",
   "theorems": [
    "C07_nonces_unique",
    "C07_two_server_encoders_refuted"
   ],
   "note": "Proved for one client encoder and one server encoder up to 2^118 sends; refuted for the server's two encoders per connection."
  },
  {
   "property": "C08",
   "status": "partial",
   "theorems": [
    "C08_receiver_limit_exact",
    "C08_sender_accepts_unreceivable_refuted"
   ],
   "note": "Exact receiver limit proved; the sender accepts the last 40 sizes which every receiver refuses (refuted)."
  },
  {
   "property": "C09",
   "status": "partial",
   "theorems": [
    "C09_send_crash_exact",
    "C09_opt_out_crashes_refuted",
    "C09_client_compression_crashes_server_refuted"
   ],
   "note": "Exact crash condition proved; the no-crash claim itself is refuted in two ways."
  },
  {
   "property": "C10",
   "status": "partial",
   "theorems": [
    "C10_reader_crash_needs_partial",
    "C10_unauthentic_rejected",
    "C10_short_length_crashes_refuted",
    "C10_plaintext_tag_crashes_refuted"
   ],
   "note": "Proved: with lengths of at least 16 an unauthenticated peer only causes errors. Refuted: a length below 16 crashes an encrypted reader; an unimplemented tag crashes a plaintext reader."
  },
  {
   "property": "C11",
   "status": "proved",
   "theorems": [
    "C11_omap_is_sorted_map"
   ],
   "note": "For every history of set/delkey/deleteWithIter/deleteAll/in-place update/cached/range calls, over any totally ordered key type."
  },
  {
   "property": "C12",
   "status": "partial",
   "theorems": [
    "C12_range_with_deletes_cold",
    "C12_filter_in_place",
    "C12_range_with_deletes_warm_partial",
    "C12_warm_delete_skips_last_refuted"
   ],
   "note": "Holds whenever the order cache is not valid at the start of the range (all licensed bodies). On a valid cache a range can end one key early; proved exactly when, and refuted in general: deleting the second-to-last key makes the range skip the last live key, for every map with two keys or more."
  },
  {
   "property": "C13",
   "status": "partial",
   "theorems": [
    "C13_delkey_absent_partial",
    "C13_end_iterator_refuted"
   ],
   "note": "Exact result proved: the iterator returned is at the first larger key; the documented end iterator is returned only if no larger key is present (refuted otherwise). dmap's delkey does return the end iterator (C14)."
  },
  {
   "property": "C14",
   "status": "partial",
   "theorems": [
    "C14_dmap_is_sorted_map",
    "C14_range_with_deletes_partial",
    "C14_warm_delete_skips_last_refuted",
    "C14_stale_iterator_refuted"
   ],
   "note": "Proved for every history in which deleteWithIter gets a live iterator or one whose id is absent; ranges with deletes as for omap (same warm skip). Refuted: a stale iterator whose id was re-added passes the presence test and acts on a node outside the tree."
  },
  {
   "property": "C15",
   "status": "proved",
   "theorems": [
    "C15_linearizable",
    "C15_handed_out_once",
    "C15_panicking_update_refuted"
   ],
   "note": "Linearizability of every history of any number of goroutines, with separate steps for every map access, range loops in any order, callers writing to maps they were given. Functions passed to Update/ReadOnlyView are arbitrary sequences of map accesses that do not leak the map, and for ReadOnlyView do not write. C15_panicking_update_refuted records in addition that a panic inside Update leaves the lock held forever."
  },
  {
   "property": "C16",
   "status": "proved",
   "theorems": [
    "C16_never_exceeds_limit",
    "C16_slots_exact",
    "C16_release_never_blocks",
    "C16_accept_can_proceed",
    "C16_close_never_panics",
    "C16_no_connection_after_done",
    "C16_no_connection_after_close"
   ],
   "note": "For every limit, number of goroutines and schedule. The underlying listener is assumed to hand out *tls.Conn values, as the one call site does."
  },
  {
   "property": "C17",
   "status": "partial",
   "theorems": [
    "C17_rle_refines_list_partial",
    "C17_rle_refines_list_monotone",
    "C17_rle_sound_when_no_panic",
    "C17_iterate_from_base_refuted"
   ],
   "note": "Refinement to the plain term list proved for all legal histories without interior truncation (incl. base term), for all histories with monotone appended terms, and for every non-panicking history; iteration starting at the base index is refuted (indexes off by one)."
  },
  {
   "property": "C18",
   "status": "partial",
   "theorems": [
    "C18_truncate_preserves_terms_partial",
    "C18_truncate_preserves_base_term_refuted",
    "C18_legal_history_panics_refuted"
   ],
   "note": "Proved for all retained entries above the base; the claim at the compaction base is false of the code (refuted), and a legal history panics (refuted)."
  },
  {
   "property": "C19",
   "status": "partial",
   "theorems": [
    "C19_extends_is_longest_common_prefix",
    "C19_extends_with_compaction_partial",
    "C19_extends_with_compaction_refuted",
    "C19_extends_short_leader_refuted"
   ],
   "note": "Proved in full for uncompacted logs; with compaction proved under agreement of the compacted prefixes, and refuted without it."
  },
  {
   "property": "C20",
   "status": "partial",
   "theorems": [
    "C20_happens_before",
    "C20_clock_strictly_monotone",
    "C20_receive_after_send",
    "C20_not_behind_wall_clock",
    "C20_drift_bound",
    "C20_physical_part_partial",
    "C20_counter_overflow_refuted",
    "C20_hostile_message_refuted"
   ],
   "note": "Monotonicity and causality are proved for every interleaving of the load/read-clock/CAS steps of any number of goroutines on any number of nodes, wall clocks non-negative and below 2^61 and fewer than 2^61-2^17 events. The last clause (physical part never ahead of the largest physical time seen) is false in full: 65536 events within one tick carry into the physical part (C20_counter_overflow_refuted); proved while no counter reaches 65535 (C20_physical_part_partial), and always within the number of events (C20_drift_bound). A message timestamp near 2^63, which no clock in the system produces, overflows and moves the clock backwards (C20_hostile_message_refuted)."
  },
  {
   "property": "C21",
   "status": "partial",
   "theorems": [
    "C21_intersect_exact",
    "C21_overlaps_exact",
    "C21_overlaps_nonempty",
    "C21_contains_exact",
    "C21_superset_exact",
    "C21_superset_sound",
    "C21_equal_exact",
    "C21_order_exact",
    "C21_constructors",
    "C21_inverted_refuted",
    "C21_superset_of_point_refuted"
   ],
   "note": "Exact for all well-formed spans (beg <= endx). Refuted corners: an inverted span, and isSuperSetOf of an empty span lying outside (set-theoretically the empty set is a subset, the code says no)."
  },
  {
   "property": "C22",
   "status": "partial",
   "theorems": [
    "C22_queue_is_latest_pongs",
    "C22_add_never_panics",
    "C22_quorum_time_partial",
    "C22_empty_queue_refuted"
   ],
   "note": "Proved for every history of add/delPeerID/pop/deleteAll and every q >= 1 on a non-empty queue. With an empty queue quorumPongTm reports success with the current time instead of failure (C22_empty_queue_refuted)."
  },
  {
   "property": "C23",
   "status": "partial",
   "theorems": [
    "C23_insert_partial",
    "C23_remove",
    "C23_find_partial",
    "C23_size",
    "C23_histories_are_maps",
    "C23_text_keys",
    "C23_zero_byte_refuted",
    "C23_zero_byte_panic_refuted",
    "C23_empty_key_refuted",
    "C23_same_leaf_refuted"
   ],
   "note": "Proved for all histories in which no inserted key continues a held key (or is continued by one) with a zero byte; keys without zero bytes are covered in full (C23_text_keys). The property is false without the guard: such keys lose each other or panic, and Find(Exact, \"\") on a one-key tree finds that key."
  },
  {
   "property": "C24",
   "status": "partial",
   "theorems": [
    "C24_search_partial",
    "C24_search_empty_key",
    "C24_at",
    "C24_atfar",
    "C24_below_all_refuted",
    "C24_single_refuted"
   ],
   "note": "Proved for all histories of C23 and all query keys, except GTE/GT with a key that leaves the beginning shared by all keys with a smaller byte, and GT/LT with the only key of a one-key tree, where the code is wrong (refuted)."
  },
  {
   "property": "C25",
   "status": "partial",
   "theorems": [
    "C25_partition",
    "C25_ultra_partition_partial",
    "C25_ultra_tail_panics_refuted",
    "C25_ultra_over_max_refuted",
    "C25_batch_is_repeated_next",
    "C25_max_points",
    "C25_fastcdc_max_points_refuted",
    "C25_ultra_table"
   ],
   "note": "Full for FastCDC (both variants), FNV and Rabin-Karp, for every gear table. UltraCDC needs 7 spare bytes of capacity and max >= min+8; both limits are shown necessary by refutations. Restic's chunker is external and not modelled."
  },
  {
   "property": "C26",
   "status": "proved",
   "theorems": [
    "C26_next_cut_local",
    "C26_shared_suffix",
    "C26_shared_prefix",
    "C26_cut_before_end_is_final",
    "C26_stadia_cut_moves_refuted"
   ],
   "note": "Finality of a cut before the end of the data holds for Plakar and UltraCDC and is refuted for Stadia."
  },
  {
   "property": "C27",
   "status": "partial",
   "theorems": [
    "C27_sync_rebuilds_partial",
    "C27_in_memory",
    "C27_pull_trailing_hole_refuted",
    "C27_unaligned_run_refuted",
    "C27_preallocated_refuted",
    "C27_big_chunk_refuted",
    "C27_no_chunks_refuted"
   ],
   "note": "Proved for the disk version under explicit conditions and for the in-memory version in full. False in the excluded cases: pulls of files ending in a hole, zero runs of more than a page without an aligned page, pre-allocated tails, chunks larger than a fragment, files without chunks."
  },
  {
   "property": "C28",
   "status": "proved",
   "theorems": [
    "C28_refused_while_leased",
    "C28_succeeds_after_expiry",
    "C28_lease_excludes_others_partial",
    "C28_holder_needs_longer_lease",
    "C28_holder_extends",
    "C28_leader_fast_path_refuted"
   ],
   "note": "Proved for entries in the log (they carry an entry time). Lease-excludes-others over whole logs leaves out auto-delete keys. Finding: a leader that may read locally answers a lease request before it has an entry time and refuses it however long the lease is over."
  },
  {
   "property": "C29",
   "status": "proved",
   "theorems": [
    "C29_fencing",
    "C29_reply_carries_epoch",
    "C29_delete_resets_refuted"
   ],
   "note": "For keys that are not deleted, as stated; the refuted theorem shows the proviso is needed: delete and re-create starts again at epoch 1."
  },
  {
   "property": "C30",
   "status": "partial",
   "theorems": [
    "C30_clocks_do_not_matter_partial",
    "C30_writes_ignore_clocks",
    "C30_catch_up_partial",
    "C30_auto_delete_refuted",
    "C30_resent_ticket_refuted"
   ],
   "note": "Clock independence proved without auto-delete, and for write/CAS/table logs with it. False with auto-delete, and false for a node that catches up from tickets the sender has already applied when a lease request of the holder was refused as too short."
  },
  {
   "property": "C31",
   "status": "partial",
   "theorems": [
    "C31_one_leader_per_term_partial",
    "C31_no_two_leaders_partial",
    "C31_refuted_crash_before_save"
   ],
   "note": "Proved for every cluster, every schedule of deliveries, losses, duplications, reorderings and every crash point except one: a crash after a handler has already sent or written something and before it has saved its new term. Missing: that window, where the claim is false (refuted: one node sends AppendEntries for term 2, crashes before saving, and then votes another node into term 2)."
  },
  {
   "property": "C32",
   "status": "partial",
   "theorems": [
    "C32_log_matching_partial",
    "C32_leader_append_only_partial"
   ],
   "note": "Proved across all nodes and any two points in time, under the same single crash condition as C31. Missing: crashes in that window; snapshots and log compaction are outside the model."
  },
  {
   "property": "C33",
   "status": "partial",
   "theorems": [
    "C33_same_applied_sequence_partial",
    "C33_disk_agrees_partial",
    "C33_leader_has_applied_partial",
    "C33_applied_never_lost_partial",
    "C33_refuted_clipped_append",
    "C33_refuted_stale_ack",
    "C33_refuted_restarted_follower",
    "C33_refuted_crash_before_save"
   ],
   "note": "Proved for all schedules that respect four explicit conditions (no size-clipped AppendEntries, no ack of an earlier leadership stamped with the present term, one peer-table entry per node name, no crash between effects and the term save). Each condition is necessary: dropping any one of them is refuted by a concrete run of the modelled code in which two nodes apply different entries at one index."
  },
  {
   "property": "C34",
   "status": "proved",
   "theorems": [
    "C34_majority",
    "C34_overlap_exact",
    "C34_single_change",
    "C34_reachable"
   ],
   "note": "The overlap test is exact for all sets of distinct names; single changes always pass; in every reachable state a leader's change keeps quorums intersecting. The test passes both steps of a detour through the empty set, see C50_empty_refuted."
  },
  {
   "property": "C35",
   "status": "proved",
   "theorems": [
    "C35_append_crash",
    "C35_append_killed",
    "C35_append_durable",
    "C35_reopen"
   ],
   "note": "crash of the process (writes cut anywhere) and power loss (unsynced part of the log arbitrary); encodings are parameters that decode what they encode; a log whose append was interrupted is reported corrupt, see C55"
  },
  {
   "property": "C36",
   "status": "partial",
   "theorems": [
    "C36_not_again_partial",
    "C36_once_partial",
    "C36_answered_from_table",
    "C36_in_flight_refuted",
    "C36_user_op_refuted",
    "C36_error_but_applied_refuted"
   ],
   "note": "A write already applied by the leader is never logged again, and its repeat gets the first answer from the table while the session is live and the client is not past that serial number; with no request submitted twice while in flight every write is in the log once. False in full: a repeat while the first is logged and unapplied is applied twice; user defined operations are not deduplicated; a write can be applied and answered with an unknown-session error."
  },
  {
   "property": "C37",
   "status": "partial",
   "theorems": [
    "C37_shared_workspace_frames_whole",
    "C37_two_workspaces_interleave_refuted"
   ],
   "note": "Proved for any number of senders sharing one workspace; refuted for the server's two workspaces."
  },
  {
   "property": "C38",
   "status": "partial",
   "theorems": [
    "C38_nested_range_corrupts_refuted"
   ],
   "note": "Refuted: a nested read-only range with early exits leaves a wrong order cache that is taken for valid; the next range repeats a key and misses a live one. Non-nested ranges are covered by C11."
  },
  {
   "property": "C39",
   "status": "partial",
   "theorems": [
    "C39_failed_handshake_closes_partial",
    "C39_rejected_key_leaks_slot_refuted"
   ],
   "note": "False of the code: a client whose key is not accepted is dropped without Close (srv.go handleTLSConnection), and n such clients stop all later accepts. The failed-handshake case is closed properly."
  },
  {
   "property": "C40",
   "status": "proved",
   "theorems": [
    "C40_padme_cost",
    "C40_padme_idempotent",
    "C40_padme_monotone",
    "C40_padme_zero_refuted"
   ],
   "note": "Lengths up to 2^62 (2^61 for idempotence); length 0 panics."
  },
  {
   "property": "C41",
   "status": "proved",
   "theorems": [
    "C41_commit_has_announced_checksum"
   ],
   "note": "For files without a pre-allocated tail and a request that carries the sender's file size."
  },
  {
   "property": "C42",
   "status": "partial",
   "theorems": [
    "C42_one_pass_describes",
    "C42_buffer_size_invisible",
    "C42_small_buffer_hangs_refuted",
    "C42_sparse_describes",
    "C42_scanners_agree",
    "C42_plakar"
   ],
   "note": "Proved for buffers of at least MaxSize; with a smaller buffer the one-pass scanner never ends on longer files (refuted). Sparse maps with pre-allocated parts are modelled but excluded from the theorem."
  },
  {
   "property": "C43",
   "status": "partial",
   "theorems": [
    "C43_parallel_describes_partial",
    "C43_parallel_panics_refuted",
    "C43_parallel_short_refuted"
   ],
   "note": "Proved when the last segment holds at least twice the minimum chunk (or there is one segment) and 2*min <= max. With a shorter last segment it fails: concrete files on which ChunkFile2 panics or silently misses the tail."
  },
  {
   "property": "C44",
   "status": "proved",
   "theorems": [
    "C44_longest_zero_span",
    "C44_wide_is_naive"
   ],
   "note": ""
  },
  {
   "property": "C45",
   "status": "partial",
   "theorems": [
    "C45_cas_atomic",
    "C45_cas_succeeds",
    "C45_one_winner",
    "C45_one_winner_refuted"
   ],
   "note": "Proved as stated; the refuted theorem shows that with a delete in between two CAS for the same version can both succeed."
  },
  {
   "property": "C46",
   "status": "partial",
   "theorems": [
    "C46_delete_refused_partial",
    "C46_delete_succeeds",
    "C46_delete_refused_refuted"
   ],
   "note": "Refusal proved for requesters of another name on keys without auto-delete. False for another peer of the same name, for DELETE_TABLE and RENAME_TABLE, and for auto-delete within the drift."
  },
  {
   "property": "C47",
   "status": "partial",
   "theorems": [
    "C47_read",
    "C47_range_scan_partial",
    "C47_prefix_scan_partial",
    "C47_range_scan_refuted",
    "C47_scan_auto_delete_refuted",
    "C47_prefix_scan_refuted"
   ],
   "note": "Reads, range scans in both directions and ascending prefix scans proved for stores without auto-delete; a range scan whose search bound leaves the beginning shared by all keys with a smaller byte returns nothing, burying an expired key can end a scan early, and a descending prefix scan returns at most the key equal to the prefix."
  },
  {
   "property": "C48",
   "status": "proved",
   "theorems": [
    "C48_save_load",
    "C48_merge"
   ],
   "note": "Tables as sorted association lists; the generated MessagePack code is not modelled."
  },
  {
   "property": "C49",
   "status": "partial",
   "theorems": [
    "C49_ascend_partial",
    "C49_descend_partial",
    "C49_after_change_partial",
    "C49_below_all_refuted",
    "C49_visited_twice_refuted",
    "C49_start_skipped_refuted",
    "C49_descend_restarts_refuted"
   ],
   "note": "Proved for all histories of C23 and all bounds except a lower bound that leaves the beginning shared by all keys with a smaller byte (nothing is visited). After a change the guard also leaves out the cases that are refuted."
  },
  {
   "property": "C50",
   "status": "partial",
   "theorems": [
    "C50_one_leader_partial",
    "C50_split_counts_refuted",
    "C50_empty_refuted",
    "C50_crash_refuted",
    "C50_change_gate",
    "C50_noop_stored"
   ],
   "note": "Holds when a change is vouched for by one majority whose reports show configuration and term together (G5), and no crash falls between a handler's outside effects and the save of its term (G4). The code counts the two conditions over different members: two leaders in one term without any crash (C50_split_counts_refuted), also by removing all members (C50_empty_refuted); a crash inside becomeLeader lets a node be elected twice in one term (C50_crash_refuted). Forced changes are not modelled. What the code checks before a change, and before it takes its first entry for committed, is proved for every schedule (C50_change_gate, C50_noop_stored)."
  },
  {
   "property": "C51",
   "status": "partial",
   "theorems": [
    "C51_change_kept_partial",
    "C51_provenance_partial"
   ],
   "note": "Under G4 and G5, as C50."
  },
  {
   "property": "C52",
   "status": "partial",
   "theorems": [
    "C52_log_damage_partial",
    "C52_parlog_damage",
    "C52_lost_tail_refuted"
   ],
   "note": "an arbitrary log file gives a prefix of the stored entries; a log file cut at a record boundary opens without notice"
  },
  {
   "property": "C53",
   "status": "partial",
   "theorems": [
    "C53_append",
    "C53_overwrite_partial",
    "C53_compact",
    "C53_snapshot",
    "C53_reopen_partial",
    "C53_indexes",
    "C53_get",
    "C53_from",
    "C53_past",
    "C53_overwrite_refuted",
    "C53_replace_all_refuted",
    "C53_reopen_refuted",
    "C53_committed_partial",
    "C53_committed_refuted",
    "C53_shorter_refuted"
   ],
   "note": "false in three cases: overwriting behind the entries read at opening destroys the file; replacing all entries of a compacted log panics half way and the log never opens again; reopening an empty log forgets its base. With compaction on (the default) the log does not check that what a batch replaces was uncommitted (C53_committed_refuted); with it off it does (C53_committed_partial), but panics for a batch not longer than the tail it replaces (C53_shorter_refuted)."
  },
  {
   "property": "C54",
   "status": "partial",
   "theorems": [
    "C54_load",
    "C54_durable",
    "C54_atomic_partial",
    "C54_damage",
    "C54_atomic_refuted",
    "C54_checked",
    "C54_no_state",
    "C54_torn"
   ],
   "note": "a state loaded after a process death between rename and directory sync can vanish in a later power loss: opening does not sync the directory"
  },
  {
   "property": "C55",
   "status": "partial",
   "theorems": [
    "C55_append_usable_partial",
    "C55_batch_crash_partial",
    "C55_compact_crash",
    "C55_snapshot_crash",
    "C55_synced_partial",
    "C55_append_refuted",
    "C55_snapshot_refuted",
    "C55_batch_refuted",
    "C55_compact_refuted"
   ],
   "note": "whenever the log opens its content is right; but an interrupted append or compaction leaves a log that never opens, and after an interrupted snapshot or batch the next acknowledged append makes the log unreadable"
  },
  {
   "property": "C56",
   "status": "partial",
   "theorems": [
    "C56_logged_partial",
    "C56_turned_away",
    "C56_local_read_refuted"
   ],
   "note": "Holds for everything answered through the log; reads served locally by the leader do not look at the client's index."
  },
  {
   "property": "C57",
   "status": "partial",
   "theorems": [
    "C57_one_session_partial",
    "C57_restart_refuted"
   ],
   "note": "Holds on a node that has not restarted nor installed a snapshot; the map by client name is not rebuilt on restart."
  },
  {
   "property": "C58",
   "status": "partial",
   "theorems": [
    "C58_returns_once",
    "C58_reply_source",
    "C58_own_reply_partial",
    "C58_settled",
    "C58_push_refuted",
    "C58_oneway_refuted",
    "C58_cause",
    "C58_cancel_wins",
    "C58_cancelled_unsent"
   ],
   "note": "At most one return, the source of every reply, and that a settled connection leaves no call waiting are proved outright. That the reply is the answer to this request needs that no push and no one-way message has the Seqno of a call: Server.SendMessage and OneWaySend take a Seqno from the user, and both are shown to be returned as the reply of another call."
  },
  {
   "property": "C59",
   "status": "proved",
   "theorems": [
    "C59_at_most_once",
    "C59_one_request",
    "C59_answer",
    "C59_registered"
   ],
   "note": "For all schedules. The bridge to net/rpc is modelled separately."
  },
  {
   "property": "C60",
   "status": "partial",
   "theorems": [
    "C60_in_order",
    "C60_success_complete",
    "C60_prefix_partial",
    "C60_nothing_lost_partial",
    "C60_no_panic_partial",
    "C60_skipped_part_refuted",
    "C60_wedge_refuted",
    "C60_late_registration_refuted",
    "C60_end_is_last"
   ],
   "note": "Order, and completeness on success, hold outright; that the parts are those uploaded needs distinct CallIDs and no cancelling. Refuted: a part that fails to be sent makes the server process panic at the next one; a function that ends early while the client keeps uploading stops the server's read loop for ever; the answer can come before UploadBegin registers its channels and is then lost."
  },
  {
   "property": "C61",
   "status": "partial",
   "theorems": [
    "C61_numbered",
    "C61_delivery",
    "C61_stream_partial",
    "C61_single_part_refuted",
    "C61_buffers"
   ],
   "note": "Numbering and delivery hold (fresh CallIDs); that the stream consists of the parts and the reply needs distinct CallIDs and no push on this CallID. Refuted: the only part of a one-part download has type CallDownloadBegin, so CallDownloadEnd never comes."
  },
  {
   "property": "C62",
   "status": "partial",
   "theorems": [
    "C62_only_own_partial",
    "C62_cancel_works_partial",
    "C62_lost_cancel_refuted",
    "C62_repeated_id_refuted"
   ],
   "note": "With distinct CallIDs a context is cancelled only for its own call, and a cancel request handled while the function runs works. Refuted: the cancel request can be handled before the request and is then lost; a repeated CallID lets the end of one function cancel the other."
  },
  {
   "property": "C63",
   "status": "partial",
   "theorems": [
    "C63_error_answer",
    "C63_nil_error_refuted",
    "C63_others_lost_refuted"
   ],
   "note": "No function runs and one error is sent back. Refuted: SendAndGetReply returns a nil error with the CallError message as reply; three seconds later the server closes the connection and other calls in progress cannot get their replies."
  },
  {
   "property": "C64",
   "status": "partial",
   "theorems": [
    "C64_own_result_partial",
    "C64_no_hang_partial",
    "C64_one_by_one",
    "C64_own_result_patient",
    "C64_answerable",
    "C64_hang_refuted",
    "C64_panic_refuted",
    "C64_lost_request_refuted"
   ],
   "note": "Holds when no call is ever given up (C64_own_result_patient, C64_answerable), and more generally while the server's goroutines for the connection's requests do not overlap. Refuted otherwise: after a timeout or cancel, the goroutine of the given up request shares decBuf and encBuf with the next one; the next call can hang for ever, its request can be lost or be given to another goroutine, and the client process can panic."
  },
  {
   "property": "C65",
   "status": "partial",
   "theorems": [
    "C65_arrives_partial",
    "C65_stamps",
    "C65_no_panic",
    "C65_first_partial",
    "C65_first_no_panic_partial",
    "C65_meta_refuted",
    "C65_first_panic_refuted",
    "C65_end_with_reason_refuted"
   ],
   "note": "A key of the peer's UserMeta replaces the sender's argument; an empty argument map in the first fragment panics; an error text turns the type into an error, also that of the notice of a circuit's end."
  },
  {
   "property": "C66",
   "status": "proved",
   "theorems": [
    "C66_separate",
    "C66_refused"
   ],
   "note": ""
  },
  {
   "property": "C67",
   "status": "partial",
   "theorems": [
    "C67_order_partial",
    "C67_same_payload_partial",
    "C67_order_refuted"
   ],
   "note": "Exact result for all pairs; the greater payload gives 0 instead of 1."
  },
  {
   "property": "C68",
   "status": "partial",
   "theorems": [
    "C68_recycle_partial",
    "C68_serial",
    "C68_retry_refuted",
    "C68_wiped_refuted"
   ],
   "note": "Holds if a fragment is taken for gone once passed to a recycling send, whatever the send returned; SendOneWay recycles before it sends, so sending again after an error shares the fragment and sends blanks."
  },
  {
   "property": "C69",
   "status": "partial",
   "theorems": [
    "C69_in_order",
    "C69_no_gap_partial",
    "C69_nothing_lost_partial",
    "C69_full_channel_refuted",
    "C69_other_closed_refuted",
    "C69_early_answer_refuted"
   ],
   "note": "Order holds always. Completeness is false: a fragment is dropped when the receiving peer's channel is full for five seconds, when another circuit of the peer is closed while Reads is full, or when an answer comes before the asking peer has told its pump of the circuit; the two _partial theorems exclude such drops by an event the model logs for each. The three _refuted theorems give a run for each."
  },
  {
   "property": "C70",
   "status": "partial",
   "theorems": [
    "C70_after_data_partial",
    "C70_told_partial",
    "C70_reason_refuted",
    "C70_connection_lost_refuted"
   ],
   "note": "Partial: excluded are dropped messages (see C69), a lost connection, a notice given up after five seconds, and a Close with a reason, which the other end gets as an error that does not close it (C70_reason_refuted). A request for a circuit with a stopping peer ends the whole connection (C70_connection_lost_refuted)."
  },
  {
   "property": "C71",
   "status": "partial",
   "theorems": [
    "C71_count",
    "C71_closed_once",
    "C71_open_iff",
    "C71_stays_up",
    "C71_auto_refuted"
   ],
   "note": "Proved but for AutoShutdownWhenNoMoreCircuits, which never happens: the number of circuits is looked at before the closed one is taken out (C71_stays_up, C71_auto_refuted)."
  },
  {
   "property": "C72",
   "status": "partial",
   "theorems": [
    "C72_no_newer_leader_partial",
    "C72_local_read_partial",
    "C72_never_stale_partial",
    "C72_until_partial",
    "C72_restart_refuted",
    "C72_late_stamp_refuted",
    "C72_higher_reply_refuted",
    "C72_shadow_refuted"
   ],
   "note": "Partial, on top of the guards G1-G4 of C31-C33 and given that two heartbeats cover the clocks' divergence over an election timeout: (L1) the timestamp a broadcast takes after its send is not later than that; (L2) a node comes back from a crash no sooner than an election timeout after the last AppendEntries it took; (L3) a node that heard from its leader lately is handed no vote or ack of a higher term; (L4) the peers counted are members. Each is needed: the four _refuted theorems give a run with a stale read for each one dropped, all other conditions kept. Not modelled: pre-votes (the model allows more elections), the branch for a cluster of one."
  },
  {
   "property": "C73",
   "status": "partial",
   "theorems": [
    "C73_linearizable_partial",
    "C73_shipped_refuted",
    "C73_deadline_refuted",
    "C73_busy_refuted"
   ],
   "note": "Proved when ACKs go to the writer only (useBcastAckOptimization off), no message-loss deadline passes and nobody writes on a node while the key is being written or invalidated there. As shipped it is false: with three nodes one ACK completes a write (C73_shipped_refuted); a deadline completes a write no other node has seen (C73_deadline_refuted); a queued write completes without having been sent (C73_busy_refuted). One key: the keys of a node do not interact."
  },
  {
   "property": "C74",
   "status": "proved",
   "theorems": [
    "C74_no_invention"
   ],
   "note": "Every execution, both settings of useBcastAckOptimization."
  },
  {
   "property": "C75",
   "status": "partial",
   "theorems": [
    "C75_converge_partial",
    "C75_deadline_refuted"
   ],
   "note": "For clusters of any size with ACKs to the writer only, and of three or more as shipped, when no deadline passes and no write meets a busy key. With one deadline a node installs an old value again and stays different (C75_deadline_refuted)."
  },
  {
   "property": "C76",
   "status": "partial",
   "theorems": [
    "C76_total",
    "C76_never_back_partial",
    "C76_unique_partial",
    "C76_collision_refuted",
    "C76_deadline_refuted"
   ],
   "note": "The order is total provided the keyed hash gives different ids different values at every version (hashInj); with a collision each of two timestamps is below the other. Never back and unique: calm runs as for C75; with a deadline a node goes back (C76_deadline_refuted)."
  },
  {
   "property": "C77",
   "status": "partial",
   "theorems": [
    "C77_no_panic_partial",
    "C77_busy_refuted",
    "C77_deadline_refuted"
   ],
   "note": "Calm runs as for C75. Otherwise false: three writes on one node and a concurrent write from another end in a queued write deleted twice (C77_busy_refuted); an ACK that overtakes its INV and a deadline in a nil dereference (C77_deadline_refuted)."
  },
  {
   "property": "C78",
   "status": "proved",
   "theorems": [
    "C78_at_most_once",
    "C78_lost_refuted"
   ],
   "note": "Every execution, both settings. That every request is answered is not part of the property, and false: C78_lost_refuted is a read that no later event can answer."
  },
  {
   "property": "C79",
   "status": "partial",
   "theorems": [
    "C79_right_partial",
    "C79_found_partial",
    "C79_count",
    "C79_header",
    "C79_orphan_refuted",
    "C79_verify_refuted"
   ],
   "note": "Proved when the store is opened without VerifyData and the two files are in step whenever it is opened, but perhaps the last time. A kill between the write of a record and that of its index entry leaves them out of step; after the next Append and reopening, Get returns another blob's bytes (C79_orphan_refuted). With VerifyData the cache holds the compressed bytes and Get returns these (C79_verify_refuted)."
  },
  {
   "property": "C80",
   "status": "partial",
   "theorems": [
    "C80_survives_partial",
    "C80_verify_accepts",
    "C80_torn_refuted",
    "C80_unnoticed_refuted"
   ],
   "note": "Proved when the kill did not cut an index entry (C80_survives_partial; VerifyData accepts files that are in step). A cut entry makes NewCASIndex panic for ever (C80_torn_refuted); VerifyData overlooks a cut record header, and the next returned Append is lost (C80_unnoticed_refuted). Losing writes the operating system has taken (power failure) is not modelled."
  },
  {
   "property": "C81",
   "status": "partial",
   "theorems": [
    "C81_no_panic_partial",
    "C81_cached_partial",
    "C81_evicted_refuted",
    "C81_reopened_refuted",
    "C81_nocache_refuted",
    "C81_concurrent_refuted",
    "C81_big_refuted"
   ],
   "note": "Proved when no blob is given twice, no two Gets of a hash overlap, records fit in the 1 MB work buffer and no index entry was cut; and for a process that starts empty and whose cache holds everything. Otherwise false, in five ways."
  },
  {
   "property": "C82",
   "status": "proved",
   "theorems": [
    "C82_bound"
   ],
   "note": "Every execution, with or without VerifyData."
  },
  {
   "property": "C83",
   "status": "proved",
   "theorems": [
    "C83_views_rise"
   ],
   "note": "Every run, without any assumption on clocks."
  },
  {
   "property": "C84",
   "status": "proved",
   "theorems": [
    "C84_one_czar",
    "C84_clock_ahead_refuted"
   ],
   "note": "C84_clock_ahead_refuted shows that the condition on the clock is needed."
  },
  {
   "property": "C85",
   "status": "proved",
   "theorems": [
    "C85_answers_rise",
    "C85_clock_ahead_refuted"
   ],
   "note": "C85_clock_ahead_refuted shows that the condition on the clock is needed."
  },
  {
   "property": "C86",
   "status": "proved",
   "theorems": [
    "C86_same_version_same_members"
   ],
   "note": "Every run; names and PeerIDs, not addresses or lease ends."
  },
  {
   "property": "C87",
   "status": "partial",
   "theorems": [
    "C87_kept_partial",
    "C87_takeover_refuted"
   ],
   "note": "Proved for two answers of one epoch. False across a takeover: the new czar starts from the list it last heard itself, so a member that joined since is missing from its answers while its lease runs (C87_takeover_refuted)."
  },
  {
   "property": "C88",
   "status": "partial",
   "theorems": [
    "C88_listed_partial",
    "C88_dropped_refuted"
   ],
   "note": "Proved unless the pinger was new to the czar (or changed) and handling the ping drops a silent member; then the answer lacks the pinger, because expireSilentNodes ignores its argument (C88_dropped_refuted)."
  },
  {
   "property": "C89",
   "status": "partial",
   "theorems": [
    "C89_kinds_partial",
    "C89_retry_refuted",
    "C89_restart_refuted",
    "C89_slow_ping_refuted",
    "C89_heartbeat_refuted",
    "C89_no_czar_refuted"
   ],
   "note": "Proved: only four checks can panic (the renewal check and the version check in handlePing cannot). False otherwise: a retried CAS, a restart under the same name, a slow ping, a heartbeat while another member is dropped, a late refusal."
  },
  {
   "property": "C90",
   "status": "partial",
   "theorems": [
    "C90_takeover_partial",
    "C90_missed_epoch_refuted"
   ],
   "note": "Proved for a member that knows the key's epoch or none. A member that missed an epoch never succeeds, in any continuation without a new process (C90_missed_epoch_refuted)."
  },
  {
   "property": "C91",
   "status": "partial",
   "theorems": [
    "C91_next_partial",
    "C91_stuck_refuted"
   ],
   "note": "Proved for answers that are not stale. After a stale one the member is alive but never pings or contends again, in any continuation (C91_stuck_refuted)."
  },
  {
   "property": "C92",
   "status": "partial",
   "theorems": [
    "C92_told_partial",
    "C92_new_epoch_refuted"
   ],
   "note": "Proved within an epoch of which the user has heard. A member that reads a new czar's list from the key and gets the same list in its first answer never tells its user of the new epoch (C92_new_epoch_refuted)."
  },
  {
   "property": "C93",
   "status": "partial",
   "theorems": [
    "C93_lockdown_partial",
    "C93_single_partial",
    "C93_borrowed_refuted",
    "C93_undone_refuted"
   ],
   "note": "Proved: a peer is let in if and only if one of the certificates it sends is listed. False in full: every certificate sent is looked up, but TLS checks possession of the first key only, so a peer signed by the CA gets in by appending the public certificate of a listed peer (C93_borrowed_refuted). A check under way when the file is made read-only replaces it by a writable one (C93_undone_refuted)."
  },
  {
   "property": "C94",
   "status": "partial",
   "theorems": [
    "C94_recorded_partial",
    "C94_newline_refuted"
   ],
   "note": "Proved for hosts of one word and e-mail addresses without a newline. An e-mail address with a newline makes the file unreadable: nobody is let in from then on (C94_newline_refuted)."
  },
  {
   "property": "C95",
   "status": "partial",
   "theorems": [
    "C95_learned_partial",
    "C95_injected_refuted"
   ],
   "note": "Proved for peers that send one certificate, one peer at a time, without a newline in e-mail addresses. With one, a certificate can add a key of its choice to the file (C95_injected_refuted)."
  },
  {
   "property": "C96",
   "status": "partial",
   "theorems": [
    "C96_killed_partial",
    "C96_killed_refuted"
   ],
   "note": "Proved: the file or file.old lists them. False of the file itself: killed between the renaming and the creation there is none, and the next start lets everybody in without recording them (C96_killed_refuted)."
  },
  {
   "property": "C97",
   "status": "partial",
   "theorems": [
    "C97_known_partial",
    "C97_panic_refuted",
    "C97_lost_refuted",
    "C97_away_refuted",
    "C97_forgotten_refuted"
   ],
   "note": "Proved for peers that are listed already. False with a new peer: the process may panic in isWritable, the record of one of two new peers is lost, a listed peer is refused, listed peers are forgotten."
  },
  {
   "property": "C98",
   "status": "partial",
   "theorems": [
    "C98_tls_partial",
    "C98_quic_partial",
    "C98_quic_refuted"
   ],
   "note": "Proved for the TLS server (checks one at a time), and for the QUIC server up to the first refusal. False of the QUIC server: the first refused peer ends the accept loop and closes the listener (C98_quic_refuted)."
  },
  {
   "property": "C99",
   "status": "partial",
   "theorems": [
    "C99_nobody_partial",
    "C99_notices_refuted"
   ],
   "note": "Proved: everybody is refused. False: the check for it never fires, the server stays up (C99_notices_refuted)."
  },
  {
   "property": "C100",
   "status": "partial",
   "theorems": [
    "C100_refused_partial",
    "C100_recorded_refuted"
   ],
   "note": "Proved for peers that send one certificate. A chain whose last certificate is not ed25519 is refused after its first one was recorded (C100_recorded_refuted)."
  },
  {
   "property": "C101",
   "status": "proved",
   "theorems": [
    "C101_no_file"
   ],
   "note": ""
  },
  {
   "property": "C102",
   "status": "partial",
   "theorems": [
    "C102_alone_partial",
    "C97_panic_refuted"
   ],
   "note": "Proved for a check that runs alone. Two at the same time may panic (C97_panic_refuted)."
  },
  {
   "property": "C103",
   "status": "proved",
   "theorems": [
    "C103_malformed"
   ],
   "note": ""
  },
  {
   "property": "C104",
   "status": "proved",
   "theorems": [
    "C104_listing"
   ],
   "note": ""
  },
  {
   "property": "C105",
   "status": "partial",
   "theorems": [
    "C105_one_pack_partial",
    "C105_further_packs_refuted"
   ],
   "note": "Proved for a listing of one pack. The first entry of each further pack is not counted (C105_further_packs_refuted)."
  },
  {
   "property": "C106",
   "status": "partial",
   "theorems": [
    "C106_inside_partial",
    "C106_dotdot_refuted"
   ],
   "note": "Proved for listings without \"..\". A file path is not checked at all and a directory path only for its beginning: \"../7\" and \"1/../../7\" are written outside (C106_dotdot_refuted)."
  },
  {
   "property": "C107",
   "status": "partial",
   "theorems": [
    "C107_arrives_partial",
    "C107_existing_refuted",
    "C107_others_refuted"
   ],
   "note": "Proved for files that are missing or empty on the taker, if every other one has the same size and second. False otherwise: a file that is there and not empty is never changed, whatever the giver has, because an assertion before the fetch is inverted and the error is dropped (C107_existing_refuted, for all trees); and one such file can keep new files from arriving (C107_others_refuted). Files of the same size and second would not be fetched in any case."
  },
  {
   "property": "C108",
   "status": "proved",
   "theorems": [
    "C108_gone",
    "C108_kept"
   ],
   "note": ""
  },
  {
   "property": "C109",
   "status": "partial",
   "theorems": [
    "C109_removes_nothing_partial",
    "C109_writes_refuted"
   ],
   "note": "Proved: nothing is removed. False in full: directories are made, modes set, symlinks put in place of files and files fetched (C109_writes_refuted)."
  },
  {
   "property": "C110",
   "status": "partial",
   "theorems": [
    "C110_mid_partial",
    "C110_leaf_refuted"
   ],
   "note": "Proved for directories with subdirectories. One without, new to the taker, always gets 0700 (C110_leaf_refuted, for all trees)."
  },
  {
   "property": "C111",
   "status": "proved",
   "theorems": [
    "C111_by_id"
   ],
   "note": ""
  },
  {
   "property": "C112",
   "status": "partial",
   "theorems": [
    "C112_walk_partial",
    "C112_again_refuted"
   ],
   "note": "Proved if no two requests of one ID wait together, an index is given to a request once and to one request only. False for a request sent again under its ID and given another index: the first copy is walked for ever (C112_again_refuted)."
  },
  {
   "property": "C113",
   "status": "partial",
   "theorems": [
    "C113_later_partial",
    "C113_stalled_refuted"
   ],
   "note": "Proved for requests that arrive once the leader's first entry has committed. False for every one that arrives before: it waits without a log index, the walk that is to resubmit it yields only requests that have one, so it is never started and its client never hears anything (C113_stalled_refuted, for all histories)."
  },
  {
   "property": "C114",
   "status": "partial",
   "theorems": [
    "C114_takeover_refuted"
   ],
   "note": "False: the takeover walks only requests with a log index, and those that wait for an answer have none; they are dropped (C114_takeover_refuted, for all histories)."
  },
  {
   "property": "C115",
   "status": "partial",
   "theorems": [
    "C115_logged_partial",
    "C115_batched_partial",
    "C115_stalled_refuted"
   ],
   "note": "Proved for requests of the batch, and for those that this leader has put in its log and not committed if no request reaches the node under an ID it has seen. False for those that wait for the leader's first commit: they are forgotten and their clients not told (C115_stalled_refuted, for all histories)."
  },
  {
   "property": "C116",
   "status": "partial",
   "theorems": [
    "C116_index_partial",
    "C116_twice_refuted"
   ],
   "note": "Proved if no request reaches the node under an ID it has seen. False for one that arrives twice: finishing the first copy writes its index into the second, and applying that one panics (C116_twice_refuted)."
  }
 ]
}