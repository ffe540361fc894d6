{
 "claims": [
  {
   "property": "C01",
   "status": "proved",
   "theorems": [
    "C01_varint_roundtrip"
   ],
   "note": ""
  },
  {
   "property": "C02",
   "status": "proved",
   "theorems": [
    "C02_varint_shortest",
    "C02_varint_panics_exactly",
    "C02_varint_conversions"
   ],
   "note": ""
  },
  {
   "property": "C03",
   "status": "proved",
   "theorems": [
    "C03_varint_decode_exact",
    "C03_varint_value_bound"
   ],
   "note": ""
  },
  {
   "property": "C04",
   "status": "proved",
   "theorems": [
    "C04_message_roundtrip",
    "C04_duration_truncates"
   ],
   "note": ""
  },
  {
   "property": "C05",
   "status": "proved",
   "theorems": [
    "C05_streaming_decode"
   ],
   "note": ""
  },
  {
   "property": "C06",
   "status": "proved",
   "theorems": [
    "C06_unique_decoding",
    "C06_prefix_free"
   ],
   "note": ""
  },
  {
   "property": "C07",
   "status": "proved",
   "theorems": [
    "C07_size_prediction",
    "C07_sizer_counts_all_calls",
    "C07_size_overrides"
   ],
   "note": ""
  },
  {
   "property": "C08",
   "status": "proved",
   "theorems": [
    "C08_extension_order_irrelevant",
    "C08_extension_duplicates_refused",
    "C08_extension_get_set"
   ],
   "note": ""
  },
  {
   "property": "C09",
   "status": "partial",
   "theorems": [
    "C09_bitrate_partial",
    "C09_bitrate_refuted"
   ],
   "note": "False of the code for a present bitrate of zero (refuted, witness); proved for every other value."
  },
  {
   "property": "C10",
   "status": "partial",
   "theorems": [
    "C10_length_not_truncated_64",
    "C10_length_32_partial",
    "C10_length_truncated_refuted"
   ],
   "note": "True on 64-bit targets; refuted on 32-bit targets (usize truncation), where the exact range is given."
  },
  {
   "property": "C11",
   "status": "partial",
   "theorems": [
    "C11_error_codes_distinct_partial",
    "C11_to_code_panics_exactly",
    "C11_error_codes_collide_refuted"
   ],
   "note": "False for application codes in the top 64 of u32 (wrap in release, panic in debug); proved for all others."
  },
  {
   "property": "C12",
   "status": "proved",
   "theorems": [
    "C12_chunk_independence",
    "C12_raw_reads_split",
    "C12_decode_resumes"
   ],
   "note": "Transport contract: a successful read returns at least one byte (an Example shows it is needed)."
  },
  {
   "property": "C13",
   "status": "proved",
   "theorems": [
    "C13_finished_exact",
    "C13_maybe_exact"
   ],
   "note": ""
  },
  {
   "property": "C14",
   "status": "proved",
   "theorems": [
    "C14_writes_exact"
   ],
   "note": ""
  },
  {
   "property": "C15",
   "status": "proved",
   "theorems": [
    "C15_group_intact",
    "C15_serving_completes"
   ],
   "note": ""
  },
  {
   "property": "C16",
   "status": "proved",
   "theorems": [
    "C16_group_cut",
    "C16_finished_means_full"
   ],
   "note": ""
  },
  {
   "property": "C17",
   "status": "proved",
   "theorems": [
    "C17_relay_chain",
    "C17_relay_hop_exists",
    "C17_relay_chain_cut"
   ],
   "note": ""
  },
  {
   "property": "C18",
   "status": "partial",
   "theorems": [
    "C18_hostile_stream",
    "C18_livelock_32_refuted"
   ],
   "note": "Proved for word sizes of at least 62 bits; on 32-bit targets a declared frame size of 2^32 makes the loop spin for ever (refuted)."
  },
  {
   "property": "C19",
   "status": "proved",
   "theorems": [
    "C19_readers_see_prefix",
    "C19_told_end_saw_all",
    "C19_read_result",
    "C19_read_all_result"
   ],
   "note": ""
  },
  {
   "property": "C20",
   "status": "proved",
   "theorems": [
    "C20_complete_means_exact",
    "C20_never_exceeds",
    "C20_write_accepted_iff",
    "C20_finish_accepted_iff"
   ],
   "note": ""
  },
  {
   "property": "C21",
   "status": "partial",
   "theorems": [
    "C21_clones_exceed_size_refuted",
    "C21_clones_bound_partial",
    "C21_write_exact",
    "C21_finish_exact"
   ],
   "note": "False of the code: every clone of a frame producer counts its own bytes (witness); proved bound size*(1+clones)."
  },
  {
   "property": "C22",
   "status": "proved",
   "theorems": [
    "C22_frame_readers_released",
    "C22_frame_read_all_released",
    "C22_group_readers_released",
    "C22_group_read_frame_result",
    "C22_track_readers_released",
    "C22_track_closed_result"
   ],
   "note": ""
  },
  {
   "property": "C23",
   "status": "proved",
   "theorems": [
    "C23_frames_in_order",
    "C23_told_end_saw_all",
    "C23_next_result"
   ],
   "note": ""
  },
  {
   "property": "C24",
   "status": "proved",
   "theorems": [
    "C24_pending_poll_invisible",
    "C24_reads_complete"
   ],
   "note": ""
  },
  {
   "property": "C25",
   "status": "proved",
   "theorems": [
    "C25_frame_closed_write_panics",
    "C25_group_append",
    "C25_track_closed_insert_panics",
    "C25_track_open_insert_ok"
   ],
   "note": ""
  },
  {
   "property": "C26",
   "status": "proved",
   "theorems": [
    "C26_readers_move_forward"
   ],
   "note": ""
  },
  {
   "property": "C27",
   "status": "proved",
   "theorems": [
    "C27_accepted_iff_newer"
   ],
   "note": ""
  },
  {
   "property": "C28",
   "status": "proved",
   "theorems": [
    "C28_freshest_without_waiting"
   ],
   "note": ""
  },
  {
   "property": "C29",
   "status": "partial",
   "theorems": [
    "C29_finish_hides_group_refuted",
    "C29_only_before_close_partial"
   ],
   "note": "False of the code: a finished track reports the end in place of an unread newest group (witness); exact behaviour proved."
  },
  {
   "property": "C30",
   "status": "partial",
   "theorems": [
    "C30_append_race_refuted",
    "C30_append_overflow_refuted",
    "C30_append_alone_partial",
    "C30_append_outcome_partial"
   ],
   "note": "False of the code under races of clones and at the largest sequence number (witnesses); proved for an unraced append, with the exact outcome of every raced one."
  },
  {
   "property": "C31",
   "status": "proved",
   "theorems": [
    "C31_subscriptions_join",
    "C31_subscription_is_current",
    "C31_one_request_each"
   ],
   "note": ""
  },
  {
   "property": "C32",
   "status": "proved",
   "theorems": [
    "C32_no_dangling",
    "C32_none_waits_after_shutdown",
    "C32_shutdown_completes"
   ],
   "note": ""
  },
  {
   "property": "C33",
   "status": "proved",
   "theorems": [
    "C33_cleanup_spares_others",
    "C33_cleanup_evicts_ended"
   ],
   "note": ""
  },
  {
   "property": "C34",
   "status": "proved",
   "theorems": [
    "C34_last_drop_shuts_down",
    "C34_other_drops_are_silent",
    "C34_shutdown_rejects",
    "C34_requests_stay_open"
   ],
   "note": ""
  },
  {
   "property": "C35",
   "status": "proved",
   "theorems": [
    "C35_consumers_miss_nothing",
    "C35_no_early_end",
    "C35_orders_covered"
   ],
   "note": ""
  },
  {
   "property": "C36",
   "status": "partial",
   "theorems": [
    "C36_replacement_stays_refuted",
    "C36_replacement_stays_partial",
    "C36_lookup_exact",
    "C36_ended_not_found"
   ],
   "note": "False of the code: the cleanup of a broadcast that ended removes its replacement (witness); exact lookup result proved for every history, and the claim while nothing published at the path has ended."
  },
  {
   "property": "C37",
   "status": "partial",
   "theorems": [
    "C37_clone_lossless_refuted",
    "C37_clone_lossless_partial"
   ],
   "note": "False of the code: an announcement between the two halves of clone is lost to the clone (witness); proved for all announcements before and after."
  },
  {
   "property": "C38",
   "status": "partial",
   "theorems": [
    "C38_server_exact",
    "C38_client_exact",
    "C38_client_version_refuted",
    "C38_agreement_partial"
   ],
   "note": "False of the code: a client accepts any version in the answer (witness); both halves characterised exactly and agreement with this library's server proved."
  },
  {
   "property": "C39",
   "status": "partial",
   "theorems": [
    "C39_alternation_refuted",
    "C39_alternation_partial",
    "C39_accounting",
    "C39_finish_ends_all"
   ],
   "note": "False of the code: a broadcast replaced before its end was noticed is announced twice and then reported ended while live (witness). Accounting for every schedule, ending on finish, and alternation when announcements do not overlap are proved."
  },
  {
   "property": "C40",
   "status": "partial",
   "theorems": [
    "C40_ended_exact",
    "C40_active_exact",
    "C40_active_partial",
    "C40_available",
    "C40_lookup",
    "C40_race_refuted"
   ],
   "note": "False of the code: a path announced again before the cleanup of its predecessor ran makes the receiver fail (witness). Exact acceptance conditions proved for every history, and the claim whenever no cleanup is waiting."
  },
  {
   "property": "C41",
   "status": "partial",
   "theorems": [
    "C41_seen_exact",
    "C41_empty_prefix_partial",
    "C41_asks_exact",
    "C41_seen_refuted",
    "C41_asks_refuted"
   ],
   "note": "False of the code for non-empty prefixes (witnesses: never visible; wrong path asked for); exact visible sequence and asked path proved, and the claim for the empty prefix."
  },
  {
   "property": "C42",
   "status": "proved",
   "theorems": [
    "C42_ids_exact",
    "C42_ids_distinct",
    "C42_reception",
    "C42_unknown",
    "C42_peer_told"
   ],
   "note": "Ids wrap after 2^64 subscriptions; distinctness and reception are proved for the first 2^64 (the exact id of every one is proved without that limit)."
  },
  {
   "property": "C43",
   "status": "partial",
   "theorems": [
    "C43_refuted",
    "C43_window_partial"
   ],
   "note": "False of the code: between the end of a track and the removal of its entry a group panics (witness); proved that this window is the only case."
  },
  {
   "property": "C44",
   "status": "proved",
   "theorems": [
    "C44_at_most_two",
    "C44_newest_kept",
    "C44_cancelled_only_when",
    "C44_completing_newer_cancels_older",
    "C44_clean_end_waits",
    "C44_one_fate"
   ],
   "note": ""
  },
  {
   "property": "C45",
   "status": "partial",
   "theorems": [
    "C45_directions_conflict_refuted",
    "C45_no_panic_refuted",
    "C45_order_partial",
    "C45_exact",
    "C45_high_priorities_refuted"
   ],
   "note": "False of the code: the two orders go in opposite directions, priorities from 128 rank lowest, and debug builds panic from sequence 2^24 (witnesses); exact formula proved."
  },
  {
   "property": "C46",
   "status": "partial",
   "theorems": [
    "C46_served_exact",
    "C46_served_partial",
    "C46_replacement_refuted",
    "C46_ended_refuted"
   ],
   "note": "False of the code in the same way as C36 (witnesses); exact behaviour proved for every history."
  },
  {
   "property": "C47",
   "status": "partial",
   "theorems": [
    "C47_refuted",
    "C47_never_unused",
    "C47_used_partial"
   ],
   "note": "False of the code: the cleanup task of a requested track keeps it used until it ends (witness, and proved for every history); the converse (never unused while read) is proved."
  },
  {
   "property": "C48",
   "status": "proved",
   "theorems": [
    "C48_every_url",
    "C48_granted_exactly",
    "C48_configured_keys"
   ],
   "note": "Which key guards which directory, and exactly what is granted. JWT verification is an arbitrary function."
  },
  {
   "property": "C49",
   "status": "partial",
   "theorems": [
    "C49_no_panic_refuted",
    "C49_panics_exactly",
    "C49_no_panic_partial"
   ],
   "note": "False of the code: a path ending in .jwt where no key applies makes validate panic (witness); exactly those paths."
  },
  {
   "property": "C50",
   "status": "partial",
   "theorems": [
    "C50_confined_refuted",
    "C50_confined_exactly",
    "C50_root_token_floats"
   ],
   "note": "False of the code: scopes are string prefixes joined without separator (witness); exact condition on the token; tokens of the root key work below any directory without own key."
  },
  {
   "property": "C51",
   "status": "proved",
   "theorems": [
    "C51_learns",
    "C51_visible",
    "C51_delivers",
    "C51_in_order"
   ],
   "note": "Safety, delivery and order for every schedule of a relay with any number of sessions; scopes are string prefixes (C50)."
  },
  {
   "property": "C52",
   "status": "proved",
   "theorems": [
    "C52_sign",
    "C52_verify",
    "C52_generated",
    "C52_secret_size",
    "C52_relay_keys",
    "C52_algorithms",
    "C52_times"
   ],
   "note": "The JWT library is an arbitrary function; its own round trip is the premise of C52_generated."
  },
  {
   "property": "C53",
   "status": "proved",
   "theorems": [
    "C53_read_back",
    "C53_next_read",
    "C53_calm",
    "C53_panics_exactly"
   ],
   "note": "Any interleaving of one writer and any number of readers; the frames of a group are read whole."
  },
  {
   "property": "C54",
   "status": "partial",
   "theorems": [
    "C54_groups",
    "C54_cut_unique",
    "C54_first_frame_refuted"
   ],
   "note": "False of the code for the last part: a first frame that is no keyframe starts a group (witness). The rest proved."
  },
  {
   "property": "C55",
   "status": "partial",
   "theorems": [
    "C55_stops_exactly",
    "C55_order_partial",
    "C55_reader_exactly",
    "C55_refuted"
   ],
   "note": "False of the code: exact condition for termination proved, with a witness in ordinary playback. Order proved whenever it stops."
  },
  {
   "property": "C56",
   "status": "proved",
   "theorems": [
    "C56_playback_order"
   ],
   "note": "Composed with C26 for the order of arrivals."
  },
  {
   "property": "C57",
   "status": "proved",
   "theorems": [
    "C57_roundtrip",
    "C57_accepts_exactly"
   ],
   "note": "Also exactly which texts are accepted, and as what."
  },
  {
   "property": "C58",
   "status": "partial",
   "theorems": [
    "C58_roundtrip_partial",
    "C58_error_refuted",
    "C58_silent_refuted"
   ],
   "note": "False of the code (witnesses: an error, and a silent change); exactly the descriptions that survive are characterised."
  },
  {
   "property": "C59",
   "status": "proved",
   "theorems": [
    "C59_roundtrip",
    "C59_accepts_exactly"
   ],
   "note": "Also exactly which texts are accepted, and as what."
  },
  {
   "property": "C60",
   "status": "partial",
   "theorems": [
    "C60_roundtrip_partial",
    "C60_refuted"
   ],
   "note": "False of the code for profile 2 and three-digit numbers (witness); exactly the descriptions that survive are characterised, for any Unicode tables."
  },
  {
   "property": "C61",
   "status": "partial",
   "theorems": [
    "C61_video_panics_partial",
    "C61_audio",
    "C61_refuted"
   ],
   "note": "False of the code (witness); exactly the texts that panic are characterised. Audio never panics."
  },
  {
   "property": "C62",
   "status": "partial",
   "theorems": [
    "C62_video_roundtrip_partial",
    "C62_audio_roundtrip_partial",
    "C62_video_unknown",
    "C62_video_verbatim",
    "C62_audio_unknown",
    "C62_audio_verbatim",
    "C62_video_reprint_partial",
    "C62_audio_reprint",
    "C62_refuted"
   ],
   "note": "False for descriptions failing C58/C60 and for unknown codecs carrying a known name (witness); exact characterisation proved, and verbatim unknown names."
  },
  {
   "property": "C63",
   "status": "partial",
   "theorems": [
    "C63_unique",
    "C63_reads",
    "C63_up_to_date",
    "C63_next",
    "C63_no_panic",
    "C63_lists_live",
    "C63_exact_partial",
    "C63_stays_open",
    "C63_settles",
    "C63_refuted",
    "C63_nan_refuted",
    "C63_finish_refuted"
   ],
   "note": "False for tracks with equal descriptions, for descriptions with NaN and after finish (witnesses). Proved for all schedules: reads are whole publications in order; an up-to-date reader has the newest; at rest it lists exactly the live tracks' renditions when these differ, and only live ones otherwise; no panic; the tasks come to rest. JSON is an arbitrary pair of functions."
  },
  {
   "property": "C64",
   "status": "partial",
   "theorems": [
    "C64_boxes",
    "C64_chunking",
    "C64_cut_unique",
    "C64_ends",
    "C64_read",
    "C64_iso",
    "C64_open_partial",
    "C64_open_refuted"
   ],
   "note": "Proved for every box decoder whose answers do not change with more input (the mp4_atom crate is not in the repository), in particular for ISO framing, for parse and read_from. For a decoder that takes a size-0 box to be all bytes at hand: proved for inputs without such a box, refuted with one."
  },
  {
   "property": "C65",
   "status": "partial",
   "theorems": [
    "C65_exact_partial",
    "C65_iso_partial",
    "C65_base_refuted",
    "C65_base_only_refuted",
    "C65_release_refuted",
    "C65_release_time_refuted"
   ],
   "note": "Exact ranges, times and order proved for the importer's rule, and for ISO 14496-12 when no base_data_offset is used and the data offset is given, where debug arithmetic does not overflow. Refuted by witnesses for base_data_offset, and for wrap-around in release builds."
  },
  {
   "property": "C66",
   "status": "partial",
   "theorems": [
    "C66_no_panic_partial",
    "C66_other_boxes",
    "C66_same_in_release",
    "C66_timescale_refuted",
    "C66_offset_refuted",
    "C66_audio_refuted",
    "C66_negative_refuted",
    "C66_late_refuted",
    "C66_base_refuted"
   ],
   "note": "False (six witnesses, four of them in every build). Proved: no panic in either build for fragments whose times and ranges fit and whose audio does not go back; other boxes never panic; release does the same wherever debug does not panic."
  },
  {
   "property": "C67",
   "status": "partial",
   "theorems": [
    "C67_exact",
    "C67_only_draw",
    "C67_no_pause_partial",
    "C67_in_time",
    "C67_resume_refuted",
    "C67_latency_refuted"
   ],
   "note": "False (pausing and resuming, or pausing and setting the latency, between two animation frames). Proved: exactly when it fails; never for a page that does not pause; never by the clock."
  },
  {
   "property": "C68",
   "status": "proved",
   "theorems": [
    "C68_split",
    "C68_refused",
    "C68_answer",
    "C68_bad_request"
   ],
   "note": "The look-up and the first group are arbitrary; the answer to every outcome is determined."
  },
  {
   "property": "C69",
   "status": "partial",
   "theorems": [
    "C69_local_first",
    "C69_to_peers_partial",
    "C69_to_peers_all",
    "C69_from_peers",
    "C69_no_loop_refuted"
   ],
   "note": "False of the code: announcements of a peer that dialled this relay are passed to dialled peers (witness). Lookup order proved, and exactly what dialled peers are told and where remote broadcasts come from."
  },
  {
   "property": "C70",
   "status": "proved",
   "theorems": [
    "C70_control_dispatch",
    "C70_data_dispatch",
    "C70_cases"
   ],
   "note": ""
  },
  {
   "property": "C71",
   "status": "partial",
   "theorems": [
    "C71_frame_end_overwritten_refuted",
    "C71_frame_end_final_partial",
    "C71_group_end_overwritten_refuted",
    "C71_track_end_overwritten_refuted"
   ],
   "note": "False of the code when a clone aborts what another finished (witnesses for frame, group, track); proved for frames with a single writer."
  },
  {
   "property": "C72",
   "status": "proved",
   "theorems": [
    "C72_session_lifetime"
   ],
   "note": ""
  },
  {
   "property": "C73",
   "status": "partial",
   "theorems": [
    "C73_never_shared",
    "C73_refuted"
   ],
   "note": "False of the code: nothing is ever entered in the table consume looks in (witness, and proved for every history)."
  },
  {
   "property": "C74",
   "status": "partial",
   "theorems": [
    "C74_refuted",
    "C74_stays_open",
    "C74_session_partial"
   ],
   "note": "False of the code: the broadcasts stay open until the session closes (witness, and proved for every history); proved that they end after that."
  },
  {
   "property": "C75",
   "status": "partial",
   "theorems": [
    "C75_continues_refuted",
    "C75_never_woken",
    "C75_in_order_partial",
    "C75_poll_result"
   ],
   "note": "False of the code: nothing that happens to the group wakes the response (witness, and proved for every history). Proved whenever it is polled: content, order and the exact result of every poll."
  },
  {
   "property": "C76",
   "status": "partial",
   "theorems": [
    "C76_protected_refuted",
    "C76_protected_partial"
   ],
   "note": "False of the code without root key (witness); proved when a root key is set and no directory is public."
  },
  {
   "property": "C77",
   "status": "partial",
   "theorems": [
    "C77_ends_refuted",
    "C77_never_ends",
    "C77_publishing_ends_partial"
   ],
   "note": "False of the code for announcements to the session (witness, and proved that such a task never ends in any history); proved for what the session published."
  },
  {
   "property": "C78",
   "status": "partial",
   "theorems": [
    "C78_listed",
    "C78_lines_partial",
    "C78_page_refuted",
    "C78_empty_refuted"
   ],
   "note": "False of the code for paths with a newline and for the prefix itself (witnesses); what is listed proved for every history, the lines when no path contains a newline."
  },
  {
   "property": "C79",
   "status": "partial",
   "theorems": [
    "C79_no_panic_partial",
    "C79_latency_refuted"
   ],
   "note": "False of the code (witness); no panic proved for latencies and timestamps whose sum fits a Duration."
  },
  {
   "property": "C80",
   "status": "partial",
   "theorems": [
    "C80_fails_exactly",
    "C80_refuted"
   ],
   "note": "False of the code (witness, for every continuation)."
  },
  {
   "property": "C81",
   "status": "proved",
   "theorems": [
    "C81_order"
   ],
   "note": ""
  },
  {
   "property": "C82",
   "status": "partial",
   "theorems": [
    "C82_playing_partial",
    "C82_refuted"
   ],
   "note": "False: setting the latency un-pauses. Proved: a frame is shown only by a requested callback, after a resume or a change of latency that no pause followed."
  },
  {
   "property": "C83",
   "status": "partial",
   "theorems": [
    "C83_callback",
    "C83_shows",
    "C83_rest_partial",
    "C83_default_refuted",
    "C83_latency_refuted"
   ],
   "note": "False for the documented default (nothing is shown until a resume or a latency is sent) and right after a change of latency. Proved otherwise: callbacks are asked for, show one frame each, and at rest the newest frame is on the canvas."
  },
  {
   "property": "C84",
   "status": "partial",
   "theorems": [
    "C84_latency_partial",
    "C84_lowered_refuted"
   ],
   "note": "False right after the latency is lowered. Proved from the next decoded frame on."
  },
  {
   "property": "C85",
   "status": "proved",
   "theorems": [
    "C85_shared",
    "C85_new",
    "C85_one",
    "C85_apart",
    "C85_result"
   ],
   "note": ""
  },
  {
   "property": "C86",
   "status": "partial",
   "theorems": [
    "C86_stuck",
    "C86_retry_refuted",
    "C86_lost_partial"
   ],
   "note": "False: a failed attempt stays in the table of sessions for ever (proved for all continuations). Proved: a session that was lost is replaced."
  },
  {
   "property": "C87",
   "status": "partial",
   "theorems": [
    "C87_never",
    "C87_unused_refuted"
   ],
   "note": "False: the table itself keeps a receiver, so no session is ever closed by this side (proved for all executions)."
  },
  {
   "property": "C88",
   "status": "proved",
   "theorems": [
    "C88_download",
    "C88_single",
    "C88_play"
   ],
   "note": ""
  },
  {
   "property": "C89",
   "status": "partial",
   "theorems": [
    "C89_track",
    "C89_exact",
    "C89_frame",
    "C89_source_partial",
    "C89_broadcast_refuted",
    "C89_config_refuted"
   ],
   "note": "False: joining another broadcast that has a track of the same name and priority keeps the track of the old broadcast, and a new description of the same track is ignored. Proved: the track is always the first one of the newest catalog up to name and priority, exactly when it is replaced, and a page with one broadcast and constant descriptions gets what it should."
  },
  {
   "property": "C90",
   "status": "partial",
   "theorems": [
    "C90_join",
    "C90_joins",
    "C90_leave_refuted",
    "C90_broken_refuted"
   ],
   "note": "False: asking for no broadcast leaves the old one playing, and a broken catalog is reported as an error while playback goes on. Proved: which broadcasts are joined, and when."
  },
  {
   "property": "C91",
   "status": "partial",
   "theorems": [
    "C91_exact",
    "C91_slash_partial",
    "C91_status_partial",
    "C91_url_refuted"
   ],
   "note": "False: a URL whose path has no leading slash makes the player panic; proved exactly when, and that otherwise the status shown is always that of the last event."
  },
  {
   "property": "C92",
   "status": "partial",
   "theorems": [
    "C92_encoded_exact",
    "C92_silent_refuted",
    "C92_leaves_partial"
   ],
   "note": "False for encoding: it starts with the encoder, connected or not (exact condition proved). Proved: what leaves the page goes only to published broadcasts that did not end."
  },
  {
   "property": "C93",
   "status": "partial",
   "theorems": [
    "C93_exact",
    "C93_published",
    "C93_apart",
    "C93_found_refuted"
   ],
   "note": "False for every path but the empty one: the path is used twice. Proved: the exact path."
  },
  {
   "property": "C94",
   "status": "partial",
   "theorems": [
    "C94_reaches_partial",
    "C94_reaches_refuted"
   ],
   "note": "False for an encoder started after connecting. Proved for those started before; and no frame goes to a broadcast published before its encoder."
  },
  {
   "property": "C95",
   "status": "partial",
   "theorems": [
    "C95_switch_refuted",
    "C95_leave_exact",
    "C95_close_partial"
   ],
   "note": "False: frames keep going to every broadcast since the encoder was made, and asking for none changes nothing. Proved: closing the encoders ends all."
  },
  {
   "property": "C96",
   "status": "proved",
   "theorems": [
    "C96_names"
   ],
   "note": ""
  },
  {
   "property": "C97",
   "status": "partial",
   "theorems": [
    "C97_others_partial",
    "C97_over",
    "C97_own_partial",
    "C97_replaced_refuted",
    "C97_closed_refuted"
   ],
   "note": "False when two own broadcasts had the same name, or an own broadcast was closed before its echo was read. Proved otherwise: others are shown completely and in order, and own names are hidden while open."
  },
  {
   "property": "C98",
   "status": "partial",
   "theorems": [
    "C98_published",
    "C98_shown",
    "C98_apart_partial",
    "C98_apart_refuted"
   ],
   "note": "False: rooms are plain prefixes, room a shows what is published in room ab. Proved for names of one component ending in a slash."
  },
  {
   "property": "C99",
   "status": "proved",
   "theorems": [
    "C99_dials"
   ],
   "note": ""
  },
  {
   "property": "C100",
   "status": "proved",
   "theorems": [
    "C100_found"
   ],
   "note": ""
  },
  {
   "property": "C101",
   "status": "partial",
   "theorems": [
    "C101_closed_refuted",
    "C101_one_refuted",
    "C101_one_partial"
   ],
   "note": "False: the session is never closed, and an announcement repeated after a withdrawal opens a second one. Proved: at most one session per announcement."
  },
  {
   "property": "C102",
   "status": "partial",
   "theorems": [
    "C102_root",
    "C102_apart",
    "C102_mesh_refuted"
   ],
   "note": "False for the root, proved for all executions; true between the others as far as C100 says."
  },
  {
   "property": "C103",
   "status": "partial",
   "theorems": [
    "C103_never",
    "C103_again_refuted"
   ],
   "note": "False, proved for all continuations."
  },
  {
   "property": "C104",
   "status": "partial",
   "theorems": [
    "C104_pinned",
    "C104_page",
    "C104_single_partial",
    "C104_several_refuted"
   ],
   "note": "The client's half is proved. The relay's half is false with several certificates (the page has only the first fingerprint), proved with one."
  },
  {
   "property": "C105",
   "status": "partial",
   "theorems": [
    "C105_presented",
    "C105_default",
    "C105_panics_exactly",
    "C105_startup_refuted",
    "C105_loaded"
   ],
   "note": "Selection proved. That a server which started does not crash is false; proved exactly when a handshake panics."
  },
  {
   "property": "C106",
   "status": "partial",
   "theorems": [
    "C106_total_refuted",
    "C106_panics_exactly",
    "C106_never_raw",
    "C106_https_partial",
    "C106_unknown_scheme"
   ],
   "note": "False: every trusted moql connection panics (proved exactly). Proved for all other schemes."
  },
  {
   "property": "C107",
   "status": "partial",
   "theorems": [
    "C107_exact",
    "C107_refused",
    "C107_all",
    "C107_same_refuted"
   ],
   "note": "False: plain QUIC sessions are admitted as if they had asked for the empty path (proved exactly)."
  },
  {
   "property": "C108",
   "status": "partial",
   "theorems": [
    "C108_later_partial",
    "C108_exact",
    "C108_relative_refuted"
   ],
   "note": "False for the first frame: it has the absolute time. Proved for all others, and exactly when the times agree."
  },
  {
   "property": "C109",
   "status": "partial",
   "theorems": [
    "C109_panics_exactly",
    "C109_panic_refuted",
    "C109_never",
    "C109_told_refuted",
    "C109_stop_refuted"
   ],
   "note": "False: the end is never announced, an error or a frame earlier than the first panics (proved exactly), and stopping does not stop the tasks."
  },
  {
   "property": "C110",
   "status": "partial",
   "theorems": [
    "C110_pads_exactly",
    "C110_total_refuted"
   ],
   "note": "False: a panic for other codecs or a name used twice; proved that the pads are right exactly otherwise."
  },
  {
   "property": "C111",
   "status": "partial",
   "theorems": [
    "C111_json",
    "C111_catalog_exact",
    "C111_framerate_refuted",
    "C111_position_refuted",
    "C111_codec_refuted"
   ],
   "note": "False: infinite or NaN frame rates are lost, such a position makes the catalog unreadable, names of codecs may collide. Proved: the text is JSON, and it is read as the same catalog exactly if the codec names are good and the numbers survive."
  },
  {
   "property": "C112",
   "status": "proved",
   "theorems": [
    "C112_text",
    "C112_order",
    "C112_unknown"
   ],
   "note": ""
  },
  {
   "property": "C113",
   "status": "partial",
   "theorems": [
    "C113_catalog_refuted",
    "C113_feedback_refuted",
    "C113_catalog_partial",
    "C113_feedback_partial"
   ],
   "note": "False: certain names of H.264 codecs panic; proved that nothing else does."
  },
  {
   "property": "C114",
   "status": "partial",
   "theorems": [
    "C114_feedback_exact",
    "C114_text",
    "C114_codec_refuted"
   ],
   "note": "False for unknown codecs called like known ones; proved exactly when."
  },
  {
   "property": "C115",
   "status": "proved",
   "theorems": [
    "C115_roundtrip",
    "C115_text"
   ],
   "note": ""
  },
  {
   "property": "C116",
   "status": "proved",
   "theorems": [
    "C116_signed",
    "C116_relay"
   ],
   "note": ""
  },
  {
   "property": "C117",
   "status": "proved",
   "theorems": [
    "C117_exact",
    "C117_altered",
    "C117_algorithm"
   ],
   "note": ""
  },
  {
   "property": "C118",
   "status": "partial",
   "theorems": [
    "C118_expired_refuted",
    "C118_expired_partial"
   ],
   "note": "False: the JWT library allows 60 seconds; proved that it is refused after those."
  },
  {
   "property": "C119",
   "status": "partial",
   "theorems": [
    "C119_pipe_refuted",
    "C119_never",
    "C119_pipe_partial"
   ],
   "note": "False for every key and payload (the line break at the end is taken as part of the token); proved without it."
  },
  {
   "property": "C120",
   "status": "proved",
   "theorems": [
    "C120_readers",
    "C120_told",
    "C120_total",
    "C120_wire"
   ],
   "note": ""
  },
  {
   "property": "C121",
   "status": "partial",
   "theorems": [
    "C121_latest_partial",
    "C121_latest_refuted",
    "C121_update_partial",
    "C121_update_refuted"
   ],
   "note": "False when two clones update at the same time (latest may stay at the older position; one update may panic); proved when calls of update do not overlap."
  },
  {
   "property": "C122",
   "status": "partial",
   "theorems": [
    "C122_newest_partial",
    "C122_newest_refuted",
    "C122_end_refuted"
   ],
   "note": "False for a reader that dropped a next() which had found a group, and for a position published just before finish; proved otherwise."
  },
  {
   "property": "C123",
   "status": "partial",
   "theorems": [
    "C123_taken",
    "C123_catalog",
    "C123_refused",
    "C123_refines",
    "C123_atomic_refuted",
    "C123_high_rate",
    "C123_rate_refuted"
   ],
   "note": "Proved except: a refused header leaves the tracks before the refused one published (C123_atomic_refuted), and AAC at 96 or 88.2 kHz never gets its rate (C123_high_rate)."
  },
  {
   "property": "C124",
   "status": "partial",
   "theorems": [
    "C124_distinct",
    "C124_catalog",
    "C124_unique_refuted",
    "C124_again",
    "C124_second"
   ],
   "note": "Exactly the headers without two tracks of one kind and id (C124_distinct); the importer accepts the others, and a second header (C124_again)."
  },
  {
   "property": "C125",
   "status": "partial",
   "theorems": [
    "C125_names_partial",
    "C125_hevc_partial",
    "C125_hevc_profiles",
    "C125_names_refuted",
    "C125_av1_refuted",
    "C125_av1_depth_exact"
   ],
   "note": "Exact for all codecs, except H.265 with compatibility flags beyond the first eight, where only a sufficient condition is proved. False for every general profile of H.265, for the high tier and for 12 bits of AV1."
  },
  {
   "property": "C126",
   "status": "partial",
   "theorems": [
    "C126_exact",
    "C126_spoiled",
    "C126_one_name",
    "C126_readable_refuted",
    "C126_other_refuted"
   ],
   "note": "C126_exact: exactly the movies without certain H.265 boxes and without AV1 profiles above 1; C126_spoiled: one of these makes the whole catalog unreadable."
  },
  {
   "property": "C127",
   "status": "proved",
   "theorems": [
    "C127_copies",
    "C127_in_order"
   ],
   "note": ""
  },
  {
   "property": "C128",
   "status": "proved",
   "theorems": [
    "C128_converges",
    "C128_readers",
    "C128_rest",
    "C128_reachable"
   ],
   "note": ""
  },
  {
   "property": "C129",
   "status": "partial",
   "theorems": [
    "C129_ends",
    "C129_complete_refuted",
    "C129_error_refuted"
   ],
   "note": "C129_ends: completeness is never invented. False: the end of a subscription overtakes its last group, which is then refused although every byte arrives (C129_complete_refuted); the application's error never crosses a session, readers get Cancel (C129_error_refuted)."
  },
  {
   "property": "C130",
   "status": "proved",
   "theorems": [
    "C130_shown"
   ],
   "note": ""
  },
  {
   "property": "C131",
   "status": "proved",
   "theorems": [
    "C131_order"
   ],
   "note": ""
  },
  {
   "property": "C132",
   "status": "partial",
   "theorems": [
    "C132_waiting_partial",
    "C132_overtaken_refuted"
   ],
   "note": "C132_waiting_partial: a viewer whose read has to wait at a node that has everything has been shown the newest frame. False in general: a viewer overtaken by two groups is left in a group that the publisher gives up, and every further read fails although the newest frame is at its node and nothing was lost (C132_overtaken_refuted)."
  },
  {
   "property": "C133",
   "status": "proved",
   "theorems": [
    "C133_unchanged",
    "C133_safe"
   ],
   "note": ""
  },
  {
   "property": "C134",
   "status": "partial",
   "theorems": [
    "C134_resampled_partial",
    "C134_track_refuted",
    "C134_rate_refuted",
    "C134_channel_refuted",
    "C134_end_refuted"
   ],
   "note": "Proved, with the exact messages, for a track in one format that is the first to be resampled (C134_resampled_partial). False otherwise: the resampler is made once and never replaced, so the rate of a second track or worklet is not looked at and left-over samples of the first track come before those of the second (track, rate); a second channel that begins is not heard (channel), and when one ends nothing is heard any more (end)."
  },
  {
   "property": "C135",
   "status": "partial",
   "theorems": [
    "C135_times_partial",
    "C135_times_refuted"
   ],
   "note": "Proved when all frames have the same number of samples. False otherwise: a message has the time of the frame that completes its chunk."
  },
  {
   "property": "C136",
   "status": "proved",
   "theorems": [
    "C136_heard",
    "C136_order",
    "C136_newest",
    "C136_complete",
    "C136_both"
   ],
   "note": ""
  },
  {
   "property": "C137",
   "status": "proved",
   "theorems": [
    "C137_bounded",
    "C137_gaps"
   ],
   "note": ""
  },
  {
   "property": "C138",
   "status": "partial",
   "theorems": [
    "C138_left_only",
    "C138_mono_refuted",
    "C138_right_refuted"
   ],
   "note": "False: channels are copied one to one. Exactly what is heard on each output is C136_heard."
  },
  {
   "property": "C139",
   "status": "partial",
   "theorems": [
    "C139_untimed",
    "C139_time_refuted"
   ],
   "note": "False: times are not looked at, proved for every history (C139_untimed)."
  },
  {
   "property": "C140",
   "status": "proved",
   "theorems": [
    "C140_source",
    "C140_found"
   ],
   "note": ""
  },
  {
   "property": "C141",
   "status": "partial",
   "theorems": [
    "C141_settled_partial",
    "C141_refuted",
    "C141_stale_refuted"
   ],
   "note": "Proved for all networks and schedules in which no origin is given a path twice (C141_settled_partial; C143 gives a condition on prefixes that ensures it). False otherwise: the peer takes a second announcement of a path for an error and stops listening without closing the session, so a published path is missing (C141_refuted) and an ended one stays (C141_stale_refuted)."
  },
  {
   "property": "C142",
   "status": "partial",
   "theorems": [
    "C142_cause_partial",
    "C142_refuted"
   ],
   "note": "Proved under the same condition; false without it: of two announcements of one path the second is closed at once, although nothing ended."
  },
  {
   "property": "C143",
   "status": "proved",
   "theorems": [
    "C143_apart",
    "C143_settled"
   ],
   "note": ""
  },
  {
   "property": "C144",
   "status": "partial",
   "theorems": [
    "C144_keyframes_partial",
    "C144_joined_partial",
    "C144_joined_refuted"
   ],
   "note": "Proved for all files whose values are in range and where a debug build does not panic (when it does: C66). That audio can be joined wherever video can is true of files with one header, and false of others (C144_joined_refuted)."
  },
  {
   "property": "C145",
   "status": "partial",
   "theorems": [
    "C145_file_partial",
    "C145_before_partial",
    "C145_bytes_partial"
   ],
   "note": "Proved for the boxes and, by C64, for the bytes in any chunks, where header values are in range and a debug build does not panic (C66), with the importer's rule for base_data_offset (which differs from the standard: C65)."
  },
  {
   "property": "C146",
   "status": "partial",
   "theorems": [
    "C146_bounded",
    "C146_rest",
    "C146_settled",
    "C146_refuted"
   ],
   "note": "Bounded work, reaching rest and what is there then are proved for networks without circles; C146_refuted is a circle of two links."
  },
  {
   "property": "C147",
   "status": "partial",
   "theorems": [
    "C147_reaches_partial",
    "C147_one",
    "C147_refuted"
   ],
   "note": "That the request ends at one broadcast is proved for every network; that it is one announced there under this path for sessions without a prefix. C147_refuted: with a prefix it is false."
  },
  {
   "property": "C148",
   "status": "partial",
   "theorems": [
    "C148_first_partial",
    "C148_next_exact",
    "C148_next_partial",
    "C148_alive",
    "C148_suspended",
    "C148_refuted"
   ],
   "note": "Proved up to whole hours (C148_next_exact), exactly within 59 minutes, and that it never panics; false after an hour's suspension (C148_refuted, for every text)."
  },
  {
   "property": "C149",
   "status": "partial",
   "theorems": [
    "C149_exact",
    "C149_unbounded",
    "C149_refuted"
   ],
   "note": "The exact delay is proved (C149_exact); that it is bounded is false (C149_unbounded: for every bound and every text)."
  },
  {
   "property": "C150",
   "status": "partial",
   "theorems": [
    "C150_forward_partial",
    "C150_back",
    "C150_refuted"
   ],
   "note": "Proved where the published lines are right; false after a suspension of nearly an hour (C150_refuted)."
  },
  {
   "property": "C151",
   "status": "proved",
   "theorems": [
    "C151_content",
    "C151_bytes",
    "C151_failed"
   ],
   "note": "Proved for every decoder of boxes; that buffers do not matter for those whose answers do not change with more input (C64)."
  },
  {
   "property": "C152",
   "status": "partial",
   "theorems": [
    "C152_panic_exact",
    "C152_over",
    "C152_abort_exact",
    "C152_refuted"
   ],
   "note": "Exactly when it panics, that it is over then, and exactly when properties abort are proved; that a failed start can be repeated is false (C152_refuted)."
  },
  {
   "property": "C153",
   "status": "proved",
   "theorems": [
    "C153_told",
    "C153_silent",
    "C153_hidden",
    "C153_player"
   ],
   "note": "Proved for every parser of URLs and numbers; behind the element the worker is exactly Model/Player.v (C153_player)."
  },
  {
   "property": "C154",
   "status": "partial",
   "theorems": [
    "C154_partial",
    "C154_refuted",
    "C154_behind_refuted"
   ],
   "note": "Proved if only the observer reports; false with both sources of visibility, each overwrites the other (C154_refuted, C154_behind_refuted)."
  },
  {
   "property": "C155",
   "status": "partial",
   "theorems": [
    "C155_partial",
    "C155_refuted"
   ],
   "note": "Proved if no canvas comes back; false if one does (C155_refuted)."
  },
  {
   "property": "C156",
   "status": "partial",
   "theorems": [
    "C156_volume_partial",
    "C156_runs_partial",
    "C156_never_runs",
    "C156_volume_refuted",
    "C156_runs_refuted"
   ],
   "note": "Proved for one set-up with finite volumes, and if the browser refuses or allows contexts; false for two set-ups (C156_volume_refuted) and for a browser that makes a suspended context (C156_runs_refuted, C156_never_runs: it never runs, in any execution)."
  },
  {
   "property": "C157",
   "status": "partial",
   "theorems": [
    "C157_exact",
    "C157_partial",
    "C157_refuted",
    "C157_posts"
   ],
   "note": "Exact condition proved; false for the empty value, the usual form of a boolean attribute (C157_refuted). C157_posts: none of it reaches the worker."
  },
  {
   "property": "C158",
   "status": "partial",
   "theorems": [
    "C158_rust_to_js",
    "C158_priority_exact",
    "C158_waits",
    "C158_text_exact",
    "C158_large",
    "C158_subscribe_refuted",
    "C158_text_refuted"
   ],
   "note": "Proved with exact conditions: priorities below 64, numbers below 2^53, text without a leading byte order mark. False for the priority a Rust subscriber gives every catalog (C158_subscribe_refuted: waits for ever) and for a path with a byte order mark (C158_text_refuted)."
  },
  {
   "property": "C159",
   "status": "partial",
   "theorems": [
    "C159_js_to_rust",
    "C159_priority",
    "C159_priority_ok",
    "C159_refuted"
   ],
   "note": "Proved for priorities below 64; from 64 on another priority is read and bytes are left over (C159_priority), so false (C159_refuted)."
  },
  {
   "property": "C160",
   "status": "proved",
   "theorems": [
    "C160_handshake",
    "C160_hello",
    "C160_version_exact",
    "C160_strict"
   ],
   "note": "Proved, with the exact set of answers a JavaScript client accepts."
  },
  {
   "property": "C161",
   "status": "proved",
   "theorems": [
    "C161_from_rust",
    "C161_from_js"
   ],
   "note": "Both directions proved; the sequence number must be a safe integer."
  },
  {
   "property": "C162",
   "status": "proved",
   "theorems": [
    "C162_cut_anyhow"
   ],
   "note": "Proved for all reading functions and all streams, well-formed or not."
  },
  {
   "property": "C163",
   "status": "partial",
   "theorems": [
    "C163_exact",
    "C163_refuted"
   ],
   "note": "Exact: served if and only if no subscription so far has a priority from 64 on; false in general (C163_refuted: one catalog subscription blocks every later request)."
  },
  {
   "property": "C164",
   "status": "partial",
   "theorems": [
    "C164_from_js",
    "C164_to_js",
    "C164_negative_refuted",
    "C164_large_refuted"
   ],
   "note": "Proved for safe timestamps; false for negative ones (C164_negative_refuted) and above 2^53 (C164_large_refuted)."
  },
  {
   "property": "C165",
   "status": "partial",
   "theorems": [
    "C165_misread",
    "C165_refuted"
   ],
   "note": "False (C165_refuted); C165_misread: no JSON object is ever read as the position meant."
  },
  {
   "property": "C166",
   "status": "proved",
   "theorems": [
    "C166_gives_up"
   ],
   "note": "Proved while no read hangs (a read can, C55)."
  },
  {
   "property": "C167",
   "status": "proved",
   "theorems": [
    "C167_reader_order"
   ],
   "note": ""
  },
  {
   "property": "C168",
   "status": "partial",
   "theorems": [
    "C168_newest_partial",
    "C168_refuted"
   ],
   "note": "Proved if no two groups are added without the reader's promise having had the chance to settle in between; false otherwise (refuted): the promise gives the first of the two, and the second is seen only with a third."
  },
  {
   "property": "C169",
   "status": "partial",
   "theorems": [
    "C169_end_partial",
    "C169_refuted",
    "C169_leave_refuted"
   ],
   "note": "Proved: the track has ended; and all frames of the newest group were given if the reader got to that group and used nextFrame only. False otherwise (refuted): a reader one group behind is told the end without the newest group; closing a reader whose frame is there makes nextFrame throw."
  },
  {
   "property": "C170",
   "status": "proved",
   "theorems": [
    "C170_followed"
   ],
   "note": ""
  },
  {
   "property": "C171",
   "status": "partial",
   "theorems": [
    "C171_agree",
    "C171_open",
    "C171_found_partial",
    "C171_refuted"
   ],
   "note": "Proved in full: announcement and lookup agree (C171_agree), nothing closed is found at rest (C171_open). That what is open is found is proved if a path is published again only after the earlier broadcast was taken back; false otherwise (refuted)."
  },
  {
   "property": "C172",
   "status": "partial",
   "theorems": [
    "C172_in_turn_partial",
    "C172_refuted"
   ],
   "note": "Proved if a path is published again only after the earlier broadcast was taken back; false otherwise (refuted)."
  },
  {
   "property": "C173",
   "status": "partial",
   "theorems": [
    "C173_when",
    "C173_partial",
    "C173_refuted"
   ],
   "note": "Proved: given up only after one more call of close than there were readers, so never if no reader is closed twice. False otherwise (refuted); the reader of locations closes its track up to three times."
  },
  {
   "property": "C174",
   "status": "partial",
   "theorems": [
    "C174_partial",
    "C174_refuted"
   ],
   "note": "False: the cache itself counts as a reader (refuted); with each reader closed once it is never given up (C173_partial). Proved: it is given up once close was called once more than there are readers."
  },
  {
   "property": "C175",
   "status": "proved",
   "theorems": [
    "C175_own",
    "C175_once",
    "C175_ready",
    "C175_ready_new",
    "C175_rest"
   ],
   "note": ""
  },
  {
   "property": "C176",
   "status": "partial",
   "theorems": [
    "C176_partial",
    "C176_guarded_partial",
    "C176_refuted"
   ],
   "note": "Proved: it ends only on a signal, a failing endpoint or a URL on which validate panics; so in full if a key guards every directory. False otherwise (refuted, follows from C49)."
  },
  {
   "property": "C177",
   "status": "partial",
   "theorems": [
    "C177_heard_exact",
    "C177_partial",
    "C177_passed_partial",
    "C177_refuted"
   ],
   "note": "Proved: a signal is heard exactly if the loop waits at that moment, and then ends the relay unless a client is ready at the same time. False otherwise (refuted)."
  },
  {
   "property": "C178",
   "status": "proved",
   "theorems": [
    "C178_backoff"
   ],
   "note": ""
  },
  {
   "property": "C179",
   "status": "partial",
   "theorems": [
    "C179_partial",
    "C179_refuted"
   ],
   "note": "Proved except for connections that the peer closes in an orderly way; then false (refuted)."
  },
  {
   "property": "C180",
   "status": "partial",
   "theorems": [
    "C180_partial",
    "C180_refuted"
   ],
   "note": "Proved if the URL is set once; false if it is changed while a timer is set (refuted)."
  },
  {
   "property": "C181",
   "status": "partial",
   "theorems": [
    "C181_partial",
    "C181_refuted",
    "C181_hidden_refuted"
   ],
   "note": "Proved if the URL is set once and no connection is closed by the peer in an orderly way; false if the URL is changed while an attempt is going on (refuted twice)."
  },
  {
   "property": "C182",
   "status": "partial",
   "theorems": [
    "C182_partial",
    "C182_refuted"
   ],
   "note": "Proved if the URL is set once and no attempt is going on when close is called; false otherwise (refuted)."
  },
  {
   "property": "C183",
   "status": "proved",
   "theorems": [
    "C183_given_back",
    "C183_shown",
    "C183_answers"
   ],
   "note": ""
  },
  {
   "property": "C184",
   "status": "proved",
   "theorems": [
    "C184_order"
   ],
   "note": ""
  },
  {
   "property": "C185",
   "status": "partial",
   "theorems": [
    "C185_lag_partial",
    "C185_skip_partial",
    "C185_not_negative",
    "C185_in_time",
    "C185_refuted"
   ],
   "note": "Proved if no frame was exactly at the clock (reference zero); false then (refuted). That the lag is not negative and that a frame shown while the next is there is in time is proved without that."
  },
  {
   "property": "C186",
   "status": "partial",
   "theorems": [
    "C186_partial",
    "C186_least_partial",
    "C186_refuted"
   ],
   "note": "Proved while all frames come from one decoder, and that the lag is never too small; false after a change of track (refuted)."
  },
  {
   "property": "C187",
   "status": "partial",
   "theorems": [
    "C187_partial",
    "C187_refuted",
    "C187_stopped_refuted"
   ],
   "note": "Proved if earlier decoders give no more frames; false because nothing stops them (refuted, also for a disabled player)."
  },
  {
   "property": "C188",
   "status": "partial",
   "theorems": [
    "C188_gives_back",
    "C188_partial",
    "C188_refuted"
   ],
   "note": "Proved that close gives all frames back, and that nothing is shown as long as no decoder gives another frame; false otherwise, nothing stops the decoders (refuted)."
  },
  {
   "property": "C189",
   "status": "partial",
   "theorems": [
    "C189_future",
    "C189_soon_partial",
    "C189_refuted"
   ],
   "note": "Never in the past: proved. Not too late: proved if no sample is played at a time equal to its timestamp; false otherwise (refuted)."
  },
  {
   "property": "C190",
   "status": "partial",
   "theorems": [
    "C190_partial",
    "C190_refuted"
   ],
   "note": "Proved if no sample is played at a time equal to its timestamp (reference zero); false otherwise (refuted)."
  },
  {
   "property": "C191",
   "status": "partial",
   "theorems": [
    "C191_partial",
    "C191_refuted"
   ],
   "note": "Proved if no sample is played at a time equal to its timestamp (reference zero); false otherwise (refuted)."
  },
  {
   "property": "C192",
   "status": "partial",
   "theorems": [
    "C192_late_partial",
    "C192_refuted"
   ],
   "note": "The first half is proved; the second is false if timestamps start again from smaller numbers: silence for ever (refuted)."
  },
  {
   "property": "C193",
   "status": "partial",
   "theorems": [
    "C193_stopped_partial",
    "C193_old_partial",
    "C193_refuted",
    "C193_missed_refuted"
   ],
   "note": "Proved that all is stopped if nodes end in order, and that only samples that had come before are started afterwards; false otherwise (refuted twice)."
  },
  {
   "property": "C194",
   "status": "partial",
   "theorems": [
    "C194_partial",
    "C194_refuted"
   ],
   "note": "Proved if the player is enabled once and the rate never changes; false otherwise: there may be any number (refuted)."
  },
  {
   "property": "C195",
   "status": "proved",
   "theorems": [
    "C195_muted",
    "C195_settled"
   ],
   "note": ""
  },
  {
   "property": "C196",
   "status": "partial",
   "theorems": [
    "C196_partial",
    "C196_new_refuted",
    "C196_refuted"
   ],
   "note": "Proved for a volume that is set while not muted; false for the constructor's and while muted (refuted twice)."
  },
  {
   "property": "C197",
   "status": "proved",
   "theorems": [
    "C197_back"
   ],
   "note": ""
  },
  {
   "property": "C198",
   "status": "partial",
   "theorems": [
    "C198_partial",
    "C198_refuted",
    "C198_muted_refuted"
   ],
   "note": "Proved as long as nothing is muted or unmuted; false otherwise (refuted twice)."
  },
  {
   "property": "C199",
   "status": "partial",
   "theorems": [
    "C199_partial",
    "C199_refuted",
    "C199_deselect_refuted"
   ],
   "note": "Proved if nothing is changed while a request is pending; false otherwise: the camera stays on for ever after close (refuted twice)."
  },
  {
   "property": "C200",
   "status": "partial",
   "theorems": [
    "C200_partial",
    "C200_refuted"
   ],
   "note": "Proved if nothing is changed while a request is pending; false otherwise (refuted)."
  },
  {
   "property": "C201",
   "status": "partial",
   "theorems": [
    "C201_partial",
    "C201_screen_partial",
    "C201_refuted"
   ],
   "note": "Proved for cameras and microphones if nothing is changed while a request is pending; for a screen only that something is enabled; false for screens (refuted)."
  },
  {
   "property": "C202",
   "status": "proved",
   "theorems": [
    "C202_asks",
    "C202_only"
   ],
   "note": ""
  },
  {
   "property": "C203",
   "status": "partial",
   "theorems": [
    "C203_refuted",
    "C203_never",
    "C203_never_waits"
   ],
   "note": "False in every execution: refuted, and proved that audio is never published."
  },
  {
   "property": "C204",
   "status": "partial",
   "theorems": [
    "C204_partial",
    "C204_exact",
    "C204_refuted",
    "C204_path_refuted"
   ],
   "note": "Proved once the present listener has heard something; false before (refuted twice); what is consumed instead is stated exactly."
  },
  {
   "property": "C205",
   "status": "partial",
   "theorems": [
    "C205_partial",
    "C205_refuted"
   ],
   "note": "Proved if nothing was announced as active before, or it was ended since; false after a reconnect or change of path, when the page may stay offline for ever (refuted)."
  },
  {
   "property": "C206",
   "status": "proved",
   "theorems": [
    "C206_current"
   ],
   "note": ""
  },
  {
   "property": "C207",
   "status": "partial",
   "theorems": [
    "C207_status",
    "C207_partial",
    "C207_refuted"
   ],
   "note": "All but one direction proved always; offline only if nothing is loaded is proved if no catalog is loaded before the one before has ended, and false otherwise (refuted)."
  },
  {
   "property": "C208",
   "status": "partial",
   "theorems": [
    "C208_partial",
    "C208_current_partial",
    "C208_refuted"
   ],
   "note": "Proved unless an older catalog has not ended; false until then (refuted)."
  },
  {
   "property": "C209",
   "status": "partial",
   "theorems": [
    "C209_partial",
    "C209_refuted"
   ],
   "note": "Proved unless the setting is zero, which is taken for no limit (refuted)."
  },
  {
   "property": "C210",
   "status": "proved",
   "theorems": [
    "C210_groups"
   ],
   "note": ""
  },
  {
   "property": "C211",
   "status": "partial",
   "theorems": [
    "C211_partial",
    "C211_no_more",
    "C211_refuted",
    "C211_moved_refuted"
   ],
   "note": "Proved if no peer ever has a handle that another open one has or was made with; false otherwise (refuted twice). That nothing else is listed is proved always."
  },
  {
   "property": "C212",
   "status": "proved",
   "theorems": [
    "C212_groups"
   ],
   "note": ""
  },
  {
   "property": "C213",
   "status": "partial",
   "theorems": [
    "C213_partial",
    "C213_no_more",
    "C213_refuted"
   ],
   "note": "Proved if, while a camera is being read, no encoder configuration is found for an earlier one; false otherwise (refuted). That no more frames are written than given is proved always."
  },
  {
   "property": "C214",
   "status": "partial",
   "theorems": [
    "C214_partial",
    "C214_settled_partial",
    "C214_refuted",
    "C214_off_refuted"
   ],
   "note": "Proved if no camera is changed while the encoder configuration for it is being chosen, one direction under a weaker condition; false otherwise (refuted in both directions)."
  },
  {
   "property": "C215",
   "status": "partial",
   "theorems": [
    "C215_partial",
    "C215_refuted"
   ],
   "note": "Proved if no camera is changed while the encoder configuration for it is being chosen; false otherwise (refuted)."
  },
  {
   "property": "C216",
   "status": "partial",
   "theorems": [
    "C216_partial",
    "C216_refuted",
    "C216_last",
    "C216_exact",
    "C216_memo_exact"
   ],
   "note": "Proved of effects; false of every memo, whose first run holds its resources until the group is closed (refuted; what is held is stated exactly)."
  },
  {
   "property": "C217",
   "status": "proved",
   "theorems": [
    "C217_closed"
   ],
   "note": ""
  },
  {
   "property": "C218",
   "status": "partial",
   "theorems": [
    "C218_exact",
    "C218_import",
    "C218_refuted",
    "C218_bitrate_refuted",
    "C218_null_refuted"
   ],
   "note": "False (refuted three ways); C218_exact says which catalogs are accepted: whole frame rates and bitrates below 2^32, finite rotation and position, and no null in the location. C218_import: all catalogs of the movie importer are."
  },
  {
   "property": "C219",
   "status": "partial",
   "theorems": [
    "C219_peers_partial",
    "C219_refuted",
    "C219_priority_refuted"
   ],
   "note": "False (refuted): peers are named by text in JavaScript and by 32-bit numbers in Rust, priorities have 32 and 8 bits. Proved: a catalog that Rust reads names its peers by such numbers. Missing: exactly which catalogs are read."
  }
 ]
}