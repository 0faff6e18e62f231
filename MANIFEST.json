{
 "claims": [
  {
   "property": "C01",
   "status": "proved",
   "theorems": [
    "C01_json_string_roundtrip",
    "C01_json_string_injective"
   ],
   "note": ""
  },
  {
   "property": "C02",
   "status": "proved",
   "theorems": [
    "C02_json_string_valid_iff",
    "C02_json_string_value",
    "C02_json_string_always_valid_refuted"
   ],
   "note": "The unconditional form is refuted by C02_json_string_always_valid_refuted."
  },
  {
   "property": "C03",
   "status": "proved",
   "theorems": [
    "C03_split_string",
    "C03_join_string",
    "C03_split_join",
    "C03_split_join_lossy"
   ],
   "note": ""
  },
  {
   "property": "C04",
   "status": "proved",
   "theorems": [
    "C04_glob_starless",
    "C04_glob_literal"
   ],
   "note": ""
  },
  {
   "property": "C05",
   "status": "proved",
   "theorems": [
    "C05_glob_prefix_star",
    "C05_glob_prefix_plus",
    "C05_glob_star_all",
    "C05_glob_std"
   ],
   "note": ""
  },
  {
   "property": "C06",
   "status": "proved",
   "theorems": [
    "C06_glob_exact",
    "C06_glob_accepts_std",
    "C06_glob_is_std_refuted"
   ],
   "note": "Exact characterisation; the usual glob meaning is refuted."
  },
  {
   "property": "C07",
   "status": "proved",
   "theorems": [
    "C07_string_replace"
   ],
   "note": ""
  },
  {
   "property": "C08",
   "status": "proved",
   "theorems": [
    "C08_inline_zstring",
    "C08_inline_zstring_exact",
    "C08_strnlen"
   ],
   "note": ""
  },
  {
   "property": "C09",
   "status": "proved",
   "theorems": [
    "C09_signed_argument",
    "C09_unsigned_argument",
    "C09_bool_argument",
    "C09_pointer_argument"
   ],
   "note": ""
  },
  {
   "property": "C10",
   "status": "proved",
   "theorems": [
    "C10_double_argument"
   ],
   "note": "printf %f modelled exactly from the bit pattern (round half to even)."
  },
  {
   "property": "C11",
   "status": "proved",
   "theorems": [
    "C11_event_json_faithful",
    "C11_plain_event_json_faithful",
    "C11_event_json_determines"
   ],
   "note": ""
  },
  {
   "property": "C12",
   "status": "proved",
   "theorems": [
    "C12_string_argument",
    "C12_inline_string_argument",
    "C12_string_arguments_always_valid_refuted"
   ],
   "note": "Finding: string arguments are not escaped."
  },
  {
   "property": "C13",
   "status": "proved",
   "theorems": [
    "C13_time_field",
    "C13_time_field_exact",
    "C13_negative_duration_valid_refuted"
   ],
   "note": "Finding: negative durations are not valid JSON."
  },
  {
   "property": "C14",
   "status": "proved",
   "theorems": [
    "C14_to_string_time",
    "C14_to_string_fields"
   ],
   "note": ""
  },
  {
   "property": "C15",
   "status": "proved",
   "theorems": [
    "C15_type_total",
    "C15_type_unambiguous",
    "C15_type_name_unambiguous",
    "C15_type_name_total"
   ],
   "note": ""
  },
  {
   "property": "C16",
   "status": "proved",
   "theorems": [
    "C16_chunk_fills_in_order"
   ],
   "note": ""
  },
  {
   "property": "C17",
   "status": "proved",
   "theorems": [
    "C17_default_capacity",
    "C17_chunk_fits_its_pages",
    "C17_fillable_up_to_640_pages",
    "C17_unfillable_from_641_pages"
   ],
   "note": "Finding: from 641 pages per chunk the 16-bit counter wraps before the chunk is full."
  },
  {
   "property": "C18",
   "status": "proved",
   "theorems": [
    "C18_fixed_chunks_once",
    "C18_getChunk_isolated",
    "C18_fixed_chunks_once_refuted"
   ],
   "note": "Unbounded form refuted: the 64-bit request counter wraps."
  },
  {
   "property": "C19",
   "status": "proved",
   "theorems": [
    "C19_ring_lends_exclusively"
   ],
   "note": ""
  },
  {
   "property": "C20",
   "status": "proved",
   "theorems": [
    "C20_ring_keeps_newest"
   ],
   "note": ""
  },
  {
   "property": "C21",
   "status": "proved",
   "theorems": [
    "C21_iteration_exact",
    "C21_fixed_visits_the_lent",
    "C21_ring_visits_the_lent"
   ],
   "note": ""
  },
  {
   "property": "C22",
   "status": "proved",
   "theorems": [
    "C22_rounding",
    "C22_rounding_refuted"
   ],
   "note": "Exact range 1..2^32; outside it the rounding is refuted."
  },
  {
   "property": "C23",
   "status": "proved",
   "theorems": [
    "C23_memory_budget"
   ],
   "note": "Proved with the tighter bound 101%."
  },
  {
   "property": "C24",
   "status": "proved",
   "theorems": [
    "C24_fixed_stats",
    "C24_ring_stats"
   ],
   "note": ""
  },
  {
   "property": "C25",
   "status": "proved",
   "theorems": [
    "C25_fifo",
    "C25_runs_are_prompt"
   ],
   "note": "For every schedule in which no thread uses a position it read 2^62 placements earlier (every run of fewer than 2^62 steps is such); capacity a power of two between 2 and 2^61; sequentially consistent memory."
  },
  {
   "property": "C26",
   "status": "proved",
   "theorems": [
    "C26_race_free"
   ],
   "note": "Same hypotheses as C25. In fact not even two reads of one cell overlap."
  },
  {
   "property": "C27",
   "status": "proved",
   "theorems": [
    "C27_failures_justified"
   ],
   "note": "Same hypotheses as C25. A dequeue can report empty although a later item is already inside, when an earlier enqueue has not finished (witness in the Example)."
  },
  {
   "property": "C28",
   "status": "proved",
   "theorems": [
    "C28_mutual_exclusion",
    "C28_try_fails_only_under_master",
    "C28_free_lock_is_taken",
    "C28_try_does_not_wait"
   ],
   "note": "Release and debug builds (the unlock assertions never fail); spurious compare-exchange failures included."
  },
  {
   "property": "C29",
   "status": "proved",
   "theorems": [
    "C29_enablement",
    "C29_plain_lists"
   ],
   "note": ""
  },
  {
   "property": "C30",
   "status": "proved",
   "theorems": [
    "C30_slots",
    "C30_overflow_when_full"
   ],
   "note": ""
  },
  {
   "property": "C31",
   "status": "proved",
   "theorems": [
    "C31_status_current",
    "C31_disable_all"
   ],
   "note": ""
  },
  {
   "property": "C32",
   "status": "proved",
   "theorems": [
    "C32_overflow",
    "C32_always_current_refuted"
   ],
   "note": "Finding: groups past the limit ignore the disabled list."
  },
  {
   "property": "C33",
   "status": "proved",
   "theorems": [
    "C33_no_race",
    "C33_right_slot",
    "C33_no_deadlock"
   ],
   "note": "Sequentially consistent interleavings; a string assignment takes two steps and reading in between is undefined behaviour."
  },
  {
   "property": "C34",
   "status": "proved",
   "theorems": [
    "C34_from_string",
    "C34_meaning_unique",
    "C34_documented_example_refuted"
   ],
   "note": "Finding: the example in the header is rejected."
  },
  {
   "property": "C35",
   "status": "proved",
   "theorems": [
    "C35_round_trip",
    "C35_empty_list",
    "C35_default_refuted",
    "C35_others_refuted"
   ],
   "note": "Finding: no configuration with an empty disabled list can be read back."
  },
  {
   "property": "C36",
   "status": "proved",
   "theorems": [
    "C36_buffer_size",
    "C36_value_unique"
   ],
   "note": ""
  },
  {
   "property": "C37",
   "status": "proved",
   "theorems": [
    "C37_update",
    "C37_atomic_refuted"
   ],
   "note": "Finding: a failed update changes the object."
  },
  {
   "property": "C38",
   "status": "proved",
   "theorems": [
    "C38_mode_factory",
    "C38_settings",
    "C38_custom_mode"
   ],
   "note": ""
  },
  {
   "property": "C39",
   "status": "proved",
   "theorems": [
    "C39_mode_names",
    "C39_any_case_refuted"
   ],
   "note": "Finding: parsing is case sensitive."
  },
  {
   "property": "C40",
   "status": "proved",
   "theorems": [
    "C40_read_sizes"
   ],
   "note": ""
  },
  {
   "property": "C41",
   "status": "proved",
   "theorems": [
    "C41_document_is_json",
    "C41_any_name_refuted",
    "C41_any_tid_refuted"
   ],
   "note": "Findings: thread names are not escaped, and thread ids from 2^31 on are printed negative in name records."
  },
  {
   "property": "C42",
   "status": "proved",
   "theorems": [
    "C42_read_all",
    "C42_always_whole_refuted"
   ],
   "note": "Finding: read() drops the final brace when the length is 1 modulo 4096."
  },
  {
   "property": "C43",
   "status": "proved",
   "theorems": [
    "C43_done",
    "C43_done_loop",
    "C43_done_loop_whole_refuted"
   ],
   "note": "Finding: a done()-driven loop can lose the last byte."
  },
  {
   "property": "C44",
   "status": "proved",
   "theorems": [
    "C44_saved_file"
   ],
   "note": ""
  },
  {
   "property": "C45",
   "status": "proved",
   "theorems": [
    "C45_file_name",
    "C45_time_stamp"
   ],
   "note": ""
  },
  {
   "property": "C46",
   "status": "proved",
   "theorems": [
    "C46_never_undefined",
    "C46_every_access_sound",
    "C46_restart_in_callback_refuted",
    "C46_log_inside_lock_refuted"
   ],
   "note": "Stop callbacks and locked sections keep the two rules of Model/TraceLog.v [polite]. Findings: breaking either rule is undefined behaviour (C46_restart_in_callback_refuted, C46_log_inside_lock_refuted)."
  },
  {
   "property": "C47",
   "status": "proved",
   "theorems": [
    "C47_no_data_race"
   ],
   "note": "Stop callbacks and locked sections keep the two rules of Model/TraceLog.v [polite]. Plain memory only; atomics, the mutex, tenant locks and the queue are used through their contracts (C25-C28, C33)."
  },
  {
   "property": "C48",
   "status": "proved",
   "theorems": [
    "C48_one_holder",
    "C48_labelled",
    "C48_only_the_holder_touches"
   ],
   "note": "Stop callbacks and locked sections keep the two rules of Model/TraceLog.v [polite]. Holders are recorded along the schedule, from preparing a chunk to returning it or being evicted."
  },
  {
   "property": "C49",
   "status": "proved",
   "theorems": [
    "C49_retrieved_is_frozen",
    "C49_out_of_reach"
   ],
   "note": "Stop callbacks and locked sections keep the two rules of Model/TraceLog.v [polite]. The whole buffer object stays equal in every continuation."
  },
  {
   "property": "C50",
   "status": "proved",
   "theorems": [
    "C50_fixed_exact",
    "C50_nothing_else",
    "C50_chunks_are_runs"
   ],
   "note": "Buffers of less than 65536 events per chunk (the count is an unsigned short). For ring buffers the contents are a union of runs; what was overwritten is gone."
  },
  {
   "property": "C51",
   "status": "proved",
   "theorems": [
    "C51_stops_its_own_trace"
   ],
   "note": "Stop callbacks and locked sections keep the two rules of Model/TraceLog.v [polite]. A buffer counts as full when getStats says so."
  },
  {
   "property": "C52",
   "status": "proved",
   "theorems": [
    "C52_only_registered_and_enabled",
    "C52_nothing_while_disabled"
   ],
   "note": "Stop callbacks and locked sections keep the two rules of Model/TraceLog.v [polite]."
  },
  {
   "property": "C53",
   "status": "proved",
   "theorems": [
    "C53_who_waits_for_whom",
    "C53_logging_never_waits",
    "C53_no_endless_calls",
    "C53_calls_return"
   ],
   "note": "Callbacks are assumed to end when their turn comes (HookEnd). Acquiring the mutex is not assumed fair: a call can be overtaken by new calls for ever; the theorem is about schedules without new calls."
  },
  {
   "property": "C54",
   "status": "proved",
   "theorems": [
    "C54_can_wait_for_ever",
    "C54_enough_logging_never_waits",
    "C54_enough_calls_return"
   ],
   "note": "Both halves: for every ring size and every greater number of registered threads a schedule after which a logEvent and a stop() call never return under any continuation; and, with a chunk for every registered thread, logging never waits and all calls return under every fair schedule."
  },
  {
   "property": "C55",
   "status": "proved",
   "theorems": [
    "C55_generations",
    "C55_increasing",
    "C55_fresh_buffers",
    "C55_consecutive_refuted"
   ],
   "note": "Finding: generations can skip a number when a factory throws (C55_consecutive_refuted)."
  },
  {
   "property": "C56",
   "status": "proved",
   "theorems": [
    "C56_throws_iff_tracing",
    "C56_returns_the_buffer",
    "C56_then_null",
    "C56_handed_over_once"
   ],
   "note": ""
  },
  {
   "property": "C57",
   "status": "proved",
   "theorems": [
    "C57_callback_once",
    "C57_stop_runs_callback",
    "C57_restart_runs_new_callback",
    "C57_own_callback_refuted",
    "C57_callback_outcome",
    "C57_stop_outcome"
   ],
   "note": "The exact condition is proved; see the refuted forms beside it."
  },
  {
   "property": "C58",
   "status": "proved",
   "theorems": [
    "C58_rejected_start",
    "C58_failed_start_is_off",
    "C58_successful_start"
   ],
   "note": ""
  },
  {
   "property": "C59",
   "status": "proved",
   "theorems": [
    "C59_one_name_per_thread",
    "C59_registered_thread_is_named",
    "C59_left_while_tracing_is_named",
    "C59_left_threads_disappear",
    "C59_left_after_stop_is_lost"
   ],
   "note": ""
  },
  {
   "property": "C60",
   "status": "proved",
   "theorems": [
    "C60_registration",
    "C60_failure_changes_nothing"
   ],
   "note": ""
  },
  {
   "property": "C61",
   "status": "proved",
   "theorems": [
    "C61_destruction",
    "C61_freed_when_off"
   ],
   "note": ""
  },
  {
   "property": "C62",
   "status": "proved",
   "theorems": [
    "C62_statistics"
   ],
   "note": "Finding: the count of departed threads never shrinks when a trace starts."
  },
  {
   "property": "C63",
   "status": "proved",
   "theorems": [
    "C63_recorded_only_if_enabled",
    "C63_status_is_configuration",
    "C63_statuses_at_rest",
    "C63_only_wanted_categories_refuted"
   ],
   "note": "Finding: an event whose trace point passed the test can land in the next trace (straddling event)."
  },
  {
   "property": "C64",
   "status": "proved",
   "theorems": [
    "C64_scoped_event"
   ],
   "note": "Clock readings and category changes arbitrary; what logEvent does with the call is the log model."
  },
  {
   "property": "C65",
   "status": "proved",
   "theorems": [
    "C65_locks_once",
    "C65_logs_above_threshold",
    "C65_always_logs_refuted"
   ],
   "note": "Finding: with the default threshold 0 the guard logs nothing when neither time exceeds 0, although TRACE_LOCKGUARD is documented to log unconditionally (C65_always_logs_refuted)."
  },
  {
   "property": "C66",
   "status": "proved",
   "theorems": [
    "C66_not_evicted",
    "C66_use_after_free",
    "C66_wrong_log"
   ],
   "note": "Findings about several logs (Model/ManyLogs.v), which share one tenant per thread."
  },
  {
   "property": "C67",
   "status": "proved",
   "theorems": [
    "C67_environment",
    "C67_last_decides",
    "C67_nothing_set"
   ],
   "note": ""
  },
  {
   "property": "C68",
   "status": "proved",
   "theorems": [
    "C68_statuses_current"
   ],
   "note": "Same model as C33."
  },
  {
   "property": "C69",
   "status": "proved",
   "theorems": [
    "C69_stores_are_owed",
    "C69_stored_in_logged_order"
   ],
   "note": "Callbacks keep the two rules of Model/TraceLog.v [polite]."
  },
  {
   "property": "C70",
   "status": "proved",
   "theorems": [
    "C70_dropped_for_a_reason"
   ],
   "note": "The obstacles are listed in Spec/LogMemory.v [obstacle]."
  },
  {
   "property": "C71",
   "status": "proved",
   "theorems": [
    "C71_as_if_alone"
   ],
   "note": ""
  },
  {
   "property": "C72",
   "status": "proved",
   "theorems": [
    "C72_fixed_export",
    "C72_saved_file"
   ],
   "note": ""
  },
  {
   "property": "C73",
   "status": "proved",
   "theorems": [
    "C73_lock_orders_accesses"
   ],
   "note": "on the view-based memory of Model/WeakMem.v; seq_cst accesses are weakened to acquire/release, so the result does not rest on the total order of seq_cst accesses"
  },
  {
   "property": "C74",
   "status": "proved",
   "theorems": [
    "C74_fifo_and_race_free"
   ],
   "note": "on the view-based memory of Model/WeakMem.v; runs of up to 2^62 steps"
  },
  {
   "property": "C75",
   "status": "proved",
   "theorems": [
    "C75_enqueue_happens_before_dequeue"
   ],
   "note": "happens-before = the accesses a thread's view covers"
  },
  {
   "property": "C76",
   "status": "proved",
   "theorems": [
    "C76_empty_is_current_refuted",
    "C76_empty_means_unheard",
    "C76_full_means_unheard"
   ],
   "note": "the real-time claim is refuted by a concrete run; the theorems that hold speak of what the calling thread has heard of"
  },
  {
   "property": "C77",
   "status": "proved",
   "theorems": [
    "C77_registry_race_free"
   ],
   "note": "on the memory of Model/WeakMem.v; the mutex of the registry is an abstract mutex that passes on the view of its last holder"
  },
  {
   "property": "C78",
   "status": "proved",
   "theorems": [
    "C78_trace_sees_a_setting",
    "C78_own_past_is_heard",
    "C78_latest_setting_refuted"
   ],
   "note": "'has heard of' compares views; the claim that the latest returned call is always seen is refuted by a concrete run"
  },
  {
   "property": "C79",
   "status": "proved",
   "theorems": [
    "C79_log_race_free"
   ],
   "note": "View-based memory (RC11 without seq_cst), see DESIGN.md. Tenant locks and the ring's queue are used through what C73 and C75 prove of them."
  },
  {
   "property": "C80",
   "status": "proved",
   "theorems": [
    "C80_buffers_used_properly",
    "C80_gone_for_good",
    "C80_taken_is_mine"
   ],
   "note": "Same model as C79. C80_gone_for_good and C80_taken_is_mine are consequences of C80_buffers_used_properly stated separately."
  },
  {
   "property": "C81",
   "status": "proved",
   "theorems": [
    "C81_calls_return",
    "C81_answers_true"
   ],
   "note": "A destructor left by an exception ends the program instead of returning."
  },
  {
   "property": "C82",
   "status": "proved",
   "theorems": [
    "C82_same_log",
    "C82_every_run",
    "C82_exit_safe",
    "C82_exit_registered_refuted"
   ],
   "note": "The condition is needed: C82_exit_registered_refuted is a run in which a registered thread ends."
  },
  {
   "property": "C83",
   "status": "proved",
   "theorems": [
    "C83_context_names",
    "C83_running_thread_named",
    "C83_inherited_name_refuted"
   ],
   "note": "C83_inherited_name_refuted: an unnamed thread gets the name of an ended one with its id."
  },
  {
   "property": "C84",
   "status": "proved",
   "theorems": [
    "C84_not_opened",
    "C84_opened",
    "C84_returned_incomplete_refuted"
   ],
   "note": "C84_returned_incomplete_refuted: fclose's failure is ignored, so a normal return can leave an incomplete file and the buffer gone."
  },
  {
   "property": "C85",
   "status": "proved",
   "theorems": [
    "C85_balanced",
    "C85_no_leak",
    "C85_made",
    "C85_refused"
   ],
   "note": "Against a ledger checker (Spec/Ledger.v) that knows nothing of arrays or buffers."
  },
  {
   "property": "C86",
   "status": "proved",
   "theorems": [
    "C86_safe",
    "C86_reported",
    "C86_kept",
    "C86_start_leaves_off",
    "C86_lock_free",
    "C86_every_run",
    "C86_register_refuted",
    "C86_stop_refuted"
   ],
   "note": "C86_register_refuted and C86_stop_refuted: the two places where a failed allocation leads to the use of a destroyed buffer."
  },
  {
   "property": "C87",
   "status": "proved",
   "theorems": [
    "C87_short_runs",
    "C87_lent_once",
    "C87_exclusive",
    "C87_marked",
    "C87_order",
    "C87_calls",
    "C87_none_lost",
    "C87_loaned",
    "C87_full_waits_for_get",
    "C87_empty_waits",
    "C87_return_alone",
    "C87_get_alone",
    "C87_no_thread_stops",
    "C87_return_waits_refuted"
   ],
   "note": "C87_return_waits_refuted: returnChunk does not finish on its own although the queue is empty."
  },
  {
   "property": "C88",
   "status": "proved",
   "theorems": [
    "C88_covers",
    "C88_bounded",
    "C88_at_most_asked",
    "C88_count_refuted"
   ],
   "note": "C88_count_refuted: the two reads of the counter in chunk_count. Inside a log the buffer is only iterated by its taker, and getStats uses one read."
  },
  {
   "property": "C89",
   "status": "proved",
   "theorems": [
    "C89_once",
    "C89_exclusive",
    "C89_all",
    "C89_null_and_full",
    "C89_full_for_good",
    "C89_counted",
    "C89_loaned",
    "C89_wait_free"
   ],
   "note": "Against the history of calls and answers (Spec/FixedHistory.v)."
  },
  {
   "property": "C90",
   "status": "proved",
   "theorems": [
    "C90_counts",
    "C90_covers",
    "C90_loaned",
    "C90_loaned_at_most",
    "C90_loaned_refuted",
    "C90_total_refuted"
   ],
   "note": "C90_loaned_refuted and C90_total_refuted: getStats takes no lock that getChunk or returnChunk takes. The log calls getChunk without its mutex too."
  },
  {
   "property": "C91",
   "status": "proved",
   "theorems": [
    "C91_counts",
    "C91_exhausted",
    "C91_loaned",
    "C91_full_refuted",
    "C91_loaned_refuted"
   ],
   "note": "C91_full_refuted and C91_loaned_refuted: each value is right for its moment, the report is of no single moment."
  },
  {
   "property": "C92",
   "status": "proved",
   "theorems": [
    "C92_no_race",
    "C92_user_sees",
    "C92_reset_sees",
    "C92_untouched"
   ],
   "note": "Runs of up to 2^62 steps, as for the queue alone. Only the thread that got a chunk uses it and gives it back."
  },
  {
   "property": "C93",
   "status": "proved",
   "theorems": [
    "C93_lent_once",
    "C93_exclusive",
    "C93_order"
   ],
   "note": "The statements of C87 that do not depend on all threads seeing one order of accesses."
  },
  {
   "property": "C94",
   "status": "proved",
   "theorems": [
    "C94_stamp",
    "C94_order",
    "C94_processes",
    "C94_all_kept",
    "C94_same_second",
    "C94_kept_refuted",
    "C94_late"
   ],
   "note": "C94_kept_refuted: two saves within one second leave one file. gmtime and strftime are library code, modelled by their definitions."
  },
  {
   "property": "C95",
   "status": "proved",
   "theorems": [
    "C95_one_owner",
    "C95_made",
    "C95_move",
    "C95_assign",
    "C95_self",
    "C95_in_place",
    "C95_finished",
    "C95_moved"
   ],
   "note": "C95_moved is a finding: an export of a context that is moved, assigned or destroyed later reads through a dangling reference or a null buffer. Copying is not possible (unique_ptr). Writing to a buffer through getBuffer() during an export is not modelled."
  },
  {
   "property": "C96",
   "status": "proved",
   "theorems": [
    "C96_same_as_one_step_queues",
    "C96_never_undefined",
    "C96_no_data_race",
    "C96_stored",
    "C96_contents",
    "C96_short_runs"
   ],
   "note": "A forward simulation: the one-step queue operation is placed at the successful compare-exchange. The conditions on ring sizes and on sleeping threads are those of C22 and C25."
  },
  {
   "property": "C97",
   "status": "proved",
   "theorems": [
    "C97_same_as_one_step_registry",
    "C97_never_undefined",
    "C97_no_data_race",
    "C97_status_is_configuration",
    "C97_statuses_at_rest",
    "C97_no_registry_deadlock",
    "C97_short_runs"
   ],
   "note": "A forward simulation into the log of C96. A trace point may read a status while a start or stop is changing them one by one; Model/TraceLog.v allows this, so C63 and all else proved of it covers it."
  },
  {
   "property": "C98",
   "status": "proved",
   "theorems": [
    "C98_text",
    "C98_total",
    "C98_longest_refuted",
    "C98_in_bounds",
    "C98_changed",
    "C98_cut_refuted",
    "C98_event",
    "C98_times",
    "C98_id",
    "C98_thread"
   ],
   "note": "Two refuted expectations are recorded: a text that grew by one byte between the passes is cut, and the longest int length overflows."
  },
  {
   "property": "C99",
   "status": "proved",
   "theorems": [
    "C99_undisturbed",
    "C99_mixed",
    "C99_same_second",
    "C99_moment_refuted",
    "C99_different_refuted",
    "C99_race_refuted"
   ],
   "note": "Refuted expectations are recorded: that the stamp is a moment of the calendar, that different seconds give different stamps, and that there is no data race."
  },
  {
   "property": "C100",
   "status": "proved",
   "theorems": [
    "C100_no_race",
    "C100_informed",
    "C100_as_if",
    "C100_once",
    "C100_all",
    "C100_loaned",
    "C100_null_and_full",
    "C100_full_for_good",
    "C100_told",
    "C100_counted",
    "C100_own",
    "C100_count_is_not_enough_refuted"
   ],
   "note": "On the memory of Model/WeakMem.v, by refinement into C89 where it holds. Refuted expectation recorded: that chunk_count makes a returned chunk safe to read."
  },
  {
   "property": "C101",
   "status": "proved",
   "theorems": [
    "C101_queue",
    "C101_ring",
    "C101_fixed",
    "C101_fixed_wait_free",
    "C101_lock",
    "C101_registry",
    "C101_log"
   ],
   "note": "On the memory of Model/WeakMem.v; says when a next step exists, not that the scheduler takes it (C53, C54 are about that)."
  },
  {
   "property": "C102",
   "status": "proved",
   "theorems": [
    "C102_calls",
    "C102_alone",
    "C102_return",
    "C102_ask",
    "C102_stored",
    "C102_exclusive",
    "C102_goes_on",
    "C102_ends",
    "C102_locked_refuted",
    "C102_throw_refuted"
   ],
   "note": "Accesses in one order (that there are no data races is C79). The buffer does not call the log. Refuted expectations recorded: that the lock of the log is held during calls (trace_buffer.h:145-147), and that a chunk is given back once if returnChunk throws. Categories and thread names are left out."
  },
  {
   "property": "C103",
   "status": "proved",
   "theorems": [
    "C103_own",
    "C103_stable",
    "C103_distinct",
    "C103_forked",
    "C103_pid",
    "C103_fork_refuted"
   ],
   "note": "The operating system is modelled by its rules for Linux: ids are positive, and those of living threads and processes differ. Refuted expectation recorded: that threads of one process have different ids also after a fork. exec is left out."
  },
  {
   "property": "C104",
   "status": "proved",
   "theorems": [
    "C104_ends",
    "C104_alone",
    "C104_left_on_refuted"
   ],
   "note": "The reasons are listed in Spec/LogEnd.v [excuse]. Refuted expectation recorded: that a trace ends when its buffer is full and an event did not fit. try_lock may fail for no reason, as the standard allows."
  },
  {
   "property": "C105",
   "status": "proved",
   "theorems": [
    "C105_told",
    "C105_locked",
    "C105_reads",
    "C105_reentry",
    "C105_lookup",
    "C105_live"
   ],
   "note": "What the log does with its lock held is one step that may change everything the lock protects. Locking a std::mutex one owns is undefined behaviour; it is modelled as waiting for ever. In the callback only getStats and the first use of a category are modelled as calls into the log."
  },
  {
   "property": "C106",
   "status": "proved",
   "theorems": [
    "C106_exact",
    "C106_read",
    "C106_joined",
    "C106_tickets",
    "C106_one_order",
    "C106_in_turn",
    "C106_assign_loses_refuted",
    "C106_assign_order_refuted",
    "C106_orders_nothing_refuted",
    "C106_publishes_nothing_refuted"
   ],
   "note": "Counters of 64 bits (RelaxedAtomic<size_t>, as used in the code). C106_assign_loses_refuted, C106_assign_order_refuted, C106_orders_nothing_refuted and C106_publishes_nothing_refuted show what a user must not expect."
  }
 ]
}