{"claims": [
 {"property": "C01", "status": "proved", "theorems": ["C01_fifo", "C01_once", "C01_next_receive", "C01_waiting", "C01_source", "C01_source_count", "C01_source_held", "C01_ring_push", "C01_ring_pop", "C01_ring_empty"], "note": "Every reachable history that makes the channel with neco_chan_make and uses it with send/recv/tryrecv/close, no select/broadcast on it, and either no deadline and no cancellation of its users (nor, before a user is started, of an ended coroutine whose record that user may take over), or only the outcome counts: deadlines and cancellations of anyone are allowed as long as every send and receive on the channel has returned something other than NECO_CANCELED/NECO_TIMEDOUT or is still in progress. The i-th successful or pending receive call obtains the message of the i-th accepted send call; the next receive call obtains a message whenever one is outstanding; a blocked receiver is ahead of the sends. Without any restriction on cancellations, deadlines and failures (only: no select/broadcast on the channel), the messages received are a sub-multiset of the messages given to sends (C01_source: nothing invented, nothing received twice), also counting those still in the buffer (C01_source_held). The byte-level ring buffer refines the list."},
 {"property": "C02", "status": "proved", "theorems": ["C02_bound", "C02_sender_blocked", "C02_receiver_blocked", "C02_not_both", "C02_send_ahead", "C02_send_blocks", "C02_recv_blocks", "C02_completed"], "note": "Bound and blocking rules in every reachable state (cancellations, deadlines and selects included); the counting theorems under the discipline of C01."},
 {"property": "C03", "status": "partial", "theorems": ["C03_ok_partial", "C01_source", "C03_ok_refuted", "C03_canceled_refuted", "C03_timeout_ok_refuted", "C03_timedout_refuted"], "note": "False in general: a receiver that was handed the message and is canceled before it runs loses it, and a sender whose message was taken and who is canceled before it runs reports NECO_CANCELED (both witnessed); the same two with an expired deadline and no cancellation. Proved whenever no send or receive on the channel ended with NECO_CANCELED or NECO_TIMEDOUT or was left without returning (deadlines and cancellations of anyone allowed), and the channel is not used with select or broadcast. In all histories (without select/broadcast on it) no message is received more often than it was sent (C01_source)."},
 {"property": "C04", "status": "partial", "theorems": ["C04_after_close", "C04_drained", "C04_receivers_resume", "C04_stuck_refuted", "C01_fifo", "C01_next_receive"], "note": "Sends, broadcasts and closes after a close report NECO_CLOSED in every history. Draining, order and release of receivers: under the discipline of C01. False in general: when the last blocked sender of a closed channel gives up, later receivers block for ever."},
 {"property": "C05", "status": "partial", "theorems": ["C05_broadcast", "C05_count_refuted"], "note": "Every broadcast in every reachable state resumes a duplicate-free list of coroutines, all of which were queued receiving on the channel, hands each of them the message, misses no coroutine blocked in a receive or in a select on the channel, fixes the index every such select returns and (unless another select on the channel is in progress) the message its neco_chan_case gives, changes no other coroutine and not the buffer, and returns the length of the list. A receiver that is canceled or times out before it runs is among the counted ones and reports that instead of the message (witnessed)."},
 {"property": "C06", "status": "partial", "theorems": ["C06_index", "C06_send", "C06_close", "C06_ready", "C06_try_empty", "C06_shared_refuted", "C06_lost_refuted", "C06_stale_refuted", "C06_timeout_lost_refuted"], "note": "Every select returns a position of its list or an error. A send while any coroutine waits goes to exactly one waiter: a select among them returns the position of this channel (or a cancellation or timeout) and its neco_chan_case gives this message until the next select on the channel begins, provided no other select on the channel is in progress; close decides waiting selects likewise; a select that need not wait takes the first non-empty channel and the message a receive would have taken. False in general (witnessed): two selectors of one channel share one slot, so one message is read twice and the other lost; a cancellation after the choice loses the message; a stale wake-up makes select return -1."},
 {"property": "C07", "status": "proved", "theorems": ["C07_no_use_after_free", "C07_freed_exactly", "C07_live_iff_referenced", "C07_make_fresh", "C07_pool", "C07_retain_overflow_refuted"], "note": "All histories of make/retain/release by clients that use only channels they hold a reference to, at most 2^31 references per channel (int counter; overflow shown reachable beyond)."},
 {"property": "C08", "status": "proved", "theorems": ["C08_mutual_exclusion", "C08_readers_share"], "note": "All histories of lock/rdlock/try/unlock/cond_wait with cancellations and deadlines, any number of coroutines and mutexes. Client rules: unlock only what is held (proper), no init/destroy of a mutex while a call is using it (tidy)."},
 {"property": "C09", "status": "partial", "theorems": ["C09_free_unless_failed_partial", "C09_free_partial", "C09_refuted", "C09_cancel_refuted"], "note": "The full statement is false: a lock call that times out or is canceled after the mutex was handed to it leaves the mutex locked for ever (two witnesses). Proved: in histories where no cancel is aimed at a coroutine that locks this mutex or at one that has ended, and without deadlines on this mutex, trylock succeeds whenever nobody holds it and no call on it is pending. Proved for all histories, with cancellations and deadlines of every kind: the same as long as no lock or rdlock call on this mutex has ended with NECO_CANCELED or NECO_TIMEDOUT; so those are the only ways in which a mutex is left locked (apart from calls that never return)."},
 {"property": "C10", "status": "proved", "theorems": ["C10_waiter_call", "C10_blocked_waits", "C10_arrival_order", "C10_no_overtaking", "C10_handover"], "note": "The queue is in arrival order; no later lock/rdlock/trylock/tryrdlock call succeeds before a waiting one; unlock hands the mutex to the first writer or to all leading readers."},
 {"property": "C11", "status": "partial", "theorems": ["C11_count_nonneg", "C11_add", "C11_add_overflow", "C11_done", "C11_wait_ok", "C11_done_wakes", "C11_zero_wakes_partial", "C11_zero_wakes_refuted"], "note": "Counter never negative, NEGWAITGRP changes nothing, wait OK only if the counter was zero during the call, and done reaching zero wakes every waiter: proved. That every way of reaching zero wakes the waiters is false: a negative neco_waitgroup_add reaching zero wakes nobody (refuted); proved for histories without such adds."},
 {"property": "C12", "status": "partial", "theorems": ["C12_waiter_call", "C12_fifo", "C12_signal", "C12_signal_none", "C12_broadcast", "C12_blocked_waits", "C12_wait_ok", "C12_atomic_partial", "C12_lost_wakeup_refuted", "C12_order_refuted", "C12_timeout_swallows_refuted"], "note": "signal wakes the longest queued waiter, broadcast all, wait OK only if signalled during the call; release-and-wait is atomic when nobody waits for the mutex. False in general: with a coroutine waiting for the mutex, neco_cond_wait yields between releasing the mutex and joining the queue, so a signal can be lost for good and the queue is not in call order; and a signal is used up by a waiter that has timed out but not run yet."},
 {"property": "C13", "status": "partial", "theorems": ["C13_join_ok_ended", "C13_self_join_not_ok", "C13_self_join_perm_partial", "C13_joiners_woken", "C13_handler_after_join_refuted", "C13_self_join_refuted"], "note": "Proved in every cancellation type for histories in which coroutine functions pop the cleanup handlers they push before returning (preach): a join that returns OK is followed by no call and no handler of the joined coroutine; a self-join never returns OK and returns PERM at once unless a cancel or timeout is already pending; joiners of a terminating coroutine are resumed at the next scheduler pass. Refuted: without the popping discipline a handler can run after join returned OK; a self-join with an expired deadline returns TIMEDOUT, not PERM."},
 {"property": "C14", "status": "partial", "theorems": ["C14_suspend_ok_partial", "C14_suspend_ok_refuted", "C14_suspend_select_refuted", "C14_suspend_work_refuted", "C14_resume_unknown", "C14_resume_notsuspended", "C14_resume_wakes"], "note": "neco_resume results and absence of effects proved in full (preach). suspend OK implies a later resume call: proved for coroutines that have not called chan_select or neco_work before; both exclusions are needed: refuted for a select that lost a race against a cancel, for a timed-out select that a broadcast still picks (no cancel at all), and for a canceled neco_work (no select at all)."},
 {"property": "C15", "status": "partial", "theorems": ["C15_sleep_partial", "C15_timeout_partial", "C15_sleep_refuted", "C15_sleep_select_refuted", "C15_sleep_work_refuted", "C15_timeout_refuted"], "note": "Proved for histories without finite-deadline neco_cancel_dl (and, for sleep, without earlier select/work by the sleeper); refuted otherwise: flags and wakeups left by earlier operations end a later wait early."},
 {"property": "C16", "status": "proved", "theorems": ["C16_pass", "C16_expired_woken", "C16_none_else"], "note": "All reachable states and clock readings: a pass appends to the ready list first those with another reason to wake, then the expired waiters in (deadline, id) order; nobody else is marked timed out."},
 {"property": "C17", "status": "partial", "theorems": ["C17_cancel_blocked", "C17_blocked_found", "C17_pending_never_waits", "C17_pending_kept_partial", "C17_only_target", "C17_needs_cancel_partial", "C17_uncanceled_refuted", "C17_relock_swallows_refuted", "C17_read_byte_swallows_cancel_refuted"], "note": "a canceled blocked call can only report NECO_CANCELED; pending cancellation survives until reported; false: record reuse lets an uncanceled coroutine see NECO_CANCELED, and a cancel during the mutex re-acquisition of a condition wait (or in neco_stream_read_byte) is swallowed"},
 {"property": "C18", "status": "partial", "theorems": ["C18_disabled_never_pending", "C18_cancel_disabled", "C18_cancelers_released", "C18_enable_releases_refuted"], "note": "disabled coroutines are untouched, cancelers wait and are released by termination; false: enabling cancellation does not release them"},
 {"property": "C19", "status": "partial", "theorems": ["C19_last_pushed_first", "C19_all_run_by_exit", "C19_before_join", "C19_inherited_refuted"], "note": "proved for clients whose coroutine functions pop their handlers before returning; false otherwise: the next coroutine inherits them"},
 {"property": "C20", "status": "partial", "theorems": ["C20_ids_increase", "C20_ids_across_runtimes", "C20_getid", "C20_starterid", "C20_one_starter", "C20_lastid", "C20_lastid_zero_partial", "C20_lastid_zero_refuted"], "note": "All parts proved except 'lastid is 0 before the first start': false for a coroutine whose record is recycled (C20_lastid_zero_refuted), proved when the record pool was empty."},
 {"property": "C21", "status": "proved", "theorems": ["C21_exactly_one_place", "C21_counts", "C21_resume_once", "C21_ub_sources"], "note": ""},
 {"property": "C22", "status": "partial", "theorems": ["C22_switch", "C22_fifo", "C22_bounded_wait", "C22_loop_dispatches", "C22_start_overtakes_refuted"], "note": "Order proved for every history; the literal claim that a yielder waits only for coroutines that were ready before it fails when others keep starting coroutines (C22_start_overtakes_refuted)."},
 {"property": "C23", "status": "proved", "theorems": ["C23_returns_only_at_end", "C23_returns_at_end", "C23_control", "C23_back_to_loop"], "note": ""},
 {"property": "C24", "status": "partial", "theorems": ["C24_waits_in_means", "C24_blocked_counted", "C24_blocked_exact", "C24_coroutines_partial", "C24_coroutines_refuted"], "note": "Counts of blocked coroutines exact in every reachable state; the coroutine count is exact without asynchronous cancellation, and also with it (the default) when each canceled coroutine is one that nobody joins, that is no generator and that never disabled cancellation; refuted otherwise (double decrement)."},
 {"property": "C25", "status": "partial", "theorems": ["C25_order_partial", "C25_once", "C25_next_partial", "C25_closed_partial", "C25_nexts_resume_partial", "C25_only_generators", "C25_source", "C25_lost_refuted"], "note": "The n-th neco_gen_next obtains the n-th yielded value, a next goes ahead while yields exceed nexts, fails with NECO_CLOSED once the generator's coroutine has ended and all values were obtained, and nobody stays blocked in it; a coroutine not started by neco_gen_start gets NECO_NOTGENERATOR. The order and loss parts assume that no next and no yield of the generator ended with NECO_CANCELED or NECO_TIMEDOUT or was left without returning (deadlines and cancellations are otherwise allowed); without that they are false (a consumer canceled after the hand-over loses the value, witnessed). In all histories the values obtained are a sub-multiset of the values yielded (C25_source)."},
 {"property": "C26", "status": "proved", "theorems": ["C26_history_agrees_with_sorted_set", "C26_queries_agree_with_sorted_set", "C26_logarithmic_depth", "C26_neco_comparisons_are_total_orders"], "note": ""},
 {"property": "C27", "status": "proved", "theorems": ["C27_finite_map", "C27_neco_shards"], "note": ""},
 {"property": "C28", "status": "proved", "theorems": ["C28_history", "C28_remove_loose", "C28_other_lists"], "note": ""},
 {"property": "C29", "status": "proved", "theorems": ["C29_add_saturates", "C29_sleep_deadline"], "note": ""},
 {"property": "C30", "status": "proved", "theorems": ["C30_bounds", "C30_zero", "C30_not_past_deadline", "C30_kernel_arguments"], "note": ""},
 {"property": "C31", "status": "partial", "theorems": ["C31_wakes_exactly", "C31_no_ub", "C31_never_forgotten_partial", "C31_never_forgotten_refuted"], "note": "Every event wakes exactly the waiters of its descriptor and direction; but a one-shot registration disarmed by an event of the other direction leaves a sleeper unarmed (C31_never_forgotten_refuted); with one direction per descriptor it cannot happen (partial)."},
 {"property": "C32", "status": "partial", "theorems": ["C32_prefix", "C32_count", "C32_full", "C32_caller_knows_partial", "C32_caller_knows_refuted", "C32_terminates"], "note": "All parts proved except that a caller always learns how much was written: a cancel or deadline after a partial write returns -1 (C32_caller_knows_refuted)."},
 {"property": "C33", "status": "proved", "theorems": ["C33_read", "C33_zero_is_eof", "C33_blocks_only_if_nothing", "C33_error"], "note": ""},
 {"property": "C34", "status": "proved", "theorems": ["C34_stream_prefix", "C34_return_values", "C34_eof"], "note": ""},
 {"property": "C35", "status": "proved", "theorems": ["C35_unread"], "note": ""},
 {"property": "C36", "status": "partial", "theorems": ["C36_in_order_partial", "C36_flush_partial", "C36_retry_duplicates_refuted"], "note": "Proved for all histories in which no writing call is hit by a cancel or deadline in mid-write; otherwise bytes are sent twice (C36_retry_duplicates_refuted)."},
 {"property": "C37", "status": "partial", "theorems": ["C37_in_order_exactly_once_partial", "C37_refused_only_if_full_partial", "C37_drains_partial", "C37_gone_is_done_partial", "C37_pinned", "C37_create_failure_refuted", "C37_refused_but_run_refuted"], "note": "Proved for all interleavings in which pthread_create succeeds; false otherwise (the failure check compares with -1): an accepted job may never run, a refused one may run. Refused when the one chosen queue is full, even if another has room."},
 {"property": "C38", "status": "partial", "theorems": ["C38_after_done_partial", "C38_result_ok", "C38_returns_once", "C38_continues_partial", "C38_stays_blocked_partial", "C38_after_done_refuted", "C38_select_refuted"], "note": "neco_work always returns NECO_OK and at most once; for callers nobody cancels (and which did not use select) it returns only after its job finished, stays blocked until then and is runnable at the next pass; refuted for a canceled caller (woken early, returns NECO_OK before the job is done) and, without any cancellation, for a caller whose earlier select timed out and was still picked by a broadcast."},
 {"property": "C39", "status": "proved", "theorems": ["C39_inside_mapped", "C39_disjoint", "C39_no_ub", "C39_system_calls", "C39_options", "C39_size_overflow_refuted"], "note": "mmap path, every option setting whose largest group fits the address space (C39_options gives the bound; beyond it sizes wrap, refuted). Clients give back only stacks they hold."},
 {"property": "C40", "status": "proved", "theorems": ["C40_bytes", "C40_any_turn", "C40_prefix", "C40_split", "C40_seeds_never_merge", "C40_setseed", "C40_output", "C40_byte_range"], "note": ""},
 {"property": "C41", "status": "proved", "theorems": ["C41_split", "C41_no_colon", "C41_in_bounds", "C41_exact"], "note": ""},
 {"property": "C42", "status": "partial", "theorems": ["C42_errno_round_trip", "C42_errno_back", "C42_errno_others", "C42_described_partial", "C42_names_distinct", "C42_described_refuted", "C42_lasterr_partial", "C42_partial_write", "C42_lasterr_refuted"], "note": "NECO_EOF has no description (C42_described_refuted); some early returns do not set the last error (C42_lasterr_refuted). Everything else proved."},
 {"property": "C43", "status": "partial", "theorems": ["C43_once", "C43_delivered_partial", "C43_recorded_partial", "C43_default_partial", "C43_default_later_partial", "C43_held_back_refuted", "C43_lost_refuted", "C43_default_refuted"], "note": "Each occurrence is received at most once, for every execution. If no coroutine ended still watching: a signal nobody watches has its default effect, a watched one is recorded, and the lowest pending signal is taken by a coroutine waiting for it. Not provable in full: a pending higher signal is held back forever by a lower one that nobody waits for; an occurrence handed to a waiter whose deadline expires in the same pass is lost; a coroutine that ends still counts as a watcher (all three witnessed)."},
 {"property": "C44", "status": "proved", "theorems": ["C44_perm", "C44_made", "C44_stays_foreign", "C44_init_refuted"], "note": "Every operation with a foreign channel, mutex, wait group or condition variable among its operands returns NECO_PERM at once and changes nothing; objects made by another runtime stay foreign through every later execution. The init functions are the exception: they do not check the owner and take the object over (witnessed)."},
 {"property": "C45", "status": "partial", "theorems": ["C45_defaults", "C45_handlers", "C45_canceled_partial", "C45_deadline_partial", "C45_watch_partial", "C45_fresh_partial", "C45_canceled_refuted", "C45_deadline_refuted", "C45_watch_refuted", "C45_handlers_refuted"], "note": "Default cancel type and state proved for every start; no handlers proved when pushes and pops are paired. Not canceled, no expired deadline, no watched signal proved when no ended coroutine left such a flag behind; the unguarded statement is false because a recycled record keeps its flags (four refutations)."},
 {"property": "C46", "status": "proved", "theorems": ["C46_arguments", "C46_arguments_total", "C46_freed"], "note": "Every argument list and every prior content of a recycled coroutine record."},
 {"property": "C47", "status": "partial", "theorems": ["C47_ok_means_connected", "C47_error_reported", "C47_blocked", "C47_connected_but_error_refuted"], "note": "Success means connected, failures are reported; but a connect that was interrupted and then completed is reported as failed (C47_connected_but_error_refuted)."},
 {"property": "C48", "status": "proved", "theorems": ["C48_only_flag", "C48_reports_old", "C48_restore"], "note": ""},
 {"property": "C49", "status": "proved", "theorems": ["C49_accept"], "note": ""},
 {"property": "C50", "status": "partial", "theorems": ["C50_dial", "C50_cancel_ignored_refuted"], "note": "Order and descriptor accounting proved; a cancel or deadline does not end the dial when more addresses remain (C50_cancel_ignored_refuted)."},
 {"property": "C51", "status": "partial", "theorems": ["C51_as_if_direct_partial", "C51_quiet_after_return_partial", "C51_progress", "C51_dangling_refuted", "C51_written_later_refuted"], "note": "For every interleaving in which the caller is not canceled while a job of its write is with a thread: same bytes and value as some run of the direct write loop, and quiet after the return; a job in a thread's hands always can come back. With such a cancel it is false: the thread uses the dead stack frame, and bytes reported as not written are written later (both witnessed)."},
 {"property": "C52", "status": "partial", "theorems": ["C52_no_ub", "C52_no_race", "C52_result", "C52_no_leak", "C52_list_kept", "C52_thread_ends", "C52_error", "C52_fd_zero_refuted"], "note": "Proved for every interleaving, failure and way the wait ends. Partial only because the no-leak part needs pipe(2) not to hand out descriptor 0, which the code takes for 'not open' (witnessed)."},
 {"property": "C53", "status": "partial", "theorems": ["C53_result", "C53_success", "C53_tcp_address", "C53_refused", "C53_unix_partial", "C53_unix_refuted"], "note": "Descriptor and list accounting, success condition, looked-up and bound address proved for all answers. The unix part holds for paths shorter than 108 bytes; every longer path is served under another name while dial refuses it (proved for all such paths)."},
 {"property": "C54", "status": "partial", "theorems": ["C54_success", "C54_failure", "C54_no_leak_partial", "C54_dangling_refuted", "C54_fd_zero_refuted"], "note": "Success proved for all interleavings if no other process sends the random secret; failure leaves the array untouched and restores the cancel state. Nothing stays open after a failure if the helper had ended; otherwise it writes into the dead frame and leaks its descriptor (witnessed), and a listener that is descriptor 0 is leaked (witnessed)."},
 {"property": "C55", "status": "partial", "theorems": ["C55_one_place", "C55_all_freed", "C55_idle_freed", "C55_queue_partial", "C55_queue_refuted", "C55_jobs_partial", "C55_jobs_refuted"], "note": "Record and stack accounting proved for every history with allocation failures; the 100 ms rule for every history with a clock that does not go back. Event queue: proved if the kernel does not hand out descriptor 0 (false then, witnessed). Jobs: proved if no coroutine ends with a job in a thread; otherwise the job uses freed memory at the end of run (witnessed)."},
 {"property": "C56", "status": "partial", "theorems": ["C56_wakes_exactly", "C56_no_ub", "C56_never_forgotten_partial", "C56_forgotten_refuted"], "note": "Every event resumes exactly its waiters. A sleeper is registered unless somebody begins to wait for an event all of whose waiters have been resumed but have not run (partial: missing are those orders). In those the statement is false, for every continuation: C56_forgotten_refuted."},
 {"property": "C57", "status": "partial", "theorems": ["C57_loop_runs", "C57_expired_soon", "C57_resumed_soon", "C57_work_soon_partial", "C57_starts_refuted"], "note": "Bounds proved for every schedule. Background work: for callers at whom no cancel is aimed and that have not used select (partial). The term for started coroutines is needed: C57_starts_refuted shows for every n that a coroutine which only starts coroutines keeps an expired sleeper from running for n turns."},
 {"property": "C58", "status": "partial", "theorems": ["C58_returns_partial", "C58_switch_runs", "C58_starts", "C58_rounding_refuted", "C58_arm_returns_partial", "C58_arm_switch_runs", "C58_arm_starts", "C58_arm_rounding_refuted", "C58_riscv_returns_partial", "C58_riscv_switch_runs", "C58_riscv_starts", "C58_riscv_cells", "C58_riscv_unaligned_refuted", "C58_riscv_rounding_refuted", "C58_arm32_returns_partial", "C58_arm32_switch_runs", "C58_arm32_starts", "C58_arm32_cells", "C58_arm32_rounding_refuted", "C58_i386_returns_partial", "C58_i386_switch_runs", "C58_i386_starts", "C58_i386_rounding_refuted", "C58_win_returns_partial", "C58_win_switch_runs", "C58_win_starts", "C58_win_rounding_refuted"], "note": "Proved instruction by instruction for the x86-64 (System V, and the byte arrays used on Windows, with xmm6-xmm15 and the stack bounds in the thread information block), AArch64, 32-bit ARM (two variants), i386 and RISC-V (five variants) routines: registers, return, stack and memory for every sequence of switches. Missing for the full statement: the floating-point control words, which no routine saves (witnessed); and on 32-bit RISC-V with double-precision registers the routine uses unaligned accesses, which a machine may refuse (witnessed)."},
 {"property": "C59", "status": "proved", "theorems": ["C59_current", "C59_starts", "C59_cleaned_at_once", "C59_cleaned_only_then", "C59_final_is_final", "C59_stack_unused_when_cleaned", "C59_no_calls_in_cleanup"], "note": "For every sequence of llco calls that stays defined (no switch to an ended coroutine)."}
]}
