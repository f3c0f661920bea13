{"id": "C01", "title": "Channel FIFO and exactly-once delivery", "statement": "On a channel used with neco_chan_send/neco_chan_recv/neco_chan_tryrecv, without cancellation, deadlines or select, the n-th receive call that obtains a message (in call order) obtains exactly the message of the n-th accepted send call (in call order): nothing is lost, duplicated, reordered or invented.", "quantifier": "every capacity, message sequence, number of sending and receiving coroutines, and every interleaving the scheduler and the clients can produce", "why_tests_cant": "the order depends on which coroutine runs between a send and the wake-up of its receiver; tests fix a handful of interleavings", "anchors": ["neco.c:chan_send0", "neco.c:chan_tryrecv0", "neco.c:cbuf_push", "neco.c:cbuf_pop"]}
{"id": "C02", "title": "Channel capacity bound and blocking rule", "statement": "A channel made with capacity n never holds more than n undelivered completed sends; a send completes without a receiver only if fewer than n messages are buffered, and a receive blocks only if no message is available; senders and receivers are never blocked on the same channel at once.", "quantifier": "every reachable runtime state and every channel", "why_tests_cant": "an invariant over every history of sends, receives, closes, cancellations and timeouts", "anchors": ["neco.c:chan_send0", "neco.c:chan_tryrecv0", "neco.c:chan_select"]}
{"id": "C03", "title": "Send/receive outcome is truthful under cancellation and deadlines", "statement": "A send that returns NECO_OK has its message received or still available to receivers, and a send that returns NECO_CANCELED or NECO_TIMEDOUT has not had its message received.", "quantifier": "every history including neco_cancel and *_dl deadlines hitting at any scheduling point", "why_tests_cant": "needs the cancel or the deadline to land in the window between the hand-off and the moment the woken coroutine runs", "anchors": ["neco.c:chan_send0", "neco.c:chan_tryrecv0", "neco.c:checkdl", "neco.c:cancel_dl", "neco.c:rt_sched_paused_step"]}
{"id": "C04", "title": "Closed channels drain and then report NECO_CLOSED", "statement": "After neco_chan_close returns NECO_OK every later send and close returns NECO_CLOSED; messages accepted before the close are still received in order; once they are gone every receive returns NECO_CLOSED and no receiver stays blocked on the channel.", "quantifier": "every buffer content and set of blocked senders/receivers at the moment of closing, and every later history", "why_tests_cant": "the state at close time and the later cancel/timeouts of blocked senders range over unboundedly many histories", "anchors": ["neco.c:chan_close", "neco.c:chan_tryrecv0", "neco.c:chan_send0"]}
{"id": "C05", "title": "Broadcast reaches exactly the waiting receivers", "statement": "neco_chan_broadcast delivers its message to every coroutine blocked receiving on the channel at that moment, to nobody else, never blocks for a receiver, and returns the number of coroutines it delivered to.", "quantifier": "every set of blocked receivers and every channel state", "why_tests_cant": "quantifies over every queue content, including stale select entries", "anchors": ["neco.c:chan_send0", "neco.c:neco_chan_broadcast"]}
{"id": "C06", "title": "Select picks exactly one ready channel and yields its message", "statement": "neco_chan_select returns the index of one given channel and the following neco_chan_case on that channel yields the message that was delivered to this selecting coroutine; no message is lost or seen by two coroutines.", "quantifier": "every set of channels, selecting coroutines and senders, and every interleaving", "why_tests_cant": "two selects on one channel only interfere under particular interleavings of senders", "anchors": ["neco.c:chan_select", "neco.c:chan_selectv_dl", "neco.c:chan_case", "neco.c:chan_send0"]}
{"id": "C07", "title": "Channel reference counting", "statement": "A channel's memory is released by exactly the release call that balances its creation and all its retains; it is neither freed earlier nor twice, and the pool of recycled zero-size channels never exceeds 256 entries and never hands out a channel that is still referenced.", "quantifier": "every sequence of make, retain and release calls", "why_tests_cant": "needs all interleavings of retains and releases; a use-after-free may go unnoticed in a run", "anchors": ["neco.c:chan_fastretain", "neco.c:chan_fastrelease", "neco.c:zchanpush", "neco.c:chan_fastmake"]}
{"id": "C08", "title": "Mutex mutual exclusion", "statement": "If clients unlock only mutexes they hold, then while a coroutine holds the write lock (its lock or trylock returned NECO_OK, it has not yet called unlock) no other coroutine holds the mutex in any mode; any number of readers may hold it together.", "quantifier": "every history of lock/rdlock/try/unlock/cond_wait calls, cancellations and deadlines, over any number of coroutines and mutexes", "why_tests_cant": "mutual exclusion is an invariant over all schedules", "anchors": ["neco.c:mutex_trylock", "neco.c:mutex_tryrdlock", "neco.c:finish_lock", "neco.c:mutex_fastunlock", "neco.c:mutex_fastlock"]}
{"id": "C09", "title": "A mutex is never left locked without a holder", "statement": "If a lock call returns an error the caller does not hold the mutex and the mutex is not left owned by it: when no coroutine holds or is acquiring the mutex, trylock succeeds.", "quantifier": "every history including cancellations and deadlines", "why_tests_cant": "the leak needs the deadline or cancel to arrive between hand-off and wake-up", "anchors": ["neco.c:finish_lock", "neco.c:mutex_fastunlock", "neco.c:checkdl", "neco.c:rt_sched_paused_step"]}
{"id": "C10", "title": "Mutex fairness", "statement": "Blocked lock requests are granted in arrival order (a run of consecutive readers together); a new reader never overtakes a queued request, so writers are not starved.", "quantifier": "every queue content and history", "why_tests_cant": "fairness speaks about all orders of arrivals", "anchors": ["neco.c:mutex_tryrdlock", "neco.c:mutex_fastunlock"]}
{"id": "C11", "title": "Wait group semantics", "statement": "The counter never becomes negative (the offending call returns NECO_NEGWAITGRP and changes nothing); neco_waitgroup_wait returns NECO_OK only if the counter was zero at some moment during the call; when the counter reaches zero every waiter is woken.", "quantifier": "every history of add (any delta), done, wait, cancel and deadline", "why_tests_cant": "quantifies over all sequences of deltas and all sets of waiters", "anchors": ["neco.c:waitgroup_add", "neco.c:waitgroup_done", "neco.c:waitgroup_wait_dl"]}
{"id": "C12", "title": "Condition variable wake-ups", "statement": "neco_cond_signal wakes the longest waiting coroutine (if any), neco_cond_broadcast wakes all; neco_cond_wait releases the mutex and starts waiting atomically, so a signal issued by any coroutine that acquires the mutex after the waiter released it wakes the waiter.", "quantifier": "every history of waits, signals, broadcasts and mutex contention", "why_tests_cant": "a lost wake-up depends on who runs between the release of the mutex and the enqueueing", "anchors": ["neco.c:cond_signal", "neco.c:cond_broadcast", "neco.c:cond_wait_dl", "neco.c:mutex_fastunlock"]}
{"id": "C13", "title": "Join waits for termination", "statement": "neco_join(id) returns NECO_OK only when coroutine id has terminated (or never existed); joining oneself returns NECO_PERM; when a coroutine terminates all its joiners are woken.", "quantifier": "every history and every set of joiners", "why_tests_cant": "covers all termination paths (return, asynchronous cancel, neco_exit) and all interleavings", "anchors": ["neco.c:join_dl", "neco.c:coexit"]}
{"id": "C14", "title": "Suspend and resume", "statement": "neco_suspend returns NECO_OK only after a neco_resume of that coroutine made after the suspend began; neco_resume returns NECO_NOTFOUND for unknown and NECO_NOTSUSPENDED for non-suspended coroutines and leaves them unaffected.", "quantifier": "every history of suspend, resume, cancel and deadlines", "why_tests_cant": "quantifies over all interleavings of resumers", "anchors": ["neco.c:suspend_dl", "neco.c:resume"]}
{"id": "C15", "title": "Sleep and deadlines are never early", "statement": "neco_sleep returns NECO_OK only after the requested time has passed, and an operation returns NECO_TIMEDOUT only if the clock has passed its deadline.", "quantifier": "every clock behaviour (monotone), every deadline and every history", "why_tests_cant": "timing depends on clock readings and on flags left by earlier operations", "anchors": ["neco.c:sleep_dl", "neco.c:sleep0", "neco.c:copause", "neco.c:checkdl", "neco.c:rt_sched_paused_step"]}
{"id": "C16", "title": "Expired deadlines and sleeps are woken", "statement": "At every scheduler pass each blocked coroutine whose deadline is before the current time becomes runnable, in order of deadline, and no blocked coroutine with a later deadline is timed out.", "quantifier": "every set of blocked coroutines and deadlines and every clock reading", "why_tests_cant": "arbitrary timer populations", "anchors": ["neco.c:rt_sched_paused_step", "neco.c:copause", "neco.c:dl_compare"]}
{"id": "C17", "title": "Cancellation is delivered once, to its target only", "statement": "neco_cancel(id) returning NECO_OK makes the current or next blocking operation of coroutine id (and of no other coroutine) report NECO_CANCELED or, with asynchronous cancel type, terminates it; a coroutine nobody canceled never observes NECO_CANCELED.", "quantifier": "every history of cancels, blocking operations, exits and coroutine starts", "why_tests_cant": "flags survive in recycled coroutine records only for particular histories", "anchors": ["neco.c:cancel_dl", "neco.c:checkdl", "neco.c:copause", "neco.c:coyield", "neco.c:start", "neco.c:cleanup"]}
{"id": "C18", "title": "Disabled cancellation is respected and released", "statement": "While a coroutine has cancel state DISABLE no neco_cancel affects it; the cancelers wait and proceed once it enables cancellation or terminates.", "quantifier": "every history of state changes and cancelers", "why_tests_cant": "needs a canceler blocked while the state changes, over all interleavings", "anchors": ["neco.c:cancel_dl", "neco.c:setcancelstate", "neco.c:coexit"]}
{"id": "C19", "title": "Cleanup handlers", "statement": "When a coroutine is terminated asynchronously its pushed and not yet popped cleanup handlers run exactly once each, last pushed first, before any joiner of the coroutine returns.", "quantifier": "every stack of handlers and every termination point", "why_tests_cant": "any number of handlers and every point at which the cancel arrives", "anchors": ["neco.c:cleanup_push", "neco.c:cleanup_pop", "neco.c:coexit"]}
{"id": "C20", "title": "Coroutine identity", "statement": "Coroutine ids are positive, never reused and increase with each start (also across runtimes); neco_starterid is the id of the coroutine that called start (0 for the first), and neco_lastid is the id of the last coroutine started by the caller, 0 if it has not started any.", "quantifier": "every history of starts and exits", "why_tests_cant": "reuse of pooled coroutine records happens only after particular histories", "anchors": ["neco.c:sco_entry", "neco.c:coentry", "neco.c:start", "neco.c:lastid", "neco.c:starterid"]}
{"id": "C21", "title": "No coroutine is lost or duplicated by the scheduler", "statement": "At every moment each live coroutine is in exactly one place: running, ready, or blocked; the runtime's own counts of running, ready and blocked coroutines are exact; a blocked coroutine that is resumed becomes ready exactly once.", "quantifier": "every reachable state", "why_tests_cant": "an invariant over all histories", "anchors": ["neco.c:sco_switch", "neco.c:sco_yield", "neco.c:sco_pause", "neco.c:sco_resume", "neco.c:sco_entry"]}
{"id": "C22", "title": "First-come first-served scheduling", "statement": "Ready coroutines run in the order in which they became ready: a coroutine that yields runs again only after every coroutine that was ready before it has run; a started coroutine runs immediately and its starter is queued behind the coroutines already due to run.", "quantifier": "every reachable scheduler state and every continuation", "why_tests_cant": "order over all interleavings", "anchors": ["neco.c:sco_switch", "neco.c:sco_yield", "neco.c:sco_resume", "neco.c:sco_entry"]}
{"id": "C23", "title": "The runtime ends exactly when all coroutines have ended", "statement": "The first neco_start of a thread returns only when every coroutine started on that thread has terminated, and the scheduler does return to its loop whenever no coroutine is ready.", "quantifier": "every history", "why_tests_cant": "quantifies over all programs", "anchors": ["neco.c:rt_scheduler", "neco.c:sco_active", "neco.c:run"]}
{"id": "C24", "title": "Statistics are exact", "statement": "neco_getstats reports exactly the number of live coroutines and, for each kind of blocking operation, the number of coroutines currently blocked in it.", "quantifier": "every reachable state", "why_tests_cant": "counters drift only under particular exit/cancel interleavings", "anchors": ["neco.c:getstats", "neco.c:comap_delete", "neco.c:coexit"]}
{"id": "C25", "title": "Generators", "statement": "neco_gen_next obtains the yielded values in the order in which the generator yields them, each once, and NECO_CLOSED after the generator coroutine has terminated; only the generator's own coroutine can yield.", "quantifier": "every sequence of yields and next calls and every interleaving", "why_tests_cant": "all interleavings of generator and consumer", "anchors": ["neco.c:neco_gen_start", "neco.c:neco_gen_next", "neco.c:neco_gen_yield", "neco.c:coexit"]}
{"id": "C26", "title": "Ordered sets (AA tree) behave as sorted sets", "statement": "Insertion, deletion, search, minimum, maximum, successor, predecessor and lower-bound iteration of the ordered sets that hold timers, coroutines and event waiters agree with a mathematical sorted set, and the depth of the tree is logarithmic in its size.", "quantifier": "every sequence of operations and every comparison that is a total order", "why_tests_cant": "the number of tree shapes is unbounded", "anchors": ["neco.c:AAT_IMPL", "neco.c:AAT_DEF"]}
{"id": "C27", "title": "Sharded maps behave as finite maps", "statement": "Looking up a coroutine by id, a blocked coroutine by id or event waiters by (fd, kind) gives exactly the entries inserted and not deleted, whatever the hash.", "quantifier": "every sequence of insertions and deletions, every key", "why_tests_cant": "all key sets and hash collisions", "anchors": ["neco.c:sco_map_insert", "neco.c:sco_map_delete", "neco.c:comap_insert", "neco.c:evmap_iter"]}
{"id": "C28", "title": "Intrusive lists behave as sequences", "statement": "Pushing, popping and removing nodes of the intrusive waiting lists implements a sequence per list, keeps both link directions consistent, keeps every other list unchanged, and removing a node that is in no list is harmless.", "quantifier": "every heap of well-formed lists and every node", "why_tests_cant": "pointer aliasing over all heaps", "anchors": ["neco.c:colist_push_back", "neco.c:colist_pop_front", "neco.c:remove_from_list", "neco.c:sco_list_push_back", "neco.c:sco_remove_from_list"]}
{"id": "C29", "title": "Deadline arithmetic saturates", "statement": "Adding a duration to the clock never overflows: the result is the exact sum when representable and otherwise the nearest representable value; sleeping for a huge duration never wraps into the past.", "quantifier": "all pairs of 64-bit integers", "why_tests_cant": "2^128 input pairs", "anchors": ["neco.c:i64_add_clamp", "neco.c:neco_sleep"]}
{"id": "C30", "title": "Scheduler wait time", "statement": "The time the scheduler is willing to wait is between 0 and 500 ms, zero when a coroutine is ready, a signal is pending or background work is outstanding, and never reaches past the earliest deadline.", "quantifier": "every scheduler state and clock reading", "why_tests_cant": "all 64-bit deadlines and clocks", "anchors": ["neco.c:rt_sched_paused_step"]}
{"id": "C31", "title": "Event waits are woken by their event and only by it", "statement": "When a file descriptor becomes readable (writable) every coroutine waiting to read (write) on that descriptor is woken, no waiter of another descriptor or direction is woken, and no waiter whose event has happened stays blocked.", "quantifier": "every set of waiters, descriptors and event batches, every kernel report", "why_tests_cant": "depends on combinations of waiters and one-shot registrations", "anchors": ["neco.c:rt_sched_event_step", "neco.c:wait_dl_addevent", "neco.c:wait_dl", "neco.c:evexists"]}
{"id": "C32", "title": "neco_write writes a prefix in order and reports it", "statement": "neco_write returns the number of bytes handed to the kernel, which are a prefix of the buffer in order, and equals the full length unless an error occurred before the first byte or after a partial write; the caller can always tell how many bytes were written.", "quantifier": "every buffer and every sequence of partial kernel writes, errors, cancels and deadlines", "why_tests_cant": "kernel behaviours range over all sequences", "anchors": ["neco.c:write_dl", "neco.c:neco_write_dl", "neco.c:write0"]}
{"id": "C33", "title": "neco_read returns the kernel's bytes once", "statement": "neco_read returns exactly the bytes of one successful kernel read, retries only when the kernel has nothing to give, and returns 0 only at end of file.", "quantifier": "every sequence of kernel results", "why_tests_cant": "all sequences of EAGAIN/EINTR/short reads", "anchors": ["neco.c:read_dl", "neco.c:neco_read_dl", "neco.c:cowait"]}
{"id": "C34", "title": "Buffered stream reading preserves the byte sequence", "statement": "The bytes returned by any mix of neco_stream_read, neco_stream_readfull and neco_stream_read_byte on a stream are, in order and without gap or repetition, the bytes delivered by the descriptor.", "quantifier": "every byte sequence, chunking by the kernel, buffer size and mix of calls", "why_tests_cant": "unbounded sequences and chunkings", "anchors": ["neco.c:stream_read_dl", "neco.c:neco_stream_readfull_dl", "neco.c:neco_stream_read_byte_dl"]}
{"id": "C35", "title": "Unread puts the last byte back", "statement": "After a successful neco_stream_read_byte, neco_stream_unread_byte succeeds and the next read returns the same byte; everything after it is unaffected.", "quantifier": "every stream state", "why_tests_cant": "all buffer positions", "anchors": ["neco.c:stream_unread_byte", "neco.c:neco_stream_read_byte_dl"]}
{"id": "C36", "title": "Buffered stream writing neither drops nor duplicates bytes", "statement": "The bytes that reach the descriptor through neco_stream_write, flush and close are the written bytes in order, each once; after a successful flush all of them have reached it; a failed flush can be retried.", "quantifier": "every sequence of writes and flushes, buffer size and kernel behaviour including errors and deadlines", "why_tests_cant": "all chunkings and failure points", "anchors": ["neco.c:stream_write_dl", "neco.c:stream_flush_dl", "neco.c:stream_close_dl"]}
{"id": "C37", "title": "Background worker queue", "statement": "Work accepted by the worker pool is executed exactly once; work pinned to one thread runs in submission order; a submission is refused only if every eligible queue is full.", "quantifier": "every interleaving of submitters, worker threads, time-outs and shutdown", "why_tests_cant": "thread interleavings", "anchors": ["neco.c:worker_submit", "neco.c:worker_entry", "neco.c:worker_free"]}
{"id": "C38", "title": "neco_work returns after the work is done", "statement": "neco_work returns NECO_OK only after the work function has finished, and the calling coroutine then continues exactly once; it cannot be canceled.", "quantifier": "every interleaving of worker threads, the scheduler and cancelers", "why_tests_cant": "thread and coroutine interleavings", "anchors": ["neco.c:workfn", "neco.c:iowork", "neco.c:cancel_dl"]}
{"id": "C39", "title": "Coroutine stacks are disjoint", "statement": "Stacks of live coroutines lie inside mapped memory, do not overlap and are separated by at least the configured gap; a stack is never handed out twice; memory is unmapped only when none of its stacks is in use.", "quantifier": "every sequence of stack allocations and frees and every option setting", "why_tests_cant": "all allocation histories", "anchors": ["neco.c:stack_get_", "neco.c:stack_put_", "neco.c:stack_group_new", "neco.c:stack_release_group"]}
{"id": "C40", "title": "PRNG determinism", "statement": "After neco_rand_setseed(s) the bytes produced by neco_rand(NECO_PRNG) depend only on s and the lengths requested; a longer request extends a shorter one; different seeds never merge into the same state; neco_rand_setseed reports the previous seed.", "quantifier": "all seeds, lengths and chunkings", "why_tests_cant": "2^64 seeds, unbounded lengths", "anchors": ["neco.c:rincr", "neco.c:rgen", "neco.c:rnext", "neco.c:pcgrandom_buf", "neco.c:rand_dl", "neco.c:neco_rand_setseed"]}
{"id": "C41", "title": "Address parsing", "statement": "Dial and serve split an address at its last colon into host and port, strip one pair of enclosing square brackets from the host, reject addresses without a colon, and never read outside the string.", "quantifier": "every string", "why_tests_cant": "all strings", "anchors": ["neco.c:parse_tcp_addr"]}
{"id": "C42", "title": "Error reporting", "statement": "Each error code has a description; conversion of an error code to errno and back is the identity on the codes that have an errno; after a call that failed neco_lasterr returns the error, after a successful one NECO_OK.", "quantifier": "all error codes and calls", "why_tests_cant": "all codes and call histories", "anchors": ["neco.c:neco_errconv_to_sys", "neco.c:neco_errconv_from_sys", "neco.c:neco_strerror", "neco.c:error_guard", "neco.c:errhpnd"]}
{"id": "C43", "title": "Signals", "statement": "A signal watched by some coroutine is delivered to a coroutine that waits for it, each occurrence at most once, and is not held back by other signals; watching is counted per coroutine and a signal nobody watches has its default effect.", "quantifier": "every history of watch, unwatch, wait, signal arrival and coroutine exit", "why_tests_cant": "asynchronous arrivals in every order", "anchors": ["neco.c:signal_watch", "neco.c:signal_unwatch", "neco.c:signal_wait_dl", "neco.c:sigallowhandler", "neco.c:rt_sched_signal_step"]}
{"id": "C44", "title": "Runtime isolation", "statement": "Operations, other than initialising it anew, on a channel, mutex, wait group or condition variable that belongs to another runtime (thread) return NECO_PERM and leave the object and the runtime unchanged.", "quantifier": "every object of another runtime and every operation", "why_tests_cant": "all operations and states", "anchors": ["neco.c:check_mutex", "neco.c:check_waitgroup", "neco.c:check_cond", "neco.c:chan_send0", "neco.c:chan_select"]}
{"id": "C45", "title": "A started coroutine begins in a fresh state", "statement": "A newly started coroutine is not canceled, has no expired deadline, watches no signals, has no cleanup handlers and has the default cancel type and state, whatever happened to earlier coroutines.", "quantifier": "every history of starts, cancels and exits, and every recycled coroutine record", "why_tests_cant": "recycling with left-over flags needs particular histories", "anchors": ["neco.c:start", "neco.c:coroutine_new", "neco.c:cleanup", "neco.c:coexit"]}
{"id": "C46", "title": "Coroutine arguments", "statement": "A started coroutine receives exactly the argc arguments passed to neco_start or neco_startv, in order.", "quantifier": "every argc >= 0 and argument values", "why_tests_cant": "unbounded argc; two storage paths", "anchors": ["neco.c:start", "neco.c:coentry", "neco.c:cofreeargs"]}
{"id": "C47", "title": "neco_connect result", "statement": "neco_connect returns 0 only if the socket is connected, reports the socket's error otherwise, and retries or waits only while the connection is in progress.", "quantifier": "every sequence of kernel results, cancels and deadlines", "why_tests_cant": "all kernel result sequences", "anchors": ["neco.c:connect_dl", "neco.c:dial_connect"]}
{"id": "C48", "title": "Non-blocking mode changes only its flag", "statement": "Setting a descriptor's non-blocking mode changes only the O_NONBLOCK flag and reports the previous mode; restoring it gives back the original flags.", "quantifier": "all flag words", "why_tests_cant": "all flag values", "anchors": ["neco.c:neco_setnonblock"]}
{"id": "C49", "title": "Accepting connections", "statement": "neco_accept returns either a descriptor that has been put into non-blocking mode, leaving no other descriptor open, or -1 leaving none open; it retries only when the kernel reports that no connection is pending or the call was interrupted.", "quantifier": "every sequence of kernel results, cancellations and deadlines", "why_tests_cant": "the kernel's answers, including a failing mode change after a successful accept, are not under the test's control", "anchors": ["neco.c:accept_dl"]}
{"id": "C50", "title": "Dialing several addresses", "statement": "neco_dial tries the addresses in order and returns a descriptor connected to the first one that accepts; every other descriptor opened on the way is closed, and on failure none stays open and a negative error code is returned; a cancel or deadline ends the dial.", "quantifier": "every address list and every outcome of each attempt", "why_tests_cant": "needs multi-address names and failures or cancels at chosen attempts", "anchors": ["neco.c:dial_connect_dl", "neco.c:dial_tcp_dl"]}
{"id": "C51", "title": "Background writes", "statement": "Where writes go through worker threads (the default on Linux), neco_write behaves as if it made its system calls itself: the same bytes in the same order, the same value, and once it has returned nothing more is written and no memory of the call is used.", "quantifier": "every interleaving of the caller, the worker threads and the scheduler, every kernel answer, and cancels at any moment", "why_tests_cant": "needs a cancel between a worker picking up a job and finishing it", "anchors": ["neco.c:write3", "neco.c:iowrite", "neco.c:write_dl"]}
{"id": "C52", "title": "Name lookups in a thread", "statement": "neco_getaddrinfo returns the result of its own lookup or an error; caller and lookup thread never use freed memory or race on the result; however the call ends (result, error, deadline, cancel, even asynchronous), everything is freed and closed except a list handed to the caller, and the thread ends.", "quantifier": "every interleaving, every allocation or system call that fails, and every way the wait ends", "why_tests_cant": "needs a cancel or failure at each point of a two-thread ownership protocol", "anchors": ["neco.c:neco_getaddrinfo_dl", "neco.c:getaddrinfo_th"]}
{"id": "C53", "title": "Serving an address", "statement": "neco_serve returns either one open descriptor that is bound to the given address, listening and non-blocking, or a negative error with no descriptor left open; the lookup's list is freed once; neco_dial with the same unix path reaches the path served.", "quantifier": "every network, address string and answer of the kernel and the resolver", "why_tests_cant": "failures of each system call, all address strings and lengths", "anchors": ["neco.c:serve_dl", "neco.c:listen_tcp_dl", "neco.c:listen_unix_dl", "neco.c:dial_unix_dl"]}
{"id": "C54", "title": "Creating a pipe", "statement": "neco_pipe either returns 0 and two different descriptors connected to each other and nobody else, or -1 with the array untouched; in both cases the cancel state is restored, nothing else stays open, the socket file is gone, and no helper uses the call's memory afterwards.", "quantifier": "every interleaving of caller, helper and other processes connecting first, every failure and deadline", "why_tests_cant": "needs foreign connections and failing calls at chosen moments", "anchors": ["neco.c:_pipe_", "neco.c:co_pipe"]}
{"id": "C55", "title": "A runtime gives back what it takes", "statement": "Every coroutine's record and stack is used by one coroutine at a time, is reused or freed once, is freed after 100 ms without use and at the latest when the outermost neco_start returns; the event queue is open while a coroutine waits for a descriptor and closed at the end; no background thread uses memory that was given back.", "quantifier": "every sequence of starts, ends, allocation failures, waits, scheduler passes and background jobs", "why_tests_cant": "leaks and uses after free over unbounded histories and thread timing", "anchors": ["neco.c:start", "neco.c:cleanup", "neco.c:coroutine_free", "neco.c:rt_rc_step", "neco.c:rt_scheduler", "neco.c:run", "neco.c:wait_dl"]}
{"id": "C56", "title": "Event waits on kqueue systems", "statement": "On systems with kqueue an event resumes exactly the coroutines waiting for that descriptor and direction, each once, and a coroutine that still waits is registered with the kernel, so that its event will resume it.", "quantifier": "every sequence of waits, events and ends of waits on any descriptors", "why_tests_cant": "the bad order needs an event, a second waiter and the run of the first one in a particular order; the waiter then hangs for ever", "anchors": ["neco.c:wait_dl", "neco.c:wait_dl_addevent", "neco.c:rt_event_step", "neco.c:evexists"]}
{"id": "C57", "title": "Whoever is due to be woken is not starved", "statement": "While some coroutine is blocked, the scheduler looks after deadlines, descriptors, signals and finished background work again after at most as many turns as there are live coroutines plus coroutines started meanwhile. A blocked coroutine whose deadline has passed, that has been resumed, or whose background work has finished gets its turn within twice that many turns of other coroutines, whatever these do.", "quantifier": "every reachable state, every blocked coroutine due to be woken, every continuation by other coroutines and the kernel", "why_tests_cant": "starvation depends on unbounded sequences of yields, starts and exits of other coroutines; a test sees one short schedule", "anchors": ["neco.c:sco_switch", "neco.c:sco_yield", "neco.c:sco_resume", "neco.c:rt_scheduler", "neco.c:rt_sched_paused_step"]}
{"id": "C58", "title": "A coroutine is continued exactly where and as it was left", "statement": "When a coroutine gives up the processor and later gets it back, its call returns to its caller with the stack pointer, all registers and control words that a function has to preserve, and every local variable as they were; a new coroutine begins in its entry function on its own stack, aligned as the ABI requires. No other memory is changed by a switch.", "quantifier": "every sequence of switches between any number of coroutines and any computation by the others that leaves its stack alone", "why_tests_cant": "the effect of a lost register depends on the compiler's register allocation in code on both sides of a switch", "anchors": ["neco.c:_llco_asm_switch", "neco.c:_llco_asm_entry", "neco.c:llco_asmctx_make", "neco.c:llco_switch1"]}
{"id": "C59", "title": "The stack of an ended coroutine is given back exactly once, at the right moment", "statement": "When a coroutine ends, its clean-up function is called exactly once, as the next thing that happens, on another stack; nothing runs on the ended stack afterwards, no stack is cleaned up while a living coroutine uses it, and the current coroutine always is the one on whose stack the caller runs.", "quantifier": "every sequence of starts, switches and ends of coroutines", "why_tests_cant": "a stack freed too early or twice corrupts memory only in some schedules; a test cannot see all orders", "anchors": ["neco.c:llco_switch0", "neco.c:llco_switch", "neco.c:llco_start", "neco.c:llco_cleanup_last", "neco.c:llco_entry_wrap", "neco.c:llco_current"]}
