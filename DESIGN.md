# Design

Target: tidwall/neco (`/repo/neco.c`, `/repo/neco.h`), read as text. Formal
model and proofs in Coq 8.16.1 under `/verif/rocq/theories`.

## Approach

* **Runtime model.** One executable abstract machine for the coroutine runtime:
  scheduler queues, coroutine records with an explicit stack of continuation
  frames (one frame per point of the C code at which a context switch may
  happen), channels, mutexes, wait groups, condition variables, timers, joins,
  cancellation, signals, background work, record pool. The *client program is
  arbitrary*: a history is any list of events (API call by the running
  coroutine, internal step, clock advance, worker completion, signal). Theorems
  quantify over all event lists.
* **Leaf models.** Self-contained data structures and algorithms are modelled
  separately and bit/pointer-precisely where that matters (AA tree, intrusive
  lists, sharded maps, ring buffer, streams, read/write/connect loops, worker
  ring, stack manager, PRNG, address parsing, error codes).
* Undefined behaviour and failed assertions are distinct outcomes.
* A property that is false of the faithful model is recorded here, with a
  `_refuted` theorem (a concrete history computed by the kernel) and the
  strongest guarded version that holds (`_partial`).

## Plan per property

| id | property | plan |
|----|----------|------|
| C01 | Channel FIFO and exactly-once delivery | Runtime model; invariant relating the call-ordered lists of accepted sends and served receives to buffer + queues; theorem over all event lists without select/broadcast on the channel in which no send or receive on it failed by cancellation or deadline; for histories with failures a second invariant (ChanProv) accounts for where every received message came from (multiset inclusion). |
| C02 | Channel capacity bound and blocking rule | Runtime model; channel well-formedness invariant over all event lists (all operations allowed). |
| C03 | Send/receive outcome is truthful under cancellation and deadlines | Runtime model; expected refuted (hand-off window): `_refuted` witness traces plus the guarded positive theorem. |
| C04 | Closed channels drain and then report NECO_CLOSED | Runtime model; safety half proved, liveness half expected refuted when a blocked sender leaves after close. |
| C05 | Broadcast reaches exactly the waiting receivers | Runtime model; step-level theorem about a broadcast call in every reachable state. |
| C06 | Select picks exactly one ready channel and yields its message | Runtime model; invariant over selects in progress (position fixed by a delivery, slot of the channel); refuted for two selectors on one channel, cancellation after the choice and stale wake-ups. |
| C07 | Channel reference counting | Separate heap model of make/retain/release/pool (Refcount), all operation lists. |
| C08 | Mutex mutual exclusion | Runtime model; invariant, all event lists obeying the unlock discipline. |
| C09 | A mutex is never left locked without a holder | Runtime model; expected refuted; positive theorems: without cancel/deadline on the mutex, and with any cancel/deadline as long as no lock call on it ended CANCELED or TIMEDOUT (invariant: the mutex is accounted for, or such a call has ended or is ending so, or a call was left by exiting, or a cond_wait is stuck retaking it). |
| C10 | Mutex fairness | Runtime model; queue-order theorem for unlock and rdlock. |
| C11 | Wait group semantics | Runtime model; counter invariant, OK-only-at-zero, expected refuted for add with negative delta. |
| C12 | Condition variable wake-ups | Runtime model; signal/broadcast step theorems; atomicity expected refuted under mutex contention. |
| C13 | Join waits for termination | Runtime model; trace theorem: join returns OK only if the target has exited. |
| C14 | Suspend and resume | Runtime model; trace theorem. |
| C15 | Sleep and deadlines are never early | Runtime model; trace theorem for sleep; time-out theorem, expected refuted for a stale flag left by neco_cancel_dl. |
| C16 | Expired deadlines and sleeps are woken | Runtime model; theorem about the scheduler pass. |
| C17 | Cancellation is delivered once, to its target only | Runtime model; expected refuted through recycled records; positive theorem otherwise. |
| C18 | Disabled cancellation is respected and released | Runtime model; safety proved; wake on enable expected refuted. |
| C19 | Cleanup handlers | Runtime model; trace theorem. |
| C20 | Coroutine identity | Runtime model; trace theorem; lastid expected refuted through recycled records. |
| C21 | No coroutine is lost or duplicated by the scheduler | Runtime model; partition invariant over all event lists. |
| C22 | First-come first-served scheduling | Runtime model; queue-order theorems on the scheduler part. |
| C23 | The runtime ends exactly when all coroutines have ended | Runtime model; theorem about the final state. |
| C24 | Statistics are exact | Runtime model; counting invariant; live count refuted by re-entrant exit, proved when exits cannot be re-entered (no asynchronous cancellation, or canceled coroutines have no joiner, canceler waiting or generator channel: Count.v). |
| C25 | Generators | Runtime model; via the channel theorems (order, and multiset inclusion for histories with failures). |
| C26 | Ordered sets (AA tree) behave as sorted sets | AA-tree model, refinement to sorted lists, balance invariant by induction. |
| C27 | Sharded maps behave as finite maps | Sharded map over the AA-tree model, for every hash function. |
| C28 | Intrusive lists behave as sequences | Pointer-level heap model of the lists, refinement to lists. |
| C29 | Deadline arithmetic saturates | Machine-integer model with undefined behaviour as a distinct outcome. |
| C30 | Scheduler wait time | Integer model of the time-out computation. |
| C31 | Event waits are woken by their event and only by it | Model of the waiter map and of one-shot epoll registrations; expected refuted for mixed waiters. |
| C32 | neco_write writes a prefix in order and reports it | Loop model against an arbitrary script of kernel results; count-on-error expected refuted after a partial write. |
| C33 | neco_read returns the kernel's bytes once | Loop model against an arbitrary script of kernel results. |
| C34 | Buffered stream reading preserves the byte sequence | Stream model, refinement to the byte sequence. |
| C35 | Unread puts the last byte back | Stream model. |
| C36 | Buffered stream writing neither drops nor duplicates bytes | Stream model; duplication on retry after a timed-out flush expected refuted. |
| C37 | Background worker queue | Thread-interleaving model of the worker ring. |
| C38 | neco_work returns after the work is done | Runtime model with worker completions as events; expected refuted when a cancel hits. |
| C39 | Coroutine stacks are disjoint | Stack-manager model, invariant over all get/put histories. |
| C40 | PRNG determinism | 64/32-bit machine-arithmetic model. |
| C41 | Address parsing | String model with explicit bounds checks. |
| C42 | Error reporting | Table model; NECO_EOF description expected refuted. |
| C43 | Signals | Signal model; head-of-line blocking and watcher leak expected refuted. |
| C44 | Runtime isolation | Runtime model; step theorem for objects of another runtime. |
| C45 | A started coroutine begins in a fresh state | Runtime model; expected refuted through recycled records. |
| C46 | Coroutine arguments | Argument-storage model. |
| C47 | neco_connect result | Loop model against an arbitrary script of kernel results. |
| C48 | Non-blocking mode changes only its flag | Bit-level model. |
| C49 | Accepting connections | Loop model against an arbitrary script of kernel results. |
| C50 | Dialing several addresses | Loop model over the address list; end on cancel expected refuted. |
| C51 | Background writes | Interleaving model of caller, worker threads and scheduler (IoBg.v); refine to the direct write loop of IoLoops.v; cancel while a job is with a thread expected refuted. |
| C52 | Name lookups in a thread | Interleaving model of caller and detached thread with an ownership flag per resource (Gai.v); invariant. |
| C53 | Serving an address | The sequence of calls as a function of the answers (Serve.v); case analysis for all answers; long unix paths expected refuted. |
| C54 | Creating a pipe | Interleaving model of caller, helper coroutine and foreign processes (Pipe.v); invariant; failure while the helper is busy expected refuted. |
| C55 | A runtime gives back what it takes | Model of the record pool, the event queue descriptor and the end of run (RtRes.v); invariant (every record in exactly one place), ages by sortedness of the pool; jobs of canceled coroutines at the end expected refuted. |
| C56 | Event waits on kqueue systems | kqueue variant of the event waits (EventKq.v) over the same waiter map as C31; invariant (asleep implies registered) under a guard, refuted without it for every continuation. |
| C57 | Whoever is due to be woken is not starved | runtime model (Runtime.v); one-step bound on turns against the yielder and runner lists (Pace.v), summed over executions; a due coroutine is picked up by the next scheduler pass and then runs within one round. |
| C58 | A coroutine is continued exactly where and as it was left | x86-64 machine with the instructions of the two assembly routines, their encoded sizes, and llco_asmctx_make (Asm.v); symbolic execution; invariant on saved contexts over all interleavings of switches, starts and computations of others (AsmLemmas.v). The same for AArch64 (Asm64.v), RISC-V in its five variants (AsmRv.v), 32-bit ARM with and without floating point (AsmArm.v), i386 (Asm386.v) and x86-64 on Windows, where the routines are byte arrays that the model decodes (AsmWin.v). |
| C59 | The stack of an ended coroutine is given back exactly once, at the right moment | the C functions of llco with the stack change as one assignment (Llco.v); a grammar of all histories proved by induction over the calls (LlcoLemmas.v). |

## Trusted base

* Coq 8.16.1's kernel, including its `vm_compute` reduction (used to evaluate the
  model on the concrete histories of the `Example`s and `_refuted` theorems), and
  the compiler and hardware running it. `coqchk` accepts the compiled files.
* The fidelity of the model: the definitions of the model files listed below say
  what the C code does. Every definition cites the lines it stands for. This is a
  reading of the source; nothing extracts the model from the C text, and the C
  code was neither built nor run.
* The environment assumptions written into the models: what `malloc`, `mmap`,
  `pthread_create`, `epoll`, `read`, `write`, `connect`, `accept` may answer (each
  model takes the answers as arbitrary inputs, so the theorems hold for all of
  them), that the clock is read through `getnow` (the model's clock only moves forward),
  and that a context switch of the assembly code (`llco`, up to neco.c:1474) resumes a
  stack exactly where it was left.
* No axioms. `Print Assumptions` answers "Closed under the global context" for
  every theorem named in MANIFEST.json (the command stands after each
  theorem in the `Props_*.v` files, and its answer is listed per theorem in the last
  section). No axiom of the standard library is used either.
* No kernel check is switched off, nothing is `Admitted`, and there are no functors,
  module types or plugins.

## What is modelled

| model file | code | notes |
|------------|------|-------|
| Runtime.v | neco.c 1814-2163 (sco: ready list, yielders, paused set, exit to main), 3323-3375, 3570-3900, 3906-4400, 4462-4547, 4603-4800, 4900-4945, 5640-5700, 5718-6455, 7082-7763, 7852-7900, 8461-8738 | One machine. Each C function that can switch is cut at its switch points. One `step` is either an API call by the running client, the continuation of an interrupted call, one loop turn of the main scheduler (`rt_scheduler`: signal, event, paused, resumer passes), or an environment event (clock, signal, worker completion, descriptor event). Undefined behaviour is the mode `MUB`. |
| Asm.v | 901-979, 1192-1229 | x86-64 (System V) context switch, one instruction at a time; word-addressed memory. |
| Asm64.v | 417-500 | the same for AArch64. |
| AsmArm.v | 338-412 | the same for 32-bit ARM, with and without floating point registers; load/store-multiple instructions. |
| AsmRv.v | 505-716 | the same for RISC-V: 64 and 32 bit, without floating point, with single and with double precision; unaligned accesses allowed or not. |
| Asm386.v | 718-778 | the same for i386; arguments on the stack, the word below the stack pointer is used by the `call`. |
| AsmWin.v | 786-899, 1205-1228 | the same for x86-64 on Windows: the machine executes the bytes of the two arrays through a decoder; xmm registers and the words of the thread information block included. |
| Llco.v | 1120-1315 | current coroutine, start, switch, clean-up of the coroutine left last. |
| AATree.v, ShardMap.v | 1475-1798; 1835-1910, 2936-2945, 3382-3406, 3487-3547 | functional trees; sharding for any hash; the machine of Runtime.v uses the sorted-set specification that C26/C27 prove the trees refine. |
| ColistHeap.v | 1935-1976, 3268-3315 | pointer level; the machine uses lists, justified by C28. |
| ChanMem.v | 5750-5803, 5862-5942 | reference counts, zero-size pool, byte ring buffer; the machine uses a list for the buffer, justified by `C01_ring_*`. |
| SchedTimeout.v | 2898, 4140-4206, 4545-4547 | int64 arithmetic with overflow as undefined behaviour. |
| EventKq.v | 3683-3687, 4078-4139, 4878-4895, 4929-4952 | the same with kqueue: one registration per descriptor and direction, added only when nobody waits for the event. |
| EventWait.v | 3522-3547, 3683-3687, 4078-4139, 4855-4871, 4900-4945 | waiter map and one-shot epoll registrations. |
| IoLoops.v | 5050-5129, 5172-5312, 5391-5419, 5449-5501, 6822-6841, 6855-6905 | retry loops against an arbitrary kernel script. |
| IoBg.v | 62-63, 4192-4203, 4660-4661, 5189-5250 | write workers (default on Linux): jobs in threads, hand-back, cancel. |
| Gai.v | 6470-6701 | caller and detached lookup thread; ownership of each allocation and descriptor. |
| Serve.v | 6772-6810, 6909-6927, 6974-7044 | order of calls for all answers. |
| Pipe.v | 7765-7833 | caller, helper and other processes. |
| RtRes.v | 3743-3761, 3776-3817, 3837-3900, 4240-4293, 4339-4400, 4915-4950 | coroutine records and pool, event queue descriptor, end of run. |
| Stream.v | 7911-8309 | both buffers as memory areas. |
| Worker.v | 2640-2834 | interleaving of critical sections. |
| StackMgr.v | 2226-2619 | mmap path; size_t wraps. |
| Rand.v | 8310-8451 | machine arithmetic. |
| Addr.v | 6722-6753 | C string with bounds-checked reads. |
| Errors.v | neco.h 360-378; neco.c 3415-3474, 5528-5640 | tables, errno conversion, last-error guards. |
| Args.v | 3332, 3763-3769, 3830-3832, 3868-3880 | argument storage of recycled records. |

Simplifications of the machine that a reader should know:

* A channel message is a value copied when `neco_chan_send` is called; the C code
  copies it when it is taken. They differ only if the sender's buffer changes
  while it is blocked in the call.
* Objects are handles; a client that frees the memory of a mutex, wait group or
  condition variable in use is outside the model (destroy and re-init are inside).
  Channel reference counts are in ChanMem.v, not in the machine.
* Counters of type `int64_t`/`size_t` that only grow (ids, statistics) do not wrap.
  The wait-group counter overflow is modelled as undefined behaviour.
* Allocation failure is modelled in ChanMem.v, StackMgr.v and Worker.v, not in the
  machine: there every `neco_start`, `neco_chan_make` etc. gets its memory.
* One runtime (thread) at a time; another runtime appears only through the ids of the
  objects it made (C44) and through its effect on the global id counters.
* In the machine, a descriptor wait ends by an environment event for that descriptor;
  which kernel events there are is EventWait.v's subject.

## What is not modelled

Context switches of other processors and systems than x86-64 with the System V ABI,
or the Windows convention, AArch64, 32-bit ARM, RISC-V and i386 (that is, the ucontext and
setjmp fallbacks and WebAssembly); unwinding and debugging aids (`llco_unwind`, `sco_info`,
NECO_TESTING hooks); the Windows and Emscripten variants of everything else, and of the kqueue variant what concerns failures of `kevent`; the
`malloc` fallback of the stack manager; the exit on a broken stdout pipe (5172-5179)
(background threads for `read`, option NECO_USEREADWORKERS, need no model: `read1` starts with
`nowork = true`, 5047, and so always calls `read` directly, the option has no effect); the
allocator and panic settings (3109-3185; the cancel type and state settings are
modelled as parameters of the initial state); `neco_is_main_thread` and the version string.

## Findings: claims that are false of the code

Each is witnessed by a history evaluated in the kernel, except the last group.

| claim | what happens | theorem |
|-------|--------------|---------|
| C03 | a receiver that was handed a message and is canceled before it runs loses the message although the sender got NECO_OK | C03_ok_refuted |
| C03 | a send whose message was received reports NECO_CANCELED | C03_canceled_refuted |
| C03 | the same two without any cancellation: a receiver (sender) whose deadline has expired but which has not run yet is still given (still gives) a message and reports NECO_TIMEDOUT | C03_timeout_ok_refuted, C03_timedout_refuted |
| C04 | when the last blocked sender of a closed channel gives up, a receiver blocks for ever (the closed-and-empty flag is set only by a receive) | C04_stuck_refuted |
| C05 | broadcast counts a receiver that then reports a cancellation instead of the message | C05_count_refuted |
| C06 | two selectors waiting on one channel share one message slot: one message is read twice, the other lost | C06_shared_refuted |
| C06 | a selector canceled after the choice loses the message | C06_lost_refuted |
| C06 | a wake-up left behind by a canceled select makes the next select return -1 | C06_stale_refuted |
| C07 | 2^31 references overflow the `int` counter | C07_retain_overflow_refuted |
| C09 | a lock call that times out or is canceled after the mutex was handed to it leaves the mutex locked with no owner | C09_refuted, C09_cancel_refuted |
| C11 | `neco_waitgroup_add` with a negative delta reaching zero wakes nobody | C11_zero_wakes_refuted |
| C12 | `neco_cond_wait` may yield between releasing the mutex and joining the queue: lost wake-up, wrong order | C12_lost_wakeup_refuted, C12_order_refuted |
| C12 | a signal is used up by a waiter that has timed out but not run yet; another waiter sleeps for ever | C12_timeout_swallows_refuted |
| C13 | a cleanup handler left on the stack of a coroutine runs after its join returned OK; a self-join can report TIMEDOUT or CANCELED | C13_handler_after_join_refuted, C13_self_join_refuted |
| C14, C15 | a selector that was chosen and canceled stays in the resume list: its next suspend or sleep ends early | C14_suspend_ok_refuted, C15_sleep_refuted |
| C06 | a broadcast still picks a select that has timed out but not run yet: it counts a receiver, the select reports NECO_TIMEDOUT, the message is lost (no cancellation involved) | C06_timeout_lost_refuted |
| C14, C15, C38 | the coroutine of that select stays in the resume list: its next suspend, sleep or neco_work ends early, without any neco_cancel in the history | C14_suspend_select_refuted, C15_sleep_select_refuted, C38_select_refuted |
| C14, C15 | the caller of a canceled neco_work stays in the list of finished jobs: its later suspend or sleep ends early | C14_suspend_work_refuted, C15_sleep_work_refuted |
| C15 | `neco_cancel_dl` returning NECO_NOTFOUND after a wait leaves its time-out flag for the next call | C15_timeout_refuted |
| C17, C20, C45 | a recycled coroutine record keeps the canceled flag, expired-deadline flag, signal mask, cleanup list and last started id of its former owner | C17_uncanceled_refuted, C20_lastid_zero_refuted, C45_*_refuted, C19_inherited_refuted |
| C17 | a cancellation during the re-locking of `neco_cond_wait`, or inside `neco_stream_read_byte`, is swallowed | C17_relock_swallows_refuted, C17_read_byte_swallows_cancel_refuted |
| C18 | enabling cancellation does not wake the coroutines waiting to cancel | C18_enable_releases_refuted |
| C22 | a coroutine that keeps starting others keeps a yielder from running | C22_start_overtakes_refuted |
| C24 | asynchronous cancellation of a coroutine inside its own exit decrements the coroutine count twice | C24_coroutines_refuted |
| C25 | a canceled consumer loses a generator value | C25_lost_refuted |
| C31 | an event of one direction disarms the one-shot registration of a waiter for the other direction | C31_never_forgotten_refuted |
| C32, C36 | a write hit by a cancel or deadline after a partial write returns -1: the caller cannot know the count, and a stream flush sends bytes twice | C32_caller_knows_refuted, C36_retry_duplicates_refuted |
| C37 | `pthread_create` failure is tested with `== -1` | C37_create_failure_refuted, C37_refused_but_run_refuted |
| C38 | a canceled `neco_work` returns NECO_OK before its job is done | C38_after_done_refuted |
| C39 | sizes of stack groups wrap for very large options | C39_size_overflow_refuted |
| C42 | NECO_EOF has no description; several early returns leave the last error unset | C42_described_refuted, C42_lasterr_refuted |
| C43 | only the lowest pending signal is looked at; a signal given to a waiter that times out in the same pass is lost; an ended coroutine keeps counting as a watcher | C43_held_back_refuted, C43_lost_refuted, C43_default_refuted |
| C44 | the init functions take over an object in use by another runtime | C44_init_refuted |
| C47 | an interrupted and then completed connect is reported as failed | C47_connected_but_error_refuted |
| C51 | a coroutine canceled while its write is with a worker thread returns -1/ECANCELED; the thread goes on using its stack frame and may write the bytes later | C51_dangling_refuted, C51_written_later_refuted |
| C52, C54 | descriptor 0 (stdin closed) is taken for "none": neco_getaddrinfo and neco_pipe leak it | C52_fd_zero_refuted, C54_fd_zero_refuted |
| C53 | neco_serve silently cuts a unix path to 107 bytes and succeeds; neco_dial refuses the same string | C53_unix_refuted |
| C54 | neco_pipe that fails (accept: no descriptors left) while its helper is writing returns; the helper later writes into the dead stack frame and its descriptor leaks | C54_dangling_refuted |
| C55 | run frees the pooled records and stacks before it waits for the worker threads: the job of a canceled coroutine then uses freed memory | C55_jobs_refuted |
| C55 | an event queue that is descriptor 0 is taken for none and leaks | C55_queue_refuted |
| C56 | with kqueue, a coroutine that begins to wait while the resumed waiters of the same event have not run yet is not registered with the kernel and is never resumed | C56_forgotten_refuted |
| C57 | a coroutine that keeps starting coroutines that end at once starves every blocked coroutine, expired deadlines and I/O included | C57_starts_refuted |
| C58 | a context switch does not save the floating-point control words: a rounding mode set in one coroutine is in force in the others | C58_rounding_refuted, C58_arm_rounding_refuted, C58_arm32_rounding_refuted, C58_riscv_rounding_refuted, C58_i386_rounding_refuted, C58_win_rounding_refuted |
| C58 | on 32-bit RISC-V with double-precision registers the switch stores 8-byte registers at offsets 60, 68, ... of the context, so every access is unaligned; on a machine that refuses unaligned accesses the first switch traps | C58_riscv_unaligned_refuted |
| C50 | a cancel or deadline does not stop a dial while addresses remain | C50_cancel_ignored_refuted |

Read in the source but not stated as a theorem: `neco_mutex_trylock` and
`tryrdlock` never report a pending cancellation; the relock of `neco_cond_wait`
does not check which runtime made the mutex; `neco_cond_wait` canceled with
asynchronous cancellation ends the coroutine holding the re-acquired mutex.

## Testing the theorems against wrong programs

`seeded/LOG.jsonl` has one line per wrong program: a definition of the model was
edited in a copy, the files that depend on it were rebuilt (failing proofs replaced by
placeholders in the copy, to see what else fails), and the failing theorems noted.
`lemmas_and_examples_whose_proof_failed_first` are those whose own script was seen to
fail; `theorems_failed` are the theorems of the broken claim that fail themselves or
rest on one of those lemmas, found by following the names that occur in statements and
proofs, not by compiling each theorem again.

Limits of this test. Where `files_not_rechecked` is present the rebuild ran out of its
time and the named files were not compiled. Five edits of Runtime.v (`work_submit`
yielding, `wgwait_end`, `active`, `do_cvsignal`, `do_wgadd`) found little or nothing, or
were not reached, in that time; for them the other files were taken without their
proofs and only the files of the named lemmas were checked, up to their first error.
A script that fails shows that the proof depends on the edited code; it does not by
itself show that the theorem is false of the edited program. This matters most where
an auxiliary lemma about the shape of the code fails first, as for `wgwait_end`, where
only `OwnInv.hret_out` was seen to fail. Following names also counts theorems that
may well stay true, such as `_rounding_refuted` when a register is exchanged.

## Results per property

* **C01** (proved). Every reachable history that makes the channel with neco_chan_make and uses it with send/recv/tryrecv/close, no select/broadcast on it, and either no deadline and no cancellation of its users (nor, before a user is started, of an ended coroutine whose record that user may take over), or only the outcome counts: deadlines and cancellations of anyone are allowed as long as every send and receive on the channel has returned something other than NECO_CANCELED/NECO_TIMEDOUT or is still in progress. The i-th successful or pending receive call obtains the message of the i-th accepted send call; the next receive call obtains a message whenever one is outstanding; a blocked receiver is ahead of the sends. Without any restriction on cancellations, deadlines and failures (only: no select/broadcast on the channel), the messages received are a sub-multiset of the messages given to sends (C01_source: nothing invented, nothing received twice), also counting those still in the buffer (C01_source_held). The byte-level ring buffer refines the list.
  - `C01_fifo`
  - `C01_once`
  - `C01_next_receive`
  - `C01_waiting`
  - `C01_source`
  - `C01_source_count`
  - `C01_source_held`
  - `C01_ring_push`
  - `C01_ring_pop`
  - `C01_ring_empty`
* **C02** (proved). Bound and blocking rules in every reachable state (cancellations, deadlines and selects included); the counting theorems under the discipline of C01.
  - `C02_bound`
  - `C02_sender_blocked`
  - `C02_receiver_blocked`
  - `C02_not_both`
  - `C02_send_ahead`
  - `C02_send_blocks`
  - `C02_recv_blocks`
  - `C02_completed`
* **C03** (partial). False in general: a receiver that was handed the message and is canceled before it runs loses it, and a sender whose message was taken and who is canceled before it runs reports NECO_CANCELED (both witnessed); the same two with an expired deadline and no cancellation. Proved whenever no send or receive on the channel ended with NECO_CANCELED or NECO_TIMEDOUT or was left without returning (deadlines and cancellations of anyone allowed), and the channel is not used with select or broadcast. In all histories (without select/broadcast on it) no message is received more often than it was sent (C01_source).
  - `C03_ok_partial`
  - `C01_source`
  - `C03_ok_refuted`
  - `C03_canceled_refuted`
  - `C03_timeout_ok_refuted`
  - `C03_timedout_refuted`
* **C04** (partial). Sends, broadcasts and closes after a close report NECO_CLOSED in every history. Draining, order and release of receivers: under the discipline of C01. False in general: when the last blocked sender of a closed channel gives up, later receivers block for ever.
  - `C04_after_close`
  - `C04_drained`
  - `C04_receivers_resume`
  - `C04_stuck_refuted`
  - `C01_fifo`
  - `C01_next_receive`
* **C05** (partial). Every broadcast in every reachable state resumes a duplicate-free list of coroutines, all of which were queued receiving on the channel, hands each of them the message, misses no coroutine blocked in a receive or in a select on the channel, fixes the index every such select returns and (unless another select on the channel is in progress) the message its neco_chan_case gives, changes no other coroutine and not the buffer, and returns the length of the list. A receiver that is canceled or times out before it runs is among the counted ones and reports that instead of the message (witnessed).
  - `C05_broadcast`
  - `C05_count_refuted`
* **C06** (partial). Every select returns a position of its list or an error. A send while any coroutine waits goes to exactly one waiter: a select among them returns the position of this channel (or a cancellation or timeout) and its neco_chan_case gives this message until the next select on the channel begins, provided no other select on the channel is in progress; close decides waiting selects likewise; a select that need not wait takes the first non-empty channel and the message a receive would have taken. False in general (witnessed): two selectors of one channel share one slot, so one message is read twice and the other lost; a cancellation after the choice loses the message; a stale wake-up makes select return -1.
  - `C06_index`
  - `C06_send`
  - `C06_close`
  - `C06_ready`
  - `C06_try_empty`
  - `C06_shared_refuted`
  - `C06_lost_refuted`
  - `C06_stale_refuted`
  - `C06_timeout_lost_refuted`
* **C07** (proved). All histories of make/retain/release by clients that use only channels they hold a reference to, at most 2^31 references per channel (int counter; overflow shown reachable beyond).
  - `C07_no_use_after_free`
  - `C07_freed_exactly`
  - `C07_live_iff_referenced`
  - `C07_make_fresh`
  - `C07_pool`
  - `C07_retain_overflow_refuted`
* **C08** (proved). All histories of lock/rdlock/try/unlock/cond_wait with cancellations and deadlines, any number of coroutines and mutexes. Client rules: unlock only what is held (proper), no init/destroy of a mutex while a call is using it (tidy).
  - `C08_mutual_exclusion`
  - `C08_readers_share`
* **C09** (partial). The full statement is false: a lock call that times out or is canceled after the mutex was handed to it leaves the mutex locked for ever (two witnesses). Proved: in histories where no cancel is aimed at a coroutine that locks this mutex or at one that has ended, and without deadlines on this mutex, trylock succeeds whenever nobody holds it and no call on it is pending. Proved for all histories, with cancellations and deadlines of every kind: the same as long as no lock or rdlock call on this mutex has ended with NECO_CANCELED or NECO_TIMEDOUT; so those are the only ways in which a mutex is left locked (apart from calls that never return).
  - `C09_free_unless_failed_partial`
  - `C09_free_partial`
  - `C09_refuted`
  - `C09_cancel_refuted`
* **C10** (proved). The queue is in arrival order; no later lock/rdlock/trylock/tryrdlock call succeeds before a waiting one; unlock hands the mutex to the first writer or to all leading readers.
  - `C10_waiter_call`
  - `C10_blocked_waits`
  - `C10_arrival_order`
  - `C10_no_overtaking`
  - `C10_handover`
* **C11** (partial). Counter never negative, NEGWAITGRP changes nothing, wait OK only if the counter was zero during the call, and done reaching zero wakes every waiter: proved. That every way of reaching zero wakes the waiters is false: a negative neco_waitgroup_add reaching zero wakes nobody (refuted); proved for histories without such adds.
  - `C11_count_nonneg`
  - `C11_add`
  - `C11_add_overflow`
  - `C11_done`
  - `C11_wait_ok`
  - `C11_done_wakes`
  - `C11_zero_wakes_partial`
  - `C11_zero_wakes_refuted`
* **C12** (partial). signal wakes the longest queued waiter, broadcast all, wait OK only if signalled during the call; release-and-wait is atomic when nobody waits for the mutex. False in general: with a coroutine waiting for the mutex, neco_cond_wait yields between releasing the mutex and joining the queue, so a signal can be lost for good and the queue is not in call order; and a signal is used up by a waiter that has timed out but not run yet.
  - `C12_waiter_call`
  - `C12_fifo`
  - `C12_signal`
  - `C12_signal_none`
  - `C12_broadcast`
  - `C12_blocked_waits`
  - `C12_wait_ok`
  - `C12_atomic_partial`
  - `C12_lost_wakeup_refuted`
  - `C12_order_refuted`
  - `C12_timeout_swallows_refuted`
* **C13** (partial). Proved in every cancellation type for histories in which coroutine functions pop the cleanup handlers they push before returning (preach): a join that returns OK is followed by no call and no handler of the joined coroutine; a self-join never returns OK and returns PERM at once unless a cancel or timeout is already pending; joiners of a terminating coroutine are resumed at the next scheduler pass. Refuted: without the popping discipline a handler can run after join returned OK; a self-join with an expired deadline returns TIMEDOUT, not PERM.
  - `C13_join_ok_ended`
  - `C13_self_join_not_ok`
  - `C13_self_join_perm_partial`
  - `C13_joiners_woken`
  - `C13_handler_after_join_refuted`
  - `C13_self_join_refuted`
* **C14** (partial). neco_resume results and absence of effects proved in full (preach). suspend OK implies a later resume call: proved for coroutines that have not called chan_select or neco_work before; both exclusions are needed: refuted for a select that lost a race against a cancel, for a timed-out select that a broadcast still picks (no cancel at all), and for a canceled neco_work (no select at all).
  - `C14_suspend_ok_partial`
  - `C14_suspend_ok_refuted`
  - `C14_suspend_select_refuted`
  - `C14_suspend_work_refuted`
  - `C14_resume_unknown`
  - `C14_resume_notsuspended`
  - `C14_resume_wakes`
* **C15** (partial). Proved for histories without finite-deadline neco_cancel_dl (and, for sleep, without earlier select/work by the sleeper); refuted otherwise: flags and wakeups left by earlier operations end a later wait early.
  - `C15_sleep_partial`
  - `C15_timeout_partial`
  - `C15_sleep_refuted`
  - `C15_sleep_select_refuted`
  - `C15_sleep_work_refuted`
  - `C15_timeout_refuted`
* **C16** (proved). All reachable states and clock readings: a pass appends to the ready list first those with another reason to wake, then the expired waiters in (deadline, id) order; nobody else is marked timed out.
  - `C16_pass`
  - `C16_expired_woken`
  - `C16_none_else`
* **C17** (partial). a canceled blocked call can only report NECO_CANCELED; pending cancellation survives until reported; false: record reuse lets an uncanceled coroutine see NECO_CANCELED, and a cancel during the mutex re-acquisition of a condition wait (or in neco_stream_read_byte) is swallowed
  - `C17_cancel_blocked`
  - `C17_blocked_found`
  - `C17_pending_never_waits`
  - `C17_pending_kept_partial`
  - `C17_only_target`
  - `C17_needs_cancel_partial`
  - `C17_uncanceled_refuted`
  - `C17_relock_swallows_refuted`
  - `C17_read_byte_swallows_cancel_refuted`
* **C18** (partial). disabled coroutines are untouched, cancelers wait and are released by termination; false: enabling cancellation does not release them
  - `C18_disabled_never_pending`
  - `C18_cancel_disabled`
  - `C18_cancelers_released`
  - `C18_enable_releases_refuted`
* **C19** (partial). proved for clients whose coroutine functions pop their handlers before returning; false otherwise: the next coroutine inherits them
  - `C19_last_pushed_first`
  - `C19_all_run_by_exit`
  - `C19_before_join`
  - `C19_inherited_refuted`
* **C20** (partial). All parts proved except 'lastid is 0 before the first start': false for a coroutine whose record is recycled (C20_lastid_zero_refuted), proved when the record pool was empty.
  - `C20_ids_increase`
  - `C20_ids_across_runtimes`
  - `C20_getid`
  - `C20_starterid`
  - `C20_one_starter`
  - `C20_lastid`
  - `C20_lastid_zero_partial`
  - `C20_lastid_zero_refuted`
* **C21** (proved). 
  - `C21_exactly_one_place`
  - `C21_counts`
  - `C21_resume_once`
  - `C21_ub_sources`
* **C22** (partial). Order proved for every history; the literal claim that a yielder waits only for coroutines that were ready before it fails when others keep starting coroutines (C22_start_overtakes_refuted).
  - `C22_switch`
  - `C22_fifo`
  - `C22_bounded_wait`
  - `C22_loop_dispatches`
  - `C22_start_overtakes_refuted`
* **C23** (proved). 
  - `C23_returns_only_at_end`
  - `C23_returns_at_end`
  - `C23_control`
  - `C23_back_to_loop`
* **C24** (partial). Counts of blocked coroutines exact in every reachable state; the coroutine count is exact without asynchronous cancellation, and also with it (the default) when each canceled coroutine is one that nobody joins, that is no generator and that never disabled cancellation; refuted otherwise (double decrement).
  - `C24_waits_in_means`
  - `C24_blocked_counted`
  - `C24_blocked_exact`
  - `C24_coroutines_partial`
  - `C24_coroutines_refuted`
* **C25** (partial). The n-th neco_gen_next obtains the n-th yielded value, a next goes ahead while yields exceed nexts, fails with NECO_CLOSED once the generator's coroutine has ended and all values were obtained, and nobody stays blocked in it; a coroutine not started by neco_gen_start gets NECO_NOTGENERATOR. The order and loss parts assume that no next and no yield of the generator ended with NECO_CANCELED or NECO_TIMEDOUT or was left without returning (deadlines and cancellations are otherwise allowed); without that they are false (a consumer canceled after the hand-over loses the value, witnessed). In all histories the values obtained are a sub-multiset of the values yielded (C25_source).
  - `C25_order_partial`
  - `C25_once`
  - `C25_next_partial`
  - `C25_closed_partial`
  - `C25_nexts_resume_partial`
  - `C25_only_generators`
  - `C25_source`
  - `C25_lost_refuted`
* **C26** (proved). 
  - `C26_history_agrees_with_sorted_set`
  - `C26_queries_agree_with_sorted_set`
  - `C26_logarithmic_depth`
  - `C26_neco_comparisons_are_total_orders`
* **C27** (proved). 
  - `C27_finite_map`
  - `C27_neco_shards`
* **C28** (proved). 
  - `C28_history`
  - `C28_remove_loose`
  - `C28_other_lists`
* **C29** (proved). 
  - `C29_add_saturates`
  - `C29_sleep_deadline`
* **C30** (proved). 
  - `C30_bounds`
  - `C30_zero`
  - `C30_not_past_deadline`
  - `C30_kernel_arguments`
* **C31** (partial). Every event wakes exactly the waiters of its descriptor and direction; but a one-shot registration disarmed by an event of the other direction leaves a sleeper unarmed (C31_never_forgotten_refuted); with one direction per descriptor it cannot happen (partial).
  - `C31_wakes_exactly`
  - `C31_no_ub`
  - `C31_never_forgotten_partial`
  - `C31_never_forgotten_refuted`
* **C32** (partial). All parts proved except that a caller always learns how much was written: a cancel or deadline after a partial write returns -1 (C32_caller_knows_refuted).
  - `C32_prefix`
  - `C32_count`
  - `C32_full`
  - `C32_caller_knows_partial`
  - `C32_caller_knows_refuted`
  - `C32_terminates`
* **C33** (proved). 
  - `C33_read`
  - `C33_zero_is_eof`
  - `C33_blocks_only_if_nothing`
  - `C33_error`
* **C34** (proved). 
  - `C34_stream_prefix`
  - `C34_return_values`
  - `C34_eof`
* **C35** (proved). 
  - `C35_unread`
* **C36** (partial). Proved for all histories in which no writing call is hit by a cancel or deadline in mid-write; otherwise bytes are sent twice (C36_retry_duplicates_refuted).
  - `C36_in_order_partial`
  - `C36_flush_partial`
  - `C36_retry_duplicates_refuted`
* **C37** (partial). Proved for all interleavings in which pthread_create succeeds; false otherwise (the failure check compares with -1): an accepted job may never run, a refused one may run. Refused when the one chosen queue is full, even if another has room.
  - `C37_in_order_exactly_once_partial`
  - `C37_refused_only_if_full_partial`
  - `C37_drains_partial`
  - `C37_gone_is_done_partial`
  - `C37_pinned`
  - `C37_create_failure_refuted`
  - `C37_refused_but_run_refuted`
* **C38** (partial). neco_work always returns NECO_OK and at most once; for callers nobody cancels (and which did not use select) it returns only after its job finished, stays blocked until then and is runnable at the next pass; refuted for a canceled caller (woken early, returns NECO_OK before the job is done) and, without any cancellation, for a caller whose earlier select timed out and was still picked by a broadcast.
  - `C38_after_done_partial`
  - `C38_result_ok`
  - `C38_returns_once`
  - `C38_continues_partial`
  - `C38_stays_blocked_partial`
  - `C38_after_done_refuted`
  - `C38_select_refuted`
* **C39** (proved). mmap path, every option setting whose largest group fits the address space (C39_options gives the bound; beyond it sizes wrap, refuted). Clients give back only stacks they hold.
  - `C39_inside_mapped`
  - `C39_disjoint`
  - `C39_no_ub`
  - `C39_system_calls`
  - `C39_options`
  - `C39_size_overflow_refuted`
* **C40** (proved). 
  - `C40_bytes`
  - `C40_any_turn`
  - `C40_prefix`
  - `C40_split`
  - `C40_seeds_never_merge`
  - `C40_setseed`
  - `C40_output`
  - `C40_byte_range`
* **C41** (proved). 
  - `C41_split`
  - `C41_no_colon`
  - `C41_in_bounds`
  - `C41_exact`
* **C42** (partial). NECO_EOF has no description (C42_described_refuted); some early returns do not set the last error (C42_lasterr_refuted). Everything else proved.
  - `C42_errno_round_trip`
  - `C42_errno_back`
  - `C42_errno_others`
  - `C42_described_partial`
  - `C42_names_distinct`
  - `C42_described_refuted`
  - `C42_lasterr_partial`
  - `C42_partial_write`
  - `C42_lasterr_refuted`
* **C43** (partial). Each occurrence is received at most once, for every execution. If no coroutine ended still watching: a signal nobody watches has its default effect, a watched one is recorded, and the lowest pending signal is taken by a coroutine waiting for it. Not provable in full: a pending higher signal is held back forever by a lower one that nobody waits for; an occurrence handed to a waiter whose deadline expires in the same pass is lost; a coroutine that ends still counts as a watcher (all three witnessed).
  - `C43_once`
  - `C43_delivered_partial`
  - `C43_recorded_partial`
  - `C43_default_partial`
  - `C43_default_later_partial`
  - `C43_held_back_refuted`
  - `C43_lost_refuted`
  - `C43_default_refuted`
* **C44** (proved). Every operation with a foreign channel, mutex, wait group or condition variable among its operands returns NECO_PERM at once and changes nothing; objects made by another runtime stay foreign through every later execution. The init functions are the exception: they do not check the owner and take the object over (witnessed).
  - `C44_perm`
  - `C44_made`
  - `C44_stays_foreign`
  - `C44_init_refuted`
* **C45** (partial). Default cancel type and state proved for every start; no handlers proved when pushes and pops are paired. Not canceled, no expired deadline, no watched signal proved when no ended coroutine left such a flag behind; the unguarded statement is false because a recycled record keeps its flags (four refutations).
  - `C45_defaults`
  - `C45_handlers`
  - `C45_canceled_partial`
  - `C45_deadline_partial`
  - `C45_watch_partial`
  - `C45_fresh_partial`
  - `C45_canceled_refuted`
  - `C45_deadline_refuted`
  - `C45_watch_refuted`
  - `C45_handlers_refuted`
* **C46** (proved). Every argument list and every prior content of a recycled coroutine record.
  - `C46_arguments`
  - `C46_arguments_total`
  - `C46_freed`
* **C47** (partial). Success means connected, failures are reported; but a connect that was interrupted and then completed is reported as failed (C47_connected_but_error_refuted).
  - `C47_ok_means_connected`
  - `C47_error_reported`
  - `C47_blocked`
  - `C47_connected_but_error_refuted`
* **C48** (proved). 
  - `C48_only_flag`
  - `C48_reports_old`
  - `C48_restore`
* **C49** (proved). 
  - `C49_accept`
* **C50** (partial). Order and descriptor accounting proved; a cancel or deadline does not end the dial when more addresses remain (C50_cancel_ignored_refuted).
  - `C50_dial`
  - `C50_cancel_ignored_refuted`
* **C51** (partial). For every interleaving in which the caller is not canceled while a job of its write is with a thread: same bytes and value as some run of the direct write loop, and quiet after the return; a job in a thread's hands always can come back. With such a cancel it is false: the thread uses the dead stack frame, and bytes reported as not written are written later (both witnessed).
  - `C51_as_if_direct_partial`
  - `C51_quiet_after_return_partial`
  - `C51_progress`
  - `C51_dangling_refuted`
  - `C51_written_later_refuted`
* **C52** (partial). Proved for every interleaving, failure and way the wait ends. Partial only because the no-leak part needs pipe(2) not to hand out descriptor 0, which the code takes for 'not open' (witnessed).
  - `C52_no_ub`
  - `C52_no_race`
  - `C52_result`
  - `C52_no_leak`
  - `C52_list_kept`
  - `C52_thread_ends`
  - `C52_error`
  - `C52_fd_zero_refuted`
* **C53** (partial). Descriptor and list accounting, success condition, looked-up and bound address proved for all answers. The unix part holds for paths shorter than 108 bytes; every longer path is served under another name while dial refuses it (proved for all such paths).
  - `C53_result`
  - `C53_success`
  - `C53_tcp_address`
  - `C53_refused`
  - `C53_unix_partial`
  - `C53_unix_refuted`
* **C54** (partial). Success proved for all interleavings if no other process sends the random secret; failure leaves the array untouched and restores the cancel state. Nothing stays open after a failure if the helper had ended; otherwise it writes into the dead frame and leaks its descriptor (witnessed), and a listener that is descriptor 0 is leaked (witnessed).
  - `C54_success`
  - `C54_failure`
  - `C54_no_leak_partial`
  - `C54_dangling_refuted`
  - `C54_fd_zero_refuted`
* **C55** (partial). Record and stack accounting proved for every history with allocation failures; the 100 ms rule for every history with a clock that does not go back. Event queue: proved if the kernel does not hand out descriptor 0 (false then, witnessed). Jobs: proved if no coroutine ends with a job in a thread; otherwise the job uses freed memory at the end of run (witnessed).
  - `C55_one_place`
  - `C55_all_freed`
  - `C55_idle_freed`
  - `C55_queue_partial`
  - `C55_queue_refuted`
  - `C55_jobs_partial`
  - `C55_jobs_refuted`
* **C56** (partial). Every event resumes exactly its waiters. A sleeper is registered unless somebody begins to wait for an event all of whose waiters have been resumed but have not run (partial: missing are those orders). In those the statement is false, for every continuation: C56_forgotten_refuted.
  - `C56_wakes_exactly`
  - `C56_no_ub`
  - `C56_never_forgotten_partial`
  - `C56_forgotten_refuted`
* **C57** (partial). Bounds proved for every schedule. Background work: for callers at whom no cancel is aimed and that have not used select (partial). The term for started coroutines is needed: C57_starts_refuted shows for every n that a coroutine which only starts coroutines keeps an expired sleeper from running for n turns.
  - `C57_loop_runs`
  - `C57_expired_soon`
  - `C57_resumed_soon`
  - `C57_work_soon_partial`
  - `C57_starts_refuted`
* **C58** (partial). Proved instruction by instruction for the x86-64 (System V, and the byte arrays used on Windows, with xmm6-xmm15 and the stack bounds in the thread information block), AArch64, 32-bit ARM (two variants), i386 and RISC-V (five variants) routines: registers, return, stack and memory for every sequence of switches. Missing for the full statement: the floating-point control words, which no routine saves (witnessed); and on 32-bit RISC-V with double-precision registers the routine uses unaligned accesses, which a machine may refuse (witnessed).
  - `C58_returns_partial`
  - `C58_switch_runs`
  - `C58_starts`
  - `C58_rounding_refuted`
  - `C58_arm_returns_partial`
  - `C58_arm_switch_runs`
  - `C58_arm_starts`
  - `C58_arm_rounding_refuted`
  - `C58_riscv_returns_partial`
  - `C58_riscv_switch_runs`
  - `C58_riscv_starts`
  - `C58_riscv_cells`
  - `C58_riscv_unaligned_refuted`
  - `C58_riscv_rounding_refuted`
  - `C58_arm32_returns_partial`
  - `C58_arm32_switch_runs`
  - `C58_arm32_starts`
  - `C58_arm32_cells`
  - `C58_arm32_rounding_refuted`
  - `C58_i386_returns_partial`
  - `C58_i386_switch_runs`
  - `C58_i386_starts`
  - `C58_i386_rounding_refuted`
  - `C58_win_returns_partial`
  - `C58_win_switch_runs`
  - `C58_win_starts`
  - `C58_win_rounding_refuted`
* **C59** (proved). For every sequence of llco calls that stays defined (no switch to an ended coroutine).
  - `C59_current`
  - `C59_starts`
  - `C59_cleaned_at_once`
  - `C59_cleaned_only_then`
  - `C59_final_is_final`
  - `C59_stack_unused_when_cleaned`
  - `C59_no_calls_in_cleanup`
