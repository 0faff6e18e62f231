# Formal model of couchbase/phosphor in Rocq

Source of truth: `/repo` (couchbase/phosphor, pinned). The C++ is read as text;
nothing is built or run.

* `rocq/theories/Base.v`: shared notation, results (`Ok`/`Throw`/`UB`), words.
* `rocq/theories/Model/`: the code, as total computable Gallina definitions.
  Each definition cites the C++ lines it models and states its simplifications.
* `rocq/theories/Spec/`: vocabulary of the properties, written without using
  the model's functions (JSON reader, glob relation, numeral reader, observable
  histories, views of the log computed from a history, memory places, ...).
* `rocq/theories/Proofs/`: invariants and lemmas.
* `rocq/theories/Props/`: the property theorems `Cnn_*`, each followed by
  `Print Assumptions`, with an `Example` that meets its hypotheses.

A claim that is false of the faithful model is proved as a theorem ending in
`_refuted` (existence of a witness) next to the strongest true variant. Those
theorems are findings about the code; see "Findings".

## 1. Pure parts

| properties | model | proof |
|---|---|---|
| C01-C08 strings | `Model/StringUtils.v`, `Model/Event.v`: byte strings are `list ascii`, loops are structural recursions over the cursor the C++ uses | induction on the strings against an independent JSON reader (`Spec/Json.v`) and an independent glob relation (`Spec/Glob.v`) |
| C09-C15 events | `Model/Event.v`: the argument union is a 64-bit word plus a memory of C strings; printf conversions are written out | parse-back theorems with the JSON reader and an independent numeral reader; doubles are decoded exactly from their bits |
| C16-C17, C21-C24 chunks, buffers, iteration | `Model/Buffer.v`: counters are 16/64 bit with explicit wrap-around | invariants over all call sequences |
| C18-C20 fixed and ring buffers | same, with `Model/Queue.v` | invariants and refinement to a queue of free chunks |
| C29-C32 registry | `Model/Registry.v` | invariant over all call sequences, independent enablement rule (`Spec/Categories.v`) |
| C34-C39, C67 configuration | `Model/Config.v` with `std::stoi`, `getline` | independent description of accepted strings, round trip |
| C40-C45 export | `Model/Export.v`: the state machine of `JSONExport::read`, the file loop | refinement: state = remaining text; every read takes a prefix |
| C84 saving to a failing file | `Model/FileSave.v`: what fopen, each fwrite and fclose do is an input | induction on the blocks of the document |
| C85 memory of buffers | `Model/DynArray.v`: dyn_array and the buffers' constructors and destructors write a ledger; which allocations and constructors fail is an input | invariant: the ledger amounts to the buffers alive |
| C94 names of saved files | `Model/FileName.v`: the calendar of `gmtime` day by day, the fixed buffer of `strftime`, the path substitutions and a file system that replaces files of the same name | induction on days against a count of days and seconds (`Spec/Calendar.v`); order of fixed-width numerals; induction on the saves |
| C98 formatted text | `Model/Format.v`: `vsnprintf` with the directives used, the two passes of `format_string` with `int` lengths and a buffer, every call in the library | induction on the format against a relational meaning of directives (`Spec/Format.v`); case analysis on lengths |
| C95 contexts as objects | `Model/Context.v`: contexts at addresses own buffers on a heap (unique_ptr, move, assignment, destructor); exports keep a reference to a context and two iterators; what a moved-from map holds is an input | ownership invariant over all operations; frame lemma for exports; numbered maps |
| C103 thread ids | `Model/ThreadIds.v`: an operating system in which threads start, end and fork, with a thread_local variable that a fork copies; which ids it gives is an input | invariant: the variable holds what the history says, each answer checked against the history before it |
| C104 when a full buffer ends its trace | `Model/TraceLog.v`; `Spec/LogEnd.v`: what excuses a logging call that leaves the trace running | phases of the code (`valid`) with what each call has met, as for C70, and the generation it read; for a call alone: what the rest of its code can do |
| C64-C65 guards | `Model/Guards.v`: a guarded scope is a list of effects | case analysis over arbitrary clock readings |

## 2. Concurrent parts

`Model/Interleave.v`: a transition function `step : state -> action -> option
state`; a schedule is an arbitrary list of actions; `run` ignores actions that
are not possible. Threads are natural numbers, so there is no bound on their
number. Every theorem is about all schedules, i.e. all reachable states.

| properties | model | proof |
|---|---|---|
| C25-C27 MPMC queue | `Model/QueueConc.v`: one step per access to a shared location; positions are 64-bit words with wrap-around | inductive invariant relating cells to unbounded tickets; linearisation by ticket; `Spec/QueueHistory.v` |
| C87, C88 ring buffer used directly by threads | `Model/RingConc.v`: the counters of the buffer and every access of the queue of `QueueConc.v` inside it are steps; chunk_count sees two states | invariant on top of that of the queue: every chunk is lent, queued or in one thread's hand; calls matched with their places in the order (`Spec/RingHistory.v`); `RingWait.v`: what a failed attempt proves about other threads, and that a thread alone finishes |
| C92-C93 ring buffer on weakly ordered memory | `Model/RingWeak.v`: the ring of `RingConc.v` on `WeakMem.v`, with the queue of `WeakQueue.v`; a chunk's contents are one plain variable, accessed by getChunk and by the user | invariant on top of that of `WeakQueue.v`: whoever has a chunk, and the store that hands it on, cover every access to it |
| C89 fixed buffer used directly by threads | `Model/FixedConc.v`: one step per access to a counter | invariant: every chunk below the counter is handed out or in one thread's hand; what was seen full stays full |
| C100 fixed buffer on weakly ordered memory | `Model/FixedWeak.v`: the same accesses on `WeakMem.v`; a chunk's contents are one plain variable; threads hear of each other by means outside the buffer (`Spec/FixedWeak.v`) | simulation into `FixedConc.v`; invariant: whoever has a chunk covers every access to it, whoever knows that it was given back every write |
| C101 no call is stuck | the models of C73-C80, C92-C93 and C100 on `WeakMem.v` as they are | `Proofs/WeakProgress.v`: what a thread has heard of is never ahead of the stores made, so each access has a possible outcome; who holds which lock comes from the invariants of `Proofs/WeakRegistry.v` and `Proofs/WeakLog.v` |
| C102 a user's buffer | `Model/UserBuffer.v`: the accesses of logEvent, maybe_stop, start, stop, evictThreads, the takes, getStats and (de)registration; calls of the factory, getChunk, returnChunk and getStats begin and end in separate steps and may answer anything or throw; the history of what the buffers saw (`Spec/BufferUse.v`) | invariants: who holds which lock; a chunk pointer or a use of the buffer implies that logging is on or the stop has not come to the thread; the last loan of a thread against its pointer; each event checked against the history before it |
| C105 a user's stats callback | `Model/StatsCall.v`: the accesses of the four getStats functions, with the callback running between two steps and returning, throwing or calling the log; the handler of each call of it releases the locks that are held; `Spec/StatsUse.v`: the report, and what the history says the callback was told | the rest of a call, as a tree, completes the report from whatever it will read (`valid`); which calls a thread is in against the owners of the mutexes |
| C106 relaxed counters | `Model/Counter.v`: every operator of RelaxedAtomic<uint64_t> as one access (copy assignment: two) on the memory of `WeakMem.v`, with other synchronisation and plain variables of the user's; `Spec/Counter.v`: how much was counted, in Z, and which earlier events a thread knows of | the invariants number the stores of a counter by the events they follow; used in turn, the newest store is what the next user meets; in general, by the times of the stores |
| C90-C91 statistics of a buffer in use | `Model/StatsConc.v`: the reads of getStats fall into successive states of a run of `RingConc.v`/`FixedConc.v` | monotone counters; an invariant counting the threads inside getChunk; runs computed for a ring of any size |
| C28 chunk lock | `Model/ChunkLock.v`: one step per compare-exchange, spurious failures included, with and without NDEBUG | inductive invariant; `Spec/LockHistory.v` |
| C33, C68 registry lookups | `Model/RegistryConc.v`: the double-checked scan, each load and comparison a step; assigning a `std::string` takes two steps with no string in between | inductive invariant |
| C46-C63, C69, C70, C81-C83, C86 trace log | `Model/TraceLog.v`, see below | see below |
| C96 the log with lock-free queues | `Model/LogQueue.v`: `TraceLog.v` with a queue of `QueueConc.v` per ring buffer; every access of enqueue and dequeue is a step of the log | forward simulation into `TraceLog.v`: a thread past its compare-exchange is one action ahead there; safety of the state ahead (C46) shows that the buffer is still there |
| C97 the log with the registry's steps | `Model/LogRegistry.v`: `LogQueue.v` with the registry of `RegistryConc.v`; every access of getStatus, updateEnabled and disableAll is a step of the log | forward simulation into `LogQueue.v`: a lookup happens when its answer is settled, a switch on when the lists are replaced, a switch off at its end; statuses that lag behind are off, while tracing is off and the log is locked |
| C99 overlapping time stamps | `Model/FileTime.v`: the static object of `gmtime`, stored member by member in any order, read member by member by `strftime`, by any number of threads | invariants over schedules; dates by `Spec/Calendar.v` |

### The trace log

Code is data: `cmd := Ret | Act a k`, a tree of actions, one action per access
to shared memory. `code_of t o` is the code of API call `o`, composed of the
functions of trace_log.cc in the same order as the C++ (`stop_lh`, `start_lh`,
`logEvent`, `replaceChunk`, `maybe_stop`, `evict`, `getChunk`, ...). `exec`
gives the effect of one action: a new state and an answer, "blocked", or
"crashed" (undefined behaviour: use of a buffer that is not the log's, index
out of range, lock misuse, relocking a mutex that the thread holds).
`step` offers: call an API function, perform the next action of a thread, make
a call from inside a stop callback or a section under the lock (`HookDo`), end
that callback, normally or with an exception (`HookEnd`). Every effect that a
user can observe is appended to a history (`Spec/LogHistory.v`).

Proof structure (each layer is an invariant over all reachable states):

* `LogFrame.v` -- the method: `valid ok post quiet t c p` says that code `c` run
  in phase `p` only performs actions allowed in the phase it is then in. A
  global invariant speaks about the state and the phases of all threads.
* `LogView.v`, `LogViewInv.v`, `LogContract.v`, `LogGate.v` -- the history is
  `legal`: every event is what a sequential specification (`Spec/LogHistory.v`,
  `Spec/LogFacts.v`), folded over the history before it, allows (C51, C52,
  C55-C63).
* `LogBuffers.v`, `LogSafe*.v` -- memory safety: who holds the mutex, which
  tenants are held, which thread may write which chunk (`LK`, `AT`, `OW`, `RN`).
  Gives C46 and the basis of the rest.
* `LogRaces.v`, `LogHolders.v` -- plain memory places of each action
  (`Spec/LogMemory.v`), no two conflicting actions are enabled together and
  every access is ordered by a lock (C47), chunk ownership (C48).
* `LogHandover.v`, `LogRecords.v`, `LogGhost.v`, `LogDebts.v`, `LogFull.v`, `LogAlone.v`, `LogFailures.v`
  -- contents of retrieved buffers (C49, C50), at-most-once and order of stored
  events, reasons for dropping (C69, C70), why tracing ends (C51) and when it does not (C104).
* `LogCalls.v` -- the code left to a thread after its callback ended, or after a
  stop attempt of logEvent, makes the right event next (`mannered`, `soon`; C57);
  calls and returns match, isEnabled tells the truth (C81).
* `LogProgress.v`, `LogRing.v` -- who waits for whom, well-foundedness of
  calls, absence of deadlock (C53, C54). `RingStuck.v` builds, for any size of a ring,
  the execution that blocks for ever. Ghost bookkeeping is
  computed from the actions performed (`ghost`), never assumed.

`Model/ManyLogs.v` puts several logs side by side: each has its own state, the
tenant of a thread is shared by all of them (C66). `Proofs/ManyLogs.v` shows by
simulation that logs whose threads register with one log each behave as if alone
(C71), so that every theorem about one log is about each of several.

`Model/ThreadLife.v` lets threads begin and end and gives them ids that may be
used again; the tables of names and of deregistered threads are kept under those
ids beside the log of `TraceLog.v`, changed by the same actions. Who is running
is part of the state; the system never gives one id to two running threads. A
tenant that is accessed after its thread ended is recorded (C82). The tables are
shown to be a function of the history (`book`), and that function to mean
`Spec/ThreadLife.v` (C83).

`Model/Shortage.v` lets the allocations of the log's own bookkeeping fail: a
schedule may say that a thread whose next action allocates fails in it. What the
failed action leaves is given per place; the exception leaves the innermost call
(a stack of calls is kept beside the log) and std::lock_guard unlocks. Steps
without a failure are those of `TraceLog.v`. The invariant of memory safety is
shown to survive (C86), with two exceptions, which are findings. What half
assigned lists hold is arbitrary.

`Props/EndToEnd.v` (C72) composes the log with the export: the text written from
a retrieved context, parsed back, against the history of the log.

`Model/WeakMem.v` gives atomics and plain variables the meaning of the C++
memory model (each thread has a view; a load may see any store that is not older
than one its thread has heard of; a data race is recorded). `WeakLock.v` and
`WeakQueue.v` are the lock and the queue again on that memory, with the orders
written in the code. The invariants say which thread's view, or which message,
covers all accesses to the protected data (C73-C76). `WeakRegistry.v` is the
category registry with the status cache of the trace points. Its invariant gives
every stored status the number of switches placed before it (`ver`), and says
from which number on a view can see (`fresh`); the view of the mutex holder, or
the view left behind at unlocking, covers all writes (C77, C78). `WeakLog.v` is
the trace log itself on that memory: start, stop with the eviction of threads,
getBuffer, getStats, (de)registration, logEvent and what the taker of a buffer
does with it, access by access. Its invariant (`vinv`, `pinv` in
`Proofs/WeakLog.v`) says of each buffer whose it is (`bst`), which threads have not
been evicted by the stop going on (`zlive`), and which view covers the accesses to
each variable: a thread that reads `enabled` as on under its tenant's lock has
heard of the start (`pub`), and the stopping thread has heard of everything the
evicted threads did (`covered`). C79 and C80 follow.

**Polite callbacks.** `pstep` is `step` without two things: restarting the log
from the stop callback that `start()` or the destructor runs, and logging with
the lock held while tracing is on. Both are undefined behaviour in the code as
it stands (`C46_restart_in_callback_refuted`, `C46_log_inside_lock_refuted`).
All other theorems about the log are about `pstep`.

## 3. Trusted base

* Coq 8.16.1's kernel, including its virtual machine (`vm_compute` is used in
  the examples and in a few witnesses).
* The reading of the C++ by which the model was written: the citations beside
  each definition are to be compared with `/repo` by eye.
* Sequentially consistent memory for the concurrent models other than
  `Weak*.v`. C26, C33 and C47 rule out data races on the plain memory in the
  interleaving semantics.
* The memory of `Model/WeakMem.v` as the meaning of C++ atomics in `Weak*.v`
  (C73-C80): views, as in the promise-free part of the promising semantics, i.e.
  RC11 without `seq_cst`. A `seq_cst` access is taken as acquire/release and a
  release sequence as made of read-modify-writes only; both allow more
  behaviour. Load buffering (a load seeing a store that comes after it in
  program order of another thread and depends on it in turn) is excluded, as in
  RC11. The litmus examples at the top of `Props/Weak.v` show what is allowed.
* Atomicity of the parts used through their contracts in `Model/TraceLog.v`: a
  tenant's lock (C28), the category registry (C33, C68) and the queue of a ring
  (C25-C27) are single actions there. For the queue this is proved harmless: C96
  is a refinement theorem between the log with the queue's accesses as steps and
  `Model/TraceLog.v`. For the registry C97 is, with the one difference that a
  trace point may find a status off while it is being changed; `Model/TraceLog.v`
  allows for that (`status_seen`). The operations on a tenant's lock that the log
  uses are one compare-exchange (repeated until it is decided) or store (chunk_lock.cc:29-80), so a
  single action is what they are.
* Target: x86-64 Linux, libstdc++ (sizes, signed char, endianness, pointer
  printing, `"%p"`, 64-bit `size_t`).
* `std::mutex`, `std::set`, `std::unordered_map`, `std::string`, `std::regex`-free
  string functions behave as their standards say; `vsnprintf` is `Model/Format.v`,
  checked against `Spec/Format.v`, which follows C11 7.21.6.1.

### Print Assumptions

Every theorem in `Props/` reports "Closed under the global context": no axiom,
neither ours nor of the standard library, is used. The standard library files
loaded by `lia`/`ssreflect` contain module-type parameters
(`Coq.ssr.ssrunder.Under_rel.*`) that a global scan may list; no theorem here
depends on them.

## 4. What is modelled and what is not

| file | modelled | not modelled |
|---|---|---|
| src/utils/string_utils.cc | all functions; `format_string` with its two passes, its buffer and the directives used (`Format.v`) | directives the library does not use |
| include/phosphor/inline_zstring.h | all | |
| include/phosphor/trace_argument.h | all types, conversion, `to_string` | constructor overload resolution: the type of the argument is an input |
| include/phosphor/trace_event.h, src/trace_event.cc | constructors, `to_string`, `to_json`, type mapping, getters | stream operator (calls `to_string`) |
| include/phosphor/tracepoint_info.h | all (data) | |
| include/phosphor/trace_buffer.h, src/trace_buffer.cc | chunks, both buffers, iterators, statistics, factories; both shared by threads access by access (`RingConc.v`, `FixedConc.v`, `StatsConc.v`); both with their memory orders (`RingWeak.v`, `FixedWeak.v`) | `TraceBuffer` user subclasses other than in `UserBuffer.v` (elsewhere a user factory returns one of the two classes, null or throws) |
| thirdparty/dvyukov mpmc_bounded_queue.h | all, sequentially (`Queue.v`) and concurrently (`QueueConc.v`), with its memory orders (`WeakQueue.v`) | cache-line padding |
| include/phosphor/chunk_lock.h, src/chunk_lock.cc | all three operations on both sides, both build modes, `ChunkTenant`; with its memory orders (`WeakLock.v`) | copying a lock |
| include/phosphor/category_registry.h, src/category_registry.cc | all, sequentially (`Registry.v`) and concurrently (`RegistryConc.v`), with its memory orders (`WeakRegistry.v`) | |
| include/phosphor/trace_config.h, src/trace_config.cc | all | the environment variable is an input of C67 |
| include/phosphor/trace_log.h, src/trace_log.cc | all public calls incl. constructor, destructor, the variants under a held lock; with its memory orders (`WeakLog.v`, no categories, names or exceptions there) | wrap-around of `generation` and of a buffer's counter after 2^64 operations; `getStats` of the log reads everything at one moment (piece by piece, with its callback, in `StatsCall.v`) |
| include/gsl_p/dyn_array.h | allocation, the sizing constructor, destructor (`DynArray.v`); indexing as a function (`Buffer.v`) | the other constructors, `at`, iterators (not used) |
| include/phosphor/trace_context.h, src/trace_context.cc | contents; construction, moves, destruction (`Context.v`) | `addThreadName` (protected, not used) |
| include/phosphor/tools/export.h, src/tools/export.cc | `JSONExport`, file callback with its I/O errors, file names with their time stamps (`Model/FileName.v`; `gmtime` and `strftime` by their definitions, from 1970 on), the static object `gmtime` shares between threads (`Model/FileTime.v`) | |
| include/phosphor/scoped_event_guard.h, phosphor.h, phosphor-internal.h | guards, category cache and gate (with memory orders in `WeakRegistry.v`), which arguments and types each macro passes | preprocessor expansion itself |
| include/phosphor/platform, src/platform/thread.cc | the cached thread id and the process id with threads starting, ending and forking (`ThreadIds.v`); elsewhere process and thread ids are inputs | exec; systems other than Linux |
| include/phosphor/stats_callback.h | calls of the callback, as user code (`StatsCall.v`) | the overloads for `ssize_t` and `double`, which are not used; calls of the callback into the log other than getStats and the first use of a category |
| include/phosphor/relaxed_atomic.h | `RelaxedAtomic` of 64-bit unsigned numbers (`Counter.v`; also in `FixedWeak.v`, `RingWeak.v`) | other element types, `RelaxedAtomicCString` (not used), uninitialised counters (25) |
| src/utils/memory.* | `make_unique` in `DynArray.v`, the closing of files in `FileSave.v`; elsewhere as plain values | |

## 5. Findings (refuted claims)

The following claims one could expect are false of the code; each has a witness
theorem: C02 (control bytes are not escaped), C06 (globs are greedy, not
standard), C12 (string arguments are not escaped), C13 (negative durations),
C18 (a fixed buffer wraps after 2^64 requests), C22 (`upper_power_of_two`
outside its domain), C32 (the overflow entry), C34/C35/C37/C39 (configuration
strings), C41-C43 (thread names and ids in JSON, early end of the document),
C46 (restart from a callback, logging under the lock), C54 (deadlock with fewer
chunks than threads), C55 (generations skip), C57 (whose callback runs), C63 (a category
switched off later), C65 (threshold), C66 (several logs share tenants), C76 (a dequeue may report a stale empty
queue), C78 (a trace point may miss a switch that returned in another thread), C82 (a
thread that ends while registered), C83 (an unnamed thread gets the name of an
ended one), C84 (a normal return with an incomplete
file), C86 (running out of memory in registerThread or in stop leads to the use of a
destroyed buffer), C87 (returnChunk spins on an empty queue while a getChunk is
unfinished), C88 (chunk_count exceeds the size of a ring), C90 (more chunks said to be loaned than
there are, and more ever loaned than were), C91 (a count equal to the size of a buffer said
not to be full, more chunks loaned now than ever), C94 (two saves within one
second), C95 (an export does not survive moving its context), C98 (formatting a text of
2^31 - 1 bytes; a string that grows by one byte while it is formatted is cut off), C99 (the stamp of a
save that overlaps another use of `gmtime` may be no date at all), C100 (chunk_count does not make
a returned chunk safe to read), C102 (a buffer is called by several threads at once, without
the lock its header speaks of; a returnChunk that throws is called again with the same chunk), C103 (after a fork
two threads of one process may have the same id), C104 (a trace whose buffer is full may stay on),
C106 (assignments to a shared counter lose counts; seeing a counter changed makes nothing else safe to read).

## 6. Testing the theorems against wrong programs

`seeded/LOG.jsonl` records, one per line, edits of the model that a realistic
bug would make, the claim each breaks, and the theorems that stopped proving.
Theorems that survived an edit that falsified their claim were tightened.
