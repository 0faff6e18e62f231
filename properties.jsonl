{"id": "C01", "title": "JSON string encoding loses nothing", "statement": "For every byte string s, reading to_json(s) back with the JSON string-escape rules gives exactly s and consumes exactly the literal, whatever text follows it.", "quantifier": "all byte strings, all following text", "why_tests_cant": "infinitely many strings; tests try a handful of escapes", "anchors": ["src/utils/string_utils.cc:escape_json", "src/utils/string_utils.cc:to_json"]}
{"id": "C02", "title": "JSON string encoding is valid JSON exactly for strings without unescapable control bytes", "statement": "to_json(s) is a legal JSON string literal if and only if s contains no control byte below 0x20 other than backspace, form feed, newline, carriage return and tab. (The unconditional claim is false: byte 0x01 is emitted raw.)", "quantifier": "all byte strings", "why_tests_cant": "needs an exact characterisation over all strings", "anchors": ["src/utils/string_utils.cc:escape_json"]}
{"id": "C03", "title": "Splitting and joining are inverse up to one trailing delimiter", "statement": "For every string s and delimiter d, joining the pieces of split_string(s,d) with d gives s back, minus one trailing d if s ended in d; the pieces contain no d. For every non-empty list l of d-free strings, split_string(join_string(l,d),d) is l unless the last element of l is empty and l has more than one element.", "quantifier": "all strings, lists and delimiters", "why_tests_cant": "unbounded strings; the trailing-delimiter rule is not visible from a few examples", "anchors": ["src/utils/string_utils.cc:split_string", "src/utils/string_utils.cc:join_string"]}
{"id": "C04", "title": "Wildcard-free globs match by position", "statement": "A glob without '*' and '+' matches a string if and only if they have the same length and every glob character is '?' or equals the string's character there; so a pattern with no wildcard matches only itself.", "quantifier": "all globs without '*' and '+', all strings", "why_tests_cant": "all pairs of strings", "anchors": ["src/utils/string_utils.cc:glob_match"]}
{"id": "C05", "title": "Prefix globs match exactly the strings with that prefix", "statement": "A glob made of a '*'/'+'-free prefix p followed by a final '*' matches exactly the strings whose beginning matches p; with a final '+', exactly those with at least one further character. '*' alone matches every string.", "quantifier": "all prefixes, all strings", "why_tests_cant": "all pairs of strings", "anchors": ["src/utils/string_utils.cc:glob_match"]}
{"id": "C06", "title": "Globs with text after a star: exact behaviour", "statement": "After the first '*' or '+', the rest of the glob is matched as an in-order search for literal characters with arbitrary gaps and an arbitrary tail, '?' '*' '+' included as literals; this is not the usual glob semantics ('*.json' accepts 'a.jsonx', '**' rejects 'a').", "quantifier": "all globs and strings", "why_tests_cant": "needs an exact characterisation against an independent definition of globbing", "anchors": ["src/utils/string_utils.cc:glob_match", "src/utils/string_utils.h:glob_match"]}
{"id": "C07", "title": "string_replace replaces exactly the first occurrence", "statement": "string_replace(str,from,to) leaves str unchanged when from is empty or does not occur, and otherwise replaces the leftmost occurrence only.", "quantifier": "all strings", "why_tests_cant": "all triples of strings", "anchors": ["src/utils/string_utils.cc:string_replace"]}
{"id": "C08", "title": "Inline strings keep the first eight bytes", "statement": "An inline_zstring<8> built from a pointer and a length reads back as the first min(len,8) bytes up to the first NUL, never reading past the eighth byte. strnlen_s counts the bytes before the first NUL, at most maxsize; it reads beyond the memory given exactly if that is shorter than maxsize and has no NUL, and answers 0 for NULL.", "quantifier": "all byte strings and lengths", "why_tests_cant": "all byte strings", "anchors": ["include/phosphor/inline_zstring.h:inline_zstring", "src/utils/string_utils.cc:strnlen_s"]}
{"id": "C09", "title": "Argument values survive rendering", "statement": "An integer, boolean or pointer argument of any supported type renders to text that denotes exactly the original value (signed and unsigned 64-bit decimals, hexadecimal pointers, true/false).", "quantifier": "all values of every argument type", "why_tests_cant": "2^64 values per type", "anchors": ["include/phosphor/trace_argument.h:TraceArgument::to_string", "include/phosphor/trace_argument.h:ARGUMENT_CONVERSION"]}
{"id": "C10", "title": "Floating point arguments render to the nearest millionth", "statement": "A finite double argument renders as a valid JSON number within half a millionth of its value; NaN and infinities render as text that is not JSON.", "quantifier": "all 2^64 double bit patterns", "why_tests_cant": "2^64 bit patterns", "anchors": ["include/phosphor/trace_argument.h:TraceArgument::to_string"]}
{"id": "C11", "title": "Event JSON is faithful", "statement": "For every event whose strings are printable and whose numeric arguments are finite, to_json(thread id) parses as a JSON object with exactly name, cat, ph, the type's extra fields, ts, pid, tid and args, carrying the event's values; arguments stop at the first untyped slot.", "quantifier": "all events, thread ids and process ids satisfying the stated cleanliness condition", "why_tests_cant": "all combinations of strings, times and arguments", "anchors": ["src/trace_event.cc:TraceEvent::to_json", "src/trace_event.cc:TraceEvent::typeToJSON"]}
{"id": "C12", "title": "String arguments are not escaped", "statement": "There are events with ordinary string arguments (a double quote, a backslash) whose to_json is not valid JSON or means a different value; cleanliness of string arguments is necessary.", "quantifier": "existence of a witness event, and exactness of the condition for one string argument", "why_tests_cant": "tests only use harmless strings", "anchors": ["include/phosphor/trace_argument.h:TraceArgument::to_string", "src/trace_event.cc:TraceEvent::to_json"]}
{"id": "C13", "title": "Timestamps are exact", "statement": "The ts (and dur) field denotes time/1000 (duration/1000) microseconds exactly, with three decimals, for every value below 2^63 nanoseconds; above that (for instance a negative duration) the text is a JSON number only if the value is a multiple of 1000.", "quantifier": "all 64-bit times and durations", "why_tests_cant": "2^64 values", "anchors": ["src/trace_event.cc:TraceEvent::to_json", "src/trace_event.cc:TraceEvent::typeToJSON"]}
{"id": "C14", "title": "Human-readable event times decompose exactly", "statement": "The days, hours, minutes, seconds and nanoseconds printed by to_string recombine to the event's time, each field in its normal range.", "quantifier": "all times below 2^63 ns", "why_tests_cant": "2^63 values", "anchors": ["src/trace_event.cc:TraceEvent::to_string"]}
{"id": "C15", "title": "Event type mapping is unambiguous", "statement": "The ph letter plus the extra field names of an event's JSON determine its type; every legal type renders and only illegal ones raise.", "quantifier": "all event types and events", "why_tests_cant": "pairs of events of any content", "anchors": ["src/trace_event.cc:TraceEvent::typeToJSON", "src/trace_event.cc:TraceEvent::typeToString"]}
{"id": "C16", "title": "A chunk stores events in order up to its capacity", "statement": "After reset and any number k of addEvent calls, a chunk reports count min(k,capacity), its iteration yields the stored events in order, it reports full exactly at capacity and every further addEvent is refused without changing it.", "quantifier": "all sequences of events", "why_tests_cant": "all sequences of operations", "anchors": ["src/trace_buffer.cc:TraceChunk::addEvent", "src/trace_buffer.cc:TraceChunk::isFull", "src/trace_buffer.cc:TraceChunk::reset"]}
{"id": "C17", "title": "Chunk capacity matches the page size and the counter width", "statement": "A chunk never exceeds its page budget, holds 100 events at the default page count, and can fill up for every page count up to 640; at 641 pages and more the 16-bit counter can never reach the capacity.", "quantifier": "all page counts", "why_tests_cant": "compile-time parameter, tests compile only one value", "anchors": ["include/phosphor/trace_buffer.h:TraceChunk::chunk_size", "src/trace_buffer.cc:TraceChunk::isFull"]}
{"id": "C18", "title": "A fixed buffer hands out each chunk exactly once", "statement": "Over any sequence of fewer than 2^64 getChunk/returnChunk calls a fixed buffer of n chunks returns chunks 0,1,..,n-1 once each, in order, then null for ever; it reports full exactly when n chunks have been asked for, and chunk_count is min(calls,n).", "quantifier": "all call sequences, all sizes", "why_tests_cant": "unbounded call sequences", "anchors": ["src/trace_buffer.cc:FixedTraceBuffer::getChunk", "src/trace_buffer.cc:FixedTraceBuffer::isFull", "src/trace_buffer.cc:FixedTraceBuffer::chunk_count"]}
{"id": "C19", "title": "A ring buffer never lends a chunk twice", "statement": "Over any sequence of getChunk and (well-behaved) returnChunk calls, a ring buffer never returns a chunk that is still on loan, reuses returned chunks in the order they were returned, never drops a chunk, and never blocks in returnChunk.", "quantifier": "all call sequences, all sizes", "why_tests_cant": "unbounded call sequences", "anchors": ["src/trace_buffer.cc:RingTraceBuffer::getChunk", "src/trace_buffer.cc:RingTraceBuffer::returnChunk"]}
{"id": "C20", "title": "A ring buffer keeps the newest events", "statement": "A single thread logging k events into a ring buffer of n chunks leaves exactly its last events: everything since the oldest surviving chunk boundary, at least min(k,(n-1)*capacity+1) of them, with nothing older retained out of order.", "quantifier": "all event counts and buffer sizes", "why_tests_cant": "unbounded event counts", "anchors": ["src/trace_buffer.cc:RingTraceBuffer::getChunk", "src/trace_log.cc:TraceLog::replaceChunk"]}
{"id": "C21", "title": "Iterating a buffer yields exactly its events", "statement": "Iterating a buffer from begin() to end() visits the events of its chunks in chunk order and in-chunk order, each once, skipping empty chunks anywhere, and terminates.", "quantifier": "all buffers (any number of chunks of any fill, including empty)", "why_tests_cant": "all shapes of buffer", "anchors": ["include/gsl_p/iterator.h:multidimensional_iterator", "src/trace_buffer.cc:TraceBuffer::chunk_iterator"]}
{"id": "C22", "title": "Ring queue capacity rounding", "statement": "For every buffer of 1 to 2^32 chunks the return queue capacity is a power of two, at least 2, at least the number of chunks and less than twice it (or 2); outside that range the rounding is wrong (0 gives 0, 2^32+1 gives a non power of two).", "quantifier": "all chunk counts", "why_tests_cant": "2^32 values", "anchors": ["src/trace_buffer.cc:RingTraceBuffer::upper_power_of_two"]}
{"id": "C23", "title": "The configured memory budget is respected", "statement": "The chunk array allocated for a configured size in bytes never exceeds that size and wastes less than one chunk; with the ring mode's queue cells added it stays within 110% of the configured size.", "quantifier": "all configured sizes that start() accepts below 2^32 chunks", "why_tests_cant": "all sizes", "anchors": ["src/trace_log.cc:TraceLog::start", "src/trace_buffer.cc:RingTraceBuffer", "docs/design/Requirements.md:M.8"]}
{"id": "C24", "title": "Buffer statistics agree with history", "statement": "buffer_chunk_count, buffer_total_loaned, buffer_loaned_chunks, buffer_is_full, buffer_size and buffer_generation reported by a buffer equal the counts computed from the history of calls.", "quantifier": "all call histories", "why_tests_cant": "unbounded histories", "anchors": ["src/trace_buffer.cc:FixedTraceBuffer::getStats", "src/trace_buffer.cc:RingTraceBuffer::getStats"]}
{"id": "C25", "title": "The lock-free queue neither loses, duplicates nor reorders", "statement": "Under every interleaving of any number of enqueuing and dequeuing threads, the value returned by the dequeue holding ticket i is the value stored by the enqueue holding ticket i; tickets are handed out once, in order.", "quantifier": "all thread counts, programs and interleavings of atomic steps", "why_tests_cant": "exponentially many interleavings", "anchors": ["thirdparty/dvyukov/include/dvyukov/mpmc_bounded_queue.h:enqueue", "thirdparty/dvyukov/include/dvyukov/mpmc_bounded_queue.h:dequeue"]}
{"id": "C26", "title": "The lock-free queue is free of data races", "statement": "Under every interleaving no two threads are ever about to access the same cell's data with at least one write.", "quantifier": "all interleavings", "why_tests_cant": "races are schedule dependent", "anchors": ["thirdparty/dvyukov/include/dvyukov/mpmc_bounded_queue.h:enqueue", "thirdparty/dvyukov/include/dvyukov/mpmc_bounded_queue.h:dequeue"]}
{"id": "C27", "title": "Queue failures are justified", "statement": "dequeue reports empty only when the item at the head position has not been fully enqueued yet; enqueue reports full only when the item one lap behind has not been fully dequeued; at most capacity items are ever inside.", "quantifier": "all interleavings", "why_tests_cant": "schedule dependent", "anchors": ["thirdparty/dvyukov/include/dvyukov/mpmc_bounded_queue.h:enqueue", "thirdparty/dvyukov/include/dvyukov/mpmc_bounded_queue.h:dequeue"]}
{"id": "C28", "title": "Chunk lock mutual exclusion", "statement": "Under every interleaving of any number of threads using the slave and master sides of one ChunkLock, including spurious compare-exchange failures, at most one thread is inside, and try_lock on the slave side fails only if a master held the lock at some moment during the call; while a master is inside, its next attempt ends the call. A lock nobody holds is taken by the next attempt that does not fail spuriously.", "quantifier": "all thread counts and interleavings", "why_tests_cant": "schedule dependent", "anchors": ["src/chunk_lock.cc:ChunkLock", "src/chunk_lock.cc:tryLockSlave"]}
{"id": "C29", "title": "Category enablement rule", "statement": "A category group is enabled if and only if one of its comma-separated categories matches an enabled glob and matches no disabled glob.", "quantifier": "all groups and glob lists", "why_tests_cant": "all strings and lists", "anchors": ["src/category_registry.cc:CategoryRegistry::calculateEnabled"]}
{"id": "C30", "title": "Category status references are stable and never shared by mistake", "statement": "For any sequence of getStatus/updateEnabled/disableAll calls, asking twice for a group gives the same slot; two different groups share a slot only when the registry was already full (250 entries) at their first use; the number of slots never exceeds 250.", "quantifier": "all call sequences", "why_tests_cant": "unbounded call sequences", "anchors": ["src/category_registry.cc:CategoryRegistry::getStatus"]}
{"id": "C31", "title": "Category status is always current", "statement": "After any sequence of calls, the status of every registered group equals the enablement rule applied to the most recent enabled/disabled lists, for groups registered before and after the update; after disableAll everything, including groups registered later, is disabled.", "quantifier": "all call sequences", "why_tests_cant": "unbounded call sequences", "anchors": ["src/category_registry.cc:CategoryRegistry::updateEnabled", "src/category_registry.cc:CategoryRegistry::disableAll"]}
{"id": "C32", "title": "Groups past the registry limit follow the overflow entry", "statement": "Once 250 slots are used, every new group gets the status of the name 'category limit reached', so an explicitly disabled group can be reported enabled.", "quantifier": "all histories that fill the registry", "why_tests_cant": "needs 247 distinct groups and a particular configuration", "anchors": ["src/category_registry.cc:CategoryRegistry::getStatus"]}
{"id": "C33", "title": "Concurrent category lookups are safe", "statement": "Under every interleaving of lock-free lookups with insertions, no thread reads a slot while it is being written, no group is inserted twice, and every call returns the slot holding its group (or the overflow slot when full).", "quantifier": "all thread counts and interleavings", "why_tests_cant": "schedule dependent", "anchors": ["src/category_registry.cc:CategoryRegistry::getStatus"]}
{"id": "C34", "title": "Configuration strings: exact meaning", "statement": "fromString accepts exactly the ';'-separated lists of key:value pairs whose buffer-mode is fixed or ring and whose buffer-size is an integer in [0, 2^31-1]; the last occurrence of each key wins, unknown keys are ignored and unspecified fields keep their defaults.", "quantifier": "all strings", "why_tests_cant": "all strings", "anchors": ["src/trace_config.cc:TraceConfig::updateFromString", "src/trace_config.cc:TraceConfig::fromString"]}
{"id": "C35", "title": "Configuration round trip", "statement": "fromString(c.toString()) restores mode, size and category lists for every non-custom configuration with size at most 2^31-1 and non-empty well-formed category lists; it fails for the default configuration with an empty disabled list.", "quantifier": "all configurations", "why_tests_cant": "all configurations", "anchors": ["src/trace_config.cc:TraceConfig::toString", "src/trace_config.cc:TraceConfig::fromString"]}
{"id": "C36", "title": "Buffer size parsing", "statement": "buffer-size accepts exactly optional blanks, optional sign and at least one digit, ignores what follows the digits, and yields the value if it is in [0, 2^31-1] and an invalid_argument otherwise.", "quantifier": "all strings", "why_tests_cant": "all strings", "anchors": ["src/trace_config.cc:TraceConfig::updateFromString"]}
{"id": "C37", "title": "Configuration errors are not atomic", "statement": "When updateFromString fails, exactly the pairs before the offending one have been applied.", "quantifier": "all strings and starting configurations", "why_tests_cant": "all strings; tests only look at the exception", "anchors": ["src/trace_config.cc:TraceConfig::updateFromString"]}
{"id": "C38", "title": "Mode and factory always agree", "statement": "For every configuration obtainable from the constructors and setters, a built-in mode's factory creates a buffer reporting that mode, and custom is reported exactly for user factories. Every other setting is the one set last, and the constructor's until it is set; no setter changes another setting.", "quantifier": "all construction/update sequences", "why_tests_cant": "unbounded sequences", "anchors": ["src/trace_config.cc:BufferFactoryContainer", "src/trace_config.cc:modeToFactory"]}
{"id": "C39", "title": "Buffer mode names round trip", "statement": "parseBufferMode(to_string(m)) is m for every mode, and parseBufferMode accepts nothing else (in particular it is case sensitive although documented otherwise).", "quantifier": "all modes and strings", "why_tests_cant": "all strings", "anchors": ["src/trace_buffer.cc:parseBufferMode", "src/trace_buffer.cc:to_string"]}
{"id": "C40", "title": "Export does not depend on read sizes", "statement": "For every context and every sequence of read(n) calls, the concatenation of the results is a prefix of one fixed document; each read returns min(n, remaining) bytes.", "quantifier": "all contexts, all sequences of read sizes", "why_tests_cant": "all partitions of all documents", "anchors": ["src/tools/export.cc:JSONExport::read"]}
{"id": "C41", "title": "The exported document is one JSON object", "statement": "For every context with clean strings the whole export parses as {\"traceEvents\":[...]} whose array is the thread-name records followed by the events in buffer order with their thread ids.", "quantifier": "all contexts satisfying the cleanliness condition", "why_tests_cant": "all contexts", "anchors": ["src/tools/export.cc:JSONExport::read", "src/tools/export.cc:threadAssociationToString"]}
{"id": "C42", "title": "read() without argument returns the whole document", "statement": "JSONExport::read() returns the complete document except when its length is 1 modulo 4096, in which case the final brace is missing.", "quantifier": "all contexts", "why_tests_cant": "one length in 4096 is affected", "anchors": ["src/tools/export.cc:JSONExport::read"]}
{"id": "C43", "title": "done() means no more output", "statement": "After done() first returns true at most one further byte can be read, and that byte exists exactly when the last read ended one byte short; so a done()-driven loop can lose the last byte.", "quantifier": "all contexts and read sequences", "why_tests_cant": "one alignment in many", "anchors": ["src/tools/export.cc:JSONExport::done"]}
{"id": "C44", "title": "Saving to a file writes the whole document", "statement": "The file written by the stop callback is exactly the full export, whatever its length.", "quantifier": "all contexts", "why_tests_cant": "all lengths", "anchors": ["src/tools/export.cc:FileStopCallback::operator()"]}
{"id": "C45", "title": "Saved file names", "statement": "generateFilePath substitutes the first %p by the process id and the first %d by the time stamp and changes nothing else.", "quantifier": "all paths", "why_tests_cant": "all strings", "anchors": ["src/tools/export.cc:FileStopCallback::generateFilePath"]}
{"id": "C46", "title": "Tracing is memory safe under every schedule", "statement": "With any number of threads registering, logging, deregistering, starting, stopping, taking the buffer and running stop callbacks concurrently, no step ever uses a null, freed or handed-over buffer, writes outside a chunk or unlocks a lock it does not hold. This holds provided that code run under the log's lock (callbacks and locked sections) logs only while tracing is off, and that callbacks run from the stop inside start, or from the destructor, do not start tracing; without either condition it is false.", "quantifier": "all thread counts, API call sequences and interleavings", "why_tests_cant": "exponentially many schedules", "anchors": ["src/trace_log.cc:TraceLog::logEvent", "src/trace_log.cc:TraceLog::getChunkTenant", "src/trace_log.cc:TraceLog::stop", "src/trace_log.cc:TraceLog::start"]}
{"id": "C47", "title": "Tracing is free of data races under every schedule", "statement": "In no reachable state are two threads about to make conflicting non-atomic accesses to the buffer pointer, a tenant's chunk pointer, a chunk's contents or mutex-protected fields.", "quantifier": "all interleavings", "why_tests_cant": "schedule dependent", "anchors": ["src/trace_log.cc:TraceLog::replaceChunk", "src/trace_log.cc:TraceLog::evictThreads"]}
{"id": "C48", "title": "No two threads ever write the same chunk", "statement": "In every reachable state a chunk is held by at most one thread, and it is labelled with that thread's id.", "quantifier": "all interleavings", "why_tests_cant": "schedule dependent", "anchors": ["src/trace_log.cc:TraceLog::replaceChunk", "src/trace_buffer.cc:FixedTraceBuffer::getChunk", "src/trace_buffer.cc:RingTraceBuffer::getChunk"]}
{"id": "C49", "title": "A retrieved buffer never changes", "statement": "Once getBuffer/getTraceContext has returned a buffer (or a stop callback has received it), no later step by any thread changes its contents.", "quantifier": "all interleavings before and after retrieval", "why_tests_cant": "schedule dependent; needs all continuations", "anchors": ["src/trace_log.cc:TraceLog::getBuffer", "src/trace_log.cc:TraceLog::getTraceContext", "src/trace_log.cc:TraceLog::evictThreads"]}
{"id": "C50", "title": "Recorded events are exactly the logged ones, in per-thread order", "statement": "In a fixed buffer, the events attributed to a thread, read in iteration order, are exactly the events that thread's logEvent calls stored during that trace, in call order; nothing else appears.", "quantifier": "all interleavings", "why_tests_cant": "schedule dependent", "anchors": ["src/trace_log.cc:TraceLog::logEvent", "src/trace_buffer.cc:FixedTraceBuffer"]}
{"id": "C51", "title": "A full buffer only stops its own trace", "statement": "A logEvent call turns tracing off only while the current trace's buffer is full; it never stops a trace started after it ran out of space.", "quantifier": "all interleavings", "why_tests_cant": "needs a stop/start race", "anchors": ["src/trace_log.cc:TraceLog::maybe_stop", "src/trace_log.cc:TraceLog::getChunkTenant"]}
{"id": "C52", "title": "Only registered threads record, only while enabled", "statement": "A logEvent call by an unregistered thread, or one that runs entirely while tracing is disabled, stores nothing.", "quantifier": "all interleavings", "why_tests_cant": "schedule dependent", "anchors": ["src/trace_log.cc:TraceLog::getChunkTenant"]}
{"id": "C53", "title": "Logging never waits with a fixed buffer", "statement": "With fixed buffers a thread inside logEvent can always take its next step, except while it is itself shutting tracing down and waits for another thread's in-flight event, which can itself always proceed; so stop() always terminates once threads are scheduled.", "quantifier": "all reachable states", "why_tests_cant": "liveness over all schedules", "anchors": ["src/trace_log.cc:TraceLog::getChunkTenant", "src/trace_log.cc:TraceLog::evictThreads"]}
{"id": "C54", "title": "Logging into a ring buffer can block for ever", "statement": "However many chunks a ring buffer has, if more threads are registered than it has chunks there are executions in which a call of logEvent and a call of stop() never return, whatever any thread does afterwards. With at least as many chunks as registered threads a logging call waits for no chunk and every call returns.", "quantifier": "all ring sizes and all greater numbers of registered threads (existence of a schedule); all schedules and fair continuations when there are enough chunks", "why_tests_cant": "the deadlock needs more threads than chunks", "anchors": ["src/trace_buffer.cc:RingTraceBuffer::getChunk", "src/trace_log.cc:TraceLog::evictThreads"]}
{"id": "C55", "title": "Generations are unique and increasing", "statement": "Every started trace gets a buffer with a fresh generation number, one larger than the previous.", "quantifier": "all call histories and interleavings", "why_tests_cant": "unbounded histories", "anchors": ["src/trace_log.cc:TraceLog::start"]}
{"id": "C56", "title": "Buffer retrieval contract", "statement": "getBuffer/getTraceContext throw exactly when tracing is enabled, hand over the buffer exactly once per trace, and return null afterwards until the next start.", "quantifier": "all call histories", "why_tests_cant": "unbounded histories", "anchors": ["src/trace_log.cc:TraceLog::getBuffer", "src/trace_log.cc:TraceLog::getTraceContext"]}
{"id": "C57", "title": "Stop callback contract", "statement": "Every trace that is stopped by stop() or by filling up runs the callback of the configuration in force, exactly once; but a restart with start(B) while A is running runs B's callback instead of A's. An exception thrown by the callback leaves the call that ran it, unchanged; without one the call goes on.", "quantifier": "all call histories", "why_tests_cant": "unbounded histories; the restart case needs two different callbacks", "anchors": ["src/trace_log.cc:TraceLog::stop", "src/trace_log.cc:TraceLog::start"]}
{"id": "C58", "title": "A rejected start changes the stored configuration", "statement": "start() with a size below one chunk throws and leaves tracing, buffer and categories as they were, but has already replaced the configuration (and so the stop callback) of the running trace.", "quantifier": "all call histories", "why_tests_cant": "needs getTraceConfig or a callback after a failed start", "anchors": ["src/trace_log.cc:TraceLog::start"]}
{"id": "C59", "title": "Thread names in the context", "statement": "A thread registered with a name is named in the context of the trace for as long as it stays registered and, if it deregisters while tracing runs, until the next start; names of earlier threads disappear at the next start; but a thread that deregisters after tracing stopped is lost from the context.", "quantifier": "all call histories", "why_tests_cant": "unbounded histories", "anchors": ["src/trace_log.cc:TraceLog::registerThread", "src/trace_log.cc:TraceLog::deregisterThread", "src/trace_log.cc:TraceLog::clearDeregisteredThreads"]}
{"id": "C60", "title": "Registration contract", "statement": "registerThread throws exactly when the thread is registered, deregisterThread exactly when it is not; a failing call changes nothing.", "quantifier": "all call histories", "why_tests_cant": "unbounded histories", "anchors": ["src/trace_log.cc:TraceLog::registerThread", "src/trace_log.cc:TraceLog::deregisterThread"]}
{"id": "C61", "title": "Destruction runs the callback only on request", "statement": "Destroying a log that is tracing stops it and runs the callback only if stop-on-destruct was requested.", "quantifier": "all configurations and histories", "why_tests_cant": "all histories", "anchors": ["src/trace_log.cc:TraceLog::~TraceLog", "src/trace_log.cc:TraceLog::stop"]}
{"id": "C62", "title": "Log statistics agree with state", "statement": "log_is_enabled, log_has_buffer, log_thread_names, log_deregistered_threads, log_registered_tenants and registry_group_count report the true state.", "quantifier": "all call histories", "why_tests_cant": "unbounded histories", "anchors": ["src/trace_log.cc:TraceLog::getStats"]}
{"id": "C63", "title": "Instrumentation is gated by its category", "statement": "A trace macro records its event only if its category status was enabled when tested; with tracing stopped every category is disabled, so no macro records.", "quantifier": "all histories", "why_tests_cant": "all histories", "anchors": ["include/phosphor/phosphor-internal.h", "include/phosphor/phosphor.h"]}
{"id": "C64", "title": "Scoped events measure their scope", "statement": "A scoped event is logged at scope exit exactly when the category was enabled at scope entry, with the entry time and the exact elapsed time.", "quantifier": "all clock readings and category changes", "why_tests_cant": "all timings", "anchors": ["include/phosphor/scoped_event_guard.h:ScopedEventGuard"]}
{"id": "C65", "title": "Lock guards always lock, and log above the threshold", "statement": "A traced lock guard locks and unlocks its mutex exactly once whatever the tracing state, and logs the wait and held events, contiguous in time, exactly when enabled and one of them exceeds the threshold strictly.", "quantifier": "all clock readings, thresholds and category states", "why_tests_cant": "all timings", "anchors": ["include/phosphor/scoped_event_guard.h:MutexEventGuard"]}
{"id": "C66", "title": "Separate TraceLogs interfere through the thread registration", "statement": "A thread registered with one TraceLog can log into another; stopping that other log does not evict it, and its next event is written into a buffer that may already have been freed.", "quantifier": "existence of a history with two logs", "why_tests_cant": "tests use one log per thread", "anchors": ["src/trace_log.cc:thread_chunk", "src/trace_log.cc:TraceLog::getChunkTenant"]}
{"id": "C67", "title": "Startup trace from the environment", "statement": "fromEnvironment leaves the startup trace alone when PHOSPHOR_TRACING_START is unset or empty, sets it to exactly the configuration the text means when the text is well formed, and throws invalid_argument otherwise. getStartupTrace returns what the last call of setStartupTrace, clearStartupTrace or fromEnvironment that had an effect decided, and nothing if there was none.", "quantifier": "all values of the environment variable, all sequences of these calls", "why_tests_cant": "all strings", "anchors": ["src/trace_config.cc:TraceLogConfig::fromEnvironment", "src/trace_config.cc:TraceLogConfig::setStartupTrace", "src/trace_config.cc:TraceLogConfig::clearStartupTrace", "src/trace_config.cc:TraceLogConfig::getStartupTrace"]}
{"id": "C68", "title": "Category statuses stay current under concurrency", "statement": "Whenever no category lookup-insertion or category update is in progress, the status of every registered group is exactly what the most recently finished update (start or stop of tracing) asks for, whatever lookups, insertions and updates ran at the same time.", "quantifier": "all thread counts, interleavings, names and lists", "why_tests_cant": "schedule dependent", "anchors": ["src/category_registry.cc:CategoryRegistry::getStatus", "src/category_registry.cc:CategoryRegistry::updateEnabled", "src/category_registry.cc:CategoryRegistry::disableAll"]}
{"id": "C69", "title": "Events are stored at most once, in order, and only by the call that logs them", "statement": "Whenever a thread puts an event into a buffer it is inside a logging call for exactly that event which has not stored it yet; hence the events a thread stores are those it logged, in the same order, none duplicated and none invented.", "quantifier": "all thread counts, schedules, configurations and callback behaviours", "why_tests_cant": "depends on all interleavings of logging with start, stop and eviction", "anchors": ["src/trace_log.cc:TraceLog::logEvent", "src/trace_buffer.cc:TraceChunk::addEvent"]}
{"id": "C70", "title": "Events are dropped only for a reason", "statement": "A logging call that returns normally has stored its event, or found its category disabled, or at one of its own steps tracing was off, a stop was evicting this thread, the thread was not registered, or the log had no buffer or a full one.", "quantifier": "all thread counts, schedules, configurations and callback behaviours", "why_tests_cant": "silent loss shows only in rare schedules", "anchors": ["src/trace_log.cc:TraceLog::logEvent", "src/trace_log.cc:TraceLog::getChunkTenant", "src/trace_log.cc:TraceLog::replaceChunk"]}
{"id": "C71", "title": "Logs with their own threads do not disturb each other", "statement": "If every thread registers with and logs into one TraceLog only (any thread may start, stop and read any of them), each TraceLog does exactly what it would do if it were the only one in the process, and there is no undefined behaviour.", "quantifier": "all numbers of logs and threads, all schedules", "why_tests_cant": "independence of two objects that share thread-local state is about all interleavings of both", "anchors": ["src/trace_log.cc:thread_chunk", "src/trace_log.cc:TraceLog::evictThreads", "src/trace_log.cc:TraceLog::getChunkTenant"]}
{"id": "C72", "title": "From logging to the exported document", "statement": "Exporting a context that was retrieved from a log (by a program or by the save-on-stop callback), at any time after its retrieval, gives one JSON document with a record for each named thread and, for each thread, exactly the records of the events it stored in that trace, in the order in which it logged them (for a ring buffer: only such records).", "quantifier": "all schedules, any number of threads and events, any iteration order of the name map", "why_tests_cant": "combines all interleavings with all contents", "anchors": ["src/trace_log.cc:TraceLog::getTraceContext", "src/tools/export.cc:JSONExport::read", "src/tools/export.cc:FileStopCallback::operator()"]}
{"id": "C73", "title": "The chunk lock orders what it protects", "statement": "With the memory orders written in chunk_lock.cc (relaxed hardware and compilers allowed), at most one thread is inside the lock, unlock's assertions hold, and no two accesses to data only touched inside the lock race; what one holder wrote the next holder sees.", "quantifier": "all numbers of threads, all schedules, all choices of which store a load sees, debug and release builds", "why_tests_cant": "x86 test machines do not show the reorderings; a missing release order shows on other machines and rarely", "anchors": ["src/chunk_lock.cc:ChunkLock::slave::try_lock", "src/chunk_lock.cc:ChunkLock::slave::unlock", "src/chunk_lock.cc:ChunkLock::master::lock", "src/chunk_lock.cc:ChunkLock::master::unlock"]}
{"id": "C74", "title": "The bounded queue on weakly ordered memory", "statement": "With the memory orders written in the header, the queue is first in first out for any number of producers and consumers, every dequeue that returns true returns an item that was enqueued (never uninitialised data), each item once, and no two accesses to a cell's data race.", "quantifier": "all capacities 2^1..2^61, any number of threads, all schedules of up to 2^62 steps, all choices of which store a load sees", "why_tests_cant": "the relaxed accesses behave like ordered ones on test machines", "anchors": ["thirdparty/dvyukov/include/dvyukov/mpmc_bounded_queue.h:enqueue", "thirdparty/dvyukov/include/dvyukov/mpmc_bounded_queue.h:dequeue"]}
{"id": "C75", "title": "Passing an item through the queue passes on what was written before", "statement": "Everything a thread did before it enqueued an item happened before everything the thread that dequeued it does afterwards: chunks handed from thread to thread through the ring buffer's queue need no further synchronisation.", "quantifier": "all capacities, threads, schedules of up to 2^62 steps, all choices of which store a load sees", "why_tests_cant": "a happens-before edge cannot be observed by a test, only its absence, rarely", "anchors": ["thirdparty/dvyukov/include/dvyukov/mpmc_bounded_queue.h:enqueue", "thirdparty/dvyukov/include/dvyukov/mpmc_bounded_queue.h:dequeue", "src/trace_buffer.cc:RingTraceBuffer::returnChunk"]}
{"id": "C76", "title": "When the queue says it is empty or full", "statement": "A dequeue may report an empty queue although an enqueue has returned and nothing was dequeued (finding: the real-time reading of C27 fails on weakly ordered memory); but it does so only if its thread has not heard of the return of an enqueue it could serve, and likewise an enqueue reports a full queue only if its thread has not heard of the return of the dequeue that makes room.", "quantifier": "all capacities, threads, schedules of up to 2^62 steps, all choices of which store a load sees", "why_tests_cant": "stale reads of this kind need other hardware", "anchors": ["thirdparty/dvyukov/include/dvyukov/mpmc_bounded_queue.h:enqueue", "thirdparty/dvyukov/include/dvyukov/mpmc_bounded_queue.h:dequeue"]}
{"id": "C77", "title": "The category registry is free of data races with the memory orders it uses", "statement": "However getStatus, updateEnabled, disableAll and trace points run at the same time, no access to a group name or to the category lists races, although the first scan of the names takes no lock and the counts and statuses are accessed with acquire, release and relaxed orders; every category gets at most one slot, and a caller or trace point always uses the slot of its own category (or the overflow slot when 250 others are taken).", "quantifier": "all threads, trace points, category strings, lists, schedules and choices of which store a load sees", "why_tests_cant": "a wrong memory order in the double-checked lookup shows only on weakly ordered hardware, as a torn std::string", "anchors": ["src/category_registry.cc:CategoryRegistry::getStatus", "src/category_registry.cc:CategoryRegistry::updateEnabled", "src/category_registry.cc:CategoryRegistry::disableAll", "include/phosphor/phosphor-internal.h:PHOSPHOR_INTERNAL_CATEGORY_INFO"]}
{"id": "C78", "title": "Which setting a trace point sees", "statement": "Calls of updateEnabled and disableAll take effect in one order, and each trace point sees the setting made by one of them. It is never older than the setting in force when the category was registered, than a call whose return the tracing thread has heard of (in particular its own), or than a setting that a thread it has heard from (in particular itself) already saw for that category; but a call that has returned in another thread may be missed by a trace point that has not heard of it (finding).", "quantifier": "all threads, trace points, category strings, lists, schedules and choices of which store a load sees", "why_tests_cant": "staleness depends on hardware and timing; on common hardware a test sees the newest value", "anchors": ["src/category_registry.cc:CategoryRegistry::updateEnabled", "src/category_registry.cc:CategoryRegistry::disableAll", "src/category_registry.cc:CategoryRegistry::getStatus", "include/phosphor/phosphor-internal.h:PHOSPHOR_INTERNAL_TRACE_EVENT"]}
{"id": "C79", "title": "The trace log has no data races on weakly ordered memory", "statement": "Whatever threads do with a trace log - start and stop it, log events, take its buffer, ask for statistics, register, deregister, read and destroy buffers they took - no two accesses to plain (non-atomic) data of the log, its buffers or its chunks race under the C++ memory model, although the buffer pointer is read without the mutex and the memory orders are those in the code.", "quantifier": "all numbers of threads, all schedules, all choices of which permitted store each atomic load sees, all chunk sizes and buffer shapes", "why_tests_cant": "a race detector only sees the schedules and reorderings that occur; stale reads of the enabled flag are rare on x86", "anchors": ["src/trace_log.cc:TraceLog::getChunkTenant", "src/trace_log.cc:TraceLog::replaceChunk", "src/trace_log.cc:TraceLog::evictThreads", "src/trace_log.cc:TraceLog::start", "src/trace_log.cc:TraceLog::stop"]}
{"id": "C80", "title": "Buffers are used properly on weakly ordered memory", "statement": "With the memory orders in the code, a buffer is never used after it was destroyed and never destroyed twice; once taken out of the log it is used by its taker alone, who reads from each chunk exactly what was stored in it before; no function is called on a null buffer and no chunk is returned to a buffer it is not from.", "quantifier": "all numbers of threads, all schedules, all choices of which permitted store each atomic load sees, all chunk sizes and buffer shapes", "why_tests_cant": "needs a thread acting on a stale enabled flag while another stops, takes or replaces the buffer", "anchors": ["src/trace_log.cc:TraceLog::getBuffer", "src/trace_log.cc:TraceLog::logEvent", "src/trace_log.cc:TraceLog::deregisterThread", "src/trace_log.cc:TraceLog::evictThreads"]}
{"id": "C81", "title": "Calls return as themselves and the answers of lock-free queries are true", "statement": "A call on a trace log that returns was made by that thread, which has made no other call in between, and a thread makes its next call only when the last has returned; isEnabled returns whether tracing was on at some moment during the call, and getCategoryStatus the status slot it found during the call.", "quantifier": "all threads, calls, schedules, callbacks and configurations", "why_tests_cant": "the answer of a lock-free query depends on when exactly another thread starts or stops tracing", "anchors": ["src/trace_log.cc:TraceLog::isEnabled", "src/trace_log.cc:TraceLog::getCategoryStatus"]}
{"id": "C82", "title": "Threads may end when they are not registered", "statement": "If every thread that ends has deregistered (or never registered) before, no call on the trace log ever touches what was destroyed with a thread, and the log behaves as it does for threads that never end. A thread that ends while registered is touched by a later stop: that is undefined behaviour.", "quantifier": "all numbers of threads, all calls and schedules, all moments at which threads end, all operating-system thread ids (one id may be used by several threads one after the other)", "why_tests_cant": "a thread's end has to fall between its registration and another thread's stop; what then happens is undefined, a test may pass by luck", "anchors": ["src/trace_log.cc:thread_chunk", "src/trace_log.cc:TraceLog::registerThread", "src/trace_log.cc:TraceLog::deregisterThread", "src/trace_log.cc:TraceLog::evictThreads"]}
{"id": "C83", "title": "Thread names follow ids that are used again", "statement": "getTraceContext names an id at most once, and exactly when a thread with that id registered with the name, none with the id registered with a name since, none deregistered since while tracing was off, and no trace was started after one deregistered during a trace. So a running thread that registered with a name is named with it, whatever threads had its id before; but a thread registered without a name can get the name of an ended one.", "quantifier": "all numbers of threads and ids, all sequences of registrations, ends, starts and stops, all schedules", "why_tests_cant": "the operating system chooses ids; a test cannot make it use an id again", "anchors": ["src/trace_log.cc:TraceLog::registerThread", "src/trace_log.cc:TraceLog::deregisterThread", "src/trace_log.cc:TraceLog::clearDeregisteredThreads", "src/trace_log.cc:TraceLog::getTraceContext"]}
{"id": "C84", "title": "Saving to a file that fails", "statement": "If the file cannot be opened, the save-on-stop callback throws, writes nothing and the buffer stays in the log. If it can, the file is closed exactly once, the buffer leaves the log, and the file holds a beginning of the document. The callback returns normally exactly if every fwrite took all it was given; otherwise it throws at the first that did not, telling how many bytes that one took. A normal return does not imply that the file is complete: the result of closing it is ignored.", "quantifier": "all buffer contents, thread names and document sizes, all behaviours of fopen, of every fwrite and of fclose", "why_tests_cant": "disks that fill up at a given byte, and failures that show only at fclose, cannot be arranged for every length", "anchors": ["src/tools/export.cc:FileStopCallback::operator()", "src/utils/memory.h:FILEDeleter", "src/utils/memory.cc:make_unique_FILE"]}
{"id": "C85", "title": "The memory of buffers balances", "statement": "However buffers are made and deleted, and wherever an allocation or a constructor fails: every object is made inside a block that is held and apart from the others, is destroyed once, and every block is given back once, after its objects are gone. A buffer that was made has exactly the chunks asked for; if making it fails, nothing of it is left. When no buffer is left, no memory is. A number of chunks whose size does not fit in size_t is refused before memory for it is asked for.", "quantifier": "all sequences of making and deleting fixed and ring buffers, all numbers of chunks, all object sizes, all patterns of failing allocations and constructors", "why_tests_cant": "every allocation and every element construction of every size may be the one that fails; leaks and overlaps are not visible to a passing test", "anchors": ["include/gsl_p/dyn_array.h:dyn_array", "src/trace_buffer.cc:FixedTraceBuffer", "src/trace_buffer.cc:RingTraceBuffer", "src/trace_buffer.cc:make_ring_buffer", "src/utils/memory.h:make_unique"]}
{"id": "C86", "title": "A log that runs out of memory stays safe, except in two places", "statement": "An allocation in the log's own bookkeeping can fail in any call: naming or deregistering a thread, starting, copying the configuration or the thread names, adding a category. The call then answers std::bad_alloc and its lock is released; a call made from a callback throws into the callback, still under the lock. The failure itself neither starts nor stops tracing, takes no buffer away (getTraceContext can be called again and returns it), and forgets no registered thread; a start that fails while categories are updated leaves tracing off. Whatever such failures happen, no thread ever uses a buffer or chunk that is not its own. Two places are unsafe: if entering a thread among the registered ones fails in registerThread, or switching off the categories fails in stop, a thread can later write to a destroyed buffer, even if stop is called again and succeeds.", "quantifier": "all schedules of any number of threads, all calls and nested calls, any number of failing allocations at any of the places, any contents of half assigned lists", "why_tests_cant": "which allocation fails, in which call and in which interleaving cannot be enumerated, and tests do not run out of memory", "anchors": ["src/trace_log.cc:registerThread", "src/trace_log.cc:deregisterThread", "src/trace_log.cc:stop", "src/trace_log.cc:start", "src/trace_log.cc:getTraceContext", "src/category_registry.cc:disableAll", "src/category_registry.cc:updateEnabled"]}
{"id": "C87", "title": "A ring buffer shared by threads lends every chunk to one user at a time", "statement": "Any number of threads call getChunk and returnChunk of one ring buffer directly, without a lock; a chunk that is lent out may be returned by any thread. No chunk is ever lent to two users, none is lost and none is invented; while getChunk prepares a chunk nobody else has it, and the chunk carries the id of the thread that got it until it is returned. Calls are served in one order, every chunk once and then the chunks in the order in which they came back. buffer_loaned_chunks counts the chunks lent out and the unfinished returnChunk calls. An attempt that finds the queue full waits for an unfinished getChunk, one that finds it empty for a chunk or an unfinished returnChunk; a thread that runs alone finishes in at most nine steps otherwise. But returnChunk can spin for as long as a thread inside getChunk does not move, although the queue is empty and has room for every chunk.", "quantifier": "all ring sizes from 1 to 2^32, all schedules of any number of threads with fewer than 2^64 calls in which no thread sleeps through 2^62 placements, spurious failures of compare-exchange", "why_tests_cant": "the interleavings inside the lock-free queue cannot be forced, and a stopped thread at one particular access is needed to see the spinning", "anchors": ["src/trace_buffer.cc:RingTraceBuffer::getChunk", "src/trace_buffer.cc:RingTraceBuffer::returnChunk", "thirdparty/dvyukov/include/dvyukov/mpmc_bounded_queue.h:enqueue", "thirdparty/dvyukov/include/dvyukov/mpmc_bounded_queue.h:dequeue"]}
{"id": "C88", "title": "Counting the chunks of a ring while it is used", "statement": "chunk_count of a ring buffer, called while other threads call getChunk, covers every chunk that was handed out before, and is at most the number of getChunk calls. It is at most the number of chunks if no getChunk begins between its two reads of the counter. Otherwise it can be larger: in a ring of any size, once all chunks are handed out one getChunk between the two reads, even one that waits for ever, makes chunk_count larger than the buffer and puts chunk_end past its end.", "quantifier": "all ring sizes from 1 to 2^32, all schedules, all pairs of states for the two reads", "why_tests_cant": "the window between two reads of an atomic cannot be hit on purpose", "anchors": ["src/trace_buffer.cc:RingTraceBuffer::chunk_count", "src/trace_buffer.cc:RingTraceBuffer::chunk_end"]}
{"id": "C89", "title": "A fixed buffer shared by threads", "statement": "Any number of threads call getChunk, returnChunk, isFull and chunk_count of one fixed buffer of n chunks directly, without a lock, making fewer than 2^64 getChunk calls. Every chunk is handed out at most once, nobody else has it while getChunk prepares it, and it carries its user's id for good. When no call is unfinished, the chunks handed out are the first min(calls, n). Null is returned only after more than n calls began; once isFull said true or a getChunk returned null, isFull says true and every getChunk called afterwards returns null. chunk_count covers every chunk handed out before it and never exceeds n. buffer_loaned_chunks is the number of chunks handed out and not returned. A getChunk answers within three steps of its own thread, whatever the other threads do.", "quantifier": "all sizes, all schedules of any number of threads with fewer than 2^64 getChunk calls", "why_tests_cant": "all interleavings of unsynchronised calls cannot be run", "anchors": ["src/trace_buffer.cc:FixedTraceBuffer::getChunk", "src/trace_buffer.cc:FixedTraceBuffer::returnChunk", "src/trace_buffer.cc:FixedTraceBuffer::isFull", "src/trace_buffer.cc:FixedTraceBuffer::chunk_count"]}
{"id": "C90", "title": "Statistics of a ring taken while it is used", "statement": "getStats of a ring buffer, while other threads call getChunk and returnChunk: buffer_is_full is false; buffer_chunk_count never exceeds buffer_size nor buffer_total_loaned, covers every chunk handed out before, and lies between the getChunk calls that had returned (up to the size) and those that were made; buffer_total_loaned lies between the calls that had returned and those made; buffer_loaned_chunks plus the returns finished is the number of getChunk calls that returned, and is the number of chunks the users have, at most the size, if nobody is inside returnChunk. Otherwise it is not: in a ring of any size buffer_loaned_chunks can exceed buffer_size, and buffer_total_loaned can exceed the number of chunks ever handed out.", "quantifier": "all ring sizes from 1 to 2^32, all schedules, all moments for the three reads", "why_tests_cant": "the reads of getStats cannot be interleaved with the accesses of other threads on purpose", "anchors": ["src/trace_buffer.cc:RingTraceBuffer::getStats", "include/phosphor/trace_buffer.h:TraceBuffer::getStats"]}
{"id": "C91", "title": "Statistics of a fixed buffer taken while it is used", "statement": "getStats of a fixed buffer, while other threads call getChunk and returnChunk: if buffer_is_full is true then buffer_chunk_count is buffer_size; buffer_chunk_count never exceeds the size, equals buffer_total_loaned, and lies between the getChunk calls answered (up to the size) and those made; if it equals the size then, from that read on, only getChunk calls that had been given a chunk before return one; buffer_loaned_chunks is the number of chunks handed out and not given back. But the values need not fit together: for a buffer of any size buffer_is_full can be false although buffer_chunk_count is the size, and buffer_loaned_chunks can exceed buffer_total_loaned.", "quantifier": "all sizes, all schedules with fewer than 2^64 getChunk calls, all moments for the three reads", "why_tests_cant": "the reads of getStats cannot be interleaved with the accesses of other threads on purpose", "anchors": ["src/trace_buffer.cc:FixedTraceBuffer::getStats", "include/phosphor/trace_buffer.h:TraceBuffer::getStats"]}
{"id": "C92", "title": "Chunks of a ring change hands without data races", "statement": "On memory as the C++ standard describes it, with the memory orders that the ring buffer and its queue ask for: when threads call getChunk and returnChunk and use the chunks they have, there is no data race, neither on the contents of a chunk (which getChunk resets and the users read and write) nor inside the queue. Every access to a chunk so far happened before whatever its present user, or the getChunk that is resetting it, does next; a chunk that was never promised to a call has not been accessed.", "quantifier": "rings of 1 to 2^32 chunks, any number of threads, all schedules of up to 2^62 steps, all choices of the stores that are read", "why_tests_cant": "tests run on hardware with stronger ordering than the standard promises, and a data race need not show", "anchors": ["src/trace_buffer.cc:RingTraceBuffer::getChunk", "src/trace_buffer.cc:RingTraceBuffer::returnChunk", "thirdparty/dvyukov/include/dvyukov/mpmc_bounded_queue.h"]}
{"id": "C93", "title": "A ring on weakly ordered memory lends each chunk once and in order", "statement": "On memory as the C++ standard describes it, although threads may see outdated values: no chunk of a ring is lent to two users at a time, no chunk outside the buffer is returned, no pointer is used that was never put into the queue, nobody has a chunk while getChunk prepares it, and calls of getChunk are served in one order (every chunk once, then the chunks in the order in which they came back), each at a moment inside the call.", "quantifier": "rings of 1 to 2^32 chunks, any number of threads, all schedules of up to 2^62 steps, all choices of the stores that are read", "why_tests_cant": "tests run on hardware with stronger ordering than the standard promises", "anchors": ["src/trace_buffer.cc:RingTraceBuffer::getChunk", "src/trace_buffer.cc:RingTraceBuffer::returnChunk", "thirdparty/dvyukov/include/dvyukov/mpmc_bounded_queue.h"]}
{"id": "C94", "title": "Names of saved files", "statement": "The time stamp that replaces %d is the UTC date and time of the save, to the second, always 20 characters. Under one path that mentions %d, the name of a later save sorts after that of an earlier one if the seconds differ; under one path that mentions %p, different processes never use one name. So of traces saved under a path that mentions both, no two by one process within one second, all are kept and no other file is touched. Two saves by one process within one second use one name and the second replaces the first. From the year 10000 on the stamp does not fit its buffer and is unspecified.", "quantifier": "all paths, process ids, times from 1970 on and sequences of saves", "why_tests_cant": "every second of eight thousand years, with their leap years and ends of months, and every path and process id cannot be tried; a test reads the clock and cannot set it", "anchors": ["src/tools/export.cc:FileStopCallback::generateFilePath", "src/tools/export.cc:FileStopCallback::operator()", "src/utils/string_utils.cc:string_replace"]}
{"id": "C95", "title": "Contexts own their buffer and pass it on; exports refer to the context object", "statement": "Whatever trace contexts are made, moved, assigned and destroyed: no buffer is deleted twice or lost, a context's buffer is alive with the contents it was made with, no two contexts share one, a context constructed with a buffer and thread names holds exactly those, and moving passes on buffer and thread names exactly, leaving the source without a buffer (self-assignment keeps the buffer). An export of a context gives out the document of that context whatever happens to other contexts and exports meanwhile, and after the whole document was read it no longer needs the context. But if the context is moved from, assigned to or destroyed after the export was made, reading from it is undefined, even though buffer and names live on elsewhere.", "quantifier": "all sequences of operations on any number of contexts and exports, all contents, all read sizes, any unspecified contents of moved-from maps", "why_tests_cant": "double deletion and dangling references depend on the whole history of moves; the undefined reads usually seem to work", "anchors": ["src/trace_context.cc:TraceContext::operator=", "include/phosphor/trace_context.h:TraceContext::getBuffer", "src/tools/export.cc:JSONExport::JSONExport", "src/tools/export.cc:JSONExport::read"]}
{"id": "C96", "title": "The log with the lock-free queues of its ring buffers", "statement": "Waiting for a chunk of a ring and giving one back are loops around a lock-free queue, whose accesses interleave with everything other threads do to the log. Whatever the interleaving, and whenever a compare-exchange fails spuriously, the log does only what it could do if each of the two were a single step: every history of calls, answers, stores and buffers, all statistics and all buffer contents are among those of the log with one-step queues, so everything promised of that log holds. No thread is ever inside an operation of the queue of a buffer that was freed or handed out, no never-written cell is used as a chunk, and there is no data race on the log's memory or on a cell of a queue.", "quantifier": "all schedules of any number of threads and calls, all spurious failures, all ring sizes from 1 to 2^32, provided no thread sleeps for 2^62 operations of one queue in the middle of one of them", "why_tests_cant": "the interleavings of queue accesses with stops, restarts, retrievals and other threads' logging are unbounded and cannot be forced by tests", "anchors": ["src/trace_buffer.cc:RingTraceBuffer::getChunk", "src/trace_buffer.cc:RingTraceBuffer::returnChunk", "src/trace_log.cc:TraceLog::replaceChunk", "thirdparty/dvyukov/include/dvyukov/mpmc_bounded_queue.h:mpmc_bounded_queue::enqueue", "thirdparty/dvyukov/include/dvyukov/mpmc_bounded_queue.h:mpmc_bounded_queue::dequeue"]}
{"id": "C97", "title": "The log with the registry's own steps", "statement": "Looking a category up and switching the categories on or off are loops over the registry, whose accesses interleave with everything other threads do to the log. Whatever the interleaving, the log does only what it could do if each were a single step: every history of calls, answers, stores and buffers, all statistics, buffer contents and registered groups are among those of the log with a one-step registry. While a start or a stop changes the statuses one after the other, tracing is off and a trace point may see some categories still or already off; with tracing on it sees exactly what the configuration asks for. Nobody reads a half-written group name, there is no data race on the log's memory, a queue's cell, a group name or the category lists, and a thread inside the registry can always go on or wait only for one that can.", "quantifier": "all schedules of any number of threads, calls, trace points and categories, all configurations, spurious failures and ring sizes from 1 to 2^32", "why_tests_cant": "a test cannot place other threads' steps between every two accesses of a lookup or a switch; the windows in which only some statuses have changed are a few instructions long", "anchors": ["src/category_registry.cc:30-59", "src/category_registry.cc:102-126", "src/trace_log.cc:85-122", "include/phosphor/phosphor-internal.h"]}
{"id": "C98", "title": "Formatted text is what its format and arguments say", "statement": "Formatting returns the format with each directive replaced by its argument: a decimal or hexadecimal numeral of its value, padded to its width with zeros or spaces, or the string up to its NUL. It never writes past its buffer, even if another thread changes a string between the pass that measures and the pass that writes; a text that shrank is returned as it is, one that grew by two or more bytes is refused with an exception, and a text too long for an int is refused. Every call in the library passes arguments of the sizes its directives expect, so event descriptions, time stamps, durations, ids and thread names are the documented ones. Findings: a text that grew by exactly one byte is silently cut, and a text of exactly 2^31 - 1 bytes overflows an int.", "quantifier": "all formats made of %d, %ld, %lld, %lx, %s with widths and zero flags, all arguments, all pairs of texts of the two passes, all events, durations, ids and thread names", "why_tests_cant": "the space of arguments and widths is unbounded, a string changing between the two passes cannot be forced, and texts near 2^31 bytes are impractical", "anchors": ["src/utils/string_utils.cc:22-48", "src/trace_event.cc:58-70", "src/trace_event.cc:82-83", "src/trace_event.cc:166-194", "src/tools/export.cc:21-28"]}
{"id": "C99", "title": "Time stamps of saves that overlap", "statement": "A save during which no other thread of the process asks for a calendar time gets a file name with the date and time of its own moment, whatever happened before. If others do (another log being saved, or any code that uses the same C function), each part of the stamp is the corresponding part of some moment asked for, so the name keeps its form and fixed width; if all ask within one second it is right. Findings: otherwise the stamp may be no date at all, such as the 31st of February, two saves in different seconds may get the same name, and the accesses race.", "quantifier": "all schedules of any number of threads, all moments before the year 10000, all orders in which the parts are stored", "why_tests_cant": "the interleaving of the stores of one thread with the reads of another cannot be forced", "anchors": ["src/tools/export.cc:157-175"]}
{"id": "C100", "title": "A fixed buffer and the memory orders it is written with", "statement": "Threads call getChunk, returnChunk, isFull and chunk_count of one fixed buffer directly, on memory that orders accesses only as far as the code asks for, making fewer than 2^64 getChunk calls. Chunks are used without data races by the threads that got them, and read without data races by threads that know, by means of their own, that they were given back; those see everything written to them. No chunk is handed out twice, and all answers of getChunk are as if every access took effect at once; buffer_loaned_chunks ends with the number of chunks not given back. Null is returned only after more than n calls began; once anybody was told that the buffer is full, every getChunk called afterwards returns null. isFull and chunk_count may lag behind other threads, but never behind what a thread did or heard of: the count covers those chunks, does not decrease, and full stays full. Finding: a chunk that chunk_count covers and that was given back before cannot be read on that basis: the read races with the writes of its user.", "quantifier": "all sizes, all schedules of any number of threads with fewer than 2^64 getChunk calls, all choices of the store that a load reads and of the place of a store", "why_tests_cant": "the weaker orders do not show on the hardware tests run on, and all interleavings cannot be run", "anchors": ["src/trace_buffer.cc:102-182"]}
{"id": "C101", "title": "No call gets stuck on the memory the code is written for", "statement": "On memory that orders accesses only as far as the code asks for, a thread inside a call can always perform its next access: a call of the queue, of a ring or fixed buffer, of the chunk lock; a getChunk of a fixed buffer has answered after three accesses of its own, whatever others do. A thread inside a call of the registry can go on, or waits for the mutex, whose holder can go on. A thread inside a call of the log can go on; or waits for a lock whose holder can go on; or the holder of the mutex waits for one further lock whose holder can go on. Apart from that, the thread at the end of the chain is in a callback or between calls with the mutex held (the program's turn), or in a ring buffer all of whose chunks are in use. No cycle of locks arises.", "quantifier": "all sizes, all schedules of any number of threads, all choices of the store that a load reads and of the place of a store", "why_tests_cant": "a test can find one deadlock but not show that none exists", "anchors": ["src/trace_log.cc:64-317", "src/category_registry.cc:30-127", "src/trace_buffer.cc:110-128", "src/chunk_lock.cc:23-60"]}
{"id": "C102", "title": "What the log asks of a buffer of one's own", "statement": "A program may give the log a buffer class of its own through the factory of a configuration; its member functions may answer anything, take any time, and throw. The log calls them only on a buffer that it has (made by the factory, neither given to the user nor destroyed), and the buffer is still there when the call ends. A buffer is given away or destroyed once, and only while no thread is in a call of it. As long as returnChunk has not thrown: a chunk is given back only by the thread it was lent to, to the buffer that lent it, and once; a thread asks for a chunk only while it has none of that buffer; an event is stored only in the chunk that was lent to the thread and not given back, while the log has the buffer; so if the buffer does not lend a chunk twice, nobody else has it. A thread outside of all calls holds no lock of the log, also after an exception, and no set of calls waits for itself. Findings: although the header says that a buffer is only interacted with under the lock of the log, several threads call it at once without that lock; and if returnChunk throws, the same chunk is given back again. The log never spins: from any state, only boundedly many steps of its own and answers of the user's code can follow one another before someone makes a new call or the holder of the mutex acts.", "quantifier": "all schedules of any number of threads, all answers of the buffer and the factory, exceptions from any of them", "why_tests_cant": "all interleavings with the calls of a buffer of unknown behaviour cannot be run", "anchors": ["include/phosphor/trace_buffer.h:139-205", "include/phosphor/trace_config.h:73-80", "src/trace_log.cc:68-133", "src/trace_log.cc:211-234", "src/trace_log.cc:240-317"]}
{"id": "C103", "title": "Which id a thread is called by", "statement": "The library calls a thread by an id in the chunks it fills, in the thread names and in the list of ended threads. The id is never zero and does not change while the thread lives. A thread that was started as a thread (or is the first of its program) is called by its own id of the operating system, so threads that are alive at the same time have different ids. A thread that is the copy of another by a fork is called by the id of that one, if that one or one it was forked from had been called by an id before the fork; otherwise by its own. The id of the process is the current one, also after a fork. Finding: after a fork, two threads of one process that are alive at the same time may be called by the same id.", "quantifier": "all sequences in which threads start, end, fork and ask for ids, all choices of ids by the operating system", "why_tests_cant": "which ids the operating system uses again, and when, cannot be chosen", "anchors": ["include/phosphor/platform/thread.h:30-64", "src/platform/thread.cc:32-55"]}
{"id": "C104", "title": "When a full buffer ends its trace", "statement": "A logging call that returns without having stored its event found its category disabled, turned tracing off itself, or at one of its own steps found tracing off, was being evicted by a stop, was not registered or failed to get the lock of the log, or a newer trace was started since it began; that the buffer was full, or missing, is not enough. So a registered thread that logs undisturbed while nobody has the lock either has its event stored or the trace is off when the call returns. But a full buffer need not end its trace: if another thread has the lock at that moment (say, in getTraceConfig), the event is lost, tracing stays on with a full buffer and the stopped callback does not run until somebody logs again.", "quantifier": "all threads, schedules, configurations, factories and callback behaviours", "why_tests_cant": "the missed stop needs the lock to be taken at one particular step; that nothing else is missed is a claim about all schedules", "anchors": ["src/trace_log.cc:TraceLog::maybe_stop", "src/trace_log.cc:TraceLog::getChunkTenant", "src/trace_log.cc:TraceLog::replaceChunk"]}
{"id": "C105", "title": "Statistics given to a user's callback", "statement": "getStats calls the callback once per stat, in a fixed order: registry_group_count, the seven buffer stats if and only if log_has_buffer will be true, and the five log stats, with these keys and types. When the call returns the whole report has been given; everything the lock of the log protects is as of a single moment during the call, the number of groups and the buffer's counters each as of a moment during the call. If the callback throws, the call ends with that exception, exactly a beginning of the report has been given and no lock is left held; it never ends with an exception otherwise. While the callback runs its thread has the lock of the log, so callbacks of several threads never overlap and the log is not started or stopped; the lock of the registry is held for registry_group_count only, so any later stat may use a new category. getStats changes nothing it reports. A callback that calls getStats again, or uses a new category while told registry_group_count, never returns and no callback is told anything any more. Otherwise there is no deadlock.", "quantifier": "all callbacks, threads, schedules, buffers and states of the log", "why_tests_cant": "a callback is arbitrary user code, and what it is told depends on when other threads change the log", "anchors": ["include/phosphor/stats_callback.h:StatsCallback", "src/trace_log.cc:TraceLog::getStats", "src/category_registry.cc:CategoryRegistry::getStats", "src/trace_buffer.cc:FixedTraceBuffer::getStats", "src/trace_buffer.cc:RingTraceBuffer::getStats"]}
{"id": "C106", "title": "Relaxed counters count exactly and order nothing", "statement": "However many threads use a RelaxedAtomic counter that is not assigned to, every ++x, x++, --x and x-- is given exactly what the changes made so far by all threads amount to, modulo 2^64, after it (prefix) or before it (postfix): none is lost or counted twice, so x++ hands out each number once while x is only counted up and not 2^64 times. A read is given what the counter was at some earlier moment, never before a change, or before what a read was given, that the reading thread knows of; a thread that has synchronised with all who changed the counter reads exactly what was counted. However a counter is used, assignments included, there is one order of all changes and assignments to it, in which what a thread knows of comes before what it does, a change finds what the one next before it left, and a read is given what one of them, or the construction, left. Assigned to or not, a counter each of whose users knows of all uses before (one thread, or handed over under a mutex) behaves like an ordinary variable. But x = x + 1 by two threads may count once, of two assignments by different threads the later one may be the one overwritten, and seeing a counter changed tells nothing about other counters or plain data: using it as a signal for plain data is a data race.", "quantifier": "all counters, initial values, threads, schedules and orders that the C++ memory model allows", "why_tests_cant": "which old value a relaxed read is given depends on the hardware and the compiler; lost counts need a particular interleaving", "anchors": ["include/phosphor/relaxed_atomic.h:RelaxedAtomic"]}
