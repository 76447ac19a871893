{"id": "C01", "title": "Boxed values are unambiguous", "statement": "A value built from a machine pointer and a type tag gives back exactly that pointer and tag; it satisfies exactly the type predicate of its tag and is never a number; the number produced for an integer is never mistaken for a pointer, and true, false, (), and undef are pairwise different and different from every number and pointer.", "quantifier": "for every 48-bit pointer, every tag, every 64-bit integer", "why_tests_cant": "the space of pointers and doubles is 2^64; a single colliding bit pattern is a type confusion", "anchors": ["src/gc.h: ptr, tag, isobj, isScmHead", "src/types.h: isNumber, makeNaNPtr, iscons, isBytes, iscobj, makeNumber", "src/types.c: Undef, Nil, True, False"]}
{"id": "C02", "title": "Integers survive boxing", "statement": "Storing an integer as a cora number and reading it back gives the same integer for every magnitude up to 2^53, and two such integers have the same representation only if they are equal. (Beyond 2^53 neighbouring integers are merged.)", "quantifier": "for every integer n with |n| <= 2^53; there are integers just beyond for which it fails", "why_tests_cant": "2^54 values; the failure is only at one boundary", "anchors": ["src/types.h: makeNumber, fixnum, isfixnum"]}
{"id": "C03", "title": "Integer arithmetic and comparison are exact", "statement": "(+ a b), (- a b), (* a b), (< a b), (> a b) on integers give the mathematical result whenever operands and result stay within 2^53 in magnitude.", "quantifier": "for all integers a, b in range", "why_tests_cant": "quadratic number of operand pairs", "anchors": ["src/types.h: PRIM_ADD, PRIM_SUB, PRIM_MUL, PRIM_LT, PRIM_GT"]}
{"id": "C04", "title": "Integer division is the quotient", "statement": "(/ a b) on integers with b non-zero is the quotient of a by b.", "quantifier": "for all integers a, b with b non-zero", "why_tests_cant": "needs all operand pairs; existing tests never divide", "anchors": ["src/runtime.c: primDiv", "lib/toc.cora: *builtin-prims* entry for /"]}
{"id": "C05", "title": "= is structural equality", "statement": "(= x y) is true exactly when x and y are the same immediate/number/symbol/object, or strings with the same bytes, or conses with = parts; it is reflexive, symmetric and transitive.", "quantifier": "for all finite values x, y, z", "why_tests_cant": "unbounded nesting of lists and strings", "anchors": ["src/types.h: eq", "src/str.c: strCmp"]}
{"id": "C06", "title": "String buffers hold exactly what was written and never overflow", "statement": "Starting from any freshly created buffer, any sequence of copy, concatenate, append-char, reserve and shrink leaves a buffer whose content is what a plain byte-string semantics says, NUL-terminated, with every byte written inside the allocation.", "quantifier": "for every sequence of buffer operations with every argument", "why_tests_cant": "growth policy depends on the whole history of lengths and capacities", "anchors": ["src/str.c: strNew, strCpy, strCat, strAppend, strShrink, strBufReserve, growCap"]}
{"id": "C07", "title": "Substring search finds the first occurrence", "statement": "Searching needle in haystack returns the least offset at which needle occurs, and reports absence only if it occurs nowhere; string-contain? agrees.", "quantifier": "for every pair of byte strings", "why_tests_cant": "unbounded pair of inputs; overlapping partial matches", "anchors": ["src/str.c: strStr", "lib/string.c: stringContain"]}
{"id": "C08", "title": "String comparison is a total order", "statement": "compare returns zero exactly on equal byte strings, is antisymmetric in sign and transitive.", "quantifier": "for all byte strings of representable length", "why_tests_cant": "transitivity and antisymmetry quantify over triples of unbounded strings", "anchors": ["src/str.c: strCmp", "lib/string.c: stringCompare"]}
{"id": "C09", "title": "string-slice, has-prefix? and string-index stay inside the string", "statement": "string-slice returns exactly the bytes between the (possibly negative) indices, or the empty string when the range is invalid, and never reads outside; has-prefix? is true exactly when the string starts with the prefix; string-index reads inside the string.", "quantifier": "for every string and every pair of integers", "why_tests_cant": "index arithmetic over all integers", "anchors": ["lib/string.c: stringSlice, stringHasPrefix, stringIndex"]}
{"id": "C10", "title": "string-replace replaces the first occurrence only", "statement": "string-replace s from to equals prefix ++ to ++ suffix where s = prefix ++ from ++ suffix with the shortest prefix, and returns s unchanged when from does not occur.", "quantifier": "for all byte strings s, from, to", "why_tests_cant": "unbounded inputs, capacity arithmetic", "anchors": ["lib/string.c: stringReplace", "src/str.c: strSub"]}
{"id": "C11", "title": "string-split pieces join back to the input and contain no separator", "statement": "Joining the pieces of string-split s sep with sep gives s; no piece contains sep.", "quantifier": "for all byte strings s and non-empty sep", "why_tests_cant": "unbounded inputs, adjacent separators", "anchors": ["lib/string.c: stringSplit"]}
{"id": "C12", "title": "string-append concatenates any two strings", "statement": "(string-append a b) is the concatenation of a and b, for all strings.", "quantifier": "for all byte strings a, b", "why_tests_cant": "fails only on one corner input", "anchors": ["src/runtime.c: builtinStringAppend", "src/str.c: strNew"]}
{"id": "C13", "title": "The hash trie is a finite map", "statement": "After any sequence of insertions, looking a key up returns the value most recently stored under an equal key, and nothing for a key never stored, whatever the hash function (even constant).", "quantifier": "for every hash function, every sequence of insertions, every key", "why_tests_cant": "collisions at every level of the trie; unbounded history", "anchors": ["src/map.h: lookup, _map_get, _map_set"]}
{"id": "C14", "title": "Interning identifies names", "statement": "Two interned symbols are the same object exactly when their names are the same byte string, and the symbol's printed name is the name it was interned with, whatever was interned before or between.", "quantifier": "for every sequence of intern calls", "why_tests_cant": "unbounded history and hash collisions", "anchors": ["src/types.c: intern, symbolStr, strHashFunc, strEQFunc"]}
{"id": "C15", "title": "Global variables behave as independent cells", "statement": "After (set 's v), the value of s is v until the next set of s; other globals are unaffected; value-or returns the default exactly for never-set symbols; binding a symbol for compiled code never changes its value.", "quantifier": "for every history of set / value / bind operations", "why_tests_cant": "unbounded history; the table grows and is reallocated", "anchors": ["src/runtime.c: bindSymbol, primSet, symbolGet, builtinValue, builtinValueOr", "src/runtime.h: globalRef, globalSet"]}
{"id": "C16", "title": "Vectors are arrays with checked bounds", "statement": "vector-ref returns the last value stored at that index by vector-set!, initially undef; out-of-range indices abort rather than touch memory; vector-length never changes.", "quantifier": "for every history of operations and every integer index", "why_tests_cant": "unbounded histories", "anchors": ["src/types.c: makeVector, vectorRef, vectorSet, vectorLength", "src/runtime.c: vector builtins"]}
{"id": "C17", "title": "Appending to a vector preserves the elements", "statement": "After any sequence of appends, always using the vector returned by the previous append, the contents are the initial contents followed by the appended values in order, with no write outside the allocation.", "quantifier": "for every sequence of appends", "why_tests_cant": "growth policy has a threshold at 1024; history dependent", "anchors": ["src/types.c: vectorAppend"]}
{"id": "C18", "title": "Printing then reading gives the datum back", "statement": "For every list structure over numbers, readable symbols, strings, booleans and (), reading the text printed for it gives an equal datum and consumes exactly the printed text.", "quantifier": "for every finite datum", "why_tests_cant": "unbounded nesting; tokens next to each other", "anchors": ["src/reader.c: sexpRead, readCons, readNumber, printObj, printCons"]}
{"id": "C19", "title": "Layout does not matter to the reader", "statement": "Inserting any amount of blanks, newlines and comments before a datum, or after a datum inside a list, does not change what is read.", "quantifier": "for every input text and every layout string", "why_tests_cant": "unbounded texts", "anchors": ["src/reader.c: peekFirstChar, readCons, sexpRead"]}
{"id": "C20", "title": "The reader is safe on every input", "statement": "On every byte sequence the reader terminates with a datum or an error, without writing outside its buffers.", "quantifier": "for every byte sequence", "why_tests_cant": "all inputs, including unterminated and oversized tokens", "anchors": ["src/reader.c: sexpRead, readCons, readNumber"]}
{"id": "C21", "title": "Application is insensitive to argument grouping", "statement": "Calling an n-ary function with its arguments in any grouping of partial applications gives the same result as one full call: (f a b c) = ((f a) b c) = (((f a) b) c).", "quantifier": "for every arity, every grouping, every call context", "why_tests_cant": "number of groupings grows exponentially with arity", "anchors": ["src/runtime.c: coraCall, coraDispatch, makeCurry, callCurry", "src/runtime.h: coraCall0..4"]}
{"id": "C22", "title": "Calls and returns never leave the stack", "statement": "In every execution made of calls and returns, each frame lies inside one live stack segment, frames of pending calls never overlap, and returning restores exactly the caller's frame contents, at any recursion depth.", "quantifier": "for every sequence of calls, tail calls and returns", "why_tests_cant": "segment boundaries depend on the whole history of frame sizes", "anchors": ["src/runtime.h: stackAlloc, coraReturn, saveCont", "src/runtime.c: stackAllocSlowPath, coraReturnSlowPath, segmentStackAlloc"]}
{"id": "C23", "title": "Tail calls run in constant space", "statement": "A loop of tail calls of any length uses no more pending frames and no more stack segments than one iteration (at most one extra).", "quantifier": "for every number of iterations and every frame size", "why_tests_cant": "unbounded loop length; growth may be invisible until a segment boundary", "anchors": ["src/runtime.c: coraCall, coraDispatch, builtinApply", "lib/toc.cora: generate tailcall"]}
{"id": "C24", "title": "try/throw transfers control to the innermost handler", "statement": "When a throw happens at any depth below a try, the handler of the innermost enclosing try is called exactly once with the thrown value and a continuation, in the context in which that try was called, and the outer tries stay in force.", "quantifier": "for every nesting of tries and every call depth, every stack layout", "why_tests_cant": "unbounded depth; segment boundary effects", "anchors": ["src/runtime.c: builtinTryCatch, builtinThrow, makeContinuation"]}
{"id": "C25", "title": "Resuming a captured continuation continues the computation", "statement": "Calling the continuation passed to a handler with a value makes the original throw expression return that value, with the rest of the body of the try executed on the original frames and its result returned to the caller of the continuation, with the try in force again.", "quantifier": "for every captured context and every resume context", "why_tests_cant": "unbounded captured stacks", "anchors": ["src/runtime.c: makeContinuation, continuationAsClosure, builtinThrow"]}
{"id": "C26", "title": "Version comparison is age comparison", "statement": "The wrapped 6-bit version comparison orders two versions as their true ages do whenever these differ by less than 32, and is always antisymmetric.", "quantifier": "for all versions and all distances", "why_tests_cant": "depends on wrap-around after many collections", "anchors": ["src/gc.c: versionCmp, inuse"]}
{"id": "C27", "title": "Surviving objects get a version that outlives the next collections", "statement": "The version given to a marked object is newer than the current collection and never so far ahead that the comparison wraps.", "quantifier": "for every collector version and generation", "why_tests_cant": "wrap-around only after 32 collections", "anchors": ["src/gc.c: nextVersion, GEN_INCREMENTS, markObject"]}
{"id": "C28", "title": "Reachable objects are never reclaimed", "statement": "In every interleaving of allocation, pointer stores through the write barriers, root changes, root marking, incremental marking steps and flips, no object reachable from the mutator's roots is ever treated as free.", "quantifier": "for every mutator program, heap graph, and schedule of collector steps, over unboundedly many collections", "why_tests_cant": "incremental + generational collector: the failing schedules need specific interleavings over several cycles", "anchors": ["src/gc.c: gcMarkRoot, gcMark, markObject, gcRunIncremental, gcFlip, gcAlloc, writeBarrierForIncremental, writeBarrierForGeneration, gcRSet"]}
{"id": "C29", "title": "Garbage is eventually reclaimed", "statement": "An object unreachable when a collection starts and not promoted beyond it is treated as free after a bounded number of further collections, and each collection's marking terminates.", "quantifier": "for every heap and schedule", "why_tests_cant": "quantifies over all histories", "anchors": ["src/gc.c: inuse, gcFlip, gcRunIncremental"]}
{"id": "C30", "title": "The small-object allocator never hands out memory in use", "statement": "Each small allocation returns a slot inside its block, aligned to its size class, disjoint from all slots in use, for every allocation history and every pattern of free slots.", "quantifier": "for every history of allocations, markings and flips", "why_tests_cant": "history dependent block lists", "anchors": ["src/gc.c: gcAlloc, blockAlloc, allocDone, getBlock, gcFlip"]}
{"id": "C31", "title": "Large objects tile their arena", "statement": "After any history of large allocations and deaths, the slots of an arena are partitioned into consecutive extents; a new object occupies an extent that was free and large enough.", "quantifier": "for every history", "why_tests_cant": "merge/split of free runs", "anchors": ["src/gc.c: heapArenaAllocLarge, gcAllocLargeObject, sweepLargeObjects"]}
{"id": "C32", "title": "Size classes fit", "statement": "For every small request the chosen size class is the smallest one that holds it.", "quantifier": "for every request size", "why_tests_cant": "two lookup tables with different strides", "anchors": ["src/gc.c: sizeClass tables, smallSizeClassIdx, mediumSizeClassIdx, getSlotBySize"]}
{"id": "C33", "title": "The gray queue is FIFO and loses nothing", "statement": "Any interleaving of enqueues and dequeues on the collector's work list dequeues each enqueued object exactly once, in order, never reading outside a block.", "quantifier": "for every interleaving", "why_tests_cant": "block boundary every few hundred entries, with recycling", "anchors": ["src/gc.c: gcQueueInit, gcEnqueue, gcDequeue"]}
{"id": "C34", "title": "Compiled code computes what the source means", "statement": "For every closed source expression, running the compiler passes and executing the result gives the value (and the sequence of global effects) of the source expression.", "quantifier": "for every program whose local names are distinct and not reserved, every terminating evaluation", "why_tests_cant": "infinitely many programs", "anchors": ["lib/toc.cora: parse, closure-convert, tailify, liveness-analyze, collect-cont, lambda-frame-size"]}
{"id": "C35", "title": "Closure conversion respects lexical scope", "statement": "A lambda body refers to the binding of each variable that is lexically innermost, including let-bound variables that shadow captured ones.", "quantifier": "for every expression and every environment", "why_tests_cant": "infinitely many nestings", "anchors": ["lib/toc.cora: free-vars, closure-convert"]}
{"id": "C36", "title": "Saved frames hold every variable needed after a call", "statement": "At every non-tail call, every local variable used by the rest of the function is saved and later restored to the same value, and slots are distinct.", "quantifier": "for every function body", "why_tests_cant": "infinitely many bodies", "anchors": ["lib/toc.cora: liveness-analyze, collect-cont, lambda-frame-size"]}
{"id": "C37", "title": "match picks the first matching clause", "statement": "match/func evaluate the first clause whose pattern matches (and whose guard holds), with pattern variables bound to the matching parts.", "quantifier": "for every clause list and every value", "why_tests_cant": "unbounded patterns and values", "anchors": ["init.cora: match1, match-cons-expander, match-helper, rewrite-match, func"]}
{"id": "C38", "title": "Derived forms mean what they should", "statement": "let, cond, and, or, begin, list, fold-apply and backquote expand into code that evaluates like their usual definitions (left to right, short-circuit, later bindings see earlier ones).", "quantifier": "for every number of sub-forms", "why_tests_cant": "unbounded nesting", "anchors": ["init.cora: rewrite-let, cond, rewrite-or, rewrite-and, rewrite-begin, rewrite-backquote, rewrite-fold-apply, rcons"]}
{"id": "C39", "title": "Names in packages resolve lexically", "statement": "Inside a package a local variable always refers to its binder; a free name resolves to the built-in, else to the first import exporting it, else to the package's own definition; quoted data is untouched.", "quantifier": "for every expression, import list and local scope", "why_tests_cant": "unbounded nesting", "anchors": ["init.cora: cora/init#parse, var-with-ns, lookup-var"]}
{"id": "C40", "title": "String literals survive code generation", "statement": "The C string literal generated for a cora string denotes that string.", "quantifier": "for every string", "why_tests_cant": "every byte combination, including escapes", "anchors": ["lib/toc/internal.c: escape-str, generate-str", "lib/toc.cora: generate-inst %const"]}
{"id": "C41", "title": "Different variables get different C names", "statement": "Two different variable names are never emitted as the same C identifier.", "quantifier": "for all pairs of names", "why_tests_cant": "quadratic number of names", "anchors": ["lib/toc/internal.c: generate-sym"]}
{"id": "C42", "title": "The partial evaluator preserves meaning", "statement": "Evaluating the simplified expression gives the same result as evaluating the original.", "quantifier": "for every expression and environment", "why_tests_cant": "infinitely many expressions; variable capture", "anchors": ["lib/peval.cora: peval, peval-let, peval-app, shrink-env"]}
{"id": "C43", "title": "List library functions meet their specifications", "statement": "reverse, map, filter, length, append, elem?, assq, nth-style helpers compute the usual list functions and do so for lists of any length.", "quantifier": "for all lists and functions", "why_tests_cant": "unbounded lists", "anchors": ["init.cora: reverse, map, filter, length, append, elem?, assq, foldl"]}
{"id": "C44", "title": "Queue is FIFO", "statement": "Elements leave the queue in the order they entered, whatever the interleaving of enqueue and dequeue; the length is the number of elements inside.", "quantifier": "for every interleaving", "why_tests_cant": "two-list representation with reversal; history dependent", "anchors": ["lib/queue.cora"]}
{"id": "C45", "title": "Hash table is a map", "statement": "hash-get returns the value last stored under the key; setting or deleting one key never affects another key.", "quantifier": "for every history of set/get/delete and all keys", "why_tests_cant": "bucket collisions, history dependent", "anchors": ["lib/hash.cora", "lib/hash-h.c"]}
{"id": "C46", "title": "Mailbox queue is FIFO", "statement": "Messages are received in the order they were sent, each exactly once.", "quantifier": "for every interleaving of sends and receives", "why_tests_cant": "schedules", "anchors": ["lib/parallel/internal.c: enqueueData, dequeueData"]}
{"id": "C47", "title": "A receiver never sleeps while a message is waiting", "statement": "When a receiver has gone to sleep on a mailbox, the mailbox holds no undelivered message.", "quantifier": "for every interleaving of senders and the receiver", "why_tests_cant": "race window between the failed poll and going to sleep", "anchors": ["lib/parallel.cora: mailbox-recv", "lib/parallel/internal.c"]}
{"id": "C48", "title": "Mailbox registry resolves published names", "statement": "After publishing a mailbox under a new name while there is room, resolving the name gives that mailbox and other names resolve as before.", "quantifier": "for every sequence of publications and every hash function", "why_tests_cant": "linear probing collisions", "anchors": ["lib/parallel/internal.c: mailboxPublish, mailboxResolve"]}
{"id": "C49", "title": "Channels deliver each value to exactly one receiver, in order", "statement": "Whatever the order in which senders and receivers arrive, each sent value is received exactly once and in send order.", "quantifier": "for every schedule of senders and receivers and all values", "why_tests_cant": "schedules; value false is special", "anchors": ["lib/chan.cora", "lib/cml.cora"]}
{"id": "C50", "title": "import loads a package at most once", "statement": "In any sequence of (possibly nested or circular) imports every package body is executed at most once.", "quantifier": "for every import graph and order", "why_tests_cant": "graphs and orders are unbounded", "anchors": ["src/runtime.c: builtinImport"]}
{"id": "C51", "title": "Markup escaping cannot be broken out of", "statement": "The text written for a string contains no raw < > & or quote, and un-escaping it gives the string back.", "quantifier": "for every string", "why_tests_cant": "all strings", "anchors": ["lib/sxml.cora: escape"]}
{"id": "C52", "title": "car and cdr of a non-pair abort", "statement": "(car (cons a d)) is a and (cdr (cons a d)) is d; car and cdr applied to anything that is not a pair abort the program instead of reading unrelated memory.", "quantifier": "for every value", "why_tests_cant": "every non-pair value, including every number", "anchors": ["src/types.h: car, cdr, PRIM_CAR, PRIM_CDR", "lib/toc.cora: *builtin-prims*"]}
{"id": "C53", "title": "The answers of a relational goal are its solutions", "statement": "When the search for a goal of the relational library ends, every way of filling in the variables that one of its answers describes makes the goal hold; conversely every way of filling in the variables that makes the goal hold is described by one of the answers. Unifying two terms gives exactly the ways of making them equal, following the bindings of a variable always ends, and reading a term through an answer gives the datum it stands for.", "quantifier": "for all goals built from ==, call/fresh, conj, disj, delays and recursive relations, all terms, all starting states and all assignments of data to variables", "why_tests_cant": "The set of solutions is infinite and a test looks at a few answers of a few goals; a missing or a spurious answer of another goal goes unnoticed.", "anchors": ["lib/ukanren.cora: unify, unify1, walk, ext-s, ==, call/fresh, disj, conj, mplus, bind, take-all, walk*"]}
{"id": "C54", "title": "Parser combinators implement parsing expression grammars", "statement": "A parser built with the parsing library accepts a list of tokens, with the value and the rest that the parsing expression grammar it describes prescribes, exactly when the grammar accepts them: an alternative is tried on the tokens its predecessor was tried on, a repetition stops before the first thing it rejects, a test consumes nothing, and running out of input is a rejection, not an error.", "quantifier": "for all parsers built from the primitives and combinators, recursive ones included, and all lists of tokens", "why_tests_cant": "Backtracking only goes wrong for a choice or repetition whose operand consumes tokens before it rejects; tests of the usual grammars with one token of lookahead never reach it.", "anchors": ["lib/peg.cora: <char>, <string>, <satisify>, <range>, <eof>, @seq, @or, @!, @+, @*, @?, $map, $bind"]}
{"id": "C55", "title": "The prompt computes what the program means", "statement": "Whatever value an expression gets at the prompt or in a script, and whatever global variables it sets, are those that the language, and hence the compiled program, gives: locals hide globals, imports are consulted in order, arguments are evaluated from left to right, definitions are visible afterwards. Conversely, an expression that has a value in the language gets it at the prompt.", "quantifier": "for all expressions, all initial global variables, all lists of imported packages", "why_tests_cant": "The interpreter is a second implementation of the language; tests compare the two on a few expressions, and the differences need a partial application, a rebound primitive or a doubled parameter to show.", "anchors": ["lib/eval.cora: eval, lookup, lookup-var", "src/runtime.c: applyClosureForEval, makeClosureForEval, builtinApply", "main.c: repl"]}
{"id": "C56", "title": "Type unification finds the most general unifier", "statement": "Unifying two types under the equations already known succeeds exactly when some assignment of types to variables satisfies the equations and makes the two types equal, and then the new equations have exactly those assignments as solutions. It always ends, and so does filling in what is known in a type.", "quantifier": "for all types, all sets of equations that earlier unifications left", "why_tests_cant": "Whether an answer is most general is a statement about all assignments; a wrong occurs check shows only on types that contain a variable below the constructor it forgets, and then as a loop somewhere else.", "anchors": ["lib/infer.cora: unify, unify1, occur?, apply-subst"]}
{"id": "C57", "title": "The type checker accepts exactly the typable expressions", "statement": "An expression that has a simple type under the declared types of the global names is accepted by the type checker at every type scheme it is an instance of, and the checker answers; conversely, an expression that is accepted has a simple type that solves the equations answered.", "quantifier": "for all expressions, all declared types, all expected types", "why_tests_cant": "The checker threads substitutions through every rule; an equation dropped or variable reused is noticed only by expressions that use a variable twice in incompatible ways, or only by particular typable ones.", "anchors": ["lib/infer.cora: check-type, check-type-h, check-type!, forget, extend, *type-rule*"]}
{"id": "C58", "title": "Asynchronous sends and receives transfer exactly the buffer", "statement": "When send returns ok the system has taken exactly the bytes of the buffer, once and in order, whatever pieces it took them in and whatever other connections did meanwhile; when recv returns ok the buffer holds exactly the bytes delivered. Every task is resumed at most once, and a waiting send is resumed when the system has taken the rest.", "quantifier": "for all buffers, all numbers of connections and tasks, all sequences of operations, events and answers of the system", "why_tests_cant": "Partial writes, blocked calls and errors happen in an order the network chooses; a test sees small buffers taken whole.", "anchors": ["lib/async.cora: send, recv, accept, send-op, send-handler, recv-handler", "lib/net.c: netSend, netRecv"]}
{"id": "C59", "title": "The event loop holds exactly the open connections that were waited on, and waiting tasks are reported", "statement": "After any use, the event loop's list is well formed and contains exactly the connections registered with the system: registering adds a connection once, closing removes it. The scheduler finds whether some task waits, and for every task that waits on an open connection the system has been asked to report what it waits for.", "quantifier": "for all sequences of operations and events on all connections", "why_tests_cant": "A broken link or a lost registration shows only after particular interleavings of registering, completing and closing, and then as a program that hangs.", "anchors": ["lib/async.cora: event-loop-add, conn-close, add-to-event-loop-conns, del-from-event-loop-conns, blocked-queue-empty?, scheduler", "lib/epoll.c: pollReadAdd, pollWriteAdd, pollCtlMod, pollCtlDel"]}
{"id": "C60", "title": "A trace file reads back as the events that were traced", "statement": "After trace-enable, any events and trace-disable, the file holds exactly the events emitted in between, in order, with their names, threads, identifiers and times, as the viewer's reader decodes them; nothing is written outside the trace buffer. A traced function is entered exactly as before, between a begin and an end event that match, and untrace restores the function.", "quantifier": "for all sequences of trace-enable, trace-disable and events, all names, all nestings of traced functions", "why_tests_cant": "The buffer is flushed only after a megabyte of events, and the header's narrow fields lose information only for names and numbers no test uses.", "anchors": ["src/trace.h: traceEmitEvent, traceFlush", "src/trace.c: traceInit, traceClose", "lib/trace.c", "tools/trace.go"]}
{"id": "C61", "title": "define-record defines a type with working constructor, predicate, getters and setters", "statement": "After a define-record, exactly the constructor, the predicate and the getters and setters named in it are defined. The constructor makes a new record and changes no other object; each getter of a field the constructor sets gives the argument passed for it. A setter changes exactly its field of exactly that record. The predicate is true of exactly the records of the type, and false of records of types with other names.", "quantifier": "for all record types whose names are distinct and capture no primitive, all arguments, all states of the heap, all values given to the predicate", "why_tests_cant": "Tests use one record with two fields; which generated index goes with which field, for any number and order of fields and constructor parameters, is a statement about the macro.", "anchors": ["lib/define-record.cora: rewrite-define-record, rewrite-field-h, field-index"]}
{"id": "C62", "title": "A choice commits to one ready alternative, or waits on all", "statement": "Performing a choice tries its alternatives in an order that is a permutation of them. If some alternative is ready, exactly one of the ready ones is taken: its partner is resumed with its value, the performer with the wrapped value, and nothing is left waiting. If none is ready, the performer waits on every alternative, and everything that waited before still waits. Any alternative can come first.", "quantifier": "for all lists of alternatives, all outcomes of the random generator, all states of all channels reached by any history", "why_tests_cant": "The order depends on a random generator; a test sees a few of its outcomes.", "anchors": ["lib/cml.cora: choice, choice-op, shuffle, random-split, random-merge"]}
{"id": "C63", "title": "let-loop is a loop", "statement": "Evaluating (let-loop f (x1 e1 ... xn en) body) evaluates the initial values from left to right and then the body with each variable bound to its value; a call of f in the body evaluates its arguments and the body again with the new values, in the surroundings of the loop. Inside the body f is the loop, and every name that is neither f nor a variable means what it means outside.", "quantifier": "for all loops with at least one variable, all bodies, environments and global states, terminating or not", "why_tests_cant": "The expansion applies a function to itself and depends on partial application; that it equals a loop for every body is a statement about all programs.", "anchors": ["lib/let-loop.cora: rewrite-let-loop-macro"]}
{"id": "C64", "title": "Files are opened, read, copied and written exactly", "statement": "open-output-file on a path makes the missing directories on the way and an empty file there, and changes no other file and no other directory. read-all gives exactly the bytes left in the stream (those before the error, when reading fails). copy moves exactly those bytes to the target. write-bytes writes exactly the bytes given and answers their number.", "quantifier": "for all paths without NUL whose directory part is shorter than 1024 bytes and has no file in the way, all file systems, all lengths of streams and data", "why_tests_cant": "Tests use a few short paths and files; a path with doubled or trailing slashes, a directory part of 1024 bytes, a length that is a multiple of the batch, and a full disk are cases no test meets.", "anchors": ["lib/io.c: mkdirP, builtinOpenOutputFile, ioReadAll, ioCopy, ioWrite"]}
{"id": "C65", "title": "exec runs the words it is given and answers come back unchanged", "statement": "The command that exec and popen pass to the shell consists of exactly the words in the argument list. The status exec answers is the number the system gave, as is the status pclose answers. (randN n) is a number from 0 to n-1, and each of them is possible.", "quantifier": "for all argument lists, all statuses, all n and all states of the random generator", "why_tests_cant": "Which characters an argument may contain, and which statuses survive the conversion, ranges over all strings and numbers.", "anchors": ["lib/os.c: cmdListStr, exec, pcloseFn", "lib/rand.c: builtinN"]}
{"id": "C66", "title": "The C file the compiler writes is the program", "statement": "For every program, compiling to C writes a file that a C compiler accepts; loading the compiled file registers the globals the program uses and starts at its top level; and running it ends with the value and the global variables that the program has in the language.", "quantifier": "for all programs, all names of variables, all constants, all states of the runtime", "why_tests_cant": "The generator pastes names, numbers and strings into C text. Whether every name gives an identifier, no name collides with a word of C or of the runtime, and every nesting of statements parses back as meant ranges over all programs; tests compile a handful.", "anchors": ["lib/toc.cora: generate-inst, generate-toplevel-lambda, generate-entry, generate-c", "lib/toc/internal.c: generate-sym, generate-num, generate-str, generate-cstr"]}
{"id": "C67", "title": "The source file is the program that is compiled", "statement": "compile-to-c on a file reads exactly the forms written in it, makes the imports of its header in order before anything is compiled, and compiles the forms of the file in order: type annotations have no effect unless type checking is on, and then every form is checked, in order, before any of them runs; a (package ...) form means its body in that package, with its imports at hand and its exports recorded. The C file written computes what the program in the file computes. A text that is not a sequence of forms is rejected.", "quantifier": "for all texts with any layout and comments, all numbers and kinds of forms, all headers, all programs", "why_tests_cant": "The claim joins the reader, the preprocessor, the macros, the packages, the compiler and the C generator for every file; a test compiles one file, and a form dropped or reordered, or an export lost, shows only in files that have that shape.", "anchors": ["src/runtime.c: builtinReadFileAsSexp", "lib/toc.cora: handle-import-eagerly, split-type-and-code, extract-typecheck-body, generate-typecheck-code, split-type-and-code-toplevel, preprocess, compile-to-c", "init.cora: cora/init#parse-package-h, package"]}
{"id": "C68", "title": "The compiler accepts every legal program and collects exactly the names it mentions", "statement": "A program made of the core forms, in which primitives get the arguments they take and local names are neither reserved nor bound twice in one scope, is always compiled, never refused, and always to the same functions. The symbol table written into the C file lists each global name the program refers to and each datum it quotes exactly once, and nothing else.", "quantifier": "for all programs of any size and nesting, all numbers of gensyms used before", "why_tests_cant": "Acceptance of every program in a class is a statement about all nestings of forms: the compiler rewrites nested conditionals and redexes on the way, and a rewriting that loops or produces a form that it then refuses shows only for particular nestings. A missing symbol shows only in the program whose nesting loses it.", "anchors": ["lib/toc.cora: parse, closure-convert, tailify, tailify-list, add-symbol-to-list, compile"]}
{"id": "C69", "title": "Conditions on a source file under which it compiles to a C file with the same meaning", "statement": "A source file whose program binds every local variable once per scope, under a name that is not a word of C, of the compiler or of the generated code, applies primitives to the arguments they take, and uses symbols and strings that C can spell, is always compiled to a text that is a C file, whether or not the program ever ends. When the program has a value, running the C file ends with this value and the same global variables.", "quantifier": "for all source texts, all programs of the surface language of any size, all exports of imported packages, all gensym counters and gensym addresses, all initial globals", "why_tests_cant": "The conditions are on the text the user writes, the conclusion is on the text of the C file after six passes. A test shows one program; a condition that is too weak shows only for a nesting of let, match and func that the test does not contain.", "anchors": ["lib/toc.cora: compile-to-c, parse, tailify, generate-inst", "init.cora: let, match, func, macroexpand, parse", "main.c: main"]}
{"id": "C70", "title": "Compilation as the cora program does it: with the partial evaluator, for the language as it is defined", "statement": "After start-up the compiler simplifies every program with the partial evaluator before it compiles it. For a source file whose simplification captures no variable and drops no effect, and whose operands are not assigned between their evaluation and their use, which can be read off the program, running the written C file ends with the value and the global variables that the program has in the language.", "quantifier": "for all source files and programs of the surface language, all exports, all arithmetic, all initial globals in which only set is the primitive set, all runs", "why_tests_cant": "The partial evaluator runs inside the macro expander as well as after it, and which substitution goes wrong depends on the names and effects in the whole program. Whether an operand is read too late depends on what a called function assigns, at any depth.", "anchors": ["main.c: main", "init.cora: macroexpand, cora/init#rewrite-match", "lib/eval.cora", "lib/peval.cora: peval, peval-let, peval-app", "lib/toc.cora: compile-to-c"]}
{"id": "C71", "title": "Running a script", "statement": "`cora file args...` ignores the first line of the file, which may be a #! line, binds *command-line-args* to the list of the arguments with the script first, and evaluates the remaining forms one after the other: every form has the value, and leaves the global variables, that the sequence of the forms up to it has in the language.", "quantifier": "for all script files, all argument lists, all contents of the uninitialised line buffer without a newline at its last byte, all imported packages and exports, all initial globals, all arithmetic, all numbers of forms", "why_tests_cant": "the first line, the arguments and the forms range over all texts and lists; each form is expanded, simplified and interpreted in the store that all earlier ones left, so the statement is about every sequence of evaluations", "anchors": ["main.c:repl", "main.c:shebang", "lib/eval.cora:eval", "init.cora:macroexpand", "src/reader.c:sexpRead"]}
{"id": "C72", "title": "Monads and multiple values", "statement": "The state monad of cora/lib/monad threads the state: a return leaves it alone and delivers its value, a bind runs the first action and then, from the state it left, the action made of its result, through any number of steps. The continuation monad delivers values the same way; reset gives the value its computation delivers, and inside it (shift k body) is body with k bound to the rest of the computation up to the reset, to be called any number of times or never. (let-values (x ...) (values e ...) body) evaluates the e in order and then body with every x bound to its value.", "quantifier": "for all actions, functions, continuations and states that are values of the language, all initial globals, all effects the parts have, all numbers of steps, all expressions and names", "why_tests_cant": "actions and continuations are arbitrary functions with effects, applied in stages by partial application and over-application; the laws are equivalences between calls", "anchors": ["lib/monad.cora:state-return", "lib/monad.cora:state-bind", "lib/monad.cora:cont-return", "lib/monad.cora:cont-bind", "lib/monad.cora:reset", "lib/monad.cora:shift", "lib/sys.cora:values", "lib/sys.cora:let-values", "lib/sys.cora:call-with-values"]}
{"id": "C73", "title": "Appending to vectors under the collector", "statement": "Appending to a vector, in place or by growing into a new one, keeps the old elements and adds the new one after them, and no object that the program can reach is ever reclaimed or handed out again, whatever collections happen before, during and after.", "quantifier": "for all histories of allocations, reads, writes, appends, changes of roots and collector steps of any length, all vectors, sizes, capacities and values, all phases of the collector", "why_tests_cant": "a lost object shows only when a vector of a certain age is appended to in a certain phase and the slot is reused later; the histories are unbounded", "anchors": ["src/types.c:vectorAppend", "src/types.c:vectorGCFunc", "src/gc.c:writeBarrierForIncremental", "src/gc.c:writeBarrierForGeneration"]}
{"id": "C74", "title": "The runtime's growable arrays hold what was put into them", "statement": "The growable arrays in which the runtime keeps calls, handlers, stack segments, global variables and packages answer every history of appends, reads, writes and removals as a list would; growing moves a constant number of elements per append; the table of a package is the one registered last; without memory the process ends instead of continuing with a broken array.", "quantifier": "all element types and sizes, initial capacities, amounts of memory, histories of operations and of registrations", "why_tests_cant": "Histories are unbounded and the failures need exhausted memory, more than 2^30 elements or memory that was not zero before.", "anchors": ["src/vector.h:_vector_append", "src/vector.h:_vector_init", "src/vector.h:vecPop", "src/runtime.c:coraNew", "src/runtime.c:addPackage", "src/runtime.h:getBinding"]}
{"id": "C75", "title": "Opening connections", "statement": "net-listen on host:port answers with the one descriptor it leaves open, bound to that host and port and listening; net-dial answers with the first address that can be reached and closes every other attempt; an answer of () means that nothing stays open and nothing is allocated.", "quantifier": "all address texts, descriptors, results of name resolution and answers of the system calls", "why_tests_cant": "Tests see the successful case on one machine; leaks, ignored hosts and port numbers that wrap need failing system calls and other interfaces.", "anchors": ["lib/net.c:splitHostAndPort", "lib/net.c:netListen", "lib/net.c:netDial", "lib/net.c:netAccept"]}
{"id": "C76", "title": "Polling asks for what is listed and hands on what is reported", "statement": "After net-poll-mod the system reports exactly the modes that were listed, after net-poll-del nothing, on every platform; net-poll hands on every report once.", "quantifier": "all histories of registrations of a descriptor, all lists of reports", "why_tests_cant": "The implementation for BSD and macOS never runs where the tests run, and errors on descriptors do not happen in tests.", "anchors": ["lib/epoll.c:pollCtlMod", "lib/epoll.c:poll", "lib/kqueue.c:pollCtlMod", "lib/kqueue.c:pollCtlDel"]}
{"id": "C77", "title": "Reading JSON documents", "statement": "For a document that json-load-file has read, json-typeof and the eight predicates tell its kind, the accessors give its strings, integers and sizes, and following any path of indexes and keys leads to the part of the document that the path names or to () where there is none.", "quantifier": "all documents, paths, indexes and keys; all words for the predicates", "why_tests_cant": "A test reads a few small documents; documents nest without bound, and indexes, keys and numbers at the edge of what a C int, a C string or a double holds do not occur in them.", "anchors": ["lib/json.c:jsonTypeOf", "lib/json.c:jsonArrayGet", "lib/json.c:jsonObjectGet", "lib/json.c:jsonIntegerValue", "lib/json.c:jsonStringValue", "src/types.c:mustCObj"]}
{"id": "C78", "title": "Tasks take turns", "statement": "Tasks started by spawn, yield and woken operations run in the order in which they became ready, each exactly once per turn; what a program shows is what tasks show that take turns in that order; cml-entry returns only when no task is left; a program that runs for ever needs bounded stack.", "quantifier": "all programs of tasks (any number, any behaviour, terminating or not), all external schedulers and worlds", "why_tests_cant": "Tests run a handful of tasks for a short time; fairness, loss of tasks and growth of the stack are about all interleavings and endless runs.", "anchors": ["lib/cml.cora:spawn", "lib/cml.cora:schedule", "lib/cml.cora:schedule-loop", "lib/cml.cora:yield", "lib/cml.cora:perform", "lib/cml.cora:run-external-schedulers"]}
{"id": "C79", "title": "What a program can still use is found by the collector", "statement": "When a collection starts while a program runs, every object the program can still use - held by the running function, by functions waiting for a result, by the result, by continuations not yet used, or waiting to be passed on as an argument - is found from what the collector looks at, so it is not reclaimed.", "quantifier": "all programs (any sequence of calls, tail calls, returns, partial and over-applications, apply, try, throw, resume, to any depth), any moment at which a collection can start, all objects", "why_tests_cant": "A collection must start at one particular moment of one particular program for a lost object to be noticed, and then only if its memory has been used again.", "anchors": ["src/runtime.c:coraGCFunc", "src/runtime.c:continuationGCFunc", "src/runtime.c:coraRun", "src/runtime.c:coraDispatch"]}
{"id": "C80", "title": "The collector reads only stack memory that is there", "statement": "A collection that starts while a program runs reads only stack memory that has not been freed: the frames of the machine and the frames held by continuations.", "quantifier": "all programs, any moment at which a collection can start, all continuations", "why_tests_cant": "Reading freed memory usually goes unnoticed; whether a frame's memory can have been freed depends on all ways of calling, throwing and resuming.", "anchors": ["src/runtime.c:coraGCFunc", "src/runtime.c:continuationGCFunc", "src/runtime.c:coraReturnSlowPath", "src/runtime.c:continuationAsClosure"]}
{"id": "C81", "title": "Macros a program defines", "statement": "macroexpand replaces each call of a macro, outermost first, by what the newest definition of that macro makes of the whole call, until none is left; quoted data and parameter lists are untouched; expanding again changes nothing; a macro whose name does not occur makes no difference.", "quantifier": "all expressions, all tables of macros, macros being arbitrary functions with side effects", "why_tests_cant": "Tests expand a few calls of a few macros; the claims are about all expressions and all macros, including ones that expand into one another.", "anchors": ["init.cora:macroexpand", "init.cora:cora/init#macroexpand-boot", "init.cora:cora/init#macroexpand1-h", "init.cora:cora/init#add-to-*macros*", "init.cora:defmacro"]}
{"id": "C82", "title": "Functions written in C are defined and exported under their package", "statement": "After a module of C functions is registered under a package, each of its names in the package is the function last given for it, taking the number of arguments the module declares; the package exports exactly those names; no other variable changes. Registering the functions one by one comes to the same. A program starts with exactly the builtin functions defined.", "quantifier": "all tables of functions, all package names, all global variables set before", "why_tests_cant": "Tests call some functions of the modules that exist; the claims are about every table, repeated names, repeated registration, and all variables that must not change.", "anchors": ["src/runtime.c:registerAPI", "src/runtime.c:coraRegisterAPI", "src/runtime.c:coraInit", "src/runtime.h:registerModule", "lib/io.c:entry", "lib/json.c:entry"]}
{"id": "C83", "title": "A Markdown file becomes the XML of its document", "statement": "Converting a Markdown file and writing the result as XML gives, for every document the parser finds, the XML of that document: each heading, list, item, task, quotation, code block, paragraph, emphasis, link, image and line break becomes its element, elements nest as in the document, texts and addresses are escaped once, raw HTML is left out, and the whole file is read first.", "quantifier": "all trees of blocks, spans and texts the parser can report under the flags that are set, of any size and depth; all files", "why_tests_cant": "Tests convert a few files; documents nest to any depth, the vector of open elements has to grow, and addresses, titles and languages arrive in any number of pieces.", "anchors": ["lib/md4c/wrap.c:md2sxml", "lib/md4c/wrap.c:process_file", "lib/md4c/wrap.c:md_sxml", "lib/md4c/wrap.c:enter_block_callback", "lib/md4c/wrap.c:render_attribute", "lib/sxml.cora:sxml->xml"]}
{"id": "C84", "title": "The collector is paced by what is alive", "statement": "A collection starts at the first check after more than the current allowance was allocated, and not before. The allowance is always at least one block and grows by at most half per collection; while the program keeps at most L bytes alive and allocates at most A bytes during a collection it never exceeds 3L+A, and while the generations hold at least M bytes it grows with every collection until it is M (up to two bytes). Computing it never overflows.", "quantifier": "all histories of allocations, checks, markings and collections, all sizes", "why_tests_cant": "Tests run a few collections of small heaps; the claims are about all histories and use rounding of doubles and conversions between 64 and 32 bits that only matter at sizes tests do not reach.", "anchors": ["src/gc.c:gcTriggerCheck", "src/gc.c:allocDone", "src/gc.c:gcStatsReset", "src/gc.c:gcInuseSizeInc", "src/gc.c:sweepLargeObjects"]}
{"id": "C85", "title": "load compiles the file, puts the library in its place and loads it only if the compiler succeeded", "statement": "Loading a file of the package directory compiles it to C and the C file to the library beside the source, by one gcc command with exactly the expected words; the library is loaded if and only if the command succeeded, otherwise its status is returned. It is the library that a later import of the same package takes. Files that sort before the package directory are compiled to a library in /tmp. The C files of all loads of one process have different names.", "quantifier": "all package directories, file names, source directories, statuses of the compiler and sequences of loads, up to the length of the command buffer", "why_tests_cant": "Tests load a few files from one directory with short names; the place of the library depends on a comparison with the package directory, on the length of names and on their characters.", "anchors": ["src/runtime.c:builtinLoad", "src/runtime.c:getCoraPath", "src/runtime.c:unique", "src/config.c:coraSrcDir"]}
{"id": "C86", "title": "A sequence of any number of parsers runs them in order", "statement": "(@seq p1 ... pn) expands to an expression for a parser that runs p1 to pn in order, each on the tokens the one before left. It accepts exactly when all accept, with the value (v1 ... . vn) and the tokens the last one left; otherwise it rejects or errs exactly like the first parser that does. A sequence of one parser is an error.", "quantifier": "all numbers of parsers from two up, all parsers, expressions with any macros in them, all token lists", "why_tests_cant": "Tests write sequences of two to five parsers; the macro is recursive and its result contains its own name, so that expansion ends at all is a property of the expander.", "anchors": ["lib/peg.cora:@seq", "lib/peg.cora:rewrite-@seq", "init.cora:cora/init#macroexpand-boot"]}
{"id": "C87", "title": "A program that embeds the language shares numbers, strings and variables with it", "statement": "Through the functions of cora.h, a number the host makes is that number in the language and comes back; a number the language computes is read by the host as that number; a string made from n bytes, or from a C string, has these bytes, and they can be read back; host and language see one set of global variables, each reading what either wrote last, and the host can read a variable that has no value yet.", "quantifier": "all ints, all numbers of the language up to 2^53, all strings, all interleavings of reads and writes by host and language", "why_tests_cant": "There are no tests of the embedding functions; the widths of C types matter only for some numbers and the layout of the variable table for some histories.", "anchors": ["src/export.c:coraMakeNumber", "src/export.c:coraFixnum", "src/export.c:coraMakeString", "src/export.c:coraMakeCString", "src/export.c:coraBytesData", "src/export.c:coraSymbolGet", "src/export.c:coraPrimSet", "src/cora.h"]}
{"id": "C88", "title": "Several machines of one process can load the same libraries", "statement": "When several machines of one process load compiled libraries, in any order, one of them more than once or by several machines, the code of a library reads the global variables of the machine that runs it, by the names its source gives them, and its quoted symbols are the symbols of its source; what one machine sets no other sees. This also holds when machines in different threads load libraries at the same time.", "quantifier": "all numbers of machines and libraries, all lists of names, all interleavings of loading, reading, quoting and setting", "why_tests_cant": "Every test runs one machine; the numbers that libraries get depend on the order in which all machines load them.", "anchors": ["lib/toc.cora:generate-entry", "lib/toc.cora:generate-c", "src/runtime.c:packageIDAlloc", "src/runtime.c:addPackage", "src/runtime.h:getBinding", "src/runtime.c:bindSymbol"]}
