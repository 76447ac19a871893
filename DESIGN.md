# Formal model of cora: design

Sources: `/repo` (C runtime in `src/`, libraries in `lib/`, compiler and macros
in cora-lisp: `init.cora`, `lib/*.cora`). Nothing in `/repo` is built or run; the
model below is a hand transcription into Gallina, function by function, with file
and line citations next to each definition.

## Approach

* One model file per component (`*Model.v`, no proofs inside), one proof file
  (`*Proofs.v`), and the statements of record in `*Props.v`, where every theorem is
  followed by a concrete `Example` meeting its hypotheses and by
  `Print Assumptions`.
* C undefined behaviour (out-of-bounds access, use of a freed segment, integer
  division by zero ...) and `__builtin_trap` are distinct outcomes of the model
  functions, never silently turned into a default.
* Machine words are `Z`/`N` with the wrap written explicitly where it matters.
* Where a property stated in `properties.jsonl` is false of the code, there is a
  theorem `..._refuted` with a witness, and a theorem with the strongest
  restriction that does hold (suffix `_partial` when it does not cover the full
  statement).

## Trusted base

* The Coq 8.16.1 kernel, including `vm_compute` for closed computations.
* Axioms: none of our own, and no theorem of record uses one.  `Print
  Assumptions` answers "Closed under the global context" for every theorem named
  in MANIFEST.json (checked for all of them together; the `*Props.v` files repeat
  it beside the statements).  The seven `Under_rel` constants that coqchk lists
  belong to the ssreflect plugin file that is loaded with the standard library;
  nothing here depends on them.
* The transcription: that the Gallina definitions in the `*Model.v` files say
  what the C and cora text says.  This is by reading; each definition cites the
  file and lines.
* The yardsticks: the definitions in the `*Spec.v` files and in the statements
  themselves.  They are written from the language or from the usual meaning of a
  data structure, and do not call the model.

## What is modelled

| file in /repo | model | left out |
|---|---|---|
| `src/gc.h`, `src/types.h` (boxing), `src/runtime.c` arithmetic | NumModel.v | floating point numbers that are not integers |
| `src/str.c`, `lib/string.c`, string-append | StrModel.v | malloc failure |
| `src/map.h`, `src/types.c` intern, globals of `src/runtime.c` | TrieModel.v | hash values (any function) |
| `src/types.c` conses, strings, vectors, `=` | HeapModel.v | bytes objects |
| `src/gc.c` marking, barriers, sweeping, versions | GcModel.v | addresses; the C stack scan is a set of words that may be stale |
| `src/gc.c` size classes, blocks, gray queue | AllocModel.v | payload bytes |
| `src/gc.c` large objects | LargeModel.v | more than one arena at once |
| `src/reader.c` | ReaderModel.v | the stream is a byte list; I/O errors |
| `src/runtime.c` trampolines, stack segments, calls, apply, try, throw, resume | VmModel.v | the heap (values are trees), what the functions between two calls do (they are arbitrary) |
| `init.cora` list functions, `lib/queue.cora`, `lib/hash.cora`, `lib/sys.cora` | LibModel.v | |
| `lib/parallel/internal.c`, `lib/parallel.cora` mailboxes, registry | MbModel.v | threads are interleaved at lock granularity; the event loop |
| `lib/chan.cora`, `lib/cml.cora` (operations) | ChanModel.v | timers |
| `src/runtime.c` import, load, CORAPATH | PkgModel.v | the file system is a function; `dlopen` |
| `lib/sxml.cora` | SxmlModel.v | |
| `lib/toc/internal.c`, texts of `lib/toc.cora` | EmitModel.v | the stream is a byte list |
| `lib/toc.cora`: parse, closure-convert, tailify, explicit-stack, collect-lambda | TocModel.v | the C compiler: a generated function is the list of its statements (TocMach.v), the text is covered by EmitModel.v and GenModel.v |
| `src/runtime.c`: `builtinReadFileAsSexp`; `lib/toc.cora`:607-679 | PreModel.v | the file exists and is a byte list; the effect of an eager import is recorded, not performed |
| `init.cora`: cora/init#parse (packages) | NsModel.v | |
| `init.cora`: macros, macroexpand | MacroModel.v | macros that programs add |
| `main.c`:93-109, `init.cora`:307-312, `lib/peval.cora`:129 | HookModel.v | the hook at every call of macroexpand |
| `main.c`:7-79 | ScriptModel.v | the loop behind the prompt, first line and arguments of a script |
| `lib/monad.cora`; `lib/sys.cora`:38-55 | MonadModel.v | the functions are their text, the macros functions on expressions; gensym is a counter |
| `src/types.c`:307-332 | GcVecModel.v | vectorAppend as a transition of the collector; unfilled slots are immediate values |
| `src/vector.h`; `src/runtime.c`: coraNew, addPackage | VecModel.v | memory is a list of elements; the largest allocation granted is a parameter |
| `lib/net.c`: netListen, netDial, netAccept; `lib/epoll.c`; `lib/kqueue.c` | SockModel.v | the answers of the system are arguments; kevent stops at the first request that fails, as it does without a place for errors |
| `lib/json.c`, `src/types.c` makeCObj, mustCObj | JsonModel.v | the parser and the reference counts of jansson are left out; its accessors are functions of a node |
| `lib/cml.cora` task queue, spawn, schedule, schedule-loop, yield, perform, external schedulers | SchedModel.v | what tasks compute is any step function; a captured continuation is the state of the task (C25); the stack is counted in waiting calls of schedule-loop |
| `src/runtime.c` coraGCFunc, continuationGCFunc | RootsModel.v | without the globals; on the machine of VmModel.v; a collection may start between any two steps |
| `init.cora` macroexpand with user macros | UmacModel.v | macros are arbitrary functions with state; the name space pass (NsModel.v) that follows is not included |
| `src/runtime.c` registerAPI, coraRegisterAPI, coraInit | RegModel.v | objects are known by their content; the collector |
| `lib/md4c/wrap.c` | MdModel.v | the parser md4c (its calls are given); the collector |
| `src/gc.c`:176-199, 236-241, 285-302, 377-396, 898-948 | PaceModel.v | marking and sweeping themselves (GcModel.v); the debug counters |
| `src/runtime.c`:408-460, `src/config.c` | LoadModel.v | what gcc and dlopen do |
| `lib/peg.cora`:118-123 | PegMacModel.v | |
| `src/types.c`:154-168 and `src/map.h`:28-62 by several procs | TrieRaceModel.v | mapGet and the search of mapSet are one step |
| `src/export.c` | ApiModel.v | vectors, pairs and calls (C16, C21); coraReturn |
| generated entry functions, packageIDAlloc, addPackage, getBinding | MultiModel.v | memory of the tables |
| `lib/peval.cora` | PevalModel.v | |
| `lib/peg.cora` | PegModel.v | parsers are syntax trees; tokens are numbers; predicates and functions given to parsers are pure |
| `lib/eval.cora`, `apply` and the closures it uses in `src/runtime.c` | ReplModel.v | the list of imported packages is fixed during an expression; no compiled functions; the three-argument frame of interpreted closures is not modelled |
| `lib/infer.cora` | InferModel.v | types are int, bool, string, symbol, variables, functions, lists; no deftype; what is printed is left out |
| `lib/async.cora`; `lib/net.c`: netSend, netRecv, pollAdd, pollMod, pollDel; `lib/epoll.c`: pollReadAdd, pollWriteAdd, pollCtlMod, pollCtlDel | NetModel.v | the system's answers are given as scripts; a connection is its descriptor, which is not reused; continuations are numbers; dial, listen and time-outs left out |
| `src/trace.h`, `src/trace.c`, `lib/trace.c`, `tools/trace.go`: the reader | TraceModel.v | one thread; file writes succeed; the clock's answer is part of the event |
| `lib/define-record.cora`: all | RecModel.v | gensym is a counter; the expansion is run by a small evaluator for what it contains (RecSpec.v) |
| `lib/cml.cora`: `choice`, `shuffle`, `random-split`, `random-merge` | ChoiceModel.v | the random generator is any stream of coin tosses |
| `lib/let-loop.cora`: all | LoopModel.v | gensym is a counter |
| `lib/io.c`: all but display; `lib/os.c`: `cmdListStr`, `exec`, `pcloseFn`; `lib/rand.c` | IoModel.v | the file system is directories and files (no permissions, links, . or ..); a stream is its bytes and the place of an error; the shell is only asked to split words |
| `lib/toc.cora`:257-605, the C generator | GenModel.v | the stream is a byte list; the C subset that is read back (lexer, grammar, meaning) is in CSpec.v and written independently of the generator |
| `lib/ukanren.cora` | KanModel.v | goals are syntax trees with numbered variables instead of closures |

Not modelled: the parser of `md4c` (third party; the calls it makes are the input of MdModel.v), `init.c` and `toc.c` (output of the compiler
that is modelled), the debugger.

Conformance: `/repo/Makefile` (target bootstrap) demands that the compiler, run
on init.cora and lib/toc.cora, writes exactly init.c and lib/toc.c.
`conformance/run.py` makes the model do the same: `hcompile_to_c` (reader,
expander with the partial evaluator, package renaming, compiler passes,
generator), computed by Coq on these two texts, gives the two files byte by byte
(123025 and 228548 bytes), the numbers of the symbols made by gensym included,
but for the number of the first. The one thing done by hand is the macro `->` that
toc.cora defines and uses twice. The cases of src/eval_test.c without try and throw, compiled by
the model and run under the semantics of CSpec.v, give the outputs stated there
(23 cases). These are tests of the model, not proofs.
`conformance/conditions.py` computes which files of the repository meet the
conditions that the theorems about compiled files (C70) put on the expanded
program: 11 of 18 meet all of them (init, cml, define-record, hash, let-loop,
monad, parallel, peval, queue, sxml, ukanren). toc, chan and sys miss only the condition
that no operand is assigned before its use, which is decided from the text
and is on the safe side; async and peg rebind a parameter in a pattern, eval and infer
use primitives as values; tvar of infer is finding 62.

The models meet at their borders: SurfSpec (source language) -> MacroModel ->
NsModel -> TocModel -> TocMach -> VmSpec -> VmModel is one chain of theorems
(`compile_program_partial`, `compile_on_vm_partial`); GenModel and CSpec join it at
TocMach (`compile_to_c_partial`), and ReaderModel and PreModel at its head
(`file_to_c_partial`: from the text of the source file to the text of the C file and its run).  The heap and the collector
are not connected to that chain: VmModel works on trees.

## Plan by property

| id | title | status | how |
|---|---|---|---|
| C01 | Boxed values are unambiguous | partial | words as `Z` below 2^64; arithmetic on bit ranges |
| C02 | Integers survive boxing | partial | int64 to IEEE double by exponent and mantissa; rounding proved against the real value |
| C03 | Integer arithmetic and comparison are exact | partial | as C02, exactness from |result| <= 2^53 |
| C04 | Integer division is the quotient | partial | witness; what `/` does compute is characterised |
| C05 | = is structural equality | proved | heap words denote trees; induction on the tree |
| C06 | String buffers hold exactly what was written and never overflow | partial | induction over operation lists against byte-list semantics |
| C07 | Substring search finds the first occurrence | proved | loop invariants |
| C08 | String comparison is a total order | proved | induction on bytes |
| C09 | string-slice, has-prefix? and string-index stay inside the string | partial | case analysis of the index arithmetic |
| C10 | string-replace replaces the first occurrence only | proved | from C07 |
| C11 | string-split pieces join back to the input and contain no separator | partial | induction on the rest of the string |
| C12 | string-append concatenates any two strings | partial | direct |
| C13 | The hash trie is a finite map | proved | invariant of the trie for any hash |
| C14 | Interning identifies names | partial | refinement of the symbol table to a map from names |
| C15 | Global variables behave as independent cells | proved | refinement to a store; cached addresses stay valid |
| C16 | Vectors are arrays with checked bounds | partial | operation lists against an array |
| C17 | Appending to a vector preserves the elements | partial | operation lists, growth of the allocation explicit |
| C18 | Printing then reading gives the datum back | partial | induction on data, printer against reader |
| C19 | Layout does not matter to the reader | partial | soundness and completeness of the reader for a grammar |
| C20 | The reader is safe on every input | partial | fuel bound from the text; witnesses |
| C21 | Application is insensitive to argument grouping | proved | machine state after any grouping equals that of the full call |
| C22 | Calls and returns never leave the stack | partial | simulation between segments and activations |
| C23 | Tail calls run in constant space | partial | bound carried along the run |
| C24 | try/throw transfers control to the innermost handler | partial | induction over the calls below a try |
| C25 | Resuming a captured continuation continues the computation | partial | the captured segments put back on the activations |
| C26 | Version comparison is age comparison | proved | arithmetic modulo 64 |
| C27 | Surviving objects get a version that outlives the next collections | proved | arithmetic modulo 64 |
| C28 | Reachable objects are never reclaimed | proved | inductive invariant over all interleavings |
| C29 | Garbage is eventually reclaimed | partial | age bounds and a potential function |
| C30 | The small-object allocator never hands out memory in use | partial | inductive invariant over block lists |
| C31 | Large objects tile their arena | partial | tiling invariant |
| C32 | Size classes fit | proved | table lookup, all requests |
| C33 | The gray queue is FIFO and loses nothing | proved | queue of blocks refines a list |
| C34 | Compiled code computes what the source means | partial | one simulation per pass, source evaluator to machine |
| C35 | Closure conversion respects lexical scope | partial | simulation with a renaming of captured variables |
| C36 | Saved frames hold every variable needed after a call | proved | liveness analysis is sound, lifted to runs |
| C37 | match picks the first matching clause | partial | evaluator of the source language against the expansion |
| C38 | Derived forms mean what they should | partial | evaluator of the source language against the expansion |
| C39 | Names in packages resolve lexically | partial | evaluator by package against the renamed program |
| C40 | String literals survive code generation | partial | a C lexer reads the emitted text back |
| C41 | Different variables get different C names | partial | injectivity of the encoding of names |
| C42 | The partial evaluator preserves meaning | partial | relation between expressions and their simplifications carried through evaluation |
| C43 | List library functions meet their specifications | proved | induction on lists, effectful arguments included |
| C44 | Queue is FIFO | proved | refinement to a list |
| C45 | Hash table is a map | partial | refinement to a map |
| C46 | Mailbox queue is FIFO | partial | interleavings of senders and receivers |
| C47 | A receiver never sleeps while a message is waiting | partial | invariant over interleavings |
| C48 | Mailbox registry resolves published names | proved | table invariant |
| C49 | Channels deliver each value to exactly one receiver, in order | partial | histories of arrivals |
| C50 | import loads a package at most once | proved | trace of package bodies |
| C51 | Markup escaping cannot be broken out of | partial | induction on the string |
| C52 | car and cdr of a non-pair abort | partial | case analysis on the word |
| C53 | The answers of a relational goal are its solutions | partial | substitutions as sets of valuations; induction on the search |
| C54 | Parser combinators implement parsing expression grammars | partial | evaluation of parsers against derivations of the grammar, both ways |
| C55 | The prompt computes what the program means | partial | simulation of the interpreter by the evaluator of C39 and back |
| C56 | Type unification finds the most general unifier | partial | triangular substitutions; size of the common instance; unbound variables and size |
| C57 | The type checker accepts exactly the typable expressions | partial | induction on typing derivations with growing assignments; non-interference of fresh variables |
| C58 | Asynchronous sends and receives transfer exactly the buffer | partial | invariant over all histories of operations and events |
| C59 | The event loop holds exactly the open connections that were waited on, and waiting tasks are reported | partial | separation-style invariant on a doubly linked list, over all histories |
| C60 | A trace file reads back as the events that were traced | partial | codec round trip over all sessions |
| C61 | define-record defines a type with working constructor, predicate, getters and setters | partial | the expansion, run by an evaluator of its own, against a description of record types |
| C62 | A choice commits to one ready alternative, or waits on all | partial | induction over coin tosses; invariant of all histories of channels |
| C63 | let-loop is a loop | partial | equivalence of the expansion with the body, in the evaluator of the language (CoreSpec.v) |
| C64 | Files are opened, read, copied and written exactly | partial | invariant of the loop over the path, against a file system; induction over batches |
| C65 | exec runs the words it is given and answers come back unchanged | partial | induction over the arguments; the number representation of C02 |
| C66 | The C file the compiler writes is the program | partial | printer and parser of the C subset are inverse; the generated text lexes to the printed tree; simulation of the statements of a function; scope invariants through the passes of the compiler give the condition on the functions from one on the source |
| C67 | The source file is the program that is compiled | partial | the grammar of C19 extended to files; inductions over the forms of a file; composition with C37, C39 and C66 |
| C68 | The compiler accepts every legal program and collects exactly the names it mentions | partial | induction on the depth of the program: a bound on the fuel that parse needs (4 per level, for the rewritten conditionals), totality of tailify by induction on expressions, and the globals that parse adds compared with those the source mentions |
| C69 | Conditions on a source file under which it compiles to a C file with the same meaning | partial | an inductive class of core programs (fine) that implies all conditions of the compiler and the generator; a class of expanded programs (nf) that renaming maps into it; and an induction over the surface program that its expansion is in that class, with the lets of every part tracked to show that no C block declares a name twice |
| C70 | Compilation as the cora program does it: with the partial evaluator, for the language as it is defined | partial | a comparison of expanders with different hooks; composition of C41, C42 and C69 in the lax reading; and an invariant of evaluation (no value contains set, the versions of variables that functions do not assign do not change) from which the strict reading follows |
| C71 | Running a script | partial | the reader part from C19, the rounds by comparing interpretation with imports and counters to interpretation of one nested do without them, then composition of C37, C39, C42 and C55 |
| C72 | Monads and multiple values | proved | the functions are read from the text of the library; their calls are unfolded with the relational form of the evaluator (C63), in which a call with too few or too many arguments is staged |
| C73 | Appending to vectors under the collector | partial | appends are refined to sequences of the operations of C28 |
| C74 | The runtime's growable arrays hold what was put into them | partial | the array refines a list; cost by a potential argument on the capacity |
| C75 | Opening connections | partial | events seen by the system as a list; induction over the addresses |
| C76 | Polling asks for what is listed and hands on what is reported | partial | registrations per descriptor; simulation between the two implementations |
| C77 | Reading JSON documents | partial | documents as trees represented in a store of nodes; induction over the path |
| C78 | Tasks take turns | partial | step function over any type of task states; invariants, and simulation in both directions with a flat specification |
| C79 | What a program can still use is found by the collector | partial | what coraGCFunc and continuationGCFunc read, closed under parts; from the simulation of C21-C25 every initialised slot of the abstract machine is in a slot that is read |
| C80 | The collector reads only stack memory that is there | partial | the same simulation: all frames lie in live segments |
| C81 | Macros a program defines | partial | expander over any table of stateful macros; soundness and completeness against inductive rules, then induction over the rules |
| C82 | Functions written in C are defined and exported under their package | proved | registration functions over the global table of C15, induction over the table of functions |
| C83 | A Markdown file becomes the XML of its document | partial | the callbacks function by function over trees of calls; induction on the tree with the stack of open elements kept, then the documents of C51 |
| C84 | The collector is paced by what is alive | proved | counters over histories of events, doubles as rounded integers; invariants by induction on the history |
| C85 | load compiles the file, puts the library in its place and loads it only if the compiler succeeded | proved | actions of one load over string buffers; words of the command as the shell splits it; induction over the loads of a process |
| C86 | A sequence of any number of parsers runs them in order | proved | the rules of expansion of C81 applied to the macro; induction over the list of parsers, whose runs are those of C54 |
| C87 | A program that embeds the language shares numbers, strings and variables with it | partial | the models of C02, C09 and C15 behind the exported functions; induction over histories of host and language |
| C88 | Several machines of one process can load the same libraries | partial | the variable table of C15 once per machine, the counter and the number of each library shared; invariant over histories |

Every entry with status partial names in MANIFEST.json what is missing.  In most of
them the missing part is false of the code and a `..._refuted` theorem beside it
shows why.

## Findings

Statements of `properties.jsonl`, or natural extensions of them, that are false of the
code, each with a machine-checked witness unless marked (by reading).

Numbers, strings, data
1. `/` divides the bit patterns of its operands, not the numbers (`division_refuted`); division by zero is undefined.
2. `vector?` looks into the heap before it checks the type (`vector_predicate_safe_refuted`); integers beyond 2^53 are merged and 2^63-1 cannot be read back.
3. `(string-append "" "")` aborts; the last piece of `string-split` may contain the separator; `string-index` reads outside for a start out of range; a negative shrink corrupts a buffer.
4. A name with a NUL byte is truncated when interned; a symbol of 255 bytes or more cannot be turned into a string.
5. Vector indices beyond 32 bits wrap, negative sizes corrupt memory, appending to a vector of capacity 0 aborts.
6. `car` and `cdr` in compiled code do not check their operand.

Reader
7. Dotted pairs, strings with quotes or backslashes, numbers beyond int and long strings do not survive printing and reading; byte 255 is the end of the file; `( )` is not `()`; an unclosed list makes the reader loop; long tokens overflow its buffers.

Collector
8. Large objects that died in an earlier cycle come back to life when versions wrap; requests in the last 4095 bytes below 64 MB are never served.
9. (by reading) `sweepSizeClass` reads `sizeClass[19]`, one past the end; `coraNew` leaves `globals`, `pkgs` and `res` uninitialised.

Machine
10. A call with too many arguments, a `try`, a `throw` or a resume at the end of a stack segment aborts or continues in the wrong frame; `throw` across an over-application loses the pending arguments; a continuation can be resumed once only; tail calls of `apply` use stack.

Compiler
11. A global that is read as an operand is read late: setting it in a later operand changes the earlier one (`late_global_refuted`).
12. A local named like a primitive is compiled as the primitive; a partial application of a primitive evaluates its operands late and again.
13. A let that rebinds a captured variable inside the function reads the captured one (`rebound_capture_refuted`); two lets of one name in a function leak into each other in C.
14. The frame of the top level gets three slots from `load-so` whatever it needs (`top_frame_refuted`).
15. Strings with a backslash or NUL, and names of globals with quotes, are emitted wrongly; different names become one C identifier, or one that the generated code uses itself.
16. (by reading) redefining a primitive has no effect on compiled code; an unbound global reads as undefined; quoted lists cannot be compiled.

Macros and packages
17. `match` on an expression written with `cons` evaluates its parts again for each pattern; a pattern variable captures the variable that is matched; a global that is matched is read again in each clause; a definition inside what is matched is renamed outside of its package.
18. A literal true in `or`, or false in `and`, drops the effects of the operands before it; improper lists in a backquote lose their tail; bodies of `lambda` after the first expression are dropped; `(begin)` fails.
19. Macros are not shadowed by local variables; locals named `cons`, `car`, `cdr`, `cons?` or `=` capture what expansions use.
20. A local with `#` in its name captures a global of a package; `def` under a local named `set` calls it; an own definition is hidden by an import of the same name.

Partial evaluator
21. Variables are captured, globals that change are substituted, effects are dropped, locals named like primitives are taken for them, and operands are simplified twice with one environment (seven refutations in PevalProps.v).

Libraries
22. `hash-del!` removes the first entry of the bucket; negative and UTF-8 keys index outside; capacity 0 divides by zero; `dequeue` of an empty queue dereferences the empty list; `length` of an improper list is undefined.
23. A message sent to a sleeping receiver is lost, as is `false`; wake-ups are lost; publishing a name twice or the 256th name fails; a channel loses `false` and a choice may commit twice.
24. A package imported under two names runs twice and a failed import is not retried; an empty CORAPATH entry is the root directory.
25. A backslash is escaped as an apostrophe in markup.
26. In `lib/ukanren.cora` an equation that holds without binding a variable fails when nothing is bound yet; no occurs check, and unification can run forever; `procedure?` is never true of a closure, so whatever `fresh`, `conj+`, `disj+` and `conde` delay cannot be searched; `reify-name` calls `string.append`, which `lib/string.c` does not define (by reading). `reify-name` calls `string.append`, which does not exist, so reifying an answer with a free variable ends the process (`reify_open_refuted`).
27. In `lib/peg.cora` the second alternative of `@or` starts where the first one failed, `@*`, `@+` and `@?` lose the tokens that the last attempt consumed, and `<string>` raises an error when the input ends inside the string; `@!` returns a global that is never set.
28. At the prompt (`lib/eval.cora`) a call with fewer or more arguments than the function takes stops the process (`builtinApply` asserts), although compiled code supports both; `integer?` is not defined; a redefined primitive is called, while compiled code inlines the original; of two parameters with the same name the last counts; package forms are not understood. By reading: a closure of more than three parameters made at the prompt writes its arguments behind its frame (`makeClosureForEval` gives it four words).
29. The type checker (`lib/infer.cora`): `occur?` does not look into lists and functions of no argument, so that `(lambda (x) (if true x (lambda () x)))` makes it loop (checker_ends_refuted) (its clause for lists calls a misspelt `occure?`, but unify never reaches it); `forget` drops the equations about the argument and result of a call although other equations mention them, so that a function parameter may be called with a number and with a boolean; `do` goes on with the substitution it had before its first expression; `()` is accepted at any variable; an unknown name is accepted at any type; `(do e ())` is refused at a list type; `set` ignores the expected type.
30. Asynchronous input and output (`lib/async.cora`, `lib/net.c`): in the handlers the pattern `[block pos]` has an unquoted `block`, so that `[err errno]` matches too and errno becomes the position reached: a send or receive that fails is retried from there, and reported `[ok]` without the bytes when errno is beyond the buffer (send_error_refuted, send_skips_refuted, recv_error_refuted). When the other side has closed, `recv(2)` returns 0 and net-recv loops forever (recv_closed_refuted). A second send that waits on a connection replaces the first, whose task never resumes (two_sends_refuted). When a send that had to wait ends, the write interest is removed from the system but not from the connection's own record, so the next send that has to wait is never reported and the scheduler waits forever (write_wakeup_refuted). A task that waits on a connection that is closed is dropped (close_abandons_refuted); a late event puts a closed connection back (closed_returns_refuted).
31. Tracer (`src/trace.h`, `lib/trace.c`): the length of a name is stored in one byte, so a name of 256 bytes or more makes the rest of the file unreadable (`trace_long_name_refuted`); a name as long as the 1 MB buffer is copied past its end (`trace_overflow_refuted`); `trace-enable` while tracing sets the offset to 0 and drops the events not yet written (`trace_enable_twice_refuted`), and leaves the old file open. Read, not proved: the buffer is shared by all threads without a lock, and the thread number is cut to 16 bits.
32. Records (`lib/define-record.cora`): the predicate compares the quoted type name, which carries no package, and the size, so it accepts records of another type of the same name (`record_same_name_refuted`); a field the constructor does not set holds whatever `vector` left there (`record_unset_refuted`); getters and setters do not check the type (`record_getter_unchecked_refuted`); a constructor parameter called `vector` or `vector-set!` captures the primitive the expansion calls (`record_capture_refuted`); a constructor parameter that is not a field stops the expansion with a match failure (`record_unknown_init_refuted`).
33. `shuffle` (`lib/cml.cora`) asks for (n+1)/2 rounds, but `/` divides bit patterns (finding on C04), so it does exactly one round whatever n is (`shuffle_rounds`), and some orders never occur: three alternatives never come in the order 2, 3, 1 (`shuffle_all_orders_refuted`). The branch of `send-op` that meets a stale receiver, which drops the message, is never taken, because every alternative has a state of its own (`queues_never_stale`); this is also why a choice can be resumed twice.
34. `let-loop` without variables applies its function to itself for ever and never reaches the body (`let_loop_no_variables_refuted`); a loop variable with the loop's own name is hidden by it (`let_loop_hidden_refuted`).
35. Files (`lib/io.c`): `mkdirP` cuts the directory part at 1023 bytes, so a longer path cannot be opened (`open_long_path_refuted`); a NUL byte in a path cuts the name and empties another file (`open_nul_refuted`), and at the start of the directory part lets the loop run over an uninitialised buffer (`open_nul_dir_refuted`); `copy` answers the C value of `feof`, a word that is no value of the language (`copy_result_refuted`), and does not look at what `fwrite` answered (`copy_full_refuted`); in `write-bytes` the test `sz < 0` on an unsigned number never succeeds, so a full target makes it loop for ever (`write_bytes_full_refuted`).
36. Commands (`lib/os.c`): arguments are joined with spaces and not quoted, so one argument can become several words or another command (`exec_quoting_refuted`) and everything after a NUL byte is dropped (`exec_nul_refuted`); `pclose` answers the raw C status, a word that is no number unless it is 0 (`pclose_status_refuted`); `(randN 0)` divides by zero (`randN_zero_refuted`).
37. Names in generated C (`lib/toc.cora`): a local variable keeps its name in C, so a parameter named `Nil` is what `()` means inside it (`local_named_nil_refuted`) and a parameter named `True` is what conditions are compared with (`local_named_true_refuted`), both without any diagnosis; a parameter that happens to be named like the text of a gensym (`x` and digits) is hidden by a temporary (`local_named_gensym_refuted`); a parameter named like a C keyword (`local_named_int_refuted`) or `co` (`local_named_co_refuted`), or a symbol with a quote in its name (`quote_in_symbol_refuted`), gives a file that is not C; `(quote 5)` makes the generator ask for the name of a symbol that is none (`quoted_number_refuted`).
38. Source files (`src/runtime.c`: `builtinReadFileAsSexp`): the loop takes every read error for the end of the file, so a file that ends in a lone quote is compiled without its last form and without a diagnosis (`unfinished_file_refuted`), and a file without any form takes the car of the empty list (`empty_file_refuted`). `package` (`init.cora`:345-359): a second `(export ...)` replaces the first (`two_exports_refuted`).
39. Local variables in C (`lib/toc.cora`:327-334, with its comment "TODO: variable redefine by let"): every let becomes a declaration in the current C block, so `(let x 1 (let x 2 (+ x 1)))`, `(let x 1 x (+ x 1) ...)`, two lets of one name side by side, and a pattern with `_` twice give a file that a C compiler rejects (`shadowing_let_refuted`, `rebinding_let_refuted`, `sibling_lets_refuted`, `two_wildcards_refuted`). `init.cora` itself uses `_` three times in one rule: it compiles only because `main.c` loads `lib/eval.cora`, which installs the partial evaluator of `lib/peval.cora`, which removes lets of a variable to a variable or constant. The theorems up to C69 are about the compiler without that hook, C70 is about the compiler with it.
40. The partial evaluator as a hook of `macroexpand` (`init.cora`:307-312, `lib/peval.cora`:129): it makes `(do (def y 1) (cons (car (cons y 0)) (set 'y 2)))` read `y` after the assignment (`hooked_operand_refuted`); `match` expands its value with the hook before deciding whether to bind it, so `(match (car (cons p 0)) (cons p q) q)` takes the cdr of the new `p` (`hooked_match_refuted`); it does not help when a let shadows another let with a computed value (`hooked_shadowing_refuted`). With or without it, `(+ n (tick))` reads the global `n` after the call (`unsteady_operand_refuted`).
41. Scripts (`main.c`:46-79): the loop that skips the first line tests byte 254 of a buffer which a shorter line does not reach and which is not initialised. With a first line of exactly 254 bytes and otherwise short lines the whole script is skipped and the process exits with -1 (`full_line_refuted`); so it is when the buffer happens to hold a newline there (`uninitialised_refuted`); of a longer first line the bytes after the first 255 are run as code (`long_line_refuted`, the comment in the code says the opposite of the test). A script that defines a name which an imported package exports reads the package's variable (`imported_name_refuted`). A script that ends inside a form never ends (`unclosed_refuted`).
42. `values` (`lib/sys.cora`:38-43) makes a function that evaluates its expressions whenever its values are received: twice received, (values (gensym)) gives two symbols (`values_twice_refuted`), never received, nothing is evaluated (`values_delayed_refuted`). A let-values with more names than values answers a function and no error (`let_values_count_refuted`). `lib/monad.cora` does not export its continuation monad, shift/reset included: an importing package that calls cont-return calls a name of its own (`cont_not_exported_refuted`).
43. `vectorAppend` (`src/types.c`:329) assigns the free slot without a barrier for generations: a vector that has survived two collections does not scan the new element, the next collection reclaims it, and its slot is handed out while the vector still refers to it (`append_in_place_refuted`).
44. `coraNew` (`src/runtime.c`:54-65) sets up neither `globals` nor `pkgs` of the structure it takes from malloc; the first global variable reads fields that were never assigned (`fresh_arrays_refuted`); it works when the memory happens to be zero (`zeroed_is_list_partial`). `_vector_init` ignores a failed malloc, and `_vector_append` then writes through NULL (`init_failure_refuted`); the capacity doubles past the range of int at 2^30 elements (`growth_overflow_refuted`).
45. Connections (`lib/net.c`): `net-listen` ignores the host and listens on every interface (`listen_host_refuted`), takes port 65616 for 80 and a name for port 0 (`listen_port_refuted`), and leaves the descriptor open when bind or listen fails (`listen_leak_refuted`); `net-dial` frees the list of addresses only after success (`dial_leak_refuted`).
46. Polling: with kqueue (`lib/kqueue.c`:39-66) `net-poll-mod` never takes a mode away, `net-poll-del` of a descriptor registered for writing alone fails at the first of its two requests and keeps it, and three modes write behind an array of two (`kqueue_mod_refuted`); with epoll an error without readability or writability is dropped, and epoll_wait reports it again at once (`poll_error_refuted`).
47. JSON (`lib/json.c`): the index of json-array-get is cut to an int, so 2^32 is element 0 (`index_cut_refuted`); keys are cut at NUL (`key_cut_refuted`); integers above 2^53 are rounded (`integer_refuted`); json-string-value of another kind copies from NULL (`string_of_other_refuted`); the guards accept every C object, and `(json-array-size 9)` reads memory as a document because `mustCObj` looks at three bits of the double (`foreign_refuted`).
48. Scheduler (`lib/cml.cora`): `yield` calls schedule-loop, whose call of schedule is not a tail call, so a task that yields in an endless loop makes the stack grow without bound (`yield_stack_refuted`), unlike perform (`depth_without_yield`); a deadlock ends cml-entry silently (`deadlock_refuted`); run-external-schedulers with time-out -1 waits in the first scheduler although another has work (`two_externals_refuted`).
49. Collector and over-application (`src/runtime.c:149-172`): the arguments still to be passed are in a C array while the first function runs; coraGCFunc does not look there, so a collection in between reclaims them although they are used afterwards (`waiting_argument_refuted`).
50. Collector and continuations (`src/runtime.c:755-766`): a continuation keeps pointers to its stack segments after it has been used; once what it continued has returned the segments are freed, and if the continuation is still held the next collection reads freed memory (`used_continuation_refuted`).
51. Macro expansion (`init.cora:74-88`): an operator that expands to the name of a macro, as in `((pick) 4)`, is not expanded again, so macroexpand is not idempotent and the compiler meets a macro name as a function (`expand_twice_refuted`); the tail of a dotted form is silently dropped (`dotted_refuted`).
52. Registering C functions (`src/runtime.c:997-1060`): `registerAPI` replaces the list of exports, so of two modules under one package the first can no longer be imported (`second_module_refuted`); a package name with a NUL byte makes every function of the module overwrite the variable named before the NUL (`nul_package_refuted`); an empty package name is no package for `registerAPI` and a package with an empty name for `coraRegisterAPI` (`empty_package_refuted`).
53. Markdown (`lib/md4c/wrap.c`): the language of a fenced code block comes out as the elements `<class>language-c</class><@></@>` inside the code, because the attribute list is built in the wrong order (`code_language_refuted`); an address with an entity is cut before it (`entity_in_address_refuted`); a link with an empty address makes `sxml->xml` take the head of the empty list (`empty_address_refuted`); the title of an image is lost (`image_title_refuted`); entities in the text are escaped again (`entity_in_text_refuted`); a zero byte is copied into the XML (`zero_byte_refuted`).
54. Pace of the collector (`src/gc.c:927-936`): the sizes of the generations are added into an `int`; with two gigabytes alive it is negative, is taken as a 64 bit number near 2^64 and converting 0.4 of it to `int` is undefined (`two_gigabytes_refuted`).
55. load (`src/runtime.c`:431-446): the test for a file of the package directory is that its name sorts after the directory, so a relative name is one too; its library gets a name without a slash, which dlopen looks for where libraries are installed (`relative_name_refuted`). Five characters are cut whatever the extension is (`extension_refuted`), which for names of one or two characters fails an assertion (`short_name_refuted`). The command is not quoted (`space_refuted`) and is cut at 511 bytes (`long_name_refuted`). The files in /tmp are numbered from 1 in every process (`processes_refuted`).
56. Sweeping (`src/gc.c`:985-988): when the last size class is done, the next list is read from one past the end of the array `gc->sizeClass`, in every step that ends a sweep and only there (`sweep_reads_past`, `sweep_past_array_refuted`). The pointer read is not followed.
57. Mailbox registry (`lib/parallel/internal.c`:285-329): no lock is taken although procs are threads. Two procs that publish names with one hash at once ("parse" and "stats" have one) both succeed and the first name is lost (`publish_race`, `publish_race_refuted`); resolving a name while it is being published reads the name of a slot through NULL, since the mailbox is stored before the name (`resolve_race`, `resolve_race_refuted`). By reading: the file calls `globalRef`, `makeCString` and `makeString` with fewer arguments than `src/runtime.h` and `src/types.h` declare at this commit, so a C compiler should reject it as it stands; C46 to C48 are about what its text says the mailboxes do.
58. `(@seq p)` with one parser is an error raised by the macro, not p (`lib/peg.cora`:118-120, `seq_of_one_refuted`).
59. Symbols (`src/types.c`:154-168): the table is shared by all procs and intern takes no lock. Two procs that intern at once and whose searches end at one place make two symbols for one name; with different names the first is lost from the table, and interning it again, even by the same proc, gives a symbol that is not equal to the first (`intern_race`, `intern_race_refuted`).
60. Embedding (`src/export.c`:91-94): coraFixnum returns an int, so the host reads 2^32 as 0 (`host_wide_number_refuted`). By reading: nine functions that `src/cora.h` declares (coraMustCObj, coraIsNumber, coraMakeBytes, coraBytesLen, coraCar, coraCdr, coraVectorAppend, coraIsVector, coraVectorLength) are defined nowhere, so that programs which use them cannot be linked.
61. Libraries (`src/runtime.c`:319-323, `lib/toc.cora`:571): packageIDAlloc is not protected (its comment says so), so two libraries first entered at once by two threads can get one number. In a machine that then enters both, the code of the first uses the names of the second and reads past its table (`package_race`, `package_race_refuted`). By reading: each entry makes a new table and the old one is not freed.
62. The partial evaluator changes a shipped program: compiled, tvar of `lib/infer.cora`:23-26 returns the counter after the increment (`peval_tvar_refuted`). The numbers stay fresh, so type inference is not affected.

## Wrong programs tried against the theorems

`seeded/LOG.jsonl` lists the edits of model definitions that were tried, the claim each
one breaks, and which proof fails.  Where a theorem survived an edit that makes its
English claim false, the statement was tightened and the entry says how.

`failed` names the places where the prover reported an error.  `theorems_not_rebuilt`
is computed from the files those places are in: it lists the theorems in files that
depend on them, which is more than the theorems that became false.  For 20 entries
(GcVecModel, PegMacModel, TrieRaceModel) the script had also listed theorems of files
that do not depend on the failure; they have been removed.  Three entries of GenModel
had been recorded as timeouts; their notes say what happened.
