# Formal model of sunfishcode/origin in Rocq (Coq 8.16.1)

Properties: `properties.jsonl` (C01..). Status: `MANIFEST.json`. Sources:
`rocq/theories/`. Wrong programs tried against the theorems: `seeded/LOG.jsonl`.

## How to read the development

Every part has the same files:

* `XModel.v` — the code, function by function, each definition citing file and
  lines of `/repo` and saying what is simplified;
* `XSpec.v` — a small vocabulary for the claims (what the C library, the ELF
  and platform ABIs, Linux or the documentation say), which does not use the
  model's helpers except its data types;
* `XProofs.v`, `XFacts.v`, `XInv.v`, `XPres*.v`, `XTop*.v` — lemmas;
* `Props_X.v` — the property theorems `Cnn_...`, each with a concrete
  non-trivial instance (`Cnn_ex...`) of its hypotheses and, where the English
  claim is false of the code, a theorem `..._refuted` with the counterexample.

Conventions: addresses, sizes and words are `Z` with every wrap written
explicitly (`mod 2^(8*ws)`, `ws` = word size in bytes, 4 or 8); memory is a
function `Z -> Z` of bytes; a `while` loop is recursion on explicit fuel that
returns `None` (`Running`) when the fuel runs out, and the theorems either say
that every large enough fuel gives the result or hold for every fuel; a panic
or trap is an explicit outcome; builds with and without overflow checks /
debug assertions are a parameter (`ck`); the five architectures are a
parameter (`arch`), never one at a time unless the code differs.

| Properties | Model | How it is proved |
|---|---|---|
| C01-C07 memcpy, memmove, memset, memcmp, bcmp, strlen | `MemModel`: byte memory plus a log of every load and store; small.rs, impls.rs (both misaligned strategies, both endiannesses), x86_64.rs (`rep` instructions as loops, SSE2 movemask, bit trick) | loop invariants by induction on the remaining bytes or words; log invariants |
| C08, C10, C11, C46 startup | `StartModel`: initial stack image as words in memory; `entry`, `start`, `compute_args`, `init_runtime`, `initialize_startup_info`, `getauxval`, as an event trace | induction over argv, envp, auxv, program headers, init_array |
| C09, C12-C16 relocation | `RelocModel`: `relocate` reading all its tables from memory | induction over tables; RELR against an independent bit-level decoding (gABI); structure offsets and numbers against the gABI field lists (`Props_ElfAbi`) |
| C17-C27, C45, C47 thread memory | `LayoutModel`: `create`, `calculate_tls_size`, `initialize_tls`, `initialize_main`, `current*`, `stack`, repr(C) layout of `Abi`/`Metadata` per architecture | arithmetic over power-of-two alignments; replay of the mmap/mprotect log |
| C28-C33, C48 thread lifecycle | `ThreadModel`: transition system of any number of threads, the atomics of `ThreadData`, futex queue, two-step kernel exit (clear tid, wake), mmap with address reuse, signals | inductive invariant over all reachable states; refutations by explicit executions; simulation for liveness-style claims |
| C56 life cycle on bytes; C55, C57, C58 | `ByteModel`: the same transition system, but records are the bytes written by `create`/`initialize_main` of `LayoutModel`, found through handles and thread pointers, with arbitrary user writes in between; `CurrentModel` | forward simulation into `ThreadModel` (`ByteSim.bsim`), so its invariant and theorems carry over to bytes |
| C59, C60 whole process start | no new model: `AsmModel` (`_start`) → `StartModel` (`entry`) → `LayoutModel` (`initialize_main`) composed | `Props_Boot`, `Props_Boot2`: the memory the first user function sees; vocabulary (`cstring`, `user_runs`, `ready`, `fresh_process`) is in those files |
| C61 clone flags, exit notification | `CloneModel`: the flag constants and futex operation of `create`/`wait_for_exit`; Linux's clone, set_tid_address, exit, futex keys in `CloneSpec` | testbit of the flag word; induction over task creation; the ends meet `LayoutModel.create` in `C61_create` |
| C62 threads, joins and exit functions together | `ProcModel`: product of `ByteModel` and `DtorsModel` synchronised at create, at the return of the thread's function and at the end of its exit functions (linux_raw.rs 560-612, 676-764) | projections to C56 and C34; an invariant tying each thread's call frames to its life-cycle position |
| C63 entry checks | `EntryModel`: the debug/nightly checks of both `entry` functions, the compiler's prologue per target | from C42 and C41 with alignment arithmetic |
| C64 libc-mode stack queries | `AttrModel`: the three queries over libc's thread attributes | induction over the history of calls |
| C65 create/join/detach synchronise | `SyncModel`: the thread model's steps with the acquire/release they perform, plus ordinary memory accesses; happens-before | invariants over histories: what is before a thread, what is released by a location |
| C66 log statements | `LogModel`: which record each log statement of thread/linux_raw.rs loads, at which point of the thread model | the thread model's invariant |
| C67 startup meets threads | no new model: the end of `C59` is a start (`bstarts`) of `ByteModel` | `Props_Live`: composition of C42, C59 and C56 |
| C68 liveness | `FairSpec`: infinite fair executions of `ThreadModel`; `ByteFairSpec`: of `ByteModel` | `FairCore`, used by `Props_Fair` and (through the simulation `bsim`) `Props_ByteFair`: a rank that own steps lower and nothing raises; constructive, no classical axioms |
| C69 exit functions see their registrar's writes | `SeenSpec`: happens-before on `DtorsModel` histories | `Props_Seen`: every list access is ordered before the lock's last release or its holder |
| C70 exits end | `ExitFairSpec`: infinite fair executions of `DtorsModel`, what is asked of user code | `Props_ExitFair`: a measure of the work left that every step but no-ops lowers; whoever holds the lock can move |
| C71 fork-join programs | `ScriptModel`: programs as terms, each thread making the calls its program says, over `ProcModel`; `ScriptSpec`: their sequential big-step reading | `ScriptProofs`, `ScriptChain`: what is left of the program, read from each state (frames of the running thread, then of each waiting parent), is kept by every step; `ScriptTotal`: multiset order on pending sub-programs; `ScriptDet`; `Props_Script` |
| C72 fork-join programs end | `ScriptFairSpec`: infinite fair executions of `ScriptModel` programs | `ScriptTick`: the same program with a tick before every action reads as finitely many ticks, so user code acts finitely often; `ScriptPc`: where waiting threads are; `ScriptFair`: between two actions the running thread's origin frames lose weight, or its parent's join returns (`FairCore`, now with fairness only until the process ends); `ScriptStuck`: the fairness assumed is satisfiable from every reachable state; `Props_ScriptFair` |
| C73 programs whose threads share nothing | `ForkModel`: user programs with handles whose threads run at the same time, on `ProcModel`; `ForkSpec`: sequential reading by structural recursion | `ForkProofs`: invariant "what is left of each thread (`left`: result, text, debt) together with what it printed is the whole reading", kept by every step; `ForkTidy`: unjoined threads are held by an open handle of an older live activation; `ForkPlay`: executable scheduler for the example; `Props_Fork` |
| C74 such programs end | `ForkFairSpec`: fair infinite executions of a `ForkModel` program | `ForkPc`: a thread is outside life-cycle functions, or in the join/detach its program is at, of a younger thread; `ForkTick`: a program that prints a tick with each action bounds their number by C73; `ForkFair`: between two actions, by induction from the youngest thread, each thread ends (reusing `FairCore`, and the lock is only ever wanted by the main thread); `ForkStuck`: a handle not used up is unclaimed, so a thread not asleep can step, and a sleeper waits for a younger, living thread; `Props_ForkFair` |
| C75 unwinding stubs | `UnwindModel`: personality, panic handler, unwinder stubs; `UnwindSpec`: the ABI's two-phase and forced unwinding over arbitrary foreign frames | induction on the stack (`Props_Unwind`) |
| C76 accesses of relocation | `RelocFault`: relocate.rs again with page faults; `RelocFaultSpec`: the bytes it may touch | induction on the tables; refinement of `RelocModel` (`RelocFaultProofs`, `RelocFaultTop`, `Props_RelocFault`) |
| C77 accesses of startup and create | `StartFault`: entry, initialize_main and create with page faults; `StartFaultSpec`: the bytes they may touch | refinement of `StartModel`/`LayoutModel`, induction on the tables (`StartFaultProofs`, `Props_StartFault`) |
| C78 logging around exit functions | `DLogModel`: `DtorsModel` with the log statements in place, the logger being arbitrary user code; `DLogSpec` | simulation both ways between the two models, invariant on waiting functions (`DLogProofs`, `DLogConv`, `DLogTell`, `DLogOnce`, `Props_DLog`) |
| C79 panicking exit functions | `PanicModel`: `DtorsModel` where user code may also panic; `PanicSpec` reads its histories as those of `DtorsSpec` | the invariants of `DtorsInv` carry over (`PanicInv`), then as C34-C36 (`PanicTop`, `PanicRun`, `PanicOrder`, `Props_Panic`) |
| C80 logger at startup | `LogInitModel`: log.rs and the log calls of `entry`; the linker's order as any sorted permutation | monadic equations, induction on the array (`LogInitProofs`, `Props_LogInit`) |
| C81 malformed initial stacks | `StartModel.entry` on every memory | case analysis, modular arithmetic (`Props_StartCheck`) |
| C82 parallel programs with program::at_exit | `PexitModel` (programs), run by `ProcModel` | sequential meaning (`PexitSpec`), what is left per thread as invariant (`PexitProofs` if only main registers; `PexitAll`, `PexitMain` and `PexitTidy` for all programs), `Props_Pexit` |
| C83 such programs end | `PexitFairSpec`: fair infinite executions of a `PexitModel` program | as C74: `PexitPc`, `PexitTick` (a bound on the actions that holds for every order of the exit functions, from `PexitAll`), `PexitFair` (the holder of the lock moves unless it runs .fini_array, which is `solo`), `PexitStuck` (who waits for the lock waits for a thread that can step); `Props_PexitFair`, with the hang of a .fini_array function that registers |
| C34-C38 exit functions | `DtorsModel`: per-thread activation stacks, the global locked list, nested registration, nested and concurrent exits | inductive invariant over traces |
| C39, C40, C53 signals | `SignalModel`: both modes; kernel action table in `SignalSpec` | case analysis on bits; induction over histories |
| C41-C43, C49-C52 assembly | `AsmModel`: a small CPU with the instruction lists of all five architectures | symbolic execution for every register file and memory |
| C44, C54 libc mode | `LibcModel`: interleaved steps of all `create` calls, their threads and user code; libc as environment | inductive invariant; the trace of each call is a prefix of a script |

## Trusted base

* Coq 8.16.1's kernel (and `vm_compute` in a few closed computations).
* `Print Assumptions` answers "Closed under the global context" for every
  property theorem: no axioms, neither our own nor the standard library's.
  (vcheck lists seven constants of `Coq.ssr.ssrunder`: they are part of the
  standard library's ssreflect module that `lia`'s libraries load; no theorem
  here depends on them.)
* That the models say what the Rust source says: they were transcribed by
  hand. Nothing was compiled or run.
* What the models assume about the world, below.

### Assumed about the environment

* rustc/LLVM translate Rust as its reference says. `ptr::add` is in bounds where
  the callers' contracts make it so.
* SeqCst atomics are sequentially consistent: a step per access (all accesses
  of the code that matter are SeqCst).
* Linux: mmap/mprotect/munmap, futex, clone with CHILD_CLEARTID (store 0, then
  wake, as two steps), set_tid_address, rt_sigaction, sigreturn frames,
  set_thread_area/GDT, the initial process stack. These are in the `*Spec.v`
  files or in the model's environment steps, with citations.
* rustix: `rustix::param` (auxv parsing) by its documented contract; `futex`,
  `mmap`, `kernel_sigaction` etc. as the bare system call;
  `rustix_futex_sync::Mutex` as a mutex; `SmallVec`/`Vec` as a list.
* libc mode: malloc/free, pthread_*, `__cxa_atexit`, raise by their POSIX/Itanium
  contracts.
* Assembly: instruction semantics of `AsmModel`; Rust's inline-asm contract for
  operands (sub-word operands have undefined upper bits).

### Modelled and not modelled

| File | Modelled | Not modelled |
|---|---|---|
| mem/* | all functions | — |
| relocate.rs | `relocate` completely, page faults included | — |
| program/linux_raw.rs | `entry`, `start`, `compute_args`, `init_runtime`, init_array loop, `at_exit`, `exit`, `immediate_exit`, `trap`, the log calls of exit (`DLogModel`) and of startup (`LogInitModel`) | — |
| thread/linux_raw.rs | `initialize_startup_info`, `initialize_main`, `create`, `entry`, `exit`, `call_dtors`, `at_exit`, `join`, `detach`, `wait_for_exit`, `free_memory`, `current`, `current_id`, `stack`, `current_tls_addr`, `default_*`, `Thread` conversions, `set_current_id_after_a_fork`, `errno_location`, the record loads of log statements, the log calls of thread exit (`DLogModel`) | log text, the logger at other log calls, `yield_current`; what an unwinder does between a panic and the frame that stops it (where it stops: `PanicModel`) |
| arch/*.rs | all assembly, constants | floating point/vector state, instruction encoding |
| signal/*.rs | `sigaction` in both modes | constants, `sig_ign` |
| thread/libc.rs, program/libc.rs | `create`/`start`, `join`, `detach`, `at_exit`, `trap`, `stack`, `default_*_size` | one-line wrappers of a libc call; threads that never return from their function |
| getauxval.rs | `_getauxval` | — |
| stubs.rs, unwind_unimplemented.rs | all functions | the `unwinding` crate that replaces them with its feature |
| log.rs | all (`LogInitModel`) | the backends |
| naked.rs, lib.rs | — | macros |

## What is false of the code (theorems named `_refuted` unless noted)

1. C31: `munmap` is asked to start at stack address minus `guard_size` while the
   stack begins at `round_up(guard_size, page)`: with a guard size that is not
   a multiple of the page size join and detach panic and a detached thread
   leaks.
2. C26: the main thread's stack size is negated (`stack_least - sp`); an
   unlimited RLIMIT_STACK panics.
3. C21, C22: on x86/x86-64 TLS addresses and the record's alignment are wrong
   when the TLS size is not a multiple of its alignment.
4. C47: variant I targets: TLS image not where the ABI puts it when the record
   size is not a multiple of p_align; on arm always off by 4 for p_align 8.
5. C19/C41: on arm the new thread's stack is only 4-aligned (AAPCS: 8).
6. C25: `create` leaks the mapping if mprotect or clone fails.
7. C27: release builds wrap on huge sizes.
8. C28, C30: the kernel's exit-time futex wake may arrive after the address was
   reused, ending another join early: use after free.
9. C35, C36, C38: registrations made while exit functions run may be dropped;
   a function popped by one of two concurrent exits may be lost; .fini_array may
   run twice without `program-at-exit`.
10. C16: RELRO mprotect rounds the address down but does not extend the size.
11. C44: libc-mode `create` leaks its argument pack if pthread_create fails (and
    never destroys the attribute object: not expressed as a theorem).
12. C48: without the `signal` feature a handler can run on a freed stack.
13. C37: `trap` on aarch64 is `brk`, which raises SIGTRAP, not SIGILL.
14. C09, C46: auxv types are truncated to 32 bits. C13: a debug build panics on
    RELR entries with a negative bias.
15. C11: program headers of the executable are combined with origin's own
    _DYNAMIC when origin is the interpreter.
16. C41, C43: u32 operands of riscv64 system calls have undefined upper halves.
17. C40: restorers installed by other code are replaced when restored.
18. C53: libc-mode `sigaction` passes a dangling pointer.
19. C54: libc-mode `trap` loops while SIGILL is ignored or handled
    (`C54_trap_loops`).
20. C57: `set_current_id_after_a_fork` panics in debug builds when the child's
    tid number equals the parent's (new PID namespace), although its documented
    contract is met.
21. C63: on arm the thread's entry check accepts 4-byte alignment (AAPCS: 8).
22. C64: in libc mode `default_stack_size`/`default_guard_size` are the calling
    thread's own sizes, and the attribute object is never destroyed.
23. Without a theorem: arm's `dynamic_table_addr` assumes ARM (not Thumb) state.
24. C77: `create` does not check that the arguments fit the requested stack: the
    copy runs into the guard or, without one, below the mapping.
25. C78: a logger that registers exit functions breaks C34/C35: the function
    about to be called was already chosen, at "thread exiting" the list is no
    longer looked at, and during .fini_array calls `program::at_exit` waits for
    the lock `program::exit` leaked.
26. C80: Cargo.toml says `atomic-dbg-logger` and `env_logger` make origin
    initialise the logger, and that `log` is additional; but `mod log` is
    compiled only with `log`. With both backends the program aborts at startup.

## Why some properties are partial

Where the English claim is false of the code, the theorem proves it under the
exact extra condition and the refutation shows the condition is needed; such a
property is `partial` in the manifest, with the condition in its note. For
the thread properties the condition on the kernel (no reuse of an address whose
exit-time futex wake is still pending) is dropped in the `*_any_kernel` theorems
(`Props_Phase.v`, `Props_BytePhase.v`) for programs that create no thread after one thread has
reclaimed another's memory (`creates_first`). Nothing
was left out as inexpressible. Time is not modelled (C68 says what happens eventually, not when). The crate's atomics
are all SeqCst and are interleaved; what they order for ordinary memory is C65,
where the kernel's clear of the thread id counts as a release store, the futex
system call as no synchronisation, and the futex wake as an edge only where a
theorem says `hb true`.
