{"id": "C01", "title": "memcpy copies exactly n bytes", "statement": "In take-charge mode `memcpy(dest, src, n)` with non-overlapping ranges leaves dest[i] == old src[i] for every i < n, leaves every other byte of memory unchanged, terminates and returns dest; this holds for the small, the portable word-wise and the x86-64 (`rep movs`, with and without ERMSB) implementations, on 32- and 64-bit words, little and big endian.", "quantifier": "every memory contents, every length n, every dest and src address (hence every relative misalignment), every implementation variant and word size", "why_tests_cant": "the result depends on n, on the misalignment of dest and of src and on word contents; tests sample a few of the (unbounded) combinations", "anchors": ["src/mem/fast.rs: memcpy", "src/mem/impls.rs: copy_forward", "src/mem/x86_64.rs: copy_forward, rep_param", "src/mem/small.rs: memcpy"]}
{"id": "C02", "title": "memmove is correct for every overlap", "statement": "`memmove(dest, src, n)` leaves dest[i] == old src[i] for every i < n and every other byte unchanged for every overlap between the two ranges, terminates and returns dest.", "quantifier": "every memory contents, dest, src and n, including all overlaps and misalignments, all implementation variants", "why_tests_cant": "overlap distance x misalignment x length is unbounded and a wrong direction choice only corrupts some combinations", "anchors": ["src/mem/fast.rs: memmove", "src/mem/impls.rs: copy_forward, copy_backward", "src/mem/x86_64.rs: copy_backward", "src/mem/small.rs: memmove"]}
{"id": "C03", "title": "memset fills exactly n bytes with the low byte of c", "statement": "`memset(s, c, n)` sets s[i] to the low 8 bits of c for every i < n, leaves every other byte unchanged, terminates and returns s.", "quantifier": "every memory contents, address, length and every C int c (negative or above 255 included)", "why_tests_cant": "word-wise broadcast and head/tail splitting depend on alignment and length", "anchors": ["src/mem/fast.rs: memset", "src/mem/impls.rs: set_bytes", "src/mem/x86_64.rs: set_bytes", "src/mem/small.rs: memset"]}
{"id": "C04", "title": "memcmp/bcmp return the first byte difference", "statement": "`memcmp(a, b, n)` (and `bcmp`) returns 0 iff the n-byte ranges are equal, and otherwise the difference of the first differing bytes as unsigned values (so its sign is the lexicographic order), changing no memory.", "quantifier": "every memory contents, pair of addresses and length, all variants", "why_tests_cant": "the x86-64 version narrows 16->8->4->2->1 bytes at the first mismatch; mistakes only show at particular offsets and remainders", "anchors": ["src/mem/impls.rs: compare_bytes", "src/mem/x86_64.rs: compare_bytes", "src/mem/small.rs: memcmp, bcmp"]}
{"id": "C05", "title": "strlen finds the first NUL", "statement": "`strlen(s)` returns the number of bytes before the first zero byte at or after s, for strings of every length and alignment, in the byte-wise, SSE2 and zero-byte-bit-trick implementations.", "quantifier": "every memory contents, every start address, every string length", "why_tests_cant": "correctness rests on a carry-propagating bit trick and on masking off bytes before s in the first aligned chunk", "anchors": ["src/mem/impls.rs: c_string_length", "src/mem/x86_64.rs: c_string_length", "src/mem/small.rs: strlen"]}
{"id": "C06", "title": "memory functions never touch foreign pages and never write outside the destination", "statement": "Every store performed by memcpy/memmove/memset lies inside the destination range, and every load lies inside the source range or is a naturally aligned load containing at least one byte of the source string/range; so if the pages containing the argument ranges are accessible, no access faults.", "quantifier": "every access performed in every call, for all addresses and lengths", "why_tests_cant": "over-reads are invisible to result-checking tests unless the object happens to end at an unmapped page", "anchors": ["src/mem/impls.rs: copy_forward_misaligned_words, copy_backward_misaligned_words", "src/mem/x86_64.rs: c_string_length", "src/arch/riscv64.rs: oob_load"]}
{"id": "C07", "title": "optimize_for_size and target selection do not change results", "statement": "For the same memory and arguments, the small, portable and x86-64 versions of memcpy, memmove, memset, memcmp and strlen produce the same final memory and the same return value.", "quantifier": "all memories and arguments within each function's contract", "why_tests_cant": "equivalence of implementations over an infinite input space", "anchors": ["src/mem/mod.rs", "src/mem/fast.rs", "src/mem/small.rs"]}
{"id": "C08", "title": "origin_main receives the kernel's argc, argv and envp", "statement": "Given the initial stack the kernel builds (argc, argc argv pointers, NULL, envp pointers, NULL, auxv), startup passes that argc, the address of argv[0] and the address of envp[0] to .init_array functions and origin_main.", "quantifier": "every argument count and environment, every stack address, 32- and 64-bit", "why_tests_cant": "number of arguments and environment strings is unbounded", "anchors": ["src/program/linux_raw.rs: compute_args, entry"]}
{"id": "C09", "title": "auxiliary vector lookup", "statement": "Startup relocation finds the auxv immediately after the environment's NULL and uses the AT_BASE, AT_PAGESZ and AT_ENTRY values present before AT_NULL, 0 if absent, ignoring all other records.", "quantifier": "every environment, every auxv contents and order", "why_tests_cant": "auxv length/order is chosen by the kernel", "anchors": ["src/relocate.rs: compute_auxp, relocate"]}
{"id": "C10", "title": "startup order", "statement": "On startup, in this order: arguments computed, relocations performed, runtime initialised, every .init_array function called exactly once in array order with (argc, argv, envp), origin_main called once, then program exit with origin_main's status.", "quantifier": "every .init_array length and contents, every feature configuration", "why_tests_cant": "array length is decided by the linker; ordering must hold for all of them", "anchors": ["src/program/linux_raw.rs: entry, init_runtime"]}
{"id": "C11", "title": "TLS template and default stack size come from the program headers", "statement": "For every program header table, the TLS template used for new threads is the PT_TLS segment (address = load bias + p_vaddr, p_memsz, p_filesz, p_align), or an empty template when absent; `default_stack_size()` is the maximum of 0x20000 and PT_GNU_STACK's p_memsz.", "quantifier": "every phdr table (length, order, entry size), load bias", "why_tests_cant": "header tables are produced by linkers; any number, order and subset of headers", "anchors": ["src/thread/linux_raw.rs: initialize_startup_info, default_stack_size"]}
{"id": "C12", "title": "RELA relocation is exact", "statement": "For a static-PIE/dynamic-linker image, after startup relocation every word targeted by a RELA R_RELATIVE entry holds addend + base (mod word size) and every other byte is unchanged.", "quantifier": "every relocation table, every base address, every memory", "why_tests_cant": "tables are linker generated and unbounded; a missed or doubly applied entry corrupts one word", "anchors": ["src/relocate.rs: relocate", "src/arch/x86_64.rs: relocation_store", "src/arch/x86.rs: relocation_store", "src/arch/aarch64.rs: relocation_store", "src/arch/riscv64.rs: relocation_store", "src/arch/arm.rs: relocation_store"]}
{"id": "C13", "title": "REL and RELR relocation is exact", "statement": "After startup relocation every word targeted by a REL entry, or denoted by the RELR encoding (address words and bitmap words), has had the base added exactly once; all other bytes are unchanged.", "quantifier": "every REL table, every RELR word sequence (including bitmaps with the top bit set and consecutive bitmaps), every base", "why_tests_cant": "bitmap/address interleavings are unbounded", "anchors": ["src/relocate.rs: relocate"]}
{"id": "C14", "title": "unsupported relocations trap", "statement": "If any RELA or REL entry has a type other than R_RELATIVE, the process traps during startup: it never continues to user code.", "quantifier": "every table containing a bad entry at any position", "why_tests_cant": "position and kind of bad entry are unbounded", "anchors": ["src/relocate.rs: relocate", "src/arch/x86_64.rs: trap", "src/arch/x86.rs: trap", "src/arch/aarch64.rs: trap", "src/arch/riscv64.rs: trap", "src/arch/arm.rs: trap"]}
{"id": "C15", "title": "relocation is skipped when already relocated and uses the right base", "statement": "When the stored address of _start equals AT_ENTRY no memory is written and no mprotect is made; otherwise the base is AT_BASE when nonzero (acting as dynamic linker) and AT_ENTRY - e_entry when zero (static PIE).", "quantifier": "every auxv, ELF header and load address", "why_tests_cant": "ASLR picks the base; all four link modes must be told apart", "anchors": ["src/relocate.rs: relocate, load_static_start"]}
{"id": "C16", "title": "RELRO protects exactly the RELRO pages", "statement": "When a PT_GNU_RELRO header with nonzero size is present, after relocation the pages of that segment, and no other page, become read-only; without one nothing is protected; a failing mprotect traps.", "quantifier": "every relro address/size, base and page size", "why_tests_cant": "depends on alignment of segment start and end", "anchors": ["src/relocate.rs: relocate", "src/arch/x86_64.rs: relocation_mprotect_readonly", "src/arch/x86.rs: relocation_mprotect_readonly", "src/arch/aarch64.rs: relocation_mprotect_readonly", "src/arch/riscv64.rs: relocation_mprotect_readonly", "src/arch/arm.rs: relocation_mprotect_readonly"]}
{"id": "C17", "title": "thread memory layout", "statement": "For every guard size, stack size, TLS segment and architecture, the guard, stack, TLS block and thread record laid out by `create` are pairwise disjoint, ordered, inside the mapping, and aligned as required (stack 16, TLS block to p_align; the record's own alignment is C22).", "quantifier": "all stack/guard sizes, TLS sizes and alignments, page sizes, architectures", "why_tests_cant": "sizes and alignments are arbitrary numbers", "anchors": ["src/thread/linux_raw.rs: create, calculate_tls_size, round_up"]}
{"id": "C18", "title": "guard is inaccessible and stack() tells the truth", "statement": "For a created thread, `stack(t)` returns (addr, stack_size, guard_size) with the requested sizes such that [addr, addr+stack_size) is readable and writable and [addr-guard_size, addr) is inaccessible.", "quantifier": "all requested sizes and mapping addresses", "why_tests_cant": "a guard error only shows as a missed overflow trap", "anchors": ["src/thread/linux_raw.rs: create, stack"]}
{"id": "C19", "title": "arguments reach the new thread", "statement": "`create(fn, args, ..)` runs fn on the new thread with a slice of exactly args.len() words equal to args, stored inside the new thread's stack at and above its initial stack pointer, which satisfies the ABI stack alignment.", "quantifier": "all argument lists, stack sizes and mapping addresses that fit", "why_tests_cant": "argument count and alignment interplay", "anchors": ["src/thread/linux_raw.rs: create, entry", "src/arch/x86_64.rs: clone, STACK_ALIGNMENT", "src/arch/x86.rs: clone, STACK_ALIGNMENT", "src/arch/aarch64.rs: clone, STACK_ALIGNMENT", "src/arch/riscv64.rs: clone, STACK_ALIGNMENT", "src/arch/arm.rs: clone, STACK_ALIGNMENT"]}
{"id": "C20", "title": "each thread starts with a fresh TLS image", "statement": "When a thread (main or created) starts, its TLS block holds the PT_TLS file bytes followed by zeros up to p_memsz, and initialising it changes no byte outside the block and the thread record.", "quantifier": "all TLS images and sizes, all mapping addresses and prior contents", "why_tests_cant": "contents and sizes are link-time data", "anchors": ["src/thread/linux_raw.rs: initialize_tls, initialize_main, create"]}
{"id": "C21", "title": "current_tls_addr addresses the thread's own TLS block", "statement": "`current_tls_addr(1, off)` is the address of byte off of the current thread's initialised TLS block for every off; any module other than 1 panics.", "quantifier": "all offsets, TLS sizes and alignments, architectures", "why_tests_cant": "TLS sizes that are not multiples of the alignment, or large alignments, are link-time accidents tests rarely have", "anchors": ["src/thread/linux_raw.rs: current_tls_addr, calculate_tls_size"]}
{"id": "C22", "title": "the thread record is aligned", "statement": "The thread record that `create` and the main-thread initialiser write through is aligned to its type's alignment for every TLS segment.", "quantifier": "all TLS sizes and alignments", "why_tests_cant": "only some TLS size/alignment pairs misalign it", "anchors": ["src/thread/linux_raw.rs: calculate_tls_size, initialize_main, create"]}
{"id": "C23", "title": "thread pointer, current() and ABI fields agree", "statement": "With the thread pointer set by create/initialize_main, `current()` is exactly the record created for the thread, and the ABI fields are at their well-known offsets (x86-64 fs:0 self pointer and fs:0x28 canary; x86 gs:0 and gs:0x14).", "quantifier": "all mapping addresses, architectures, record sizes", "why_tests_cant": "layout arithmetic for arbitrary addresses", "anchors": ["src/thread/linux_raw.rs: current_metadata, current, initialize_tls, Abi, Metadata"]}
{"id": "C24", "title": "all threads share the startup canary", "statement": "Every thread ever created has, as its stack canary, the word taken from AT_RANDOM at startup, which is also the value of __stack_chk_guard.", "quantifier": "every history of thread creation (any tree depth)", "why_tests_cant": "induction over creation history", "anchors": ["src/thread/linux_raw.rs: initialize_main, create, __stack_chk_guard"]}
{"id": "C25", "title": "a failed create leaves nothing behind", "statement": "If `create` returns Err, no memory stays mapped and no thread runs.", "quantifier": "every failure point (mmap, mprotect, clone)", "why_tests_cant": "needs fault injection at each syscall", "anchors": ["src/thread/linux_raw.rs: create"]}
{"id": "C26", "title": "main thread's stack() is its stack", "statement": "For the main thread `stack()` returns the lowest address and size of a region that lies in the process stack: addr + size does not exceed the initial stack pointer and equals it.", "quantifier": "all initial stack pointers, AT_EXECFN positions, page sizes and RLIMIT_STACK values", "why_tests_cant": "address arithmetic for all kernel layouts", "anchors": ["src/thread/linux_raw.rs: initialize_main, stack"]}
{"id": "C27", "title": "oversized requests are rejected, not wrapped", "statement": "For every stack_size and guard_size, `create` either fails (error or panic) or the thread gets at least the requested stack and guard.", "quantifier": "all machine-word sizes including those near usize::MAX", "why_tests_cant": "wrap-around inputs", "anchors": ["src/thread/linux_raw.rs: create, round_up, calculate_tls_size"]}
{"id": "C28", "title": "join returns the thread's return value after it has exited", "statement": "`join(t)` returns only after t has finished (never touches its stack or record again) and returns exactly the value t's function returned (None included).", "quantifier": "every interleaving of any number of threads creating, joining, detaching, exiting, with futex interruptions and address reuse", "why_tests_cant": "schedules are unbounded", "anchors": ["src/thread/linux_raw.rs: join, wait_for_exit, exit"]}
{"id": "C29", "title": "thread memory is freed at most once", "statement": "For every interleaving, the mapping of a thread is unmapped at most once: exactly one of join, detach, or the exiting thread itself frees it.", "quantifier": "every interleaving, any number of threads", "why_tests_cant": "race between exit's compare-exchange and detach's swap", "anchors": ["src/thread/linux_raw.rs: exit, detach, join, free_memory"]}
{"id": "C30", "title": "no use after free", "statement": "No thread, joiner, detacher or the kernel's exit-time tid clear ever accesses a thread record or stack after it was unmapped or reused.", "quantifier": "every interleaving incl. kernel exit steps and address reuse", "why_tests_cant": "races", "anchors": ["src/thread/linux_raw.rs: exit, detach, join, wait_for_exit", "src/arch/x86_64.rs: munmap_and_exit_thread", "src/arch/x86.rs: munmap_and_exit_thread", "src/arch/aarch64.rs: munmap_and_exit_thread", "src/arch/riscv64.rs: munmap_and_exit_thread", "src/arch/arm.rs: munmap_and_exit_thread"]}
{"id": "C31", "title": "no leaks: joined and detached threads are fully freed", "statement": "Once a joined or detached thread has exited and the join/detach call has returned, its mapping is gone; whenever everything is quiescent the mapped thread regions are exactly those of threads never joined nor detached.", "quantifier": "every interleaving and every stack/guard size", "why_tests_cant": "leaks depend on who wins the race and on size rounding", "anchors": ["src/thread/linux_raw.rs: exit, detach, join, free_memory"]}
{"id": "C32", "title": "no lost wake-ups", "statement": "If t has exited, a join/detach waiting for it is not asleep forever: it completes in a bounded number of its own steps.", "quantifier": "every interleaving of futex wait, signal interruption and kernel tid clear", "why_tests_cant": "races", "anchors": ["src/thread/linux_raw.rs: wait_for_exit"]}
{"id": "C33", "title": "thread ids", "statement": "While a thread runs user code `current_id()` on it and `id(t)` from others equal its kernel tid; `id` of a joinable thread becomes None only after its code has finished; create returns with the id already set.", "quantifier": "every interleaving", "why_tests_cant": "races between clone's parent/child tid stores and readers", "anchors": ["src/thread/linux_raw.rs: create, current_id, id"]}
{"id": "C34", "title": "thread::at_exit functions run LIFO, once, before the thread exits", "statement": "Functions registered with `thread::at_exit` on a thread are each called exactly once on that thread, most recently registered first, including functions registered by running exit functions, before the thread is seen as exited.", "quantifier": "every registration history incl. nested registrations", "why_tests_cant": "nesting depth and order unbounded", "anchors": ["src/thread/linux_raw.rs: at_exit, call_dtors, exit"]}
{"id": "C35", "title": "program::exit order", "statement": "`program::exit(status)` calls the calling thread's thread::at_exit functions, then program::at_exit functions most-recently-registered first including ones registered meanwhile, then .fini_array functions in reverse order each once, then terminates the process with status.", "quantifier": "every registration history, nested registrations, fini_array length", "why_tests_cant": "unbounded histories", "anchors": ["src/program/linux_raw.rs: exit, at_exit"]}
{"id": "C36", "title": "program::at_exit under concurrency", "statement": "For every interleaving of at_exit and exit calls by any number of threads, each registered function is called at most once, no registration is lost, and no user function is ever called with the registration lock held.", "quantifier": "every interleaving", "why_tests_cant": "schedules unbounded", "anchors": ["src/program/linux_raw.rs: exit, at_exit, DTORS"]}
{"id": "C37", "title": "immediate_exit and trap skip all handlers", "statement": "`immediate_exit(status)` terminates with status without calling any at_exit or fini function; `trap` terminates by an illegal instruction without calling any.", "quantifier": "every state of the registries", "why_tests_cant": "all histories", "anchors": ["src/program/linux_raw.rs: immediate_exit, trap"]}
{"id": "C38", "title": "no registered exit function is silently dropped", "statement": "Every function whose registration (thread::at_exit or program::at_exit) completes before the process ends by program::exit on the same thread is called.", "quantifier": "every registration point, including registrations made by exit functions and fini functions", "why_tests_cant": "the point of registration is arbitrary", "anchors": ["src/program/linux_raw.rs: exit", "src/thread/linux_raw.rs: at_exit"]}
{"id": "C39", "title": "sigaction supplies the restorer and nothing else", "statement": "`sigaction(sig, Some(a))` installs a's handler, mask and flags plus the RESTORER flag and the return trampoline matching SA_SIGINFO (unchanged on riscv64); `sigaction(sig, None)` changes nothing; errors are passed through.", "quantifier": "every signal, action record and prior kernel state", "why_tests_cant": "all flag combinations", "anchors": ["src/signal/linux_raw.rs: sigaction"]}
{"id": "C40", "title": "saving and restoring a signal action", "statement": "Re-installing the action returned by a previous sigaction restores the previous disposition: for dispositions installed through origin, exactly.", "quantifier": "every sequence of sigaction calls", "why_tests_cant": "histories", "anchors": ["src/signal/linux_raw.rs: sigaction"]}
{"id": "C41", "title": "new-thread trampoline", "statement": "On every architecture, after a successful clone the child enters the Rust thread entry with (fn, args pointer, count) as its C arguments, a null return address and frame pointer, an ABI-aligned stack, and the parent continues with its stack pointer and result intact.", "quantifier": "all register and memory contents, all aligned stacks", "why_tests_cant": "asm over all machine states", "anchors": ["src/arch/x86_64.rs: clone", "src/arch/x86.rs: clone", "src/arch/aarch64.rs: clone", "src/arch/riscv64.rs: clone", "src/arch/arm.rs: clone"]}
{"id": "C42", "title": "process entry trampoline", "statement": "On every architecture `_start` enters the Rust entry with the initial stack pointer as its argument, null return address and frame pointer, ABI-aligned stack, without modifying the kernel-provided stack contents.", "quantifier": "all machine states the kernel may provide", "why_tests_cant": "asm over all machine states", "anchors": ["src/arch/x86_64.rs: _start", "src/arch/x86.rs: _start", "src/arch/aarch64.rs: _start", "src/arch/riscv64.rs: _start", "src/arch/arm.rs: _start"]}
{"id": "C43", "title": "munmap_and_exit_thread", "statement": "The detached-exit sequence issues exactly munmap(map, len) and then exit(0), and touches no memory (so not the freed stack) in between; it never returns.", "quantifier": "all machine states", "why_tests_cant": "asm over all machine states", "anchors": ["src/arch/x86_64.rs: munmap_and_exit_thread", "src/arch/x86.rs: munmap_and_exit_thread", "src/arch/aarch64.rs: munmap_and_exit_thread", "src/arch/riscv64.rs: munmap_and_exit_thread", "src/arch/arm.rs: munmap_and_exit_thread"]}
{"id": "C44", "title": "libc-mode argument marshalling", "statement": "In libc mode, create packs fn and args so that the new thread calls fn with a slice equal to args, for every number of arguments including 0, and frees the pack exactly once.", "quantifier": "all argument lists", "why_tests_cant": "unbounded lengths", "anchors": ["src/thread/libc.rs: create"]}
{"id": "C45", "title": "Thread handle conversions round-trip", "statement": "from_raw(to_raw(t)) == t, from_raw_non_null(to_raw_non_null(t)) == t, from_raw_unchecked(to_raw(t)) == t; from_raw(null) panics in take-charge mode; distinct live threads have distinct raw values.", "quantifier": "all handles, all reachable thread sets", "why_tests_cant": "all addresses", "anchors": ["src/thread/linux_raw.rs: Thread"]}
{"id": "C46", "title": "getauxval", "statement": "getauxval(AT_HWCAP/AT_HWCAP2/AT_MINSIGSTKSZ) returns the corresponding startup value and any other request panics rather than returning a value.", "quantifier": "all request types", "why_tests_cant": "all inputs", "anchors": ["src/getauxval.rs: _getauxval"]}
{"id": "C47", "title": "compiler-generated TLS accesses hit the initialised block", "statement": "The address the platform TLS ABI (local-exec model) assigns to TLS offset off relative to the thread pointer is the address where that byte of the TLS image was initialised.", "quantifier": "all TLS sizes and alignments, architectures", "why_tests_cant": "link-time data", "anchors": ["src/thread/linux_raw.rs: calculate_tls_size, Abi", "src/arch/x86_64.rs: TLS_OFFSET", "src/arch/x86.rs: TLS_OFFSET", "src/arch/aarch64.rs: TLS_OFFSET", "src/arch/riscv64.rs: TLS_OFFSET", "src/arch/arm.rs: TLS_OFFSET"]}
{"id": "C48", "title": "detached exit order", "statement": "A detached thread that exits first stops the kernel from writing its tid, then (with the signal feature) blocks all signals, then unmaps its memory and exits; so no signal handler can run on, and the kernel cannot write to, the unmapped stack.", "quantifier": "every interleaving with signals and other threads", "why_tests_cant": "races with asynchronous signals", "anchors": ["src/thread/linux_raw.rs: exit"]}
{"id": "C49", "title": "returning from a signal handler", "statement": "The return trampoline sigaction installs issues exactly one system call, the sigreturn that matches the kind of frame the kernel pushed (SA_SIGINFO or not), with the stack pointer from which the kernel finds that frame, leaves memory unchanged and never continues past it.", "quantifier": "every machine state at handler return, both kinds of handlers, every architecture with a restorer", "why_tests_cant": "asm over all machine states", "anchors": ["src/arch/x86_64.rs: return_from_signal_handler", "src/arch/x86.rs: return_from_signal_handler", "src/arch/aarch64.rs: return_from_signal_handler", "src/arch/arm.rs: return_from_signal_handler"]}
{"id": "C50", "title": "x86 thread pointer register", "statement": "After set_thread_pointer(p) the selector loaded in gs selects a descriptor of base p spanning all memory, and a created thread's inherited selector selects its own thread pointer.", "quantifier": "every pointer, every GDT contents, every free slot", "why_tests_cant": "kernel state dependent", "anchors": ["src/arch/x86.rs: set_thread_pointer, clone"]}
{"id": "C51", "title": "relocation memory primitives", "statement": "During self-relocation a load reads exactly one word at its address, a store changes exactly one word, mprotect makes exactly one mprotect(ptr, len, PROT_READ) call and stops the process if it fails.", "quantifier": "every address, value, memory and kernel answer", "why_tests_cant": "asm over all machine states", "anchors": ["src/arch/x86_64.rs: relocation_load, relocation_store, relocation_mprotect_readonly", "src/arch/x86.rs: relocation_load, relocation_store, relocation_mprotect_readonly", "src/arch/aarch64.rs: relocation_load, relocation_store, relocation_mprotect_readonly", "src/arch/riscv64.rs: relocation_load, relocation_store, relocation_mprotect_readonly", "src/arch/arm.rs: relocation_load, relocation_store, relocation_mprotect_readonly"]}
{"id": "C52", "title": "addresses found before relocation", "statement": "Wherever the image is loaded, the addresses of the dynamic table and of the ELF header obtained before relocation are their run-time addresses.", "quantifier": "every load bias, link address and code position", "why_tests_cant": "depends on where the loader puts the image", "anchors": ["src/arch/x86_64.rs: dynamic_table_addr, ehdr_addr", "src/arch/x86.rs: dynamic_table_addr, ehdr_addr", "src/arch/aarch64.rs: dynamic_table_addr, ehdr_addr", "src/arch/riscv64.rs: dynamic_table_addr, ehdr_addr", "src/arch/arm.rs: dynamic_table_addr, ehdr_addr"]}
{"id": "C53", "title": "libc-mode sigaction", "statement": "In libc mode `sigaction(sig, Some(a))` gives libc exactly the action a, and `sigaction(sig, None)` gives it none.", "quantifier": "every action record and every legal placement of locals on the stack", "why_tests_cant": "depends on how the compiler lays out the stack frame", "anchors": ["src/signal/libc.rs: sigaction"]}
{"id": "C54", "title": "libc-mode exit functions and trap", "statement": "In libc mode every function registered with thread::at_exit or program::at_exit is called at most once, most recent first per thread or process, from a box that is still allocated; trap never returns and ends the process by default.", "quantifier": "every history of registrations and exits on any number of threads", "why_tests_cant": "histories; nested registrations", "anchors": ["src/thread/libc.rs: at_exit", "src/program/libc.rs: at_exit, trap"]}
{"id": "C55", "title": "default sizes are usable", "statement": "default_guard_size() is exactly four pages on every page size and build, hence a page multiple; default_stack_size() is at least 128 KiB and at least PT_GNU_STACK's request; creating a thread with both defaults succeeds in laying out its memory whenever the address space can hold it, with a guard of four pages and at least 128 KiB of stack.", "quantifier": "every architecture, page size, build mode, TLS segment and PT_GNU_STACK size", "why_tests_cant": "page sizes, header values and overflow behaviour differ per machine and build", "anchors": ["src/thread/linux_raw.rs: default_stack_size, default_guard_size, create"]}
{"id": "C56", "title": "the thread life cycle on real bytes", "statement": "While user code writes arbitrary memory outside the fields of live thread records: every byte of a thread record that join, detach, exit, id, current_id or the kernel accesses lies in the still-mapped mapping of a thread; current() leads every thread to its own handle, one and the same for its whole life; join returns the value the thread's function returned; id gives the tid until the thread finishes, then None; the successful munmap calls are exactly, and once each, the mappings create obtained for threads that were joined or detached and finished, never the main thread's; with page-multiple guards nothing leaks or panics.", "quantifier": "every architecture, record layout, TLS segment, interleaving, kernel choice of addresses and tids, and every user write", "why_tests_cant": "ranges over all schedules, addresses and memory contents; a stray access to freed memory rarely crashes", "anchors": ["src/thread/linux_raw.rs: create, initialize_main, current, current_id, id, join, detach, wait_for_exit, exit, free_memory"]}
{"id": "C57", "title": "set_current_id_after_a_fork", "statement": "Called on the child's only thread with its new tid, it makes current_id() and id(current()) that tid, leaves current() and stack() as they were, and changes no other byte of memory; its debug assertions do not fail when tid = gettid().", "quantifier": "every reachable process state at the fork, every forking thread and tid", "why_tests_cant": "depends on when the fork happens and which tid the kernel picks", "anchors": ["src/thread/linux_raw.rs: set_current_id_after_a_fork"]}
{"id": "C58", "title": "errno_location", "statement": "errno_location() is an int inside the calling thread's own record, the same address for the whole life of the thread, overlapping no other field of the record and no other thread's record or errno. It is 0 when the thread starts, and only user code's own writes change it: no call into the crate does.", "quantifier": "every record layout, architecture, number of threads and history", "why_tests_cant": "aliasing between threads shows only under particular layouts and schedules", "anchors": ["src/thread/linux_raw.rs: errno_location", "src/thread/linux_raw.rs: ThreadData::new", "src/thread/linux_raw.rs: create, initialize_main, join, detach, exit"]}
{"id": "C59", "title": "the runtime is ready before user code", "statement": "When the first user function (first .init_array entry, or origin_main if there is none) is called, memory is the relocated image plus a completely set-up main thread: the thread pointer leads to current(), current_id() is the kernel's thread id, the stack-protector canary at its ABI address is the word at AT_RANDOM, the TLS block at the ABI address holds the PT_TLS image followed by zeros and is aligned, stack() starts RLIMIT_STACK below the page end of the AT_EXECFN string with a one-page guard, and nothing outside the thread's own mapping changed; each user function runs on the memory its predecessor left, and the exit status is origin_main's result there.", "quantifier": "all targets, builds, argument lists, environments, auxiliary vectors, program headers, relocation results, init arrays and user programs", "why_tests_cant": "a test sees one kernel, one auxv and one program-header layout", "anchors": ["src/program/linux_raw.rs: entry, init_runtime", "src/thread/linux_raw.rs: initialize_startup_info, initialize_main"]}
{"id": "C60", "title": "process start, end to end", "statement": "From the first instruction of the process: `_start` makes no system call, leaves everything at or above the initial stack pointer as the kernel put it, and enters origin with the initial stack pointer, a null return address and an ABI-aligned stack; from there the startup sequence is followed in order and every user function gets the kernel's argc, argv and envp, and finds the memory C59 describes.", "quantifier": "all targets, builds, kernel stacks, user programs and numbers of steps", "why_tests_cant": "tests run one target and one stack image and cannot observe the trampoline", "anchors": ["src/arch/*.rs: _start", "src/program/linux_raw.rs: entry"]}
{"id": "C61", "title": "A created thread is a thread of the process, and its exit wakes its joiner", "statement": "The clone call `thread::create` makes is accepted by Linux for every stack, TLS and id address and gives a task that shares the caller's process id, address space, open files, signal actions, working directory, semaphore undo list and namespaces, runs on the new stack with the new thread pointer, sends no exit signal and does not suspend the caller; its id is in its record before the caller or the new thread runs, and its own later store of the id changes nothing. All threads made this way, by any thread, are in one process. When the thread exits the kernel zeroes the id in its record, changes nothing else, and wakes exactly the futex on which a joiner waiting as `join_thread` does (any thread of the process) sleeps; a join started after that does not sleep. A detached thread, having cleared its id address, exits without touching memory.", "quantifier": "for all architectures, sizes, arguments, memories, parents, joiners and chains of thread creation", "why_tests_cant": "a missing flag shows only in what is shared later (files, signal actions, undo lists), and a wrong futex key only as a join that never returns under one schedule", "anchors": ["src/thread/linux_raw.rs: create, wait_for_exit, CloneFlags, exit_thread"]}
{"id": "C62", "title": "Threads, joins and exit functions together", "statement": "In a program with any number of threads that create, join, detach, register exit functions and exit in any interleaving, calls inside exit functions included: when join(j) returns, its value is the one j's function returned, j's function returned once, every function j registered with thread::at_exit (also those registered by its exit functions) has been called on j and has returned, and nothing of j is left to run; while any of a thread's code (its function or its exit functions) is running or waiting, its stack, TLS and record are mapped, current() is its handle and current_id() its kernel tid; a thread's mapping is given back only after its function returned and all its exit functions have been called and returned; once the process has ended nothing happens.", "quantifier": "all programs, builds, targets, schedules and numbers of threads and functions", "why_tests_cant": "it relates two subsystems over all interleavings: a destructor run after the record was released, or a join that overtakes the destructors, shows only in rare schedules", "anchors": ["src/thread/linux_raw.rs: create, entry, exit, join, detach, at_exit, call_dtors", "src/program/linux_raw.rs: exit, at_exit"]}
{"id": "C63", "title": "The checks where assembly enters Rust never fail", "statement": "In builds with debug assertions (and with the nightly checks), none of the checks `entry` makes on its stack pointer, frame, return address and caller frame fails, at process start or in any created thread; and the checks pass only if the stack is ABI-aligned and the return address and frame pointer are null (for threads on arm, where the check is weaker, except the alignment).", "quantifier": "all targets, initial machine states, create calls, sizes and frame sizes", "why_tests_cant": "the checks depend on alignment arithmetic over all sizes and argument counts; a test sees one layout and only on the host target", "anchors": ["src/program/linux_raw.rs: entry", "src/thread/linux_raw.rs: entry", "src/arch/*.rs: _start, clone"]}
{"id": "C64", "title": "Stack queries in libc mode", "statement": "Without take-charge: stack(t) is the address and sizes t was created with and panics only when libc reports an error; default_stack_size() and default_guard_size() are the sizes new threads get by default, whichever thread asks; repeated queries do not accumulate memory.", "quantifier": "all histories of thread creations and queries, all sizes", "why_tests_cant": "a test asks on the main thread, where own size and default often coincide, and does not count libc's allocations", "anchors": ["src/thread/libc.rs: stack, default_stack_size, default_guard_size"]}
{"id": "C65", "title": "Creating, joining and reclaiming threads synchronise", "statement": "Everything a thread did before create returned happens before everything the new thread does. Everything a thread did in its function and exit functions happens before the return of the join of it and what the joiner does next, without relying on the futex wake. Every use of a thread's stack and record by the thread or by join/detach, and everything the thread that joined or detached it did before that call, happens before the munmap that gives the memory back, whichever thread does it.", "quantifier": "all interleavings, numbers of threads, placements of ordinary memory accesses, futex outcomes", "why_tests_cant": "a missing happens-before edge is invisible on strongly ordered hardware and in almost all schedules elsewhere", "anchors": ["src/thread/linux_raw.rs: create, exit, join, detach, wait_for_exit, free_memory"]}
{"id": "C66", "title": "Logging reads only live thread records", "statement": "With the log feature, every log statement of thread create, entry, exit, join, detach and call_dtors reads the id of a thread record that is allocated and not yet freed: the executing thread's own, or that of the thread it is joining or detaching. Its own id is printed as gettid's value; another's as that thread's id until the kernel has cleared it and as 0 afterwards.", "quantifier": "every interleaving of any number of threads, every point at which a log statement runs", "why_tests_cant": "The reads race with the exit and the freeing of the thread concerned; only some schedules would expose a read of freed memory, and logging is off in most runs.", "anchors": ["src/thread/linux_raw.rs: create (593-606)", "src/thread/linux_raw.rs: entry (633)", "src/thread/linux_raw.rs: exit (687-753)", "src/thread/linux_raw.rs: detach (804-820)", "src/thread/linux_raw.rs: join (838-854)", "src/thread/linux_raw.rs: log_thread_to_be_freed"]}
{"id": "C67", "title": "From execve to threads without a seam", "statement": "When the kernel has started a program built with origin and origin's startup calls the first user function, the process is in a state from which the thread guarantees start to hold: exactly one thread, with the kernel's thread id in its record, found through its thread register. Whatever the threads do from there on, as long as no thread is created after another thread's memory was reclaimed, no unmapped byte is accessed, every mapped thread finds its own record, the first thread's memory is never unmapped, nor anyone's that nobody joined or detached, and join returns what the thread's function returned.", "quantifier": "every initial register file, stack, argument and environment vector, program image and TLS template that the loader may produce; every architecture; every interleaving of any number of threads afterwards", "why_tests_cant": "It ties what startup leaves in memory to what every later thread operation assumes; a test runs one binary on one kernel's stack contents and one schedule.", "anchors": ["src/program/linux_raw.rs: _start, entry", "src/arch/*.rs: _start", "src/thread/linux_raw.rs: initialize_main, create, join, detach, exit"]}
{"id": "C68", "title": "Threads, joins and detaches make progress", "statement": "As long as the scheduler and the kernel eventually run every thread that is inside one of origin's functions or being taken down (user code may compute for ever, and a sleeping joiner is only ever promised a wake-up, never an interruption): a thread whose function returned is eventually gone; detach always returns, whatever the thread does; a join of a thread whose function returns, before or after the call, eventually returns exactly that value; and the memory of a joined or detached thread whose function returned is eventually unmapped and stays so. No thread inside origin's functions is ever stuck.", "quantifier": "every infinite fair interleaving of any number of threads, signals and interrupted system calls included", "why_tests_cant": "A missed wake-up or a stuck exit shows only on particular interleavings of exit, futex wait and wake; a test that does not hang proves nothing about the other schedules.", "anchors": ["src/thread/linux_raw.rs: exit (684-768)", "src/thread/linux_raw.rs: wait_for_exit (872-896)", "src/thread/linux_raw.rs: join, detach, free_memory (803-928)"]}
{"id": "C69", "title": "Exit functions see what was written before they were registered", "statement": "Whichever thread calls a function registered with program::at_exit, everything the registering thread did up to the registration happens before everything the function does. The list of registered functions is never accessed without ordering: of any two accesses one happens before the other. With threads and program::at_exit, every .fini_array function runs after, and ordered after, every registration ever made. Only program order, thread creation and the registration mutex are used for this.", "quantifier": "every history of registrations, exits, nested calls and other activity of any number of threads", "why_tests_cant": "Missing ordering shows as a stale read or a torn list only on weakly ordered machines and rare schedules.", "anchors": ["src/program/linux_raw.rs: DTORS, at_exit (228-257)", "src/program/linux_raw.rs: exit (261-327)"]}
{"id": "C70", "title": "Exits come to an end", "statement": "On every fair schedule: program::exit (or returning from origin_main) ends the process, and a thread whose function returned gets through its thread::at_exit functions and ends (unless the process ends first), provided the user's exit functions return, registrations and thread creations come to an end, and .fini_array entries call neither program::at_exit nor program::exit. immediate_exit and trap end the process whatever user code does. No deadlock is possible among any number of concurrent and nested exits and registrations, although the last exit keeps the list's lock for ever. Without the condition on .fini_array the process hangs.", "quantifier": "every configuration of features, every number of threads, every infinite fair schedule, every nesting of registrations and exits in exit functions", "why_tests_cant": "it is about infinite schedules: a test that ends shows one schedule that ends", "anchors": ["src/program/linux_raw.rs: exit, at_exit, immediate_exit, trap", "src/thread/linux_raw.rs: exit, call_dtors"]}
{"id": "C71", "title": "Fork-join programs behave as they read", "statement": "A program that registers functions with thread::at_exit and program::at_exit, runs functions in new threads and joins them, computes and prints in between, and ends by returning from origin_main, program::exit, immediate_exit or trap, with all of these nested at will in thread functions and exit functions, behaves on every schedule as it reads sequentially: join(create(f)) is calling f and then the functions it registered, last first; exit calls the calling thread's functions last first, then the program's, then .fini_array; what is printed is always a prefix of that reading, and a process that has ended has printed all of it and ended the way the program says. Every such program has exactly one reading: its exit functions come to an end whatever they register. In particular example-crates/origin-start prints its six messages in one fixed order and exits with 0, and the asserts in test-crates' dtors-adding-dtors programs never fail.", "quantifier": "every such program, every configuration of features, every number of .fini_array entries, every interleaving of its threads, the kernel's wake-ups and spurious wake-ups", "why_tests_cant": "a test runs one program on a few schedules", "anchors": ["src/thread/linux_raw.rs: create, entry, exit, join, at_exit, call_dtors", "src/program/linux_raw.rs: at_exit, exit, immediate_exit, trap", "example-crates/origin-start/src/main.rs", "test-crates/origin-start/src/bin"]}
{"id": "C72", "title": "Fork-join programs come to their end", "statement": "On every fair schedule a program of C71's form does reach the end it reads as having: after finitely many steps the process has ended with the outcome the program says and has printed all of its output, and nothing happens any more. No thread waits for ever in join, in a lock or in exit, whatever the other threads do. Every program that uses the features it was built with, and whose .fini_array entries neither register program exit functions nor call exit, ends.", "quantifier": "every such program, every configuration of features, every number of .fini_array entries, every infinite fair execution: user code that can go on does, every thread inside one of origin's functions or in the kernel moves unless it sleeps or waits for a lock somebody holds; the lock itself need not be fair", "why_tests_cant": "a hang shows only on some schedules, and a test cannot tell a hang from a slow run", "anchors": ["src/thread/linux_raw.rs: create, entry, exit, join, wait_for_exit, at_exit, call_dtors", "src/program/linux_raw.rs: at_exit, exit, immediate_exit, trap"]}
{"id": "C73", "title": "Programs whose threads share nothing give the same result on every schedule", "statement": "Take a program whose threads create further threads and keep their handles, run at the same time, join or detach them in any order, register thread exit functions, print, and return values, but share no variables of their own. Whatever the interleaving: join returns exactly the value the thread's function has when it is read on its own; at every moment each thread has printed a prefix of its own text (its function's, then its exit functions', last registered first; the main thread goes on with .fini_array), so nothing is lost, repeated or reordered; a thread that is done or has been joined has printed all of it; and the process can only end with the value main reads as returning. If every thread is joined by its creator, all threads have finished when the process ends and its whole output is always the same, up to interleaving. Two runs on different machines agree.", "quantifier": "every such program (any nesting of creation, any join order, values flowing through joins), every configuration of features, every number of .fini_array entries, every interleaving of its threads, the kernel's wake-ups and spurious wake-ups", "why_tests_cant": "a test sees a few interleavings of a few programs; a lost result, a join that returns early or another thread's value depends on the schedule", "anchors": ["src/thread/linux_raw.rs: create, entry, exit, join, detach, wait_for_exit, at_exit, call_dtors", "src/program/linux_raw.rs: exit"]}
{"id": "C74", "title": "Programs whose threads share nothing always end", "statement": "Take a program as in C73: threads that run at the same time, nested in any way, joined or detached in any order or left alone, with thread exit functions. If the scheduler is fair (a thread inside one of origin's functions that is not asleep keeps running, user code goes on, create succeeds), every execution comes to an end: no join, detach, thread exit or program exit hangs, no wake-up is lost. The process ends with the value main reads as returning and main's whole text printed; if every thread is joined by its creator, everything the program reads as printing has been printed exactly once. Fairness asks for nothing impossible: if each handle is used at most once, then until the process has ended there is always a step to take.", "quantifier": "every such program, every configuration of features, every fair infinite schedule of its threads and of the kernel's wake-ups, including spurious ones", "why_tests_cant": "liveness under every fair schedule; a test that does not hang proves nothing about the schedule that would", "anchors": ["src/thread/linux_raw.rs: create, entry, exit, join, detach, wait_for_exit, at_exit, call_dtors", "src/program/linux_raw.rs: exit"]}
{"id": "C75", "title": "Rust frames are transparent to unwinding", "statement": "In a program built with eh-personality-continue, whatever exception an unwinder following the Itanium C++ ABI raises, or forces, through any mix of Rust frames and frames of other languages, the outcome is the one of the same stack without the Rust frames: the same foreign handler gets control after the same foreign clean-ups in the same order, or the end of the stack is reported; no Rust frame catches, runs a clean-up or makes unwinding fail. An unwinder of another ABI version is stopped with a fatal error at the first Rust frame before anything is unwound. With panic-handler-trap, every function of the missing unwinder that gets called kills the process with the trap signal of the architecture.", "quantifier": "every stack of frames, every personality routine and landing pad of the foreign frames, every state, exception class and object, every ABI version number", "why_tests_cant": "it is about arbitrary foreign personality routines, stacks and unwinders; a test links one of them", "anchors": ["src/stubs.rs: rust_eh_personality, panic", "src/unwind_unimplemented.rs: all functions"]}
{"id": "C76", "title": "Startup relocation touches only its own stack and image", "statement": "In a process that can read its initial stack (environment and auxiliary vector), its ELF header, dynamic section, relocation tables, program headers, the word holding the address of _start and the words with an in-place addend, and can write the words to be relocated, startup relocation takes no page fault, whatever else is unmapped or read-only, and ends as it does on a machine where everything is mapped. A program that needs no relocation reads only the stack and the word holding the address of _start. Whatever the image, every byte stored to was writable and had not been made read-only by the RELRO protection; an image with a relocation in memory the process may not write faults instead of starting unrelocated.", "quantifier": "every image, initial stack, load address, set of readable and writable bytes, architecture and build mode", "why_tests_cant": "a test has one memory map, in which a stray access usually hits something mapped", "anchors": ["src/relocate.rs: relocate, compute_auxp, load_static_start", "src/arch/*.rs: relocation_load, relocation_store, relocation_mprotect_readonly"]}
{"id": "C77", "title": "Startup and thread creation touch only memory that is theirs", "statement": "From the kernel's hand-over to origin_main, startup reads only the initial stack, what relocation may touch, the program headers, the AT_EXECFN string, the AT_RANDOM bytes, the TLS template and .init_array, and writes only the words to relocate and the memory it mapped for the main thread: if these are accessible no page fault happens, whatever the user's functions do, and startup runs as on a machine where everything is mapped. thread::create reads only the calling thread's canary and the TLS template and writes only the part of its new mapping that it made writable, whether it succeeds or fails.", "quantifier": "every initial stack, image, set of readable and writable bytes, kernel answer, request, architecture, feature set and build mode", "why_tests_cant": "a test has one memory map, in which a stray access usually hits something mapped", "anchors": ["src/program/linux_raw.rs: entry, compute_args, init_runtime", "src/thread/linux_raw.rs: initialize_startup_info, initialize_main, initialize_tls, create"]}
{"id": "C78", "title": "Logging does not disturb exit functions", "statement": "With the log feature, thread exit and program::exit log a message before each exit function they call, before a thread exits and before the process ends. Whatever the installed logger does, exit functions are still called last-registered-first, each exactly once, every function registered before a thread or the process ends is called, and program::exit ends the process; and the messages name what is then done, in order.", "quantifier": "every program, logger, schedule, feature set and prefix of an execution", "why_tests_cant": "the logger is arbitrary user code that runs between choosing an exit function and calling it, under every interleaving of threads", "anchors": ["src/program/linux_raw.rs: exit, immediate_exit", "src/thread/linux_raw.rs: entry, exit, call_dtors, exit_thread"]}
{"id": "C79", "title": "A panicking exit function disturbs no other", "statement": "Exit functions may panic. A panic that leaves a function called by a program::exit which user code called arrives in that code, with the registration lock free of this thread (unless the exit had gone on to the .fini_array functions); any other panic ends the process at once. Whatever panics and is caught, exit functions are called last-registered-first, none twice and none lost; a thread that exits has called all of its functions; a program::exit that no panic leaves does all of its work, and a new program::exit ends the process after calling exactly what is left.", "quantifier": "every program, choice of functions that panic and of callers that catch, schedule, feature set and prefix of an execution", "why_tests_cant": "a panic can happen in any exit function at any point, with any functions registered and any other threads in the middle of registering or exiting", "anchors": ["src/program/linux_raw.rs: entry, at_exit, exit", "src/thread/linux_raw.rs: entry, at_exit, exit, call_dtors"]}
{"id": "C80", "title": "The logger is there before user code", "statement": "With a logging backend feature (atomic-dbg-logger or env_logger) origin installs that logger at startup, before every .init_array function whose linker priority is above 99 or absent and before origin_main; from then on every message is recorded, the first being 'Program started'. With the log feature, every .init_array function and origin_main is announced immediately before it is called; they are called in linker order, each once, and all of them unless one ends the process.", "quantifier": "every feature set, every set of initializers and link order, everything initializers and origin_main do with logging", "why_tests_cant": "which initializers run before the logger exists depends on the link order of the whole program and on what each of them does", "anchors": ["src/log.rs: INIT_ARRAY, init", "src/lib.rs: mod log", "src/program/linux_raw.rs: entry", "Cargo.toml: atomic-dbg-logger, env_logger"]}
{"id": "C81", "title": "Startup on a stack no kernel made", "statement": "A debug build panics before relocation, runtime initialisation and any user code exactly if the first stack word is not below 2^31, or the pointer after that many arguments is not null, or (with origin-start) the stack pointer is null or not 16-aligned; other builds never do. In every build, whatever the stack holds, init functions, origin_main and the runtime are given the first word cut to a signed 32-bit count, the address of the second word, and the address count + 2 words on.", "quantifier": "all targets, feature sets, memories, stack pointers, programs", "why_tests_cant": "ranges over every memory content, including the malformed ones an external caller of start could pass", "anchors": ["src/program/linux_raw.rs: entry, start, compute_args"]}
{"id": "C82", "title": "Parallel programs with program-exit functions are deterministic", "statement": "A program whose threads share no variables and that creates, joins and detaches threads, registers thread::at_exit and program::at_exit functions (which may do the same), prints and returns, behaves as its sequential reading says in every interleaving: every join returns the value of the joined thread's function, every thread prints exactly its text in its order, the process ends with the status main returned, and if every thread is joined the output of the whole process is the same up to interleaving. If only the main thread registers program::at_exit functions, the main thread's text is fixed too: it continues with its thread::at_exit functions, then all program::at_exit functions (last registered first, those registered by such a function right after it), then .fini_array.", "quantifier": "all programs of this kind, all interleavings, all machines and kernel answers, all feature sets", "why_tests_cant": "ranges over all programs and all schedules", "anchors": ["src/program/linux_raw.rs: at_exit, exit", "src/thread/linux_raw.rs: create, join, detach, at_exit, exit"]}
{"id": "C83", "title": "Parallel programs with program-exit functions always end", "statement": "Take a program as in C82: threads that share no variables, with thread::at_exit and program::at_exit functions registered by any thread at any time, also while the program exits; the functions in .fini_array only print, create threads and register thread::at_exit functions. If the scheduler is fair (a thread inside one of origin's functions that neither sleeps nor waits for a lock another holds keeps running, user code goes on, create succeeds), every execution comes to an end: with the status main returned, main having printed its own text, that of every program::at_exit function called, in the order of the calls, and that of .fini_array; if every thread is joined by its creator, everything the program reads as printing has been printed exactly once. Fairness asks for nothing impossible: if each handle is used at most once, then until the process has ended there is always a step to take. A .fini_array function that calls program::at_exit never returns.", "quantifier": "every such program, every configuration of features, every fair infinite schedule of its threads and of the kernel's wake-ups, including spurious ones, in which the lock is granted in any order", "why_tests_cant": "liveness under every fair schedule; a test that does not hang proves nothing about the schedule that would", "anchors": ["src/program/linux_raw.rs: at_exit, exit", "src/thread/linux_raw.rs: create, entry, exit, join, detach, wait_for_exit, at_exit, call_dtors"]}
