{
 "claims": [
  {
   "property": "C01",
   "status": "proved",
   "theorems": [
    "memcpy_correct"
   ],
   "note": "every build variant, size, alignment"
  },
  {
   "property": "C02",
   "status": "proved",
   "theorems": [
    "memmove_correct",
    "memmove_restores_direction_flag"
   ],
   "note": "every overlap"
  },
  {
   "property": "C03",
   "status": "proved",
   "theorems": [
    "memset_correct"
   ],
   "note": ""
  },
  {
   "property": "C04",
   "status": "proved",
   "theorems": [
    "memcmp_correct",
    "bcmp_correct"
   ],
   "note": ""
  },
  {
   "property": "C05",
   "status": "proved",
   "theorems": [
    "strlen_correct"
   ],
   "note": "unbounded loop: any fuel larger than the string"
  },
  {
   "property": "C06",
   "status": "proved",
   "theorems": [
    "memcpy_footprint",
    "memmove_footprint",
    "strlen_footprint",
    "memset_correct",
    "memcmp_correct"
   ],
   "note": "page size any multiple of 16"
  },
  {
   "property": "C07",
   "status": "proved",
   "theorems": [
    "memcpy_variants_agree",
    "memmove_variants_agree",
    "memset_variants_agree",
    "memcmp_variants_agree",
    "strlen_variants_agree"
   ],
   "note": ""
  },
  {
   "property": "C08",
   "status": "proved",
   "theorems": [
    "C08_args",
    "C08_runtime_envp"
   ],
   "note": "argc/argv/envp handed to every user of the arguments are exactly the kernel's vectors, for every stack image"
  },
  {
   "property": "C09",
   "status": "proved",
   "theorems": [
    "C09_auxv",
    "C09_only_these",
    "C09_wide_type_refuted"
   ],
   "note": "record types are compared modulo 2^32 (the refutation shows it); all kernel-defined types fit in 32 bits, which the theorem assumes"
  },
  {
   "property": "C10",
   "status": "proved",
   "theorems": [
    "C10_order",
    "C10_status",
    "C10_inits",
    "C10_complete",
    "C10_relocated_inits",
    "C10_ex",
    "C10_inits_ex",
    "C10_complete_ex"
   ],
   "note": "order of startup events on every run, status passed to exit, init functions exactly once in order; completion under stated conditions"
  },
  {
   "property": "C11",
   "status": "partial",
   "theorems": [
    "C11_startup_info",
    "C11_run",
    "C11_ex",
    "C11_interpreter_refuted"
   ],
   "note": "proved for an image whose AT_PHDR headers are its own; refuted when the program acts as the interpreter (headers of the executable are mixed with the image's own _DYNAMIC)"
  },
  {
   "property": "C12",
   "status": "proved",
   "theorems": [
    "C12_outcome_unique",
    "C12_completes",
    "C12_rela",
    "C12_frame",
    "C12_ex",
    "C12_elf_layout",
    "C12_elf_numbers"
   ],
   "note": " C12_elf_layout, C12_elf_numbers: the structure offsets and numbers used by the models and in the specifications of C12-C17 are those of the ELF gABI (offsets computed from the field lists)."
  },
  {
   "property": "C13",
   "status": "proved",
   "theorems": [
    "C13_rel",
    "C13_relr",
    "C13_stores_once",
    "C13_debug_refuted"
   ],
   "note": "holds whenever relocation completes; C13_debug_refuted: a debug build panics on a RELR address word when the load base is below the link base"
  },
  {
   "property": "C14",
   "status": "proved",
   "theorems": [
    "C14_traps",
    "C14_ex"
   ],
   "note": ""
  },
  {
   "property": "C15",
   "status": "proved",
   "theorems": [
    "C15_skip",
    "C15_base_interpreter",
    "C15_base_static_pie",
    "C15_skip_ex"
   ],
   "note": ""
  },
  {
   "property": "C16",
   "status": "partial",
   "theorems": [
    "C16_none",
    "C16_pages_partial",
    "C16_fail_traps",
    "C16_one_call",
    "C16_refuted"
   ],
   "note": "false of the code for a relro segment that neither starts nor ends on a page boundary (C16_refuted)"
  },
  {
   "property": "C17",
   "status": "proved",
   "theorems": [
    "thread_layout_good",
    "thread_layout_exists"
   ],
   "note": "overflow-checked builds for every request, release builds for every request that fits the address space"
  },
  {
   "property": "C18",
   "status": "proved",
   "theorems": [
    "stack_and_guard"
   ],
   "note": "arguments must fit the requested stack; protections by replaying the mmap/mprotect log"
  },
  {
   "property": "C19",
   "status": "partial",
   "theorems": [
    "args_reach_thread",
    "args_reach_thread_arm_partial",
    "args_stack_alignment_arm_refuted"
   ],
   "note": "full on x86, x86-64, aarch64, riscv64; on arm the stack pointer is only 4-byte aligned (AAPCS needs 8): refuted. That fn itself receives (sp, len) is C41"
  },
  {
   "property": "C20",
   "status": "proved",
   "theorems": [
    "created_thread_tls_fresh",
    "main_thread_tls_fresh"
   ],
   "note": ""
  },
  {
   "property": "C21",
   "status": "partial",
   "theorems": [
    "current_tls_addr_partial",
    "current_tls_addr_main_partial",
    "current_tls_addr_module",
    "current_tls_addr_refuted"
   ],
   "note": "needs p_align | p_memsz (x86, x86-64) or p_align | record size (others); otherwise the code is wrong: refuted with p_memsz=12, p_align=8"
  },
  {
   "property": "C22",
   "status": "partial",
   "theorems": [
    "record_aligned_partial",
    "main_record_aligned_partial",
    "record_aligned_refuted"
   ],
   "note": "variant I always; x86/x86-64 need p_align or rounded p_memsz to be a multiple of the record alignment; refuted with p_memsz=p_align=4"
  },
  {
   "property": "C23",
   "status": "proved",
   "theorems": [
    "created_current",
    "main_current"
   ],
   "note": ""
  },
  {
   "property": "C24",
   "status": "proved",
   "theorems": [
    "canary_shared"
   ],
   "note": "user code is assumed not to overwrite live canaries / self pointers; mappings of live threads are not handed out again"
  },
  {
   "property": "C25",
   "status": "partial",
   "theorems": [
    "create_failed_partial",
    "create_failed_refuted"
   ],
   "note": "no thread runs after Err; mapping leaks if mprotect or clone fails: refuted"
  },
  {
   "property": "C26",
   "status": "partial",
   "theorems": [
    "main_stack_partial",
    "main_stack_refuted",
    "main_unlimited_stack_panics"
   ],
   "note": "address and guard right; size is negated for every process: refuted"
  },
  {
   "property": "C27",
   "status": "partial",
   "theorems": [
    "oversized_checked_partial",
    "oversized_release_exact",
    "oversized_release_exact_ex",
    "oversized_release_refuted"
   ],
   "note": "Holds with overflow checks. Release builds wrap: they do the same as a checked build, or, exactly where that panics, map less than was asked for (oversized_release_exact, all requests; oversized_release_refuted, one where create succeeds)."
  },
  {
   "property": "C28",
   "status": "partial",
   "theorems": [
    "C28_join_value_partial",
    "C28_join_value_refuted",
    "run_ex",
    "C28_any_kernel",
    "C28_any_kernel_ex"
   ],
   "note": "Proved for kernels that do not reuse an address with a pending exit-time futex wake (c_reuse = false); without that the claim is false of the code (stale FUTEX_WAKE ends a later join), see C28_join_value_refuted. For programs that create no thread after one thread reclaimed another's memory it is proved for every kernel (C28_any_kernel)."
  },
  {
   "property": "C29",
   "status": "partial",
   "theorems": [
    "C29_freed_once_partial",
    "run_ex",
    "C29_any_kernel"
   ],
   "note": "Proved for kernels that do not reuse an address with a pending exit-time futex wake (c_reuse = false); without that the claim is false of the code (stale FUTEX_WAKE ends a later join), see C30_no_use_after_free_refuted. For programs that create no thread after one thread reclaimed another's memory it is proved for every kernel (C29_any_kernel)."
  },
  {
   "property": "C30",
   "status": "partial",
   "theorems": [
    "C30_no_use_after_free_partial",
    "C30_no_use_after_free_refuted",
    "run_ex",
    "C30_any_kernel"
   ],
   "note": "Proved for kernels that do not reuse an address with a pending exit-time futex wake (c_reuse = false); without that the claim is false of the code (stale FUTEX_WAKE ends a later join), see C30_no_use_after_free_refuted. Also needs: handlers only with the signal feature. For programs that create no thread after one thread reclaimed another's memory it is proved for every kernel (C30_any_kernel)."
  },
  {
   "property": "C31",
   "status": "partial",
   "theorems": [
    "C31_no_leak_partial",
    "C31_quiescent_partial",
    "C31_undisturbed_partial",
    "C31_no_panic_partial",
    "C31_no_panic_refuted",
    "C31_guard_join_refuted",
    "C31_guard_detach_refuted",
    "run_ex",
    "C31_any_kernel"
   ],
   "note": "Proved for kernels that do not reuse an address with a pending exit-time futex wake (c_reuse = false); without that the claim is false of the code (stale FUTEX_WAKE ends a later join), see C31_no_panic_refuted. Also needs guard sizes that are page multiples; otherwise refuted (C31_guard_*_refuted). For programs that create no thread after one thread reclaimed another's memory it is proved for every kernel (C31_any_kernel)."
  },
  {
   "property": "C32",
   "status": "partial",
   "theorems": [
    "C32_no_sleeper_partial",
    "C32_call_completes_partial",
    "call_ex",
    "C32_any_kernel"
   ],
   "note": "Proved for kernels that do not reuse an address with a pending exit-time futex wake (c_reuse = false); without that the claim is false of the code (stale FUTEX_WAKE ends a later join), see C28_join_value_refuted. Completion bound also needs page-multiple guards. For programs that create no thread after one thread reclaimed another's memory it is proved for every kernel (C32_any_kernel)."
  },
  {
   "property": "C33",
   "status": "partial",
   "theorems": [
    "C33_id_partial",
    "C33_running_partial",
    "C33_distinct_partial",
    "run_ex",
    "C33_any_kernel"
   ],
   "note": "Proved for kernels that do not reuse an address with a pending exit-time futex wake (c_reuse = false); without that the claim is false of the code (stale FUTEX_WAKE ends a later join), see C28_join_value_refuted. For programs that create no thread after one thread reclaimed another's memory it is proved for every kernel (C33_any_kernel)."
  },
  {
   "property": "C34",
   "status": "proved",
   "theorems": [
    "C34_lifo",
    "C34_once",
    "C34_all_before_exit",
    "C34_nothing_after",
    "C34_completes",
    "C34_ex",
    "C34_completes_ex"
   ],
   "note": "every history of any number of threads with nested registrations"
  },
  {
   "property": "C35",
   "status": "partial",
   "theorems": [
    "C35_order",
    "C35_lifo",
    "C35_taken_is_called",
    "C35_meanwhile",
    "C35_completes",
    "C35_fini_once_partial",
    "C35_fini_twice_refuted",
    "C34_lifo",
    "C35_ex"
   ],
   "note": "order and completeness proved for every exit call; 'fini entries run once per process' proved with thread+program-at-exit and refuted without program-at-exit (concurrent exits)"
  },
  {
   "property": "C36",
   "status": "partial",
   "theorems": [
    "C36_once",
    "C36_none_lost_partial",
    "C36_taken",
    "C36_lost_refuted",
    "C36_lock_partial",
    "C36_lock_refuted",
    "C36_closed",
    "C36_progress",
    "C36_ex"
   ],
   "note": "at-most-once proved; 'none lost' proved when one thread exits, refuted for concurrent exits (race witness); lock claim proved for at_exit functions, refuted for .fini_array functions"
  },
  {
   "property": "C37",
   "status": "partial",
   "theorems": [
    "C37_immediate",
    "C37_trap_partial",
    "C37_trap_refuted",
    "C37_ex"
   ],
   "note": "proved; on aarch64 the trap instruction is brk, which raises SIGTRAP rather than the documented SIGILL"
  },
  {
   "property": "C38",
   "status": "partial",
   "theorems": [
    "C38_thread_fns_partial",
    "C38_program_fns_partial",
    "C38_refuted",
    "C38_fini_refuted",
    "C38_fini_hangs",
    "C38_hang_ex"
   ],
   "note": "false of the code: exact characterisation of which registrations are dropped, with witnesses"
  },
  {
   "property": "C39",
   "status": "proved",
   "theorems": [
    "C39_sigaction",
    "C39_query",
    "C39_errors",
    "C39_handler_returns",
    "C39_ex"
   ],
   "note": "rt_sigaction(2) as specified in SignalSpec; C39_handler_returns joins it with C49"
  },
  {
   "property": "C40",
   "status": "proved",
   "theorems": [
    "C40_restore",
    "C40_ex",
    "C40_foreign_restorer_refuted"
   ],
   "note": "dispositions never set through origin come back with only the restorer fields added; restorers set by others are replaced (refuted)"
  },
  {
   "property": "C41",
   "status": "partial",
   "theorems": [
    "C41_clone",
    "C41_created_thread",
    "C41_ex",
    "C41_riscv64_upper_half_refuted"
   ],
   "note": "all five architectures; riscv64 needs the upper half of the u32 system call number operand to be zero (Rust leaves it undefined: refuted without). arm: ABI alignment only if create's stack is aligned (refuted in C19)"
  },
  {
   "property": "C42",
   "status": "proved",
   "theorems": [
    "C42_start",
    "C42_ex"
   ],
   "note": "all five architectures"
  },
  {
   "property": "C43",
   "status": "partial",
   "theorems": [
    "C43_munmap_exit",
    "C43_ex",
    "C43_riscv64_upper_half_refuted"
   ],
   "note": "all five architectures; riscv64 under the same operand assumption as C41"
  },
  {
   "property": "C44",
   "status": "partial",
   "theorems": [
    "C44_script",
    "C44_arguments",
    "C44_join",
    "C44_apart",
    "C44_failed",
    "C44_never_freed",
    "C44_leak_refuted",
    "C44_ex"
   ],
   "note": "proved for every interleaving; the pack of a failed pthread_create is never freed (refuted)"
  },
  {
   "property": "C45",
   "status": "proved",
   "theorems": [
    "handles_distinct",
    "handle_round_trip",
    "from_raw_null_panics"
   ],
   "note": "take-charge mode"
  },
  {
   "property": "C46",
   "status": "partial",
   "theorems": [
    "C46_values",
    "C46_wide_type_refuted"
   ],
   "note": "proved for types below 2^32; types >= 2^32 are truncated (refuted)"
  },
  {
   "property": "C47",
   "status": "partial",
   "theorems": [
    "local_exec_tls",
    "local_exec_tls_partial",
    "local_exec_tls_arm_refuted",
    "local_exec_tls_aarch64_refuted"
   ],
   "note": "full on x86/x86-64; aarch64/riscv64 when p_align divides the record size (and <= 16 on aarch64); arm always off by 4 for p_align | 8"
  },
  {
   "property": "C48",
   "status": "partial",
   "theorems": [
    "C48_detached_exit_partial",
    "C48_handler_refuted",
    "run_ex",
    "C48_any_kernel"
   ],
   "note": "Proved for kernels that do not reuse an address with a pending exit-time futex wake (c_reuse = false); without that the claim is false of the code (stale FUTEX_WAKE ends a later join), see C28_join_value_refuted. Without the signal feature handlers can run on the freed stack (C48_handler_refuted). For programs that create no thread after one thread reclaimed another's memory it is proved for every kernel (C48_any_kernel)."
  },
  {
   "property": "C49",
   "status": "proved",
   "theorems": [
    "C49_signal_return",
    "C49_ex"
   ],
   "note": "architectures with a restorer"
  },
  {
   "property": "C50",
   "status": "proved",
   "theorems": [
    "C50_set_thread_pointer",
    "C50_child",
    "C50_ex"
   ],
   "note": "kernel's GDT semantics are an assumption in AsmSpec"
  },
  {
   "property": "C51",
   "status": "proved",
   "theorems": [
    "C51_load_store",
    "C51_mprotect"
   ],
   "note": "prot is 1 modulo 2^32: the upper half of the u32 operand is undefined by Rust's contract"
  },
  {
   "property": "C52",
   "status": "proved",
   "theorems": [
    "C52_addresses",
    "C52_pop_length",
    "C52_ex"
   ],
   "note": "branch/adr ranges of the code model as hypotheses; arm in ARM state"
  },
  {
   "property": "C53",
   "status": "partial",
   "theorems": [
    "C53_refuted",
    "C53_query",
    "C53_fixed",
    "C53_dead_binding_contrast"
   ],
   "note": "refuted: the pointer passed to libc dangles; only the None case holds"
  },
  {
   "property": "C54",
   "status": "proved",
   "theorems": [
    "C54_exit_functions",
    "C54_ex",
    "C54_trap",
    "C54_trap_loops"
   ],
   "note": "libc's __cxa_atexit contract assumed; trap loops while SIGILL is ignored or handled"
  },
  {
   "property": "C55",
   "status": "proved",
   "theorems": [
    "C55_default_guard",
    "C55_default_stack",
    "C55_defaults_usable"
   ],
   "note": "Props_Current.v. Example C55_ex."
  },
  {
   "property": "C56",
   "status": "partial",
   "theorems": [
    "C56_access_partial",
    "C56_join_partial",
    "C56_unmap_partial",
    "C56_record_partial",
    "C56_no_leak_partial",
    "C56_undisturbed_partial",
    "C56_distinct_partial",
    "C56_id_partial",
    "C56_no_sleeper_partial",
    "C56_current_constant_partial",
    "C56_any_kernel",
    "C56_join_any_kernel",
    "C56_any_kernel_ex"
   ],
   "note": "Props_Byte.v, Props_Current.v. Proved for kernels that do not hand out an address whose futex wake is still pending (as C28-C33, where the unrestricted claims are refuted); leak freedom for page-multiple guards. Example C56_ex. For programs that create no thread after one thread reclaimed another's memory it is proved for every kernel (C56_any_kernel)."
  },
  {
   "property": "C57",
   "status": "partial",
   "theorems": [
    "C57_after_fork_partial",
    "C57_same_tid_refuted",
    "C57_any_kernel"
   ],
   "note": "Proved when the child tid differs from the parent tid; refuted in debug builds when they coincide (new PID namespace). Same kernel restriction as C56. Example C57_ex. For programs that create no thread after one thread reclaimed another's memory it is proved for every kernel (C57_any_kernel)."
  },
  {
   "property": "C58",
   "status": "partial",
   "theorems": [
    "C58_errno_partial",
    "C58_any_kernel",
    "C58_initial_main",
    "C58_initial_partial",
    "C58_kept_partial",
    "C58_values_any_kernel"
   ],
   "note": "Same kernel restriction as C56. errno is 0 when the process starts (C58_initial_main) and when create returns (C58_initial_partial); no step of the crate or of the kernel changes a mapped thread's errno (C58_kept_partial). Examples C58_ex, C58_initial_ex (a run in which thread 1 sets its errno to 11 and main's stays 0). For programs that create no thread after one thread reclaimed another's memory it is proved for every kernel (C58_any_kernel, C58_values_any_kernel)."
  },
  {
   "property": "C59",
   "status": "proved",
   "theorems": [
    "C59_user_sees",
    "C59_status",
    "C59_ex"
   ],
   "note": "Composition of StartModel and LayoutModel. The TLS block is claimed at the ABI address only where C47 holds (x86, x86-64; aarch64/riscv64 with small alignment); only the address and guard of stack() are claimed (C26: its size is wrong in the code). thread_area_ok: the kernel's fresh mapping is well-formed and away from .init_array and the TLS template."
  },
  {
   "property": "C60",
   "status": "proved",
   "theorems": [
    "C60_process_start",
    "C60_user_sees",
    "C60_ex",
    "C60_run_ex"
   ],
   "note": "Composition of AsmModel (_start) with StartModel; fresh_process: what execve leaves."
  },
  {
   "property": "C61",
   "status": "proved",
   "theorems": [
    "C61_clone",
    "C61_create",
    "C61_same_process",
    "C61_exit_wakes",
    "C61_detached_exit",
    "C61_each_flag_needed"
   ],
   "note": "Flags and futex operation as in the code (CloneModel.v) against a specification of Linux's clone, thread exit and futex keys (CloneSpec.v). C61_private_refuted: a private futex wait would never be woken. C61_each_flag_needed: every flag but CHILD_SETTID is needed."
  },
  {
   "property": "C62",
   "status": "partial",
   "theorems": [
    "C62_parts",
    "C62_join_partial",
    "C62_alive_partial",
    "C62_unmapped_partial",
    "C62_end",
    "C62_ex",
    "C62_any_kernel"
   ],
   "note": "Same kernel restriction as C56 (address with a pending futex wake not reused; the unrestricted claims are refuted in C28-C33). The product adds no code of its own, only how entry and exit (676-764) put the two parts in sequence. Example C62_ex. For programs that create no thread after one thread reclaimed another's memory it is proved for every kernel (C62_any_kernel)."
  },
  {
   "property": "C63",
   "status": "proved",
   "theorems": [
    "C63_program",
    "C63_thread",
    "C63_checks_complete",
    "C63_program_checks_complete",
    "C63_arm_check_refuted",
    "C63_ex",
    "C63_program_ex"
   ],
   "note": "the compiler's prologue (frame pointer set-up) is modelled as stated in EntryModel.v; completeness of the check excludes arm (refuted there: the check accepts 4-byte alignment)"
  },
  {
   "property": "C64",
   "status": "partial",
   "theorems": [
    "C64_stack",
    "C64_default_partial",
    "C64_default_refuted",
    "C64_no_leak_refuted",
    "C64_ex"
   ],
   "note": "stack() proved; the default sizes are right only in threads created with the defaults (refuted otherwise: the code asks for the calling thread's own attributes); pthread_attr_destroy is never called (refuted)"
  },
  {
   "property": "C65",
   "status": "partial",
   "theorems": [
    "C65_create",
    "C65_join_partial",
    "C65_reclaim_partial",
    "C65_ex",
    "C65_detach_no_order",
    "C65_histories_are_runs",
    "C65_runs_are_histories",
    "C65_any_kernel"
   ],
   "note": "C65_create unconditional. join/reclaim for kernels that do not reuse an address whose exit-time wake is pending (without it C28 is refuted); id queries by third threads are ordered only if the program orders them before the join/detach. For programs that create no thread after one thread reclaimed another's memory it is proved for every kernel (C65_any_kernel)."
  },
  {
   "property": "C66",
   "status": "partial",
   "theorems": [
    "C66_log_partial",
    "C66_any_kernel",
    "C66_log_refuted",
    "C66_ex"
   ],
   "note": "Proved for kernels that do not reuse an address with a pending exit-time futex wake, or (any kernel) for programs that create no thread after one thread reclaimed another's memory; refuted otherwise."
  },
  {
   "property": "C67",
   "status": "proved",
   "theorems": [
    "C67_process_lives",
    "C67_memory_safe",
    "C67_ex"
   ],
   "note": "Composes C42 (_start), C59 (startup), C56/C62 (threads on bytes). Any kernel address reuse, provided no thread is created after another thread's memory was reclaimed (creates_first); C56_*_partial give the rest for kernels that do not reuse addresses early. C67_ex: a concrete program meets all hypotheses."
  },
  {
   "property": "C68",
   "status": "partial",
   "theorems": [
    "C68_exit_partial",
    "C68_join_partial",
    "C68_detach_partial",
    "C68_freed_partial",
    "C68_never_stuck_partial",
    "C68_any_kernel",
    "C68_ex",
    "C68_any_kernel_ex",
    "C68_byte_exit_partial",
    "C68_byte_join_partial",
    "C68_byte_detach_partial",
    "C68_byte_freed_partial",
    "C68_byte_any_kernel",
    "C68_byte_never_stuck",
    "C68_byte_ex"
   ],
   "note": "Liveness over infinite fair executions (FairSpec.v), for the thread model and (C68_byte_*) for the model on bytes, where user code may write anything into memory that is its own. Same conditions as C28/C31: kernels that do not reuse an address with a pending exit-time futex wake, or (C68_any_kernel, C68_byte_any_kernel) any kernel for programs that create no thread after one thread reclaimed another's memory; page-multiple guards (otherwise join/detach panic, C31_guard_*_refuted)."
  },
  {
   "property": "C69",
   "status": "proved",
   "theorems": [
    "C69_sees",
    "C69_list",
    "C69_fini",
    "C69_ex",
    "C69_not_all_ordered"
   ],
   "note": "Happens-before over DtorsModel histories (SeenSpec.v): program order, thread creation, unlock before later lock of rustix_futex_sync::Mutex (its contract, not its code). Without the thread feature there is one thread and program order suffices (same theorems). C69_not_all_ordered: the order is not total."
  },
  {
   "property": "C70",
   "status": "proved",
   "theorems": [
    "C70_exit",
    "C70_thread",
    "C70_immediate",
    "C70_never_stuck",
    "C70_ex",
    "C70_fini_refuted"
   ],
   "note": "Infinite executions of DtorsModel (ExitFairSpec.v). The lock need not be fair. C70_fini_refuted: the condition on .fini_array entries is needed."
  },
  {
   "property": "C71",
   "status": "partial",
   "theorems": [
    "C71_partial",
    "C71_any_kernel",
    "C71_meaning",
    "C71_same_partial",
    "C71_origin_start_partial",
    "C71_adding_partial",
    "C71_ex"
   ],
   "note": "Programs of the form of ScriptModel.v (register, run a function in a thread and join it, compute and print, exit, immediate_exit, trap, nested at will) on the whole-program model of C62, against the sequential reading of ScriptSpec.v: output is a prefix of what the program reads, and a process that ended printed all of it and ended that way, on every schedule; every program has exactly one reading; corollaries for the programs in the repository. Partial as C62: the kernel must not reuse a tid address while its waker is pending (good_env), or the program must create no thread after memory was reclaimed (C71_any_kernel)."
  },
  {
   "property": "C72",
   "status": "partial",
   "theorems": [
    "C72_ends_partial",
    "C72_terminates_partial",
    "C72_any_kernel",
    "C72_never_stuck_partial",
    "C72_ex"
   ],
   "note": "Liveness over infinite fair executions of C71's programs on the whole-program model (ScriptFairSpec.v), bytes included. Same conditions as C68 and C71: the kernel must not reuse a tid address while its waker is pending (good_env), or the program must create no thread after memory was reclaimed (C72_any_kernel); page-multiple guard sizes. C72_never_stuck_partial: until the program ended, some step that fairness demands is possible."
  },
  {
   "property": "C73",
   "status": "partial",
   "theorems": [
    "C73_join_partial",
    "C73_prefix_partial",
    "C73_done_partial",
    "C73_end_partial",
    "C73_tidy_partial",
    "C73_same_partial",
    "C73_any_kernel",
    "C73_ex"
   ],
   "note": "Parallel programs without shared variables (ForkModel.v) on the whole-program model of C62, bytes included, against a sequential reading given by structural recursion (ForkSpec.v: value, said, finis, total). C73_ex: one program with two concurrent threads, joined out of creation order, in two interleavings. Partial as C62: the kernel must not reuse a tid address while its waker is pending (good_env), or the program must create no thread after memory was reclaimed (C73_any_kernel). program::at_exit and program::exit are not in this program language (C71 has them)."
  },
  {
   "property": "C74",
   "status": "partial",
   "theorems": [
    "C74_ends_partial",
    "C74_any_kernel",
    "C74_never_stuck_partial",
    "C74_never_stuck_ex",
    "C74_ex"
   ],
   "note": "Fair infinite executions (ForkFairSpec.v) of the programs of C73. Actions of user code are bounded by the output of the same program with ticks (ForkTick.v); between two actions every thread, youngest first, comes to its end (ForkFair.v). C74_never_stuck_partial (ForkStuck.v): until the process ended a due step exists. Partial as C73 (good_env, or C74_any_kernel), and guard sizes are multiples of the page size (as in C68; otherwise freeing a thread's memory can panic)."
  },
  {
   "property": "C75",
   "status": "proved",
   "theorems": [
    "C75_transparent",
    "C75_rust_only",
    "C75_forced",
    "C75_version",
    "C75_stubs",
    "C75_ex"
   ],
   "note": "The unwinder, foreign personality routines and landing pads are the environment (UnwindSpec.v, two-phase and forced unwinding); origin's personality, panic handler and stubs are UnwindModel.v. The personality of the `unwinding` crate (feature unwinding) is not origin's code and not covered."
  },
  {
   "property": "C76",
   "status": "proved",
   "theorems": [
    "C76_agrees",
    "C76_either",
    "C76_no_fault",
    "C76_skip",
    "C76_stores_permitted",
    "C76_unwritable",
    "C76_ex"
   ],
   "note": "RelocFault.v is relocate.rs with every load and store checked, in order; C76_agrees ties it to RelocModel.v, so C12-C16 hold of it. Tables must not overlap the relocated words (tables_kept, as in C12). C76_ex: an image whose accessible bytes are exactly those listed."
  },
  {
   "property": "C77",
   "status": "partial",
   "theorems": [
    "C77_agrees",
    "C77_no_fault",
    "C77_create_partial",
    "C77_ex",
    "C77_create_ex",
    "C77_args_overflow_refuted"
   ],
   "note": "Startup is full (C77_no_fault; relocation's part is C76). create: proved when the arguments fit the requested stack; it does not check that, and otherwise the copy hits the guard or, without a guard, memory below the mapping: C77_args_overflow_refuted. StartFault.v checks every load and store; the crate's statics and the stack of the running code are not part of it."
  },
  {
   "property": "C78",
   "status": "partial",
   "theorems": [
    "C78_quiet_partial",
    "C78_order_partial",
    "C78_thread_partial",
    "C78_exit_partial",
    "C78_told_partial",
    "C78_all",
    "C78_off",
    "C78_once",
    "C78_order_refuted",
    "C78_lost_refuted",
    "C78_hang_refuted",
    "C78_ex"
   ],
   "note": "Proved in full for loggers that only compute (and C78_all, C78_off without that condition on the program); at-most-once and provenance hold for every logger (C78_once). For a logger that registers exit functions the rest is false of the code: C78_order_refuted, C78_lost_refuted, C78_hang_refuted."
  },
  {
   "property": "C79",
   "status": "proved",
   "theorems": [
    "C79_lifo",
    "C79_once",
    "C79_kept",
    "C79_caught",
    "C79_abort",
    "C79_last",
    "C79_thread",
    "C79_order",
    "C79_again",
    "C79_thread_again",
    "C79_conservative",
    "C79_ex",
    "C79_abort_ex"
   ],
   "note": "Histories with panics (PanicModel); how Rust unwinds and aborts is assumed (panic=unwind). The completion theorems (C79_again, C79_thread_again) are about schedules where the other threads idle and functions return, as for C34 and C35."
  },
  {
   "property": "C80",
   "status": "partial",
   "theorems": [
    "C80_announced",
    "C80_order",
    "C80_recorded_partial",
    "C80_later_partial",
    "C80_no_log_refuted",
    "C80_both_refuted",
    "C80_taken_refuted",
    "C80_ex"
   ],
   "note": "Order and announcements in full. Recording needs the log feature (without it `mod log` is not compiled and no backend is ever installed, against Cargo.toml: C80_no_log_refuted), exactly one backend (C80_both_refuted), and that no earlier initializer installs a logger (C80_taken_refuted). That env_logger::init panics when a logger is set is its documentation's; for atomic_dbg it is a parameter."
  },
  {
   "property": "C81",
   "status": "proved",
   "theorems": [
    "C81_checks",
    "C81_given",
    "C81_ex"
   ],
   "note": "The additional checks of nightly debug builds are C63's."
  },
  {
   "property": "C82",
   "status": "partial",
   "theorems": [
    "C82_join_partial",
    "C82_thread_partial",
    "C82_prefix_partial",
    "C82_done_partial",
    "C82_status_partial",
    "C82_main_partial",
    "C82_end_partial",
    "C82_tidy_partial",
    "C82_same_partial",
    "C82_any_kernel_partial",
    "C82_others_refuted",
    "C82_ex",
    "C82_others_ex"
   ],
   "note": "For all programs of the language, whoever registers program::at_exit functions: join values, the text of every thread but main (C82_join_partial, C82_thread_partial, C82_done_partial), the status (C82_status_partial) and, if every thread is joined, the output of the whole process up to interleaving (C82_tidy_partial). The text of main: its own, then that of the program::at_exit functions called, in the order of the calls (C82_main_partial; the order is C35_lifo, each once is C36_once), then .fini_array. For programs in which only the main thread registers program::at_exit functions that order, so the text of main, does not depend on the schedule (C82_prefix_partial, C82_end_partial); without that restriction it does (C82_others_refuted). All on kernels that do not reuse a tid address while its waker is pending (any kernel: C82_any_kernel_partial, for programs that create no thread after one reclaimed another's memory)."
  },
  {
   "property": "C83",
   "status": "partial",
   "theorems": [
    "C83_ends_partial",
    "C83_same_partial",
    "C83_any_kernel_partial",
    "C83_never_stuck_partial",
    "C83_never_stuck_ex",
    "C83_hang_refuted",
    "C83_ex"
   ],
   "note": "Fair infinite executions (PexitFairSpec.v) of the programs of C82, whoever registers program::at_exit functions. Actions are bounded by the total output of the same program with ticks, over whatever order the exit functions are called in (PexitTick.v); between two actions every thread comes to its end, and a thread that waits for the lock waits for one that moves (PexitFair.v). Partial as C82 (good_env, or C83_any_kernel_partial); guard sizes are multiples of the page size (as in C68); .fini_array functions neither register program::at_exit functions nor join nor detach: the first would wait for the lock program::exit holds while it runs them, and C83_hang_refuted shows a fair execution that never ends. C83_never_stuck_partial (PexitStuck.v): until the process ended a due step exists, for programs that use each handle at most once and only features they are built with."
  }
 ]
}