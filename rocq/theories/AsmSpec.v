(** Vocabulary of the assembly properties C41-C43, C49, C50: what each
    architecture's C calling convention and Linux's system-call interface say,
    independently of the code. *)
From Verif Require Import Machine LayoutModel AsmModel.

(** ** C calling convention at a function's first instruction *)

(** Registers hold machine words. *)
Definition word_ok (a : arch) (v : Z) : Prop := 0 <= v < modulus (wsz a).
Definition wf_cpu (a : arch) (s : cpu) : Prop := forall r, word_ok a (regs s r).

Definition stack_pointer (a : arch) (s : cpu) : Z := regs s (r_sp a).

(** The first three integer arguments of the function being entered: rdi, rsi,
    rdx (System V x86_64); words above the return address (i386); x0-x2, r0-r2,
    a0-a2. *)
Definition c_arg (a : arch) (s : cpu) (i : nat) : Z :=
  match a with
  | X86_64 => regs s (nth i [7; 6; 2]%nat 0%nat)
  | X86 => load_le (cmem s) (stack_pointer a s + 4 + 4 * Z.of_nat i) 4
  | Aarch64 | Arm => regs s i
  | Riscv64 => regs s (10 + i)%nat
  end.
(** Where the entered function would return to: on the stack (x86 family), in
    lr (aarch64 x30, arm r14), in ra (riscv64 x1). *)
Definition return_address (a : arch) (s : cpu) : Z :=
  match a with
  | X86_64 | X86 => load_le (cmem s) (stack_pointer a s) (word a)
  | Aarch64 => regs s 30%nat
  | Arm => regs s 14%nat
  | Riscv64 => regs s 1%nat
  end.
(** rbp, ebp, x29, r11, s0. *)
Definition frame_pointer (a : arch) (s : cpu) : Z :=
  match a with
  | X86_64 | X86 => regs s 5%nat
  | Aarch64 => regs s 29%nat
  | Arm => regs s 11%nat
  | Riscv64 => regs s 8%nat
  end.
(** Stack alignment on entry: sp+8 (x86_64) and sp+4 (i386) are multiples of
    16 because the return address has been pushed; sp itself is a multiple of
    16 on aarch64 and riscv64 and of 8 on arm. *)
Definition abi_align_stack (a : arch) : Z := match a with Arm => 8 | _ => 16 end.
Definition abi_aligned (a : arch) (s : cpu) : Prop :=
  match a with
  | X86_64 | X86 => (16 | stack_pointer a s + wsz a)
  | _ => (abi_align_stack a | stack_pointer a s)
  end.

(** The entered function runs on the stack whose top is [top]: at most the five
    words i386 passes its arguments in have been pushed; nothing where arguments
    and the return address are in registers. *)
Definition runs_on (a : arch) (top : Z) (s : cpu) : Prop :=
  match a with
  | X86_64 | X86 => top - 20 <= stack_pointer a s <= top - wsz a
  | _ => stack_pointer a s = top
  end.

(** Bytes of [len] at [base]. *)
Definition within (base len x : Z) : Prop := base <= x < base + len.
Definition same_on (P : Z -> Prop) (m m' : mem) : Prop := forall x, P x -> m' x = m x.

(** ** Linux *)

(** The system calls of a trace: number, arguments, machine at the call. *)
Notation syscall := (Z * list Z * cpu)%type.
Fixpoint syscalls (t : list event) : list syscall :=
  match t with
  | [] => []
  | ESys nr args c :: q => (nr, args, c) :: syscalls q
  | _ :: q => syscalls q
  end.
(** Memory accesses of a trace. *)
Fixpoint accesses (t : list event) : list (Z * Z) :=
  match t with
  | [] => []
  | ESys _ _ _ :: q => accesses q
  | ERead x n :: q => (x, n) :: accesses q
  | EWrite x n _ :: q => (x, n) :: accesses q
  end.
Fixpoint writes (t : list event) : list (Z * Z) :=
  match t with
  | [] => []
  | EWrite x n _ :: q => (x, n) :: writes q
  | _ :: q => writes q
  end.

(** System call numbers: arch/x86/entry/syscalls/syscall_{64,32}.tbl,
    arch/arm/tools/syscall.tbl, include/uapi/asm-generic/unistd.h (aarch64,
    riscv64).  -1: no such call. *)
Inductive syscall_name := Sys_clone | Sys_munmap | Sys_exit | Sys_mprotect | Sys_sigreturn | Sys_rt_sigreturn.
Definition linux_nr (a : arch) (n : syscall_name) : Z :=
  match n with
  | Sys_exit => match a with X86_64 => 60 | X86 => 1 | Aarch64 => 93 | Arm => 1 | Riscv64 => 93 end
  | Sys_munmap => match a with X86_64 => 11 | X86 => 91 | Aarch64 => 215 | Arm => 91 | Riscv64 => 215 end
  | Sys_clone => match a with X86_64 => 56 | X86 => 120 | Aarch64 => 220 | Arm => 120 | Riscv64 => 220 end
  | Sys_mprotect => match a with X86_64 => 10 | X86 => 125 | Aarch64 => 226 | Arm => 125 | Riscv64 => 226 end
  | Sys_sigreturn => match a with X86 => 119 | Arm => 119 | _ => -1 end
  | Sys_rt_sigreturn => match a with X86_64 => 15 | X86 => 173 | Aarch64 => 139 | Arm => 173 | Riscv64 => 139 end
  end.

(** clone(2): the argument order is (flags, stack, parent_tid, child_tid, tls)
    on x86_64 and (flags, stack, parent_tid, tls, child_tid) elsewhere; only
    the low 32 bits of the flags are used; on x86 `tls` points to a struct
    user_desc. *)
Definition asks_clone (a : arch) (flags stack ptid ctid : Z) (tls : mem -> Z -> Prop) (sc : syscall) : Prop :=
  let '(nr, args, c) := sc in let m := cmem c in
  let arg i := nth i args 0 in
  nr = linux_nr a Sys_clone /\ arg 0%nat mod 2 ^ 32 = flags /\ arg 1%nat = stack /\ arg 2%nat = ptid /\
  match a with
  | X86_64 => arg 3%nat = ctid /\ tls m (arg 4%nat)
  | _ => tls m (arg 3%nat) /\ arg 4%nat = ctid
  end.

(** What the child finds when clone returns in it: result 0, the stack pointer
    it was given.  Nobody else touches the new stack [lo, hi), so it is what it
    was at the call. *)
Definition child_resumes (at_call : cpu) (stack lo hi : Z) (k : kresp) : Prop :=
  k_ret k = 0 /\ k_sp k = Some stack /\ same_on (fun x => lo <= x < hi) (cmem at_call) (k_mem k).
(** What the parent finds: a thread id or a negative error number, its own
    stack pointer, and its own stack from [lo] to [hi] as it was. *)
Definition parent_resumes (a : arch) (at_call : cpu) (lo hi : Z) (k : kresp) : Prop :=
  (0 < k_ret k < 2 ^ 31 \/ modulus (wsz a) - 4095 <= k_ret k < modulus (wsz a)) /\ k_sp k = None /\
  same_on (fun x => lo <= x < hi) (cmem at_call) (k_mem k).

(** ** x86 segment descriptors *)

(** Linux accepts the descriptor for a TLS slot (arch/x86/kernel/tls.c
    tls_desc_okay: 32-bit, data or stack, present) ... *)
Definition bit (v i : Z) : Z := (v / 2 ^ i) mod 2.
Definition desc_okay (d : user_desc) : Prop :=
  bit (ud_bits d) 0 = 1 /\ bit (ud_bits d) 2 = 0 /\ bit (ud_bits d) 5 = 0.
(** ... it is writable data whose limit, counted in pages, covers all 2^32
    bytes. *)
Definition desc_flat (d : user_desc) : Prop :=
  bit (ud_bits d) 1 = 0 /\ bit (ud_bits d) 3 = 0 /\ bit (ud_bits d) 4 = 1 /\ (ud_limit d + 1) * 4096 = 2 ^ 32.
(** Descriptor table: base address by index.  A selector's index is in its
    upper 13 bits, bit 2 = 0 selects the GDT, bits 0-1 are the privilege. *)
Definition gdt := Z -> option Z.
Definition sel_base (g : gdt) (sel : Z) : option Z :=
  if (sel mod 8 =? 3) then g (sel / 8) else None.
(** set_thread_area(2): with entry_number = -1 the kernel picks a free TLS
    slot, installs the descriptor there and stores the index in entry_number. *)
Definition k_set_thread_area (g : gdt) (d : user_desc) (slot : Z) (g' : gdt) (d' : user_desc) : Prop :=
  desc_okay d /\ ud_entry d = 2 ^ 32 - 1 /\ 0 <= slot < 2 ^ 13 /\
  g' slot = Some (ud_base d) /\ (forall i, i <> slot -> g' i = g i) /\
  d' = UD slot (ud_base d) (ud_limit d) (ud_bits d).
(** clone with CLONE_SETTLS: the child's table is the parent's with the
    descriptor installed at entry_number. *)
Definition k_clone_settls (g : gdt) (d : user_desc) (g' : gdt) : Prop :=
  desc_okay d /\ g' (ud_entry d) = Some (ud_base d) /\ (forall i, i <> ud_entry d -> g' i = g i).

(** What clone's `tls` argument must be. *)
Definition passes_tls (a : arch) (gs tls : Z) (m : mem) (v : Z) : Prop :=
  match a with
  | X86 => exists d, desc_at m v d /\ desc_okay d /\ desc_flat d /\ ud_base d = tls /\ ud_entry d = gs / 8
  | _ => v = tls
  end.

(** ** Signal frames *)

(** The frame kinds of Linux: x86_64 and aarch64 always push an "rt" frame;
    x86 and arm push one for SA_SIGINFO handlers and an old-style frame for
    the others. *)
Definition rt_frame (a : arch) (siginfo : bool) : bool :=
  match a with X86 | Arm => siginfo | _ => true end.
(** When the handler returns to the restorer: on the x86 family the `ret`
    popped the frame's first word (the return address), elsewhere the stack
    pointer is the frame's address. *)
Definition at_restorer (a : arch) (frame : Z) (s : cpu) : Prop :=
  match a with
  | X86_64 | X86 => stack_pointer a s = frame + wsz a
  | _ => stack_pointer a s = frame
  end.
(** Where sigreturn (arch/x86/kernel/signal*.c: sp - 8 for the old frame on
    x86; sp - sizeof(long) for rt frames) and rt_sigreturn look for the frame,
    given the stack pointer at the call. *)
Definition frame_used (a : arch) (rt : bool) (sp : Z) : Z :=
  match a with
  | X86_64 => sp - 8
  | X86 => if rt then sp - 4 else sp - 8
  | _ => sp
  end.

(** The caller's frame on x86: the operand array and the descriptor are live
    objects, so they lie apart from the words below the stack pointer and from
    the new stack's top word; the new stack is not the caller's. *)
Definition apart_from (b n b' n' : Z) : Prop := b + n <= b' \/ b' + n' <= b.
Definition caller_frame (a : arch) (sp dp arr stack : Z) : Prop :=
  a = X86 ->
  8 <= sp /\ 0 <= dp /\ 0 <= arr /\ dp + 16 <= 2 ^ 32 /\ arr + 12 <= 2 ^ 32 /\
  apart_from dp 16 (sp - 8) 8 /\ apart_from arr 12 (sp - 8) 8 /\
  apart_from dp 16 (stack - 4) 4 /\ apart_from arr 12 (stack - 4) 4 /\ apart_from (sp - 8) 8 (stack - 4) 4.

(** The arguments of `clone` are machine words; `flags` is a u32. *)
Definition wf_clone (a : arch) (c : clone_args) : Prop :=
  0 <= c_flags c < 2 ^ 32 /\ word_ok a (c_stack c) /\ word_ok a (c_fn c) /\ word_ok a (c_nargs c) /\ word_ok a (c_tls c).

(** What `clone` must do, for a call with arguments [c] on a thread in state
    [s] ([run_] gives the execution for each list of kernel answers):
    - it issues one system call, clone with the given flags, stack, tid
      addresses and tls (on x86 the kernel is given stack - 4: the word below
      the new stack carries fn to the child), having written nothing but up to
      8 bytes below the caller's stack pointer;
    - in the child, control enters the Rust function with (fn, stack, nargs) as
      its C arguments, null return address and frame pointer, running on the
      given stack, ABI-aligned if the given one is aligned, everything from [stack] up untouched,
      and only the 20 bytes below [stack] accessed;
    - in the parent, control falls through with the kernel's result and with
      every register that is not a declared output (the stack pointer among
      them) and all memory as they were. *)
Definition clone_ok (a : arch) (c : clone_args) (gs : Z) (s : cpu) (run_ : list kresp -> list event * outcome) : Prop :=
  let sp := stack_pointer a s in
  exists pre nr args sc,
    (* before the system call, only the caller's own stack below sp is written *)
    syscalls pre = [] /\ (forall x n, In (x, n) (writes pre) -> sp - 8 <= x /\ x + n <= sp) /\
    same_on (fun x => ~ within (sp - 8) 8 x) (cmem s) (cmem sc) /\
    asks_clone a (c_flags c) (match a with X86 => c_stack c - 4 | _ => c_stack c end) (c_ptid c) (c_ctid c)
               (passes_tls a gs (c_tls c)) (nr, args, sc) /\
    (* the child *)
    (forall k hi, c_stack c <= hi -> child_resumes sc (nth 1 args 0) (c_stack c - 20) hi k ->
       exists post s', run_ [k] = (pre ++ ESys nr args sc :: post, Entered s') /\ syscalls post = [] /\
         c_arg a s' 0 = c_fn c /\ c_arg a s' 1 = c_stack c /\ c_arg a s' 2 = c_nargs c /\
         return_address a s' = 0 /\ frame_pointer a s' = 0 /\
         ((abi_align_stack a | c_stack c) -> abi_aligned a s') /\ runs_on a (c_stack c) s' /\
         same_on (fun x => c_stack c <= x < hi) (cmem sc) (cmem s') /\
         (forall x n, In (x, n) (accesses post) -> c_stack c - 20 <= x /\ x + n <= c_stack c)) /\
    (* the parent *)
    (forall k, parent_resumes a sc (sp - 8) sp k ->
       exists post s', run_ [k] = (pre ++ ESys nr args sc :: post, Fell s') /\ syscalls post = [] /\ writes post = [] /\
         regs s' (r_ret a) = k_ret k /\ cmem s' = k_mem k /\
         (forall r, ~ In r (clone_outputs a) -> regs s' r = regs s r)).

