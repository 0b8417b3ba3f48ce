(** Model of the assembly of src/arch/*.rs: process entry, thread creation,
    detached exit, signal-return trampolines, relocation primitives.

    One small CPU is shared by the five architectures: a register file, a
    zero flag and byte memory.  Registers are numbered as the architecture's
    manual numbers them (x86 family: 0 ax, 1 cx, 2 dx, 3 bx, 4 sp, 5 bp, 6 si,
    7 di, 8-15 r8-r15; aarch64: x0-x30, 31 = sp; arm: r0-r15; riscv64:
    x0-x31).  Not modelled: vector and floating-point registers, flags other
    than the zero flag, instruction encodings and fetch. *)
From Verif Require Import Machine LayoutModel.

Record cpu := Cpu { regs : nat -> Z; zf : bool; cmem : mem }.

(** Instructions used by the code; the width is the architecture's word unless
    the name says 32. *)
Inductive instr :=
| IMov (d s : nat)                 (** mov d, s  /  mv d, s *)
| IImm (d : nat) (v : Z)           (** mov d, const  /  li d, const *)
| IZero (d : nat)                  (** xor e,e / mov d, xzr / mov d, #0 / mv d, zero *)
| ILoad (d b : nat) (off : Z)      (** mov d, [b+off] / ldr / ld *)
| IStore (b : nat) (off : Z) (s : nat) (** mov [b+off], s / str / sd *)
| IPush (s : nat)                  (** push s *)
| IPop (d : nat)                   (** pop d *)
| ITest32 (r : nat)                (** test e, e (x86, x86_64), tst r, r (arm): zero flag of the low 32 bits *)
| IJnz (skip : nat)                (** jnz 2f / bne 0f: skip that many instructions if the zero flag is clear *)
| ICbnz (r : nat) (skip : nat)     (** cbnz x, 0f / bnez a, 0f *)
| ICbz (r : nat) (skip : nat)      (** branch if zero (compiled from `if r0 != 0 { .. }`) *)
| ISys                             (** syscall / int 0x80 / svc 0 / swi 0 / ecall *)
| IJmp                             (** jmp {entry} / b {entry} / tail {entry} *)
| ITrap.                           (** ud2 / udf / unimp *)

(** What an execution does, in order. *)
Inductive event :=
| ESys (nr : Z) (args : list Z) (at_call : cpu) (** number, the six argument registers, the machine at the call *)
| ERead (addr len : Z)
| EWrite (addr len v : Z).

(** How an execution of a piece of assembly ends. *)
Inductive outcome :=
| Fell (s : cpu)      (** control reached the end of the block *)
| Entered (s : cpu)   (** control was transferred to the Rust function {entry} *)
| Trapped             (** an invalid instruction was executed *)
| InKernel            (** the last system call did not return *)
| OutOfFuel.

(** What the kernel returns from one system call to one thread: the result,
    the values of the registers the instruction clobbers, the zero flag, the
    memory found on return, and a new stack pointer (only the child of
    [clone] gets one). *)
Record kresp := KR { k_ret : Z; k_clob : nat -> Z; k_zf : bool; k_mem : mem; k_sp : option Z }.

(** Stack pointer, system-call number, result and argument registers (Linux
    syscall(2)). *)
Definition r_sp (a : arch) : nat :=
  match a with X86_64 | X86 => 4 | Aarch64 => 31 | Arm => 13 | Riscv64 => 2 end.
Definition r_nr (a : arch) : nat :=
  match a with X86_64 | X86 => 0 | Aarch64 => 8 | Arm => 7 | Riscv64 => 17 end.
Definition r_ret (a : arch) : nat :=
  match a with X86_64 | X86 => 0 | Aarch64 | Arm => 0 | Riscv64 => 10 end.
Definition r_args (a : arch) : list nat :=
  match a with
  | X86_64 => [7; 6; 2; 10; 8; 9]
  | X86 => [3; 1; 2; 6; 7; 5]
  | Aarch64 | Arm => [0; 1; 2; 3; 4; 5]
  | Riscv64 => [10; 11; 12; 13; 14; 15]
  end%nat.
(** `syscall` on x86_64 overwrites rcx and r11; the other instructions preserve
    everything but the result register. *)
Definition r_clob (a : arch) : list nat := match a with X86_64 => [1; 11]%nat | _ => [] end.
(** The kernel takes the number from the low 32 bits on x86_64 and aarch64
    (`int nr` in do_syscall_64 / el0_svc) and from the whole register on
    riscv64 (`long syscall = regs->a7`). *)
Definition k_nr (a : arch) (v : Z) : Z :=
  match a with Riscv64 => v | _ => v mod 2 ^ 32 end.

Definition setr (f : nat -> Z) (d : nat) (v : Z) : nat -> Z := fun r => if Nat.eqb r d then v else f r.

(** Registers on return from a system call. *)
Definition k_return (a : arch) (s : cpu) (k : kresp) : cpu :=
  Cpu (fun r => if Nat.eqb r (r_ret a) then k_ret k
                else if existsb (Nat.eqb r) (r_clob a) then k_clob k r
                else if Nat.eqb r (r_sp a) then match k_sp k with Some v => v | None => regs s r end
                else regs s r)
      (k_zf k) (k_mem k).

(** Execution of a straight block with forward branches; [ks] is what the
    kernel answers to the successive system calls ([InKernel] when it never
    answers). *)
Fixpoint exec (fuel : nat) (a : arch) (p : list instr) (s : cpu) (ks : list kresp) : list event * outcome :=
  match fuel with
  | O => ([], OutOfFuel)
  | S fuel' =>
    let ea b off := wrapping_add (wsz a) (regs s b) off in
    match p with
    | [] => ([], Fell s)
    | IMov d r :: q => exec fuel' a q (Cpu (setr (regs s) d (regs s r)) (zf s) (cmem s)) ks
    | IImm d v :: q => exec fuel' a q (Cpu (setr (regs s) d v) (zf s) (cmem s)) ks
    | IZero d :: q => exec fuel' a q (Cpu (setr (regs s) d 0) (zf s) (cmem s)) ks
    | ILoad d b off :: q =>
        let (t, o) := exec fuel' a q (Cpu (setr (regs s) d (load_le (cmem s) (ea b off) (word a))) (zf s) (cmem s)) ks in
        (ERead (ea b off) (wsz a) :: t, o)
    | IStore b off r :: q =>
        let (t, o) := exec fuel' a q (Cpu (regs s) (zf s) (store_le (cmem s) (ea b off) (word a) (regs s r))) ks in
        (EWrite (ea b off) (wsz a) (regs s r) :: t, o)
    | IPush r :: q =>
        let sp' := wrapping_sub (wsz a) (regs s (r_sp a)) (wsz a) in
        let (t, o) := exec fuel' a q (Cpu (setr (regs s) (r_sp a) sp') (zf s)
                                          (store_le (cmem s) sp' (word a) (regs s r))) ks in
        (EWrite sp' (wsz a) (regs s r) :: t, o)
    | IPop d :: q =>
        let sp := regs s (r_sp a) in
        let v := load_le (cmem s) sp (word a) in
        let (t, o) := exec fuel' a q (Cpu (setr (setr (regs s) (r_sp a) (wrapping_add (wsz a) sp (wsz a))) d v)
                                          (zf s) (cmem s)) ks in
        (ERead sp (wsz a) :: t, o)
    | ITest32 r :: q => exec fuel' a q (Cpu (regs s) (regs s r mod 2 ^ 32 =? 0) (cmem s)) ks
    | IJnz n :: q => exec fuel' a (if zf s then q else skipn n q) s ks
    | ICbnz r n :: q => exec fuel' a (if regs s r =? 0 then q else skipn n q) s ks
    | ICbz r n :: q => exec fuel' a (if regs s r =? 0 then skipn n q else q) s ks
    | ISys :: q =>
        let e := ESys (k_nr a (regs s (r_nr a))) (map (regs s) (r_args a)) s in
        match ks with
        | [] => ([e], InKernel)
        | k :: ks' => let (t, o) := exec fuel' a q (k_return a s k) ks' in (e :: t, o)
        end
    | IJmp :: _ => ([], Entered s)
    | ITrap :: _ => ([], Trapped)
    end
  end.
Definition run (a : arch) (p : list instr) (s : cpu) (ks : list kresp) : list event * outcome :=
  exec (S (length p)) a p s ks.

(** System call numbers (linux_raw_sys::general, Linux asm/unistd.h). *)
Definition NR_munmap (a : arch) : Z := match a with X86_64 => 11 | X86 | Arm => 91 | Aarch64 | Riscv64 => 215 end.
Definition NR_exit (a : arch) : Z := match a with X86_64 => 60 | X86 | Arm => 1 | Aarch64 | Riscv64 => 93 end.
Definition NR_clone (a : arch) : Z := match a with X86_64 => 56 | X86 | Arm => 120 | Aarch64 | Riscv64 => 220 end.
Definition NR_mprotect (a : arch) : Z := match a with X86_64 => 10 | X86 | Arm => 125 | Aarch64 | Riscv64 => 226 end.
Definition NR_rt_sigreturn (a : arch) : Z := match a with X86_64 => 15 | X86 | Arm => 173 | Aarch64 | Riscv64 => 139 end.
Definition NR_sigreturn (a : arch) : Z := match a with X86 | Arm => 119 | _ => -1 end.

(** * _start *)
Definition start_asm (a : arch) : list instr :=
  match a with
  | X86_64 => (* x86_64.rs:42-44 *) [IMov 7 4; IPush 5; IJmp]
  | X86 => (* x86.rs:45-51 *) [IMov 0 4; IPush 5; IPush 5; IPush 5; IPush 0; IPush 5; IJmp]
  | Aarch64 => (* aarch64.rs:42-44 *) [IMov 0 31; IZero 30; IJmp]
  | Arm => (* arm.rs:42-44 *) [IMov 0 13; IZero 14; IJmp]
  | Riscv64 => (* riscv64.rs:39-42 *) [IMov 10 2; IZero 1; IZero 8; IJmp]
  end%nat.

(** * clone *)
(** The registers the compiler picks for `fn_ = in(reg) fn_` and `num_args =
    in(reg) num_args` on aarch64, arm and riscv64. *)
Record pick := Pick { p_fn : nat; p_n : nat }.
(** A register the compiler may pick: a general register other than the stack
    pointer (and pc, x0 of riscv64) and the ones the block names as operands. *)
Definition pickable (a : arch) (r : nat) : bool :=
  match a with
  | X86_64 | X86 => true (* no `in(reg)` operand in the block *)
  | Aarch64 => (Nat.leb r 30) && negb (existsb (Nat.eqb r) [8; 0; 1; 2; 3; 4])
  | Arm => (Nat.leb r 14) && negb (existsb (Nat.eqb r) [13; 7; 0; 1; 2; 3; 4])
  | Riscv64 => (Nat.leb r 31) && negb (existsb (Nat.eqb r) [0; 2; 17; 10; 11; 12; 13; 14])
  end%nat.

Definition clone_asm (a : arch) (p : pick) : list instr :=
  match a with
  | X86_64 => (* x86_64.rs:217-230 *)
      [ISys; ITest32 0; IJnz 6;
       IMov 7 9; IMov 6 4; IMov 2 12; IZero 5; IPush 0; IJmp]
  | X86 => (* x86.rs:268-300 *)
      [IPush 6; IPush 5; ILoad 5 0 8; ILoad 6 0 0; ILoad 0 0 4;
       ISys; ITest32 0; IJnz 9;
       IPop 7; IMov 6 4; IPush 0; IPush 5; IPush 6; IPush 7; IZero 5; IPush 0; IJmp;
       IPop 5; IPop 6]
  | Aarch64 => (* aarch64.rs:216-229 *)
      [ISys; ICbnz 0 6;
       IMov 0 (p_fn p); IMov 1 31; IMov 2 (p_n p); IZero 29; IZero 30; IJmp]
  | Arm => (* arm.rs:228-242 *)
      [ISys; ITest32 0; IJnz 6;
       IMov 0 (p_fn p); IMov 1 13; IMov 2 (p_n p); IZero 11; IZero 14; IJmp]
  | Riscv64 => (* riscv64.rs:234-247 *)
      [ISys; ICbnz 10 6;
       IMov 10 (p_fn p); IMov 11 2; IMov 12 (p_n p); IZero 8; IZero 1; IJmp]
  end%nat.

(** Arguments of `clone` (x86_64.rs:206-214 and the same lines elsewhere). *)
Record clone_args := CA { c_flags : Z; c_stack : Z; c_ptid : Z; c_ctid : Z; c_tls : Z; c_fn : Z; c_nargs : Z }.

(** Rust leaves the upper half of a register undefined when the operand is a
    32-bit value (x86_64.rs:232-239 `in("rdi") flags`; aarch64.rs:234
    `in("x8") __NR_clone`). *)
Definition low32 (v w : Z) : Prop := v mod 2 ^ 32 = w.

(** x86.rs:237-253: `gs` and the descriptor passed as newtls.  bindgen's
    bit-field setter on `_bitfield_1`. *)
Definition bf_set (v off width x : Z) : Z :=
  v - ((v / 2 ^ off) mod 2 ^ width) * 2 ^ off + (x mod 2 ^ width) * 2 ^ off.
Record user_desc := UD { ud_entry : Z; ud_base : Z; ud_limit : Z; ud_bits : Z }.
(** bit offsets of struct user_desc: seg_32bit 0, contents 1-2, read_exec_only
    3, limit_in_pages 4, seg_not_present 5, useable 6. *)
Definition desc_bits : Z :=
  let b := bf_set 0 0 1 1 in let b := bf_set b 1 2 0 in let b := bf_set b 3 1 0 in
  let b := bf_set b 4 1 1 in let b := bf_set b 5 1 0 in bf_set b 6 1 1.
(** x86.rs:242-256: [gs] is the 16-bit selector read by `mov {0:x}, gs`. *)
Definition clone_desc (gs tls : Z) : user_desc := UD (Z.shiftr gs 3) (tls mod 2 ^ 32) 0xfffff desc_bits.
(** x86.rs:323-337 in `set_thread_pointer`. *)
Definition stp_desc (ptr : Z) : user_desc := UD (2 ^ 32 - 1) (ptr mod 2 ^ 32) 0xfffff desc_bits.
(** Layout of struct user_desc in memory (the padding bytes are zero). *)
Definition desc_at (m : mem) (p : Z) (d : user_desc) : Prop :=
  load_le m p 4 = ud_entry d /\ load_le m (p + 4) 4 = ud_base d /\
  load_le m (p + 8) 4 = ud_limit d /\ load_le m (p + 12) 4 = ud_bits d.

(** The machine state when control reaches the assembly of `clone`: the
    operand list of the block (x86_64.rs:232-241, aarch64.rs:231-239,
    arm.rs:244-252, riscv64.rs:249-257), and on x86 the Rust code before it
    (x86.rs:239-260, 302-311).  [gs] is the thread's gs selector, [dp] the
    address of the descriptor and [arr] that of the operand array, both in the
    caller's frame. *)
Definition clone_operands (a : arch) (p : pick) (gs dp arr : Z) (c : clone_args) (m0 : mem) (s : cpu) : Prop :=
  match a with
  | X86_64 =>
      regs s 0 = NR_clone X86_64 /\ low32 (regs s 7) (c_flags c) /\ regs s 6 = c_stack c /\
      regs s 2 = c_ptid c /\ regs s 10 = c_ctid c /\ regs s 8 = c_tls c /\
      regs s 9 = c_fn c /\ regs s 12 = c_nargs c /\ cmem s = m0
  | Aarch64 =>
      low32 (regs s 8) (NR_clone a) /\ regs s 0 = c_flags c /\ regs s 1 = c_stack c /\
      regs s 2 = c_ptid c /\ regs s 3 = c_tls c /\ regs s 4 = c_ctid c /\
      regs s (p_fn p) = c_fn c /\ regs s (p_n p) = c_nargs c /\ cmem s = m0
  | Riscv64 =>
      low32 (regs s 17) (NR_clone a) /\ regs s 10 = c_flags c /\ regs s 11 = c_stack c /\
      regs s 12 = c_ptid c /\ regs s 13 = c_tls c /\ regs s 14 = c_ctid c /\
      regs s (p_fn p) = c_fn c /\ regs s (p_n p) = c_nargs c /\ cmem s = m0
  | Arm =>
      low32 (regs s 7) (NR_clone a) /\ regs s 0 = c_flags c /\ regs s 1 = c_stack c /\
      regs s 2 = c_ptid c /\ regs s 3 = c_tls c /\ regs s 4 = c_ctid c /\
      regs s (p_fn p) = c_fn c /\ regs s (p_n p) = c_nargs c /\ cmem s = m0
  | X86 =>
      (* `child_stack.cast().sub(1).write(fn_)`, x86.rs:258-260 *)
      cmem s = store_le m0 (wrapping_sub 4 (c_stack c) 4) 4 (c_fn c) /\
      regs s 1 = wrapping_sub 4 (c_stack c) 4 /\
      regs s 3 = c_flags c /\ regs s 2 = c_ptid c /\ regs s 7 = c_ctid c /\
      (* `inout("eax") &[newtls, __NR_clone, num_args]`, x86.rs:303-307 *)
      regs s 0 = arr /\ load_le m0 arr 4 = dp /\ load_le m0 (arr + 4) 4 = NR_clone a /\
      load_le m0 (arr + 8) 4 = c_nargs c /\ desc_at m0 dp (clone_desc gs (c_tls c))
  end%nat.

(** Registers the block declares as outputs or clobbers (`=> r0`, `lateout`):
    the compiler assumes every other register is unchanged. *)
Definition clone_outputs (a : arch) : list nat :=
  match a with X86_64 => [0; 1; 11] | X86 => [0] | Aarch64 | Arm => [0] | Riscv64 => [10] end%nat.

(** * munmap_and_exit_thread *)
Definition munmap_asm (a : arch) : list instr :=
  match a with
  | X86_64 => (* x86_64.rs:286-290 *) [ISys; IZero 7; IImm 0 (NR_exit a); ISys; ITrap]
  | X86 => (* x86.rs:376-380 *) [ISys; IZero 3; IImm 0 (NR_exit a); ISys; ITrap]
  | Aarch64 => (* aarch64.rs:278-282 *) [ISys; IZero 0; IImm 8 (NR_exit a); ISys; ITrap]
  | Arm => (* arm.rs:292-296 *) [ISys; IZero 0; IImm 7 (NR_exit a); ISys; ITrap]
  | Riscv64 => (* riscv64.rs:297-301 *) [ISys; IZero 10; IImm 17 (NR_exit a); ISys; ITrap]
  end%nat.
(** Operands: x86_64.rs:292-294, x86.rs:382-384, aarch64.rs:284-286,
    arm.rs:298-300, riscv64.rs:303-305; the number is a u32 operand. *)
Definition munmap_operands (a : arch) (map len : Z) (s : cpu) : Prop :=
  low32 (regs s (r_nr a)) (NR_munmap a) /\
  regs s (nth 0 (r_args a) 0%nat) = map /\ regs s (nth 1 (r_args a) 0%nat) = len.

(** * Signal-return trampolines *)
(** return_from_signal_handler: x86_64.rs:313-315, x86.rs:403-405,
    aarch64.rs:305-307, arm.rs:319-321 (riscv64 has none, riscv64.rs:310). *)
Definition restorer_asm (a : arch) : list instr :=
  match a with
  | Riscv64 => []
  | _ => [IImm (r_nr a) (NR_rt_sigreturn a); ISys; ITrap]
  end.
(** return_from_signal_handler_noinfo: x86.rs:423-426, arm.rs:339-341;
    x86_64.rs:329 and aarch64.rs:321 re-export the other one. *)
Definition restorer_noinfo_asm (a : arch) : list instr :=
  match a with
  | X86 => [IPop 0; IImm 0 (NR_sigreturn a); ISys; ITrap]
  | Arm => [IImm 7 (NR_sigreturn a); ISys; ITrap]
  | _ => restorer_asm a
  end%nat.

(** * Relocation primitives *)
(** `mov {}, [{}]`, `ldr {}, [{}]`, `ld {}, 0({})` with any two registers:
    x86_64.rs:116, x86.rs:146, aarch64.rs:118, arm.rs:130, riscv64.rs:113. *)
Definition rload_asm (d p : nat) : list instr := [ILoad d p 0].
(** x86_64.rs:143, x86.rs:172, aarch64.rs:144, arm.rs:156, riscv64.rs:162. *)
Definition rstore_asm (p v : nat) : list instr := [IStore p 0 v].
(** relocation_mprotect_readonly, x86_64.rs:175-191 and the same lines of the
    other files: the system call, then `if r0 != 0 { trap() }`. *)
Definition rmprotect_asm (a : arch) : list instr := [ISys; ICbz (r_ret a) 1; ITrap].
Definition PROT_READ : Z := 1.
(** Operands: the number is `as usize` on x86_64 and x86, a u32 elsewhere;
    PROT_READ is a u32. *)
Definition rmprotect_operands (a : arch) (ptr len : Z) (s : cpu) : Prop :=
  match a with X86_64 | X86 => regs s 0%nat = NR_mprotect a
             | _ => low32 (regs s (r_nr a)) (NR_mprotect a) end /\
  regs s (nth 0 (r_args a) 0%nat) = ptr /\ regs s (nth 1 (r_args a) 0%nat) = len /\
  low32 (regs s (nth 2 (r_args a) 0%nat)) PROT_READ.

(** * Thread pointer *)
(** x86.rs:337-341: `gs` is loaded with ((entry_number << 3) | 3) as u16, where
    the kernel has written entry_number. *)
Definition stp_selector (d : user_desc) : Z := Z.lor (Z.shiftl (ud_entry d) 3 mod 2 ^ 32) 3 mod 2 ^ 16.

(** * Position-independent addresses (`dynamic_table_addr`, `ehdr_addr`)

    [x] and [pc] are link-time addresses of the symbol and of the code below;
    the displacements are computed by the assembler and linker from link-time
    addresses, the instructions run at [pc + bias]. *)
Definition sext (bits v : Z) : Z := (v + 2 ^ (bits - 1)) mod 2 ^ bits - 2 ^ (bits - 1).
(** x86_64.rs:73, 88 `lea {}, [rip + X]`: [pc] is the next instruction; the
    32-bit displacement is sign-extended. *)
Definition addr_x86_64 (x pc bias : Z) : Z :=
  wrapping_add 8 (wrapping_add 8 pc bias) (sext 32 (x - pc)).
(** x86.rs:80-87, 101-111: `call 2f; 2: pop r; add r, offset
    _GLOBAL_OFFSET_TABLE_+1; lea r, [r + X@GOTOFF]`: [l2] is label 2; the
    assembler encodes `_GLOBAL_OFFSET_TABLE_ + 1` relative to the start of the
    `add` (R_386_GOTPC), which is [poplen] bytes after label 2; X@GOTOFF is X -
    GOT. *)
Definition addr_x86 (x got l2 poplen bias : Z) : Z :=
  let r := wrapping_add 4 l2 bias in                                   (* call; pop *)
  let r := wrapping_add 4 r (got + 1 - (l2 + poplen)) in               (* add *)
  wrapping_add 4 r (x - got).                                          (* lea *)
(** aarch64.rs:74-75, 91-92 `adrp {0}, X; add {0}, {0}, :lo12:X`: the 21-bit
    page displacement is sign-extended and scaled. *)
Definition page12 (v : Z) : Z := v / 4096 * 4096.
Definition addr_aarch64 (x pc bias : Z) : Z :=
  let r := wrapping_add 8 (page12 (wrapping_add 8 pc bias)) (sext 21 (page12 x / 4096 - page12 pc / 4096) * 4096) in
  wrapping_add 8 r (x mod 4096).
(** arm.rs:75-83, 98-106 `ldr {0}, 1f; 0: add {0}, pc, {0}; 1: .word
    X-(0b+8)`: [l0] is label 0; in ARM state pc reads as the instruction's
    address plus 8 (Thumb state is not modelled). *)
Definition addr_arm (x l0 bias : Z) : Z :=
  let r := (x - (l0 + 8)) mod 2 ^ 32 in
  wrapping_add 4 (wrapping_add 4 (wrapping_add 4 l0 bias) 8) r.
(** riscv64.rs:70, 85 `lla {}, X` = auipc r, %pcrel_hi(X); addi r, r,
    %pcrel_lo: hi20 is rounded so that lo12 is a signed 12-bit value. *)
Definition addr_riscv64 (x pc bias : Z) : Z :=
  let d := x - pc in
  let hi := (d + 0x800) / 4096 in
  let lo := d - hi * 4096 in
  let r := wrapping_add 8 (wrapping_add 8 pc bias) (sext 32 (hi * 4096)) in
  wrapping_add 8 r (sext 12 lo).
