(** The debug checks at the two places where assembly enters Rust:
    src/program/linux_raw.rs:55-91 (`entry` of the program) and
    src/thread/linux_raw.rs:641-668 (`entry` of a thread).  They run in builds
    with debug assertions, and all but the first two of the program's need the
    `nightly` feature.

    They look at the frame the compiler has just made, so the compiler's part is
    modelled too: a function that uses llvm.frameaddress sets up a frame pointer
    in its first instructions ([view]):
    - x86_64, i386: `push fp; mov fp, sp`;
    - aarch64: the pair (x29, x30) is stored at a 16-byte-aligned place below
      the incoming stack pointer ([k] units of 16 bytes below) and x29 set to it;
    - arm: `push {r11, lr}; mov r11, sp`;
    - riscv64: ra and s0 are saved below the incoming stack pointer and s0 is set
      to the incoming stack pointer.
    llvm.returnaddress(0) is what the return address was at the first
    instruction, llvm.frameaddress(1) the saved frame pointer,
    llvm.sponentry (aarch64) the incoming stack pointer. *)
From Verif Require Import Machine LayoutModel AsmModel AsmSpec.

Record view := View { v_frame : Z; v_return : Z; v_frame1 : Z; v_sp : Z }.
Definition seen (a : arch) (k : Z) (s : cpu) : view :=
  let sp := regs s (r_sp a) in
  View (match a with X86_64 => sp - 8 | X86 => sp - 4 | Aarch64 => sp - 16 * k | Arm => sp - 8 | Riscv64 => sp end)
       (match a with
        | X86_64 => load_le (cmem s) sp 8 | X86 => load_le (cmem s) sp 4
        | Aarch64 => regs s 30%nat | Arm => regs s 14%nat | Riscv64 => regs s 1%nat end)
       (match a with X86_64 | X86 => regs s 5%nat | Aarch64 => regs s 29%nat | Arm => regs s 11%nat | Riscv64 => regs s 8%nat end)
       sp.

(** program/linux_raw.rs:57-58 *)
Definition program_checks (mem_ : Z) : bool := negb (mem_ =? 0) && (Z.land mem_ 15 =? 0).
(** program/linux_raw.rs:74-89 *)
Definition program_nightly_checks (a : arch) (mem_ : Z) (v : view) : bool :=
  (v_frame v <=? mem_) && (v_return v =? 0) && negb (v_frame v =? 0) &&
  match a with
  | Arm => Z.land (v_frame v) 7 =? 0
  | X86 => Z.land (v_frame v) 15 =? 8
  | _ => Z.land (v_frame v) 15 =? 0 end &&
  (v_frame1 v =? 0) &&
  match a with Aarch64 => negb (v_sp v =? 0) && (Z.land (v_sp v) 15 =? 0) | _ => true end.
(** thread/linux_raw.rs:655-667 *)
Definition thread_nightly_checks (a : arch) (v : view) : bool :=
  (v_return v =? 0) && negb (v_frame v =? 0) &&
  match a with
  | Arm => Z.land (v_frame v) 3 =? 0
  | X86 => Z.land (v_frame v) 15 =? 8
  | _ => Z.land (v_frame v) 15 =? 0 end &&
  (v_frame1 v =? 0) &&
  match a with Aarch64 => negb (v_sp v =? 0) && (Z.land (v_sp v) 15 =? 0) | _ => true end.
