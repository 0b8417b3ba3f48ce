(** The flags `create` passes to clone(2) and the operation wait_for_exit passes
    to futex(2) (src/thread/linux_raw.rs).  The other models name these calls by
    what they are meant to do (LayoutModel.SClone, ThreadModel's kernel steps);
    here are the numbers, and Props_Clone.v shows that Linux does what is meant. *)
From Verif Require Import Machine.

(** `CloneFlags` (linux_raw.rs:1112-1140): linux_raw_sys::general's constants. *)
Definition CLONE_VM : Z := 256.
Definition CLONE_FS : Z := 512.
Definition CLONE_FILES : Z := 1024.
Definition CLONE_SIGHAND : Z := 2048.
Definition CLONE_THREAD : Z := 65536.
Definition CLONE_SYSVSEM : Z := 262144.
Definition CLONE_SETTLS : Z := 524288.
Definition CLONE_PARENT_SETTID : Z := 1048576.
Definition CLONE_CHILD_CLEARTID : Z := 2097152.
Definition CLONE_CHILD_SETTID : Z := 16777216.

(** linux_raw.rs:573-582, in the code's order. *)
Definition create_flag_list : list Z :=
  [CLONE_VM; CLONE_FS; CLONE_FILES; CLONE_SIGHAND; CLONE_THREAD; CLONE_SYSVSEM; CLONE_SETTLS;
   CLONE_CHILD_CLEARTID; CLONE_CHILD_SETTID; CLONE_PARENT_SETTID].
(** `a | b | ...`, then `flags.bits()` (584). *)
Definition create_flags : Z := fold_left Z.lor create_flag_list 0.

(** rustix's futex operation codes: FUTEX_WAIT | flags; linux_raw.rs:887-892
    passes `futex::Flags::empty()`. *)
Definition FUTEX_WAIT : Z := 0.
Definition futex_flags_empty : Z := 0.
Definition wait_op : Z := Z.lor FUTEX_WAIT futex_flags_empty.
