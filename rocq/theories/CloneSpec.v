(** Linux's clone(2), set_tid_address(2), futex(2) and thread exit, as far as
    threads are concerned.  Written from the manual pages and kernel/fork.c
    (copy_process, kernel_clone, mm_release), kernel/sched/core.c
    (schedule_tail), kernel/futex/core.c (get_futex_key); not from origin's
    code.  Flags are given by bit number (include/uapi/linux/sched.h). *)
From Verif Require Import Machine.

Definition has (fl b : Z) : bool := Z.testbit fl b.
Definition b_VM := 8. Definition b_FS := 9. Definition b_FILES := 10. Definition b_SIGHAND := 11.
Definition b_PIDFD := 12. Definition b_PTRACE := 13. Definition b_VFORK := 14. Definition b_PARENT := 15.
Definition b_THREAD := 16. Definition b_NEWNS := 17. Definition b_SYSVSEM := 18. Definition b_SETTLS := 19.
Definition b_PARENT_SETTID := 20. Definition b_CHILD_CLEARTID := 21. Definition b_DETACHED := 22.
Definition b_UNTRACED := 23. Definition b_CHILD_SETTID := 24. Definition b_NEWCGROUP := 25.
Definition b_NEWUTS := 26. Definition b_NEWIPC := 27. Definition b_NEWUSER := 28. Definition b_NEWPID := 29.
Definition b_NEWNET := 30. Definition b_IO := 31.

(** What a task refers to.  Numbers name kernel objects: two tasks with the same
    [mm] share their memory, and so on; [ns]: the namespaces (mount, uts, ipc,
    pid, net, cgroup, user). *)
Record ktask := KT {
  k_tid : Z; k_tgid : Z; k_mm : Z; k_fs : Z; k_files : Z; k_sighand : Z; k_sysvsem : Z; k_ns : list Z;
  k_tp : Z;                      (* thread pointer register *)
  k_sp : Z;                      (* stack pointer when it first runs *)
  k_settid : option Z;           (* store its tid here when it first runs *)
  k_clear : option Z;            (* clear_child_tid *)
  k_exit_signal : option Z;      (* signal sent to the parent at exit; None: none *)
  k_traced : bool }.

(** Memory by address space. *)
Notation spaces := (Z -> mem).
Definition upd_space (ms : spaces) (mm : Z) (m : mem) : spaces := fun k => if k =? mm then m else ms k.

Definition ns_bits : list Z := [b_NEWNS; b_NEWUTS; b_NEWIPC; b_NEWPID; b_NEWNET; b_NEWCGROUP; b_NEWUSER].
Fixpoint new_ns (fl fresh : Z) (bits : list Z) (ns : list Z) : list Z :=
  match bits, ns with
  | b :: bits', x :: ns' => (if has fl b then fresh else x) :: new_ns fl fresh bits' ns'
  | _, _ => ns
  end.

(** clone(flags, stack, parent_tid, child_tid, tls) by task [p], the kernel
    having chosen [tid] and fresh objects named [fresh].  [None]: EINVAL.
    Result: the child, memory when clone returns in the parent, whether the
    parent is suspended (CLONE_VFORK). *)
Definition k_clone (fl stack ptid ctid tls fresh tid : Z) (p : ktask) (ms : spaces) : option (ktask * spaces * bool) :=
  if has fl b_NEWNS && has fl b_FS then None
  else if has fl b_NEWUSER && has fl b_FS then None
  else if has fl b_THREAD && negb (has fl b_SIGHAND) then None
  else if has fl b_SIGHAND && negb (has fl b_VM) then None
  else if has fl b_THREAD && (has fl b_NEWUSER || has fl b_NEWPID) then None
  else if has fl b_NEWIPC && has fl b_SYSVSEM then None
  else
    let share (b x : Z) := if has fl b then x else fresh in
    let child := KT tid (if has fl b_THREAD then k_tgid p else tid)
      (share b_VM (k_mm p)) (share b_FS (k_fs p)) (share b_FILES (k_files p)) (share b_SIGHAND (k_sighand p))
      (share b_SYSVSEM (k_sysvsem p)) (new_ns fl fresh ns_bits (k_ns p))
      (if has fl b_SETTLS then tls else k_tp p)
      (if stack =? 0 then k_sp p else stack)
      (if has fl b_CHILD_SETTID then Some ctid else None)
      (if has fl b_CHILD_CLEARTID then Some ctid else None)
      (if has fl b_THREAD then None
       else if has fl b_PARENT then k_exit_signal p else Some (fl mod 256))
      (if has fl b_PTRACE then k_traced p else false) in
    let ms1 := if has fl b_VM then ms else upd_space ms fresh (ms (k_mm p)) in
    let ms2 := if has fl b_PARENT_SETTID then upd_space ms1 (k_mm p) (store_le (ms1 (k_mm p)) ptid 4 tid) else ms1 in
    Some (child, ms2, has fl b_VFORK).

(** Before its first user instruction the child stores its tid. *)
Definition k_first_run (c : ktask) (ms : spaces) : spaces :=
  match k_settid c with
  | Some a => upd_space ms (k_mm c) (store_le (ms (k_mm c)) a 4 (k_tid c))
  | None => ms
  end.

(** set_tid_address(2): 0 for none. *)
Definition k_set_tid_address (c : ktask) (a : Z) : ktask :=
  KT (k_tid c) (k_tgid c) (k_mm c) (k_fs c) (k_files c) (k_sighand c) (k_sysvsem c) (k_ns c) (k_tp c) (k_sp c)
     (k_settid c) (if a =? 0 then None else Some a) (k_exit_signal c) (k_traced c).

(** Futexes.  A waiter and a waker meet if their keys are equal.  For an address
    in private anonymous memory the key is the address space and the address,
    marked by whether FUTEX_PRIVATE_FLAG (bit 7 of the operation) was given. *)
Definition futex_key (op mm addr : Z) : bool * Z * Z := (Z.testbit op 7, mm, addr).
Definition futex_cmd (op : Z) : Z := Z.land op 127.
Definition k_FUTEX_WAIT : Z := 0.
Definition k_FUTEX_WAKE : Z := 1.

(** futex(addr, FUTEX_WAIT, expected): sleeps on the key iff the word is what
    was expected ([None]: EAGAIN). *)
Definition k_futex_wait (op addr expected : Z) (c : ktask) (ms : spaces) : option (bool * Z * Z) :=
  if load_le (ms (k_mm c)) addr 4 =? expected then Some (futex_key op (k_mm c) addr) else None.

(** exit(2) of a task whose address space has other users: memory, and the
    futex key woken (one waiter) if a clear_child_tid address is set. *)
Definition k_exit (c : ktask) (ms : spaces) : spaces * option (bool * Z * Z) :=
  match k_clear c with
  | Some a => (upd_space ms (k_mm c) (store_le (ms (k_mm c)) a 4 0), Some (futex_key k_FUTEX_WAKE (k_mm c) a))
  | None => (ms, None)
  end.

(** The child is a thread of the parent's process: same process id, memory,
    file table, signal actions, file-system context, semaphore undo list and
    namespaces; runs on [stack] with thread pointer [tls]; its death is
    announced by clearing [ctid], not by a signal; nobody is made to wait. *)
Record is_thread (stack ctid tls : Z) (p c : ktask) : Prop := {
  it_group : k_tgid c = k_tgid p;
  it_mm : k_mm c = k_mm p;
  it_fs : k_fs c = k_fs p;
  it_files : k_files c = k_files p;
  it_sighand : k_sighand c = k_sighand p;
  it_sem : k_sysvsem c = k_sysvsem p;
  it_ns : k_ns c = k_ns p;
  it_tp : k_tp c = tls;
  it_sp : k_sp c = stack;
  it_clear : k_clear c = Some ctid;
  it_signal : k_exit_signal c = None;
  it_traced : k_traced c = false }.
