(** Model of thread lifecycle: create / join / detach / exit of
    src/thread/linux_raw.rs, with the kernel's side (futex queue, exit-time tid
    clear and wake, mmap address reuse, signals).

    Any number of threads run interleaved; every atomic access (all are SeqCst
    in the code), system call and kernel exit action is one step.  A thread is
    named by its creation index (an "instance"), never reused; addresses are
    reused freely, as the kernel may.  A step carries the list of instances
    whose memory (stack or record) it touches and an event. *)
From Coq Require Import ZArith List Bool Lia Arith.
Import ListNotations.
Open Scope Z_scope.

(** linux_raw.rs:108-111: values of `ThreadData::detached`. *)
Inductive det := Initial | Detached | Abandoned.

(** Which call is waiting for a thread's exit: join (835) or detach (803). *)
Inductive kind := KJoin | KDetach.

(** Program counters.
    - [Run]: user code;
    - [JLoad]..[JSleep]: wait_for_exit (872-896): load of thread_id (880), futex
      call (885), asleep in the kernel;
    - [JDone]: after the loop (851-858: assert, load of return_value);
    - [JFree]: free_memory (911-928); [JRet]: about to return from the call;
    - [DSwap]: detach, before the swap (816);
    - [XCas], [XStore], [XExit]: exit (684-768): compare_exchange (703), store of the
      return value (763), exit_thread (767);
    - [DxSetTid], [DxBlock], [DxMunmap], [DxExit]: the detached path of exit
      (708-743): set_tid_address(null), block signals, munmap, exit;
    - [KClear], [KWake]: the kernel finishing the exit: store 0 to the
      clear-child-tid word, then futex-wake that address;
    - [Panicked]: an `unwrap` or assertion failed. *)
Inductive pc :=
| Run
| JLoad (k : kind) (j : nat) | JFutex (k : kind) (j : nat) (v : Z) | JSleep (k : kind) (j : nat)
| JDone (k : kind) (j : nat) | JFree (k : kind) (j : nat) (rv : Z) | JRet (k : kind) (j : nat) (rv : Z)
| DSwap (j : nat)
| XCas (rv : Z) | XStore (rv : Z) | XExit
| DxSetTid | DxBlock | DxMunmap | DxExit
| KClear | KWake (addr : Z) | Dead | Panicked.

(** The memory of an instance.  Record fields (linux_raw.rs:92-106): thread_id,
    detached, return_value, stack_addr, guard_size, map_size; then the address
    of the thread_id word, and the memory the instance's record and stack live
    in: [r_base], [r_len], and whether that memory is still mapped.  For a
    created thread it is its own mmap region, for the main thread (map_size 0)
    the memory the kernel gave it. *)
Record trec := TRec {
  r_tid : Z; r_det : det; r_ret : Z;
  r_stack : Z; r_guard : Z; r_map : Z;
  r_taddr : Z; r_base : Z; r_len : Z; r_mapped : bool }.

(** The kernel task: kernel tid, whether a clear-child-tid address is set,
    whether all signals are blocked.  Ghost: [t_fin] = the value the thread's
    function returned, once it has. *)
Record task := Task { t_pc : pc; t_tid : Z; t_clear : bool; t_block : bool; t_fin : option Z }.

(** [claim j]: ghost, the join or detach call made on [j], if any. *)
Record st := St {
  n : nat; T : nat -> task; R : nat -> trec; claim : nat -> option (kind * nat) }.

Definition fupd {A} (f : nat -> A) (i : nat) (v : A) : nat -> A :=
  fun x => if Nat.eqb x i then v else f x.

Definition set_pc (t : task) (p : pc) := Task p (t_tid t) (t_clear t) (t_block t) (t_fin t).
Definition set_clear (t : task) (p : pc) (b : bool) := Task p (t_tid t) b (t_block t) (t_fin t).
Definition set_block (t : task) (p : pc) := Task p (t_tid t) (t_clear t) true (t_fin t).
Definition set_fin (t : task) (p : pc) (v : Z) := Task p (t_tid t) (t_clear t) (t_block t) (Some v).

Definition set_tid (r : trec) v := TRec v (r_det r) (r_ret r) (r_stack r) (r_guard r) (r_map r) (r_taddr r) (r_base r) (r_len r) (r_mapped r).
Definition set_det (r : trec) d := TRec (r_tid r) d (r_ret r) (r_stack r) (r_guard r) (r_map r) (r_taddr r) (r_base r) (r_len r) (r_mapped r).
Definition set_ret (r : trec) v := TRec (r_tid r) (r_det r) v (r_stack r) (r_guard r) (r_map r) (r_taddr r) (r_base r) (r_len r) (r_mapped r).
Definition unmap (r : trec) := TRec (r_tid r) (r_det r) (r_ret r) (r_stack r) (r_guard r) (r_map r) (r_taddr r) (r_base r) (r_len r) false.

Definition goto (s : st) (i : nat) (p : pc) : st := St (n s) (fupd (T s) i (set_pc (T s i) p)) (R s) (claim s).
Definition with_task (s : st) (i : nat) (t : task) : st := St (n s) (fupd (T s) i t) (R s) (claim s).
Definition with_rec (s : st) (j : nat) (r : trec) : st := St (n s) (T s) (fupd (R s) j r) (claim s).
Definition with_claim (s : st) (j : nat) (c : kind * nat) : st := St (n s) (T s) (R s) (fupd (claim s) j (Some c)).

Inductive event :=
| ENone
| ECreate (j : nat)                    (* create returned the thread j *)
| EReturn (v : Z)                      (* the thread's function returned v *)
| ECallJoin (j : nat) | ECallDetach (j : nat)   (* join(j), detach(j) called *)
| EJoin (j : nat) (rv : Z)             (* join(j) returned rv *)
| EDetach (j : nat)                    (* detach(j) returned *)
| EMunmap (addr len : Z)               (* a successful munmap(addr, len) *)
| EId (j : nat) (v : Z)                (* id(j) returned v (0: None) *)
| ESignal                              (* a signal handler ran *)
| ESetTidNull                          (* set_tid_address(null) *)
| EBlockAll                            (* all signals blocked *)
| EExit                                (* the exit system call *)
| EKernelClear.                        (* the kernel stored 0 in the thread_id word *)

(** (actor, memory touched, event) *)
Definition label := (nat * list nat * event)%type.

(** What the crate, the program and the kernel are configured as: page size;
    [sig]: the `signal` feature; [handlers]: some signal has a handler;
    [debug]: debug assertions; [reuse]: whether mmap may hand out an address
    for which an exiting task still has its futex wake pending. *)
Record cfg := Cfg { c_page : Z; c_sig : bool; c_handlers : bool; c_debug : bool; c_reuse : bool }.

(** munmap(stack_addr - guard_size, map_size): rejected with EINVAL unless the
    address is page aligned (map_size is a non-zero page multiple); otherwise
    every mapping it overlaps is gone (part of a mapping counts as all). *)
Definition munmap_addr (r : trec) : Z := r_stack r - r_guard r.
Definition munmap_ok (c : cfg) (r : trec) : bool := munmap_addr r mod c_page c =? 0.
Definition overlaps (a len : Z) (r : trec) : bool :=
  (a <? r_base r + r_len r) && (r_base r <? a + len).
Definition munmap (s : st) (a len : Z) : st :=
  St (n s) (T s) (fun k => if overlaps a len (R s k) then unmap (R s k) else R s k) (claim s).

(** pcs at which the task executes user instructions (and so a handler may
    interrupt it). *)
Definition user_pc (p : pc) : bool :=
  match p with JSleep _ _ | KClear | KWake _ | Dead | Panicked => false | _ => true end.

(** a task exists in the kernel *)
Definition alive (p : pc) : bool := match p with Dead => false | _ => true end.

Inductive step (c : cfg) (s : st) : label -> st -> Prop :=
(** ** user code *)
(** create (484-613).  mmap, initialisation and clone are one step: no one
    else knows the new record before clone.  The kernel picks a mapping at a
    page-aligned [base] that no existing mapping uses, a tid no live task
    uses, and stores it before either side runs. *)
| s_create i base guard map tid taddr :
    (i < n s)%nat -> t_pc (T s i) = Run ->
    0 < tid -> (forall k, (k < n s)%nat -> alive (t_pc (T s k)) = true -> t_tid (T s k) <> tid) ->
    base mod c_page c = 0 -> 0 <= guard -> 0 < map ->
    (forall k, (k < n s)%nat -> r_mapped (R s k) = true -> overlaps base map (R s k) = false) ->
    base <= taddr < base + map ->
    (c_reuse c = false -> forall k a, (k < n s)%nat -> t_pc (T s k) = KWake a -> a <> taddr) ->
    step c s (i, [i], ECreate (n s))
      (St (S (n s))
          (fupd (T s) (n s) (Task Run tid true false None))
          (fupd (R s) (n s)
             (TRec tid Initial 0 (base + (guard + c_page c - 1) / c_page c * c_page c) guard map taddr base map true))
          (fupd (claim s) (n s) None))
(** the contract of join/detach: the thread has not been joined or detached *)
| s_join i j : (i < n s)%nat -> t_pc (T s i) = Run -> (j < n s)%nat -> claim s j = None ->
    step c s (i, [i], ECallJoin j) (goto (with_claim s j (KJoin, i)) i (JLoad KJoin j))
| s_detach i j : (i < n s)%nat -> t_pc (T s i) = Run -> (j < n s)%nat -> claim s j = None ->
    step c s (i, [i], ECallDetach j) (goto (with_claim s j (KDetach, i)) i (DSwap j))
(** id(j) (1052) on a thread nobody joined or detached, or on oneself
    (current_id, 970) *)
| s_id i j : (i < n s)%nat -> t_pc (T s i) = Run -> (j < n s)%nat -> claim s j = None \/ j = i ->
    step c s (i, [i; j], EId j (r_tid (R s j))) s
(** the thread's function returned (678-680); thread at_exit functions are
    user code that runs before this step *)
| s_return i v : (0 < i)%nat -> (i < n s)%nat -> t_pc (T s i) = Run ->
    step c s (i, [i], EReturn v) (with_task s i (set_fin (T s i) (XCas v) v))
(** ** wait_for_exit (872-896) *)
| s_load0 i k j : t_pc (T s i) = JLoad k j -> r_tid (R s j) = 0 ->
    step c s (i, [i; j], ENone) (goto s i (JDone k j))
| s_load i k j : t_pc (T s i) = JLoad k j -> r_tid (R s j) <> 0 ->
    step c s (i, [i; j], ENone) (goto s i (JFutex k j (r_tid (R s j))))
| s_futex_again i k j v : t_pc (T s i) = JFutex k j v -> r_tid (R s j) <> v ->      (* EAGAIN *)
    step c s (i, [i; j], ENone) (goto s i (JLoad k j))
| s_futex_intr i k j v : t_pc (T s i) = JFutex k j v ->                               (* EINTR *)
    step c s (i, [i; j], ENone) (goto s i (JLoad k j))
| s_futex_sleep i k j v : t_pc (T s i) = JFutex k j v -> r_tid (R s j) = v ->
    step c s (i, [i; j], ENone) (goto s i (JSleep k j))
| s_sleep_intr i k j : t_pc (T s i) = JSleep k j ->                                   (* EINTR *)
    step c s (i, [i], ENone) (goto s i (JLoad k j))
(** ** join (850-865) *)
| s_join_load i j : t_pc (T s i) = JDone KJoin j -> r_det (R s j) = Abandoned \/ c_debug c = false ->
    step c s (i, [i; j], ENone) (goto s i (JFree KJoin j (r_ret (R s j))))
| s_join_assert i j : t_pc (T s i) = JDone KJoin j -> r_det (R s j) <> Abandoned -> c_debug c = true ->
    step c s (i, [i; j], ENone) (goto s i Panicked)                                   (* debug_assert_eq *)
| s_detach_done i j : t_pc (T s i) = JDone KDetach j ->
    step c s (i, [i; j], ENone) (goto s i (JFree KDetach j 0))
(** free_memory (911-928): reads the record, drops it, unmaps *)
| s_free i k j rv : t_pc (T s i) = JFree k j rv -> r_map (R s j) <> 0 -> munmap_ok c (R s j) = true ->
    step c s (i, [i; j], EMunmap (munmap_addr (R s j)) (r_map (R s j)))
      (goto (munmap s (munmap_addr (R s j)) (r_map (R s j))) i (JRet k j rv))
| s_free_einval i k j rv : t_pc (T s i) = JFree k j rv -> r_map (R s j) <> 0 -> munmap_ok c (R s j) = false ->
    step c s (i, [i; j], ENone) (goto s i Panicked)
| s_free_none i k j rv : t_pc (T s i) = JFree k j rv -> r_map (R s j) = 0 ->
    step c s (i, [i; j], ENone) (goto s i (JRet k j rv))
| s_ret_join i j rv : t_pc (T s i) = JRet KJoin j rv ->
    step c s (i, [i], EJoin j rv) (goto s i Run)
| s_ret_detach i j rv : t_pc (T s i) = JRet KDetach j rv ->
    step c s (i, [i], EDetach j) (goto s i Run)
(** ** detach (816) *)
| s_swap i j : t_pc (T s i) = DSwap j -> r_det (R s j) = Abandoned ->
    step c s (i, [i; j], ENone) (goto (with_rec s j (set_det (R s j) Detached)) i (JLoad KDetach j))
| s_swap_running i j : t_pc (T s i) = DSwap j -> r_det (R s j) <> Abandoned ->
    step c s (i, [i; j], EDetach j) (goto (with_rec s j (set_det (R s j) Detached)) i Run)
(** ** exit (684-768) *)
| s_cas i rv : t_pc (T s i) = XCas rv -> r_det (R s i) = Initial ->
    step c s (i, [i], ENone) (goto (with_rec s i (set_det (R s i) Abandoned)) i (XStore rv))
| s_cas_assert i rv : t_pc (T s i) = XCas rv -> r_det (R s i) = Abandoned -> c_debug c = true ->
    step c s (i, [i], ENone) (goto s i Panicked)                             (* debug_assert_eq!(e, DETACHED) *)
| s_cas_detached i rv : t_pc (T s i) = XCas rv -> r_det (R s i) <> Initial ->
    r_det (R s i) = Detached \/ c_debug c = false -> r_map (R s i) <> 0 ->
    step c s (i, [i], ENone) (goto s i DxSetTid)
| s_cas_nomap i rv : t_pc (T s i) = XCas rv -> r_det (R s i) <> Initial ->
    r_det (R s i) = Detached \/ c_debug c = false -> r_map (R s i) = 0 ->
    step c s (i, [i], ENone) (goto s i XExit)
| s_store i rv : t_pc (T s i) = XStore rv ->
    step c s (i, [i], ENone) (goto (with_rec s i (set_ret (R s i) rv)) i XExit)
| s_exit i : t_pc (T s i) = XExit ->
    step c s (i, [i], EExit) (goto s i KClear)
| s_dx_settid i : t_pc (T s i) = DxSetTid ->
    step c s (i, [i], ESetTidNull) (with_task s i (set_clear (T s i) DxBlock false))
| s_dx_block i : t_pc (T s i) = DxBlock -> c_sig c = true ->
    step c s (i, [i], EBlockAll) (with_task s i (set_block (T s i) DxMunmap))
| s_dx_noblock i : t_pc (T s i) = DxBlock -> c_sig c = false ->
    step c s (i, [i], ENone) (goto s i DxMunmap)
(** munmap_and_exit_thread: the call itself still uses the stack *)
| s_dx_munmap i : t_pc (T s i) = DxMunmap -> munmap_ok c (R s i) = true ->
    step c s (i, [i], EMunmap (munmap_addr (R s i)) (r_map (R s i)))
      (goto (munmap s (munmap_addr (R s i)) (r_map (R s i))) i DxExit)
| s_dx_munmap_einval i : t_pc (T s i) = DxMunmap -> munmap_ok c (R s i) = false ->
    step c s (i, [i], ENone) (goto s i DxExit)
| s_dx_exit i : t_pc (T s i) = DxExit ->
    step c s (i, [], EExit) (goto s i KClear)
(** ** the kernel's end of an exit (mm_release) *)
| s_kclear i : t_pc (T s i) = KClear -> t_clear (T s i) = true ->
    step c s (i, [i], EKernelClear) (goto (with_rec s i (set_tid (R s i) 0)) i (KWake (r_taddr (R s i))))
| s_kclear_null i : t_pc (T s i) = KClear -> t_clear (T s i) = false ->
    step c s (i, [], ENone) (goto s i Dead)
| s_kwake i w k j a : t_pc (T s i) = KWake a -> t_pc (T s w) = JSleep k j -> r_taddr (R s j) = a ->
    step c s (i, [], ENone) (goto (goto s i Dead) w (JDone k j))                       (* Ok(_) => break *)
| s_kwake_none i a : t_pc (T s i) = KWake a ->
    (forall w k j, (w < n s)%nat -> t_pc (T s w) = JSleep k j -> r_taddr (R s j) <> a) ->
    step c s (i, [], ENone) (goto s i Dead)
(** ** signals: a handler runs on the interrupted thread's stack *)
| s_signal i : (i < n s)%nat -> c_handlers c = true -> t_block (T s i) = false -> user_pc (t_pc (T s i)) = true ->
    step c s (i, [i], ESignal) s.

(** Process start: the main thread alone, its record set up by initialize_main
    (262-453), thread_id = its tid, map_size 0.  [sk] etc. are arbitrary. *)
Definition init (tid stack guard taddr base len : Z) : st :=
  St 1
     (fun i => match i with O => Task Run tid true false None | _ => Task Dead 1 true false None end)
     (fun i => match i with
               | O => TRec tid Initial 0 stack guard 0 taddr base len true
               | _ => TRec 0 Initial 0 0 0 0 0 0 0 false end)
     (fun _ => None).
Definition initial (s : st) : Prop :=
  exists tid stack guard taddr base len,
    0 < tid /\ base <= taddr < base + len /\ s = init tid stack guard taddr base len.

(** Executions, with the labels in order. *)
Inductive exec (c : cfg) : st -> list label -> st -> Prop :=
| exec_nil s : exec c s [] s
| exec_snoc s tr s1 l s2 : exec c s tr s1 -> step c s1 l s2 -> exec c s (tr ++ [l]) s2.

Definition run (c : cfg) (tr : list label) (s : st) : Prop := exists s0, initial s0 /\ exec c s0 tr s.
