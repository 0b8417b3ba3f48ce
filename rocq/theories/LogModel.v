(** The log statements of src/thread/linux_raw.rs (feature `log`), on top of
    ThreadModel.v.  Each loads the thread_id word of one record to print it.
    Simplified: the statement's text and the logger are not modelled (the
    logger is user code and may do whatever user code may). *)
From Coq Require Import ZArith List Bool Lia Arith.
From Verif Require Import ThreadModel.
Import ListNotations.
Open Scope Z_scope.

(** [logs s i j v]: in state [s], a log statement that thread [i] may be about
    to execute loads the id word of [j]'s record and reads [v]. *)
Inductive logs (s : st) : nat -> nat -> Z -> Prop :=
(** create, 595: current_id() of the creator; entry, 633: current_id() of the
    new thread; call_dtors, 785: the exiting thread's record *)
| l_run i : (i < n s)%nat -> t_pc (T s i) = Run -> logs s i i (r_tid (R s i))
(** exit, 691: on entry *)
| l_returned i v : t_pc (T s i) = XCas v -> logs s i i (r_tid (R s i))
(** exit, 712: after the failed compare_exchange, before drop_in_place; the
    value is printed at 718.  With map_size 0 the thread goes on to
    exit_thread instead. *)
| l_detached i : t_pc (T s i) = DxSetTid -> logs s i i (r_tid (R s i))
| l_nomap i : t_pc (T s i) = XExit -> r_map (R s i) = 0 -> logs s i i (r_tid (R s i))
(** exit, 751: after the successful compare_exchange, before the store of the
    return value *)
| l_joinable i v : t_pc (T s i) = XStore v -> logs s i i (r_tid (R s i))
(** detach, 805: the record; 812: current_id() of the caller *)
| l_detach i j : t_pc (T s i) = DSwap j -> logs s i j (r_tid (R s j))
| l_detach_me i j : t_pc (T s i) = DSwap j -> logs s i i (r_tid (R s i))
(** join, 839: the record; 846: current_id() of the caller; both before
    wait_for_exit *)
| l_join i j : t_pc (T s i) = JLoad KJoin j -> logs s i j (r_tid (R s j))
| l_join_me i j : t_pc (T s i) = JLoad KJoin j -> logs s i i (r_tid (R s i)).
(** log_thread_to_be_freed (899-903), called at 820 and 854, prints the value
    loaded at 805 or 839 and loads nothing. *)
