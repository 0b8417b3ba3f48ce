(** Model of the remaining accessors of the calling thread's record:
    set_current_id_after_a_fork and errno_location (src/thread/linux_raw.rs). *)
From Coq Require Import ZArith Bool.
From Verif Require Import Machine LayoutModel LayoutSpec.
Open Scope Z_scope.

(** linux_raw.rs:974-1002 set_current_id_after_a_fork(tid).  [gettid] is what
    the kernel answers; [None]: one of the two debug assertions failed
    ([ck]: debug assertions enabled). *)
Definition set_current_id_after_a_fork (ck : bool) (a : arch) (td : td_layout) (m : mem) (tpreg gettid tid : Z) : option mem :=
  let t := current a td m tpreg in
  if ck && (id_of td m t =? tid) then None                 (* debug_assert_ne! *)
  else if ck && negb (tid =? gettid) then None             (* debug_assert_eq! *)
  else Some (store_le m (t + o_tid td) 4 tid).

(** linux_raw.rs:1007-1011 errno_location; [o] is the offset of errno_val in
    ThreadData (feature unstable-errno). *)
Definition errno_location (a : arch) (td : td_layout) (o : Z) (m : mem) (tpreg : Z) : Z :=
  thread_at a td (current_metadata a td m tpreg) + o.
