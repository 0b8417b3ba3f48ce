(** Small vocabulary for the life-cycle theorems: everything is about the
    trace of labelled steps and the state it ends in. *)
From Coq Require Import ZArith List Bool Lia Arith.
From Verif Require Import ThreadModel.
Import ListNotations.
Open Scope Z_scope.

(** thread j has finished: it executes no further instruction and the kernel
    has already cleared its id (only the futex wake may be outstanding) *)
Definition finished (s : st) (j : nat) : Prop :=
  t_pc (T s j) = Dead \/ exists a, t_pc (T s j) = KWake a.
(** the kernel is completely done with j *)
Definition exited (s : st) (j : nat) : Prop := t_pc (T s j) = Dead.

Definition mapped (s : st) (j : nat) : Prop := r_mapped (R s j) = true.

(** thread i has a join or detach call on j in progress *)
Definition in_call (s : st) (i j : nat) : Prop :=
  match t_pc (T s i) with
  | JLoad _ j' | JFutex _ j' _ | JSleep _ j' | JDone _ j' | JFree _ j' _ | JRet _ j' _ | DSwap j' => j' = j
  | _ => False end.

(** "thread i did e" appears in the trace *)
Definition did (tr : list label) (i : nat) (e : event) : Prop := exists acc, In (i, acc, e) tr.
Definition join_called (tr : list label) (j : nat) : Prop := exists i, did tr i (ECallJoin j).
Definition detach_called (tr : list label) (j : nat) : Prop := exists i, did tr i (ECallDetach j).
Definition join_returned (tr : list label) (j : nat) : Prop := exists i rv, did tr i (EJoin j rv).
Definition detach_returned (tr : list label) (j : nat) : Prop := exists i, did tr i (EDetach j).

(** all successful munmap calls of a trace, in order *)
Fixpoint munmaps (tr : list label) : list (Z * Z) :=
  match tr with
  | [] => []
  | (_, _, EMunmap a len) :: tr' => (a, len) :: munmaps tr'
  | _ :: tr' => munmaps tr'
  end.

(** own (non-signal-handler) steps of thread i in a trace *)
Definition own_step (i : nat) (l : label) : bool :=
  let '(a, _, e) := l in Nat.eqb a i && match e with ESignal => false | _ => true end.
Definition own_steps (i : nat) (tr : list label) : nat := length (filter (own_step i) tr).

(** every thread was created with a guard size that is a page multiple *)
Definition guards_ok (c : cfg) (s : st) : Prop :=
  forall j, (0 < j < n s)%nat -> r_guard (R s j) mod c_page c = 0.

(** the program blocks signals on detached exit if it has handlers *)
Definition signals_ok (c : cfg) : Prop := c_handlers c = true -> c_sig c = true.
