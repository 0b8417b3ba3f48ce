(** Fair infinite executions of the thread model: the vocabulary of C68. *)
From Coq Require Import ZArith List Bool Lia Arith.
From Verif Require Import ThreadModel ThreadSpec.
Import ListNotations.
Open Scope Z_scope.

(** A thread of which no step is ever demanded: it runs user code (which may
    compute for ever), sleeps in the kernel's futex queue (nothing but a wake-up
    need ever move it: interrupted sleeps are possible, never promised), is
    gone, or has panicked. *)
Definition idle (s : st) (i : nat) : Prop :=
  match t_pc (T s i) with Run | JSleep _ _ | Dead | Panicked => True | _ => False end.

(** In the [k]th step, thread [i] itself moves (signal handlers do not count). *)
Definition moves (la : nat -> option label) (i k : nat) : Prop :=
  match la k with Some l => own_step i l = true | None => False end.

(** An infinite execution from process start: state [si k], then step [la k]
    ([None]: nothing happens).  It is fair: at any time, every thread inside one
    of origin's functions, or being taken down by the kernel, will move or get
    idle.  Nothing else is assumed of the schedule. *)
Record fair (c : cfg) (si : nat -> st) (la : nat -> option label) : Prop := Fair {
  f_start : initial (si 0%nat);
  f_step : forall k, match la k with Some l => step c (si k) l (si (S k)) | None => si (S k) = si k end;
  f_fair : forall i k, exists k', (k <= k')%nat /\ (moves la i k' \/ idle (si k') i) }.

(** The first [k] steps. *)
Fixpoint upto (la : nat -> option label) (k : nat) : list label :=
  match k with
  | O => []
  | S k' => upto la k' ++ match la k' with Some l => [l] | None => [] end
  end.

(** Thread [i] did [e] in step [k]. *)
Definition at_step (la : nat -> option label) (k i : nat) (e : event) : Prop := exists acc, la k = Some (i, acc, e).
