(** Fair infinite executions of the model on bytes: the vocabulary of C68's
    theorems about bytes. *)
From Coq Require Import ZArith List Bool.
From Verif Require Import ThreadModel FairSpec ByteModel.
Import ListNotations.
Open Scope Z_scope.

(** As [idle] of FairSpec.v: user code, asleep in the kernel, gone, panicked. *)
Definition bidle (b : bst) (i : nat) : Prop :=
  match t_pc (bT b i) with Run | JSleep _ _ | Dead | Panicked => True | _ => False end.

(** An infinite execution from process start: memory and threads [bi k], then
    step [la k]; [None]: nothing happens, or user code writes to memory.  It is
    fair: at any time, every thread inside one of origin's functions, or being
    taken down by the kernel, will move or get idle. *)
Record bfair (e : benv) (bi : nat -> bst) (la : nat -> option label) : Prop := BFair {
  bf_start : bstarts e (bi 0%nat);
  bf_step : forall k, (la k = None /\ bi (S k) = bi k) \/ exists acc, bstep e (bi k) acc (la k) (bi (S k));
  bf_fair : forall i k, exists k', (k <= k')%nat /\ (moves la i k' \/ bidle (bi k') i) }.
