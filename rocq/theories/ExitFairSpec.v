(** Fair infinite executions of the exit-function model: the vocabulary of C70. *)
From Coq Require Import ZArith List Bool Arith.
From Verif Require Import DtorsModel.
Import ListNotations.

(** The process has ended. *)
Definition over (s : dst) : Prop := term s <> None.
(** Thread [t] is gone (or was never started). *)
Definition gone (s : dst) (t : nat) : Prop := frames s t = [].
(** Thread [t] runs user code [w]: main, a thread function or an exit function. *)
Definition running (s : dst) (t : nat) (w : who) : Prop := exists l, frames s t = FUser w :: l.
(** Thread [t] waits for the lock of the program's list of exit functions,
    which some thread holds. *)
Definition blocked (c : dcfg) (s : dst) (t : nat) : Prop :=
  c_thread c = true /\ lk s <> None /\
  ((exists f l, frames s t = FLock f :: l) \/ (exists st l, frames s t = FX st XLock :: l)).

(** In step [k] thread [t] does [e]. *)
Definition does (la : nat -> option (nat * event)) (k t : nat) (e : event) : Prop := la k = Some (t, e).

(** An infinite execution from process start ([None]: nothing happens) in which
    every thread that can run inside origin's code eventually runs.  The lock
    need not be fair: of the threads that wait for it any one may get it. *)
Record exit_fair (c : dcfg) (si : nat -> dst) (la : nat -> option (nat * event)) : Prop := ExitFair {
  x_start : si 0%nat = dinit;
  x_step : forall k, match la k with
                     | Some (t, e) => exists a, dstep c (si k) t a = Some (e, si (S k))
                     | None => si (S k) = si k
                     end;
  x_fair : forall t k, exists k', (k <= k')%nat /\
     ((exists e, does la k' t e) \/ over (si k') \/ gone (si k') t \/ (exists w, running (si k') t w) \/ blocked c (si k') t) }.

Definition exit_function (w : who) : Prop := match w with WT _ | WP _ | WF _ => True | _ => False end.

(** What is asked of the user's code:
    - an exit function (or .fini_array entry) does not run for ever without
      doing anything that concerns exit functions: it returns, or registers,
      or ends the process, ..;
    - registrations and new threads come to an end;
    - .fini_array entries call neither program::at_exit nor exit (C36: they
      would wait for a lock their own thread holds). *)
Record well_behaved (si : nat -> dst) (la : nat -> option (nat * event)) : Prop := WellBehaved {
  b_return : forall t k w, running (si k) t w -> exit_function w ->
     exists k', (k <= k')%nat /\ (over (si k') \/ exists e, does la k' t e /\ e <> Nop);
  b_finite : exists N, forall k t e, (N <= k)%nat -> does la k t e ->
     match e with RegT _ | BeginP _ | Spawn _ => False | _ => True end;
  b_fini : forall k t j e, running (si k) t (WF j) -> does la k t e ->
     match e with BeginP _ | ExitCall _ => False | _ => True end }.
