(** Panics in exit functions: the model of DtorsModel.v, where user code may
    also panic.

    A panic of a function called by program::exit unwinds through
    thread::call_dtors (thread/linux_raw.rs:772-791) and program::exit
    (program/linux_raw.rs:261-327), which are Rust functions without cleanup of
    their own at that point: the popped `func` was moved into the call and the
    guard of DTORS was dropped before it (279).  It arrives in the user code
    that called exit, which may catch it (and goes on) or not (and then panics
    itself: the same step again).

    A panic cannot leave an `extern "C"` function: the process is aborted.
    These are: program `entry` (program/linux_raw.rs:49), which calls
    origin_main and then exit; thread `entry` (thread/linux_raw.rs:627), which
    calls the thread function and thread exit; and the functions of .fini_array
    (`type FiniFn = extern "C" fn()`, program/linux_raw.rs:308).

    Assumed of Rust: that is what panics do with panic=unwind; the abort is
    std's (SIGABRT = 6), or whatever the program's panic handler does instead.
    Panics while panicking abort as well and are not modelled, nor is a failing
    allocation in `push`. *)
From Coq Require Import ZArith List Bool Lia Arith.
From Verif Require Import LayoutModel DtorsModel.
Import ListNotations.
Open Scope Z_scope.

Inductive paction := PA (a : action) | PPanic.
(** Events: those of DtorsModel.v; function [w] is left by a panic; the process
    is aborted. *)
Inductive pev := PEv (e : event) | Unwound (w : who) | Aborted.

(** The frames left after a panic in [FUser w] on top of [fs]; None: abort. *)
Definition unwind (w : who) (fs : list frame) : option (list frame) :=
  match w with
  | WT _ | WP _ => match fs with
                   | FX _ _ :: FUser w' :: fs' => Some (FUser w' :: fs')
                   | _ => None
                   end
  | _ => None
  end.

Definition pstep (c : dcfg) (s : dst) (t : nat) (a : paction) : option (pev * dst) :=
  match a with
  | PA a => match dstep c s t a with Some (e, s') => Some (PEv e, s') | None => None end
  | PPanic =>
      match term s with
      | Some _ => None
      | None =>
          match frames s t with
          | FUser w :: fs =>
              match unwind w fs with
              | Some fs' => Some (Unwound w, set_frames s t fs')
              | None => Some (Aborted, finish s (Killed 6))
              end
          | _ => None
          end
      end
  end.

Definition ptrace := list (nat * pev).
Inductive pexec (c : dcfg) : ptrace -> dst -> Prop :=
| px_init : pexec c [] dinit
| px_step : forall tr s t a e s',
    pexec c tr s -> pstep c s t a = Some (e, s') -> pexec c (tr ++ [(t, e)]) s'.

(** Running a schedule (used for concrete examples). *)
Fixpoint pplay (c : dcfg) (s : dst) (tr : ptrace) (l : list (nat * paction)) : option (ptrace * dst) :=
  match l with
  | [] => Some (tr, s)
  | (t, a) :: l' =>
      match pstep c s t a with
      | Some (e, s') => pplay c s' (tr ++ [(t, e)]) l'
      | None => None
      end
  end.
