(** Stack unwinding as the Itanium C++ ABI defines it (Exception Handling,
    level I: _Unwind_RaiseException, _Unwind_Resume, _Unwind_ForcedUnwind): the
    environment of C75.  Nothing here is code of the crate; the unwinder is
    whatever library the program links. *)
From Coq Require Import ZArith List Bool String.
Import ListNotations.
Open Scope Z_scope.

(** _Unwind_Reason_Code *)
Definition FATAL_PHASE2_ERROR := 2.
Definition FATAL_PHASE1_ERROR := 3.
Definition END_OF_STACK := 5.
Definition HANDLER_FOUND := 6.
Definition INSTALL_CONTEXT := 7.
Definition CONTINUE_UNWIND := 8.
(** _Unwind_Action *)
Definition SEARCH_PHASE := 1.
Definition CLEANUP_PHASE := 2.
Definition HANDLER_FRAME := 4.
Definition FORCE_UNWIND := 8.

Section Unwind.
(** The program's state; personality routines and landing pads may change it. *)
Context {St : Type}.

(** A personality routine: version, actions, exception class, exception
    object; its answer and its effect. *)
Definition personality := Z -> Z -> Z -> Z -> St -> Z * St.
(** Where a landing pad ends: it catches, or it cleans up and resumes. *)
Inductive landing := Catches (s : St) | Resumes (s : St).
(** A frame of the stack, innermost first in lists of frames. *)
Record uframe := UFrame { u_name : nat; u_pers : personality; u_pad : St -> landing }.

(** What came of it; [Caught n]: control is in the handler of frame [n]. *)
Inductive uoutcome := Caught (n : nat) (s : St) | Returned (code : Z) (s : St).

Variables (version class exc : Z).

(** Phase 1: search for a handler.  [inl k]: found after [k] frames. *)
Fixpoint search (fs : list uframe) (s : St) : (nat + Z) * St :=
  match fs with
  | [] => (inr END_OF_STACK, s)
  | f :: r =>
      let '(code, s) := u_pers f version SEARCH_PHASE class exc s in
      if code =? HANDLER_FOUND then (inl O, s)
      else if code =? CONTINUE_UNWIND then
        let '(x, s) := search r s in (match x with inl k => inl (S k) | inr e => inr e end, s)
      else (inr FATAL_PHASE1_ERROR, s)
  end.
(** Phase 2: clean up the [k] frames before the handler's, and enter it. *)
Fixpoint cleanup (fs : list uframe) (k : nat) (s : St) : uoutcome :=
  match fs with
  | [] => Returned FATAL_PHASE2_ERROR s
  | f :: r =>
      let '(code, s) := u_pers f version (match k with O => CLEANUP_PHASE + HANDLER_FRAME | _ => CLEANUP_PHASE end) class exc s in
      if code =? INSTALL_CONTEXT then
        match u_pad f s with
        | Catches s => Caught (u_name f) s
        | Resumes s => match k with O => Returned FATAL_PHASE2_ERROR s | S k => cleanup r k s end
        end
      else if code =? CONTINUE_UNWIND then
        match k with O => Returned FATAL_PHASE2_ERROR s | S k => cleanup r k s end
      else Returned FATAL_PHASE2_ERROR s
  end.
Definition raise (fs : list uframe) (s : St) : uoutcome :=
  match search fs s with
  | (inl k, s) => cleanup fs k s
  | (inr e, s) => Returned e s
  end.
(** Forced unwinding (thread cancellation, longjmp_unwind): every frame is
    cleaned up, up to one that the stop function knows. *)
Variable stop : nat -> St -> option St.
Fixpoint forced (fs : list uframe) (s : St) : uoutcome :=
  match fs with
  | [] => Returned END_OF_STACK s
  | f :: r =>
      match stop (u_name f) s with
      | Some s => Caught (u_name f) s
      | None =>
          let '(code, s) := u_pers f version (CLEANUP_PHASE + FORCE_UNWIND) class exc s in
          if code =? INSTALL_CONTEXT then
            match u_pad f s with Catches s => Caught (u_name f) s | Resumes s => forced r s end
          else if code =? CONTINUE_UNWIND then forced r s
          else Returned FATAL_PHASE2_ERROR s
      end
  end.
End Unwind.

(** The symbols of the unwinder a program may refer to: those of the ABI that
    Rust's standard library and the compiler use; on arm also those of ARM's
    exception handling ABI (EHABI), which its libraries are compiled against. *)
Open Scope string_scope.
Open Scope list_scope.
Definition abi_symbols (arm : bool) : list string :=
  [ "_Unwind_RaiseException"; "_Unwind_Resume"; "_Unwind_DeleteException"; "_Unwind_Backtrace";
    "_Unwind_GetIP"; "_Unwind_SetIP"; "_Unwind_GetIPInfo"; "_Unwind_SetGR"; "_Unwind_GetCFA";
    "_Unwind_GetLanguageSpecificData"; "_Unwind_GetRegionStart"; "_Unwind_GetTextRelBase"; "_Unwind_GetDataRelBase";
    "_Unwind_FindEnclosingFunction" ] ++
  if arm then [ "_Unwind_VRS_Get"; "_Unwind_VRS_Set"; "__gnu_unwind_frame"; "__aeabi_unwind_cpp_pr0"; "__aeabi_unwind_cpp_pr1" ] else [].
