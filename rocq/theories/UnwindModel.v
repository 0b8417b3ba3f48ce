(** Model of src/stubs.rs and src/unwind_unimplemented.rs: what a program
    without unwinding support links. *)
From Coq Require Import ZArith List Bool String.
From Verif Require Import LayoutModel DtorsModel.
Import ListNotations.
Open Scope Z_scope.

(** stubs.rs:5-18 rust_eh_personality (feature eh-personality-continue): the
    arguments other than the version are ignored, nothing is written. *)
Definition rust_eh_personality {St} (version actions class exception : Z) (s : St) : Z * St :=
  if negb (version =? 1) then (3, s) else (8, s).

(** How a function of the crate that does not return can end. *)
Inductive diverges := TrapInsn (i : trapinsn) | NoHandler.

(** stubs.rs:21-25 panic (feature panic-handler-trap): crate::arch::trap(),
    whatever the message.  Without the feature the program's own handler runs,
    which is not origin's. *)
Definition panic_handler (trap_feature : bool) (a : arch) (message : string) : diverges :=
  if trap_feature then TrapInsn (trap_insn a) else NoHandler.

(** unwind_unimplemented.rs:6-104: every function is `unimplemented!(name)`,
    that is, a panic.  78-104: five of them on arm only. *)
Open Scope string_scope.
Definition stub_names (a : arch) : list string :=
  [ "_Unwind_Backtrace"; "_Unwind_DeleteException"; "_Unwind_GetDataRelBase"; "_Unwind_GetIP"; "_Unwind_GetIPInfo";
    "_Unwind_GetLanguageSpecificData"; "_Unwind_GetRegionStart"; "_Unwind_GetTextRelBase"; "_Unwind_RaiseException";
    "_Unwind_Resume"; "_Unwind_SetGR"; "_Unwind_SetIP"; "_Unwind_FindEnclosingFunction"; "_Unwind_GetCFA" ] ++
  match a with
  | Arm => [ "_Unwind_VRS_Get"; "_Unwind_VRS_Set"; "__aeabi_unwind_cpp_pr0"; "__aeabi_unwind_cpp_pr1"; "__gnu_unwind_frame" ]
  | _ => []
  end.
Definition call_stub (trap_feature : bool) (a : arch) (name : string) : option diverges :=
  if existsb (String.eqb name) (stub_names a) then Some (panic_handler trap_feature a ("not implemented: " ++ name)) else None.
