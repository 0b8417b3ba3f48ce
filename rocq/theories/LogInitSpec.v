(** Vocabulary of C80. *)
From Coq Require Import List Bool Arith.
From Verif Require Import LogInitModel.
Import ListNotations.

(** The calls of initializers and origin_main in a history, in order. *)
Definition isrun (e : lev) : bool := match e with ECall _ | EMain => true | _ => false end.
Definition runs (tr : list lev) : list lev := filter isrun tr.
(** The message that announces a call. *)
Definition announces (e : lev) : msg := match e with ECall x => MCall x | _ => MCallMain end.
(** What a user function does. *)
Definition does (a : uact) (e : ent) : Prop := match e with User _ _ l => In a l | Origin => False end.
(** One backend is chosen, and lets trace messages pass. *)
Definition chosen (c : gcfg) (k : lgr) : Prop :=
  ((k = Dbg /\ g_dbg c = true /\ g_env c = false) \/ (k = Env /\ g_env c = true /\ g_dbg c = false)) /\ g_trace c k = true.
(** Origin's own initializer, or one of priority (`.init_array.N`) 99 or less. *)
Definition upto99 (e : ent) : Prop := match e with Origin => True | User _ (Some n) _ => n <= 99 | User _ None _ => False end.
