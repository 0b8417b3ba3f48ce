(** What a program of ScriptModel.v means, read sequentially: no threads, no
    locks, no schedules.  This is what C71 compares every execution with. *)
From Coq Require Import ZArith List Bool Arith.
From Verif Require Import LayoutModel DtorsModel ScriptModel.
Import ListNotations.
Open Scope Z_scope.

Section Spec.
Context {D : Type}.
Variables (c : dcfg) (fini : nat -> prog D).

(** Static variables, the functions registered with thread::at_exit on the
    running thread, and those registered with program::at_exit; last
    registered first. *)
Record ust := U { ud : D; uts : list (prog D); ups : list (prog D) }.
Definition with_ts (u : ust) (l : list (prog D)) : ust := U (ud u) l (ups u).
Definition with_ps (u : ust) (l : list (prog D)) : ust := U (ud u) (uts u) l.
Definition with_d (u : ust) (d : D) : ust := U d (uts u) (ups u).

(** User code returns a value, or the process ends. *)
Inductive ures := Back (v : Z) (u : ust) | End (o : outcome).

(** .fini_array entries that are called: none without the feature. *)
Definition entries : nat := if c_fini c then c_nfini c else 0%nat.
Definition trap_signal (a : arch) : Z := match a with Aarch64 => 5 (* SIGTRAP *) | _ => 4 (* SIGILL *) end.

(** [runs h p u os r]: [p], started in [u], prints [os] and ends as [r].
    [h]: program::at_exit and program::exit can never again be called
    (.fini_array functions are running, and they would hang: there is no rule). *)
Inductive runs (h : bool) : prog D -> ust -> list Z -> ures -> Prop :=
| R_return v u : runs h (Return v) u [] (Back v u)
| R_do g k u d' o os r : g (ud u) = (d', o) -> runs h (k d') (with_d u d') os r -> runs h (Do g k) u (o ++ os) r
| R_at_thread_exit f k u os r : c_tae c = true ->
    runs h k (with_ts u (f :: uts u)) os r -> runs h (AtThreadExit f k) u os r
| R_at_program_exit f k u os r : c_pae c = true -> h = false ->
    runs h k (with_ps u (f :: ups u)) os r -> runs h (AtProgramExit f k) u os r
| R_thread f k u os1 v u1 os2 r : c_thread c = true ->
    thread h f (with_ts u []) os1 (Back v u1) -> runs h (k v) (with_ts u1 (uts u)) os2 r ->
    runs h (CallThread f k) u (os1 ++ os2) r
| R_thread_end f k u os o : c_thread c = true ->
    thread h f (with_ts u []) os (End o) -> runs h (CallThread f k) u os (End o)
| R_exit st u os o : exits h st u os o -> runs h (Exit st) u os (End o)
| R_immediate_exit st u : runs h (ImmediateExit st) u [] (End (Exited st))
| R_trap u : runs h Trap u [] (End (Killed (trap_signal (c_arch c))))
(** a thread: its function, then the functions registered on it *)
with thread (h : bool) : prog D -> ust -> list Z -> ures -> Prop :=
| T_run f u os1 v u1 os2 r : runs h f u os1 (Back v u1) -> drain h v u1 os2 r -> thread h f u (os1 ++ os2) r
| T_end f u os o : runs h f u os (End o) -> thread h f u os (End o)
(** call the functions registered with thread::at_exit, the last one first,
    until none is left; then give back [v] *)
with drain (h : bool) : Z -> ust -> list Z -> ures -> Prop :=
| D_nil v u : uts u = [] -> drain h v u [] (Back v u)
| D_fn v u f l os1 v' u1 os2 r : uts u = f :: l ->
    runs h f (with_ts u l) os1 (Back v' u1) -> drain h v u1 os2 r -> drain h v u (os1 ++ os2) r
| D_end v u f l os o : uts u = f :: l -> runs h f (with_ts u l) os (End o) -> drain h v u os (End o)
(** program::exit: the calling thread's functions, then the program's, then
    .fini_array, last entry first *)
with exits (h : bool) : Z -> ust -> list Z -> outcome -> Prop :=
| X_exit st u os1 u1 os2 o : drain h st u os1 (Back st u1) -> pops h st u1 os2 o -> exits h st u (os1 ++ os2) o
| X_end st u os o : drain h st u os (End o) -> exits h st u os o
with pops (h : bool) : Z -> ust -> list Z -> outcome -> Prop :=
| P_off st u os o : c_pae c = false -> finis h st entries u os o -> pops h st u os o
| P_nil st u os o : c_pae c = true -> h = false -> ups u = [] ->
    finis (c_thread c) st entries u os o -> pops h st u os o
| P_fn st u f l os1 v u1 os2 o : c_pae c = true -> h = false -> ups u = f :: l ->
    runs h f (with_ps u l) os1 (Back v u1) -> pops h st u1 os2 o -> pops h st u (os1 ++ os2) o
| P_end st u f l os o : c_pae c = true -> h = false -> ups u = f :: l ->
    runs h f (with_ps u l) os (End o) -> pops h st u os o
with finis (h : bool) : Z -> nat -> ust -> list Z -> outcome -> Prop :=
| F_nil st u : finis h st 0 u [] (Exited st)
| F_fn st n u os1 v u1 os2 o : runs h (fini n) u os1 (Back v u1) -> finis h st n u1 os2 o -> finis h st (S n) u (os1 ++ os2) o
| F_end st n u os o : runs h (fini n) u os (End o) -> finis h st (S n) u os o.

(** The whole program prints [os] and ends with [o]: origin_main, whose result
    is passed to exit. *)
Inductive means (main : prog D) (d0 : D) : list Z -> outcome -> Prop :=
| M_return os1 v u os2 o : runs false main (U d0 [] []) os1 (Back v u) -> exits false v u os2 o -> means main d0 (os1 ++ os2) o
| M_end os o : runs false main (U d0 [] []) os (End o) -> means main d0 os o.
(** The program uses only features it was built with; [ex]: it may call exit and
    register program exit functions. *)
Fixpoint uses (ex : bool) (p : prog D) : Prop :=
  match p with
  | Return _ | ImmediateExit _ | Trap => True
  | Do _ k => forall d, uses ex (k d)
  | AtThreadExit f k => c_tae c = true /\ uses ex f /\ uses ex k
  | AtProgramExit f k => ex = true /\ c_pae c = true /\ uses ex f /\ uses ex k
  | CallThread f k => c_thread c = true /\ uses ex f /\ forall v, uses ex (k v)
  | Exit _ => ex = true
  end.
End Spec.
