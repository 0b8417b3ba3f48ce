(** Programs as their authors write them, run by the model of a whole program
    (ProcModel.v).

    A [prog] is user code that touches origin in five ways: it registers exit
    functions (themselves such programs), runs a function in a new thread and
    joins it, ends the process, returns, and computes in between.  The programs
    of example-crates/*/src/main.rs and most of test-crates/origin-start/src/bin
    are of this form.  ProcModel.v lets user code make any call at any time;
    here each thread makes the calls its program says ([follows]), in any
    interleaving the model allows. *)
From Coq Require Import ZArith List Bool Arith.
From Verif Require Import ThreadModel ByteModel DtorsModel ProcModel.
Import ListNotations.
Open Scope Z_scope.

Section Script.
(** The program's own memory (static variables). *)
Context {D : Type}.

Inductive prog :=
| Return (v : Z)                                  (* return v *)
| Do (g : D -> D * list Z) (k : D -> prog)        (* compute, print some numbers, go on *)
| AtThreadExit (f k : prog)                       (* thread::at_exit(Box::new(f)); k *)
| AtProgramExit (f k : prog)                      (* program::at_exit(Box::new(f)); k *)
| CallThread (f : prog) (k : Z -> prog)           (* k(thread::join(thread::create(f, ..).unwrap())) *)
| Exit (status : Z)                               (* program::exit(status) *)
| ImmediateExit (status : Z)                      (* program::immediate_exit(status) *)
| Trap.                                           (* program::trap() *)

(** What one activation of user code (of origin_main, a thread function or an
    exit function: [w]) still has to do: run, join thread [j] and go on, is
    waiting in join, or never continues (it called exit). *)
Inductive ukont :=
| URun (w : who) (p : prog)
| UJoin (w : who) (j : nat) (k : Z -> prog)
| UWait (w : who) (j : nat) (k : Z -> prog)
| UGone.

(** All activations (innermost first) of all threads, the code of registered
    exit functions, the static variables, the output so far. *)
Record mach := Mach { konts : nat -> list ukont; reg : fid -> prog; data : D; out : list Z }.
Definition kset (m : mach) (t : nat) (l : list ukont) : mach := Mach (dupd (konts m) t l) (reg m) (data m) (out m).
Definition rset (m : mach) (f : fid) (p : prog) : mach := Mach (konts m) (dupd (reg m) f p) (data m) (out m).

(** The code of .fini_array entries, and the main function. *)
Variables (fini : nat -> prog) (main : prog) (d0 : D).

(** Events of the whole program that are calls, or returns, of user code. *)
Inductive follows (m : mach) : pevent -> mach -> Prop :=
| f_user : follows m PUser m
| f_calljoin i ins w j k r : konts m i = UJoin w j k :: r ->
    follows m (PLife (i, ins, ECallJoin j)) (kset m i (UWait w j k :: r))
| f_join i ins w j v k r : konts m i = UWait w j k :: r ->
    follows m (PLife (i, ins, EJoin j v)) (kset m i (URun w (k v) :: r))
| f_life i ins x : api_call x = false -> (forall j v, x <> EJoin j v) ->
    follows m (PLife (i, ins, x)) m
| f_regt t w f q k r : konts m t = URun w (AtThreadExit q k) :: r ->
    follows m (PFns t (RegT f)) (rset (kset m t (URun w k :: r)) f q)
| f_regp t w f q k r : konts m t = URun w (AtProgramExit q k) :: r ->
    follows m (PFns t (BeginP f)) (rset (kset m t (URun w k :: r)) f q)
| f_callt t f : follows m (PFns t (CallT f)) (kset m t (URun (WT f) (reg m f) :: konts m t))
| f_callp t f : follows m (PFns t (CallP f)) (kset m t (URun (WP f) (reg m f) :: konts m t))
| f_callf t k : follows m (PFns t (CallF k)) (kset m t (URun (WF k) (fini k) :: konts m t))
| f_ret t w v r : konts m t = URun w (Return v) :: r -> follows m (PFns t (Ret w)) (kset m t r)
| f_exit t w st r : konts m t = URun w (Exit st) :: r -> follows m (PFns t (ExitCall st)) (kset m t (UGone :: r))
(* origin_main returned *)
| f_main t st r : konts m t = URun WMain (Return st) :: r -> follows m (PFns t (ExitCall st)) (kset m t (UGone :: r))
| f_imm t w st r : konts m t = URun w (ImmediateExit st) :: r -> follows m (PFns t (ImmCall st)) (kset m t (UGone :: r))
| f_trap t w r : konts m t = URun w Trap :: r -> follows m (PFns t TrapCall) (kset m t (UGone :: r))
(* steps of origin's own code *)
| f_fns t x : match x with Nop | RegP _ | EndP | Lock | Take _ | Unlock | Empty | Term _ => True | _ => False end ->
    follows m (PFns t x) m
| f_returns t v r : konts m t = URun WThread (Return v) :: r -> follows m (PReturns t v) (kset m t r)
| f_create i ins w j f k r : konts m i = URun w (CallThread f k) :: r ->
    follows m (PCreate i ins j) (kset (kset m i (UJoin w j k :: r)) j [URun WThread f])
| f_done t ins v : follows m (PDone t ins v) m.

(** Executions of the program from process start; computing is a step of its own. *)
Inductive srun (e : benv) (c : dcfg) : list pevent -> pst -> mach -> Prop :=
| sr_init b : bstarts e b ->
    srun e c [] (PSt b dinit (fun _ => 0)) (Mach (dupd (fun _ => []) 0%nat [URun WMain main]) (fun _ => Return 0) d0 [])
| sr_step tr s m x s' m' : srun e c tr s m -> pstep e c s x s' -> follows m x m' -> srun e c (tr ++ [x]) s' m'
| sr_do tr s m t w g k r : srun e c tr s m -> term (fns s) = None -> in_user (fns s) t -> t_pc (bT (life s) t) = Run ->
    konts m t = URun w (Do g k) :: r ->
    srun e c tr s (Mach (dupd (konts m) t (URun w (k (fst (g (data m)))) :: r)) (reg m) (fst (g (data m))) (out m ++ snd (g (data m)))).
End Script.
Arguments prog : clear implicits.
Arguments ukont : clear implicits.
Arguments mach : clear implicits.
