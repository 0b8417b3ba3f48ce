(** Model of exit functions: thread::at_exit, program::at_exit, .fini_array,
    program::exit, immediate_exit, trap and the part of thread exit that calls
    the functions registered for the thread (src/program/linux_raw.rs,
    src/thread/linux_raw.rs).

    Any number of threads run interleaved, one step at a time.  Each thread
    has a stack of activation frames, so that exit functions that register
    more functions or call exit again are covered.  User code is arbitrary: in
    a user frame every API call is possible at every moment.  Not modelled
    here: unwinding out of a user function (PanicModel.v), the log calls
    (DLogModel.v); and, at all, out-of-memory in `push`. *)
From Coq Require Import ZArith List Bool Lia Arith.
From Verif Require Import LayoutModel.
Import ListNotations.
Open Scope Z_scope.

(** A registered `Box<dyn FnOnce()>`: every registration is a distinct box. *)
Definition fid := nat.

(** What a user frame is running: the main thread's code up to and including
    origin_main (program/linux_raw.rs:106-155), a thread function
    (thread/linux_raw.rs:676-678), a thread::at_exit function, a
    program::at_exit function, or entry [k] of .fini_array. *)
Inductive who := WMain | WThread | WT (f : fid) | WP (f : fid) | WF (k : nat).

(** Where program::exit (program/linux_raw.rs:261-327) is:
    - [XT]: call_dtors of the calling thread (264);
    - [XLock]: about to lock DTORS (272);
    - [XPop]: about to pop (277);
    - [XUnlock f]: popped [f], about to drop the guard (279);
    - [XCall f]: about to call [f] (284);
    - [XFini k]: in the .fini_array loop with [k] entries left (315-322). *)
Inductive xphase := XT | XLock | XPop | XUnlock (f : fid) | XCall (f : fid) | XFini (k : nat).

(** Activation frames.
    - [FLock f], [FPush f], [FUnlock]: inside program::at_exit (249-257):
      lock, push, drop of the guard;
    - [FDtors]: thread::exit in call_dtors (thread/linux_raw.rs:684-698, 772-791);
    - [FX status p]: program::exit(status);
    - [FImm status]: immediate_exit (332-338); [FTrap]: trap (346-348). *)
Inductive frame :=
| FUser (w : who)
| FLock (f : fid) | FPush (f : fid) | FUnlock
| FDtors
| FX (status : Z) (p : xphase)
| FImm (status : Z) | FTrap.

(** How the process ended. *)
Inductive outcome := Exited (status : Z) | Killed (signal : Z).

(** Features (Cargo.toml:92-113) the number of .fini_array entries and the target. *)
Record dcfg := DCfg { c_thread : bool; c_tae : bool; c_pae : bool; c_fini : bool; c_nfini : nat; c_arch : arch }.

(** `thread-at-exit` implies `thread` (Cargo.toml:113); nothing below needs
    that, so every theorem covers every combination. *)

(** The entries of .fini_array the code calls: none without the feature
    (program/linux_raw.rs:295). *)
Definition nfini (c : dcfg) : nat := if c_fini c then c_nfini c else 0%nat.

(** Process state: frames per thread (empty: never started or exited),
    `ThreadData::dtors` per thread (thread/linux_raw.rs:105; head = last
    pushed), DTORS (program/linux_raw.rs:228-244; head = last pushed), the
    holder of its lock, the next box and the next thread index, and the
    outcome once the process has ended. *)
Record dst := DSt {
  frames : nat -> list frame;
  tdt : nat -> list fid;
  pdt : list fid;
  lk : option nat;
  nextf : fid;
  nthr : nat;
  term : option outcome }.

(** What user code may do next. *)
Inductive action :=
| ANop                     (* anything that does not involve exit functions *)
| ARegT                    (* thread::at_exit(Box::new(..)) *)
| ARegP                    (* program::at_exit(Box::new(..)) *)
| AExit (status : Z)       (* program::exit(status) *)
| AImm (status : Z)        (* program::immediate_exit(status) *)
| ATrap                    (* program::trap() *)
| ASpawn                   (* thread::create(..) *)
| ARet (status : Z)        (* return; [status] matters only for origin_main *)
| AGo.                     (* next step of origin's code *)

(** Events. [RegP f] is the push, [Take f] the pop. *)
Inductive event :=
| Nop
| RegT (f : fid) | BeginP (f : fid) | RegP (f : fid) | EndP
| Lock | Take (f : fid) | Unlock
| CallT (f : fid) | CallP (f : fid) | CallF (k : nat)
| Ret (w : who)
| ExitCall (status : Z) | ImmCall (status : Z) | TrapCall
| Spawn (u : nat) | ThreadDone
| Empty
| Term (o : outcome).

(** The instruction of arch::trap: x86_64.rs:55-59, x86.rs:62-66,
    aarch64.rs:55-59, arm.rs:55-59 (0xe7ffdefe is a `udf`), riscv64.rs:53-57. *)
Inductive trapinsn := Ud2 | Brk1 | Udf | Unimp.
Definition trap_insn (a : arch) : trapinsn :=
  match a with X86_64 | X86 => Ud2 | Aarch64 => Brk1 | Arm => Udf | Riscv64 => Unimp end.

(** The signal Linux raises for it: SIGILL = 4 for an undefined instruction,
    SIGTRAP = 5 for a64 `brk` (arch/arm64/kernel/debug-monitors.c,
    brk_handler).  The default action of both kills the process; a program
    that handles or ignores the signal is not modelled. *)
Definition linux_signal (i : trapinsn) : Z := match i with Brk1 => 5 | _ => 4 end.

Definition dupd {A} (f : nat -> A) (i : nat) (v : A) : nat -> A :=
  fun x => if Nat.eqb x i then v else f x.

Definition set_frames (s : dst) (t : nat) (fs : list frame) : dst :=
  DSt (dupd (frames s) t fs) (tdt s) (pdt s) (lk s) (nextf s) (nthr s) (term s).
Definition set_tdt (s : dst) (t : nat) (l : list fid) : dst :=
  DSt (frames s) (dupd (tdt s) t l) (pdt s) (lk s) (nextf s) (nthr s) (term s).
Definition set_pdt (s : dst) (l : list fid) : dst :=
  DSt (frames s) (tdt s) l (lk s) (nextf s) (nthr s) (term s).
Definition set_lk (s : dst) (o : option nat) : dst :=
  DSt (frames s) (tdt s) (pdt s) o (nextf s) (nthr s) (term s).
Definition bump (s : dst) : dst :=
  DSt (frames s) (tdt s) (pdt s) (lk s) (S (nextf s)) (nthr s) (term s).
Definition spawn (s : dst) : dst :=
  DSt (dupd (frames s) (nthr s) [FUser WThread]) (dupd (tdt s) (nthr s) []) (pdt s) (lk s) (nextf s) (S (nthr s)) (term s).
Definition finish (s : dst) (o : outcome) : dst :=
  DSt (frames s) (tdt s) (pdt s) (lk s) (nextf s) (nthr s) (Some o).

(** program/linux_raw.rs:262-270: which phase follows the thread's own
    functions, according to the features. *)
Definition after_t (c : dcfg) : xphase := if c_pae c then XLock else XFini (nfini c).
(** 263-264: exit starts with call_dtors only with `thread-at-exit`. *)
Definition first_phase (c : dcfg) : xphase := if c_tae c then XT else after_t c.

(** `DTORS.lock()`: with `thread` a futex mutex, not reentrant (228-229); a
    locker waits (no step) while it is held.  Without, a plain access
    (232-244). *)
Definition try_lock (c : dcfg) (s : dst) (t : nat) : option dst :=
  if c_thread c then match lk s with None => Some (set_lk s (Some t)) | Some _ => None end
  else Some s.
Definition unlock (c : dcfg) (s : dst) : dst := if c_thread c then set_lk s None else s.

(** User code in frame [FUser w], on top of [fs], takes action [a]. *)
Definition user_step (c : dcfg) (s : dst) (t : nat) (w : who) (fs : list frame) (a : action)
  : option (event * dst) :=
  match a with
  | ANop => Some (Nop, s)
  (* thread/linux_raw.rs:930-938 *)
  | ARegT => if c_tae c
             then Some (RegT (nextf s), bump (set_tdt s t (nextf s :: tdt s t)))
             else None
  (* program/linux_raw.rs:249-257 *)
  | ARegP => if c_pae c
             then Some (BeginP (nextf s), bump (set_frames s t (FLock (nextf s) :: FUser w :: fs)))
             else None
  | AExit st => Some (ExitCall st, set_frames s t (FX st (first_phase c) :: FUser w :: fs))
  | AImm st => Some (ImmCall st, set_frames s t (FImm st :: FUser w :: fs))
  | ATrap => Some (TrapCall, set_frames s t (FTrap :: FUser w :: fs))
  | ASpawn => if c_thread c then Some (Spawn (nthr s), spawn s) else None
  | ARet st =>
      match w with
      (* program/linux_raw.rs:155-162: `let status = origin_main(..); exit(status)` *)
      | WMain => Some (ExitCall st, set_frames s t (FX st (first_phase c) :: fs))
      (* thread/linux_raw.rs:678-680: `let return_value = fn_(args); exit(return_value)` *)
      | WThread => Some (Ret w, set_frames s t (FDtors :: fs))
      | _ => Some (Ret w, set_frames s t fs)
      end
  | AGo => None
  end.

(** The next step of origin's code in the top frame. *)
Definition origin_step (c : dcfg) (s : dst) (t : nat) (fr : frame) (fs : list frame)
  : option (event * dst) :=
  match fr with
  | FUser _ => None
  | FLock f => match try_lock c s t with
               | Some s' => Some (Lock, set_frames s' t (FPush f :: fs))
               | None => None
               end
  | FPush f => Some (RegP f, set_frames (set_pdt s (f :: pdt s)) t (FUnlock :: fs))
  | FUnlock => Some (EndP, set_frames (unlock c s) t fs)
  (* thread/linux_raw.rs:780-790, then 700-764 *)
  | FDtors =>
      match (if c_tae c then tdt s t else []) with
      | f :: l => Some (CallT f, set_frames (set_tdt s t l) t (FUser (WT f) :: FDtors :: fs))
      | [] => Some (ThreadDone, set_frames s t [])
      end
  | FX st XT =>
      match tdt s t with
      | f :: l => Some (CallT f, set_frames (set_tdt s t l) t (FUser (WT f) :: FX st XT :: fs))
      | [] => Some (Nop, set_frames s t (FX st (after_t c) :: fs))
      end
  | FX st XLock => match try_lock c s t with
                   | Some s' => Some (Lock, set_frames s' t (FX st XPop :: fs))
                   | None => None
                   end
  | FX st XPop =>
      match pdt s with
      | f :: l => Some (Take f, set_frames (set_pdt s l) t (FX st (XUnlock f) :: fs))
      (* 285-291: the guard is forgotten: the lock stays held *)
      | [] => Some (Empty, set_frames s t (FX st (XFini (nfini c)) :: fs))
      end
  | FX st (XUnlock f) => Some (Unlock, set_frames (unlock c s) t (FX st (XCall f) :: fs))
  | FX st (XCall f) => Some (CallP f, set_frames s t (FUser (WP f) :: FX st XLock :: fs))
  | FX st (XFini (S k)) => Some (CallF k, set_frames s t (FUser (WF k) :: FX st (XFini k) :: fs))
  | FX st (XFini O) => Some (Term (Exited st), finish s (Exited st))
  | FImm st => Some (Term (Exited st), finish s (Exited st))
  | FTrap => let o := Killed (linux_signal (trap_insn (c_arch c))) in Some (Term o, finish s o)
  end.

(** One step of thread [t]; nothing runs once the process has ended. *)
Definition dstep (c : dcfg) (s : dst) (t : nat) (a : action) : option (event * dst) :=
  match term s with
  | Some _ => None
  | None =>
      match frames s t with
      | [] => None
      | FUser w :: fs => user_step c s t w fs a
      | fr :: fs => match a with AGo => origin_step c s t fr fs | _ => None end
      end
  end.

(** Process start: only the main thread (0), in user code, nothing registered. *)
Definition dinit : dst :=
  DSt (dupd (fun _ => []) 0%nat [FUser WMain]) (fun _ => []) [] None 0%nat 1%nat None.

(** A history: events in order, each with the thread it happened on. *)
Definition trace := list (nat * event).

Inductive exec (c : dcfg) : trace -> dst -> Prop :=
| ex_init : exec c [] dinit
| ex_step : forall tr s t a e s',
    exec c tr s -> dstep c s t a = Some (e, s') -> exec c (tr ++ [(t, e)]) s'.

(** Running a schedule (used for concrete examples). *)
Fixpoint play (c : dcfg) (s : dst) (tr : trace) (l : list (nat * action)) : option (trace * dst) :=
  match l with
  | [] => Some (tr, s)
  | (t, a) :: l' =>
      match dstep c s t a with
      | Some (e, s') => play c s' (tr ++ [(t, e)]) l'
      | None => None
      end
  end.
