(** Exit functions with the `log` feature: the model of DtorsModel.v with the
    log statements of src/program/linux_raw.rs and of thread exit
    (src/thread/linux_raw.rs) in their places.  The logger is a function the
    program (or a crate it uses) installed: in the model it is user code, which
    may do what any user code may, including nothing.

    The log statements of create, join and detach (596-604, 808, 842, 900) run
    the logger in the middle of a call made by user code, where what it does to
    exit functions is what that user code could have done itself; they are left
    out, as are those at startup (program/linux_raw.rs:131, 152; log.rs). *)
From Coq Require Import ZArith List Bool Lia Arith.
From Verif Require Import LayoutModel DtorsModel.
Import ListNotations.
Open Scope Z_scope.

(** The messages. *)
Inductive msg :=
| MLaunched             (* thread/linux_raw.rs:633 *)
| MReturned             (* thread/linux_raw.rs:689 *)
| MMainReturned (st : Z)(* program/linux_raw.rs:158 *)
| MCallT                (* thread/linux_raw.rs:783 *)
| MCallP                (* program/linux_raw.rs:282 *)
| MCallF (k : nat)      (* program/linux_raw.rs:319 *)
| MThreadExiting        (* thread/linux_raw.rs:718, 749 *)
| MExiting (st : Z).    (* program/linux_raw.rs:334 *)

(** Activation frames: those of DtorsModel.v, and
    - [LSay m]: about to log [m]; [LLog m]: the logger is running;
    - [LCall f]: call_dtors has popped [f] (780) and is about to call it (790);
    - [LFini st k]: exit(st) is about to call entry [k] (321);
    - [LMain st]: origin_main returned [st] (155), about to call exit (162);
    - [LEnd]: thread exit after call_dtors (700-764);
    - [LTerm st]: immediate_exit(st) is about to call exit_group (337). *)
Inductive lframe :=
| LF (fr : frame)
| LSay (m : msg) | LLog (m : msg)
| LCall (f : fid) | LFini (st : Z) (k : nat) | LMain (st : Z) | LEnd | LTerm (st : Z).

(** Configuration: as in DtorsModel.v, and the `log` feature (with trace
    messages enabled). *)
Record lcfg := LCfg { l_dtors : dcfg; l_log : bool }.

(** As [dst]. *)
Record lst := LSt {
  lfr : nat -> list lframe;
  ltdt : nat -> list fid;
  lpdt : list fid;
  llk : option nat;
  lnextf : fid;
  lnthr : nat;
  lterm : option outcome }.

(** Events: those of DtorsModel.v ([Ev]); a function taken off the thread's
    list; a message is logged; the logger computes, and returns; other steps. *)
Inductive lev := Ev (e : event) | TakeT (f : fid) | Say (m : msg) | LogNop | LogDone | Tau.

Definition lset (s : lst) (t : nat) (fs : list lframe) : lst :=
  LSt (dupd (lfr s) t fs) (ltdt s) (lpdt s) (llk s) (lnextf s) (lnthr s) (lterm s).
Definition lset_tdt (s : lst) (t : nat) (l : list fid) : lst :=
  LSt (lfr s) (dupd (ltdt s) t l) (lpdt s) (llk s) (lnextf s) (lnthr s) (lterm s).
Definition lset_pdt (s : lst) (l : list fid) : lst :=
  LSt (lfr s) (ltdt s) l (llk s) (lnextf s) (lnthr s) (lterm s).
Definition lset_lk (s : lst) (o : option nat) : lst :=
  LSt (lfr s) (ltdt s) (lpdt s) o (lnextf s) (lnthr s) (lterm s).
Definition lbump (s : lst) : lst :=
  LSt (lfr s) (ltdt s) (lpdt s) (llk s) (S (lnextf s)) (lnthr s) (lterm s).
Definition lfinish (s : lst) (o : outcome) : lst :=
  LSt (lfr s) (ltdt s) (lpdt s) (llk s) (lnextf s) (lnthr s) (Some o).

(** `#[cfg(feature = "log")] log::trace!(..)`, then [fs]. *)
Definition say (c : lcfg) (m : msg) (fs : list lframe) : list lframe := if l_log c then LSay m :: fs else fs.

(** A new thread: `entry` logs and calls the thread function
    (thread/linux_raw.rs:633-678). *)
Definition lspawn (c : lcfg) (s : lst) : lst :=
  LSt (dupd (lfr s) (lnthr s) (say c MLaunched [LF (FUser WThread)])) (dupd (ltdt s) (lnthr s) []) (lpdt s) (llk s) (lnextf s) (S (lnthr s)) (lterm s).

(** [DTORS.lock()], as in DtorsModel.v. *)
Definition ltry_lock (c : dcfg) (s : lst) (t : nat) : option lst :=
  if c_thread c then match llk s with None => Some (lset_lk s (Some t)) | Some _ => None end
  else Some s.
Definition lunlock (c : dcfg) (s : lst) : lst := if c_thread c then lset_lk s None else s.

(** User code, or the logger, in the top frame [top] takes action [a]: calls
    (as [user_step] of DtorsModel.v). *)
Definition lcall_step (c : lcfg) (s : lst) (t : nat) (top : lframe) (fs : list lframe) (a : action)
  : option (lev * lst) :=
  let d := l_dtors c in
  match a with
  | ARegT => if c_tae d
             then Some (Ev (RegT (lnextf s)), lbump (lset_tdt s t (lnextf s :: ltdt s t)))
             else None
  | ARegP => if c_pae d
             then Some (Ev (BeginP (lnextf s)), lbump (lset s t (LF (FLock (lnextf s)) :: top :: fs)))
             else None
  | AExit st => Some (Ev (ExitCall st), lset s t (LF (FX st (first_phase d)) :: top :: fs))
  | AImm st => Some (Ev (ImmCall st), lset s t (LF (FImm st) :: top :: fs))
  | ATrap => Some (Ev TrapCall, lset s t (LF FTrap :: top :: fs))
  | ASpawn => if c_thread d then Some (Ev (Spawn (lnthr s)), lspawn c s) else None
  | _ => None
  end.
(** The same, with computing and returning. *)
Definition luser_step (c : lcfg) (s : lst) (t : nat) (w : who) (fs : list lframe) (a : action) : option (lev * lst) :=
  match a with
  | ANop => Some (Ev Nop, s)
  | ARet st =>
      match w with
      (* program/linux_raw.rs:155-158 *)
      | WMain => Some (Tau, lset s t (say c (MMainReturned st) (LMain st :: fs)))
      (* thread/linux_raw.rs:678-694 *)
      | WThread => Some (Ev (Ret w), lset s t (say c MReturned (LF FDtors :: fs)))
      | _ => Some (Ev (Ret w), lset s t fs)
      end
  | _ => lcall_step c s t (LF (FUser w)) fs a
  end.
Definition llog_step (c : lcfg) (s : lst) (t : nat) (m : msg) (fs : list lframe) (a : action) : option (lev * lst) :=
  match a with
  | ANop => Some (LogNop, s)
  | ARet _ => Some (LogDone, lset s t fs)
  | _ => lcall_step c s t (LLog m) fs a
  end.

(** The next step of origin's code in the top frame. *)
Definition lorigin_step (c : lcfg) (s : lst) (t : nat) (top : lframe) (fs : list lframe) : option (lev * lst) :=
  let d := l_dtors c in
  match top with
  | LF (FUser _) | LLog _ => None
  | LSay m => Some (Say m, lset s t (LLog m :: fs))
  (* thread/linux_raw.rs:790 *)
  | LCall f => Some (Ev (CallT f), lset s t (LF (FUser (WT f)) :: fs))
  (* program/linux_raw.rs:321 *)
  | LFini st k => Some (Ev (CallF k), lset s t (LF (FUser (WF k)) :: LF (FX st (XFini k)) :: fs))
  (* program/linux_raw.rs:162 *)
  | LMain st => Some (Ev (ExitCall st), lset s t (LF (FX st (first_phase d)) :: fs))
  (* thread/linux_raw.rs:700-764 *)
  | LEnd => Some (Ev ThreadDone, lset s t [])
  (* program/linux_raw.rs:337 *)
  | LTerm st => Some (Ev (Term (Exited st)), lfinish s (Exited st))
  (* program/linux_raw.rs:249-257 *)
  | LF (FLock f) => match ltry_lock d s t with
                    | Some s' => Some (Ev Lock, lset s' t (LF (FPush f) :: fs))
                    | None => None
                    end
  | LF (FPush f) => Some (Ev (RegP f), lset (lset_pdt s (f :: lpdt s)) t (LF FUnlock :: fs))
  | LF FUnlock => Some (Ev EndP, lset (lunlock d s) t fs)
  (* thread/linux_raw.rs:780-790; 700-764 *)
  | LF FDtors =>
      match (if c_tae d then ltdt s t else []) with
      | f :: l => Some (TakeT f, lset (lset_tdt s t l) t (say c MCallT (LCall f :: LF FDtors :: fs)))
      | [] => Some (Tau, lset s t (say c MThreadExiting (LEnd :: fs)))
      end
  (* program/linux_raw.rs:264 *)
  | LF (FX st XT) =>
      match ltdt s t with
      | f :: l => Some (TakeT f, lset (lset_tdt s t l) t (say c MCallT (LCall f :: LF (FX st XT) :: fs)))
      | [] => Some (Ev Nop, lset s t (LF (FX st (after_t d)) :: fs))
      end
  (* 272 *)
  | LF (FX st XLock) => match ltry_lock d s t with
                        | Some s' => Some (Ev Lock, lset s' t (LF (FX st XPop) :: fs))
                        | None => None
                        end
  (* 277, 285-291 *)
  | LF (FX st XPop) =>
      match lpdt s with
      | f :: l => Some (Ev (Take f), lset (lset_pdt s l) t (LF (FX st (XUnlock f)) :: fs))
      | [] => Some (Ev Empty, lset s t (LF (FX st (XFini (nfini d))) :: fs))
      end
  (* 279-284 *)
  | LF (FX st (XUnlock f)) => Some (Ev Unlock, lset (lunlock d s) t (say c MCallP (LF (FX st (XCall f)) :: fs)))
  | LF (FX st (XCall f)) => Some (Ev (CallP f), lset s t (LF (FUser (WP f)) :: LF (FX st XLock) :: fs))
  (* 315-319 *)
  | LF (FX st (XFini (S k))) => Some (Tau, lset s t (say c (MCallF k) (LFini st k :: fs)))
  (* 327, 334 *)
  | LF (FX st (XFini O)) => Some (Tau, lset s t (say c (MExiting st) (LTerm st :: LF (FX st (XFini O)) :: fs)))
  | LF (FImm st) => Some (Tau, lset s t (say c (MExiting st) (LTerm st :: LF (FImm st) :: fs)))
  | LF FTrap => let o := Killed (linux_signal (trap_insn (c_arch d))) in Some (Ev (Term o), lfinish s o)
  end.

(** One step of thread [t]. *)
Definition lstep (c : lcfg) (s : lst) (t : nat) (a : action) : option (lev * lst) :=
  match lterm s with
  | Some _ => None
  | None =>
      match lfr s t with
      | [] => None
      | LF (FUser w) :: fs => luser_step c s t w fs a
      | LLog m :: fs => llog_step c s t m fs a
      | fr :: fs => match a with AGo => lorigin_step c s t fr fs | _ => None end
      end
  end.

Definition linit : lst :=
  LSt (dupd (fun _ => []) 0%nat [LF (FUser WMain)]) (fun _ => []) [] None 0%nat 1%nat None.

Definition ltrace := list (nat * lev).
Inductive lexec (c : lcfg) : ltrace -> lst -> Prop :=
| lx_init : lexec c [] linit
| lx_step : forall tr s t a e s',
    lexec c tr s -> lstep c s t a = Some (e, s') -> lexec c (tr ++ [(t, e)]) s'.

(** Running a schedule (used for concrete examples). *)
Fixpoint lplay (c : lcfg) (s : lst) (tr : ltrace) (l : list (nat * action)) : option (ltrace * lst) :=
  match l with
  | [] => Some (tr, s)
  | (t, a) :: l' =>
      match lstep c s t a with
      | Some (e, s') => lplay c s' (tr ++ [(t, e)]) l'
      | None => None
      end
  end.
