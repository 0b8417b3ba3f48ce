(** Starting the logger: src/log.rs and the log statements of program startup
    (src/program/linux_raw.rs:115-162, `take-charge`).

    The logger slot of the `log` crate can be filled once (log::set_logger);
    a message is recorded when the slot is full and the level lets it pass.
    All messages of origin are at trace level; so are those of user code here.

    User functions (of .init_array, and origin_main) are lists of what they do
    with logging: log a message, try to install a logger, set the level, end the
    process.  Nothing else of them matters. *)
From Coq Require Import ZArith List Bool Arith Permutation Sorted.
Import ListNotations.

(** Loggers: atomic_dbg's, env_logger's, one the program brings. *)
Inductive lgr := Dbg | Env | Own.
Inductive uact := USay (n : nat) | UInstall | ULevel (on : bool) | UEnd.

(** Entries of .init_array: origin's (log.rs:6-13), or a user function with
    its linker priority (`.init_array.N`, or None for `.init_array`). *)
Inductive ent := Origin | User (id : nat) (prio : option nat) (body : list uact).
Inductive msg :=
| MCall (e : ent)      (* program/linux_raw.rs:131 *)
| MCallMain            (* program/linux_raw.rs:152 *)
| MMainReturned        (* program/linux_raw.rs:158 *)
| MStarted             (* log.rs:27 *)
| MMainThread          (* log.rs:32 *)
| MUser (n : nat).
(** Events: a message, recorded or not; a logger is installed, or refused; an
    initializer, origin_main, is called; exit is called with origin_main's
    status, or by user code; abort by a panic in an `extern "C"` function. *)
Inductive lev := EMsg (m : msg) (recorded : bool) | EInstalled (k : lgr) | ERefused | ECall (e : ent) | EMain | EExit | EEnd | EAbort.

(** Features (Cargo.toml); and of the two backends (their code is not part of
    the project): whether their init panics when the slot is taken, and whether
    it lets trace messages pass (for env_logger, according to RUST_LOG). *)
Record gcfg := GCfg {
  g_log : bool; g_thread : bool; g_init_array : bool;
  g_dbg : bool;  (* atomic-dbg-logger *)
  g_env : bool;  (* env_logger *)
  g_panics : lgr -> bool; g_trace : lgr -> bool }.

Record gst := GSt { slot : option lgr; tron : bool }.
Definition passes (s : gst) : bool := match slot s with Some _ => tron s | None => false end.

(** Code that produces events and may end the process (None). *)
Definition out := (list lev * option gst)%type.
Definition andthen (o : out) (f : gst -> out) : out :=
  match snd o with Some s => (fst o ++ fst (f s), snd (f s)) | None => o end.
Definition ret (s : gst) : out := ([], Some s).

(** `log::trace!(..)`; with `#[cfg(feature = "log")]`. *)
Definition say (m : msg) (s : gst) : out := ([EMsg m (passes s)], Some s).
Definition csay (c : gcfg) (m : msg) (s : gst) : out := if g_log c then say m s else ret s.

Fixpoint acts (l : list uact) (s : gst) : out :=
  match l with
  | [] => ret s
  | USay n :: l => andthen (say (MUser n) s) (acts l)
  | UInstall :: l =>
      match slot s with
      | None => andthen ([EInstalled Own], Some (GSt (Some Own) (tron s))) (acts l)
      | Some _ => andthen ([ERefused], Some s) (acts l)
      end
  | ULevel b :: l => acts l (GSt (slot s) b)
  | UEnd :: _ => ([EEnd], None)
  end.

(** atomic_dbg::log::init() and env_logger::init() *)
Definition backend (c : gcfg) (k : lgr) (s : gst) : out :=
  match slot s with
  | None => ([EInstalled k], Some (GSt (Some k) (g_trace c k)))
  | Some _ => if g_panics c k then ([EAbort], None) else ret s
  end.

(** log.rs:15-37 *)
Definition init (c : gcfg) (s : gst) : out :=
  andthen ((if g_dbg c then backend c Dbg else ret) s) (fun s =>
  andthen ((if g_env c then backend c Env else ret) s) (fun s =>
  andthen (say MStarted s) (fun s => if g_thread c then say MMainThread s else ret s))).

(** program/linux_raw.rs:129-142: the .init_array loop *)
Fixpoint inits (c : gcfg) (arr : list ent) (s : gst) : out :=
  match arr with
  | [] => ret s
  | e :: arr =>
      andthen (csay c (MCall e) s) (fun s =>
      andthen ([ECall e], Some s) (fun s =>
      andthen (match e with Origin => init c s | User _ _ body => acts body s end) (inits c arr)))
  end.

(** 115-162: the loop with `init-array`, then origin_main and exit.  The `log`
    crate starts with no logger and all levels off (log::set_max_level). *)
Definition startup (c : gcfg) (arr : list ent) (main : list uact) : list lev :=
  fst (andthen ((if g_init_array c then inits c arr else ret) (GSt None false)) (fun s =>
       andthen (csay c MCallMain s) (fun s =>
       andthen ([EMain], Some s) (fun s =>
       andthen (acts main s) (fun s =>
       andthen (csay c MMainReturned s) (fun s => ([EExit], None))))))).

(** The linker sorts `.init_array.N` by N and puts `.init_array` last; origin's
    entry (log.rs:6, `.init_array.00099`) exists when `mod log` is compiled in
    (lib.rs:40). *)
Definition prio (e : ent) : option nat := match e with Origin => Some 99 | User _ p _ => p end.
Definition before (a b : ent) : Prop :=
  match prio a, prio b with
  | Some x, Some y => x <= y
  | None, Some _ => False
  | _, None => True
  end.
Definition is_user (e : ent) : Prop := match e with User _ _ _ => True | Origin => False end.
Definition linked (c : gcfg) (us arr : list ent) : Prop :=
  Forall is_user us /\ Permutation arr (if g_log c then Origin :: us else us) /\ StronglySorted before arr.
(** Cargo.toml:117, 123: both backends imply `init-array`. *)
Definition features (c : gcfg) : Prop := g_dbg c = true \/ g_env c = true -> g_init_array c = true.
