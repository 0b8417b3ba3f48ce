(** Model of src/signal: installing signal handlers, take-charge mode
    (src/signal/linux_raw.rs) and libc mode (src/signal/libc.rs). *)
From Verif Require Import Machine LayoutModel.

(** `KernelSigaction` (rustix::runtime, re-exported by signal/linux_raw.rs:7-9):
    handler (0 = SIG_DFL, 1 = SIG_IGN, otherwise a code address), flags,
    restorer (0 = None; the field does not exist on riscv64 and is then 0) and
    the mask as a 64-bit set (bit s-1 for signal s). *)
Record sigact := SA { sa_handler : Z; sa_flags : Z; sa_restorer : Z; sa_mask : Z }.

(** SigactionFlags::RESTORER and ::SIGINFO (linux_raw_sys general SA_RESTORER, SA_SIGINFO). *)
Definition SA_RESTORER : Z := 0x04000000.
Definition SA_SIGINFO : Z := 4.

(** The link-time addresses of arch::return_from_signal_handler and
    arch::return_from_signal_handler_noinfo (src/arch/x86.rs:401-421,
    arm.rs:317-337; the same function on x86_64.rs:329 and aarch64.rs:321). *)
Record restorers := Rst { r_info : Z; r_noinfo : Z }.

(** The kernel's signal dispositions, by signal number, and its answer. *)
Notation table := (Z -> sigact).
Notation answer := (sigact + Z)%type.   (* inl: Ok(old action), inr: Err(errno) *)

(** signal/linux_raw.rs:23-32: the `if let Some(action) = &mut action` block,
    compiled out on riscv64. *)
Definition prepare (a : arch) (r : restorers) (act : sigact) : sigact :=
  match a with
  | Riscv64 => act
  | _ =>
    let fl := Z.lor (sa_flags act) SA_RESTORER in
    if Z.land fl SA_SIGINFO =? SA_SIGINFO
    then SA (sa_handler act) fl (r_info r) (sa_mask act)
    else SA (sa_handler act) fl (r_noinfo r) (sa_mask act)
  end.

(** signal/linux_raw.rs:19-35.  [k] is rustix's kernel_sigaction, i.e.
    rt_sigaction(2): it may change the table and returns the old action or an
    error, both passed through. *)
Definition sigaction (k : table -> Z -> option sigact -> answer * table)
  (a : arch) (r : restorers) (t : table) (sig : Z) (action : option sigact) : answer * table :=
  k t sig (option_map (prepare a r) action).

(** ** libc mode (signal/libc.rs:52-67) *)

(** The function at the level of MIR: locals of type `Sigaction` with the
    scopes Rust gives them.  [LArm] is the binding of `Some(action) => &action`
    (54-55), [LOld] is `old` (58); [LArg] is the parameter. *)
Inductive local := LArg | LArm | LOld.
Inductive stmt :=
| Live (x : local)              (* StorageLive: contents undefined from here *)
| Dead (x : local)              (* StorageDead: contents undefined from here *)
| Move (dst src : local)        (* dst = move src *)
| AddrOf (x : local)            (* action_ptr = &raw x *)
| NullPtr                       (* action_ptr = null() *)
| Call.                         (* libc::sigaction(sig, action_ptr, old.as_mut_ptr()) *)

(** 53-60 for Some(_): the binding's scope is the match arm, which ends before
    the call. *)
Definition libc_some : list stmt := [Live LArm; Move LArm LArg; AddrOf LArm; Dead LArm; Live LOld; Call].
(** ... and for None. *)
Definition libc_none : list stmt := [NullPtr; Live LOld; Call].
(** For comparison, not in the repository: borrowing the parameter instead
    (`match &action { Some(action) => action, None => null() }`). *)
Definition libc_some_fixed : list stmt := [AddrOf LArg; Live LOld; Call].

(** Locals whose scopes do not overlap may share stack space: [slot] maps each
    to its place. Undefined contents are whatever [u] supplies. *)
Definition put {V} (f : nat -> V) (n : nat) (v : V) : nat -> V := fun m => if Nat.eqb m n then v else f m.
Fixpoint frame_run (slot : local -> nat) (p : list stmt) (m : nat -> sigact) (ptr : option nat) (u : list sigact)
  : option (option sigact) :=
  match p with
  | [] => None
  | Live x :: q | Dead x :: q =>
      match u with v :: u' => frame_run slot q (put m (slot x) v) ptr u' | [] => None end
  | Move d s :: q => frame_run slot q (put m (slot d) (m (slot s))) ptr u
  | AddrOf x :: q => frame_run slot q m (Some (slot x)) u
  | NullPtr :: q => frame_run slot q m None u
  | Call :: _ => Some (option_map m ptr)     (* the action libc reads, if any *)
  end.
