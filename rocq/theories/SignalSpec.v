(** Vocabulary of C39, C40, C53: rt_sigaction(2) and its histories. *)
From Verif Require Import Machine LayoutModel SignalModel AsmModel AsmSpec.

(** ** Linux (kernel/signal.c do_sigaction) *)
(** Signals are 1..64; SIGKILL (9) and SIGSTOP (19) cannot be changed, and
    cannot be masked.  [sup] is the set of flags the kernel supports: since
    5.11 it clears the others; older kernels keep all bits ([sup] = -1).
    Discarding pending signals when the new handler ignores them is left out. *)
Definition EINVAL : Z := 22.
Definition unblockable : Z := 2 ^ (9 - 1) + 2 ^ (19 - 1).
Definition set_entry (t : Z -> sigact) (sig : Z) (e : sigact) : Z -> sigact := fun s => if s =? sig then e else t s.
Definition k_sigaction (sup : Z) (t : Z -> sigact) (sig : Z) (new : option sigact) : (sigact + Z) * (Z -> sigact) :=
  if (sig <? 1) || (64 <? sig) then (inr EINVAL, t)
  else match new with
  | None => (inl (t sig), t)
  | Some e =>
      if (sig =? 9) || (sig =? 19) then (inr EINVAL, t)
      else (inl (t sig),
            set_entry t sig (SA (sa_handler e) (Z.land (sa_flags e) sup) (sa_restorer e) (Z.ldiff (sa_mask e) unblockable)))
  end.
(** Delivery to a handler installed with SA_RESETHAND (bit 31) resets the
    handler, nothing else. *)
Definition k_deliver (t : Z -> sigact) (sig : Z) : Z -> sigact :=
  if Z.testbit (sa_flags (t sig)) 31 then set_entry t sig (SA 0 (sa_flags (t sig)) (sa_restorer (t sig)) (sa_mask (t sig))) else t.
(** Dispositions after execve (flush_signal_handlers): default or ignored. *)
Definition after_exec (t : Z -> sigact) : Prop := forall s, exists h, (h = 0 \/ h = 1) /\ t s = SA h 0 0 0.

(** ** What installing means *)
Definition siginfo (flags : Z) : bool := Z.testbit flags 2.
Definition changeable (sig : Z) : Prop := 1 <= sig <= 64 /\ sig <> 9 /\ sig <> 19.
(** Kernels support SA_SIGINFO (bit 2) and, where it exists, SA_RESTORER (bit 26). *)
Definition sup_ok (a : arch) (sup : Z) : Prop := Z.testbit sup 2 = true /\ (a <> Riscv64 -> Z.testbit sup 26 = true).
(** The entry [e] is the request [req] plus the restorer and nothing else. *)
Definition is_request_with_restorer (a : arch) (r : restorers) (sup : Z) (req e : sigact) : Prop :=
  sa_handler e = sa_handler req /\
  (forall i, 0 <= i -> i <> 9 - 1 -> i <> 19 - 1 -> Z.testbit (sa_mask e) i = Z.testbit (sa_mask req) i) /\
  (forall i, 0 <= i -> Z.testbit sup i = true -> (i <> 26 \/ a = Riscv64) -> Z.testbit (sa_flags e) i = Z.testbit (sa_flags req) i) /\
  (a <> Riscv64 -> Z.testbit (sa_flags e) 26 = true /\ sa_restorer e = if siginfo (sa_flags req) then r_info r else r_noinfo r) /\
  (a = Riscv64 -> sa_restorer e = sa_restorer req).

(** ** Histories of calls through origin, interleaved with deliveries *)
Inductive op := Ask (sig : Z) (action : option sigact) | Delivered (sig : Z).
Definition apply_op (sup : Z) (a : arch) (r : restorers) (t : Z -> sigact) (o : op) : Z -> sigact :=
  match o with
  | Ask sig act => snd (sigaction (k_sigaction sup) a r t sig act)
  | Delivered sig => k_deliver t sig
  end.
Definition after (sup : Z) (a : arch) (r : restorers) (t : Z -> sigact) (h : list op) : Z -> sigact :=
  fold_left (apply_op sup a r) h t.

(** Equal except for what the kernel uses only to return from a handler. *)
Definition same_but_restorer (e e' : sigact) : Prop :=
  sa_handler e = sa_handler e' /\ sa_mask e = sa_mask e' /\
  forall i, 0 <= i -> i <> 26 -> Z.testbit (sa_flags e) i = Z.testbit (sa_flags e') i.

(** The program text at the trampolines. *)
Definition trampolines (a : arch) (r : restorers) (code : Z -> option (list instr)) : Prop :=
  code (r_info r) = Some (restorer_asm a) /\ code (r_noinfo r) = Some (restorer_noinfo_asm a).

(** ** Stack slots of locals: those live at the same time differ *)
Definition slots_ok (slot : local -> nat) : Prop := slot LArg <> slot LArm /\ slot LArg <> slot LOld.
