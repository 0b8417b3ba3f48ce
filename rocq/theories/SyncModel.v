(** Which steps of the thread model synchronise, and the happens-before order
    they generate.

    ThreadModel's executions interleave, so they already are sequentially
    consistent for the crate's atomics (all SeqCst, linux_raw.rs:686-896).
    What that does not say is whether the *other* memory a program uses,
    which is ordinary memory, is ordered: that is what happens-before decides.
    Here every step is given the synchronisation it performs, and ordinary
    memory accesses of the program are added as entries of their own. *)
From Coq Require Import ZArith List Bool Lia Arith.
From Verif Require Import ThreadModel.
Import ListNotations.

(** The atomics of the record of thread [j] (linux_raw.rs:93-95):
    thread_id, detached, return_value. *)
Inductive loc := Tid (j : nat) | Det (j : nat) | Ret (j : nat).

(** What an entry does: acquire load, release store, read-modify-write (both),
    start of a thread (clone), futex wake of a sleeping thread. *)
Inductive op := Acq (x : loc) | Rel (x : loc) | Rmw (x : loc) | Fork (j : nat) | Wakes (w : nat).

(** One entry of a history: the thread, the instances whose memory it
    touches, the event of the step ([None]: an ordinary access to memory by
    the program), and the synchronisation. *)
Record entry := En { by_ : nat; acc : list nat; what : option event; ops : list op }.

(** The synchronisation of a step of thread [i], by the instruction it is at:
    - create: clone (583); id/current_id: load of thread_id (1052, 970);
    - wait_for_exit: load of thread_id (880); the futex call itself is not
      taken to acquire anything;
    - join: load of return_value (858; the load of `detached` at 851 is in
      debug builds only and not counted);
    - detach: swap of `detached` (816);
    - exit: compare_exchange of `detached` (703-707): a failed one only
      acquires; store of return_value (763);
    - the kernel clearing thread_id (CLONE_CHILD_CLEARTID) as a release.
    A signal handler synchronises nothing. *)
Definition ops_of (s : st) (i : nat) (e : event) : list op :=
  match e with
  | ECreate j => [Fork j]
  | EId j _ => [Acq (Tid j)]
  | ESignal => []
  | _ =>
    match t_pc (T s i) with
    | JLoad _ j => [Acq (Tid j)]
    | JDone KJoin j => [Acq (Ret j)]
    | DSwap j => [Rmw (Det j)]
    | XCas _ => match r_det (R s i) with Initial => [Rmw (Det i)] | _ => [Acq (Det i)] end
    | XStore _ => [Rel (Ret i)]
    | KClear => if t_clear (T s i) then [Rel (Tid i)] else []
    | _ => []
    end
  end.

(** The kernel's wake additionally releases the thread it wakes. *)
Inductive syncs (s : st) (i : nat) (e : event) (s' : st) : list op -> Prop :=
| sy_wake a w k j : t_pc (T s i) = KWake a -> t_pc (T s w) = JSleep k j -> t_pc (T s' w) = JDone k j ->
    syncs s i e s' [Wakes w]
| sy_nowake : (forall w, w <> i -> t_pc (T s' w) = t_pc (T s w) \/ (n s <= w)%nat) -> syncs s i e s' (ops_of s i e).

(** Histories: a run of ThreadModel from process start, with ordinary memory
    accesses by threads that are running user code anywhere in between. *)
Inductive hist (c : cfg) : list entry -> st -> Prop :=
| h_init s : initial s -> hist c [] s
| h_step h s i a e s' o : hist c h s -> step c s (i, a, e) s' -> syncs s i e s' o ->
    hist c (h ++ [En i a (Some e) o]) s'
| h_user h s i : hist c h s -> (i < n s)%nat -> t_pc (T s i) = Run ->
    hist c (h ++ [En i [i] None []]) s.

(** Happens-before: the transitive closure of
    - program order;
    - clone before everything the new thread does;
    - a release (or read-modify-write) of a location before an acquire of it
      that reads it or a later read-modify-write, i.e. with no other store to
      the location in between;
    - if [kw], the kernel's futex wake before what the woken thread does. *)
Inductive hb (kw : bool) (h : list entry) : nat -> nat -> Prop :=
| hb_po p q a b : (p < q)%nat -> nth_error h p = Some a -> nth_error h q = Some b -> by_ a = by_ b -> hb kw h p q
| hb_fork p q a b j : (p < q)%nat -> nth_error h p = Some a -> nth_error h q = Some b ->
    In (Fork j) (ops a) -> by_ b = j -> hb kw h p q
| hb_sw p q a b x : (p < q)%nat -> nth_error h p = Some a -> nth_error h q = Some b ->
    In (Rel x) (ops a) \/ In (Rmw x) (ops a) -> In (Acq x) (ops b) \/ In (Rmw x) (ops b) ->
    (forall m d, (p < m < q)%nat -> nth_error h m = Some d -> ~ In (Rel x) (ops d)) -> hb kw h p q
| hb_wake p q a b w : kw = true -> (p < q)%nat -> nth_error h p = Some a -> nth_error h q = Some b ->
    In (Wakes w) (ops a) -> by_ b = w -> hb kw h p q
| hb_trans p q r : hb kw h p q -> hb kw h q r -> hb kw h p r.
