(** Fair infinite executions of a program of ScriptModel.v: the vocabulary of
    C72. *)
From Coq Require Import ZArith List Bool Arith.
From Verif Require Import ThreadModel FairSpec ByteModel ByteFairSpec DtorsModel ExitFairSpec ProcModel ScriptModel.
Import ListNotations.
Open Scope Z_scope.

(** A step of the whole system: an event of ProcModel.v, a computation of user
    code on thread [t], or nothing. *)
Inductive slab := LEv (x : pevent) | LDo (t : nat) | LIdle.

(** The part of a step that concerns the life cycle, and exit functions. *)
Definition life_at (la : nat -> slab) (k : nat) : option label := match la k with LEv x => hd_error (life_of x) | _ => None end.
Definition fns_at (la : nat -> slab) (k : nat) : option (nat * DtorsModel.event) := match la k with LEv x => hd_error (fns_of x) | _ => None end.

Section Fair.
Context {D : Type}.
Variables (fini : nat -> prog D) (main : prog D) (d0 : D) (e : benv) (c : dcfg).

(** User code on thread [t] is to take its next step: it is not inside one of
    origin's functions. *)
Definition about_to (s : pst) (m : mach D) (t : nat) : Prop :=
  t_pc (bT (life s) t) = Run /\ in_user (fns s) t /\
  exists k r, konts m t = k :: r /\ match k with URun _ _ | UJoin _ _ _ => True | _ => False end.
(** In step [k] user code on thread [t] computes, calls one of origin's
    functions, or returns. *)
Definition does_next (la : nat -> slab) (t k : nat) : Prop :=
  match la k with
  | LDo u | LEv (PReturns u _) | LEv (PCreate u _ _) | LEv (PLife (u, _, ECallJoin _))
  | LEv (PFns u (RegT _ | BeginP _ | Ret _ | ExitCall _ | ImmCall _ | TrapCall)) => u = t
  | _ => False
  end.
(** A step that the schedule must come to: user code goes on, origin's code goes
    on, or a thread that is not asleep moves. *)
Definition due (s : pst) (x : pevent) : Prop :=
  match x with
  | PUser | PLife (_, _, ESignal) => False
  | PLife (_, _, ECallJoin _) => True
  | PLife (i, _, _) => ~ bidle (life s) i
  | PFns t Nop => ~ in_user (fns s) t
  | _ => True
  end.
Definition ended (s : pst) : Prop := term (fns s) <> None.

(** An infinite execution of the program from process start.  It is fair, as
    long as the process has not ended:
    - every thread inside create, join, detach or the end of its life moves, or
      is idle or asleep (as in C68);
    - every thread inside at_exit, program::exit, or calling its exit functions,
      moves, unless it waits for a lock some thread holds (as in C70);
    - user code goes on: computations take finite time, and create succeeds. *)
Record sfair (si : nat -> pst * mach D) (la : nat -> slab) : Prop := SFair {
  sf_start : exists b, bstarts e b /\ fst (si 0%nat) = PSt b dinit (fun _ => 0) /\
     snd (si 0%nat) = Mach (dupd (fun _ => []) 0%nat [URun WMain main]) (fun _ => Return 0) d0 [];
  sf_step : forall k, let '(s, m) := si k in
     match la k with
     | LEv x => pstep e c s x (fst (si (S k))) /\ follows fini m x (snd (si (S k)))
     | LDo t => fst (si (S k)) = s /\ term (fns s) = None /\ in_user (fns s) t /\ t_pc (bT (life s) t) = Run /\
         exists w g p r, konts m t = URun w (Do g p) :: r /\
         snd (si (S k)) = Mach (dupd (konts m) t (URun w (p (fst (g (data m)))) :: r)) (reg m) (fst (g (data m))) (out m ++ snd (g (data m)))
     | LIdle => si (S k) = si k
     end;
  sf_life : forall i k, exists k', (k <= k')%nat /\
     (ended (fst (si k')) \/ moves (life_at la) i k' \/ bidle (life (fst (si k'))) i);
  sf_fns : forall t k, exists k', (k <= k')%nat /\
     (ended (fst (si k')) \/ (exists x, does (fns_at la) k' t x) \/ gone (fns (fst (si k'))) t \/
      (exists w, running (fns (fst (si k'))) t w) \/ blocked c (fns (fst (si k'))) t);
  sf_user : forall t k, exists k', (k <= k')%nat /\
     (ended (fst (si k')) \/ does_next la t k' \/ ~ about_to (fst (si k')) (snd (si k')) t) }.
End Fair.
