(** Fair infinite executions of a program of PexitModel.v: the vocabulary of C83. *)
From Coq Require Import ZArith List Bool Arith.
From Verif Require Import ThreadModel FairSpec ByteModel ByteFairSpec DtorsModel ExitFairSpec ProcModel ScriptFairSpec PexitModel.
Import ListNotations.
Open Scope Z_scope.

(** A function that neither registers program::at_exit functions nor joins or
    detaches threads: it never waits for another thread. *)
Fixpoint solo (p : qprog) : Prop :=
  match p with
  | QReturn _ => True
  | QPrint _ k | QAtThreadExit _ k | QCreate _ k => solo k
  | QAtExit _ _ | QJoin _ _ | QDetach _ _ => False
  end.

(** Programs that use each handle at most once, by join or detach, and only
    features they are built with: what Rust's ownership of handles, origin's
    safety contract and Cargo ensure.  [n]: threads created so far, [open]:
    handles not used yet. *)
Fixpoint proper (c : dcfg) (p : qprog) (n : nat) (open : list nat) : Prop :=
  match p with
  | QReturn _ => True
  | QPrint _ k => proper c k n open
  | QAtThreadExit f k => c_tae c = true /\ proper c f 0 [] /\ proper c k n open
  | QAtExit f k => c_pae c = true /\ proper c f 0 [] /\ proper c k n open
  | QCreate f k => proper c f 0 [] /\ proper c k (S n) (n :: open)
  | QJoin i k => In i open /\ forall v, proper c (k v) n (remove Nat.eq_dec i open)
  | QDetach i k => In i open /\ proper c k n (remove Nat.eq_dec i open)
  end.

Section Fair.
Variables (fini : nat -> qprog) (main : qprog) (e : benv) (c : dcfg).

(** User code on thread [t] is to take its next step: it is not inside one of
    origin's functions. *)
Definition fabout_to (s : pst) (m : qmach) (t : nat) : Prop :=
  t_pc (bT (life s) t) = Run /\ in_user (fns s) t /\ acts m t <> None.
(** In step [k] user code on thread [t] prints, calls one of origin's functions,
    or returns. *)
Definition fdoes_next (la : nat -> slab) (t k : nat) : Prop :=
  match la k with
  | LDo u | LEv (PReturns u _) | LEv (PCreate u _ _) | LEv (PLife (u, _, (ECallJoin _ | ECallDetach _)))
  | LEv (PFns u (RegT _ | BeginP _ | Ret _ | ExitCall _)) => u = t
  | _ => False
  end.
(** A step that the schedule must come to: user code goes on, origin's code goes
    on, or a thread that is not asleep moves. *)
Definition fdue (s : pst) (x : pevent) : Prop :=
  match x with
  | PUser | PLife (_, _, ESignal) => False
  | PLife (_, _, (ECallJoin _ | ECallDetach _)) => True
  | PLife (i, _, _) => ~ bidle (life s) i
  | PFns t Nop => ~ in_user (fns s) t
  | _ => True
  end.

(** An infinite execution of the program from process start; [LDo t] is thread
    [t] printing.  It is fair, as long as the process has not ended:
    - every thread inside create, join, detach or the end of its life moves, or
      is idle or asleep (as in C68);
    - every thread inside at_exit, program::exit, or calling its exit functions,
      moves, unless it waits for a lock some thread holds (as in C70);
    - user code goes on: printing takes finite time, and create succeeds. *)
Record ffair (si : nat -> pst * qmach) (la : nat -> slab) : Prop := FFair {
  ff_start : exists b, bstarts e b /\ fst (si 0%nat) = PSt b dinit (fun _ => 0) /\
     snd (si 0%nat) = QMach (dupd (fun _ => None) 0%nat (Some (Act WMain main []))) (fun _ => QReturn 0) (dupd (fun _ => QReturn 0) 0%nat main) [];
  ff_step : forall k, let '(s, m) := si k in
     match la k with
     | LEv x => pstep e c s x (fst (si (S k))) /\ qollows fini m x (snd (si (S k)))
     | LDo t => fst (si (S k)) = s /\ term (fns s) = None /\ in_user (fns s) t /\ t_pc (bT (life s) t) = Run /\
         exists w z p hs, acts m t = Some (Act w (QPrint z p) hs) /\ snd (si (S k)) = oput (aset m t (Some (Act w p hs))) t z
     | LIdle => si (S k) = si k
     end;
  ff_life : forall i k, exists k', (k <= k')%nat /\
     (ended (fst (si k')) \/ moves (life_at la) i k' \/ bidle (life (fst (si k'))) i);
  ff_fns : forall t k, exists k', (k <= k')%nat /\
     (ended (fst (si k')) \/ (exists x, does (fns_at la) k' t x) \/ gone (fns (fst (si k'))) t \/
      (exists w, running (fns (fst (si k'))) t w) \/ blocked c (fns (fst (si k'))) t);
  ff_user : forall t k, exists k', (k <= k')%nat /\
     (ended (fst (si k')) \/ fdoes_next la t k' \/ ~ fabout_to (fst (si k')) (snd (si k')) t) }.
End Fair.
