(** What a program of PexitModel.v means, read sequentially: no threads, no
    locks, no schedules.  This is what C82 compares every execution with. *)
From Coq Require Import ZArith List Bool Arith.
From Verif Require Import DtorsModel ProcModel PexitModel.
Import ListNotations.
Open Scope Z_scope.

(** In the following, [vs] are the results of the functions of the threads
    created so far by this activation. *)

(** What a function returns: join gives the result of the thread's function. *)
Fixpoint value (p : qprog) (vs : list Z) : Z :=
  match p with
  | QReturn v => v
  | QPrint _ k => value k vs
  | QAtThreadExit _ k => value k vs
  | QAtExit _ k => value k vs
  | QCreate f k => value k (vs ++ [value f []])
  | QJoin n k => value (k (nth n vs 0)) vs
  | QDetach _ k => value k vs
  end.
(** What it prints itself. *)
Fixpoint prints (p : qprog) (vs : list Z) : list Z :=
  match p with
  | QReturn v => []
  | QPrint z k => z :: prints k vs
  | QAtThreadExit _ k => prints k vs
  | QAtExit _ k => prints k vs
  | QCreate f k => prints k (vs ++ [value f []])
  | QJoin n k => prints (k (nth n vs 0)) vs
  | QDetach _ k => prints k vs
  end.
(** What the thread::at_exit functions it registered print, in the order they
    are called: last registered first, and those registered by an exit function
    right after it. *)
Fixpoint after (p : qprog) (vs : list Z) : list Z :=
  match p with
  | QReturn v => []
  | QPrint _ k => after k vs
  | QAtThreadExit f k => after k vs ++ prints f [] ++ after f []
  | QAtExit _ k => after k vs
  | QCreate f k => after k (vs ++ [value f []])
  | QJoin n k => after (k (nth n vs 0)) vs
  | QDetach _ k => after k vs
  end.
(** What the program::at_exit functions it registered itself print: last
    registered first, and those registered by such a function right after it. *)
Fixpoint later (p : qprog) (vs : list Z) : list Z :=
  match p with
  | QReturn v => []
  | QPrint _ k => later k vs
  | QAtThreadExit _ k => later k vs
  | QAtExit f k => later k vs ++ prints f [] ++ later f []
  | QCreate f k => later k (vs ++ [value f []])
  | QJoin n k => later (k (nth n vs 0)) vs
  | QDetach _ k => later k vs
  end.
(** What the program::at_exit functions print that are registered by its
    thread::at_exit functions (and by theirs): those are called in the order of
    [after], so what the last one called registered is printed first. *)
Fixpoint late (p : qprog) (vs : list Z) : list Z :=
  match p with
  | QReturn v => []
  | QPrint _ k => late k vs
  | QAtThreadExit f k => (late f [] ++ later f []) ++ late k vs
  | QAtExit _ k => late k vs
  | QCreate f k => late k (vs ++ [value f []])
  | QJoin n k => late (k (nth n vs 0)) vs
  | QDetach _ k => late k vs
  end.
(** Everything a thread prints. *)
Definition said (f : qprog) : list Z := prints f [] ++ after f [].

(** .fini_array functions: called last entry first; what they register is not
    called any more. *)
Fixpoint finis (fini : nat -> qprog) (n : nat) : list Z :=
  match n with O => [] | S k => prints (fini k) [] ++ finis fini k end.

(** Everything the main thread prints: main, its thread::at_exit functions, all
    program::at_exit functions, .fini_array. *)
Definition main_text (main : qprog) (fini : nat -> qprog) (n : nat) : list Z :=
  said main ++ (late main [] ++ later main []) ++ finis fini n.

(** Which functions registered from here on will still be called: of
    thread::at_exit and program::at_exit, of program::at_exit only, none. *)
Inductive stage := Early | Late | Last.
(** Everything printed by it and by all threads that exist because of it, in
    some order. *)
Fixpoint total (d : stage) (p : qprog) (vs : list Z) : list Z :=
  match p with
  | QReturn v => []
  | QPrint z k => z :: total d k vs
  | QAtThreadExit f k => (match d with Early => total Early f [] | _ => [] end) ++ total d k vs
  | QAtExit f k => (match d with Last => [] | _ => total Late f [] end) ++ total d k vs
  | QCreate f k => total Early f [] ++ total d k (vs ++ [value f []])
  | QJoin n k => total d (k (nth n vs 0)) vs
  | QDetach _ k => total d k vs
  end.
Fixpoint fini_total (fini : nat -> qprog) (n : nat) : list Z :=
  match n with O => [] | S k => total Last (fini k) [] ++ fini_total fini k end.

(** Neither it nor anything it starts or registers uses program::at_exit. *)
Fixpoint quiet (p : qprog) : Prop :=
  match p with
  | QReturn _ => True
  | QPrint _ k => quiet k
  | QAtThreadExit f k => quiet f /\ quiet k
  | QAtExit _ _ => False
  | QCreate f k => quiet f /\ quiet k
  | QJoin _ k => forall v, quiet (k v)
  | QDetach _ k => quiet k
  end.
(** The threads it starts do not use program::at_exit: only the main thread
    registers functions there. *)
Fixpoint main_only (p : qprog) : Prop :=
  match p with
  | QReturn _ => True
  | QPrint _ k => main_only k
  | QAtThreadExit f k => main_only f /\ main_only k
  | QAtExit f k => main_only f /\ main_only k
  | QCreate f k => quiet f /\ main_only k
  | QJoin _ k => forall v, main_only (k v)
  | QDetach _ k => main_only k
  end.

(** Every activation joins every thread it creates before it returns.  [n]:
    threads created so far, [open]: those not joined yet. *)
Fixpoint tidy (p : qprog) (n : nat) (open : list nat) : Prop :=
  match p with
  | QReturn _ => open = []
  | QPrint _ k => tidy k n open
  | QAtThreadExit f k => tidy f 0 [] /\ tidy k n open
  | QAtExit f k => tidy f 0 [] /\ tidy k n open
  | QCreate f k => tidy f 0 [] /\ tidy k (S n) (n :: open)
  | QJoin i k => In i open /\ forall v, tidy (k v) n (remove Nat.eq_dec i open)
  | QDetach _ _ => False
  end.

(** Observations of an execution: what thread [t] has printed so far. *)
Definition out_of (m : qmach) (t : nat) : list Z := map snd (filter (fun x => Nat.eqb (fst x) t) (fout m)).
(** .fini_array entries that are called: none without the feature. *)
Definition fini_entries (c : dcfg) : nat := if c_fini c then c_nfini c else 0%nat.
Definition prefix (a b : list Z) : Prop := exists r, b = a ++ r.
(** The program::at_exit functions called so far, in order. *)
Definition pcalls (tr : list pevent) : list fid := flat_map (fun x => match x with PFns _ (CallP f) => [f] | _ => [] end) tr.
