(** What a program of ForkModel.v means, read sequentially: no threads, no
    locks, no schedules.  This is what C73 compares every execution with. *)
From Coq Require Import ZArith List Bool Arith.
From Verif Require Import DtorsModel ForkModel.
Import ListNotations.
Open Scope Z_scope.

(** In the following, [vs] are the results of the functions of the threads
    created so far by this activation. *)

(** What a function returns: join gives the result of the thread's function. *)
Fixpoint value (p : fprog) (vs : list Z) : Z :=
  match p with
  | FReturn v => v
  | FPrint _ k => value k vs
  | FAtThreadExit _ k => value k vs
  | FCreate f k => value k (vs ++ [value f []])
  | FJoin n k => value (k (nth n vs 0)) vs
  | FDetach _ k => value k vs
  end.
(** What it prints itself. *)
Fixpoint prints (p : fprog) (vs : list Z) : list Z :=
  match p with
  | FReturn v => []
  | FPrint z k => z :: prints k vs
  | FAtThreadExit _ k => prints k vs
  | FCreate f k => prints k (vs ++ [value f []])
  | FJoin n k => prints (k (nth n vs 0)) vs
  | FDetach _ k => prints k vs
  end.
(** What the exit functions it registered print, in the order they are called:
    last registered first, and those registered by an exit function right
    after it. *)
Fixpoint after (p : fprog) (vs : list Z) : list Z :=
  match p with
  | FReturn v => []
  | FPrint _ k => after k vs
  | FAtThreadExit f k => after k vs ++ prints f [] ++ after f []
  | FCreate f k => after k (vs ++ [value f []])
  | FJoin n k => after (k (nth n vs 0)) vs
  | FDetach _ k => after k vs
  end.
(** Everything a thread prints. *)
Definition said (f : fprog) : list Z := prints f [] ++ after f [].

(** .fini_array functions: called last entry first; what they register with
    thread::at_exit is not called any more. *)
Fixpoint finis (fini : nat -> fprog) (n : nat) : list Z :=
  match n with O => [] | S k => prints (fini k) [] ++ finis fini k end.

(** Everything printed by it and by all threads that exist because of it, in
    some order; [d]: thread::at_exit functions will be called. *)
Fixpoint total (d : bool) (p : fprog) (vs : list Z) : list Z :=
  match p with
  | FReturn v => []
  | FPrint z k => z :: total d k vs
  | FAtThreadExit f k => (if d then total true f [] else []) ++ total d k vs
  | FCreate f k => total true f [] ++ total d k (vs ++ [value f []])
  | FJoin n k => total d (k (nth n vs 0)) vs
  | FDetach _ k => total d k vs
  end.
Fixpoint fini_total (fini : nat -> fprog) (n : nat) : list Z :=
  match n with O => [] | S k => total false (fini k) [] ++ fini_total fini k end.

(** Every activation joins every thread it creates before it returns.  [n]:
    threads created so far, [open]: those not joined yet. *)
Fixpoint tidy (p : fprog) (n : nat) (open : list nat) : Prop :=
  match p with
  | FReturn _ => open = []
  | FPrint _ k => tidy k n open
  | FAtThreadExit f k => tidy f 0 [] /\ tidy k n open
  | FCreate f k => tidy f 0 [] /\ tidy k (S n) (n :: open)
  | FJoin i k => In i open /\ forall v, tidy (k v) n (remove Nat.eq_dec i open)
  | FDetach _ _ => False
  end.

(** Observations of an execution: what thread [t] has printed so far. *)
Definition out_of (m : fmach) (t : nat) : list Z := map snd (filter (fun x => Nat.eqb (fst x) t) (fout m)).
(** .fini_array entries that are called: none without the feature. *)
Definition fini_entries (c : dcfg) : nat := if c_fini c then c_nfini c else 0%nat.
Definition prefix (a b : list Z) : Prop := exists r, b = a ++ r.
