(** Happens-before in a history of exit functions (DtorsModel): what decides
    whether ordinary memory written before a registration is seen by the
    registered function.  Events are named by their position. *)
From Coq Require Import ZArith List Bool Arith.
From Verif Require Import DtorsModel.
Import ListNotations.

(** Giving the registration mutex back (guards dropped at
    program/linux_raw.rs:257 and 279). *)
Definition releases (e : event) : Prop := match e with EndP | Unlock => True | _ => False end.

(** The transitive closure of
    - program order;
    - creating a thread before all the thread does;
    - an unlock of the mutex before every later lock of it.
    Nothing else orders anything. *)
Inductive before (tr : trace) : nat -> nat -> Prop :=
| b_thread p q t d e : (p < q)%nat -> nth_error tr p = Some (t, d) -> nth_error tr q = Some (t, e) -> before tr p q
| b_spawn p q t u e : (p < q)%nat -> nth_error tr p = Some (t, Spawn u) -> nth_error tr q = Some (u, e) -> before tr p q
| b_mutex p q t u e : (p < q)%nat -> nth_error tr p = Some (t, e) -> releases e -> nth_error tr q = Some (u, Lock) -> before tr p q
| b_trans p q r : before tr p q -> before tr q r -> before tr p r.

(** Accesses to the list of functions itself: push, pop, finding it empty. *)
Definition touches (e : event) : Prop := match e with RegP _ | Take _ | Empty => True | _ => False end.
