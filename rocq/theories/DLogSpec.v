(** Vocabulary of C78, read off a history with log messages. *)
From Coq Require Import ZArith List Bool Arith.
From Verif Require Import DtorsModel DtorsSpec DLogModel.
Import ListNotations.

(** The history without the log: what is left is a history of DtorsModel.v. *)
Definition silence (tr : ltrace) : trace :=
  flat_map (fun x => match snd x with Ev e => [(fst x, e)] | _ => [] end) tr.

(** The logger of thread [t] is running: it was called and has not returned.
    (A history in which loggers make no calls; others are told apart by the
    call itself.) *)
Definition busy_step (t : nat) (b : bool) (x : nat * lev) : bool :=
  if Nat.eqb (fst x) t then match snd x with Say _ => true | LogDone => false | _ => b end else b.
Definition busy (t : nat) (tr : ltrace) : bool := fold_left (busy_step t) tr false.

(** Loggers only compute and return: no call of origin's functions is made
    while a logger runs. *)
Inductive quiet : ltrace -> Prop :=
| q_nil : quiet []
| q_snoc tr x : quiet tr -> (busy (fst x) tr = true -> forall e, snd x <> Ev e) -> quiet (tr ++ [x]).

(** What thread [t] has logged about calls of exit functions and the end of the
    process, and what it did of these. *)
Definition telling (m : msg) : bool :=
  match m with MCallT | MCallP | MCallF _ | MExiting _ => true | _ => false end.
Definition told (t : nat) (tr : ltrace) : list msg :=
  flat_map (fun x => if Nat.eqb (fst x) t then match snd x with Say m => if telling m then [m] else [] | _ => [] end else []) tr.
Definition announcement (e : event) : list msg :=
  match e with
  | CallT _ => [MCallT] | CallP _ => [MCallP] | CallF k => [MCallF k]
  | Term (Exited st) => [MExiting st] | _ => []
  end.
Definition did (t : nat) (tr : ltrace) : list msg := flat_map announcement (own t (silence tr)).
