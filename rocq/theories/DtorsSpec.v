(** Specification vocabulary for exit functions: everything is read off a
    history (the list of events in order, each with its thread). *)
From Coq Require Import ZArith List Bool Arith.
From Verif Require Import DtorsModel.
Import ListNotations.

(** [own t tr]: the events of thread [t], in order. *)
Definition own (t : nat) (tr : trace) : list event :=
  map snd (filter (fun x => Nat.eqb (fst x) t) tr).

(** Functions registered by thread::at_exit on [t] and not called yet, most
    recently registered first. *)
Definition waiting_step (l : list fid) (e : event) : list fid :=
  match e with
  | RegT f => f :: l
  | CallT f => remove Nat.eq_dec f l
  | _ => l
  end.
Definition waiting (t : nat) (tr : trace) : list fid := fold_left waiting_step (own t tr) [].

(** Functions registered by program::at_exit, on any thread, and not taken
    yet by a thread that is in program::exit, most recently registered first.
    (Taking a function off the list is the moment that decides the order.) *)
Definition listed_step (l : list fid) (x : nat * event) : list fid :=
  match snd x with
  | RegP f => f :: l
  | Take f => remove Nat.eq_dec f l
  | _ => l
  end.
Definition listed (tr : trace) : list fid := fold_left listed_step tr [].

(** Who holds the registration lock. *)
Definition holder_step (h : option nat) (x : nat * event) : option nat :=
  match snd x with Lock => Some (fst x) | Unlock | EndP => None | _ => h end.
Definition holder (tr : trace) : option nat := fold_left holder_step tr None.

(** The .fini_array entries that must be called: all of them with the
    `fini-array` feature (Cargo.toml:92-113), none without. *)
Definition fini_called (c : dcfg) : nat := if c_fini c then c_nfini c else 0%nat.

(** The exit functions of a history. *)
Definition pick {A} (g : event -> list A) (tr : trace) : list A := flat_map (fun x => g (snd x)) tr.
Definition t_calls (tr : trace) : list fid := pick (fun e => match e with CallT f => [f] | _ => [] end) tr.
Definition p_calls (tr : trace) : list fid := pick (fun e => match e with CallP f => [f] | _ => [] end) tr.
Definition f_calls (tr : trace) : list nat := pick (fun e => match e with CallF k => [k] | _ => [] end) tr.

(** The calls of exit functions made by one thread, in order. *)
Inductive call := CT (f : fid) | CP (f : fid) | CF (k : nat).
Definition calls (t : nat) (tr : trace) : list call :=
  flat_map (fun e => match e with CallT f => [CT f] | CallP f => [CP f] | CallF k => [CF k] | _ => [] end)
           (own t tr).

(** A call that ends the process if it gets to its end. *)
Definition ending (e : event) : bool :=
  match e with ExitCall _ | ImmCall _ | TrapCall => true | _ => false end.

(** [tr] ends with thread [t] completing the call program::exit(status) that
    began after [before], during [during]. *)
Definition exits_by (t : nat) (st : Z) (before during : trace) (tr : trace) (o : outcome) : Prop :=
  tr = before ++ (t, ExitCall st) :: during ++ [(t, Term o)] /\
  Forall (fun e => ending e = false) (own t during).
