(** Vocabulary of C79: a history with panics read as one of DtorsSpec.v, where
    a function left by a panic counts as ended. *)
From Coq Require Import ZArith List Bool Arith.
From Verif Require Import DtorsModel DtorsSpec PanicModel.
Import ListNotations.

Definition plainly (tr : ptrace) : trace :=
  flat_map (fun x => match snd x with PEv e => [(fst x, e)] | Unwound w => [(fst x, Ret w)] | Aborted => [] end) tr.

(** Function [w] called on [t] has come to its end in [tr]. *)
Definition ended (t : nat) (w : who) (tr : ptrace) : Prop := In (t, PEv (Ret w)) tr \/ In (t, Unwound w) tr.

(** A history without panics. *)
Definition lift (tr : trace) : ptrace := map (fun x => (fst x, PEv (snd x))) tr.

(** [tr] ends with thread [t] completing the call program::exit(st) that began
    after [before]; during it, [t] made no other call that ends the process and
    no panic left a function called by it. *)
Definition calm (t : nat) (during : ptrace) : Prop :=
  (forall e, In (t, PEv e) during -> ending e = false) /\ (forall w, ~ In (t, Unwound w) during).
Definition pexits_by (t : nat) (st : Z) (before during tr : ptrace) (o : outcome) : Prop :=
  tr = before ++ (t, PEv (ExitCall st)) :: during ++ [(t, PEv (Term o))] /\ calm t during.
