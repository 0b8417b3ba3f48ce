(** C64: libc mode: stack(), default_stack_size(), default_guard_size(). *)
From Coq Require Import ZArith List Bool Lia Arith.
From Verif Require Import AttrModel.
Import ListNotations.
Open Scope Z_scope.

(** How thread [t] was created, from the history alone: the last creation under
    that name, with explicit sizes or the process's default ones. *)
Inductive made := MBefore | MSizes (addr size guard : Z) | MDefault (addr : Z).
Fixpoint how (l : list call) (t : nat) : made :=
  match l with
  | [] => MBefore
  | c :: l' =>
      match how l' t with
      | MBefore =>
          match c with
          | CCreate u ad sz g => if Nat.eqb u t then MSizes ad sz g else MBefore
          | CCreateDefault u ad => if Nat.eqb u t then MDefault ad else MBefore
          | _ => MBefore end
      | m => m end
  end.
(** Queries in the history whose pthread_getattr_np succeeded. *)
Definition asked (c : call) : nat :=
  match c with CStack _ c1 _ _ | CDefaultStack _ c1 _ | CDefaultGuard _ c1 _ => if c1 =? 0 then 1%nat else 0%nat | _ => 0%nat end.
Fixpoint queries (l : list call) : nat := match l with [] => 0 | c :: l' => asked c + queries l' end%nat.

Lemma do_call_parts s c : l_default (do_call s c) = l_default s /\ l_alloc (do_call s c) = l_alloc s /\
  blocks (do_call s c) = (blocks s + asked c * l_alloc s)%nat /\
  forall t, attrs (do_call s c) t = match how [c] t with MBefore => attrs s t | MSizes ad sz g => TA ad sz g | MDefault ad => TA ad (fst (l_default s)) (snd (l_default s)) end.
Proof.
  destruct c; cbn [do_call asked how]; unfold stack_, default_stack_size_, default_guard_size_, getattr_np, put;
    repeat match goal with |- context [?x =? 0] => destruct (x =? 0) end;
    cbn [fst snd l_default l_alloc blocks attrs]; repeat split; try lia; intros u; cbn [how];
    rewrite ?(Nat.eqb_sym u); repeat match goal with |- context [Nat.eqb ?x ?y] => destruct (Nat.eqb x y) end; reflexivity.
Qed.
Lemma calls_parts l : forall s, l_default (calls s l) = l_default s /\ l_alloc (calls s l) = l_alloc s /\
  blocks (calls s l) = (blocks s + queries l * l_alloc s)%nat /\
  forall t, attrs (calls s l) t = match how l t with MBefore => attrs s t | MSizes ad sz g => TA ad sz g | MDefault ad => TA ad (fst (l_default s)) (snd (l_default s)) end.
Proof.
  induction l as [|c l IH]; intros s; [cbn; repeat split; lia|].
  cbn [calls fold_left]. change (fold_left do_call l (do_call s c)) with (calls (do_call s c) l).
  destruct (IH (do_call s c)) as (A & B & C & D). destruct (do_call_parts s c) as (A' & B' & C' & D').
  rewrite A, B, C, A', B', C'. repeat split; [cbn [queries]; lia|]. intros t. rewrite D, D', A'. cbn [how].
  destruct (how l t); reflexivity.
Qed.

(** stack(t) is where t's stack is and the sizes t was created with; it panics
    only if libc reports an error. *)
Theorem C64_stack : forall s l t c1 c2 c3 ad sz g, how l t = MSizes ad sz g ->
  fst (stack_ (calls s l) t c1 c2 c3) =
  if (c1 =? 0) && (c2 =? 0) && (c3 =? 0) then Returns (ad, sz, g) else Panics.
Proof.
  intros s l t c1 c2 c3 ad sz g H. destruct (calls_parts l s) as (_ & _ & _ & D). specialize (D t). rewrite H in D.
  unfold stack_, getattr_np. destruct (c1 =? 0), (c2 =? 0), (c3 =? 0); cbn [andb fst]; rewrite ?D; reflexivity.
Qed.
Print Assumptions C64_stack.

(** default_stack_size() and default_guard_size() are the default sizes for new
    threads when called by a thread that was itself created with the defaults... *)
Theorem C64_default_partial : forall s l me ad, how l me = MDefault ad ->
  fst (default_stack_size_ (calls s l) me 0 0) = Returns (fst (l_default (calls s l))) /\
  fst (default_guard_size_ (calls s l) me 0 0) = Returns (snd (l_default (calls s l))).
Proof.
  intros s l me ad H. destruct (calls_parts l s) as (A & _ & _ & D). specialize (D me). rewrite H in D. rewrite A.
  unfold default_stack_size_, default_guard_size_, getattr_np. cbn [Z.eqb fst]. rewrite D. split; reflexivity.
Qed.
Print Assumptions C64_default_partial.
(** ... but in a thread created with other sizes they are that thread's own, for
    any sizes: the documented claim ("the default stack size for new threads") is
    false of the code. *)
Theorem C64_default_refuted : forall s l me ad sz g, how l me = MSizes ad sz g ->
  fst (default_stack_size_ (calls s l) me 0 0) = Returns sz /\ fst (default_guard_size_ (calls s l) me 0 0) = Returns g.
Proof.
  intros s l me ad sz g H. destruct (calls_parts l s) as (_ & _ & _ & D). specialize (D me). rewrite H in D.
  unfold default_stack_size_, default_guard_size_, getattr_np. cbn [Z.eqb fst]. rewrite D. split; reflexivity.
Qed.
Print Assumptions C64_default_refuted.
(** And nothing libc allocated for a query is ever freed. *)
Theorem C64_no_leak_refuted : forall s l, blocks (calls s l) = (blocks s + queries l * l_alloc s)%nat.
Proof. intros s l. apply calls_parts. Qed.
Print Assumptions C64_no_leak_refuted.

Definition ex_s : lst := LSt (fun _ => TA 0x7ffe0000 0x800000 0) (0x800000, 4096) 1 0.
Definition ex_l : list call := [CCreate 1 0x700000 65536 8192; CCreateDefault 2 0x600000; CDefaultStack 1 0 0; CStack 2 0 0 0].
Theorem C64_ex : how ex_l 1 = MSizes 0x700000 65536 8192 /\ how ex_l 2 = MDefault 0x600000 /\
  fst (default_stack_size_ (calls ex_s ex_l) 1 0 0) = Returns 65536 /\ fst (l_default (calls ex_s ex_l)) = 0x800000 /\
  blocks (calls ex_s ex_l) = 2%nat.
Proof. repeat split. Qed.
