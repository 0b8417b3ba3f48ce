(** C75: frames of Rust code are transparent to unwinding, and panics trap. *)
From Coq Require Import ZArith List Bool String Lia.
From Verif Require Import LayoutModel DtorsModel Props_Dtors UnwindSpec UnwindModel.
Import ListNotations.
Open Scope Z_scope.

Section Unwind.
Context {St : Type}.

(** Frames of Rust code, with whatever landing pads the compiler gave them,
    name origin's personality; others have their own. *)
Inductive sframe := Rust (name : nat) (pad : St -> @landing St) | Foreign (f : @uframe St).
Definition ufr (f : sframe) : uframe := match f with Rust n p => UFrame n rust_eh_personality p | Foreign f => f end.
Definition stack (l : list sframe) : list uframe := map ufr l.
Definition foreign (l : list sframe) : list sframe := filter (fun f => match f with Foreign _ => true | _ => false end) l.

Lemma search_foreign cls exc l : forall s,
  match search 1 cls exc (stack l) s with
  | (inl k, s') => exists k', search 1 cls exc (stack (foreign l)) s = (inl k', s') /\
      forall s2, cleanup 1 cls exc (stack l) k s2 = cleanup 1 cls exc (stack (foreign l)) k' s2
  | (inr e, s') => search 1 cls exc (stack (foreign l)) s = (inr e, s')
  end.
Proof.
  induction l as [|f l IH]; intros s; [reflexivity|]. destruct f as [n p|f].
  - change (foreign (Rust n p :: l)) with (foreign l). cbn [stack map ufr search u_pers]. fold (stack l). cbn. specialize (IH s). destruct (search 1 cls exc (stack l) s) as [[k|e] s']; [|exact IH].
    destruct IH as (k' & H & C). exists k'. split; [exact H|]. exact C.
  - change (foreign (Foreign f :: l)) with (Foreign f :: foreign l). cbn [stack map ufr search cleanup]. fold (stack l). fold (stack (foreign l)). destruct (u_pers f 1 SEARCH_PHASE cls exc s) as [code s1]. destruct (code =? HANDLER_FOUND).
    + exists O. split; [reflexivity|]. intros s2. destruct (u_pers f 1 (CLEANUP_PHASE + HANDLER_FRAME) cls exc s2) as [c2 s3]. reflexivity.
    + destruct (code =? CONTINUE_UNWIND); [|reflexivity]. specialize (IH s1).
      destruct (search 1 cls exc (stack l) s1) as [[k|e] s']; [|rewrite IH; reflexivity].
      destruct IH as (k' & H & C). rewrite H. exists (S k'). split; [reflexivity|]. intros s2.
      destruct (u_pers f 1 CLEANUP_PHASE cls exc s2) as [c2 s3]. rewrite <- !C.
      destruct (u_pad f s3) as [s4|s4]; rewrite ?C; reflexivity.
Qed.

(** Raising an exception through any stack: the handler that gets control, the
    clean-ups of foreign frames that run before it and their order, or that
    there is none, are as if the Rust frames were not there.  In particular no
    Rust frame catches, runs a clean-up, or makes unwinding fail. *)
Theorem C75_transparent : forall cls exc l s,
  raise 1 cls exc (stack l) s = raise 1 cls exc (stack (foreign l)) s.
Proof.
  intros cls exc l s. unfold raise. pose proof (search_foreign cls exc l s) as H.
  destruct (search 1 cls exc (stack l) s) as [[k|e] s']; [|now rewrite H]. destruct H as (k' & H & C). rewrite H. apply C.
Qed.
(** A program without foreign frames: nothing happens, the unwinder reports the
    end of the stack. *)
Corollary C75_rust_only : forall cls exc l s, foreign l = [] -> raise 1 cls exc (stack l) s = Returned END_OF_STACK s.
Proof. intros cls exc l s H. rewrite C75_transparent, H. reflexivity. Qed.
(** Forced unwinding, if it is not to stop in a Rust frame. *)
Theorem C75_forced : forall cls exc stop l s,
  (forall n p s, In (Rust n p) l -> stop n s = None) ->
  forced 1 cls exc stop (stack l) s = forced 1 cls exc stop (stack (foreign l)) s.
Proof.
  intros cls exc stop l. induction l as [|f l IH]; intros s H; [reflexivity|].
  assert (IH' : forall s, forced 1 cls exc stop (stack l) s = forced 1 cls exc stop (stack (foreign l)) s) by (intros; apply IH; intros; eapply H; right; eauto).
  destruct f as [n p|f].
  - change (foreign (Rust n p :: l)) with (foreign l). cbn. fold (stack l). rewrite (H n p s) by (left; reflexivity). apply IH'.
  - change (foreign (Foreign f :: l)) with (Foreign f :: foreign l). cbn [stack map ufr forced]. fold (stack l). fold (stack (foreign l)).
    destruct (stop (u_name f) s); [reflexivity|]. destruct (u_pers f 1 (CLEANUP_PHASE + FORCE_UNWIND) cls exc s) as [c s1].
    rewrite !IH'. destruct (u_pad f s1); rewrite ?IH'; reflexivity.
Qed.
(** An unwinder of another version of the ABI is told to stop at the first Rust
    frame: no frame beyond it is asked, nothing is unwound. *)
Theorem C75_version : forall v cls exc a n p l s, v <> 1 ->
  (forall f s, In (Foreign f) a -> u_pers f v SEARCH_PHASE cls exc s = (CONTINUE_UNWIND, s)) ->
  raise v cls exc (stack (a ++ Rust n p :: l)) s = Returned FATAL_PHASE1_ERROR s.
Proof.
  intros v cls exc a n p l s Hv H. apply Z.eqb_neq in Hv.
  assert (X : search v cls exc (stack (a ++ Rust n p :: l)) s = (inr FATAL_PHASE1_ERROR, s)).
  { induction a as [|f a IH]; cbn; [unfold rust_eh_personality; rewrite Hv; reflexivity|].
    destruct f as [n' p'|f]; cbn; [unfold rust_eh_personality; rewrite Hv; reflexivity|].
    rewrite (H f s) by (left; reflexivity). cbn. unfold stack in IH. rewrite IH; [reflexivity|]. intros; apply H; right; assumption. }
  unfold raise. now rewrite X.
Qed.
End Unwind.

(** With panic-handler-trap, every symbol of the unwinder is defined; a call of any of them panics,
    which executes the trap instruction: the process is killed by SIGILL (SIGTRAP
    on aarch64; see C37), and nothing else of the program runs in that thread. *)
Theorem C75_stubs : forall a name, In name (abi_symbols (match a with Arm => true | _ => false end)) ->
  exists i, call_stub true a name = Some (TrapInsn i) /\ linux_signal i = match a with Aarch64 => 5 | _ => 4 end.
Proof.
  intros a name H. unfold call_stub.
  assert (E : existsb (String.eqb name) (stub_names a) = true).
  { apply existsb_exists. exists name. split; [|apply String.eqb_refl]. destruct a; cbn in H |- *; intuition (subst; tauto). }
  rewrite E. eexists. split; [reflexivity|]. destruct a; reflexivity.
Qed.

(** A C++-like frame that catches (name 2), below two Rust frames and a frame with
    a clean-up (name 1): the clean-up runs, then the handler; the Rust landing
    pads, which would record 100, do not run. *)
Definition ux_rust (n : nat) : @sframe (list Z) := Rust n (fun s => Catches (100 :: s)).
Definition ux_pers (catches : bool) : @personality (list Z) := fun v act _ _ s =>
  if act =? SEARCH_PHASE then (if catches then HANDLER_FOUND else CONTINUE_UNWIND, s) else (INSTALL_CONTEXT, s).
Definition ux_stack : list sframe :=
  [ux_rust 10; Foreign (UFrame 1 (ux_pers false) (fun s => Resumes (1 :: s))); ux_rust 11; Foreign (UFrame 2 (ux_pers true) (fun s => Catches (2 :: s))); ux_rust 12].
Theorem C75_ex : raise 1 77 88 (stack ux_stack) [] = Caught 2 [2; 1] /\ raise 2 77 88 (stack ux_stack) [] = Returned FATAL_PHASE1_ERROR [] /\
  forced 1 77 88 (fun n s => if Nat.eqb n 2 then Some s else None) (stack ux_stack) [] = Caught 2 [1] /\
  call_stub true Arm "_Unwind_VRS_Get" = Some (TrapInsn Udf) /\ call_stub true X86_64 "_Unwind_VRS_Get" = None.
Proof. repeat split; vm_compute; reflexivity. Qed.
Print Assumptions C75_transparent. Print Assumptions C75_rust_only. Print Assumptions C75_forced. Print Assumptions C75_version.
Print Assumptions C75_stubs. Print Assumptions C75_ex.
