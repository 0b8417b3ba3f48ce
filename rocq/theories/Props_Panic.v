(** C79: an exit function that panics disturbs no other one. *)
From Coq Require Import ZArith List Bool Lia Arith Permutation.
From Verif Require Import LayoutModel DtorsModel DtorsSpec DtorsTop PanicModel PanicSpec PanicInv PanicTop PanicRun PanicOrder Props_Dtors.
Import ListNotations.
Open Scope Z_scope.

(** Whatever panics, exit functions are called last registered first: the
    function called by a thread is the first of those waiting on it, and the
    function an exit takes off the program list (which it then calls) is the
    first on it. *)
Theorem C79_lifo : forall c tr t s,
  (forall f, pexec c (tr ++ [(t, PEv (CallT f))]) s -> exists rest, waiting t (plainly tr) = f :: rest) /\
  (forall f, pexec c (tr ++ [(t, PEv (Take f))]) s -> exists rest, listed (plainly tr) = f :: rest) /\
  (forall f, pexec c (tr ++ [(t, PEv (CallP f))]) s -> exists pre, own t (plainly tr) = pre ++ [Take f; Unlock]).
Proof.
  intros. split; [|split]; intros f H; [eapply plifo_t|eapply plifo_p|eapply pcall_taken]; eauto.
Qed.
Print Assumptions C79_lifo.

(** None is called twice, not even the one that panicked, and only registered
    ones are called. *)
Theorem C79_once : forall c tr s, pexec c tr s ->
  NoDup (t_calls (plainly tr)) /\ NoDup (p_calls (plainly tr)) /\
  (forall t f, In (t, PEv (CallT f)) tr -> In (t, PEv (RegT f)) tr) /\
  (forall t f, In (t, PEv (CallP f)) tr -> In (t, PEv (Take f)) tr /\ exists u, In (u, PEv (RegP f)) tr).
Proof.
  intros c tr s H. split; [eapply ponce_t; eauto|]. split; [eapply ponce_p; eauto|].
  split; intros; [eapply pcallt_reg; eauto|eapply pcallp_reg; eauto].
Qed.
Print Assumptions C79_once.

(** None is lost: at any time, a registered function has been called (for the
    program list: taken by an exit) or is still waiting to be. *)
Theorem C79_kept : forall c tr s, pexec c tr s ->
  (forall t f, In (t, PEv (RegT f)) tr -> In (t, PEv (CallT f)) tr \/ In f (waiting t (plainly tr))) /\
  (forall u f, In (u, PEv (RegP f)) tr -> (exists v, In (v, PEv (Take f)) tr) \/ In f (listed (plainly tr))).
Proof. intros c tr s H. split; intros; [eapply pregt_all; eauto|eapply pregp_all; eauto]. Qed.
Print Assumptions C79_kept.

(** A panic leaves only a function called by a program::exit that user code
    called.  It arrives there, the process goes on, and the thread does not
    hold the registration lock unless it has gone on to the .fini_array. *)
Theorem C79_caught : forall c tr t w s, pexec c (tr ++ [(t, Unwound w)]) s ->
  term s = None /\ (exists w' fs, frames s t = FUser w' :: fs) /\
  ((exists f, w = WT f /\ In (t, PEv (CallT f)) tr) \/ (exists f, w = WP f /\ In (t, PEv (CallP f)) tr)) /\
  (c_thread c = true -> (forall k, ~ In (t, PEv (CallF k)) tr) -> holder (plainly tr) <> Some t).
Proof.
  intros c tr t w s H. destruct (punw_state _ _ _ _ _ H) as (A & B & C). split; [exact A|]. split; [exact B|]. split; [exact C|].
  intros. eapply punw_lock; eauto.
Qed.
Print Assumptions C79_caught.

(** Which panics can be caught: those with user code below the origin function
    that called the panicking one.  All others end the process at once, and so
    does one in a .fini_array function. *)
Theorem C79_abort : forall c tr s t w fs, pexec c tr s -> term s = None -> frames s t = FUser w :: fs ->
  ((forall k, w <> WF k) ->
   (exists x w' l s', fs = x :: FUser w' :: l /\ pstep c s t PPanic = Some (Unwound w, s') /\ frames s' t = FUser w' :: l /\ term s' = None) \/
   ((forall x w' l, fs <> x :: FUser w' :: l) /\ exists s', pstep c s t PPanic = Some (Aborted, s') /\ term s' = Some (Killed 6))) /\
  (forall k, w = WF k -> exists s', pstep c s t PPanic = Some (Aborted, s') /\ term s' = Some (Killed 6)).
Proof.
  intros c tr s t w fs H T F. split; [intros N; eapply ppanic; eauto|]. intros k ->. eapply ppanic_fini; eauto.
Qed.
Print Assumptions C79_abort.
(** Nothing runs after the process was aborted, or ended otherwise. *)
Theorem C79_last : forall c a t e b s,
  pexec c (a ++ (t, e) :: b) s -> (e = Aborted \/ exists o, e = PEv (Term o)) -> b = [].
Proof. exact pafter. Qed.
Print Assumptions C79_last.

(** A thread that exits normally has called all functions registered on it,
    and each came to its end. *)
Theorem C79_thread : forall c tr t s, pexec c (tr ++ [(t, PEv ThreadDone)]) s ->
  forall f, In (t, PEv (RegT f)) tr -> In (t, PEv (CallT f)) tr /\ ended t (WT f) tr.
Proof. exact pdone_all. Qed.
Print Assumptions C79_thread.

(** A program::exit left by no panic does all of its work, whatever panicked
    before it or on other threads meanwhile. *)
Theorem C79_order : forall c t st before during tr o s,
  pexits_by t st before during tr o -> pexec c tr s ->
  o = Exited st /\
  (exists lt lp, calls t (plainly during) = map CT lt ++ map CP lp ++ map CF (rev (seq 0 (fini_called c)))) /\
  (forall f, In f (waiting t (plainly before)) -> In (t, PEv (CallT f)) during) /\
  (c_pae c = true -> forall f, In f (listed (plainly before)) -> exists u, In (u, PEv (Take f)) during).
Proof.
  intros c t st before during tr o s HX H.
  destruct (pexits_inv _ _ _ _ _ _ _ _ HX H) as [s0 [base [_ [_ [Ho HC]]]]].
  split; [exact Ho|]. split; [exact HC|]. split; [eapply pexit_waiting; eauto|]. intros Hp. eapply pexit_listed; eauto.
Qed.
Print Assumptions C79_order.

(** After any panics, program::exit can be called again: with the registry
    free, other threads idle and functions returning, it ends the process after
    calling exactly what is left. *)
Theorem C79_again : forall c tr s t w l0 st, pexec c tr s -> term s = None -> frames s t = FUser w :: l0 ->
  (c_thread c = true -> holder (plainly tr) = None) ->
  exists during s', pexec c (tr ++ (t, PEv (ExitCall st)) :: lift during ++ [(t, PEv (Term (Exited st)))]) s' /\
    Forall (fun x => fst x = t) during /\ Forall (fun e => ending e = false) (own t during) /\
    calls t during = map CT (waiting t (plainly tr)) ++ map CP (listed (plainly tr)) ++ map CF (rev (seq 0 (fini_called c))).
Proof. exact pexit_again. Qed.
Print Assumptions C79_again.
Theorem C79_thread_again : forall c tr s t, pexec c tr s -> term s = None -> frames s t = [FDtors] ->
  exists during s', pexec c (tr ++ lift during ++ [(t, PEv ThreadDone)]) s' /\
    Forall (fun x => fst x = t) during /\ calls t during = map CT (waiting t (plainly tr)).
Proof. exact pthread_again. Qed.
Print Assumptions C79_thread_again.

(** Without panics: the histories of C34-C36. *)
Theorem C79_conservative : forall c tr s, exec c tr s <-> pexec c (lift tr) s.
Proof. intros. split; [apply exec_pexec|]. intros H. eapply pexec_exec; eauto. Qed.
Print Assumptions C79_conservative.

(** origin_main registers thread function 0, program functions 1 and 2 and
    calls exit(1) under catch_unwind.  Function 0 returns, 2 panics; main goes
    on, registers thread function 3 and calls exit(7): 3, 1, then the
    .fini_array. *)
Definition pgo (t n : nat) : list (nat * paction) := repeat (t, PA AGo) n.
Definition l_C79_ex : list (nat * paction) :=
  ([(0, PA ARegT); (0, PA ARegP)] ++ pgo 0 3 ++ [(0, PA ARegP)] ++ pgo 0 3 ++ [(0, PA (AExit 1)); (0, PA AGo); (0, PA (ARet 0))]
   ++ pgo 0 5 ++ [(0, PPanic); (0, PA ARegT); (0, PA (AExit 7)); (0, PA AGo); (0, PA (ARet 0))]
   ++ pgo 0 5 ++ [(0, PA (ARet 0))] ++ pgo 0 3 ++ [(0, PA (ARet 0))] ++ pgo 0 1 ++ [(0, PA (ARet 0))] ++ pgo 0 1)%nat.
Definition tr_C79_ex : ptrace := Eval vm_compute in match pplay all_on dinit [] l_C79_ex with Some (tr, _) => tr | None => [] end.
Lemma pplay_pexec c : forall l s tr tr' s', pexec c tr s -> pplay c s tr l = Some (tr', s') -> pexec c tr' s'.
Proof.
  induction l as [|[t a] l IH]; intros s tr tr' s' H P; cbn in P; [inversion P; subst; exact H|].
  destruct (pstep c s t a) as [[e s1]|] eqn:D; [|discriminate]. eapply IH; [|exact P]. econstructor; eauto.
Qed.
Definition before_C79_ex : ptrace := Eval vm_compute in firstn 19 tr_C79_ex.
Definition during_C79_ex : ptrace := Eval vm_compute in removelast (skipn 20 tr_C79_ex).
Theorem C79_ex : exists tr s, pexec all_on tr s /\
  In (0%nat, Unwound (WP 2%nat)) before_C79_ex /\
  pexits_by 0 7 before_C79_ex during_C79_ex tr (Exited 7) /\ term s = Some (Exited 7) /\
  waiting 0 (plainly before_C79_ex) = [3%nat] /\ listed (plainly before_C79_ex) = [1%nat] /\
  calls 0 (plainly tr) = [CT 0; CP 2; CT 3; CP 1; CF 1; CF 0]%nat.
Proof.
  destruct (pplay all_on dinit [] l_C79_ex) as [[tr s]|] eqn:P; [|discriminate P].
  exists tr, s. split; [eapply pplay_pexec; [constructor|exact P]|].
  vm_compute in P. injection P as <- <-.
  split; [vm_compute; tauto|]. split; [split; [vm_compute; reflexivity|]|].
  - split.
    + intros e K. unfold during_C79_ex in K. cbn in K. repeat (destruct K as [K|K]; [inversion K; subst; reflexivity|]). contradiction.
    + intros w K. unfold during_C79_ex in K. cbn in K. repeat (destruct K as [K|K]; [discriminate K|]). contradiction.
  - vm_compute. auto.
Qed.
(** An exit function called because origin_main returned panics: abort. *)
Theorem C79_abort_ex : exists tr s, pexec all_on (tr ++ [(0%nat, Aborted)]) s /\ In (0%nat, PEv (CallT 0%nat)) tr.
Proof.
  destruct (pplay all_on dinit [] [(0, PA ARegT); (0, PA (ARet 0)); (0, PA AGo); (0, PPanic)]%nat) as [[tr s]|] eqn:P; [|discriminate P].
  exists [(0, PEv (RegT 0)); (0, PEv (ExitCall 0)); (0, PEv (CallT 0))]%nat, s.
  pose proof (pplay_pexec _ _ _ _ _ _ (px_init _) P) as H. vm_compute in P. injection P as <- <-.
  split; [exact H|]. cbn. tauto.
Qed.
