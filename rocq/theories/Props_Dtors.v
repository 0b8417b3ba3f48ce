(** Properties C34-C38: exit functions.  Model: DtorsModel.v; vocabulary:
    DtorsSpec.v.  [exec c tr s]: [tr] is a history of the program (any number
    of threads, any interleaving, arbitrary user code) ending in state [s]. *)
From Coq Require Import ZArith List Bool Lia Arith Permutation.
From Verif Require Import LayoutModel DtorsModel DtorsSpec DtorsFacts DtorsInv DtorsPres DtorsTop DtorsTop2 DtorsTop3 DtorsTop4.
Import ListNotations.

Lemma play_exec c l : forall tr s tr' s', exec c tr s -> play c s tr l = Some (tr', s') -> exec c tr' s'.
Proof.
  induction l as [|[t a] l IH]; intros tr s tr' s' H P; simpl in P.
  - inversion P; subst; exact H.
  - destruct (dstep c s t a) as [[e s1]|] eqn:D; [|discriminate]. eapply IH; [|exact P]. econstructor; eauto.
Qed.
Lemma played c l tr : option_map fst (play c dinit [] l) = Some tr -> exists s, exec c tr s.
Proof.
  destruct (play c dinit [] l) as [[tr' s]|] eqn:P; simpl; intros H; inversion H; subst.
  exists s. eapply play_exec; [constructor|exact P].
Qed.

Definition all_on : dcfg := DCfg true true true true 2 X86_64.
Definition single : dcfg := DCfg false false true true 1 X86_64.
Definition no_pae : dcfg := DCfg true true false true 1 X86_64.
Definition trace_of (c : dcfg) (l : list (nat * action)) : trace :=
  match play c dinit [] l with Some (tr, _) => tr | None => [] end.
Definition go (t n : nat) : list (nat * action) := repeat (t, AGo) n.

(** ** C34: thread::at_exit *)

(** Each call is of the most recently registered function still waiting on
    that thread. *)
Theorem C34_lifo : forall c tr t f s,
  exec c (tr ++ [(t, CallT f)]) s -> exists rest, waiting t tr = f :: rest.
Proof. exact lifo_t. Qed.
Print Assumptions C34_lifo.

(** No function is called twice, on any thread, and it is called on the
    thread that registered it. *)
Theorem C34_once : forall c tr s,
  exec c tr s -> NoDup (t_calls tr) /\ forall t f, In (t, CallT f) tr -> In (t, RegT f) tr.
Proof. intros c tr s H. split; [eapply once_t; eauto|]. intros t f. apply (callt_reg c tr s). apply exec_inv; exact H. Qed.
Print Assumptions C34_once.

(** When a thread is seen as exited, every function it ever registered has
    been called on it and has returned; nothing of the thread runs later. *)
Theorem C34_all_before_exit : forall c tr t s,
  exec c (tr ++ [(t, ThreadDone)]) s ->
  forall f, In (t, RegT f) tr -> In (t, CallT f) tr /\ In (t, Ret (WT f)) tr.
Proof. exact done_all. Qed.
Print Assumptions C34_all_before_exit.

Theorem C34_nothing_after : forall c t s a b,
  exec c (a ++ (t, ThreadDone) :: b) s -> own t b = [].
Proof. exact after_done. Qed.
Print Assumptions C34_nothing_after.

(** A thread whose function has returned does get to its exit, and if the
    waiting functions just return, the calls made are exactly those. *)
Theorem C34_completes : forall c tr s t,
  exec c tr s -> term s = None -> frames s t = [FDtors] ->
  exists tr' s', exec c (tr ++ tr' ++ [(t, ThreadDone)]) s' /\ solo t tr' /\ calls t tr' = map CT (waiting t tr).
Proof. exact thread_runs. Qed.
Print Assumptions C34_completes.

(** A thread registers 0 and 1; 1 registers 2 when called: calls 1, 2, 0. *)
Definition l_C34_ex := ([(0, ASpawn); (1, ARegT); (1, ARegT); (1, ARet 0); (1, AGo); (1, ARegT); (1, ARet 0);
              (1, AGo); (1, ARet 0); (1, AGo); (1, ARet 0); (1, AGo)])%nat.
Definition tr_C34_ex : trace := Eval vm_compute in trace_of all_on l_C34_ex.
Definition seg1_C34_ex : trace := Eval vm_compute in (removelast tr_C34_ex).
Theorem C34_ex : exists tr s, exec all_on (tr ++ [(1%nat, ThreadDone)]) s /\ calls 1 tr = [CT 1; CT 2; CT 0]%nat.
Proof.
  destruct (played all_on l_C34_ex tr_C34_ex) as [s H]; [vm_compute; reflexivity|].
  exists seg1_C34_ex, s. split; [exact H|vm_compute; reflexivity].
Qed.

Definition l_C34_completes_ex := ([(0, ASpawn); (1, ARegT); (1, ARegT); (1, ARet 0)])%nat.
Definition tr_C34_completes_ex : trace := Eval vm_compute in trace_of all_on l_C34_completes_ex.
Theorem C34_completes_ex : exists tr s, exec all_on tr s /\ term s = None /\ frames s 1 = [FDtors] /\ waiting 1 tr = [1; 0]%nat.
Proof.
  destruct (play all_on dinit [] l_C34_completes_ex) as [[tr s]|] eqn:P; [|discriminate].
  exists tr, s. split; [eapply play_exec; [constructor|exact P]|]. inversion P; subst. vm_compute. auto.
Qed.

(** ** C35: program::exit *)

(** A completed program::exit(st) by [t] called, in this order: thread
    functions, program functions, then every .fini_array entry in reverse;
    it ended the process with [st]; all functions waiting on the thread at the
    call were called; all functions on the program list at the call were taken
    off it. *)
Theorem C35_order : forall c t st before during tr o s,
  exits_by t st before during tr o -> exec c tr s ->
  o = Exited st /\
  (exists lt lp, calls t during = map CT lt ++ map CP lp ++ map CF (rev (seq 0 (fini_called c)))) /\
  (forall f, In f (waiting t before) -> In (t, CallT f) during) /\
  (c_pae c = true -> forall f, In f (listed before) -> exists u, In (u, Take f) during).
Proof.
  intros c t st before during tr o s HX H.
  destruct (exits_inv _ _ _ _ _ _ _ _ HX H) as [s0 [base [_ [_ [Ho HC]]]]].
  repeat split; auto.
  - eapply exit_calls_waiting; eauto.
  - intros Hp. eapply exit_takes_listed; eauto.
Qed.
Print Assumptions C35_order.

(** Program functions are taken most recently registered first, and what a
    thread has taken is what it calls. *)
Theorem C35_lifo : forall c tr t f s,
  exec c (tr ++ [(t, Take f)]) s -> exists rest, listed tr = f :: rest.
Proof. exact lifo_p. Qed.
Print Assumptions C35_lifo.
Theorem C35_taken_is_called : forall c tr t f s,
  exec c (tr ++ [(t, CallP f)]) s -> exists pre, own t tr = pre ++ [Take f; Unlock].
Proof. exact call_taken. Qed.
Print Assumptions C35_taken_is_called.

(** Functions registered meanwhile: when the exit finds the list empty and
    goes on, every function registered so far has been taken. *)
Theorem C35_meanwhile : forall c tr t s,
  exec c (tr ++ [(t, Empty)]) s -> forall u f, In (u, RegP f) tr -> exists v, In (v, Take f) tr.
Proof.
  intros c tr t s H u f Hf. snoc H s0 I E. pose proof (e_guard _ _ _ _ _ E) as G. simpl in G.
  pose proof (i_permp _ _ _ I) as P. rewrite G, app_nil_r in P.
  assert (R : In f (pick g_take tr)).
  { eapply Permutation_in; [exact P|]. apply pick_in. exists u, (RegP f). simpl; auto. }
  apply pick_in in R. destruct R as [v [e [R1 R2]]]. destruct e; simpl in R2; try contradiction.
  destruct R2 as [->|[]]. eauto.
Qed.
Print Assumptions C35_meanwhile.

(** program::exit called by user code, registry free, other threads idle and
    functions just returning: it ends the process after calling exactly the
    registered functions. *)
Theorem C35_completes : forall c tr s t w l0 st,
  exec c tr s -> term s = None -> frames s t = FUser w :: l0 -> (c_thread c = true -> holder tr = None) ->
  exists during s', exec c (tr ++ (t, ExitCall st) :: during ++ [(t, Term (Exited st))]) s' /\
    exits_by t st tr during (tr ++ (t, ExitCall st) :: during ++ [(t, Term (Exited st))]) (Exited st) /\
    Forall (fun x => fst x = t) during /\
    calls t during = map CT (waiting t tr) ++ map CP (listed tr) ++ map CF (rev (seq 0 (fini_called c))).
Proof. exact exit_runs. Qed.
Print Assumptions C35_completes.

(** No .fini_array entry is called twice in the life of the process, with
    `thread` and `program-at-exit`; the calls made are always a prefix of the
    reverse array order.  Missing: the other configurations, where it is false
    ([C35_fini_twice_refuted]). *)
Theorem C35_fini_once_partial : forall c tr s,
  c_thread c = true -> c_pae c = true -> exec c tr s ->
  exists k, (k <= fini_called c)%nat /\ f_calls tr = rev (seq k (fini_called c - k)).
Proof.
  intros c tr s Hc Hp H. destruct (fini_once c tr s H Hc Hp) as [[_ ->]|[t [k [_ [Hk [_ ->]]]]]].
  - exists (fini_called c). rewrite Nat.sub_diag. auto.
  - exists k. auto.
Qed.
Print Assumptions C35_fini_once_partial.

(** Without `program-at-exit`, two threads that call program::exit both run
    the .fini_array functions. *)
Definition l_C35_fini_twice_refuted := ([(0, ASpawn); (0, AExit 0); (1, AExit 0); (0, AGo); (1, AGo); (0, AGo); (1, AGo)])%nat.
Definition tr_C35_fini_twice_refuted : trace := Eval vm_compute in trace_of no_pae l_C35_fini_twice_refuted.
Theorem C35_fini_twice_refuted : exists c tr s, exec c tr s /\ c_thread c = true /\ ~ NoDup (f_calls tr).
Proof.
  destruct (played no_pae l_C35_fini_twice_refuted tr_C35_fini_twice_refuted) as [s H]; [vm_compute; reflexivity|].
  exists no_pae. eexists. exists s. split; [exact H|]. split; [reflexivity|]. vm_compute.
  intros N. inversion N as [|? ? N1 _]. apply N1. simpl; auto.
Qed.
Print Assumptions C35_fini_twice_refuted.

(** origin_main registers on both lists and returns 7; the last program
    function registers another one when it runs. *)
Definition l_C35_ex := ([(0, ARegT)] ++ [(0, ARegP)] ++ go 0 3 ++ [(0, ARegP)] ++ go 0 3 ++ [(0, ARet 7)]
             ++ [(0, AGo); (0, ARet 0); (0, AGo)]
             ++ go 0 4 ++ [(0, ARegP)] ++ go 0 3 ++ [(0, ARet 0)] ++ go 0 4 ++ [(0, ARet 0)] ++ go 0 4 ++ [(0, ARet 0)]
             ++ go 0 2 ++ go 0 1 ++ [(0, ARet 0)] ++ go 0 1 ++ [(0, ARet 0)] ++ go 0 1)%nat.
Definition tr_C35_ex : trace := Eval vm_compute in trace_of all_on l_C35_ex.
Definition seg1_C35_ex : trace := Eval vm_compute in (firstn 9 tr_C35_ex).
Definition seg2_C35_ex : trace := Eval vm_compute in (removelast (skipn 10 tr_C35_ex)).
Theorem C35_ex : exists before during tr s,
  exits_by 0 7 before during tr (Exited 7) /\ exec all_on tr s /\
  calls 0 during = [CT 0; CP 2; CP 3; CP 1; CF 1; CF 0]%nat.
Proof.
  destruct (played all_on l_C35_ex tr_C35_ex) as [s H]; [vm_compute; reflexivity|].
  exists seg1_C35_ex, seg2_C35_ex, tr_C35_ex, s.
  split; [split; [vm_compute; reflexivity|]|split; [exact H|vm_compute; reflexivity]].
  vm_compute. repeat constructor.
Qed.

(** ** C36: program::at_exit under concurrency *)

(** No program function is called twice, and only registered functions are
    called. *)
Theorem C36_once : forall c tr s,
  exec c tr s -> NoDup (p_calls tr) /\ forall t f, In (t, CallP f) tr -> exists u, In (u, RegP f) tr.
Proof.
  intros c tr s H. split; [eapply once_p; eauto|]. intros t f Hf. pose proof (exec_inv _ _ _ H) as I.
  assert (T : In f (opick g_take t tr)).
  { rewrite (i_take _ _ _ I). apply in_or_app. left. apply opick_in. exists (CallP f). simpl; auto. }
  apply opick_sub in T.
  assert (R : In f (pick g_regp tr)).
  { eapply Permutation_in; [apply Permutation_sym, (i_permp _ _ _ I)|]. apply in_or_app; auto. }
  apply pick_in in R. destruct R as [v [e [R1 R2]]]. destruct e; simpl in R2; try contradiction. destruct R2 as [->|[]]. eauto.
Qed.
Print Assumptions C36_once.

(** No registration is lost, if only one thread ever calls program::exit: when
    that call ends the process, every registered function has been called by
    it.  Missing: several threads in program::exit at once, where it is false
    ([C36_lost_refuted]; every function has then still been taken off the
    list: [C36_taken]). *)
Theorem C36_none_lost_partial : forall c t st before during tr o s,
  c_thread c = true -> c_pae c = true ->
  exits_by t st before during tr o -> exec c tr s ->
  (forall u st', In (u, ExitCall st') tr -> u = t) ->
  forall u f, In (u, RegP f) tr -> In (t, CallP f) tr.
Proof. exact regp_called. Qed.
Print Assumptions C36_none_lost_partial.

Theorem C36_taken : forall c t st before during tr o s,
  c_thread c = true -> c_pae c = true ->
  exits_by t st before during tr o -> exec c tr s ->
  forall u f, In (u, RegP f) tr -> exists v, In (v, Take f) tr.
Proof. exact regp_taken. Qed.
Print Assumptions C36_taken.

(** Two threads in program::exit: one takes the function off the list, the
    other finds the list empty and ends the process before it is called. *)
Definition l_C36_lost_refuted := ([(0, ARegP)] ++ go 0 3 ++ [(0, ASpawn); (1, AExit 1)] ++ go 1 4
             ++ [(0, AExit 0)] ++ go 0 4 ++ [(0, ARet 0)] ++ go 0 1 ++ [(0, ARet 0)] ++ go 0 1)%nat.
Definition tr_C36_lost_refuted : trace := Eval vm_compute in trace_of all_on l_C36_lost_refuted.
Definition seg1_C36_lost_refuted : trace := Eval vm_compute in (firstn 10 tr_C36_lost_refuted).
Definition seg2_C36_lost_refuted : trace := Eval vm_compute in (removelast (skipn 11 tr_C36_lost_refuted)).
Theorem C36_lost_refuted : exists c tr s t st before during o,
  exec c tr s /\ exits_by t st before during tr o /\
  exists u f, In (u, RegP f) tr /\ In (u, EndP) tr /\ (forall v, ~ In (v, CallP f) tr).
Proof.
  destruct (played all_on l_C36_lost_refuted tr_C36_lost_refuted) as [s H]; [vm_compute; reflexivity|].
  exists all_on, tr_C36_lost_refuted, s, 0%nat, 0%Z, seg1_C36_lost_refuted, seg2_C36_lost_refuted, (Exited 0).
  split; [exact H|]. split; [split; [vm_compute; reflexivity|vm_compute; repeat constructor]|].
  exists 0%nat, 0%nat. split; [vm_compute; tauto|]. split; [vm_compute; tauto|].
  intros v Hv. vm_compute in Hv. repeat (destruct Hv as [Hv|Hv]; [discriminate|]). exact Hv.
Qed.
Print Assumptions C36_lost_refuted.

(** No at_exit function is called while its caller holds the registration
    lock (a thread function called by a nested exit from a .fini_array
    function excepted).  Missing: .fini_array functions, which are called with
    the lock held ([C36_lock_refuted]). *)
Theorem C36_lock_partial : forall c tr t f s,
  c_thread c = true -> c_pae c = true ->
  (exec c (tr ++ [(t, CallP f)]) s -> holder tr <> Some t) /\
  (exec c (tr ++ [(t, CallT f)]) s -> (forall k, ~ In (t, CallF k) tr) -> holder tr <> Some t).
Proof. intros c tr t f s Hc Hp. split; [apply no_lock_p; auto|apply no_lock_t; auto]. Qed.
Print Assumptions C36_lock_partial.

Definition l_C36_lock_refuted := ([(0, AExit 0)] ++ go 0 4)%nat.
Definition tr_C36_lock_refuted : trace := Eval vm_compute in trace_of all_on l_C36_lock_refuted.
Definition seg1_C36_lock_refuted : trace := Eval vm_compute in (removelast tr_C36_lock_refuted).
Theorem C36_lock_refuted : exists c tr t k s, exec c (tr ++ [(t, CallF k)]) s /\ holder tr = Some t.
Proof.
  destruct (played all_on l_C36_lock_refuted tr_C36_lock_refuted) as [s H]; [vm_compute; reflexivity|].
  exists all_on, seg1_C36_lock_refuted, 0%nat, 1%nat, s. split; [exact H|vm_compute; reflexivity].
Qed.
Print Assumptions C36_lock_refuted.

(** After some exit has found the list empty, no registration completes on
    any thread: a registration is never accepted and then dropped. *)
Theorem C36_closed : forall c h tr1 tr2 s,
  c_thread c = true -> c_pae c = true -> exec c (tr1 ++ (h, Empty) :: tr2) s ->
  forall u f, ~ In (u, RegP f) tr2 /\ ~ In (u, Take f) tr2.
Proof. intros c h tr1 tr2 s Hc Hp H u f. apply (frozen c h tr1 tr2 s Hc Hp H u). Qed.
Print Assumptions C36_closed.

(** A thread inside origin's exit or registration code can always take its
    next step, except while another holds the lock; the holder can take its
    next step unless its exit has found the list empty. *)
Theorem C36_progress : forall c tr s t fr l,
  exec c tr s -> term s = None -> frames s t = fr :: l -> (forall w, fr <> FUser w) ->
  (exists e s', dstep c s t AGo = Some (e, s')) \/
  (c_thread c = true /\ exists h, holder tr = Some h /\
     ((exists e s', dstep c s h AGo = Some (e, s')) \/ In (h, Empty) tr)).
Proof. exact progress. Qed.
Print Assumptions C36_progress.

(** Three threads register and one exits while another is mid-registration. *)
Definition l_C36_ex := ([(0, ASpawn); (0, ASpawn); (2, ARegP)] ++ go 2 3 ++ [(1, ARegP); (0, AExit 0)] ++ go 0 4 ++ go 1 1 ++ go 0 1 ++ go 1 2 ++ [(0, ARet 0)]
             ++ go 0 4 ++ [(0, ARet 0)] ++ go 0 3 ++ [(0, ARet 0)] ++ go 0 1 ++ [(0, ARet 0)] ++ go 0 1)%nat.
Definition tr_C36_ex : trace := Eval vm_compute in trace_of all_on l_C36_ex.
Definition seg1_C36_ex : trace := Eval vm_compute in (firstn 7 tr_C36_ex).
Definition seg2_C36_ex : trace := Eval vm_compute in (removelast (skipn 8 tr_C36_ex)).
Theorem C36_ex : exists before during tr s,
  exits_by 0 0 before during tr (Exited 0) /\ exec all_on tr s /\
  (forall u st', In (u, ExitCall st') tr -> u = 0%nat) /\
  calls 0 during = [CP 0; CP 1; CF 1; CF 0]%nat /\ In (1%nat, RegP 1%nat) during.
Proof.
  destruct (played all_on l_C36_ex tr_C36_ex) as [s H]; [vm_compute; reflexivity|].
  exists seg1_C36_ex, seg2_C36_ex, tr_C36_ex, s.
  split; [split; [vm_compute; reflexivity|vm_compute; repeat constructor]|].
  split; [exact H|]. split; [|split; [vm_compute; reflexivity|vm_compute; tauto]].
  intros u st' Hu. vm_compute in Hu. repeat (destruct Hu as [Hu|Hu]; [first [discriminate|inversion Hu; reflexivity]|]). destruct Hu.
Qed.

(** ** C37: immediate_exit and trap *)

(** After immediate_exit(st), the thread does nothing but end the process with
    [st], and it can always do so. *)
Theorem C37_immediate : forall c t st tr1 tr2 s,
  exec c (tr1 ++ (t, ImmCall st) :: tr2) s ->
  calls t tr2 = [] /\
  ((own t tr2 = [] /\ (term s = None -> exists a s', dstep c s t a = Some (Term (Exited st), s'))) \/
   (exists pre, tr2 = pre ++ [(t, Term (Exited st))] /\ own t pre = [])).
Proof.
  intros c t st tr1 tr2 s H.
  pose proof (ending_only c t (ImmCall st) (Exited st) tr1 tr2 s (or_intror (ex_intro _ st (conj eq_refl eq_refl))) H) as Q.
  split; [|exact Q]. unfold calls. destruct Q as [[-> _]|[pre [-> O]]]; [reflexivity|].
  rewrite own_app, O, own_one, Nat.eqb_refl. reflexivity.
Qed.
Print Assumptions C37_immediate.

(** After trap(), the thread does nothing but end the process by SIGILL (4).
    Missing: aarch64 ([C37_trap_refuted]). *)
Theorem C37_trap_partial : forall c t tr1 tr2 s,
  c_arch c <> Aarch64 ->
  exec c (tr1 ++ (t, TrapCall) :: tr2) s ->
  calls t tr2 = [] /\
  ((own t tr2 = [] /\ (term s = None -> exists a s', dstep c s t a = Some (Term (Killed 4), s'))) \/
   (exists pre, tr2 = pre ++ [(t, Term (Killed 4))] /\ own t pre = [])).
Proof.
  intros c t tr1 tr2 s Ha H.
  assert (Hs : linux_signal (trap_insn (c_arch c)) = 4%Z) by (destruct (c_arch c); try reflexivity; congruence).
  pose proof (ending_only c t TrapCall (Killed (linux_signal (trap_insn (c_arch c)))) tr1 tr2 s (or_introl (conj eq_refl eq_refl)) H) as Q.
  rewrite Hs in Q.
  split; [|exact Q]. unfold calls. destruct Q as [[-> _]|[pre [-> O]]]; [reflexivity|].
  rewrite own_app, O, own_one, Nat.eqb_refl. reflexivity.
Qed.
Print Assumptions C37_trap_partial.

(** On aarch64 the trap is a `brk`: SIGTRAP (5), not SIGILL. *)
Theorem C37_trap_refuted : exists c t tr1 tr2 s,
  exec c (tr1 ++ (t, TrapCall) :: tr2) s /\ In (t, Term (Killed 5)) tr2.
Proof.
  pose (c := DCfg true true true true 2 Aarch64).
  destruct (played c [(0, ATrap); (0, AGo)]%nat [(0, TrapCall); (0, Term (Killed 5))]%nat) as [s H]; [vm_compute; reflexivity|].
  exists c, 0%nat, [], [(0%nat, Term (Killed 5))], s. split; [exact H|simpl; auto].
Qed.
Print Assumptions C37_trap_refuted.

(** With functions on every list, immediate_exit(3) ends the process at once. *)
Definition l_C37_ex := ([(0, ARegT); (0, ARegP)] ++ go 0 3 ++ [(0, AImm 3); (0, AGo)])%nat.
Definition tr_C37_ex : trace := Eval vm_compute in trace_of all_on l_C37_ex.
Definition seg1_C37_ex : trace := Eval vm_compute in (firstn 5 tr_C37_ex).
Theorem C37_ex : exists tr1 tr2 s, exec all_on (tr1 ++ (0%nat, ImmCall 3) :: tr2) s /\
  waiting 0 tr1 = [0]%nat /\ listed tr1 = [1]%nat /\ tr2 = [(0%nat, Term (Exited 3))].
Proof.
  destruct (played all_on l_C37_ex tr_C37_ex) as [s H]; [vm_compute; reflexivity|].
  exists seg1_C37_ex, [(0%nat, Term (Exited 3))], s. split; [exact H|vm_compute; auto].
Qed.

(** ** C38: what becomes of functions registered during an exit *)

(** thread::at_exit during program::exit: the function is called exactly when
    the registering function is itself a thread::at_exit function.  This is
    the full answer; the property asks for "always". *)
Theorem C38_thread_fns_partial : forall c t st before d1 d2 f tr o s,
  exits_by t st before (d1 ++ (t, RegT f) :: d2) tr o -> exec c tr s ->
  exists l x, calls t d1 = l ++ [x] /\ (In (t, CallT f) d2 <-> exists g, x = CT g).
Proof. exact exit_calls_new. Qed.
Print Assumptions C38_thread_fns_partial.

(** program::at_exit on the exiting thread, with `thread`: always called, if
    only this thread exits the program. *)
Theorem C38_program_fns_partial : forall c t st before during tr o s,
  c_thread c = true -> c_pae c = true ->
  exits_by t st before during tr o -> exec c tr s ->
  (forall u st', In (u, ExitCall st') tr -> u = t) ->
  forall f, In (t, RegP f) tr -> In (t, CallP f) tr.
Proof. intros c t st before during tr o s Hc Hp HX H HO f. apply (regp_called c t st before during tr o s Hc Hp HX H HO t f). Qed.
Print Assumptions C38_program_fns_partial.

(** A thread::at_exit registration made by a program::at_exit function is
    silently dropped. *)
Definition l_C38_refuted := ([(0, ARegP)] ++ go 0 3 ++ [(0, AExit 0)] ++ go 0 5 ++ [(0, ARegT); (0, ARet 0)] ++ go 0 3 ++ [(0, ARet 0)] ++ go 0 1 ++ [(0, ARet 0)] ++ go 0 1)%nat.
Definition tr_C38_refuted : trace := Eval vm_compute in trace_of all_on l_C38_refuted.
Definition seg1_C38_refuted : trace := Eval vm_compute in (firstn 4 tr_C38_refuted).
Definition seg2_C38_refuted : trace := Eval vm_compute in (removelast (skipn 5 tr_C38_refuted)).
Theorem C38_refuted : exists c t st before during tr o s f,
  exits_by t st before during tr o /\ exec c tr s /\ In (t, RegT f) during /\ (forall u, ~ In (u, CallT f) tr).
Proof.
  destruct (played all_on l_C38_refuted tr_C38_refuted) as [s H]; [vm_compute; reflexivity|].
  exists all_on, 0%nat, 0%Z, seg1_C38_refuted, seg2_C38_refuted, tr_C38_refuted, (Exited 0), s, 1%nat.
  split; [split; [vm_compute; reflexivity|vm_compute; repeat constructor]|]. split; [exact H|]. split; [vm_compute; tauto|].
  intros v Hv. vm_compute in Hv. repeat (destruct Hv as [Hv|Hv]; [discriminate|]). exact Hv.
Qed.
Print Assumptions C38_refuted.

(** Without `thread`, a program::at_exit registration made by a .fini_array
    function is silently dropped; with `thread` the call never returns. *)
Definition l_C38_fini_refuted := ([(0, AExit 0)] ++ go 0 3 ++ [(0, ARegP)] ++ go 0 3 ++ [(0, ARet 0)] ++ go 0 1)%nat.
Definition tr_C38_fini_refuted : trace := Eval vm_compute in trace_of single l_C38_fini_refuted.
Definition seg1_C38_fini_refuted : trace := Eval vm_compute in (firstn 0 tr_C38_fini_refuted).
Definition seg2_C38_fini_refuted : trace := Eval vm_compute in (removelast (skipn 1 tr_C38_fini_refuted)).
Theorem C38_fini_refuted : exists t st before during tr o s f,
  exits_by t st before during tr o /\ exec single tr s /\ In (t, RegP f) during /\ (forall u, ~ In (u, CallP f) tr).
Proof.
  destruct (played single l_C38_fini_refuted tr_C38_fini_refuted) as [s H]; [vm_compute; reflexivity|].
  exists 0%nat, 0%Z, seg1_C38_fini_refuted, seg2_C38_fini_refuted, tr_C38_fini_refuted, (Exited 0), s, 0%nat.
  split; [split; [vm_compute; reflexivity|vm_compute; repeat constructor]|]. split; [exact H|]. split; [vm_compute; tauto|].
  intros v Hv. vm_compute in Hv. repeat (destruct Hv as [Hv|Hv]; [discriminate|]). exact Hv.
Qed.
Print Assumptions C38_fini_refuted.

Theorem C38_fini_hangs : forall c t k f tr1 tr2 tr3 s,
  c_thread c = true -> c_pae c = true ->
  exec c (tr1 ++ (t, CallF k) :: tr2 ++ (t, BeginP f) :: tr3) s -> own t tr3 = [].
Proof. exact fini_hang. Qed.
Print Assumptions C38_fini_hangs.

Definition l_C38_hang_ex := ([(0, AExit 0)] ++ go 0 4 ++ [(0, ARegP)])%nat.
Definition tr_C38_hang_ex : trace := Eval vm_compute in trace_of all_on l_C38_hang_ex.
Definition seg1_C38_hang_ex : trace := Eval vm_compute in (firstn 4 tr_C38_hang_ex).
Theorem C38_hang_ex : exists tr1 tr2 s, exec all_on (tr1 ++ (0%nat, CallF 1%nat) :: tr2 ++ [(0%nat, BeginP 0%nat)]) s.
Proof.
  destruct (played all_on l_C38_hang_ex tr_C38_hang_ex) as [s H]; [vm_compute; reflexivity|].
  exists seg1_C38_hang_ex, [], s. exact H.
Qed.
