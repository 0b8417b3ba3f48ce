(** * C78: exit functions and the log statements around them

    With the `log` feature, thread exit and program::exit log a message before
    each exit function they call, before a thread exits and before the process
    ends.  The logger is user code.  If it only computes and returns, nothing
    about exit functions changes; if it registers exit functions itself, each
    is still called at most once, but the order and the completeness that
    C34 and C35 promise are lost. *)
From Coq Require Import ZArith List Bool Lia Arith.
From Verif Require Import LayoutModel DtorsModel DtorsSpec DtorsFacts Props_Dtors DLogModel DLogSpec DLogProofs DLogConv DLogTell DLogOnce.
Import ListNotations.
Open Scope Z_scope.

Lemma lplay_exec c : forall l s tr tr' s', lexec c tr s -> lplay c s tr l = Some (tr', s') -> lexec c tr' s'.
Proof.
  induction l as [|[t a] l IH]; intros s tr tr' s' E H; cbn in H; [inversion H; now subst|].
  destruct (lstep c s t a) as [[e s1]|] eqn:St; [|discriminate]. eapply IH; [|exact H]. econstructor; eauto.
Qed.
Definition ltrace_of (c : lcfg) (l : list (nat * action)) : ltrace := match lplay c linit [] l with Some (tr, _) => tr | None => [] end.
Lemma lplayed c l tr : match lplay c linit [] l with Some (tr', _) => tr' = tr | None => False end -> exists s, lexec c tr s.
Proof. destruct (lplay c linit [] l) as [[tr' s]|] eqn:H; [intros <-|contradiction]. exists s. eapply lplay_exec; [constructor|exact H]. Qed.

(** ** Loggers that only compute *)

(** What such a program does about exit functions, it could do without the
    log; so C34, C35 and C36 hold of it. *)
Theorem C78_quiet_partial : forall c tr s, lexec c tr s -> quiet tr ->
  exists d, exec (l_dtors c) (silence tr) d /\ term d = lterm s.
Proof. intros c tr s H Q. destruct (quiet_exec c _ _ H Q) as (d & E & S). exists d. split; [exact E|apply (m_tm _ _ _ _ S)]. Qed.
Print Assumptions C78_quiet_partial.

Lemma silence_in tr t e : In (t, e) (silence tr) <-> In (t, Ev e) tr.
Proof.
  unfold silence. rewrite in_flat_map. split.
  - intros ([u x] & H & K). destruct x; cbn in K; try contradiction. destruct K as [K|[]]. inversion K; subst. exact H.
  - intros H. exists (t, Ev e). split; [exact H|left; reflexivity].
Qed.

(** In particular: the function called is the last one registered by the
    thread that still waits; a thread that exits has called all of its
    functions; and program::exit calls everything, in order, and ends the
    process with its status. *)
Theorem C78_order_partial : forall c tr t f s, lexec c (tr ++ [(t, Ev (CallT f))]) s -> quiet (tr ++ [(t, Ev (CallT f))]) ->
  exists rest, waiting t (silence tr) = f :: rest.
Proof.
  intros c tr t f s H Q. destruct (C78_quiet_partial _ _ _ H Q) as (d & E & _). rewrite silence_app in E. exact (C34_lifo _ _ _ _ _ E).
Qed.
Print Assumptions C78_order_partial.
Theorem C78_thread_partial : forall c tr t s, lexec c (tr ++ [(t, Ev ThreadDone)]) s -> quiet (tr ++ [(t, Ev ThreadDone)]) ->
  forall f, In (t, Ev (RegT f)) tr -> In (t, Ev (CallT f)) tr /\ In (t, Ev (Ret (WT f))) tr.
Proof.
  intros c tr t s H Q f. destruct (C78_quiet_partial _ _ _ H Q) as (d & E & _). rewrite silence_app in E.
  rewrite <- !silence_in. exact (C34_all_before_exit _ _ _ _ E f).
Qed.
Print Assumptions C78_thread_partial.
Theorem C78_exit_partial : forall c t st before during tr o s,
  exits_by t st before during (silence tr) o -> lexec c tr s -> quiet tr ->
  o = Exited st /\ lterm s = Some (Exited st) /\
  (exists lt lp, calls t during = map CT lt ++ map CP lp ++ map CF (rev (seq 0 (fini_called (l_dtors c))))) /\
  (forall f, In f (waiting t before) -> In (t, CallT f) during) /\
  (c_pae (l_dtors c) = true -> forall f, In f (listed before) -> exists u, In (u, Take f) during).
Proof.
  intros c t st before during tr o s X H Q. destruct (C78_quiet_partial _ _ _ H Q) as (d & E & T).
  destruct (C35_order _ _ _ _ _ _ _ _ X E) as (-> & A). split; [reflexivity|]. split; [|exact A].
  rewrite <- T. destruct X as [X _]. rewrite X in E. clear -E.
  rewrite app_comm_cons, app_assoc in E. inversion E as [F|tr s0 u a e s1 E0 St F]; [destruct (before ++ (t, ExitCall st) :: during); discriminate|].
  apply app_inj_tail in F. destruct F as [-> F]. injection F as -> ->. apply dstep_inv in St. destruct St as [_ R]. inversion R; subst; reflexivity.
Qed.
Print Assumptions C78_exit_partial.

(** And the log takes nothing away: whatever a program can do without it, it
    can do with it. *)
Theorem C78_all : forall c tr d, exec (l_dtors c) tr d ->
  exists ltr s, lexec c ltr s /\ quiet ltr /\ silence ltr = tr /\ lterm s = term d.
Proof. intros c tr d H. destruct (conv c _ _ H) as (ltr & s & (E & Q & _) & A & B & _). exists ltr, s. auto. Qed.
Print Assumptions C78_all.

(** The log tells the truth: on each thread, the messages logged about calls
    of exit functions and about the end of the process name what the thread
    did, in order, with at most one announced and not done yet. *)
Theorem C78_told_partial : forall c tr s t, l_log c = true -> lexec c tr s -> quiet tr ->
  exists w, told t tr = did t tr ++ w /\ (length w <= 1)%nat.
Proof. intros c tr s t L H Q. destruct (tell_exec c L _ _ H Q) as [_ W]. apply W. Qed.
Print Assumptions C78_told_partial.

(** Without the feature nothing is logged. *)
Theorem C78_off : forall c tr s, l_log c = false -> lexec c tr s ->
  Forall (fun x => match snd x with Say _ | LogNop | LogDone => False | _ => True end) tr.
Proof. exact off_silent. Qed.
Print Assumptions C78_off.

(** ** Any logger *)

(** No exit function is called twice; a function registered with
    thread::at_exit is called only by the thread that registered it, one
    registered with program::at_exit only after it was registered. *)
Theorem C78_once : forall c tr s, lexec c tr s ->
  NoDup (t_calls (silence tr) ++ p_calls (silence tr)) /\
  (forall a b t f, tr = a ++ (t, Ev (CallT f)) :: b -> In (t, Ev (RegT f)) a) /\
  (forall a b t f, tr = a ++ (t, Ev (CallP f)) :: b -> exists u, In (u, Ev (RegP f)) a).
Proof.
  intros c tr s H. split; [|split].
  - apply nodup_calls. intros x. pose proof (o_one _ _ (once_exec c _ _ H) x) as O. unfold everywhere in O. lia.
  - intros a b t f ->. destruct (lexec_prefix c (a ++ [(t, Ev (CallT f))]) b s) as [s1 H1]; [now rewrite <- app_assoc|].
    pose proof (o_ct _ _ (once_exec c _ _ H1) t f) as O. specialize (O ltac:(apply in_or_app; right; left; reflexivity)).
    apply in_app_or in O. destruct O as [O|[O|[]]]; [exact O|discriminate].
  - intros a b t f ->. destruct (lexec_prefix c (a ++ [(t, Ev (CallP f))]) b s) as [s1 H1]; [now rewrite <- app_assoc|].
    pose proof (o_cp _ _ (once_exec c _ _ H1) t f) as O. specialize (O ltac:(apply in_or_app; right; left; reflexivity)).
    destruct O as [u O]. exists u. apply in_app_or in O. destruct O as [O|[O|[]]]; [exact O|discriminate].
Qed.
Print Assumptions C78_once.

(** ** Loggers that use exit functions: what is false *)

Definition log_on : lcfg := LCfg all_on true.
(** quiet, decided. *)
Fixpoint quietb (pre : ltrace) (l : ltrace) : bool :=
  match l with [] => true | x :: l' => implb (busy (fst x) pre) (match snd x with Ev _ => false | _ => true end) && quietb (pre ++ [x]) l' end.
Lemma quietb_ok : forall l pre, quiet pre -> quietb pre l = true -> quiet (pre ++ l).
Proof.
  induction l as [|x l IH]; intros pre Q H; [now rewrite app_nil_r|]. cbn in H. apply andb_true_iff in H. destruct H as [H1 H2].
  change (x :: l) with ([x] ++ l). rewrite app_assoc. apply IH; [|exact H2]. constructor; [exact Q|]. intros B e E. rewrite B, E in H1. discriminate.
Qed.

(** The main thread returns from origin_main having registered 0; the logger,
    told that an exit function is about to be called, registers 1: the call of
    0, already chosen, comes first although 1 was registered later. *)
Definition l_C78_order_refuted := ([(0, ARegT); (0, ARet 0); (0, AGo); (0, ARet 0); (0, AGo); (0, AGo); (0, AGo); (0, ARegT); (0, ARet 0); (0, AGo)])%nat.
Definition tr_C78_order_refuted : ltrace := Eval vm_compute in ltrace_of log_on l_C78_order_refuted.
Definition pre_C78_order_refuted : ltrace := Eval vm_compute in removelast tr_C78_order_refuted.
Theorem C78_order_refuted : exists c tr t f g s, lexec c (tr ++ [(t, Ev (CallT f))]) s /\ waiting t (silence tr) = [g; f] /\ f <> g.
Proof.
  destruct (lplayed log_on l_C78_order_refuted tr_C78_order_refuted) as [s H]; [vm_compute; reflexivity|].
  exists log_on, pre_C78_order_refuted, 0%nat, 0%nat, 1%nat, s. split; [exact H|]. split; [vm_compute; reflexivity|discriminate].
Qed.
Print Assumptions C78_order_refuted.

(** A thread has returned; the logger, told that the thread is exiting,
    registers a function with thread::at_exit: it is never called. *)
Definition l_C78_lost_refuted := ([(0, ASpawn); (1, AGo); (1, ARet 0); (1, ARet 0); (1, AGo); (1, ARet 0); (1, AGo); (1, AGo); (1, ARegT); (1, ARet 0); (1, AGo)])%nat.
Definition tr_C78_lost_refuted : ltrace := Eval vm_compute in ltrace_of log_on l_C78_lost_refuted.
Definition pre_C78_lost_refuted : ltrace := Eval vm_compute in removelast tr_C78_lost_refuted.
Theorem C78_lost_refuted : exists c tr t f s, lexec c (tr ++ [(t, Ev ThreadDone)]) s /\ In (t, Ev (RegT f)) tr /\ (forall u, ~ In (u, Ev (CallT f)) tr) /\
  forall t' a, t' = t -> lstep c s t' a = None.
Proof.
  destruct (lplay log_on linit [] l_C78_lost_refuted) as [[tr s]|] eqn:P; [|vm_compute in P; discriminate].
  exists log_on, pre_C78_lost_refuted, 1%nat, 0%nat, s. split; [|split; [vm_compute; tauto|split; [intros u; vm_compute; intuition discriminate|]]].
  - pose proof (lplay_exec log_on _ _ _ _ _ (lx_init _) P) as H. assert (E : tr = tr_C78_lost_refuted) by (vm_compute in P; inversion P; reflexivity). rewrite E in H. exact H.
  - intros t' a ->. vm_compute in P. inversion P; subst. destruct a; reflexivity.
Qed.
Print Assumptions C78_lost_refuted.

(** The logger, told that an entry of .fini_array is about to be called,
    registers a function with program::at_exit: the call waits for a lock that
    program::exit never releases, and with no other thread the process hangs. *)
Definition l_C78_hang_refuted := ([(0, ARet 7); (0, AGo); (0, ARet 0); (0, AGo); (0, AGo); (0, AGo); (0, AGo); (0, AGo); (0, AGo); (0, ARegP)])%nat.
Definition tr_C78_hang_refuted : ltrace := Eval vm_compute in ltrace_of log_on l_C78_hang_refuted.
Theorem C78_hang_refuted : exists c tr s, lexec c tr s /\ In (0%nat, Ev (ExitCall 7)) tr /\ lterm s = None /\ lnthr s = 1%nat /\
  forall t a, lstep c s t a = None.
Proof.
  destruct (lplay log_on linit [] l_C78_hang_refuted) as [[tr s]|] eqn:P; [|vm_compute in P; discriminate].
  exists log_on, tr, s. split; [exact (lplay_exec log_on _ _ _ _ _ (lx_init _) P)|]. vm_compute in P. inversion P; subst.
  split; [cbn; tauto|]. split; [reflexivity|]. split; [reflexivity|].
  intros t a. destruct t as [|t]; [destruct a; reflexivity|]. unfold lstep, lfr, lterm. cbn. reflexivity.
Qed.
Print Assumptions C78_hang_refuted.

(** ** A case: main registers 0 (thread) and 1 (program) and returns 7. *)
Definition l_C78_ex := ([(0, ARegT); (0, ARegP); (0, AGo); (0, AGo); (0, AGo); (0, ARet 7); (0, AGo); (0, ANop); (0, ARet 0); (0, AGo);
  (0, AGo); (0, AGo); (0, ARet 0); (0, AGo); (0, ARet 0); (0, AGo);
  (0, AGo); (0, AGo); (0, AGo); (0, AGo); (0, ARet 0); (0, AGo); (0, ARet 0); (0, AGo); (0, AGo);
  (0, AGo); (0, AGo); (0, ARet 0); (0, AGo); (0, ARet 0); (0, AGo); (0, AGo); (0, ARet 0); (0, AGo); (0, ARet 0);
  (0, AGo); (0, AGo); (0, ARet 0); (0, AGo)])%nat.
Definition tr_C78_ex : ltrace := Eval vm_compute in ltrace_of log_on l_C78_ex.
Theorem C78_ex : exists tr s, lexec log_on tr s /\ quiet tr /\ lterm s = Some (Exited 7) /\
  told 0 tr = [MCallT; MCallP; MCallF 1; MCallF 0; MExiting 7]%nat /\ calls 0 (silence tr) = [CT 0; CP 1; CF 1; CF 0]%nat.
Proof.
  destruct (lplay log_on linit [] l_C78_ex) as [[tr s]|] eqn:P; [|vm_compute in P; discriminate].
  exists tr, s. split; [exact (lplay_exec log_on _ _ _ _ _ (lx_init _) P)|].
  assert (E : tr = tr_C78_ex /\ lterm s = Some (Exited 7)) by (vm_compute in P; inversion P; split; reflexivity). destruct E as [-> E].
  split; [apply (quietb_ok _ [] q_nil); vm_compute; reflexivity|]. split; [exact E|]. split; vm_compute; reflexivity.
Qed.
