(** Properties C28-C33 and C48: life cycle of threads.

    A [run c tr s] is any interleaving, from process start, of any number of
    threads that create, join, detach and exit threads and query ids, with
    futex interruptions, signals and the kernel's exit-time actions; [tr] is
    the list of labelled steps, [s] the state reached (ThreadModel.v; the
    vocabulary is in ThreadSpec.v).

    The theorems that carry [c_reuse c = false] are about kernels that do not
    hand out an address while an exiting task still has its futex wake of that
    address pending.  Linux gives no such guarantee: without it the claims are
    false, as the [_refuted] theorems show on concrete runs. *)
From Coq Require Import ZArith List Bool Lia Arith.
From Verif Require Import ThreadModel ThreadSpec ThreadPres4 ThreadTop ThreadTop2 ThreadSim.
Import ListNotations.
Open Scope Z_scope.

(** * C28: join returns the thread's return value, after it has finished *)
Theorem C28_join_value_partial : forall c tr i acc j rv s,
  0 < c_page c -> c_reuse c = false ->
  run c (tr ++ [(i, acc, EJoin j rv)]) s ->
  (forall v, did tr j (EReturn v) <-> v = rv) /\
  finished s j /\
  (forall tr2 s2 acc2 e, exec c s tr2 s2 -> In (j, acc2, e) tr2 -> acc2 = []).
Proof. exact join_value. Qed.

(** * C29: every thread's memory is unmapped at most once *)
(** The successful munmap calls of a run are, in order, exactly one for each
    thread whose memory is gone, each of exactly that thread's region. *)
Theorem C29_freed_once_partial : forall c tr s,
  0 < c_page c -> c_reuse c = false -> run c tr s ->
  exists js, NoDup js /\
    map (fun j => (r_base (R s j), r_len (R s j))) js = munmaps tr /\
    forall j, In j js <-> ((j < n s)%nat /\ ~ mapped s j).
Proof. exact freed_once. Qed.

(** * C30: no use after free *)
Theorem C30_no_use_after_free_partial : forall c tr s i acc e s' a,
  0 < c_page c -> c_reuse c = false -> signals_ok c -> run c tr s ->
  step c s (i, acc, e) s' -> In a acc -> (a < n s)%nat /\ mapped s a.
Proof.
  intros c tr s i acc e s' a Hp Hr Hs Rn St Hin. eapply access_mapped; eauto. eapply run_inv; eauto.
Qed.

(** * C31: no leaks *)
Theorem C31_no_leak_partial : forall c tr s j,
  0 < c_page c -> c_reuse c = false -> run c tr s -> guards_ok c s ->
  (join_returned tr j -> ~ mapped s j) /\
  (detach_returned tr j -> exited s j -> ~ mapped s j).
Proof. exact no_leak. Qed.

Theorem C31_quiescent_partial : forall c tr s,
  0 < c_page c -> c_reuse c = false -> run c tr s -> guards_ok c s ->
  (forall i, (i < n s)%nat -> exited s i \/ t_pc (T s i) = Run) ->
  forall j, (0 < j < n s)%nat -> exited s j ->
  (mapped s j <-> ~ (join_called tr j \/ detach_called tr j)).
Proof. exact quiescent_exact. Qed.

(** nothing is unmapped that nobody joined or detached *)
Theorem C31_undisturbed_partial : forall c tr s j,
  0 < c_page c -> c_reuse c = false -> run c tr s -> (j < n s)%nat ->
  ~ join_called tr j -> ~ detach_called tr j -> mapped s j.
Proof. exact unclaimed_mapped. Qed.

(** no assertion or unwrap in join, detach or exit fails *)
Theorem C31_no_panic_partial : forall c tr s,
  0 < c_page c -> c_reuse c = false -> run c tr s -> guards_ok c s ->
  forall i, t_pc (T s i) <> Panicked.
Proof. exact no_panic. Qed.

(** * C32: no lost wake-ups *)
Theorem C32_no_sleeper_partial : forall c tr s i k j,
  0 < c_page c -> c_reuse c = false -> run c tr s ->
  t_pc (T s i) = JSleep k j -> ~ exited s j.
Proof. exact no_sleeper. Qed.

(** Once j has exited, a call on j returns within five own steps of the
    caller, whatever the other threads do, and until then the caller is never
    blocked. *)
Theorem C32_call_completes_partial : forall c tr0 s tr s' i j,
  0 < c_page c -> c_reuse c = false -> run c tr0 s ->
  exited s j -> in_call s i j -> exec c s tr s' -> guards_ok c s' ->
  ((exists rv, did tr i (EJoin j rv)) \/ did tr i (EDetach j)) \/
  (in_call s' i j /\ (own_steps i tr < 5)%nat /\
   exists acc e s2, e <> ESignal /\ step c s' (i, acc, e) s2).
Proof. intros c tr0 s tr s' i j Hp Hr Rn. apply call_completes; eauto. Qed.

(** * C33: thread ids *)
Theorem C33_id_partial : forall c tr s i acc j v s',
  0 < c_page c -> c_reuse c = false -> run c tr s ->
  step c s (i, acc, EId j v) s' ->
  (v = 0 <-> finished s j) /\ (~ finished s j -> v = t_tid (T s j) /\ 0 < v).
Proof. exact id_value. Qed.

(** the id is in the record from the moment the thread exists until it finishes *)
Theorem C33_running_partial : forall c tr s i,
  0 < c_page c -> c_reuse c = false -> run c tr s -> (i < n s)%nat -> ~ finished s i ->
  r_tid (R s i) = t_tid (T s i) /\ 0 < t_tid (T s i).
Proof. exact running_tid. Qed.

Theorem C33_distinct_partial : forall c tr s,
  0 < c_page c -> c_reuse c = false -> run c tr s ->
  forall i j, (i < n s)%nat -> (j < n s)%nat -> i <> j -> ~ exited s i -> ~ exited s j ->
  t_tid (T s i) <> t_tid (T s j).
Proof. exact live_tids. Qed.

(** * C48: detached exit *)
(** A thread that unmaps its own memory has first cleared its tid address and
    then (with the signal feature) blocked signals; the munmap is of exactly
    its own region; after it, the thread only makes the exit system call: it
    touches no memory, runs no signal handler and the kernel clears no tid. *)
Theorem C48_detached_exit_partial : forall c tr s i acc e s',
  0 < c_page c -> c_reuse c = false -> signals_ok c -> run c tr s ->
  step c s (i, acc, e) s' -> mapped s i -> ~ mapped s' i ->
  did tr i ESetTidNull /\
  (c_sig c = true -> before tr (i, ESetTidNull) (i, EBlockAll)) /\
  e = EMunmap (r_base (R s i)) (r_len (R s i)) /\
  forall tr2 s2, exec c s' tr2 s2 ->
    forall acc2 e2, In (i, acc2, e2) tr2 -> acc2 = [] /\ (e2 = EExit \/ e2 = ENone).
Proof. exact self_free. Qed.

(** * Concrete runs *)
Ltac gok := let j := fresh in let A := fresh in let B := fresh in intros j [A B];
  match type of B with (_ < ?m)%nat => let v := eval vm_compute in m in
     let Q := fresh in assert (Q : m = v) by (vm_compute; reflexivity); rewrite Q in B; clear Q end;
  repeat (first [solve [exfalso; clear - B; lia] | destruct j as [|j]; [first [exfalso; exact (Nat.lt_irrefl _ A) | vm_compute; reflexivity]|]]).
Ltac ind := eexists; vm_compute; repeat (first [left; reflexivity | right]).
Ltac fin := repeat match goal with |- _ /\ _ => split end;
  lazymatch goal with
  | |- guards_ok _ _ => gok
  | |- signals_ok _ => intros _; reflexivity
  | |- did _ _ _ => unfold did; ind
  | |- finished _ _ => first [left; vm_compute; reflexivity | right; eexists; vm_compute; reflexivity]
  | |- ~ mapped _ _ => vm_compute; congruence
  | |- ~ _ => idtac
  | |- detach_returned _ _ => idtac
  | |- _ => vm_compute; reflexivity
  end.

(** Thread 1 is joined while running (the joiner sleeps and is woken), thread
    2 is detached while running and frees itself, thread 3 has finished and
    was never joined. *)
Definition c1 : cfg := Cfg 4096 true true true false.
Definition acts1 : list act := [
  ACreate 0 65536 4096 16384 101 65636; AId 0 1; AJoin 0 1; AStep 0; AStep 0; ASignal 1; AReturn 1 77; AStep 1; AStep 1; AStep 1; AStep 1; AWake 1 0; AStep 0; AStep 0; AStep 0; ACreate 0 65536 4096 16384 102 65636; ADetach 0 2; AStep 0; AReturn 2 5; AStep 2; AStep 2; AStep 2; AStep 2; AStep 2; AStep 2; ACreate 0 131072 8192 32768 103 140000; AReturn 3 9; AStep 3; AStep 3; AStep 3; AStep 3].

Theorem run_ex : exists tr s, run c1 tr s /\ guards_ok c1 s /\ signals_ok c1 /\ n s = 4%nat /\
  did tr 0 (EJoin 1 77) /\ did tr 0 (EDetach 2) /\ did tr 0 (EId 1 101) /\
  exited s 1 /\ exited s 2 /\ finished s 3 /\
  ~ mapped s 1 /\ ~ mapped s 2 /\ mapped s 3 /\ own_steps 2 tr = 7%nat /\
  munmaps tr = [(65536, 16384); (65536, 16384)].
Proof.
  exists (fst (simres c1 acts1)), (snd (simres c1 acts1)).
  split; [apply sim_run; vm_compute; reflexivity|]. fin.
Qed.

(** a joiner about to sleep on a thread that meanwhile exited *)
Definition acts2 : list act := [
  ACreate 0 65536 4096 16384 101 65636; AJoin 0 1; AStep 0; AReturn 1 77; AStep 1; AStep 1; AStep 1; AStep 1; AStep 1].
Theorem call_ex : exists tr s, run c1 tr s /\ guards_ok c1 s /\ in_call s 0 1 /\ exited s 1.
Proof.
  exists (fst (simres c1 acts2)), (snd (simres c1 acts2)).
  split; [apply sim_run; vm_compute; reflexivity|]. fin.
Qed.

(** * What fails when the kernel reuses an address early *)
(** Release build: thread 1 has cleared its id but not yet issued its futex
    wake; it is joined and freed, thread 2 is created at the same address and
    joined; the stale wake ends that join.  The join returns 0 (None) while
    thread 2 is still running its function, frees the memory under it, and
    thread 2's next step touches it. *)
Definition c2 : cfg := Cfg 4096 true true false true.
Definition acts3 : list act := [
  ACreate 0 65536 4096 16384 101 65636; AReturn 1 77; AStep 1; AStep 1; AStep 1; AStep 1; AJoin 0 1; AStep 0; AStep 0; AStep 0; AStep 0; ACreate 0 65536 4096 16384 102 65636; AJoin 0 2; AStep 0; AStep 0; AWake 1 0; AStep 0; AStep 0; AStep 0].
Theorem C28_join_value_refuted : exists tr s, run c2 tr s /\ guards_ok c2 s /\
  did tr 0 (EJoin 2 0) /\ ~ (exists v, did tr 2 (EReturn v)) /\ t_pc (T s 2%nat) = Run.
Proof.
  exists (fst (simres c2 acts3)), (snd (simres c2 acts3)).
  split; [apply sim_run; vm_compute; reflexivity|]. fin.
  intros (v & acc & H).
  assert (Q : fst (simres c2 acts3) = ltac:(let v := eval vm_compute in (fst (simres c2 acts3)) in exact v)) by (vm_compute; reflexivity).
  rewrite Q in H. clear Q. cbn [In] in H. repeat (destruct H as [H|H]; [discriminate|]). contradiction.
Qed.

Theorem C30_no_use_after_free_refuted : exists tr s i acc e s' a, run c2 tr s /\ guards_ok c2 s /\
  signals_ok c2 /\ step c2 s (i, acc, e) s' /\ In a acc /\ ~ mapped s a.
Proof.
  exists (fst (simres c2 acts3)), (snd (simres c2 acts3)), 2%nat, [2%nat]. do 2 eexists. exists 2%nat.
  split; [apply sim_run; vm_compute; reflexivity|]. split; [gok|]. split; [intros _; reflexivity|].
  split; [apply (s_return c2 _ 2%nat 5); [lia|vm_compute; lia|vm_compute; reflexivity]|].
  split; [cbn; auto|vm_compute; congruence].
Qed.

(** Debug build: the same run fails join's assertion. *)
Definition c3 : cfg := Cfg 4096 true true true true.
Definition acts4 : list act := [
  ACreate 0 65536 4096 16384 101 65636; AReturn 1 77; AStep 1; AStep 1; AStep 1; AStep 1; AJoin 0 1; AStep 0; AStep 0; AStep 0; AStep 0; ACreate 0 65536 4096 16384 102 65636; AJoin 0 2; AStep 0; AStep 0; AWake 1 0; AStep 0].
Theorem C31_no_panic_refuted : exists tr s, run c3 tr s /\ guards_ok c3 s /\ t_pc (T s 0%nat) = Panicked.
Proof.
  exists (fst (simres c3 acts4)), (snd (simres c3 acts4)).
  split; [apply sim_run; vm_compute; reflexivity|]. fin.
Qed.

(** Without the signal feature, a handler (installed by other means) can run
    on the unmapped stack of a detached thread. *)
Definition c4 : cfg := Cfg 4096 false true true false.
Definition acts5 : list act := [
  ACreate 0 65536 4096 16384 101 65636; ADetach 0 1; AStep 0; AReturn 1 5; AStep 1; AStep 1; AStep 1; AStep 1].
Theorem C48_handler_refuted : exists tr s i acc s', run c4 tr s /\ guards_ok c4 s /\
  step c4 s (i, acc, ESignal) s' /\ In i acc /\ ~ mapped s i.
Proof.
  exists (fst (simres c4 acts5)), (snd (simres c4 acts5)), 1%nat, [1%nat]. eexists.
  split; [apply sim_run; vm_compute; reflexivity|]. split; [gok|].
  split; [apply (s_signal c4 _ 1%nat); [vm_compute; lia|reflexivity|vm_compute; reflexivity|vm_compute; reflexivity]|].
  split; [cbn; auto|vm_compute; congruence].
Qed.

(** * What fails when a guard size is not a page multiple *)
(** munmap is called on stack_addr - guard_size, which is then not the start of
    the mapping: joining panics, and a detached thread leaks its memory. *)
Definition acts6 : list act := [
  ACreate 0 65536 100 16384 101 70000; AReturn 1 77; AStep 1; AStep 1; AStep 1; AStep 1; AJoin 0 1; AStep 0; AStep 0; AStep 0].
Definition acts7 : list act := [
  ACreate 0 65536 100 16384 101 70000; ADetach 0 1; AStep 0; AReturn 1 5; AStep 1; AStep 1; AStep 1; AStep 1; AStep 1; AStep 1].
Theorem C31_guard_join_refuted : exists tr s, run c1 tr s /\ r_guard (R s 1%nat) = 100 /\
  did tr 0 (ECallJoin 1) /\ finished s 1 /\ t_pc (T s 0%nat) = Panicked /\ mapped s 1.
Proof.
  exists (fst (simres c1 acts6)), (snd (simres c1 acts6)).
  split; [apply sim_run; vm_compute; reflexivity|]. fin.
Qed.

Theorem C31_guard_detach_refuted : exists tr s, run c1 tr s /\ r_guard (R s 1%nat) = 100 /\
  detach_returned tr 1 /\ exited s 1 /\ mapped s 1.
Proof.
  exists (fst (simres c1 acts7)), (snd (simres c1 acts7)).
  split; [apply sim_run; vm_compute; reflexivity|]. fin.
  exists 0%nat. unfold did. ind.
Qed.
