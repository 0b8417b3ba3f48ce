(** C28-C33 and C48 without any assumption on the kernel's reuse of addresses,
    for programs that create no thread after one thread has reclaimed the memory
    of another (by join, or by detach of a thread that had finished):
    [creates_first tr].  Threads that are detached while running, and so free
    themselves, do not count: creating further threads after them is fine.

    The refutations in Props_Thread.v, whose runs do create a thread after a
    join, show that some such condition is needed. *)
From Coq Require Import ZArith List Bool Lia Arith.
From Verif Require Import ThreadModel ThreadSpec ThreadPres4 ThreadTop ThreadTop2 ThreadSim SyncModel SyncFacts SyncTop ThreadPhase Props_Thread Props_Sync.
Import ListNotations.
Open Scope Z_scope.

Section phase.
Variables (c : cfg) (tr : list label) (s : st).
Hypothesis Hp : 0 < c_page c.
Hypothesis Rn : run c tr s.
Hypothesis Cf : creates_first tr.

Lemma crun : run (careful c) tr s.
Proof. apply careful_run; auto. Qed.
Lemma cguards : guards_ok c s -> guards_ok (careful c) s.
Proof. auto. Qed.

Theorem C29_any_kernel :
  exists js, NoDup js /\
    map (fun j => (r_base (R s j), r_len (R s j))) js = munmaps tr /\
    forall j, In j js <-> ((j < n s)%nat /\ ~ mapped s j).
Proof. apply (freed_once (careful c) tr s Hp eq_refl crun). Qed.

Theorem C30_any_kernel : forall i acc e s' a, signals_ok c ->
  step c s (i, acc, e) s' -> creates_first (tr ++ [(i, acc, e)]) ->
  In a acc -> (a < n s)%nat /\ mapped s a.
Proof.
  intros i acc e s' a Hs St Cf' Hin.
  pose proof (careful_run c _ _ Hp (run_snoc _ _ _ _ _ Rn St) Cf') as R'.
  destruct (run_last _ _ _ _ R') as (s1 & R1 & St1).
  eapply (access_mapped c s i acc e s' a Hp Hs); eauto.
  pose proof (run_inv (careful c) tr s Hp eq_refl crun) as I. destruct I; constructor; auto.
Qed.

Theorem C31_any_kernel : guards_ok c s ->
  (forall i, t_pc (T s i) <> Panicked) /\
  (forall j, join_returned tr j -> ~ mapped s j) /\
  (forall j, detach_returned tr j -> exited s j -> ~ mapped s j) /\
  (forall j, (j < n s)%nat -> ~ join_called tr j -> ~ detach_called tr j -> mapped s j).
Proof.
  intros G. split; [|split; [|split]].
  - exact (no_panic (careful c) tr s Hp eq_refl crun G).
  - intros j. apply (no_leak (careful c) tr s j Hp eq_refl crun G).
  - intros j. apply (no_leak (careful c) tr s j Hp eq_refl crun G).
  - intros j. exact (unclaimed_mapped (careful c) tr s j Hp eq_refl crun).
Qed.

Theorem C32_any_kernel : forall i k j, t_pc (T s i) = JSleep k j -> ~ exited s j.
Proof. intros i k j. exact (no_sleeper (careful c) tr s i k j Hp eq_refl crun). Qed.

Theorem C33_any_kernel :
  (forall i, (i < n s)%nat -> ~ finished s i -> r_tid (R s i) = t_tid (T s i) /\ 0 < t_tid (T s i)) /\
  (forall i j, (i < n s)%nat -> (j < n s)%nat -> i <> j -> ~ exited s i -> ~ exited s j -> t_tid (T s i) <> t_tid (T s j)) /\
  (forall i acc j v s', step c s (i, acc, EId j v) s' -> (v = 0 <-> finished s j) /\ (~ finished s j -> v = t_tid (T s j) /\ 0 < v)).
Proof.
  split; [|split].
  - intros i. exact (running_tid (careful c) tr s i Hp eq_refl crun).
  - exact (live_tids (careful c) tr s Hp eq_refl crun).
  - intros i acc j v s' St. eapply (id_value (careful c) tr s i acc j v s' Hp eq_refl crun).
    apply (step_careful c); auto. discriminate.
Qed.
End phase.

Theorem C28_any_kernel : forall c tr i acc j rv s tr2 s2,
  0 < c_page c -> run c (tr ++ [(i, acc, EJoin j rv)]) s -> exec c s tr2 s2 ->
  creates_first ((tr ++ [(i, acc, EJoin j rv)]) ++ tr2) ->
  (forall v, did tr j (EReturn v) <-> v = rv) /\
  finished s j /\
  (forall acc2 e, In (j, acc2, e) tr2 -> acc2 = []).
Proof.
  intros c tr i acc j rv s tr2 s2 Hp Rn E2 Cf.
  pose proof (creates_first_app _ _ Cf) as Cf1.
  destruct (join_value (careful c) tr i acc j rv s Hp eq_refl (careful_run _ _ _ Hp Rn Cf1)) as (A & B & C).
  split; auto. split; auto. intros acc2 e Hin.
  apply (C tr2 s2 acc2 e); auto. eapply careful_exec; eauto.
Qed.

(** Exit as detached, and happens-before. *)
Theorem C48_any_kernel : forall c tr s i acc e s' tr2 s2,
  0 < c_page c -> signals_ok c -> run c tr s -> step c s (i, acc, e) s' -> exec c s' tr2 s2 ->
  creates_first ((tr ++ [(i, acc, e)]) ++ tr2) -> mapped s i -> ~ mapped s' i ->
  did tr i ESetTidNull /\
  (c_sig c = true -> ThreadTop2.before tr (i, ESetTidNull) (i, EBlockAll)) /\
  e = EMunmap (r_base (R s i)) (r_len (R s i)) /\
  forall acc2 e2, In (i, acc2, e2) tr2 -> acc2 = [] /\ (e2 = EExit \/ e2 = ENone).
Proof.
  intros c tr s i acc e s' tr2 s2 Hp Hs Rn St E2 Cf M M'.
  pose proof (creates_first_app _ _ Cf) as Cf1. pose proof (creates_first_pre _ _ Cf1) as Cf0.
  pose proof (careful_run c tr s Hp Rn Cf0) as R1. pose proof (careful_step c tr s _ s' Hp R1 St Cf1) as St1.
  destruct (self_free (careful c) tr s i acc e s' Hp eq_refl Hs R1 St1 M M') as (A & B & C & D).
  split; auto. split; auto. split; auto. apply (D tr2 s2).
  eapply (careful_exec c (tr ++ [(i, acc, e)])); eauto. eapply run_snoc; eauto.
Qed.

Theorem C65_any_kernel : forall c h s, 0 < c_page c -> hist c h s -> creates_first (labels h) ->
  forall p q r a b d j rv,
  nth_error h q = Some b -> what b = Some (EJoin j rv) ->
  (q <= r)%nat -> nth_error h r = Some d -> by_ d = by_ b ->
  nth_error h p = Some a -> by_ a = j ->
  (what a = None \/ (exists v, what a = Some (EReturn v)) -> hb false h p r) /\
  (acc a <> [] -> hb true h p r).
Proof.
  intros c h s Hp H Cf p q r a b d j rv. intros. eapply (C65_join_partial (careful c) h s p q r); eauto.
  clear - Hp H Cf. induction H as [s Hi|h s i a e s' o H IH St Sy|h s i H IH L E]; [constructor; auto| |].
  - rewrite labels_app in Cf. cbn in Cf. pose proof (creates_first_pre _ _ Cf) as Cf0.
    econstructor; [apply IH; auto| |exact Sy]. eapply careful_step; eauto.
    apply careful_run; auto. apply hist_run; auto.
  - rewrite labels_app in Cf. cbn in Cf. rewrite app_nil_r in Cf. constructor; auto.
Qed.

(** * A concrete run, on a kernel that does reuse addresses early *)
Definition acts_p : list act := [
  ACreate 0 65536 4096 16384 101 65636; ACreate 0 131072 4096 16384 102 131172;
  ADetach 0 2; AStep 0; AReturn 2 5; AStep 2; AStep 2; AStep 2; AStep 2; AStep 2; AStep 2;
  ACreate 0 131072 4096 16384 103 131172;
  AJoin 0 1; AStep 0; AStep 0; AReturn 1 77; AStep 1; AStep 1; AStep 1; AStep 1; AWake 1 0; AStep 0; AStep 0; AStep 0].
Theorem C28_any_kernel_ex : exists tr s, run c2 tr s /\ creates_first tr /\ c_reuse c2 = true /\
  guards_ok c2 s /\ did tr 0 (EJoin 1 77) /\ did tr 0 (EDetach 2) /\ n s = 4%nat /\ ~ mapped s 1 /\ ~ mapped s 2 /\ mapped s 3.
Proof.
  exists (fst (simres c2 acts_p)), (snd (simres c2 acts_p)).
  split; [apply sim_run; vm_compute; reflexivity|]. split; [apply (cf_sound _ false); vm_compute; reflexivity|]. fin.
Qed.

Print Assumptions C28_any_kernel.
Print Assumptions C30_any_kernel.
