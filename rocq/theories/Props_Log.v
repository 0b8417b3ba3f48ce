(** C66: with logging enabled, the log statements of the thread functions read
    only thread records that exist and have not been freed, and the ids they
    print are the right ones. *)
From Coq Require Import ZArith List Bool Lia Arith.
From Verif Require Import ThreadModel ThreadInv ThreadSpec ThreadPres4 ThreadTop ThreadTop2 ThreadSim ThreadPhase Props_Thread Props_Phase LogModel.
Import ListNotations.
Open Scope Z_scope.

Lemma logs_inv c s i j v : inv c s -> logs s i j v ->
  (i < n s)%nat /\ (j < n s)%nat /\ mapped s i /\ mapped s j /\ v = r_tid (R s j) /\
  gone (P s i) = false /\ (i <> j -> in_call s i j).
Proof.
  intros I L.
  assert (Li : (i < n s)%nat) by (inversion L; subst; auto; eapply actor_lt; eauto; congruence).
  assert (Mi : mapped s i).
  { eapply user_mapped; eauto; inversion L; subst;
      match goal with H : P s _ = _ |- _ => rewrite ?H end; try reflexivity. }
  assert (G : gone (P s i) = false) by (inversion L; subst; match goal with H : P s _ = _ |- _ => rewrite H end; reflexivity).
  split; [exact Li|]. assert (Ej : j = i \/ in_call s i j /\ mapped s j /\ (j < n s)%nat).
  { unfold in_call. inversion L; subst; auto; right; match goal with H : P s i = _ |- _ => rewrite H; rename H into E end; (split; [reflexivity|]).
    - destruct (i_dswap _ _ I _ _ E) as (Cl & M & _). destruct (i_claim_lt _ _ I _ _ _ Cl). auto.
    - assert (W : waits (P s i) KJoin j) by (rewrite E; cbn; auto).
      destruct (i_waits _ _ I _ _ _ W) as (Cl & M & _). destruct (i_claim_lt _ _ I _ _ _ Cl). auto. }
  assert (V : v = r_tid (R s j)) by (inversion L; subst; auto).
  destruct Ej as [->|(C & M & Lj)]; repeat (split; auto); intros; congruence.
Qed.

Theorem C66_log_partial : forall c tr s i j v,
  0 < c_page c -> c_reuse c = false -> run c tr s -> logs s i j v ->
  (* both records are live *)
  (i < n s)%nat /\ (j < n s)%nat /\ mapped s i /\ mapped s j /\
  (* a thread reads its own record, or that of a thread it is joining or detaching *)
  (i = j \/ in_call s i j) /\
  (* its own id is printed as what gettid returns; another thread's as that
     thread's id until the kernel has cleared it, and as 0 from then on *)
  (i = j -> v = t_tid (T s i)) /\
  (v = 0 <-> finished s j) /\ (v <> 0 -> v = t_tid (T s j)).
Proof.
  intros c tr s i j v Hp Hr Rn L. pose proof (run_inv _ _ _ Hp Hr Rn) as I.
  destruct (logs_inv c s i j v I L) as (Li & Lj & Mi & Mj & V & G & C).
  assert (F : forall k, finished s k <-> gone (P s k) = true).
  { intros k. unfold finished. destruct (P s k); cbn; split; intros; try discriminate; auto; try (destruct H as [|(a & ?)]; discriminate). eauto. }
  repeat (split; auto).
  - destruct (Nat.eq_dec i j); auto.
  - intros <-. rewrite V. apply (i_tid _ _ I); auto. rewrite G. now rewrite andb_false_r.
  - intros V0. apply F. destruct (gone (P s j)) eqn:Gj; auto. exfalso.
    assert (X : r_tid (R s j) = t_tid (T s j)) by (apply (i_tid _ _ I); auto; rewrite Gj; now rewrite andb_false_r).
    pose proof (i_tpos _ _ I j Lj). lia.
  - intros Gj. apply F in Gj. rewrite V. destruct (Nat.eq_dec i j) as [->|D]; [congruence|].
    apply (i_tid0 _ _ I); auto. destruct (jn (T s j)) eqn:J; auto. exfalso.
    (* a self-freeing thread that is gone is not being joined or detached while mapped *)
    assert (S : self (T s j) = true /\ sfreed (P s j) = true).
    { unfold jn, self in *. destruct (P s j); cbn in *; try discriminate; auto. rewrite J. auto. }
    destruct S as (S1 & S2). pose proof (i_self _ _ I j Lj S1) as De.
    destruct (i_det _ _ I j Lj De) as (i' & Cl & ND & _).
    inversion L; subst; try congruence.
    + match goal with H : P s i = DSwap j |- _ => destruct (i_dswap _ _ I _ _ H) as (_ & _ & X) end. contradiction.
    + match goal with H : P s i = JLoad KJoin j |- _ => assert (W : waits (P s i) KJoin j) by (rewrite H; cbn; auto) end.
      destruct (i_waits _ _ I _ _ _ W) as (Cl' & _). congruence.
  - intros V0. rewrite V in *. apply (i_tid _ _ I); auto.
    destruct (jn (T s j)) eqn:J; auto. destruct (gone (P s j)) eqn:Gj; auto. exfalso. apply V0. apply (i_tid0 _ _ I); auto.
Qed.

(** Without the condition on the kernel, for programs that create no thread
    after one thread reclaimed another's memory. *)
Theorem C66_any_kernel : forall c tr s i j v,
  0 < c_page c -> run c tr s -> creates_first tr -> logs s i j v ->
  (i < n s)%nat /\ (j < n s)%nat /\ mapped s i /\ mapped s j /\
  (i = j \/ in_call s i j) /\ (i = j -> v = t_tid (T s i)) /\
  (v = 0 <-> finished s j) /\ (v <> 0 -> v = t_tid (T s j)).
Proof.
  intros c tr s i j v Hp Rn Cf L. apply (C66_log_partial (careful c) tr s i j v Hp eq_refl (careful_run _ _ _ Hp Rn Cf) L).
Qed.

(** On a kernel that reuses an address early, a running thread's own log
    statement can read freed memory (the run of C30's refutation). *)
Theorem C66_log_refuted : exists tr s i v, run c2 tr s /\ guards_ok c2 s /\ logs s i i v /\ ~ mapped s i.
Proof.
  exists (fst (simres c2 acts3)), (snd (simres c2 acts3)), 2%nat. eexists.
  split; [apply sim_run; vm_compute; reflexivity|]. split; [gok|].
  split; [apply l_run; [vm_compute; lia|vm_compute; reflexivity]|vm_compute; congruence].
Qed.

(** The hypotheses are met where they matter: thread 0 is about to detach
    thread 1, which has already finished, and logs its id as 0. *)
Definition acts_l : list act := [
  ACreate 0 65536 4096 16384 101 65636; AReturn 1 77; AStep 1; AStep 1; AStep 1; AStep 1; ADetach 0 1].
Theorem C66_ex : exists tr s, run c1 tr s /\ logs s 0 1 0 /\ logs s 0 0 (t_tid (T s 0%nat)) /\ finished s 1 /\ mapped s 1.
Proof.
  exists (fst (simres c1 acts_l)), (snd (simres c1 acts_l)).
  split; [apply sim_run; vm_compute; reflexivity|].
  split; [apply (l_detach (snd (simres c1 acts_l)) 0 1); vm_compute; reflexivity|].
  split; [apply (l_detach_me (snd (simres c1 acts_l)) 0 1); vm_compute; reflexivity|]. fin.
Qed.

Print Assumptions C66_log_partial.
Print Assumptions C66_any_kernel.
