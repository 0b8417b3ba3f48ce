(** C68: liveness.  On every fair schedule, a thread whose function returned
    goes away, every detach returns, every join of a thread whose function
    returns, returns that value, and a detached thread's memory is freed. *)
From Coq Require Import ZArith List Bool Lia Arith.
From Verif Require Import ThreadModel ThreadSim Props_Thread Props_Phase ThreadInv ThreadPres ThreadPres4 ThreadSpec ThreadTop ThreadTop2 ThreadPhase FairSpec FairCore.
Import ListNotations.
Open Scope Z_scope.

Section Fair.
Variables (c : cfg) (si : nat -> st) (la : nat -> option label).
Hypothesis Hp : 0 < c_page c.
Hypothesis Hr : c_reuse c = false.
Hypothesis F : fair c si la.

(** FairCore.v has the argument. *)
Let Q (k : nat) (s : st) : Prop := s = si k.
Let pcs (k i : nat) : pc := P (si k) i.
Let nn (k : nat) : nat := n (si k).
Let mp (k i : nat) : Prop := mapped (si k) i.
Lemma q0 : exists s, initial s /\ Q 0%nat s.
Proof. exists (si 0%nat). split; [apply (f_start _ _ _ F)|reflexivity]. Qed.
Lemma q1 k s : Q k s -> inv c s -> match la k with Some l => exists s', step c s l s' /\ Q (S k) s' | None => Q (S k) s end.
Proof. intros E _. unfold Q in E. subst s. pose proof (f_step _ _ _ F k) as St. destruct (la k) as [l|]; [exists (si (S k)); split; [exact St|reflexivity]|symmetry; exact St]. Qed.
Lemma q2 k s : Q k s -> (forall i, P s i = pcs k i) /\ n s = nn k /\ (forall i, mp k i -> mapped s i).
Proof. intros E. unfold Q in E. subst s. unfold pcs, nn, mp. auto. Qed.
Lemma q3 i k : exists k', (k <= k')%nat /\ (moves la i k' \/ idlep (pcs k' i)).
Proof. destruct (f_fair _ _ _ F i k) as (k' & L & D). exists k'. split; [exact L|exact D]. Qed.

Lemma fair_inv k : inv c (si k).
Proof.
  induction k as [|k IH]; [apply (init_inv c); apply (f_start _ _ _ F)|]. pose proof (f_step _ _ _ F k) as St.
  destruct (la k) as [l|]; [eapply step_inv; eauto|now rewrite St].
Qed.

(** A thread whose function returned goes away for good. *)
Theorem C68_exit_partial : forall k j v, at_step la k j (EReturn v) ->
  exists k', (k < k')%nat /\ forall k'', (k' <= k'')%nat -> exited (si k'') j.
Proof. exact (core_exit c Q pcs nn mp la Hp Hr q0 q1 q2 q3). Qed.

Hypothesis G : forall k, guards_ok c (si k).
Lemma q4 k s : Q k s -> guards_ok c s.
Proof. intros E. unfold Q in E. subst s. apply G. Qed.

(** join returns the value of a function that returns, whenever it does. *)
Theorem C68_join_partial : forall k1 k2 i j v, at_step la k1 i (ECallJoin j) -> at_step la k2 j (EReturn v) ->
  exists k3, (k1 < k3)%nat /\ at_step la k3 i (EJoin j v).
Proof. exact (core_join c Q pcs nn mp la Hp Hr q0 q1 q2 q3 q4). Qed.

(** detach always returns, whatever the thread does. *)
Theorem C68_detach_partial : forall k i j, at_step la k i (ECallDetach j) ->
  exists k', (k < k')%nat /\ at_step la k' i (EDetach j).
Proof. exact (core_detach c Q pcs nn mp la Hp Hr q0 q1 q2 q3 q4). Qed.

(** The memory of a thread that was joined or detached is gone for good once its
    function has returned. *)
Theorem C68_freed_partial : forall k1 k2 i j v, at_step la k1 i (ECallJoin j) \/ at_step la k1 i (ECallDetach j) ->
  at_step la k2 j (EReturn v) ->
  exists k3, forall k, (k3 <= k)%nat -> exited (si k) j /\ ~ mapped (si k) j.
Proof. exact (core_freed c Q pcs nn mp la Hp Hr q0 q1 q2 q3 q4). Qed.
End Fair.
Print Assumptions C68_exit_partial.
Print Assumptions C68_join_partial.
Print Assumptions C68_detach_partial.
Print Assumptions C68_freed_partial.

(** Fairness demands nothing impossible: a thread that is not idle can move,
    in every reachable state. *)
Theorem C68_never_stuck_partial : forall c tr s i, 0 < c_page c -> c_reuse c = false -> run c tr s ->
  idle s i \/ exists acc e s', e <> ESignal /\ step c s (i, acc, e) s'.
Proof.
  intros c tr s i Hp Hr Rn. pose proof (run_inv _ _ _ Hp Hr Rn) as I. unfold idle.
  destruct (P s i) as [|k j|k j v|k j|k j|k j rv|k j rv|j|rv|rv| | | | | | |a| |] eqn:E; auto; right.
  - destruct (Z.eq_dec (r_tid (R s j)) 0); do 3 eexists; (split; [|first [eapply s_load0; eauto; fail|eapply s_load; eauto; fail]]); discriminate.
  - do 3 eexists; (split; [|eapply s_futex_intr; eauto]); discriminate.
  - destruct k; [|do 3 eexists; (split; [|eapply s_detach_done; eauto]); discriminate].
    destruct (r_det (R s j)) eqn:D; destruct (c_debug c) eqn:DB;
      try (do 3 eexists; split; [|eapply s_join_load; eauto]; discriminate);
      do 3 eexists; (split; [|eapply s_join_assert; eauto; congruence]); discriminate.
  - destruct (Z.eq_dec (r_map (R s j)) 0); [do 3 eexists; (split; [|eapply s_free_none; eauto]); discriminate|].
    destruct (munmap_ok c (R s j)) eqn:M; do 3 eexists; (split; [|first [eapply s_free; eauto; fail|eapply s_free_einval; eauto; fail]]); discriminate.
  - destruct k; do 3 eexists; (split; [|first [eapply s_ret_join; eauto; fail|eapply s_ret_detach; eauto; fail]]); discriminate.
  - destruct (r_det (R s j)) eqn:D; do 3 eexists; (split; [|first [eapply s_swap; eauto; fail|eapply s_swap_running; eauto; congruence]]); discriminate.
  - destruct (r_det (R s i)) eqn:D.
    + do 3 eexists; (split; [|eapply s_cas; eauto]); discriminate.
    + destruct (Z.eq_dec (r_map (R s i)) 0); do 3 eexists; (split; [|first [eapply s_cas_nomap; eauto; congruence|eapply s_cas_detached; eauto; congruence]]); discriminate.
    + exfalso. eapply xcas_not_aband; eauto.
  - do 3 eexists; (split; [|eapply s_store; eauto]); discriminate.
  - do 3 eexists; (split; [|eapply s_exit; eauto]); discriminate.
  - do 3 eexists; (split; [|eapply s_dx_settid; eauto]); discriminate.
  - destruct (c_sig c) eqn:Sg; do 3 eexists; (split; [|first [eapply s_dx_block; eauto; fail|eapply s_dx_noblock; eauto; fail]]); discriminate.
  - destruct (munmap_ok c (R s i)) eqn:M; do 3 eexists; (split; [|first [eapply s_dx_munmap; eauto; fail|eapply s_dx_munmap_einval; eauto; fail]]); discriminate.
  - do 3 eexists; (split; [|eapply s_dx_exit; eauto]); discriminate.
  - destruct (t_clear (T s i)) eqn:Cl; do 3 eexists; (split; [|first [eapply s_kclear; eauto; fail|eapply s_kclear_null; eauto; fail]]); discriminate.
  - assert (D : forall m, (exists w k j, (w < m)%nat /\ P s w = JSleep k j /\ r_taddr (R s j) = a) \/ (forall w k j, (w < m)%nat -> P s w = JSleep k j -> r_taddr (R s j) <> a)).
    { induction m as [|m [(w & k & j & L & X)|IH]]; [right; intros; lia|left; exists w, k, j; split; [lia|auto]|].
      assert (O : (exists k j, P s m = JSleep k j /\ r_taddr (R s j) = a) \/ ~ (exists k j, P s m = JSleep k j /\ r_taddr (R s j) = a)).
      { destruct (P s m) as [| | |k j| | | | | | | | | | | | | | |] eqn:Em; try (right; intros (? & ? & ? & _); discriminate).
        destruct (Z.eq_dec (r_taddr (R s j)) a); [left; eauto|right; intros (k' & j' & X & Y); injection X as -> ->; contradiction]. }
      destruct O as [(k & j & X & Y)|O]; [left; exists m, k, j; split; [lia|auto]|].
      right. intros w k j L X Y. destruct (Nat.eq_dec w m) as [->|]; [apply O; eauto|]. eapply (IH w); eauto. lia. }
    destruct (D (n s)) as [(w & k & j & L & X & Y)|X].
    + do 3 eexists; (split; [|eapply s_kwake; eauto]); discriminate.
    + do 3 eexists; (split; [|eapply s_kwake_none; eauto]); discriminate.
Qed.
Print Assumptions C68_never_stuck_partial.

(** Any kernel, for programs that create no thread after one thread reclaimed
    another's memory. *)
Lemma fair_careful c si la : 0 < c_page c -> fair c si la -> (forall k, creates_first (upto la k)) -> fair (careful c) si la.
Proof.
  intros Hp F Cf. constructor; [apply (f_start _ _ _ F)| |apply (f_fair _ _ _ F)].
  assert (St : forall k, run (careful c) (upto la k) (si k)).
  { intros k. apply careful_run; auto. clear Cf. induction k as [|k IH]; [exists (si 0%nat); split; [apply (f_start _ _ _ F)|constructor]|].
    cbn [upto]. pose proof (f_step _ _ _ F k) as St. destruct (la k) as [l|]; [eapply run_snoc; eauto|rewrite app_nil_r, St; exact IH]. }
  intros k. pose proof (f_step _ _ _ F k) as S1. specialize (Cf (S k)). cbn [upto] in Cf.
  destruct (la k) as [l|]; [|exact S1]. eapply careful_step; eauto.
Qed.

Theorem C68_any_kernel : forall c si la, 0 < c_page c -> fair c si la ->
  (forall k, creates_first (upto la k)) -> (forall k, guards_ok c (si k)) ->
  (forall k j v, at_step la k j (EReturn v) -> exists k', (k < k')%nat /\ forall k'', (k' <= k'')%nat -> exited (si k'') j) /\
  (forall k1 k2 i j v, at_step la k1 i (ECallJoin j) -> at_step la k2 j (EReturn v) ->
     exists k3, (k1 < k3)%nat /\ at_step la k3 i (EJoin j v)) /\
  (forall k i j, at_step la k i (ECallDetach j) -> exists k', (k < k')%nat /\ at_step la k' i (EDetach j)) /\
  (forall k1 k2 i j v, at_step la k1 i (ECallJoin j) \/ at_step la k1 i (ECallDetach j) -> at_step la k2 j (EReturn v) ->
     exists k3, forall k, (k3 <= k)%nat -> exited (si k) j /\ ~ mapped (si k) j).
Proof.
  intros c si la Hp F Cf G. pose proof (fair_careful c si la Hp F Cf) as F'.
  split; [|split; [|split]].
  - exact (C68_exit_partial (careful c) si la Hp eq_refl F').
  - exact (C68_join_partial (careful c) si la Hp eq_refl F' G).
  - exact (C68_detach_partial (careful c) si la Hp eq_refl F' G).
  - exact (C68_freed_partial (careful c) si la Hp eq_refl F' G).
Qed.
Print Assumptions C68_any_kernel.

(** ** The hypotheses are met *)
(** Every finite run that ends with all threads idle is the beginning of a fair
    execution. *)
Lemma exec_seq c s tr s' : exec c s tr s' -> exists si la, si 0%nat = s /\
  (forall k, match la k with Some l => step c (si k) l (si (S k)) | None => si (S k) = si k end) /\
  (forall k, (length tr <= k)%nat -> si k = s' /\ la k = None) /\ upto la (length tr) = tr /\
  (forall k, exists t2, exec c (si k) t2 s').
Proof.
  induction 1 as [s|s tr s1 l s2 E (si & la & H0 & H1 & H2 & H3 & H4) St].
  - exists (fun _ => s), (fun _ => None). split; [reflexivity|]. split; [reflexivity|]. split; [auto|]. split; [reflexivity|].
    intros k. exists []. constructor.
  - exists (fun k => if (k <=? length tr)%nat then si k else s2), (fun k => if (k =? length tr)%nat then Some l else la k).
    assert (U : forall m, (m <= length tr)%nat -> upto (fun k => if (k =? length tr)%nat then Some l else la k) m = upto la m).
    { induction m as [|m IH]; intros L; [reflexivity|]. cbn [upto]. rewrite IH by lia. destruct (Nat.eqb_spec m (length tr)); [lia|reflexivity]. }
    split; [destruct (length tr); exact H0|]. split; [|split; [|split]].
    + intros k. destruct (Nat.eqb_spec k (length tr)) as [->|N].
      * rewrite Nat.leb_refl. destruct (Nat.leb_spec (S (length tr)) (length tr)); [lia|].
        destruct (H2 (length tr) ltac:(lia)) as (-> & _). exact St.
      * destruct (Nat.leb_spec k (length tr)); destruct (Nat.leb_spec (S k) (length tr)); try lia; try apply (H1 k).
        destruct (H2 k ltac:(lia)) as (_ & ->). reflexivity.
    + intros k. rewrite app_length. cbn [length]. intros L. destruct (Nat.leb_spec k (length tr)); [lia|].
      destruct (Nat.eqb_spec k (length tr)); [lia|]. split; [reflexivity|]. apply H2. lia.
    + rewrite app_length. cbn [length]. rewrite Nat.add_1_r. cbn [upto]. rewrite U by lia. rewrite H3, Nat.eqb_refl. reflexivity.
    + intros k. destruct (Nat.leb_spec k (length tr)).
      * destruct (H4 k) as (t2 & E2). exists (t2 ++ [l]). econstructor; eauto.
      * exists []. constructor.
Qed.

Lemma run_fair c tr s : 0 < c_page c -> c_reuse c = false -> run c tr s -> (forall i, idle s i) -> guards_ok c s ->
  exists si la, fair c si la /\ upto la (length tr) = tr /\ (forall k, (length tr <= k)%nat -> si k = s) /\ (forall k, guards_ok c (si k)).
Proof.
  intros Hp Hr (s0 & Hi & E) Id G. destruct (exec_seq c s0 tr s E) as (si & la & H0 & H1 & H2 & H3 & H4).
  assert (F : fair c si la).
  { constructor; [now rewrite H0|exact H1|]. intros i k. exists (Nat.max k (length tr)). split; [lia|]. right.
    destruct (H2 (Nat.max k (length tr)) ltac:(lia)) as (-> & _). apply Id. }
  exists si, la. split; [exact F|]. split; [exact H3|]. split; [intros k L; apply H2; auto|].
  intros k. destruct (H4 k) as (t2 & E2). eapply (guards_back c (si k)); eauto. eapply fair_inv; eauto.
Qed.

(** Thread 1 is joined while running, thread 2 detached while running, thread 3
    detached after it finished. *)
Definition acts_live : list act := acts1 ++ [AStep 3; ADetach 0 3; AStep 0; AStep 0; AStep 0; AStep 0; AStep 0].
Lemma live_run : run c1 (fst (simres c1 acts_live)) (snd (simres c1 acts_live)).
Proof. apply sim_run. vm_compute. reflexivity. Qed.
Lemma live_guards : guards_ok c1 (snd (simres c1 acts_live)).
Proof. Props_Thread.gok. Qed.
Lemma live_n : n (snd (simres c1 acts_live)) = 4%nat.
Proof. vm_compute. reflexivity. Qed.
Lemma live_idle : forall i, idle (snd (simres c1 acts_live)) i.
Proof.
  intros i. destruct (le_lt_dec 4 i) as [L|L].
  - pose proof (run_inv c1 _ _ ltac:(reflexivity) eq_refl live_run) as I. unfold idle.
    destruct (i_out _ _ I i) as (-> & _); [rewrite live_n; exact L|exact Logic.I].
  - destruct i as [|[|[|[|i]]]]; [vm_compute; exact Logic.I..|lia].
Qed.
Lemma live_did : did (fst (simres c1 acts_live)) 0 (ECallJoin 1) /\ did (fst (simres c1 acts_live)) 1 (EReturn 77) /\
  did (fst (simres c1 acts_live)) 0 (ECallDetach 2) /\ did (fst (simres c1 acts_live)) 2 (EReturn 5) /\
  did (fst (simres c1 acts_live)) 0 (ECallDetach 3) /\ did (fst (simres c1 acts_live)) 3 (EReturn 9).
Proof. Props_Thread.fin. Qed.

Theorem C68_ex : exists si la, fair c1 si la /\ (forall k, guards_ok c1 (si k)) /\
  (exists k1 k2, at_step la k1 0 (ECallJoin 1) /\ at_step la k2 1 (EReturn 77)) /\
  (exists k1 k2, at_step la k1 0 (ECallDetach 2) /\ at_step la k2 2 (EReturn 5)) /\
  (exists k1 k2, at_step la k1 0 (ECallDetach 3) /\ at_step la k2 3 (EReturn 9)).
Proof.
  destruct (run_fair c1 _ _ ltac:(reflexivity) eq_refl live_run live_idle live_guards) as (si & la & F & U & _ & G).
  exists si, la. split; [exact F|]. split; [exact G|].
  pose proof live_did as D. rewrite <- U in D. destruct D as (D1 & D2 & D3 & D4 & D5 & D6).
  apply did_upto in D1 as (k1 & _ & D1), D2 as (k2 & _ & D2), D3 as (k3 & _ & D3), D4 as (k4 & _ & D4), D5 as (k5 & _ & D5), D6 as (k6 & _ & D6).
  split; [exists k1, k2; auto|]. split; [exists k3, k4; auto|]. exists k5, k6; auto.
Qed.
Print Assumptions C68_ex.

(** ... and on a kernel that reuses addresses early. *)
Lemma careful_back c s l s' : step (careful c) s l s' -> step c s l s'.
Proof.
  intros St. destruct St; [apply (s_create c s i base guard map tid taddr); auto|..].
  all: try (econstructor; eauto; fail).
  intros _. apply H8. reflexivity.
Qed.
Lemma fair_back c si la : fair (careful c) si la -> fair c si la.
Proof.
  intros [A B C]. constructor; auto. intros k. specialize (B k). destruct (la k); auto. now apply careful_back.
Qed.
Lemma upto_mono la k k' : (k <= k')%nat -> exists t, upto la k' = upto la k ++ t.
Proof.
  induction 1 as [|k' _ (t & IH)]; [exists []; now rewrite app_nil_r|]. cbn [upto]. rewrite IH. eexists. now rewrite <- app_assoc.
Qed.
Lemma run_fair_any c tr s : 0 < c_page c -> run c tr s -> creates_first tr -> (forall i, idle s i) -> guards_ok c s ->
  exists si la, fair c si la /\ (forall k, creates_first (upto la k)) /\ upto la (length tr) = tr /\ (forall k, guards_ok c (si k)).
Proof.
  intros Hp Rn Cf Id G. pose proof (careful_run c tr s Hp Rn Cf) as (s0 & Hi & E).
  destruct (exec_seq (careful c) s0 tr s E) as (si & la & H0 & H1 & H2 & H3 & H4).
  assert (F : fair (careful c) si la).
  { constructor; [now rewrite H0|exact H1|]. intros i k. exists (Nat.max k (length tr)). split; [lia|]. right.
    destruct (H2 (Nat.max k (length tr)) ltac:(lia)) as (-> & _). apply Id. }
  assert (U : forall d, upto la (length tr + d) = tr).
  { induction d as [|d IH]; [now rewrite Nat.add_0_r|]. rewrite Nat.add_succ_r. cbn [upto]. rewrite IH.
    destruct (H2 (length tr + d)%nat ltac:(lia)) as (_ & ->). now rewrite app_nil_r. }
  exists si, la. split; [apply fair_back; exact F|]. split; [|split; [exact H3|]].
  - intros k. destruct (upto_mono la k (length tr + k) ltac:(lia)) as (t & Et). rewrite U in Et. rewrite Et in Cf. eapply creates_first_app; eauto.
  - intros k. destruct (H4 k) as (t2 & E2). eapply (guards_back (careful c) (si k)); eauto. eapply fair_inv; eauto.
Qed.

Lemma live2_run : run c2 (fst (simres c2 acts_p)) (snd (simres c2 acts_p)).
Proof. apply sim_run. vm_compute. reflexivity. Qed.
Lemma live2_cf : creates_first (fst (simres c2 acts_p)).
Proof. apply (cf_sound _ false). vm_compute. reflexivity. Qed.
Lemma live2_guards : guards_ok c2 (snd (simres c2 acts_p)).
Proof. Props_Thread.gok. Qed.
Lemma live2_n : n (snd (simres c2 acts_p)) = 4%nat.
Proof. vm_compute. reflexivity. Qed.
Lemma live2_idle : forall i, idle (snd (simres c2 acts_p)) i.
Proof.
  intros i. destruct (le_lt_dec 4 i) as [L|L].
  - pose proof (run_inv (careful c2) _ _ ltac:(reflexivity) eq_refl (careful_run c2 _ _ ltac:(reflexivity) live2_run live2_cf)) as I. unfold idle.
    destruct (i_out _ _ I i) as (-> & _); [rewrite live2_n; exact L|exact Logic.I].
  - destruct i as [|[|[|[|i]]]]; [vm_compute; exact Logic.I..|lia].
Qed.
Lemma live2_did : did (fst (simres c2 acts_p)) 0 (ECallJoin 1) /\ did (fst (simres c2 acts_p)) 1 (EReturn 77) /\
  did (fst (simres c2 acts_p)) 0 (ECallDetach 2) /\ did (fst (simres c2 acts_p)) 2 (EReturn 5).
Proof. Props_Thread.fin. Qed.

Theorem C68_any_kernel_ex : exists si la, c_reuse c2 = true /\ fair c2 si la /\ (forall k, creates_first (upto la k)) /\ (forall k, guards_ok c2 (si k)) /\
  (exists k1 k2, at_step la k1 0 (ECallJoin 1) /\ at_step la k2 1 (EReturn 77)) /\
  (exists k1 k2, at_step la k1 0 (ECallDetach 2) /\ at_step la k2 2 (EReturn 5)).
Proof.
  destruct (run_fair_any c2 _ _ ltac:(reflexivity) live2_run live2_cf live2_idle live2_guards) as (si & la & F & C & U & G).
  exists si, la. split; [reflexivity|]. split; [exact F|]. split; [exact C|]. split; [exact G|].
  pose proof live2_did as D. rewrite <- U in D. destruct D as (D1 & D2 & D3 & D4).
  apply did_upto in D1 as (k1 & _ & D1), D2 as (k2 & _ & D2), D3 as (k3 & _ & D3), D4 as (k4 & _ & D4).
  split; [exists k1, k2; auto|]. exists k3, k4; auto.
Qed.
Print Assumptions C68_any_kernel_ex.
