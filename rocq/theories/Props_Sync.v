(** Property C65: creating and joining threads synchronise.

    A [hist c h s] is a run of the thread model (any interleaving of any number
    of threads, from process start) in which threads also access ordinary
    memory at any point of their user code; [h] lists every entry in order
    ([what] = None: an ordinary memory access; [acc]: whose stack or record it
    touches).  [hb kw h p q] says that entry [p] happens before entry [q] in
    the sense of the C++/Rust memory model: program order, thread start,
    release/acquire on the atomics of the thread records, and transitivity; if
    [kw], also the kernel's futex wake before what the woken thread does
    (SyncModel.v).  Two conflicting ordinary accesses are no data race if one
    happens before the other. *)
From Coq Require Import ZArith List Bool Lia Arith.
From Verif Require Import ThreadModel ThreadInv ThreadSpec ThreadPres4 ThreadTop ThreadSim SyncModel SyncFacts SyncInv SyncTop.
Import ListNotations.
Open Scope nat_scope.

(** Histories are exactly the runs, with accesses added. *)
Theorem C65_histories_are_runs : forall c h s, hist c h s -> run c (labels h) s.
Proof. exact hist_run. Qed.
Theorem C65_runs_are_histories : forall c tr s, (0 < c_page c)%Z -> c_reuse c = false ->
  run c tr s -> exists h, hist c h s /\ labels h = tr.
Proof. exact run_hist. Qed.

(** Whatever a thread did up to and including its call of create happens
    before everything the created thread ever does. *)
Theorem C65_create : forall c h s p m q a d b j,
  hist c h s ->
  nth_error h m = Some d -> what d = Some (ECreate j) ->
  nth_error h p = Some a -> by_ a = by_ d -> p <= m ->
  nth_error h q = Some b -> by_ b = j ->
  hb false h p q.
Proof. intros c h s p m q a d b j H Nm Wd Np Ea Lp Nq Eb. exact (create_hb c h s m p q a b d j H Nm Wd Np Lp Ea Nq Eb). Qed.

(** Whatever a thread did in its user code, wherever in the history that is,
    happens before the return of the join of it and all that the joiner does
    afterwards; by the crate's atomics alone.  Counting the kernel's wake, so
    does every use the thread makes of its stack or record while exiting. *)
Theorem C65_join_partial : forall c h s p q r a b d j rv,
  (0 < c_page c)%Z -> c_reuse c = false -> hist c h s ->
  nth_error h q = Some b -> what b = Some (EJoin j rv) ->
  q <= r -> nth_error h r = Some d -> by_ d = by_ b ->
  nth_error h p = Some a -> by_ a = j ->
  (what a = None \/ (exists v, what a = Some (EReturn v)) -> hb false h p r) /\
  (acc a <> [] -> hb true h p r).
Proof.
  intros c h s p q r a b d j rv Hp Hr H Nq Wb Lr Nr Er Np Ea.
  destruct (join_hb c Hp Hr h s q b j rv H Nq Wb) as (U & O).
  assert (R : forall kw, hb kw h p q -> hb kw h p r).
  { intros kw X. destruct (Nat.eq_dec q r) as [<-|D]; auto. eapply hb_trans; [exact X|]. eapply hb_po; eauto. lia. }
  split; intros X; apply R.
  - apply U. exists a. split; auto.
  - apply O. exists a. split; auto.
Qed.

(** When the memory of thread [j] is unmapped, by whoever does it: every use
    of it by a call of the crate or by [j] itself happens before, and so does
    its creation; the user code of [j], and everything the thread that joined
    or detached [j] did up to that call, do so by the crate's atomics alone.
    (An id query by another thread is ordered if the program orders it before
    the join or detach.) *)
Theorem C65_reclaim_partial : forall c h s i ac e s' o j p a,
  (0 < c_page c)%Z -> c_reuse c = false -> hist c h s ->
  step c s (i, ac, e) s' -> syncs s i e s' o ->
  j < n s -> mapped s j -> ~ mapped s' j ->
  nth_error h p = Some a ->
  let h' := h ++ [En i ac (Some e) o] in
  (In j (acc a) -> (forall k v, what a = Some (EId k v) -> by_ a = j) -> hb true h' p (length h)) /\
  (what a = Some (ECreate j) -> hb true h' p (length h)) /\
  (by_ a = j -> what a = None \/ (exists v, what a = Some (EReturn v)) -> hb false h' p (length h)) /\
  (forall q b, p <= q -> nth_error h q = Some b -> by_ b = by_ a -> by_ b <> j ->
     what b = Some (ECallJoin j) \/ what b = Some (ECallDetach j) -> hb false h' p (length h)).
Proof.
  intros c h s i ac e s' o j p a Hp Hr H St Sy L M N Np h'.
  destruct (reclaim_hb c Hp Hr h s i ac e s' o j H St Sy L M N) as (U & O & W).
  split; [|split; [|split]].
  - intros Ha Hid. destruct (Nat.eq_dec (by_ a) j) as [E|D].
    + apply O. exists a. split; auto. left. split; auto. intros X. rewrite X in Ha. destruct Ha.
    + apply hb_weaken. apply (W (by_ a)). exists a. repeat split; auto. left. split; auto.
      intros k v X. apply D. eauto.
  - intros X. apply O. exists a. auto.
  - intros E X. apply U. exists a. split; auto.
  - intros q b Lq Nq Eb Dj X.
    assert (Q : hb false h' q (length h)) by (apply (W (by_ b)); exists b; repeat split; auto).
    destruct (Nat.eq_dec p q) as [->|D]; auto. eapply hb_trans; [|exact Q].
    apply (hb_po false h' p q a b); [lia| | |congruence]; unfold h'; apply nth_old; auto.
Qed.

(** * Concrete histories *)
Definition c1 : cfg := Cfg 4096 true true true false.
(** The main thread creates thread 1 and sleeps in the join of it; thread 1
    then writes memory, returns 77, is joined. *)
Definition pre1 : list act := [ACreate 0 65536 4096 16384 101 65636; AJoin 0 1; AStep 0; AStep 0].
Definition post1 : list act := [AReturn 1 77; AStep 1; AStep 1; AStep 1; AStep 1; AWake 1 0; AStep 0; AStep 0; AStep 0].

Definition st1 : st := snd (simres c1 pre1).
Lemma ex_pre : run c1 (fst (simres c1 pre1)) st1.
Proof. apply sim_run. vm_compute. reflexivity. Qed.
Definition ends_well (o : option (list label * st)) : bool :=
  match o with
  | Some (tr, _) => existsb (fun l => match l with (0, [0], EJoin 1 v) => Z.eqb v 77 | _ => false end) tr
  | None => false end.
Lemma ex_post : exists tr s, exec c1 st1 tr s /\ In (0, [0], EJoin 1 77) tr.
Proof.
  assert (E : ends_well (sim c1 st1 [] post1) = true) by (vm_compute; reflexivity).
  destruct (sim c1 st1 [] post1) as [[tr s]|] eqn:S; [|discriminate]. exists tr, s. split.
  - eapply sim_exec; [constructor|exact S].
  - unfold ends_well in E. apply existsb_exists in E as ([[i a] e] & Hin & E).
    destruct i; [|discriminate]. destruct a as [|[|x] [|y a]]; try discriminate.
    destruct e; try discriminate. destruct j as [|[|j]]; try discriminate. apply Z.eqb_eq in E. subst. exact Hin.
Qed.
Lemma ex_run1 : 1 < n st1 /\ t_pc (T st1 1) = Run.
Proof. vm_compute. auto. Qed.

Theorem C65_ex : exists h s p q a b, hist c1 h s /\
  nth_error h p = Some a /\ by_ a = 1 /\ what a = None /\
  nth_error h q = Some b /\ by_ b = 0 /\ what b = Some (EJoin 1 77) /\ hb false h p q.
Proof.
  pose proof ex_pre as R1. pose proof ex_run1 as (N1 & P1). destruct ex_post as (tr2 & s2 & E2 & IN2).
  generalize dependent st1. intros s1 R1 N1 P1 E2. generalize dependent (fst (simres c1 pre1)). intros tr1 R1.
  destruct (run_hist c1 _ _ ltac:(reflexivity) eq_refl R1) as (h1 & H1 & _).
  assert (H2 : hist c1 (h1 ++ [En 1 [1] None []]) s1) by (apply h_user; auto).
  destruct (hext_exec c1 s1 _ _ ltac:(reflexivity) eq_refl (hist_inv c1 ltac:(reflexivity) eq_refl _ _ H1) E2) as (h3 & X & Lb & _).
  assert (IN : In (0, [0], EJoin 1 77) (labels h3)) by (rewrite Lb; exact IN2).
  assert (Y : exists b, In b h3 /\ by_ b = 0 /\ what b = Some (EJoin 1 77)).
  { clear -IN. induction h3 as [|[i a [e|] o] h IH]; cbn [labels] in IN; [destruct IN| |].
    - destruct IN as [E|IN].
      + injection E as -> -> ->. eexists. split; [left; reflexivity|]. auto.
      + destruct (IH IN) as (b & B & ?). exists b. split; [right|]; auto.
    - destruct (IH IN) as (b & B & ?). exists b. split; [right|]; auto. }
  destruct Y as (b & Inb & Eb & Wb). apply In_nth_error in Inb as (q & Nq).
  pose proof (hist_hext c1 _ _ _ _ H2 X) as H.
  assert (NQ : nth_error ((h1 ++ [En 1 [1] None []]) ++ h3) (length (h1 ++ [En 1 [1] None []]) + q) = Some b).
  { rewrite nth_error_app2 by lia. replace (_ + q - _) with q by lia. exact Nq. }
  eexists _, _, (length h1), _, _, b. split; [exact H|]. split; [apply nth_mid|]. split; [reflexivity|]. split; [reflexivity|].
  split; [exact NQ|]. split; [exact Eb|]. split; [exact Wb|].
  eapply (C65_join_partial c1 _ _ (length h1)); [reflexivity|reflexivity|exact H|exact NQ|exact Wb|reflexivity|exact NQ|reflexivity|apply nth_mid|reflexivity|left; reflexivity].
Qed.

(** Detaching orders nothing: happens-before does not hold for want of a
    reason.  Thread 1 accesses memory, the main thread then detaches it. *)
Definition acts_d : list act := [ACreate 0 65536 4096 16384 101 65636; ADetach 0 1; AStep 0].
Definition st_d (m : nat) : st := snd (simres c1 (firstn m acts_d)).
Theorem C65_detach_no_order : exists h s p q a b, hist c1 h s /\ p < q /\
  nth_error h p = Some a /\ by_ a = 1 /\ what a = None /\
  nth_error h q = Some b /\ by_ b = 0 /\ what b = Some (EDetach 1) /\ ~ hb true h p q.
Proof.
  set (h := [En 0 [0] (Some (ECreate 1)) [Fork 1]; En 1 [1] None []; En 0 [0] (Some (ECallDetach 1)) [];
             En 0 [0; 1] (Some (EDetach 1)) [Rmw (Det 1)]]).
  assert (H : hist c1 h (st_d 3)).
  { change h with ((([] ++ [En 0 [0] (Some (ECreate 1)) [Fork 1]]) ++ [En 1 [1] None []]) ++ [En 0 [0] (Some (ECallDetach 1)) []]
             ++ [En 0 [0; 1] (Some (EDetach 1)) [Rmw (Det 1)]]). rewrite app_assoc.
    apply (h_step c1 _ (st_d 2) 0 [0; 1] (EDetach 1)).
    apply (h_step c1 _ (st_d 1) 0 [0] (ECallDetach 1)).
    apply h_user.
    apply (h_step c1 _ (st_d 0) 0 [0] (ECreate 1)).
    - apply h_init. exact s0_initial.
    - apply (do_act_sound c1 _ (ACreate 0 65536 4096 16384 101 65636)). reflexivity.
    - apply (sy_nowake (st_d 0) 0 (ECreate 1) (st_d 1)). intros [|[|w]] Hw; vm_compute; auto; congruence.
    - vm_compute; auto.
    - vm_compute; auto.
    - apply (do_act_sound c1 _ (ADetach 0 1)). reflexivity.
    - apply (sy_nowake (st_d 1) 0 (ECallDetach 1) (st_d 2)). intros [|[|w]] Hw; vm_compute; auto; congruence.
    - apply (do_act_sound c1 _ (AStep 0)). reflexivity.
    - apply (sy_nowake (st_d 2) 0 (EDetach 1) (st_d 3)). intros [|[|w]] Hw; vm_compute; auto; congruence. }
  exists h, (st_d 3), 1, 3, (En 1 [1] None []), (En 0 [0; 1] (Some (EDetach 1)) [Rmw (Det 1)]).
  split; [exact H|]. split; [lia|]. split; [reflexivity|]. split; [reflexivity|]. split; [reflexivity|].
  split; [reflexivity|]. split; [reflexivity|]. split; [reflexivity|].
  assert (Q : forall p q, hb true h p q -> p = 1 -> False).
  { intros p q X. induction X as [p q a b L Na Nb E|p q a b j L Na Nb F E|p q a b x L Na Nb F|p q a b w _ L Na Nb F|p q r _ IH]; intros ->; auto;
      cbn in Na; injection Na as <-; cbn in *; try contradiction; try tauto.
    destruct q as [|[|[|[|q]]]]; cbn in Nb; try lia; try discriminate; try (injection Nb as <-; cbn in E; discriminate).
    now destruct q. }
  intros X. exact (Q _ _ X eq_refl).
Qed.

Print Assumptions C65_join_partial.
Print Assumptions C65_reclaim_partial.
