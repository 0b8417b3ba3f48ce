(** C82: as C73 for programs that also register program::at_exit functions: in
    every interleaving the same joins, the same text of every thread but main,
    the same status and in total the same output, namely those that reading the
    program sequentially (PexitSpec.v) gives.  If only the main thread registers
    program::at_exit functions, also the same text of the main thread, so these
    functions in the same order; if other threads register them too, that order
    depends on the schedule (C82_others_refuted). *)
From Coq Require Import ZArith List Bool Lia Arith Permutation.
From Verif Require Import Machine LayoutModel LayoutSpec Props_Layout ThreadModel ThreadPhase ByteModel ByteProofs BytePhase DtorsModel DtorsFacts DtorsInv DtorsPres ProcModel Props_Proc Props_Byte Props_BytePhase Props_Dtors ScriptProofs ForkPlay Props_Fork PexitModel PexitSpec PexitProofs PexitAll PexitMain PexitTidy PexitPlay.
Import ListNotations.
Open Scope Z_scope.

Definition regs_in_main (main : qprog) (fini : nat -> qprog) : Prop := main_only main /\ forall k, main_only (fini k).

Lemma fork_end fini main e c tr s m o : good_env e -> qrun fini main e c tr s m -> term (fns s) = Some o ->
  exists st bot, frames (fns s) 0%nat = FX st (XFini 0) :: bot /\ o = Exited st.
Proof.
  intros Ge R T. destruct R as [b Hb|tr s m x s' m' R St F|tr s m t w z k hs R T' U P A]; [discriminate T| |congruence].
  destruct (arun_inv c fini e main _ _ _ Ge R) as [g V]. pose proof (frun_prun c fini e main _ _ _ R) as RP.
  destruct (proj _ _ _ _ RP) as [_ RD]. pose proof (exec_inv _ _ _ RD) as I.
  assert (LT : forall t0 act x0 d', dstep c (fns s) t0 act = Some (x0, d') -> (t0 < nthr (fns s))%nat).
  { intros t0 act x0 d' DS. destruct (le_lt_dec (nthr (fns s)) t0) as [X|X]; [|exact X]. destruct (i_new _ _ _ I t0 X) as [Y _].
    pose proof (e_live _ _ _ _ _ (dstep_effect _ _ _ _ _ _ DS)). contradiction. }
  assert (NT : forall t0 act x0 d', dstep c (fns s) t0 act = Some (x0, d') -> term d' = Some o -> x0 = Term o).
  { intros t0 act x0 d' DS. rewrite (e_term _ _ _ _ _ (dstep_effect _ _ _ _ _ _ DS)). destruct x0; congruence. }
  destruct St as [acc b' T' B|acc i ins x b' T' B LO AC|t0 act x d' DS FO PC|t0 v d' DS PC UV|acc i ins j b' d' B DS|acc t0 ins b' d' DS B]; cbn [fns] in *;
    try congruence; try (discriminate (NT _ _ _ _ DS T)).
  pose proof (NT _ _ _ _ DS T) as ->. pose proof (LT _ _ _ _ DS) as Lt. destruct (a_left _ _ _ _ _ _ _ V t0 Lt) as (os & L & _).
  apply dstep_inv in DS as [_ DS]. inversion DS; subst; match goal with H : frames (fns s) t0 = _ |- _ => rename H into E; rewrite E in L; inversion L; subst end; try (match goal with H : _ = _ \/ _ |- _ => destruct H; discriminate end).
  destruct (Nat.eqb_spec t0 0) as [->|D]; [|discriminate]. exists (value (code m 0%nat) []), fs. cbn [finish frames]. auto.
Qed.

(** * The properties *)
Section Props.
Variables (fini : nat -> qprog) (main : qprog) (e : benv) (c : dcfg).
Local Notation qrun := (qrun fini main e c).

(** What a thread will have printed when it is done. *)
Definition whole (m : qmach) (t : nat) : list Z := if Nat.eqb t 0 then main_text main fini (fini_entries c) else said (code m t).
Lemma whole_full tr s m g : finv c fini main tr s m g -> forall t, full c fini m t = whole m t.
Proof.
  intros V t. unfold full, whole. destruct (v_main _ _ _ _ _ _ _ V) as [<- _]. destruct (Nat.eqb_spec t 0) as [->|D]; [reflexivity|apply app_nil_r].
Qed.

(** Joining a thread gives its function's value, whatever ran in between; by
    then the thread has printed exactly its text. *)
Theorem C82_join_partial : forall tr i ins j v s m, good_env e -> qrun (tr ++ [PLife (i, ins, EJoin j v)]) s m ->
  v = value (code m j) [] /\ out_of m j = said (code m j).
Proof.
  intros tr i ins j v s m Ge R. destruct (arun_inv c fini e main _ _ _ Ge R) as [g V].
  pose proof (frun_prun c fini e main _ _ _ R) as RP.
  destruct (C62_join_partial e c tr i ins j v s Ge RP) as (H & _ & _ & Fj).
  destruct (a_ret _ _ _ _ _ _ _ V j v) as [Lt Hv]; [apply in_or_app; left; apply H; reflexivity|]. split; [exact Hv|].
  destruct (a_left _ _ _ _ _ _ _ V j Lt) as (os & L & O). rewrite Fj in L.
  destruct (Nat.eqb_spec j 0) as [->|D]; inversion L; subst os. rewrite app_nil_r in O. exact (O D).
Qed.

(** At every moment of every execution each thread other than main has printed
    the beginning of its text, in its order: nothing is lost, repeated,
    reordered or depends on the schedule. *)
Theorem C82_thread_partial : forall tr s m t, good_env e -> qrun tr s m -> t <> 0%nat -> prefix (out_of m t) (said (code m t)).
Proof.
  intros tr s m t Ge R D. destruct (arun_inv c fini e main _ _ _ Ge R) as [g V].
  destruct (le_lt_dec (nthr (fns s)) t) as [Lt|Lt].
  - exists (said (code m t)). replace (out_of m t) with (@nil Z); [reflexivity|]. unfold out_of.
    rewrite (proj2 (List.filter_ext_in_iff (fun x => Nat.eqb (fst x) t) (fun _ => false) (fout m))).
    + induction (fout m) as [|y l IH]; [reflexivity|exact IH].
    + intros y Hy. apply (a_out _ _ _ _ _ _ _ V) in Hy. apply Nat.eqb_neq. lia.
  - destruct (a_left _ _ _ _ _ _ _ V t Lt) as (os & _ & O). exists os. symmetry. auto.
Qed.
(** The same of main if no other thread registers program::at_exit functions. *)
Theorem C82_prefix_partial : forall tr s m t, regs_in_main main fini -> good_env e -> qrun tr s m -> prefix (out_of m t) (whole m t).
Proof.
  intros tr s m t Hq Ge R. destruct (frun_inv c fini e main (proj2 Hq) (proj1 Hq) _ _ _ Ge R) as [g V]. rewrite <- (whole_full _ _ _ _ V).
  destruct (le_lt_dec (nthr (fns s)) t) as [Lt|Lt].
  - exists (full c fini m t). replace (out_of m t) with (@nil Z); [reflexivity|]. unfold out_of.
    rewrite (proj2 (List.filter_ext_in_iff (fun x => Nat.eqb (fst x) t) (fun _ => false) (fout m))).
    + induction (fout m) as [|y l IH]; [reflexivity|exact IH].
    + intros y Hy. apply (v_out _ _ _ _ _ _ _ V) in Hy. apply Nat.eqb_neq. lia.
  - destruct (v_left _ _ _ _ _ _ _ V t Lt) as (os & _ & O). exists os. auto.
Qed.

(** A thread that is done has printed all of it. *)
Theorem C82_done_partial : forall tr s m t ins v, good_env e -> qrun tr s m -> In (PDone t ins v) tr ->
  v = value (code m t) [] /\ out_of m t = said (code m t).
Proof.
  intros tr s m t ins v Ge R D. destruct (arun_inv c fini e main _ _ _ Ge R) as [g V].
  pose proof (frun_prun c fini e main _ _ _ R) as RP.
  destruct (done_frames _ _ _ _ _ _ _ RP D) as [Lt E]. split.
  - apply (a_ret _ _ _ _ _ _ _ V t v). eapply pi_done; [eapply prun_inv; exact RP|exact D].
  - destruct (a_left _ _ _ _ _ _ _ V t Lt) as (os & L & O). rewrite E in L. destruct (Nat.eqb_spec t 0) as [->|Dt]; inversion L; subst os.
    rewrite app_nil_r in O. exact (O Dt).
Qed.

(** The process can only end with what main returns. *)
Theorem C82_status_partial : forall tr s m o, good_env e -> qrun tr s m -> term (fns s) = Some o -> o = Exited (value main []).
Proof.
  intros tr s m o Ge R T. destruct (arun_inv c fini e main _ _ _ Ge R) as [g V].
  destruct (fork_end _ _ _ _ _ _ _ _ Ge R T) as (st & bot & E & ->). destruct (a_main _ _ _ _ _ _ _ V) as [Cm Lt].
  destruct (a_left _ _ _ _ _ _ _ V 0%nat Lt) as (os & L & O). rewrite Cm in L. rewrite E in L. cbn [Nat.eqb] in L.
  generalize dependent (value main []). intros v L. inversion L; subst; try (match goal with H : _ = _ \/ _ |- _ => destruct H; discriminate end).
  reflexivity.
Qed.
(** And if only main registers, with main's whole text. *)
Theorem C82_end_partial : forall tr s m o, regs_in_main main fini -> good_env e -> qrun tr s m -> term (fns s) = Some o ->
  o = Exited (value main []) /\ out_of m 0%nat = main_text main fini (fini_entries c).
Proof.
  intros tr s m o Hq Ge R T. destruct (frun_inv c fini e main (proj2 Hq) (proj1 Hq) _ _ _ Ge R) as [g V].
  destruct (fork_end _ _ _ _ _ _ _ _ Ge R T) as (st & bot & E & ->). destruct (v_main _ _ _ _ _ _ _ V) as [Cm Lt].
  destruct (v_left _ _ _ _ _ _ _ V 0%nat Lt) as (os & L & O). rewrite Cm in L. rewrite E in L. cbn [Nat.eqb] in L.
  generalize dependent (value main []). intros v L. inversion L; subst; try (match goal with H : _ = _ \/ _ |- _ => destruct H; discriminate end).
  split; [reflexivity|]. cbn [finis] in O. rewrite app_nil_r in O. rewrite O. reflexivity.
Qed.

(** The main thread's text whoever registers: main's own text with its
    thread::at_exit functions, then the program::at_exit functions that were
    called, in the order they were called (last registered first: C35_lifo, each
    once: C36_once), whole and each before the next begins, then .fini_array. *)
Theorem C82_main_partial : forall tr s m, good_env e -> qrun tr s m ->
  let text := said main ++ flat_map (fun f => prints (freg m f) []) (pcalls tr) ++ finis fini (fini_entries c) in
  prefix (out_of m 0%nat) text /\ forall o, term (fns s) = Some o -> out_of m 0%nat = text.
Proof.
  intros tr s m Ge R. cbv zeta. destruct (qrun_main c fini e main _ _ _ Ge R) as (_ & r & tl & L & O).
  change (flat_map (fun f => prints (freg m f) []) (pcalls tr)) with (mtold (freg m) (pcalls tr)). split.
  - assert (T : tl = [] \/ tl = finis fini (fini_entries c)) by (destruct L; auto; destruct d; auto).
    destruct T as [-> | ->]; [exists (r ++ finis fini (fini_entries c))|exists r; symmetry; exact O].
    rewrite app_nil_r in O. rewrite (app_assoc (out_of m 0%nat)), O, <- app_assoc. reflexivity.
  - intros o T. destruct (fork_end _ _ _ _ _ _ _ _ Ge R T) as (st & bot & E & _). rewrite E in L. inversion L; subst; try (match goal with H : isreg _ = true |- _ => discriminate H | H : midx _ = true |- _ => discriminate H end).
    cbn [finis] in O. rewrite app_nil_r in O. exact O.
Qed.

(** If every thread is joined by its creator, the whole output of the process is
    the program's, interleaved in some way, and all threads have finished. *)
Theorem C82_tidy_partial : forall tr s m o, good_env e -> tidy main 0 [] -> (forall k, tidy (fini k) 0 []) ->
  qrun tr s m -> term (fns s) = Some o ->
  (forall j, (0 < j < nthr (fns s))%nat -> frames (fns s) j = [] /\ out_of m j = said (code m j)) /\
  Permutation (map snd (fout m)) (total Early main [] ++ fini_total fini (fini_entries c)).
Proof.
  intros tr s m o Ge Tm Tf R T. destruct (arun_inv c fini e main _ _ _ Ge R) as [g V].
  destruct (fork_end _ _ _ _ _ _ _ _ Ge R T) as (st & bot & E & ->). destruct (a_main _ _ _ _ _ _ _ V) as [Cm Lt].
  assert (A0 : acts m 0%nat = None /\ g 0%nat = []).
  { destruct (a_left _ _ _ _ _ _ _ V 0%nat Lt) as (os & L & O). rewrite E in L. cbn [Nat.eqb] in L. inversion L; auto; match goal with H : _ = _ \/ _ |- _ => destruct H; discriminate end. }
  destruct A0 as [A0 G0]. pose proof (all_done c fini e main Tm Tf _ _ _ Ge R A0) as D.
  assert (X : forall j, (0 < j < nthr (fns s))%nat -> out_of m j = said (code m j) /\ g j = []).
  { intros j Hj. destruct (a_left _ _ _ _ _ _ _ V j ltac:(lia)) as (os & L & O). rewrite (D j Hj) in L.
    destruct (Nat.eqb_spec j 0) as [->|Dj]; [lia|]. inversion L; subst os. rewrite app_nil_r in O. split; [exact (O Dj)|auto]. }
  split; [intros j Hj; split; [auto|apply X; exact Hj]|].
  pose proof (a_perm _ _ _ _ _ _ _ V) as P.
  assert (PO : pool (freg m) (fns s) = []) by (unfold pool; rewrite E; reflexivity).
  rewrite PO, app_nil_r in P.
  replace (flat_map g (seq 0 (nthr (fns s)))) with (@nil Z) in P; [rewrite app_nil_r in P; exact P|].
  assert (Z : forall l, (forall j, In j l -> (j < nthr (fns s))%nat) -> flat_map g l = []).
  { induction l as [|j l IH]; intros H; [reflexivity|]. cbn [flat_map]. rewrite IH by (intros; apply H; right; auto).
    destruct j; [rewrite G0; reflexivity|]. destruct (X (S j)) as [_ ->]; [|reflexivity]. split; [lia|apply H; left; reflexivity]. }
  rewrite Z; [reflexivity|]. intros j Hj. apply in_seq in Hj. lia.
Qed.
End Props.

(** Two runs of the same program, on machines that may differ: same status, if
    only main registers program::at_exit functions same text of the main thread,
    and if every thread is joined the same output up to interleaving. *)
Theorem C82_same_partial : forall fini main e e' c tr s m tr' s' m' o o', good_env e -> good_env e' ->
  qrun fini main e c tr s m -> qrun fini main e' c tr' s' m' -> term (fns s) = Some o -> term (fns s') = Some o' ->
  o = o' /\ (regs_in_main main fini -> out_of m 0%nat = out_of m' 0%nat) /\
  (tidy main 0 [] -> (forall k, tidy (fini k) 0 []) -> Permutation (map snd (fout m)) (map snd (fout m'))).
Proof.
  intros fini main e e' c tr s m tr' s' m' o o' G G' R R' T T'.
  split; [rewrite (C82_status_partial _ _ _ _ _ _ _ _ G R T), (C82_status_partial _ _ _ _ _ _ _ _ G' R' T'); reflexivity|]. split.
  - intros Hq. destruct (C82_end_partial _ _ _ _ _ _ _ _ Hq G R T) as [_ ->]. destruct (C82_end_partial _ _ _ _ _ _ _ _ Hq G' R' T') as [_ ->]. reflexivity.
  - intros T1 T2.
    destruct (C82_tidy_partial _ _ _ _ _ _ _ _ G T1 T2 R T) as [_ P]. destruct (C82_tidy_partial _ _ _ _ _ _ _ _ G' T1 T2 R' T') as [_ P'].
    rewrite P, P'. reflexivity.
Qed.

(** ** On any kernel, for programs that create no thread after one thread
    reclaimed another's memory *)
Lemma frun_careful c fini main e tr s m : any_env e -> qrun fini main e c tr s m -> creates_first (lifes tr) -> qrun fini main (bcareful e) c tr s m.
Proof.
  intros W R. induction R as [b Hb|tr s m x s' m' R IH St F|tr s m t w z k hs R IH T U P A]; intros C.
  - apply qr_init. exact Hb.
  - pose proof C as C'. rewrite lifes_snoc in C'. eapply qr_step; [apply IH; eapply creates_first_app; eauto| |exact F].
    eapply pcareful_step; eauto. eapply frun_prun; eauto.
  - eapply qr_print; eauto.
Qed.
Theorem C82_any_kernel_partial : forall fini main e c tr s m, any_env e -> qrun fini main e c tr s m -> creates_first (lifes tr) ->
  (forall t, t <> 0%nat -> prefix (out_of m t) (said (code m t))) /\
  (forall tr0 i ins j v, tr = tr0 ++ [PLife (i, ins, EJoin j v)] -> v = value (code m j) [] /\ out_of m j = said (code m j)) /\
  (forall t ins v, In (PDone t ins v) tr -> v = value (code m t) [] /\ out_of m t = said (code m t)) /\
  (forall o, term (fns s) = Some o -> o = Exited (value main [])) /\
  (forall o, term (fns s) = Some o -> tidy main 0 [] -> (forall k, tidy (fini k) 0 []) ->
     Permutation (map snd (fout m)) (total Early main [] ++ fini_total fini (fini_entries c))) /\
  (let text := said main ++ flat_map (fun f => prints (freg m f) []) (pcalls tr) ++ finis fini (fini_entries c) in
     prefix (out_of m 0%nat) text /\ forall o, term (fns s) = Some o -> out_of m 0%nat = text) /\
  (regs_in_main main fini -> prefix (out_of m 0%nat) (main_text main fini (fini_entries c)) /\
     forall o, term (fns s) = Some o -> out_of m 0%nat = main_text main fini (fini_entries c)).
Proof.
  intros fini main e c tr s m W R C. pose proof (frun_careful _ _ _ _ _ _ _ W R C) as R'. pose proof (any_good e W) as G.
  split; [|split; [|split; [|split; [|split; [|split]]]]].
  - intros t D. eapply C82_thread_partial; eauto.
  - intros tr0 i ins j v ->. eapply C82_join_partial; eauto.
  - intros t ins v D. eapply C82_done_partial; eauto.
  - intros o T. eapply C82_status_partial; eauto.
  - intros o T T1 T2. eapply C82_tidy_partial; eauto.
  - exact (C82_main_partial _ _ _ _ _ _ _ G R').
  - intros Hq. split; [exact (C82_prefix_partial _ _ _ _ _ _ _ 0%nat Hq G R')|]. intros o T. eapply C82_end_partial; eauto.
Qed.


(** * A concrete program, in two interleavings *)
(** Main creates two threads, registers two program::at_exit functions and in
    between a thread::at_exit function that registers a third; the second
    program::at_exit function registers a fourth.  Main joins the threads,
    prints what the second returned and returns the sum. *)
Definition qx_fini : nat -> qprog := fun k => QPrint (Z.of_nat k) (QReturn 0).
Definition qx_1 : qprog := QAtThreadExit (QPrint 13 (QReturn 0)) (QPrint 11 (QPrint 12 (QReturn 5))).
Definition qx_2 : qprog := QPrint 21 (QReturn 7).
Definition qx_main : qprog := QCreate qx_1 (QCreate qx_2
  (QAtExit (QPrint 91 (QReturn 0))
  (QAtThreadExit (QPrint 51 (QAtExit (QPrint 93 (QReturn 0)) (QReturn 0)))
  (QAtExit (QPrint 92 (QAtExit (QPrint 94 (QReturn 0)) (QReturn 0)))
  (QJoin 1 (fun v => QPrint v (QJoin 0 (fun u => QReturn (v + u))))))))).
Definition qm0 (main : qprog) : qmach := QMach (dupd (fun _ => None) 0%nat (Some (Act WMain main []))) (fun _ => QReturn 0) (dupd (fun _ => QReturn 0) 0%nat main) [].
Definition qm1 (main : qprog) := got (qm0 main) (gadv qx_fini (qm0 main) (PCreate 0 [0%nat] 1)).
Definition qm2 (main : qprog) := got (qm1 main) (gadv qx_fini (qm1 main) (PCreate 0 [0%nat] 2)).
Lemma qx_run2 main : gadv qx_fini (qm0 main) (PCreate 0 [0%nat] 1) = Some (qm1 main) -> gadv qx_fini (qm1 main) (PCreate 0 [0%nat] 2) = Some (qm2 main) ->
  exists tr, qrun qx_fini main ex_e all_on tr fx_s2 (qm2 main).
Proof.
  intros E1 E2. eexists. eapply qr_step; [eapply qr_step; [exact (qr_init qx_fini main ex_e all_on ex_b0 ex_start)| |]| |].
  - exact (p_create ex_e all_on (PSt ex_b0 dinit ex_v0) _ _ _ _ _ ex_d1 ex_step1 (dnext_ok all_on dinit 0 ASpawn (Spawn 1) ltac:(vr) ltac:(vr))).
  - apply gadv_ok. exact E1.
  - exact (p_create ex_e all_on (PSt ex_b1 ex_d1 ex_v0) _ _ _ _ _ _ fx_step2 (dnext_ok all_on ex_d1 0 ASpawn (Spawn 2) ltac:(vr) ltac:(vr))).
  - apply gadv_ok. exact E2.
Qed.

Definition go (t n : nat) : list move := repeat (MFns t AGo) n.
Definition qreg (t : nat) : list move := MFns t ARegP :: go t 3.
(** A thread that has returned ends. *)
Definition qdone (t : nat) : list move := MDone t :: repeat (MLife t) 5.
(** exit: the thread::at_exit function; program::at_exit functions; .fini_array. *)
Definition qx_end : list move :=
  [MFns 0 (ARet 12); MFns 0 AGo; MPrint 0] ++ qreg 0 ++ [MFns 0 (ARet 0); MFns 0 AGo] ++
  go 0 4 ++ [MPrint 0; MFns 0 (ARet 0)] ++
  go 0 4 ++ [MPrint 0] ++ qreg 0 ++ [MFns 0 (ARet 0)] ++
  go 0 4 ++ [MPrint 0; MFns 0 (ARet 0)] ++ go 0 4 ++ [MPrint 0; MFns 0 (ARet 0)] ++ go 0 2 ++
  [MFns 0 AGo; MPrint 0; MFns 0 (ARet 0); MFns 0 AGo; MPrint 0; MFns 0 (ARet 0); MFns 0 AGo].
Definition qx_t2 : list move := [MPrint 2; MRet 2 7] ++ qdone 2.
Definition qx_t1 : list move := [MFns 1 ARegT; MPrint 1; MPrint 1; MRet 1 5; MFns 1 AGo; MPrint 1; MFns 1 (ARet 0)] ++ qdone 1.
Definition qx_join (j : nat) : list move := MJoin 0 j :: repeat (MLife 0) 4.
Definition qx_l1 : list move := qreg 0 ++ [MFns 0 ARegT] ++ qreg 0 ++ qx_t2 ++ qx_t1 ++ qx_join 2 ++ [MPrint 0] ++ qx_join 1 ++ qx_end.
Definition qx_l2 : list move := qx_t1 ++ [MFns 0 ARegP; MPrint 2] ++ go 0 3 ++ [MFns 0 ARegT; MRet 2 7] ++ qdone 2 ++ qreg 0 ++ qx_join 2 ++ [MPrint 0] ++ qx_join 1 ++ qx_end.
Local Notation QX p l := (ends_in ex_e all_on qx_fini fx_s2 (qm2 p) l).
Theorem C82_ex : good_env ex_e /\ regs_in_main qx_main qx_fini /\ tidy qx_main 0 [] /\ (forall k, tidy (qx_fini k) 0 []) /\
  (exists tr, qrun qx_fini qx_main ex_e all_on tr (fst (QX qx_main qx_l1)) (snd (QX qx_main qx_l1))) /\
  (exists tr, qrun qx_fini qx_main ex_e all_on tr (fst (QX qx_main qx_l2)) (snd (QX qx_main qx_l2))) /\
  term (fns (fst (QX qx_main qx_l1))) = Some (Exited 12) /\ term (fns (fst (QX qx_main qx_l2))) = Some (Exited 12) /\
  fout (snd (QX qx_main qx_l1)) = [(2%nat, 21); (1%nat, 11); (1%nat, 12); (1%nat, 13); (0%nat, 7); (0%nat, 51); (0%nat, 93); (0%nat, 92); (0%nat, 94); (0%nat, 91); (0%nat, 1); (0%nat, 0)] /\
  fout (snd (QX qx_main qx_l2)) = [(1%nat, 11); (1%nat, 12); (1%nat, 13); (2%nat, 21); (0%nat, 7); (0%nat, 51); (0%nat, 93); (0%nat, 92); (0%nat, 94); (0%nat, 91); (0%nat, 1); (0%nat, 0)] /\
  value qx_main [] = 12 /\ main_text qx_main qx_fini (fini_entries all_on) = [7; 51; 93; 92; 94; 91; 1; 0] /\
  total Early qx_main [] = [13; 11; 12; 21; 91; 51; 93; 92; 94; 7].
Proof.
  destruct (qx_run2 qx_main eq_refl eq_refl) as (tr & R). split; [apply ex_env|]. split; [|split; [|split; [intros k; reflexivity|]]].
  - split; cbn; tauto.
  - cbn. repeat split; auto.
  - split; [eapply ends_ok; [exact R|vr]|]. split; [eapply ends_ok; [exact R|vr]|]. repeat split; vr.
Qed.

(** ** Without the restriction *)
(** Two threads each register one function; which is called first depends on
    who got there first. *)
Definition qy_main : qprog := QCreate (QAtExit (QPrint 1 (QReturn 0)) (QReturn 5)) (QCreate (QAtExit (QPrint 2 (QReturn 0)) (QReturn 7)) (QJoin 1 (fun _ => QJoin 0 (fun _ => QReturn 0)))).
Definition qy_end : list move :=
  [MRet 1 5; MRet 2 7] ++ qdone 1 ++ qdone 2 ++ qx_join 2 ++ qx_join 1 ++ [MFns 0 (ARet 0); MFns 0 AGo] ++
  go 0 4 ++ [MPrint 0; MFns 0 (ARet 0)] ++ go 0 4 ++ [MPrint 0; MFns 0 (ARet 0)] ++ go 0 2 ++
  [MFns 0 AGo; MPrint 0; MFns 0 (ARet 0); MFns 0 AGo; MPrint 0; MFns 0 (ARet 0); MFns 0 AGo].
Theorem C82_others_refuted : ~ (forall fini main e c tr s m tr' s' m' o o', good_env e -> tidy main 0 [] -> (forall k, tidy (fini k) 0 []) ->
  qrun fini main e c tr s m -> qrun fini main e c tr' s' m' -> term (fns s) = Some o -> term (fns s') = Some o' -> out_of m 0%nat = out_of m' 0%nat).
Proof.
  intros H. destruct (qx_run2 qy_main eq_refl eq_refl) as (tr & R).
  destruct (ends_ok ex_e all_on qx_fini qy_main (qreg 1 ++ qreg 2 ++ qy_end) _ _ _ R) as (tr1 & R1); [vr|].
  destruct (ends_ok ex_e all_on qx_fini qy_main (qreg 2 ++ qreg 1 ++ qy_end) _ _ _ R) as (tr2 & R2); [vr|].
  specialize (H qx_fini qy_main ex_e all_on _ _ _ _ _ _ (Exited 0) (Exited 0) ex_env ltac:(cbn; repeat split; auto) ltac:(intros k; reflexivity) R1 R2 ltac:(vr) ltac:(vr)).
  vm_compute in H. discriminate H.
Qed.
(** The same program shows what the general theorems say: both runs end with
    status 0, and both print 1, 2 and the text of .fini_array. *)
Theorem C82_others_ex : tidy qy_main 0 [] /\ ~ regs_in_main qy_main qx_fini /\
  term (fns (fst (QX qy_main (qreg 1 ++ qreg 2 ++ qy_end)))) = Some (Exited 0) /\ term (fns (fst (QX qy_main (qreg 2 ++ qreg 1 ++ qy_end)))) = Some (Exited 0) /\
  fout (snd (QX qy_main (qreg 1 ++ qreg 2 ++ qy_end))) = [(0%nat, 2); (0%nat, 1); (0%nat, 1); (0%nat, 0)] /\
  fout (snd (QX qy_main (qreg 2 ++ qreg 1 ++ qy_end))) = [(0%nat, 1); (0%nat, 2); (0%nat, 1); (0%nat, 0)] /\
  total Early qy_main [] ++ fini_total qx_fini (fini_entries all_on) = [1; 2; 1; 0].
Proof. split; [cbn; repeat split; auto|]. split; [intros [H _]; cbn in H; tauto|]. repeat split; vr. Qed.
Print Assumptions C82_join_partial. Print Assumptions C82_thread_partial. Print Assumptions C82_status_partial. Print Assumptions C82_main_partial. Print Assumptions C82_prefix_partial. Print Assumptions C82_done_partial. Print Assumptions C82_end_partial.
Print Assumptions C82_tidy_partial. Print Assumptions C82_same_partial. Print Assumptions C82_any_kernel_partial. Print Assumptions C82_ex. Print Assumptions C82_others_refuted.
Print Assumptions C82_others_ex.
