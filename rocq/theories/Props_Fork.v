(** C73: parallel programs whose threads share no variables of their own give
    the same result in every interleaving: every join returns the value, every
    thread prints the text, and the process ends with the status that reading
    the program sequentially (ForkSpec.v) gives. *)
From Coq Require Import ZArith List Bool Lia Arith Permutation.
From Verif Require Import Machine LayoutModel LayoutSpec Props_Layout ThreadModel ThreadPhase ByteModel ByteProofs BytePhase DtorsModel DtorsFacts DtorsInv DtorsPres ProcModel Props_Proc Props_Byte Props_BytePhase Props_Dtors ScriptProofs ForkModel ForkSpec ForkProofs ForkTidy ForkPlay.
Import ListNotations.
Open Scope Z_scope.

Lemma fork_end fini main e c tr s m o : good_env e -> frun fini main e c tr s m -> term (fns s) = Some o ->
  exists st bot, frames (fns s) 0%nat = FX st (XFini 0) :: bot /\ o = Exited st.
Proof.
  intros Ge R T. destruct R as [b Hb|tr s m x s' m' R St F|tr s m t w z k hs R T' U P A]; [discriminate T| |congruence].
  destruct (frun_inv c fini e main _ _ _ Ge R) as [g V]. pose proof (frun_prun c fini e main _ _ _ R) as RP.
  destruct (proj _ _ _ _ RP) as [_ RD]. pose proof (exec_inv _ _ _ RD) as I.
  assert (LT : forall t0 act x0 d', dstep c (fns s) t0 act = Some (x0, d') -> (t0 < nthr (fns s))%nat).
  { intros t0 act x0 d' DS. destruct (le_lt_dec (nthr (fns s)) t0) as [X|X]; [|exact X]. destruct (i_new _ _ _ I t0 X) as [Y _].
    pose proof (e_live _ _ _ _ _ (dstep_effect _ _ _ _ _ _ DS)). contradiction. }
  assert (NT : forall t0 act x0 d', dstep c (fns s) t0 act = Some (x0, d') -> term d' = Some o -> x0 = Term o).
  { intros t0 act x0 d' DS. rewrite (e_term _ _ _ _ _ (dstep_effect _ _ _ _ _ _ DS)). destruct x0; congruence. }
  destruct St as [acc b' T' B|acc i ins x b' T' B LO AC|t0 act x d' DS FO PC|t0 v d' DS PC UV|acc i ins j b' d' B DS|acc t0 ins b' d' DS B]; cbn [fns] in *;
    try congruence; try (discriminate (NT _ _ _ _ DS T)).
  pose proof (NT _ _ _ _ DS T) as ->. pose proof (LT _ _ _ _ DS) as Lt. destruct (v_left _ _ _ _ _ _ _ V t0 Lt) as (os & L & _).
  apply dstep_inv in DS as [_ DS]. inversion DS; subst; match goal with H : frames (fns s) t0 = _ |- _ => rename H into E; rewrite E in L; inversion L; subst end.
  - match goal with H : _ = XLock \/ _ |- _ => destruct H; discriminate end.
  - destruct (Nat.eqb_spec t0 0) as [->|D]; [|discriminate]. exists (value (code m 0%nat) []), fs. cbn [finish frames]. auto.
Qed.

Lemma done_frames e c tr s t ins v : prun e c tr s -> In (PDone t ins v) tr -> (t < nthr (fns s))%nat /\ frames (fns s) t = [].
Proof.
  induction 1 as [b Hb|tr s x s' R IH St]; intros D; [contradiction|].
  destruct (proj _ _ _ _ R) as [_ RD]. pose proof (exec_inv _ _ _ RD) as I.
  assert (K : forall t0 act x0 d', dstep c (fns s) t0 act = Some (x0, d') -> (t < nthr (fns s))%nat /\ frames (fns s) t = [] -> (t < nthr d')%nat /\ frames d' t = []).
  { intros t0 act x0 d' DS [L E]. rewrite (e_nthr _ _ _ _ _ (dstep_effect _ _ _ _ _ _ DS)).
    destruct (frames_step _ _ _ _ _ _ _ t I DS) as (X & _ & _ & _ & _ & _ & Y). split; [destruct x0; lia|].
    destruct (frames d' t) eqn:E'; [reflexivity|]. destruct X as [X| -> ]; [congruence|contradiction|]. destruct (Y _ eq_refl). lia. }
  apply in_app_iff in D as [D|[D|[]]].
  - specialize (IH D). destruct St; cbn [fns]; auto; eapply K; eauto.
  - destruct St as [| | | | |acc t0 ins0 b' d' DS B]; try discriminate D. injection D as -> <- <-. cbn [fns].
    rewrite (e_nthr _ _ _ _ _ (dstep_effect _ _ _ _ _ _ DS)). destruct (frames_step _ _ _ _ _ _ _ t I DS) as (_ & _ & _ & _ & _ & X & _).
    split; [|apply X; reflexivity]. destruct (le_lt_dec (nthr (fns s)) t) as [L|L]; [|exact L]. destruct (i_new _ _ _ I t L) as [Y _].
    pose proof (e_live _ _ _ _ _ (dstep_effect _ _ _ _ _ _ DS)). contradiction.
Qed.

(** * The properties *)
Section Props.
Variables (fini : nat -> fprog) (main : fprog) (e : benv) (c : dcfg).
Local Notation frun := (frun fini main e c).

(** What a thread will have printed when it is done: its function's text, then
    its exit functions'; the main thread goes on with .fini_array. *)
Definition whole (m : fmach) (t : nat) : list Z := if Nat.eqb t 0 then said main ++ finis fini (fini_entries c) else said (code m t).
Lemma whole_full tr s m g : finv c fini main tr s m g -> forall t, full c fini m t = whole m t.
Proof.
  intros V t. unfold full, whole. destruct (v_main _ _ _ _ _ _ _ V) as [<- _]. destruct (Nat.eqb_spec t 0) as [->|D]; [reflexivity|apply app_nil_r].
Qed.

(** Joining a thread gives its function's value, whatever ran in between; by
    then the thread has printed exactly its text. *)
Theorem C73_join_partial : forall tr i ins j v s m, good_env e -> frun (tr ++ [PLife (i, ins, EJoin j v)]) s m ->
  v = value (code m j) [] /\ out_of m j = said (code m j).
Proof.
  intros tr i ins j v s m Ge R. destruct (frun_inv c fini e main _ _ _ Ge R) as [g V].
  pose proof (frun_prun c fini e main _ _ _ R) as RP.
  destruct (C62_join_partial e c tr i ins j v s Ge RP) as (H & _ & _ & Fj).
  destruct (v_ret _ _ _ _ _ _ _ V j v) as [Lt Hv]; [apply in_or_app; left; apply H; reflexivity|]. split; [exact Hv|].
  destruct (v_left _ _ _ _ _ _ _ V j Lt) as (os & L & O). rewrite Fj in L.
  destruct (Nat.eqb_spec j 0) as [->|D]; inversion L; subst os. rewrite app_nil_r in O. rewrite O. unfold full.
  destruct (Nat.eqb_spec j 0); [contradiction|apply app_nil_r].
Qed.

(** At every moment of every execution each thread has printed the beginning of
    its text, in its order: nothing is lost, repeated, reordered or depends on
    the schedule. *)
Theorem C73_prefix_partial : forall tr s m t, good_env e -> frun tr s m -> prefix (out_of m t) (whole m t).
Proof.
  intros tr s m t Ge R. destruct (frun_inv c fini e main _ _ _ Ge R) as [g V]. rewrite <- (whole_full _ _ _ _ V).
  destruct (le_lt_dec (nthr (fns s)) t) as [Lt|Lt].
  - exists (full c fini m t). replace (out_of m t) with (@nil Z); [reflexivity|]. unfold out_of.
    rewrite (proj2 (List.filter_ext_in_iff (fun x => Nat.eqb (fst x) t) (fun _ => false) (fout m))).
    + induction (fout m) as [|y l IH]; [reflexivity|exact IH].
    + intros y Hy. apply (v_out _ _ _ _ _ _ _ V) in Hy. apply Nat.eqb_neq. lia.
  - destruct (v_left _ _ _ _ _ _ _ V t Lt) as (os & _ & O). exists os. auto.
Qed.

(** A thread that is done has printed all of it. *)
Theorem C73_done_partial : forall tr s m t ins v, good_env e -> frun tr s m -> In (PDone t ins v) tr ->
  v = value (code m t) [] /\ out_of m t = said (code m t).
Proof.
  intros tr s m t ins v Ge R D. destruct (frun_inv c fini e main _ _ _ Ge R) as [g V].
  pose proof (frun_prun c fini e main _ _ _ R) as RP.
  destruct (done_frames _ _ _ _ _ _ _ RP D) as [Lt E]. split.
  - apply (v_ret _ _ _ _ _ _ _ V t v). eapply pi_done; [eapply prun_inv; exact RP|exact D].
  - destruct (v_left _ _ _ _ _ _ _ V t Lt) as (os & L & O). rewrite E in L. destruct (Nat.eqb_spec t 0) as [->|Dt]; inversion L; subst os.
    rewrite app_nil_r in O. rewrite O. unfold full. destruct (Nat.eqb_spec t 0); [contradiction|apply app_nil_r].
Qed.

(** The process can only end with what main returns, and with main's whole text. *)
Theorem C73_end_partial : forall tr s m o, good_env e -> frun tr s m -> term (fns s) = Some o ->
  o = Exited (value main []) /\ out_of m 0%nat = said main ++ finis fini (fini_entries c).
Proof.
  intros tr s m o Ge R T. destruct (frun_inv c fini e main _ _ _ Ge R) as [g V].
  destruct (fork_end _ _ _ _ _ _ _ _ Ge R T) as (st & bot & E & ->). destruct (v_main _ _ _ _ _ _ _ V) as [Cm Lt].
  destruct (v_left _ _ _ _ _ _ _ V 0%nat Lt) as (os & L & O). rewrite Cm in L. rewrite E in L. cbn [Nat.eqb] in L.
  generalize dependent (value main []). intros v L. inversion L; subst.
  - match goal with H : _ = XLock \/ _ |- _ => destruct H; discriminate end.
  - split; [reflexivity|]. cbn [finis] in O. rewrite app_nil_r in O. rewrite O. reflexivity.
Qed.

(** If every thread is joined by its creator, the whole output of the process is
    the program's, interleaved in some way, and all threads have finished. *)
Theorem C73_tidy_partial : forall tr s m o, good_env e -> tidy main 0 [] -> (forall k, tidy (fini k) 0 []) ->
  frun tr s m -> term (fns s) = Some o ->
  (forall j, (0 < j < nthr (fns s))%nat -> frames (fns s) j = [] /\ out_of m j = said (code m j)) /\
  Permutation (map snd (fout m)) (total true main [] ++ fini_total fini (fini_entries c)).
Proof.
  intros tr s m o Ge Tm Tf R T. destruct (frun_inv c fini e main _ _ _ Ge R) as [g V].
  destruct (fork_end _ _ _ _ _ _ _ _ Ge R T) as (st & bot & E & ->). destruct (v_main _ _ _ _ _ _ _ V) as [Cm Lt].
  assert (A0 : acts m 0%nat = None /\ g 0%nat = []).
  { destruct (v_left _ _ _ _ _ _ _ V 0%nat Lt) as (os & L & O). rewrite E in L. cbn [Nat.eqb] in L. inversion L; auto.
    match goal with H : _ = XLock \/ _ |- _ => destruct H; discriminate end. }
  destruct A0 as [A0 G0]. pose proof (all_done c fini e main Tm Tf _ _ _ Ge R A0) as D.
  assert (X : forall j, (0 < j < nthr (fns s))%nat -> out_of m j = said (code m j) /\ g j = []).
  { intros j Hj. destruct (v_left _ _ _ _ _ _ _ V j ltac:(lia)) as (os & L & O). rewrite (D j Hj) in L.
    destruct (Nat.eqb_spec j 0) as [->|Dj]; [lia|]. inversion L; subst os. rewrite app_nil_r in O. split; [|auto]. rewrite O. unfold full.
    destruct (Nat.eqb_spec j 0); [contradiction|apply app_nil_r]. }
  split; [intros j Hj; split; [auto|apply X; exact Hj]|].
  pose proof (v_perm _ _ _ _ _ _ _ V) as P.
  replace (flat_map g (seq 0 (nthr (fns s)))) with (@nil Z) in P; [rewrite app_nil_r in P; exact P|].
  assert (Z : forall l, (forall j, In j l -> (j < nthr (fns s))%nat) -> flat_map g l = []).
  { induction l as [|j l IH]; intros H; [reflexivity|]. cbn [flat_map]. rewrite IH by (intros; apply H; right; auto).
    destruct j; [rewrite G0; reflexivity|]. destruct (X (S j)) as [_ ->]; [|reflexivity]. split; [lia|apply H; left; reflexivity]. }
  rewrite Z; [reflexivity|]. intros j Hj. apply in_seq in Hj. lia.
Qed.
End Props.

(** Two runs of the same program, on machines that may differ: same status,
    same text of the main thread, and if every thread is joined the same output
    up to interleaving. *)
Theorem C73_same_partial : forall fini main e e' c tr s m tr' s' m' o o', good_env e -> good_env e' ->
  frun fini main e c tr s m -> frun fini main e' c tr' s' m' -> term (fns s) = Some o -> term (fns s') = Some o' ->
  o = o' /\ out_of m 0%nat = out_of m' 0%nat /\
  (tidy main 0 [] -> (forall k, tidy (fini k) 0 []) -> Permutation (map snd (fout m)) (map snd (fout m'))).
Proof.
  intros fini main e e' c tr s m tr' s' m' o o' G G' R R' T T'.
  destruct (C73_end_partial _ _ _ _ _ _ _ _ G R T) as [-> ->]. destruct (C73_end_partial _ _ _ _ _ _ _ _ G' R' T') as [-> ->].
  split; [reflexivity|]. split; [reflexivity|]. intros T1 T2.
  destruct (C73_tidy_partial _ _ _ _ _ _ _ _ G T1 T2 R T) as [_ P]. destruct (C73_tidy_partial _ _ _ _ _ _ _ _ G' T1 T2 R' T') as [_ P'].
  rewrite P, P'. reflexivity.
Qed.

(** ** On any kernel, for programs that create no thread after one thread
    reclaimed another's memory *)
Lemma frun_careful c fini main e tr s m : any_env e -> frun fini main e c tr s m -> creates_first (lifes tr) -> frun fini main (bcareful e) c tr s m.
Proof.
  intros W R. induction R as [b Hb|tr s m x s' m' R IH St F|tr s m t w z k hs R IH T U P A]; intros C.
  - apply fr_init. exact Hb.
  - pose proof C as C'. rewrite lifes_snoc in C'. eapply fr_step; [apply IH; eapply creates_first_app; eauto| |exact F].
    eapply pcareful_step; eauto. eapply frun_prun; eauto.
  - eapply fr_print; eauto.
Qed.
Theorem C73_any_kernel : forall fini main e c tr s m, any_env e -> frun fini main e c tr s m -> creates_first (lifes tr) ->
  (forall t, prefix (out_of m t) (whole fini main c m t)) /\
  (forall tr0 i ins j v, tr = tr0 ++ [PLife (i, ins, EJoin j v)] -> v = value (code m j) [] /\ out_of m j = said (code m j)) /\
  (forall t ins v, In (PDone t ins v) tr -> v = value (code m t) [] /\ out_of m t = said (code m t)) /\
  (forall o, term (fns s) = Some o -> o = Exited (value main []) /\ out_of m 0%nat = said main ++ finis fini (fini_entries c)) /\
  (forall o, term (fns s) = Some o -> tidy main 0 [] -> (forall k, tidy (fini k) 0 []) ->
     Permutation (map snd (fout m)) (total true main [] ++ fini_total fini (fini_entries c))).
Proof.
  intros fini main e c tr s m W R C. pose proof (frun_careful _ _ _ _ _ _ _ W R C) as R'. pose proof (any_good e W) as G.
  split; [|split; [|split; [|split]]].
  - intros t. eapply C73_prefix_partial; eauto.
  - intros tr0 i ins j v ->. eapply C73_join_partial; eauto.
  - intros t ins v D. eapply C73_done_partial; eauto.
  - intros o T. eapply C73_end_partial; eauto.
  - intros o T T1 T2. eapply C73_tidy_partial; eauto.
Qed.

(** * A concrete program, in two interleavings *)
(** Main creates two threads that run at the same time, joins the second, then
    the first, prints what it got and returns the sum.  The first thread
    registers an exit function and prints twice. *)
Definition fx_fini : nat -> fprog := fun k => FPrint (Z.of_nat k) (FReturn 0).
Definition fx_1 : fprog := FAtThreadExit (FPrint 13 (FReturn 0)) (FPrint 11 (FPrint 12 (FReturn 5))).
Definition fx_2 : fprog := FPrint 21 (FReturn 7).
Definition fx_main : fprog := FCreate fx_1 (FCreate fx_2 (FJoin 1 (fun v => FPrint v (FJoin 0 (fun u => FReturn (v + u)))))).
Definition fx_m0 : fmach := FMach (dupd (fun _ => None) 0%nat (Some (Act WMain fx_main []))) (fun _ => FReturn 0) (dupd (fun _ => FReturn 0) 0%nat fx_main) [].

Definition fx_ans : answers := Answers (Some 0x600000) true 78.
Definition fx_create := create true X86_64 td8 tls_ex 4096 (bmem ex_b1) (i_tp (bI ex_b1 0%nat)) fx_ans 0x4000 [44] 100000 8192.
Definition fx_t : Z := match fst (fst fx_create) with COk t => t | _ => 0 end.
Definition fx_tp : Z := match snd (fst fx_create) with [_; _; SClone _ _ _ tp _ _ _] => tp | _ => 0 end.
Definition fx_b2 : bst :=
  BSt 3 (fupd (bT ex_b1) 2 (Task Run 78 true false None))
    (fupd (bI ex_b1) 2 (Inst fx_t fx_tp (fx_t + 0) 0x600000 108312 true (0, 0) 8192))
    (fupd (bclaim ex_b1) 2 None) (snd fx_create).
Lemma fx_step2 : bstep ex_e ex_b1 [] (Some (0%nat, [0%nat], ECreate 2)) fx_b2.
Proof.
  assert (EL : snd (fst fx_create) = [SMmap 108312 (Some 0x600000); SMprotectRW (0x600000 + 8192) (108312 - 8192) true;
      SClone (0x600000 + 108192 - 16) (fx_t + 0) (fx_t + 0) fx_tp 0x4000 1 78]) by (vm_compute; reflexivity).
  apply (b_create ex_e ex_b1 0 fx_ans 0x4000 [44] 100000 8192 fx_t (snd (fst fx_create)) (snd fx_create)
    (0x600000 + 108192 - 16) (fx_t + 0) (fx_t + 0) fx_tp 1 78 108312 0x600000).
  - cbn. lia.
  - reflexivity.
  - unfold usize. cbn. lia.
  - unfold usize. cbn. lia.
  - left. reflexivity.
  - cbn. lia.
  - change (fx_create = (COk fx_t, snd (fst fx_create), snd fx_create)).
    assert (ET : fst (fst fx_create) = COk fx_t) by (vm_compute; reflexivity). rewrite <- ET.
    rewrite <- surjective_pairing. rewrite <- surjective_pairing. reflexivity.
  - rewrite EL. clear EL. generalize fx_t, fx_tp. intros t0 tp0 len map [H|H]; cbn [In] in H; repeat destruct H as [H|H]; try discriminate; try contradiction.
    inversion H; subst. repeat split; try lia. exists 0x600; reflexivity. vm_compute. discriminate.
  - rewrite EL. clear EL. generalize fx_t, fx_tp. intros t0 tp0 len map [H|H]; cbn [In] in H; repeat destruct H as [H|H]; try discriminate; try contradiction.
    inversion H; subst. left. vm_compute. discriminate.
  - rewrite EL. left. reflexivity.
  - rewrite EL. right. right. left. reflexivity.
  - lia.
  - intros k Hk _. cbn in Hk. destruct k as [|[|k]]; [cbn; lia|cbn; lia|lia].
  - intros k Hk _. cbn in Hk. destruct k as [|[|k]]; [left; vm_compute; discriminate|left; vm_compute; discriminate|lia].
  - intros _ k ad Hk. cbn in Hk. destruct k as [|[|k]]; [discriminate|discriminate|lia].
Qed.

Definition fx_s2 : pst := PSt fx_b2 (dnext all_on ex_d1 0 ASpawn) ex_v0.
Definition got {A} (d : A) (o : option A) : A := match o with Some x => x | None => d end.
Definition fx_m1 := got fx_m0 (gadv fx_fini fx_m0 (PCreate 0 [0%nat] 1)).
Definition fx_m2 := got fx_m1 (gadv fx_fini fx_m1 (PCreate 0 [0%nat] 2)).
Lemma fx_run2 : exists tr, frun fx_fini fx_main ex_e all_on tr fx_s2 fx_m2.
Proof.
  eexists. eapply fr_step; [eapply fr_step; [exact (fr_init fx_fini fx_main ex_e all_on ex_b0 ex_start)| |]| |].
  - exact (p_create ex_e all_on (PSt ex_b0 dinit ex_v0) _ _ _ _ _ ex_d1 ex_step1 (dnext_ok all_on dinit 0 ASpawn (Spawn 1) ltac:(vr) ltac:(vr))).
  - apply gadv_ok. exact (eq_refl : gadv fx_fini fx_m0 (PCreate 0 [0%nat] 1) = Some fx_m1).
  - exact (p_create ex_e all_on (PSt ex_b1 ex_d1 ex_v0) _ _ _ _ _ _ fx_step2 (dnext_ok all_on ex_d1 0 ASpawn (Spawn 2) ltac:(vr) ltac:(vr))).
  - apply gadv_ok. exact (eq_refl : gadv fx_fini fx_m1 (PCreate 0 [0%nat] 2) = Some fx_m2).
Qed.

(** Thread 2 runs to its end; main sleeps in join meanwhile; thread 1 prints in
    between, or runs only when main waits for it. *)
Definition fx_end : list move :=
  [MFns 0 (ARet 12); MFns 0 AGo; MFns 0 AGo; MFns 0 AGo; MFns 0 AGo; MPrint 0; MFns 0 (ARet 0); MFns 0 AGo; MPrint 0; MFns 0 (ARet 0); MFns 0 AGo].
Definition fx_l1 : list move :=
  [MFns 1 ARegT; MPrint 1; MJoin 0 2; MLife 0; MLife 0; MPrint 2; MRet 2 7; MPrint 1; MDone 2; MLife 2; MLife 2; MLife 2; MLife 2; MLife 2;
   MRet 1 5; MFns 1 AGo; MPrint 1; MFns 1 (ARet 0); MDone 1; MLife 1; MLife 1; MLife 1; MLife 1; MLife 1;
   MLife 0; MLife 0; MLife 0; MPrint 0; MJoin 0 1; MLife 0; MLife 0; MLife 0; MLife 0] ++ fx_end.
Definition fx_l2 : list move :=
  [MPrint 2; MRet 2 7; MDone 2; MLife 2; MLife 2; MLife 2; MLife 2; MLife 2; MJoin 0 2; MLife 0; MLife 0; MLife 0; MLife 0; MPrint 0;
   MJoin 0 1; MLife 0; MLife 0; MFns 1 ARegT; MPrint 1; MPrint 1; MRet 1 5; MFns 1 AGo; MPrint 1; MFns 1 (ARet 0); MDone 1;
   MLife 1; MLife 1; MLife 1; MLife 1; MLife 1; MLife 0; MLife 0; MLife 0] ++ fx_end.
Local Notation FX l := (ends_in ex_e all_on fx_fini fx_s2 fx_m2 l).
Theorem C73_ex : good_env ex_e /\ tidy fx_main 0 [] /\ (forall k, tidy (fx_fini k) 0 []) /\
  (exists tr, frun fx_fini fx_main ex_e all_on tr (fst (FX fx_l1)) (snd (FX fx_l1))) /\
  (exists tr, frun fx_fini fx_main ex_e all_on tr (fst (FX fx_l2)) (snd (FX fx_l2))) /\
  term (fns (fst (FX fx_l1))) = Some (Exited 12) /\ term (fns (fst (FX fx_l2))) = Some (Exited 12) /\
  fout (snd (FX fx_l1)) = [(1%nat, 11); (2%nat, 21); (1%nat, 12); (1%nat, 13); (0%nat, 7); (0%nat, 1); (0%nat, 0)] /\
  fout (snd (FX fx_l2)) = [(2%nat, 21); (0%nat, 7); (1%nat, 11); (1%nat, 12); (1%nat, 13); (0%nat, 1); (0%nat, 0)] /\
  value fx_main [] = 12 /\ said fx_main ++ finis fx_fini (fini_entries all_on) = [7; 1; 0] /\ said fx_1 = [11; 12; 13] /\ said fx_2 = [21] /\
  total true fx_main [] = [13; 11; 12; 21; 7].
Proof.
  destruct fx_run2 as (tr & R). split; [apply ex_env|]. split; [|split; [intros k; reflexivity|]].
  - cbn. repeat split; auto.
  - split; [eapply ends_ok; [exact R|vr]|]. split; [eapply ends_ok; [exact R|vr]|]. repeat split; vr.
Qed.
Print Assumptions C73_join_partial. Print Assumptions C73_prefix_partial. Print Assumptions C73_done_partial. Print Assumptions C73_end_partial.
Print Assumptions C73_tidy_partial. Print Assumptions C73_same_partial. Print Assumptions C73_any_kernel. Print Assumptions C73_ex.
