(** C83: every fair execution of a parallel program that registers
    program::at_exit functions wherever it likes ends, with the status and the
    output that C82 gives. The .fini_array functions must be [solo]: they run
    while program::exit holds the lock at_exit takes (C83_hang_refuted). *)
From Coq Require Import ZArith List Bool Lia Arith Permutation.
From Verif Require Import Machine LayoutModel LayoutSpec ThreadModel FairSpec FairCore ByteModel ByteSpec ByteProofs ByteSim BytePhase Props_BytePhase ByteFairSpec Props_ByteFair DtorsModel DtorsFacts DtorsInv DtorsPres Props_Dtors ExitFairSpec ThreadPhase ProcModel Props_Proc Props_Byte ScriptFairSpec ScriptFair Props_ScriptFair ForkModel ForkPlay Props_Fork.
From Verif Require Import PexitModel PexitSpec PexitProofs PexitAll PexitMain PexitTidy PexitPlay Props_Pexit PexitPc PexitTick PexitFairSpec PexitFair PexitStuck.
Import ListNotations.
Open Scope Z_scope.

(** What is known of an execution once it has ended ([tr] are the steps so far). *)
Definition pexit_result (fini : nat -> qprog) (main : qprog) (c : dcfg) (tr : list pevent) (s : pst) (m : qmach) : Prop :=
  term (fns s) = Some (Exited (value main [])) /\
  out_of m 0%nat = said main ++ flat_map (fun f => prints (freg m f) []) (pcalls tr) ++ finis fini (fini_entries c) /\
  (tidy main 0 [] -> (forall j, tidy (fini j) 0 []) ->
     Permutation (map snd (fout m)) (total Early main [] ++ fini_total fini (fini_entries c))) /\
  (regs_in_main main fini -> out_of m 0%nat = main_text main fini (fini_entries c)).

(** Whatever the schedule, as long as it is fair, the process ends: with what
    main returns; main having printed its text, that of the at_exit functions in
    the order of their calls, and that of .fini_array; if every thread is joined
    by its creator, everything anything prints has been printed, once; and if
    only main registers, main's text is the sequential one. *)
Theorem C83_ends_partial : forall fini main e c si la,
  good_env e -> (forall k, solo (fini k)) -> ffair fini main e c si la -> (forall k, bguards_ok e (life (fst (si k)))) ->
  exists K, forall k, (K <= k)%nat -> pexit_result fini main c (ScriptFair.evs la k) (fst (si k)) (snd (si k)).
Proof.
  intros fini main e c si la W So F G. destruct (fends fini main e c si la W F So G) as (K & H). exists K. intros k L. specialize (H k L).
  pose proof (at_run fini main e c si la F k) as R. unfold ended in H. destruct (term (fns (fst (si k)))) as [o|] eqn:T; [|congruence].
  split; [|split; [|split]].
  - rewrite T. f_equal. eapply C82_status_partial; eauto.
  - destruct (C82_main_partial _ _ _ _ _ _ _ W R) as [_ X]. eapply X; eauto.
  - intros T1 T2. eapply C82_tidy_partial; eauto.
  - intros Hq. eapply C82_end_partial; eauto.
Qed.

(** Any two fair executions of a program, on whatever machines: both end, with
    the same status; with the same text of main if only main registers; and, if
    every thread is joined by its creator, with the same output up to
    interleaving. *)
Theorem C83_same_partial : forall fini main e e' c si la si' la',
  good_env e -> good_env e' -> (forall k, solo (fini k)) -> ffair fini main e c si la -> ffair fini main e' c si' la' ->
  (forall k, bguards_ok e (life (fst (si k)))) -> (forall k, bguards_ok e' (life (fst (si' k)))) ->
  exists K, forall k k', (K <= k)%nat -> (K <= k')%nat ->
    term (fns (fst (si k))) <> None /\ term (fns (fst (si k))) = term (fns (fst (si' k'))) /\
    (regs_in_main main fini -> out_of (snd (si k)) 0%nat = out_of (snd (si' k')) 0%nat) /\
    (tidy main 0 [] -> (forall j, tidy (fini j) 0 []) -> Permutation (map snd (fout (snd (si k)))) (map snd (fout (snd (si' k'))))).
Proof.
  intros fini main e e' c si la si' la' W W' So F F' G G'.
  destruct (C83_ends_partial _ _ _ _ _ _ W So F G) as (K & H). destruct (C83_ends_partial _ _ _ _ _ _ W' So F' G') as (K' & H').
  exists (Nat.max K K'). intros k k' L L'. destruct (H k ltac:(lia)) as (T & _ & P & M). destruct (H' k' ltac:(lia)) as (T' & _ & P' & M').
  rewrite T, T'. split; [discriminate|]. split; [reflexivity|]. split.
  - intros Hq. rewrite (M Hq), (M' Hq). reflexivity.
  - intros T1 T2. rewrite (P T1 T2), (P' T1 T2). reflexivity.
Qed.

(** On any kernel, for programs that create no thread after one thread reclaimed
    another's memory. *)
Lemma fupto_lifes la k : upto (life_at la) k = lifes (ScriptFair.evs la k).
Proof.
  induction k as [|k IH]; [reflexivity|]. cbn [upto ScriptFair.evs]. unfold lifes. rewrite flat_map_app. fold (lifes (ScriptFair.evs la k)). rewrite <- IH. f_equal.
  unfold life_at. destruct (la k) as [x| |]; [|reflexivity..]. destruct x; reflexivity.
Qed.
Lemma ffair_careful fini main e c si la : any_env e -> ffair fini main e c si la ->
  (forall k, creates_first (upto (life_at la) k)) -> ffair fini main (bcareful e) c si la.
Proof.
  intros W F Cf. destruct F as [F1 F2 F3 F4 F5] eqn:EF. constructor; auto.
  intros k. specialize (F2 k) as X. pose proof (at_run fini main e c si la F k) as R. apply (frun_prun c fini e main) in R. pose proof (Cf (S k)) as C. rewrite fupto_lifes in C. cbn [ScriptFair.evs] in C.
  destruct (si k) as [s m]. destruct (la k) as [x|t|]; auto. destruct X as [X Y]. split; [|exact Y]. cbn [fst] in R. eapply pcareful_step; eauto.
Qed.
Theorem C83_any_kernel_partial : forall fini main e c si la,
  any_env e -> (forall k, solo (fini k)) -> ffair fini main e c si la -> (forall k, creates_first (upto (life_at la) k)) -> (forall k, bguards_ok e (life (fst (si k)))) ->
  exists K, forall k, (K <= k)%nat -> pexit_result fini main c (ScriptFair.evs la k) (fst (si k)) (snd (si k)).
Proof.
  intros fini main e c si la W So F Cf G.
  exact (C83_ends_partial fini main (bcareful e) c si la (any_good e W) So (ffair_careful fini main e c si la W F Cf) G).
Qed.

(** ** The hypotheses are met *)
(** A run that ended, and then nothing, is a fair execution. *)
Lemma qrun_seq fini main e c tr s m : qrun fini main e c tr s m -> exists N si la,
  (exists b, bstarts e b /\ fst (si 0%nat) = PSt b dinit (fun _ => 0) /\
     snd (si 0%nat) = QMach (dupd (fun _ => None) 0%nat (Some (Act WMain main []))) (fun _ => QReturn 0) (dupd (fun _ => QReturn 0) 0%nat main) []) /\
  (forall k, let '(s, m) := si k in
     match la k with
     | LEv x => pstep e c s x (fst (si (S k))) /\ qollows fini m x (snd (si (S k)))
     | LDo t => fst (si (S k)) = s /\ term (fns s) = None /\ in_user (fns s) t /\ t_pc (bT (life s) t) = Run /\
         exists w z p hs, acts m t = Some (Act w (QPrint z p) hs) /\ snd (si (S k)) = oput (aset m t (Some (Act w p hs))) t z
     | LIdle => si (S k) = si k
     end) /\
  (forall k, (N <= k)%nat -> si k = (s, m) /\ la k = LIdle).
Proof.
  induction 1 as [b Hb|tr s m x s' m' R (N & si & la & H0 & H1 & H2) St Fo|tr s m t w z p hs R (N & si & la & H0 & H1 & H2) Tm U P A].
  - exists 0%nat, (fun _ => (PSt b dinit (fun _ => 0), QMach (dupd (fun _ => None) 0%nat (Some (Act WMain main []))) (fun _ => QReturn 0) (dupd (fun _ => QReturn 0) 0%nat main) [])), (fun _ => LIdle).
    cbn. split; [eauto|]. split; auto.
  - exists (S N), (fun k => if (k <=? N)%nat then si k else (s', m')), (fun k => if (k =? N)%nat then LEv x else la k).
    split; [exact H0|]. split.
    + intros k. destruct (Nat.eqb_spec k N) as [->|NE].
      * rewrite Nat.leb_refl. destruct (Nat.leb_spec (S N) N); [lia|]. destruct (H2 N ltac:(lia)) as (-> & _). auto.
      * destruct (Nat.leb_spec k N); destruct (Nat.leb_spec (S k) N); try lia; try apply (H1 k).
        destruct (H2 k ltac:(lia)) as (_ & ->). reflexivity.
    + intros k L. destruct (Nat.leb_spec k N); [lia|]. destruct (Nat.eqb_spec k N); [lia|]. split; [reflexivity|]. apply H2. lia.
  - set (m' := oput (aset m t _) _ _).
    exists (S N), (fun k => if (k <=? N)%nat then si k else (s, m')), (fun k => if (k =? N)%nat then LDo t else la k).
    split; [exact H0|]. split.
    + intros k'. destruct (Nat.eqb_spec k' N) as [->|NE].
      * rewrite Nat.leb_refl. destruct (Nat.leb_spec (S N) N); [lia|]. destruct (H2 N ltac:(lia)) as (-> & _). cbn [fst snd]. split; [reflexivity|]. split; [exact Tm|]. split; [exact U|]. split; [exact P|]. exists w, z, p, hs. split; [exact A|reflexivity].
      * destruct (Nat.leb_spec k' N); destruct (Nat.leb_spec (S k') N); try lia; try apply (H1 k').
        destruct (H2 k' ltac:(lia)) as (_ & ->). reflexivity.
    + intros k' L. destruct (Nat.leb_spec k' N); [lia|]. destruct (Nat.eqb_spec k' N); [lia|]. split; [reflexivity|]. apply H2. lia.
Qed.
Lemma qrun_fair fini main e c tr s m : qrun fini main e c tr s m -> term (fns s) <> None ->
  exists N si la, ffair fini main e c si la /\ forall k, (N <= k)%nat -> si k = (s, m) /\ la k = LIdle.
Proof.
  intros R T. destruct (qrun_seq _ _ _ _ _ _ _ R) as (N & si & la & H0 & H1 & H2). exists N, si, la. split; [|exact H2].
  assert (E : forall k, exists k', (k <= k')%nat /\ ended (fst (si k'))).
  { intros k. exists (Nat.max k N). split; [lia|]. destruct (H2 (Nat.max k N) ltac:(lia)) as (-> & _). exact T. }
  constructor; auto; intros t k; destruct (E k) as (k' & L & X); exists k'; auto.
Qed.
Lemma ffair_guards fini main e c si la N : ffair fini main e c si la ->
  bguards_ok e (life (fst (si N))) -> forall k, (k <= N)%nat -> bguards_ok e (life (fst (si k))).
Proof.
  intros F G k L j Hj.
  assert (X : forall k', (k <= k')%nat -> i_g (bI (life (fst (si k'))) j) = i_g (bI (life (fst (si k))) j) /\ (j < bn (life (fst (si k'))))%nat).
  { induction 1 as [|k' L' (IH1 & IH2)]; [split; [reflexivity|lia]|]. rewrite <- IH1. clear IH1.
    destruct (life_at la k') as [l|] eqn:El.
    - destruct (life_some fini main e c si la F k' l El) as (acc & B). destruct (guard_keeps _ _ _ _ _ j B IH2). split; [auto|lia].
    - destruct (life_none fini main e c si la F k' El) as [->|(acc & B)]; [auto|]. destruct (guard_keeps _ _ _ _ _ j B IH2). split; [auto|lia]. }
  destruct (X N L) as (E & Lj). rewrite <- E. apply G. lia.
Qed.

Local Notation QX p l := (ends_in ex_e all_on qx_fini fx_s2 (qm2 p) l).
Lemma qx_guards : bguards_ok ex_e (life (fst (QX qx_main qx_l1))).
Proof.
  assert (E : bn (life (fst (QX qx_main qx_l1))) = 3%nat) by (vm_compute; reflexivity).
  intros j Hj. rewrite E in Hj. clear E. destruct j as [|[|[|j]]]; [lia|vm_compute; reflexivity..|lia].
Qed.
(** The program of C82_ex has a fair execution. *)
Theorem C83_ex : exists si la, good_env ex_e /\ (forall k, solo (qx_fini k)) /\ ffair qx_fini qx_main ex_e all_on si la /\
  (forall k, bguards_ok ex_e (life (fst (si k)))) /\ tidy qx_main 0 [] /\ regs_in_main qx_main qx_fini /\ value qx_main [] = 12 /\
  exists k, fout (snd (si k)) = [(2%nat, 21); (1%nat, 11); (1%nat, 12); (1%nat, 13); (0%nat, 7); (0%nat, 51); (0%nat, 93); (0%nat, 92); (0%nat, 94); (0%nat, 91); (0%nat, 1); (0%nat, 0)].
Proof.
  destruct C82_ex as (_ & Rm & Td & _ & (tr & R) & _ & T & _ & O & _ & V & _). pose proof qx_guards as GG.
  revert R T O GG V Td Rm. generalize (QX qx_main qx_l1) (value qx_main []). intros z v R T O GG V Td Rm. clear - R T O GG V Td Rm.
  destruct (qrun_fair _ _ _ _ _ _ _ R) as (N & si & la & F & H); [rewrite T; discriminate|].
  exists si, la. split; [apply ex_env|]. split; [intros k; exact Logic.I|]. split; [exact F|]. split; [|split; [exact Td|split; [exact Rm|split; [exact V|exists N; destruct (H N (le_n N)) as (-> & _); exact O]]]].
  assert (GN : forall k, (N <= k)%nat -> bguards_ok ex_e (life (fst (si k)))).
  { intros k L. destruct (H k L) as (-> & _). cbn [fst]. exact GG. }
  intros k. destruct (le_lt_dec k N) as [L|L]; [|apply GN; lia]. eapply ffair_guards; [exact F|apply (GN N); lia|exact L].
Qed.
(** Fairness demands nothing impossible: if the program uses each handle at most
    once and the features it is built with, then until the process has ended some
    thread is about to create one, to print, or to return something that is not a
    usize (which Rust's types exclude), or there is another step of the schedule
    that is due. *)
Theorem C83_never_stuck_partial : forall fini main e c tr s m,
  good_env e -> proper c main 0 [] -> (forall k, proper c (fini k) 0 []) -> (forall k, solo (fini k)) ->
  qrun fini main e c tr s m -> bguards_ok e (life s) -> term (fns s) = None ->
  (exists t w f k hs, fabout_to s m t /\ acts m t = Some (Act w (QCreate f k) hs)) \/
  (exists t v hs, fabout_to s m t /\ acts m t = Some (Act WThread (QReturn v) hs) /\ ~ usize (be_arch e) v) \/
  (exists t w z k hs, fabout_to s m t /\ acts m t = Some (Act w (QPrint z k) hs)) \/
  exists x s' m', pstep e c s x s' /\ qollows fini m x m' /\ fdue s x.
Proof. intros fini main e c tr s m W H1 H2 H3. exact (fgoes_on fini main e c H1 H2 W H3 tr s m). Qed.

(** In the middle of the program of C82_others_ex: main is asleep in join, and
    the thread it waits for waits for the lock, which another thread holds. *)
Definition qs_l : list move := [MFns 1 ARegP; MFns 1 AGo; MFns 2 ARegP; MJoin 0 2; MLife 0; MLife 0].
Local Notation QS := (ends_in ex_e all_on qx_fini fx_s2 (qm2 qy_main) qs_l).
Theorem C83_never_stuck_ex : good_env ex_e /\ proper all_on qy_main 0 [] /\ (forall k, proper all_on (qx_fini k) 0 []) /\ (forall k, solo (qx_fini k)) /\
  (exists tr, qrun qx_fini qy_main ex_e all_on tr (fst QS) (snd QS)) /\
  bguards_ok ex_e (life (fst QS)) /\ term (fns (fst QS)) = None /\
  t_pc (bT (life (fst QS)) 0%nat) = JSleep KJoin 2 /\ blocked all_on (fns (fst QS)) 2 /\ lk (fns (fst QS)) = Some 1%nat.
Proof.
  destruct (qx_run2 qy_main eq_refl eq_refl) as (tr & R). split; [apply ex_env|]. split; [cbn; repeat split; auto|]. split; [intros k; exact Logic.I|]. split; [intros k; exact Logic.I|].
  split; [eapply ends_ok; [exact R|vm_compute; reflexivity]|]. split.
  { assert (E : bn (life (fst QS)) = 3%nat) by (vm_compute; reflexivity).
    intros j Hj. rewrite E in Hj. clear E. destruct j as [|[|[|j]]]; [lia|vm_compute; reflexivity..|lia]. }
  split; [vm_compute; reflexivity|]. split; [vm_compute; reflexivity|]. split; [|vm_compute; reflexivity].
  split; [reflexivity|]. split; [vm_compute; discriminate|]. left. eexists _, _. vm_compute. reflexivity.
Qed.

(** ** Why the .fini_array functions must not register *)
(** program::exit runs .fini_array with the lock of the list of exit functions
    held, so a .fini_array function that calls program::at_exit waits for its own
    thread: the process never ends, though the schedule is fair. *)
Definition qh_fini : nat -> qprog := fun _ => QAtExit (QReturn 0) (QReturn 0).
Local Notation QH := (ends_in ex_e all_on qh_fini (PSt ex_b0 dinit ex_v0) (qm0 (QReturn 0)) (MFns 0 (ARet 0) :: go 0 4 ++ [MFns 0 ARegP])).
Lemma qh_state : term (fns (fst QH)) = None /\ (bn (life (fst QH)) = 1%nat /\ forall t, bidle (life (fst QH)) t) /\ blocked all_on (fns (fst QH)) 0 /\
  (forall t, frames (fns (fst QH)) (S t) = []) /\ (exists tr, qrun qh_fini (QReturn 0) ex_e all_on tr (fst QH) (snd QH)).
Proof.
  split; [vm_compute; reflexivity|]. split.
  { split; [vm_compute; reflexivity|]. intros [|t]; vm_compute; exact Logic.I. }
  split.
  - split; [reflexivity|]. split; [vm_compute; discriminate|]. left. eexists _, _. vm_compute. reflexivity.
  - split; [intros t; vm_compute; reflexivity|]. eapply ends_ok; [exact (qr_init qh_fini (QReturn 0) ex_e all_on ex_b0 ex_start)|vm_compute; reflexivity].
Qed.
Theorem C83_hang_refuted : ~ (forall fini main e c si la, good_env e -> ffair fini main e c si la ->
  (forall k, bguards_ok e (life (fst (si k)))) -> exists k, ended (fst (si k))).
Proof.
  intros H. destruct qh_state as (T & [Bn Lf] & B & Fr & (tr & R)). revert T Bn Lf B Fr R. generalize QH. intros [s m] T Bn Lf B Fr R. cbn [fst snd] in *.
  destruct (qrun_seq _ _ _ _ _ _ _ R) as (N & si & la & H0 & H1 & H2).
  assert (E : forall k, exists k', (k <= k')%nat /\ fst (si k') = s).
  { intros k. exists (Nat.max k N). split; [lia|]. destruct (H2 (Nat.max k N) ltac:(lia)) as (-> & _). reflexivity. }
  assert (F : ffair qh_fini (QReturn 0) ex_e all_on si la).
  { constructor; auto; intros t k; destruct (E k) as (k' & L & X); exists k'; (split; [exact L|]); rewrite X; right; right.
    - apply Lf.
    - destruct t as [|t]; [right; right; exact B|left; apply Fr].
    - intros (_ & (w & l & U) & _). destruct t as [|t]; [|rewrite Fr in U; discriminate].
      destruct B as (_ & _ & [(f & l' & Y)|(st & l' & Y)]); rewrite Y in U; discriminate. }
  destruct (H _ _ _ _ si la ex_env F) as (k & X).
  - assert (GN : forall k, (N <= k)%nat -> bguards_ok ex_e (life (fst (si k)))).
    { intros k L. destruct (H2 k L) as (-> & _). cbn [fst]. intros j Hj. rewrite Bn in Hj. lia. }
    intros k. destruct (le_lt_dec k N) as [L|L]; [|apply GN; lia]. eapply ffair_guards; [exact F|apply (GN N); lia|exact L].
  - unfold ended in X. destruct (le_lt_dec k N) as [L|L].
    + pose proof (over_stays _ _ _ _ _ _ F k N L X) as Y. destruct (H2 N (le_n N)) as (Z & _). unfold ended in *. rewrite <- Y, Z in X. cbn in X. congruence.
    + destruct (H2 k ltac:(lia)) as (Z & _). rewrite Z in X. cbn in X. congruence.
Qed.
Print Assumptions C83_ends_partial. Print Assumptions C83_any_kernel_partial. Print Assumptions C83_ex. Print Assumptions C83_hang_refuted. Print Assumptions C83_never_stuck_partial. Print Assumptions C83_never_stuck_ex. Print Assumptions C83_same_partial.
