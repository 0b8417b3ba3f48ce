(** C74: every fair execution of a parallel program without shared variables
    ends, with the status and the output that reading it sequentially gives. *)
From Coq Require Import ZArith List Bool Lia Arith Permutation.
From Verif Require Import Machine LayoutModel LayoutSpec ThreadModel FairSpec FairCore ByteModel ByteSpec ByteProofs ByteSim BytePhase Props_BytePhase ByteFairSpec Props_ByteFair DtorsModel DtorsFacts DtorsInv DtorsPres Props_Dtors ExitFairSpec ThreadPhase ProcModel Props_Proc Props_Byte ScriptFairSpec ScriptFair Props_ScriptFair ForkModel ForkSpec ForkProofs ForkPlay Props_Fork ForkFairSpec ForkFair ForkStuck.
Import ListNotations.
Open Scope Z_scope.

(** Whatever the schedule, as long as it is fair: the process ends with what
    main returns, having printed main's whole text; if every thread is joined by
    its creator, everything every thread prints has been printed, once. *)
Theorem C74_ends_partial : forall fini main e c si la,
  good_env e -> ffair fini main e c si la -> (forall k, bguards_ok e (life (fst (si k)))) ->
  exists K, forall k, (K <= k)%nat ->
    term (fns (fst (si k))) = Some (Exited (value main [])) /\
    out_of (snd (si k)) 0%nat = said main ++ finis fini (fini_entries c) /\
    (tidy main 0 [] -> (forall j, tidy (fini j) 0 []) ->
       Permutation (map snd (fout (snd (si k)))) (total true main [] ++ fini_total fini (fini_entries c))).
Proof.
  intros fini main e c si la W F G. destruct (fends fini main e c si la W F G) as (K & H). exists K. intros k L. specialize (H k L).
  pose proof (at_run fini main e c si la F k) as R. unfold ended in H. destruct (term (fns (fst (si k)))) as [o|] eqn:T; [|congruence].
  destruct (C73_end_partial _ _ _ _ _ _ _ _ W R T) as [-> ->]. split; [reflexivity|]. split; [reflexivity|].
  intros T1 T2. destruct (C73_tidy_partial _ _ _ _ _ _ _ _ W T1 T2 R T) as [_ P]. exact P.
Qed.

(** On any kernel, for programs that create no thread after one thread reclaimed
    another's memory. *)
Lemma fupto_lifes la k : upto (life_at la) k = lifes (ScriptFair.evs la k).
Proof.
  induction k as [|k IH]; [reflexivity|]. cbn [upto ScriptFair.evs]. unfold lifes. rewrite flat_map_app. fold (lifes (ScriptFair.evs la k)). rewrite <- IH. f_equal.
  unfold life_at. destruct (la k) as [x| |]; [|reflexivity..]. destruct x; reflexivity.
Qed.
Lemma ffair_careful fini main e c si la : any_env e -> ffair fini main e c si la ->
  (forall k, creates_first (upto (life_at la) k)) -> ffair fini main (bcareful e) c si la.
Proof.
  intros W F Cf. destruct F as [F1 F2 F3 F4 F5] eqn:EF. constructor; auto.
  intros k. specialize (F2 k) as X. pose proof (at_run fini main e c si la F k) as R. apply frun_prun in R. pose proof (Cf (S k)) as C. rewrite fupto_lifes in C. cbn [ScriptFair.evs] in C.
  destruct (si k) as [s m]. destruct (la k) as [x|t|]; auto. destruct X as [X Y]. split; [|exact Y]. cbn [fst] in R. eapply pcareful_step; eauto.
Qed.
Theorem C74_any_kernel : forall fini main e c si la,
  any_env e -> ffair fini main e c si la -> (forall k, creates_first (upto (life_at la) k)) -> (forall k, bguards_ok e (life (fst (si k)))) ->
  exists K, forall k, (K <= k)%nat ->
    term (fns (fst (si k))) = Some (Exited (value main [])) /\
    out_of (snd (si k)) 0%nat = said main ++ finis fini (fini_entries c) /\
    (tidy main 0 [] -> (forall j, tidy (fini j) 0 []) ->
       Permutation (map snd (fout (snd (si k)))) (total true main [] ++ fini_total fini (fini_entries c))).
Proof.
  intros fini main e c si la W F Cf G.
  exact (C74_ends_partial fini main (bcareful e) c si la (any_good e W) (ffair_careful fini main e c si la W F Cf) G).
Qed.

(** ** The hypotheses are met *)
(** A run that ended, and then nothing, is a fair execution. *)
Lemma frun_seq fini main e c tr s m : frun fini main e c tr s m -> exists N si la,
  (exists b, bstarts e b /\ fst (si 0%nat) = PSt b dinit (fun _ => 0) /\
     snd (si 0%nat) = FMach (dupd (fun _ => None) 0%nat (Some (Act WMain main []))) (fun _ => FReturn 0) (dupd (fun _ => FReturn 0) 0%nat main) []) /\
  (forall k, let '(s, m) := si k in
     match la k with
     | LEv x => pstep e c s x (fst (si (S k))) /\ gollows fini m x (snd (si (S k)))
     | LDo t => fst (si (S k)) = s /\ term (fns s) = None /\ in_user (fns s) t /\ t_pc (bT (life s) t) = Run /\
         exists w z p hs, acts m t = Some (Act w (FPrint z p) hs) /\ snd (si (S k)) = oput (aset m t (Some (Act w p hs))) t z
     | LIdle => si (S k) = si k
     end) /\
  (forall k, (N <= k)%nat -> si k = (s, m) /\ la k = LIdle).
Proof.
  induction 1 as [b Hb|tr s m x s' m' R (N & si & la & H0 & H1 & H2) St Fo|tr s m t w z p hs R (N & si & la & H0 & H1 & H2) Tm U P A].
  - exists 0%nat, (fun _ => (PSt b dinit (fun _ => 0), FMach (dupd (fun _ => None) 0%nat (Some (Act WMain main []))) (fun _ => FReturn 0) (dupd (fun _ => FReturn 0) 0%nat main) [])), (fun _ => LIdle).
    cbn. split; [eauto|]. split; auto.
  - exists (S N), (fun k => if (k <=? N)%nat then si k else (s', m')), (fun k => if (k =? N)%nat then LEv x else la k).
    split; [exact H0|]. split.
    + intros k. destruct (Nat.eqb_spec k N) as [->|NE].
      * rewrite Nat.leb_refl. destruct (Nat.leb_spec (S N) N); [lia|]. destruct (H2 N ltac:(lia)) as (-> & _). auto.
      * destruct (Nat.leb_spec k N); destruct (Nat.leb_spec (S k) N); try lia; try apply (H1 k).
        destruct (H2 k ltac:(lia)) as (_ & ->). reflexivity.
    + intros k L. destruct (Nat.leb_spec k N); [lia|]. destruct (Nat.eqb_spec k N); [lia|]. split; [reflexivity|]. apply H2. lia.
  - set (m' := oput (aset m t _) _ _).
    exists (S N), (fun k => if (k <=? N)%nat then si k else (s, m')), (fun k => if (k =? N)%nat then LDo t else la k).
    split; [exact H0|]. split.
    + intros k'. destruct (Nat.eqb_spec k' N) as [->|NE].
      * rewrite Nat.leb_refl. destruct (Nat.leb_spec (S N) N); [lia|]. destruct (H2 N ltac:(lia)) as (-> & _). cbn [fst snd]. split; [reflexivity|]. split; [exact Tm|]. split; [exact U|]. split; [exact P|]. exists w, z, p, hs. split; [exact A|reflexivity].
      * destruct (Nat.leb_spec k' N); destruct (Nat.leb_spec (S k') N); try lia; try apply (H1 k').
        destruct (H2 k' ltac:(lia)) as (_ & ->). reflexivity.
    + intros k' L. destruct (Nat.leb_spec k' N); [lia|]. destruct (Nat.eqb_spec k' N); [lia|]. split; [reflexivity|]. apply H2. lia.
Qed.
Lemma frun_fair fini main e c tr s m : frun fini main e c tr s m -> term (fns s) <> None ->
  exists N si la, ffair fini main e c si la /\ forall k, (N <= k)%nat -> si k = (s, m) /\ la k = LIdle.
Proof.
  intros R T. destruct (frun_seq _ _ _ _ _ _ _ R) as (N & si & la & H0 & H1 & H2). exists N, si, la. split; [|exact H2].
  assert (E : forall k, exists k', (k <= k')%nat /\ ended (fst (si k'))).
  { intros k. exists (Nat.max k N). split; [lia|]. destruct (H2 (Nat.max k N) ltac:(lia)) as (-> & _). exact T. }
  constructor; auto; intros t k; destruct (E k) as (k' & L & X); exists k'; auto.
Qed.
Lemma ffair_guards fini main e c si la N : ffair fini main e c si la ->
  bguards_ok e (life (fst (si N))) -> forall k, (k <= N)%nat -> bguards_ok e (life (fst (si k))).
Proof.
  intros F G k L j Hj.
  assert (X : forall k', (k <= k')%nat -> i_g (bI (life (fst (si k'))) j) = i_g (bI (life (fst (si k))) j) /\ (j < bn (life (fst (si k'))))%nat).
  { induction 1 as [|k' L' (IH1 & IH2)]; [split; [reflexivity|lia]|]. rewrite <- IH1. clear IH1.
    destruct (life_at la k') as [l|] eqn:El.
    - destruct (life_some fini main e c si la F k' l El) as (acc & B). destruct (guard_keeps _ _ _ _ _ j B IH2). split; [auto|lia].
    - destruct (life_none fini main e c si la F k' El) as [->|(acc & B)]; [auto|]. destruct (guard_keeps _ _ _ _ _ j B IH2). split; [auto|lia]. }
  destruct (X N L) as (E & Lj). rewrite <- E. apply G. lia.
Qed.

Local Notation FX l := (ends_in ex_e all_on fx_fini fx_s2 fx_m2 l).
Lemma fx_guards : bguards_ok ex_e (life (fst (FX fx_l1))).
Proof.
  assert (E : bn (life (fst (FX fx_l1))) = 3%nat) by (vm_compute; reflexivity).
  intros j Hj. rewrite E in Hj. clear E. destruct j as [|[|[|j]]]; [lia|vm_compute; reflexivity..|lia].
Qed.
(** Fairness demands nothing impossible: if the program uses each handle at most
    once and the features it is built with, then until the process has ended some
    thread is about to create one, to print, or to return something that is not a
    usize (which Rust's types exclude), or there is another step of the schedule
    that is due. *)
Theorem C74_never_stuck_partial : forall fini main e c tr s m,
  good_env e -> proper c main 0 [] -> (forall k, proper c (fini k) 0 []) -> frun fini main e c tr s m -> bguards_ok e (life s) -> term (fns s) = None ->
  (exists t w f k hs, fabout_to s m t /\ acts m t = Some (Act w (FCreate f k) hs)) \/
  (exists t v hs, fabout_to s m t /\ acts m t = Some (Act WThread (FReturn v) hs) /\ ~ usize (be_arch e) v) \/
  (exists t w z k hs, fabout_to s m t /\ acts m t = Some (Act w (FPrint z k) hs)) \/
  exists x s' m', pstep e c s x s' /\ gollows fini m x m' /\ fdue s x.
Proof. intros fini main e c tr s m W H1 H2. exact (fgoes_on fini main e c H1 H2 W tr s m). Qed.

(** In the middle of the program of C73_ex: main is asleep in join. *)
Theorem C74_never_stuck_ex : good_env ex_e /\ proper all_on fx_main 0 [] /\ (forall k, proper all_on (fx_fini k) 0 []) /\
  (exists tr, frun fx_fini fx_main ex_e all_on tr (fst (FX (firstn 7 fx_l1))) (snd (FX (firstn 7 fx_l1)))) /\
  bguards_ok ex_e (life (fst (FX (firstn 7 fx_l1)))) /\ term (fns (fst (FX (firstn 7 fx_l1)))) = None /\
  t_pc (bT (life (fst (FX (firstn 7 fx_l1)))) 0%nat) = JSleep KJoin 2.
Proof.
  destruct fx_run2 as (tr & R). split; [apply ex_env|]. split; [cbn; repeat split; auto|]. split; [intros k; exact Logic.I|].
  split; [eapply ends_ok; [exact R|vm_compute; reflexivity]|]. split; [|split; vm_compute; reflexivity].
  assert (E : bn (life (fst (FX (firstn 7 fx_l1)))) = 3%nat) by (vm_compute; reflexivity).
  intros j Hj. rewrite E in Hj. clear E. destruct j as [|[|[|j]]]; [lia|vm_compute; reflexivity..|lia].
Qed.

(** The program of C73_ex, in which main sleeps in join while two threads run,
    has a fair execution. *)
Theorem C74_ex : exists si la, good_env ex_e /\ ffair fx_fini fx_main ex_e all_on si la /\
  (forall k, bguards_ok ex_e (life (fst (si k)))) /\ value fx_main [] = 12 /\
  exists k, fout (snd (si k)) = [(1%nat, 11); (2%nat, 21); (1%nat, 12); (1%nat, 13); (0%nat, 7); (0%nat, 1); (0%nat, 0)].
Proof.
  destruct C73_ex as (_ & _ & _ & (tr & R) & _ & T & _ & O & _ & V & _). pose proof fx_guards as GG.
  revert R T O GG V. generalize (FX fx_l1) (value fx_main []). intros z v R T O GG V. clear - R T O GG V.
  destruct (frun_fair _ _ _ _ _ _ _ R) as (N & si & la & F & H); [rewrite T; discriminate|].
  exists si, la. split; [apply ex_env|]. split; [exact F|]. split; [|split; [exact V|exists N; destruct (H N (le_n N)) as (-> & _); exact O]].
  assert (GN : forall k, (N <= k)%nat -> bguards_ok ex_e (life (fst (si k)))).
  { intros k L. destruct (H k L) as (-> & _). cbn [fst]. exact GG. }
  intros k. destruct (le_lt_dec k N) as [L|L]; [|apply GN; lia]. eapply ffair_guards; [exact F|apply (GN N); lia|exact L].
Qed.
Print Assumptions C74_ends_partial. Print Assumptions C74_any_kernel. Print Assumptions C74_ex. Print Assumptions C74_never_stuck_partial. Print Assumptions C74_never_stuck_ex.
