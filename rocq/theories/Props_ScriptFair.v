(** C72: on every fair schedule a program that reads as ending does end, as it
    reads. *)
From Coq Require Import ZArith List Bool Lia Arith.
From Verif Require Import Machine LayoutModel LayoutSpec ThreadModel FairSpec FairCore ByteModel ByteSpec ByteProofs ByteSim BytePhase Props_BytePhase ByteFairSpec Props_ByteFair DtorsModel DtorsFacts DtorsInv DtorsPres Props_Dtors ExitFairSpec ThreadPhase ProcModel Props_Proc Props_Byte ScriptModel ScriptSpec ScriptProofs ScriptChain ScriptDet ScriptTick ScriptPc ScriptFairSpec ScriptFair ScriptStuck Props_Script.
Import ListNotations.
Open Scope Z_scope.

(** Whatever the schedule, as long as it is fair: a program that reads as
    printing [os] and ending with [o] does so, and nothing more happens. *)
Theorem C72_ends_partial : forall {D} (fini : nat -> prog D) main d0 e c si la os o,
  good_env e -> sfair fini main d0 e c si la -> (forall k, bguards_ok e (life (fst (si k)))) -> means c fini main d0 os o ->
  exists K, forall k, (K <= k)%nat -> term (fns (fst (si k))) = Some o /\ out (snd (si k)) = os.
Proof. intros D fini main d0 e c si la os o. exact (ends fini main d0 e c si la os o). Qed.

(** Every program whose authors use what they built it with ends. *)
Theorem C72_terminates_partial : forall {D} (fini : nat -> prog D) main d0 e c si la,
  good_env e -> sfair fini main d0 e c si la -> (forall k, bguards_ok e (life (fst (si k)))) ->
  (forall k, uses c false (fini k)) -> uses c true main ->
  exists K o, forall k, (K <= k)%nat -> term (fns (fst (si k))) = Some o.
Proof.
  intros D fini main d0 e c si la W F G U1 U2. destruct (C71_meaning c fini main d0 U1 U2) as (os & o & M & _).
  destruct (C72_ends_partial fini main d0 e c si la os o W F G M) as (K & H). exists K, o. intros k L. apply H. exact L.
Qed.

(** On any kernel, for programs that create no thread after one thread reclaimed
    another's memory. *)
Lemma upto_lifes {D} (fini : nat -> prog D) la k : upto (life_at la) k = lifes (evs la k).
Proof.
  induction k as [|k IH]; [reflexivity|]. cbn [upto evs]. unfold lifes. rewrite flat_map_app. fold (lifes (evs la k)). rewrite <- IH. f_equal.
  unfold life_at. destruct (la k) as [x| |]; [|reflexivity..]. destruct x; reflexivity.
Qed.
Lemma sfair_careful {D} (fini : nat -> prog D) main d0 e c si la : any_env e -> sfair fini main d0 e c si la ->
  (forall k, creates_first (upto (life_at la) k)) -> sfair fini main d0 (bcareful e) c si la.
Proof.
  intros W F Cf. destruct F as [F1 F2 F3 F4 F5] eqn:EF. constructor; auto.
  intros k. specialize (F2 k) as X. pose proof (at_prun fini main d0 e c si la F k) as PR. pose proof (Cf (S k)) as C. rewrite (upto_lifes fini) in C. cbn [evs] in C.
  destruct (si k) as [s m]. destruct (la k) as [x|t|]; auto. destruct X as [X Y]. split; [|exact Y]. cbn [fst] in PR. eapply pcareful_step; eauto.
Qed.
Theorem C72_any_kernel : forall {D} (fini : nat -> prog D) main d0 e c si la os o,
  any_env e -> sfair fini main d0 e c si la -> (forall k, creates_first (upto (life_at la) k)) ->
  (forall k, bguards_ok e (life (fst (si k)))) -> means c fini main d0 os o ->
  exists K, forall k, (K <= k)%nat -> term (fns (fst (si k))) = Some o /\ out (snd (si k)) = os.
Proof.
  intros D fini main d0 e c si la os o W F Cf G M.
  exact (C72_ends_partial fini main d0 (bcareful e) c si la os o (any_good e W) (sfair_careful fini main d0 e c si la W F Cf) G M).
Qed.

(** Fairness demands nothing impossible: until a program has ended, user code is
    to create a thread (the kernel must give it memory and a task), to return a
    value from a thread that is no machine word (no such value exists in Rust), or
    to compute; or there is a step that the schedule must come to. *)
Theorem C72_never_stuck_partial : forall {D} (fini : nat -> prog D) main d0 e c tr s m os o,
  good_env e -> srun fini main d0 e c tr s m -> means c fini main d0 os o -> bguards_ok e (life s) -> term (fns s) = None ->
  (exists t w f k r, about_to s m t /\ konts m t = URun w (CallThread f k) :: r) \/
  (exists t v r, about_to s m t /\ konts m t = URun WThread (Return v) :: r /\ ~ usize (be_arch e) v) \/
  (exists t w g k r, about_to s m t /\ konts m t = URun w (Do g k) :: r) \/
  exists x s' m', pstep e c s x s' /\ follows fini m x m' /\ due s x.
Proof. intros D fini main d0 e c. exact (goes_on fini main d0 e c). Qed.

(** ** The hypotheses are met *)
(** A run that ended, and then nothing, is a fair execution. *)
Lemma srun_seq {D} (fini : nat -> prog D) main d0 e c tr s m : srun fini main d0 e c tr s m -> exists N si la,
  (exists b, bstarts e b /\ fst (si 0%nat) = PSt b dinit (fun _ => 0) /\
     snd (si 0%nat) = Mach (dupd (fun _ => []) 0%nat [URun WMain main]) (fun _ => Return 0) d0 []) /\
  (forall k, let '(s, m) := si k in
     match la k with
     | LEv x => pstep e c s x (fst (si (S k))) /\ follows fini m x (snd (si (S k)))
     | LDo t => fst (si (S k)) = s /\ term (fns s) = None /\ in_user (fns s) t /\ t_pc (bT (life s) t) = Run /\
         exists w g p r, konts m t = URun w (Do g p) :: r /\
         snd (si (S k)) = Mach (dupd (konts m) t (URun w (p (fst (g (data m)))) :: r)) (reg m) (fst (g (data m))) (out m ++ snd (g (data m)))
     | LIdle => si (S k) = si k
     end) /\
  (forall k, (N <= k)%nat -> si k = (s, m) /\ la k = LIdle).
Proof.
  induction 1 as [b Hb|tr s m x s' m' R (N & si & la & H0 & H1 & H2) St Fo|tr s m t w g k r R (N & si & la & H0 & H1 & H2) Tm U P K].
  - exists 0%nat, (fun _ => (PSt b dinit (fun _ => 0), Mach (dupd (fun _ => []) 0%nat [URun WMain main]) (fun _ => Return 0) d0 [])), (fun _ => LIdle).
    cbn. split; [eauto|]. split; auto.
  - exists (S N), (fun k => if (k <=? N)%nat then si k else (s', m')), (fun k => if (k =? N)%nat then LEv x else la k).
    split; [exact H0|]. split.
    + intros k. destruct (Nat.eqb_spec k N) as [->|NE].
      * rewrite Nat.leb_refl. destruct (Nat.leb_spec (S N) N); [lia|]. destruct (H2 N ltac:(lia)) as (-> & _). auto.
      * destruct (Nat.leb_spec k N); destruct (Nat.leb_spec (S k) N); try lia; try apply (H1 k).
        destruct (H2 k ltac:(lia)) as (_ & ->). reflexivity.
    + intros k L. destruct (Nat.leb_spec k N); [lia|]. destruct (Nat.eqb_spec k N); [lia|]. split; [reflexivity|]. apply H2. lia.
  - set (m' := Mach (dupd (konts m) t _) _ _ _).
    exists (S N), (fun k => if (k <=? N)%nat then si k else (s, m')), (fun k => if (k =? N)%nat then LDo t else la k).
    split; [exact H0|]. split.
    + intros k'. destruct (Nat.eqb_spec k' N) as [->|NE].
      * rewrite Nat.leb_refl. destruct (Nat.leb_spec (S N) N); [lia|]. destruct (H2 N ltac:(lia)) as (-> & _). cbn [fst snd]. split; [reflexivity|]. split; [exact Tm|]. split; [exact U|]. split; [exact P|]. exists w, g, k, r. split; [exact K|reflexivity].
      * destruct (Nat.leb_spec k' N); destruct (Nat.leb_spec (S k') N); try lia; try apply (H1 k').
        destruct (H2 k' ltac:(lia)) as (_ & ->). reflexivity.
    + intros k' L. destruct (Nat.leb_spec k' N); [lia|]. destruct (Nat.eqb_spec k' N); [lia|]. split; [reflexivity|]. apply H2. lia.
Qed.
Lemma srun_fair {D} (fini : nat -> prog D) main d0 e c tr s m : srun fini main d0 e c tr s m -> term (fns s) <> None ->
  exists N si la, sfair fini main d0 e c si la /\ forall k, (N <= k)%nat -> si k = (s, m) /\ la k = LIdle.
Proof.
  intros R T. destruct (srun_seq _ _ _ _ _ _ _ _ R) as (N & si & la & H0 & H1 & H2). exists N, si, la. split; [|exact H2].
  assert (E : forall k, exists k', (k <= k')%nat /\ ended (fst (si k'))).
  { intros k. exists (Nat.max k N). split; [lia|]. destruct (H2 (Nat.max k N) ltac:(lia)) as (-> & _). exact T. }
  constructor; auto; intros t k; destruct (E k) as (k' & L & X); exists k'; auto.
Qed.

(** Threads once created keep the guard size they were created with. *)
Lemma guard_keeps e b acc l b' j : bstep e b acc l b' -> (j < bn b)%nat -> i_g (bI b' j) = i_g (bI b j) /\ (bn b <= bn b')%nat.
Proof.
  intros St L. destruct St; cbn [bgoto btask bset_mem bset_loc bset_claim bmunmap bI bn]; auto; unfold fupd;
    repeat match goal with |- context [Nat.eqb ?x ?y] => destruct (Nat.eqb_spec x y); subst end; cbn; try (split; [reflexivity|lia]); try (exfalso; lia);
    match goal with |- context [boverlaps ?x ?y] => destruct (boverlaps x y) end; split; reflexivity || lia.
Qed.
Lemma sfair_guards {D} (fini : nat -> prog D) main d0 e c si la N : sfair fini main d0 e c si la ->
  bguards_ok e (life (fst (si N))) -> forall k, (k <= N)%nat -> bguards_ok e (life (fst (si k))).
Proof.
  intros F G k L j Hj.
  assert (X : forall k', (k <= k')%nat -> i_g (bI (life (fst (si k'))) j) = i_g (bI (life (fst (si k))) j) /\ (j < bn (life (fst (si k'))))%nat).
  { induction 1 as [|k' L' (IH1 & IH2)]; [split; [reflexivity|lia]|]. rewrite <- IH1. clear IH1.
    destruct (life_at la k') as [l|] eqn:El.
    - destruct (life_some fini main d0 e c si la F k' l El) as (acc & B). destruct (guard_keeps _ _ _ _ _ j B IH2). split; [auto|lia].
    - destruct (life_none fini main d0 e c si la F k' El) as [->|(acc & B)]; [auto|]. destruct (guard_keeps _ _ _ _ _ j B IH2). split; [auto|lia]. }
  destruct (X N L) as (E & Lj). rewrite <- E. apply G. lia.
Qed.

(** The program of C71_ex has a fair execution. *)
Theorem C72_ex : exists si la, good_env ex_e /\ sfair sx_fini sx_main tt ex_e all_on si la /\
  (forall k, bguards_ok ex_e (life (fst (si k)))) /\ means all_on sx_fini sx_main tt [20; 10; 1; 0] (Exited 5).
Proof.
  destruct C71_ex as (_ & _ & _ & _ & _ & _ & _ & M & _).
  destruct (sx_play _ _ sx_l3 _ _ sx_run3 ltac:(vr)) as (tr & R).
  destruct (srun_fair _ _ _ _ _ _ _ _ R) as (N & si & la & F & H); [vm_compute; discriminate|].
  exists si, la. split; [apply ex_env|]. split; [exact F|]. split; [|exact M].
  assert (GN : forall k, (N <= k)%nat -> bguards_ok ex_e (life (fst (si k)))).
  { intros k L. destruct (H k L) as (-> & _). cbn [fst life]. exact ex_guards. }
  intros k. destruct (le_lt_dec k N) as [L|L]; [|apply GN; lia]. eapply sfair_guards; [exact F|apply (GN N); lia|exact L].
Qed.
Print Assumptions C72_ends_partial. Print Assumptions C72_terminates_partial. Print Assumptions C72_any_kernel. Print Assumptions C72_never_stuck_partial. Print Assumptions C72_ex.
