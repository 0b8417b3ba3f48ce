(** A scripted program that has not ended can go on (for C72). *)
From Coq Require Import ZArith List Bool Lia Arith.
From Verif Require Import Machine LayoutModel LayoutSpec ThreadModel ThreadInv ThreadPres ThreadTop ThreadTop2 ByteModel ByteSpec ByteProofs ByteSim ByteFairSpec Props_ByteFair DtorsModel DtorsFacts DtorsInv DtorsPres ExitFairSpec Props_ExitFair ProcModel Props_Proc Props_Byte ScriptModel ScriptSpec ScriptProofs ScriptChain ScriptPc ScriptFairSpec.
Import ListNotations.
Open Scope Z_scope.

(** ** What a thread's function returned fits a machine word *)
Lemma returns_usize e c tr s : prun e c tr s -> forall t v, In (PReturns t v) tr -> usize (be_arch e) v.
Proof.
  induction 1 as [b Hb|tr s x s' R IH St]; intros t v; [intros []|]. intros H. apply in_app_iff in H as [H|[->|[]]]; [eauto|].
  inversion St; assumption.
Qed.
Lemma dtors_usize e c tr s t : prun e c tr s -> In FDtors (frames (fns s) t) -> usize (be_arch e) (fval s t).
Proof.
  intros R F. pose proof (prun_inv _ _ _ _ R) as PI. destruct (pi_dtors _ _ PI _ F) as (v & H).
  destruct (pi_ret _ _ PI _ _ H) as [<- _]. eapply returns_usize; eauto.
Qed.

(** ** The main thread never runs a thread's function *)
Lemma main_frames c tr d : DtorsModel.exec c tr d ->
  (1 <= nthr d)%nat /\ ~ In (FUser WThread) (frames d 0%nat) /\ ~ In FDtors (frames d 0%nat).
Proof.
  induction 1 as [|tr d u a x d' H (I0 & I1 & I2) DS].
  - cbn. split; [lia|]. split; intros [X|[]]; discriminate.
  - pose proof (dstep_effect _ _ _ _ _ _ DS) as EE. pose proof (e_nthr _ _ _ _ _ EE) as EN. pose proof (e_guard _ _ _ _ _ EE) as EG.
    assert (NS : x <> Spawn 0%nat) by (intros ->; destruct EG as [E _]; lia).
    destruct (frames_step _ _ _ _ _ _ _ 0%nat (exec_inv _ _ _ H) DS) as (_ & F1 & F2 & _).
    split; [rewrite EN; destruct x; lia|]. split; intros X.
    + apply F1 in X as [X|X]; [exact (I1 X)|exact (NS X)].
    + apply F2 in X as [X|[-> <-]]; [exact (I2 X)|]. 
      assert (TN : 0%nat <> nthr d) by lia. pose proof (e_own _ _ _ _ _ EE TN) as EO. apply I1.
      inversion EO; subst; [left; reflexivity|congruence].
Qed.

(** ** A thread that is to be joined is not joined yet *)
Lemma claim_step e b acc l b' j : bstep e b acc l b' -> bclaim b j = None ->
  (forall i ins, l <> Some (i, ins, ECallJoin j)) -> (forall i ins, l <> Some (i, ins, ECallDetach j)) -> bclaim b' j = None.
Proof.
  intros H C N1 N2. destruct H; cbn [bgoto btask bset_mem bset_loc bset_claim bmunmap bclaim]; auto; unfold fupd;
    match goal with |- context [Nat.eqb ?a ?b] => destruct (Nat.eqb_spec a b); subst end; auto.
  - edestruct N1; reflexivity.
  - edestruct N2; reflexivity.
Qed.

(** Steps of a thread inside one of origin's functions. *)
Lemma inside_step e b acc i a x b' : bstep e b acc (Some (i, a, x)) b' -> t_pc (bT b i) <> Run -> x <> ESignal ->
  life_only x = true /\ api_call x = false /\ (forall j v, x = EJoin j v -> injoin j (t_pc (bT b i)) /\ t_pc (bT b i) = JRet KJoin j v).
Proof.
  intros H N NS. inversion H; subst; try contradiction; try (split; [reflexivity|split; [reflexivity|intros; discriminate]]).
  split; [reflexivity|]. split; [reflexivity|]. intros j' v' [= <- <-]. match goal with A : t_pc _ = _ |- _ => rewrite A end. split; reflexivity.
Qed.

Section Stuck.
Context {D : Type}.
Variables (fini : nat -> prog D) (main : prog D) (d0 : D) (e : benv) (c : dcfg).

Lemma linked_in2 s (m : mach D) rest : forall t, linked s m t rest -> forall p w j k r, In p rest -> waits (konts m p) = Some (w, j, k, r) -> In j (t :: rest).
Proof.
  induction rest as [|q rest IH]; intros t L p w j k r []; cbn in L; destruct L as [(w1 & k1 & r1 & fs & L1 & _) L2]; intros W.
  - subst q. rewrite L1 in W. injection W as <- <- <- <-. left. reflexivity.
  - right. eapply IH; eauto.
Qed.
Lemma one_waiter s (m : mach D) rest : forall t, NoDup (t :: rest) -> linked s m t rest ->
  forall p q j w1 k1 r1 w2 k2 r2, In p rest -> In q rest -> waits (konts m p) = Some (w1, j, k1, r1) -> waits (konts m q) = Some (w2, j, k2, r2) -> p = q.
Proof.
  induction rest as [|q0 rest IH]; intros t ND L p q j w1 k1 r1 w2 k2 r2 []; cbn in L; destruct L as [(w & k & r & fs & L1 & _) L2]; intros Hq W1 W2.
  - subst q0. destruct Hq as [|Hq]; [assumption|]. rewrite L1 in W1. injection W1 as <- <- <- <-.
    pose proof (linked_in2 _ _ _ _ L2 _ _ _ _ _ Hq W2) as X. inversion ND; contradiction.
  - destruct Hq as [<-|Hq].
    + rewrite L1 in W2. injection W2 as <- <- <- <-. pose proof (linked_in2 _ _ _ _ L2 _ _ _ _ _ H W1) as X. inversion ND; contradiction.
    + eapply (IH q0); eauto. now inversion ND.
Qed.
Lemma J_one s (m : mach D) os o p q j w1 k1 r1 w2 k2 r2 : J c fini s m os o -> term (fns s) = None ->
  waits (konts m p) = Some (w1, j, k1, r1) -> waits (konts m q) = Some (w2, j, k2, r2) -> p = q.
Proof.
  intros [[X _]|(T & h & t & rest & Hk & Sh & _)] Tm W1 W2; [congruence|].
  destruct (waiter _ _ _ _ _ _ _ Sh eq_refl W1) as [_ H1]. destruct (waiter _ _ _ _ _ _ _ Sh eq_refl W2) as [_ H2].
  destruct Sh as [ND _ _ SL]. eapply one_waiter; eauto.
Qed.
Lemma unclaimed tr s m os o : good_env e -> srun fini main d0 e c tr s m -> means c fini main d0 os o ->
  forall t w j k r, konts m t = UJoin w j k :: r -> bclaim (life s) j = None.
Proof.
  intros G R M. induction R as [b Hb|tr s m x s' m' R IH St F|tr s m t w g k r R IH T U P K].
  - intros t w j k r. cbn. unfold dupd. destruct (Nat.eqb t 0); discriminate.
  - pose proof (srun_prun _ _ _ _ _ _ _ _ R) as PR. pose proof (srun_where _ _ _ _ _ _ _ _ R) as [WP WT WU WJ].
    pose proof (srun_J _ _ _ _ _ _ _ _ _ _ G R M) as (os' & _ & HJ).
    assert (Tm : term (fns s) = None).
    { destruct (term (fns s)) eqn:Te; [|reflexivity]. exfalso. eapply (C62_end e c); eauto. congruence. }
    assert (NJ : forall t k0 r0 w j k r, konts m t = k0 :: r0 -> r0 = UJoin w j k :: r -> False).
    { intros t k0 r0 w j k r E ->. specialize (WT t). rewrite E in WT. inversion WT; contradiction. }
    intros t w j k r X.
    assert (CS : forall acc l, bstep e (life s) acc l (life s') -> bclaim (life s) j = None ->
      (forall i ins j', l = Some (i, ins, ECallJoin j') -> j' <> j) -> (forall i ins, l <> Some (i, ins, ECallDetach j)) -> bclaim (life s') j = None).
    { intros acc l B Cl N1 N2. eapply claim_step; eauto. intros i ins ->. eapply N1; reflexivity. }
    assert (CC : (konts m t = UJoin w j k :: r /\ forall i ins, x = PLife (i, ins, ECallJoin j) -> False) \/ exists i ins, x = PCreate i ins j).
    { inversion F; subst; cbn in X; unfold dupd in X;
        repeat match goal with A : context [Nat.eqb ?a ?b] |- _ => destruct (Nat.eqb_spec a b); subst end; try discriminate X;
        try (left; split; [assumption|intros; discriminate]); try (exfalso; eapply NJ; eauto; fail).
      - left. split; [assumption|]. intros i0 ins0 [= <- <- ->].
        match goal with A : t <> i, B : konts m i = _ |- _ => apply A; eapply (J_one s m os' o t i); eauto; [rewrite X|rewrite B]; reflexivity end.
      - left. split; [assumption|]. intros i0 ins0 [= -> -> ->]. discriminate.
      - right. injection X as -> -> -> ->. eauto. }
    destruct CC as [[XK NC]|(i & ins & ->)].
    + assert (Cl : bclaim (life s) j = None) by (eapply IH; eauto).
      assert (ND : forall i ins, x <> PLife (i, ins, ECallDetach j)) by (intros i ins ->; inversion F; discriminate).
      inversion St; subst; cbn [life] in *; first [assumption | eapply CS; [eassumption|exact Cl| |]; try (intros; discriminate)].
      * intros i0 ins0 j' [= -> -> ->] ->. eapply NC; reflexivity.
      * intros i0 ins0 [= -> -> ->]. eapply ND; reflexivity.
    + inversion St; subst. cbn [life] in *. match goal with A : bstep _ _ _ _ _ |- _ => inversion A; subst end.
      cbn. unfold fupd. now rewrite Nat.eqb_refl.
  - intros t' w' j k' r'. cbn. unfold dupd. destruct (Nat.eqb t' t); [discriminate|]. eauto.
Qed.

(** One step of a thread inside one of origin's functions is a step of the program. *)
Lemma life_step s (m : mach D) i : term (fns s) = None -> ~ bidle (life s) i ->
  (forall j v, t_pc (bT (life s) i) = JRet KJoin j v -> exists w k r, konts m i = UWait w j k :: r) ->
  exists x s' m', pstep e c s x s' /\ follows fini m x m' /\ due s x.
Proof.
  intros Tm NI JR. destruct (C68_byte_never_stuck e (life s) i) as [X|(acc & a & ev & b' & NS & B)]; [contradiction|].
  assert (NR : t_pc (bT (life s) i) <> Run) by (intros X; apply NI; unfold bidle; rewrite X; exact Logic.I).
  destruct (inside_step _ _ _ _ _ _ _ B NR NS) as (L & A & EJ).
  exists (PLife (i, a, ev)), (PSt b' (fns s) (fval s)).
  assert (PS : pstep e c s (PLife (i, a, ev)) (PSt b' (fns s) (fval s))) by (eapply p_life; eauto; congruence).
  assert (Du : due s (PLife (i, a, ev))) by (cbn; destruct ev; try discriminate; try exact NI; contradiction).
  destruct (match ev with EJoin _ _ => true | _ => false end) eqn:EV.
  - destruct ev; try discriminate. destruct (EJ _ _ eq_refl) as [_ E]. destruct (JR _ _ E) as (w & k & r & K).
    eexists. split; [exact PS|]. split; [eapply f_join; exact K|exact Du].
  - exists m. split; [exact PS|]. split; [|exact Du]. apply f_life; [exact A|]. intros j' v' ->. discriminate.
Qed.

Lemma goes_on tr s m os o : good_env e -> srun fini main d0 e c tr s m -> means c fini main d0 os o ->
  bguards_ok e (life s) -> term (fns s) = None ->
  (exists t w f k r, about_to s m t /\ konts m t = URun w (CallThread f k) :: r) \/
  (exists t v r, about_to s m t /\ konts m t = URun WThread (Return v) :: r /\ ~ usize (be_arch e) v) \/
  (exists t w g k r, about_to s m t /\ konts m t = URun w (Do g k) :: r) \/
  exists x s' m', pstep e c s x s' /\ follows fini m x m' /\ due s x.
Proof.
  intros G R M Gd Tm. pose proof (srun_prun _ _ _ _ _ _ _ _ R) as PR. pose proof (srun_where _ _ _ _ _ _ _ _ R) as [WP WT WU WJ].
  destruct (proj _ _ _ _ PR) as [RB RD]. pose proof (prun_inv _ _ _ _ PR) as PI. pose proof (exec_inv _ _ _ RD) as I.
  destruct (srun_J _ _ _ _ _ _ _ _ _ _ G R M) as (os' & _ & HJ).
  pose proof (unclaimed _ _ _ _ _ G R M) as UC.
  assert (NP : forall i, t_pc (bT (life s) i) <> Panicked) by (intros i; apply (C56_no_leak_partial e _ _ i G RB Gd)).
  assert (LT : forall t, frames (fns s) t <> [] -> (t < bn (life s))%nat).
  { intros t F. rewrite (pi_n _ _ PI). destruct (le_lt_dec (nthr (fns s)) t) as [X|X]; [|exact X]. destruct (i_new _ _ _ I t X) as [Y _]. contradiction. }
  destruct HJ as [[X _]|(_ & h & t & rest & Hk & Sh & CE)]; [congruence|].
  assert (E : exists os1 rr, feval c fini (reg m) h (fval s t) (frames (fns s) t) (konts m t) (ustof (fns s) m t) os1 rr /\
     ((exists oo, rr = End oo) \/ exists p w k r, waits (konts m p) = Some (w, t, k, r))).
  { inversion CE; subst; eauto 10. }
  clear CE. destruct E as (os1 & rr & E & WW).
  destruct (frames (fns s) t) as [|fr fs] eqn:Fr.
  - (* the running thread is done: the one that waits for it goes on *)
    inversion E; subst. destruct WW as [[oo X]|(p & w & k & r & W)]; [discriminate X|].
    assert (Lt : (t < bn (life s))%nat).
    { rewrite (pi_n _ _ PI). apply (WJ p w t k). destruct (konts m p) as [|[]]; cbn in W; try discriminate; injection W as <- <- <- <-; [left|right]; left; reflexivity. }
    destruct (konts m p) as [|kk rp] eqn:Kp; [discriminate W|].
    destruct kk; cbn in W; try discriminate; injection W as -> -> -> ->.
    + (* it is to call join *)
      pose proof (WU _ _ _ _ _ (or_introl Kp)) as U. assert (Fp : frames (fns s) p <> []) by (destruct U as (w' & fs & ->); discriminate).
      specialize (WP p). rewrite Kp in WP. specialize (WP Fp). right. right. right.
      exists (PLife (p, [p], ECallJoin t)). do 2 eexists. split; [eapply p_life; [exact Tm|apply b_join; auto; eapply UC; eauto|reflexivity|auto]|].
      split; [eapply f_calljoin; exact Kp|exact Logic.I].
    + (* it is inside join *)
      specialize (WP p). rewrite Kp in WP. right. right. right.
      destruct (match t_pc (bT (life s) p) with JSleep _ _ => true | _ => false end) eqn:Sl.
      * destruct (t_pc (bT (life s) p)) as [| | |kj j| | | | | | | | | | | | | | |] eqn:Pp; try discriminate Sl.
        cbn in WP. destruct kj; [|contradiction]. subst j.
        (* asleep: the thread that is done moves *)
        pose proof (page_pos e G) as Hp. destruct (G) as [W Hr]. destruct (brun_sim e W Hr _ _ RB) as (ss & Rs & Rl).
        destruct (fin_history _ _ _ Hp Hr Rs) as (_ & F2 & F3).
        assert (Dn : exists v acc, In (t, acc, EReturn v) (lifes tr)).
        { assert (Ln : (t < nthr (fns s))%nat) by (rewrite <- (pi_n _ _ PI); exact Lt).
          pose proof (proj2 (done_in c fini _ _ RD) t Ln Fr) as X. unfold ProcModel.exits in X. apply in_flat_map in X as (y & X1 & X2).
          destruct y as [| | | | |t' acc v]; cbn in X2; try (destruct X2 as [X2|[]]; try discriminate X2); try contradiction.
          - injection X2 as -> ->. exfalso. clear - X1 PR. induction PR as [b Hb|tr s x s' R IH St]; [destruct X1|].
            apply in_app_iff in X1 as [X1|[->|[]]]; [auto|]. inversion St; subst. discriminate.
          - injection X2 as ->. exists v, acc. apply in_flat_map. exists (PDone t acc v). split; [exact X1|left; reflexivity]. }
        destruct Dn as (v & acc & Dn). assert (FN : t_fin (T ss t) = Some v) by (apply F3; exists acc; exact Dn).
        assert (NR : forall P, match P with Run | JLoad _ _ | JFutex _ _ _ | JSleep _ _ | JDone _ _ | JFree _ _ _ | JRet _ _ _ | DSwap _ => True | _ => False end -> t_pc (bT (life s) t) <> P).
        { intros P HP X. rewrite (F2 t) in FN; [discriminate|]. rewrite (rl_T _ _ _ Rl t), X. exact HP. }
        apply (life_step s m t Tm).
        -- unfold bidle. destruct (t_pc (bT (life s) t)) eqn:Pt; auto.
           ++ intros _. eapply NR; [|reflexivity]; exact Logic.I.
           ++ intros _. eapply NR; [|reflexivity]; exact Logic.I.
           ++ intros _. eapply (C56_no_sleeper_partial e _ _ p _ t G RB Pp). exact Pt.
           ++ intros _. eapply NP; exact Pt.
        -- intros j v' X. exfalso. eapply NR; [|exact X]. exact Logic.I.
      * apply (life_step s m p Tm).
        -- unfold bidle. pose proof (NP p) as NPp. destruct (t_pc (bT (life s) p)); cbn in WP; auto; try contradiction. discriminate Sl.
        -- intros j v' X. rewrite X in WP. cbn in WP. subst j. eauto.
  - assert (Ft : frames (fns s) t <> []) by congruence.
    assert (PC : t_pc (bT (life s) t) = Run).
    { specialize (WP t). destruct Sh as [_ _ ST _]. destruct (konts m t) as [|k0 r0]; [auto|]. inversion ST; subst. destruct k0; auto. contradiction. }
    destruct (match fr with FUser _ => true | _ => false end) eqn:Us.
    + (* user code *)
      destruct fr as [w| | | | | | |]; try discriminate Us.
      destruct (konts m t) as [|kk ks] eqn:Kt; [inversion E|].
      destruct (user_kont _ _ _ _ _ _ _ _ _ _ _ _ E) as (p & ->).
      destruct (user_runs _ _ _ _ _ _ _ _ _ _ _ _ _ E) as (_ & os2 & r2 & Rn).
      assert (AB : about_to s m t) by (split; [exact PC|]; split; [exists w, fs; exact Fr|]; rewrite Kt; do 2 eexists; split; [reflexivity|exact Logic.I]).
      assert (DS : forall a y d', user_step c (fns s) t w fs a = Some (y, d') -> dstep c (fns s) t a = Some (y, d')) by (intros; unfold dstep; rewrite Tm, Fr; assumption).
      assert (FN : forall a y d' m', user_step c (fns s) t w fs a = Some (y, d') -> fns_only y = true -> y <> Nop -> follows fini m (PFns t y) m' ->
        exists x s' m', pstep e c s x s' /\ follows fini m x m' /\ due s x).
      { intros a y d' m' A1 A2 A3 A4. exists (PFns t y), (PSt (life s) d' (fval s)), m'. split; [eapply p_fns; eauto|]. split; [exact A4|]. destruct y; cbn; auto. }
      destruct p as [v|g k|q k|q k|q k|st|st|].
      * destruct (match w with WMain | WThread => false | _ => true end) eqn:Wk.
        -- right. right. right. eapply (FN (ARet 0)); [destruct w; try discriminate Wk; reflexivity|destruct w; try discriminate Wk; reflexivity|discriminate|eapply f_ret; exact Kt].
        -- destruct w; try discriminate Wk.
           ++ right. right. right. eapply (FN (ARet v)); [reflexivity|reflexivity|discriminate|eapply f_main; exact Kt].
           ++ assert (UD : usize (be_arch e) v \/ ~ usize (be_arch e) v) by (unfold usize; lia).
              destruct UD as [UD|UD]; [|right; left; eauto 8]. right. right. right.
              exists (PReturns t v). do 2 eexists. split; [eapply p_returns; [apply DS; reflexivity|exact PC|exact UD]|]. split; [eapply f_returns; exact Kt|exact Logic.I].
      * right. right. left. exists t, w, g, k, ks. auto.
      * right. right. right. inversion Rn; subst. match goal with A : c_tae c = true |- _ => rename A into Et end.
        eapply (FN ARegT); [cbn; rewrite Et; reflexivity|reflexivity|discriminate|eapply f_regt; exact Kt].
      * right. right. right. inversion Rn; subst. match goal with A : c_pae c = true |- _ => rename A into Et end.
        eapply (FN ARegP); [cbn; rewrite Et; reflexivity|reflexivity|discriminate|eapply f_regp; exact Kt].
      * left. exists t, w, q, k, ks. auto.
      * right. right. right. eapply (FN (AExit st)); [reflexivity|reflexivity|discriminate|eapply f_exit; exact Kt].
      * right. right. right. eapply (FN (AImm st)); [reflexivity|reflexivity|discriminate|eapply f_imm; exact Kt].
      * right. right. right. eapply (FN ATrap); [reflexivity|reflexivity|discriminate|eapply f_trap; exact Kt].
    + (* origin's code *)
      right. right. right. rewrite <- Fr in E. pose proof (not_blocked c fini _ _ _ _ _ _ _ _ _ _ I Hk Sh E) as NB.
      destruct (C70_never_stuck c _ _ t RD) as [X|[X|[(w & X)|[X|(y & d' & DS)]]]].
      * exact (False_rect _ (X Tm)).
      * unfold gone in X. congruence.
      * unfold running in X. destruct X as (l & X). rewrite Fr in X. injection X as -> _. discriminate Us.
      * contradiction.
      * pose proof (dstep_effect _ _ _ _ _ _ DS) as EE.
        assert (TN : t <> nthr (fns s)) by (pose proof (LT t Ft) as X; rewrite (pi_n _ _ PI) in X; lia).
        pose proof (e_own _ _ _ _ _ EE TN) as EO. rewrite Fr in EO.
        assert (NU : ~ in_user (fns s) t) by (intros (w & l & X); rewrite Fr in X; injection X as -> _; discriminate Us).
        destruct (match y with ThreadDone => true | _ => false end) eqn:TD.
        -- destruct y; try discriminate TD.
           assert (HD : In FDtors (frames (fns s) t)) by (rewrite Fr; revert EO; generalize (frames d' t); intros Z EO; inversion EO; subst; left; reflexivity).
           exists (PDone t [t] (fval s t)). do 2 eexists. split; [eapply p_done; [exact DS|apply ByteModel.b_return]|].
           ++ destruct t as [|t]; [|lia]. edestruct (main_frames _ _ _ RD) as (_ & _ & X). contradiction.
           ++ apply LT. exact Ft.
           ++ exact PC.
           ++ eapply dtors_usize; eauto.
           ++ split; [apply f_done|exact Logic.I].
        -- assert (FO : fns_only y = true /\ exists m', follows fini m (PFns t y) m').
           { revert EO. generalize (frames d' t). intros Z EO.
             inversion EO; subst; try discriminate Us; try discriminate TD; (split; [reflexivity|]);
               first [eexists; apply f_callt | eexists; apply f_callp | eexists; apply f_callf | exists m; apply f_fns; exact Logic.I]. }
           destruct FO as (FO & m' & F). exists (PFns t y), (PSt (life s) d' (fval s)), m'. split; [eapply p_fns; eauto|]. split; [exact F|].
           destruct y; cbn; auto.
Qed.
End Stuck.
