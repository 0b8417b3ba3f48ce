(** Every program of ScriptModel.v that uses only the features it was built
    with, and whose .fini_array functions neither register program exit
    functions nor call exit, has a meaning (for C71). *)
From Coq Require Import ZArith List Bool Lia Arith Permutation Wellfounded Relation_Operators.
From Verif Require Import DtorsModel ScriptModel ScriptSpec.
Import ListNotations.
Open Scope Z_scope.

(** ** Multisets of a well-founded order *)
Section Mult.
  Context {A : Type} (lt : A -> A -> Prop) (wf : well_founded lt).
  Definition mlt (l1 l2 : list A) : Prop :=
    exists x M ys, Permutation l2 (x :: M) /\ Permutation l1 (ys ++ M) /\ forall y, In y ys -> lt y x.

  Lemma acc_perm l l' : Permutation l l' -> Acc mlt l -> Acc mlt l'.
  Proof.
    intros P [H]. constructor. intros y (x & M & ys & P1 & P2 & L). apply H. exists x, M, ys. split; [|auto].
    eapply Permutation_trans; eauto.
  Qed.
  Lemma perm_cons_inv (a x : A) M N : Permutation (a :: M) (x :: N) ->
    (a = x /\ Permutation M N) \/ exists Q, Permutation M (x :: Q) /\ Permutation N (a :: Q).
  Proof.
    intros P. assert (H : In a (x :: N)) by (eapply Permutation_in; [exact P|left; reflexivity]). destruct H as [->|H].
    - left. split; [reflexivity|]. eapply Permutation_cons_inv; eauto.
    - right. apply in_split in H as (l1 & l2 & ->). exists (l1 ++ l2). split.
      + apply (Permutation_cons_inv (a := a)). eapply Permutation_trans; [exact P|].
        eapply Permutation_trans; [|apply perm_swap]. apply perm_skip. apply Permutation_sym. apply Permutation_middle.
      + apply Permutation_sym. apply Permutation_middle.
  Qed.
  Lemma acc_cons a : Acc lt a -> forall M, Acc mlt M -> Acc mlt (a :: M).
  Proof.
    induction 1 as [a _ IHa]. induction 1 as [M HM IHM]. constructor. intros N (x & M0 & ys & P1 & P2 & L).
    destruct (perm_cons_inv _ _ _ _ P1) as [[<- P3]|(Q & P3 & P4)].
    - (* ys replace a *)
      assert (AM : Acc mlt M0) by (eapply acc_perm; [exact P3|constructor; exact HM]).
      eapply acc_perm; [apply Permutation_sym; exact P2|]. clear P1 P2. induction ys as [|y ys IH]; cbn; [exact AM|].
      apply IHa; [apply L; left; reflexivity|]. apply IH. intros z Hz. apply L. right. exact Hz.
    - (* below a *)
      assert (Z : mlt (ys ++ Q) M) by (exists x, Q, ys; auto).
      eapply acc_perm; [|exact (IHM _ Z)]. apply Permutation_sym. eapply Permutation_trans; [exact P2|].
      eapply Permutation_trans; [apply Permutation_app_head; exact P4|]. apply Permutation_sym. apply Permutation_middle.
  Qed.
  Lemma wf_mlt : well_founded mlt.
  Proof.
    intros l. induction l as [|a l IH]; [|apply acc_cons; auto]. constructor. intros N (x & M & ys & P & _). apply Permutation_nil in P. discriminate.
  Qed.
  Definition below := clos_trans _ mlt.
  Lemma wf_below : well_founded below.
  Proof. apply wf_clos_trans. exact wf_mlt. Qed.
  Lemma below_perm l l1 l2 : below l1 l2 -> Permutation l l1 -> below l l2.
  Proof.
    intros H. revert l. induction H as [l1 l2 (x & M & ys & P1 & P2 & L)|l1 l2 l3 _ IH1 H2 _]; intros l P.
    - apply t_step. exists x, M, ys. split; [auto|]. split; [|auto]. eapply Permutation_trans; eauto.
    - eapply t_trans; [apply IH1; exact P|exact H2].
  Qed.
  Definition beloweq (l1 l2 : list A) : Prop := below l1 l2 \/ Permutation l1 l2.
  Lemma below_trans a b d : below a b -> below b d -> below a d.
  Proof. apply t_trans. Qed.
  Lemma beloweq_below a b d : beloweq a b -> below b d -> below a d.
  Proof. intros [H|H] B; [eapply t_trans; eauto|eapply below_perm; eauto]. Qed.
  Lemma below_step l1 l2 x M ys : Permutation l2 (x :: M) -> Permutation l1 (ys ++ M) -> (forall y, In y ys -> lt y x) -> below l1 l2.
  Proof. intros. apply t_step. exists x, M, ys. auto. Qed.
End Mult.

Section Total.
Context {D : Type}.
Variables (c : dcfg) (fini : nat -> prog D).

(** ** Sub-programs *)
Inductive pend := PP (p : prog D) | PK (k : Z -> prog D).
Inductive sub : pend -> pend -> Prop :=
| sub_do g k d : sub (PP (k d)) (PP (Do g k))
| sub_t1 f k : sub (PP f) (PP (AtThreadExit f k))
| sub_t2 f k : sub (PP k) (PP (AtThreadExit f k))
| sub_p1 f k : sub (PP f) (PP (AtProgramExit f k))
| sub_p2 f k : sub (PP k) (PP (AtProgramExit f k))
| sub_c1 f k : sub (PP f) (PP (CallThread f k))
| sub_c2 f k : sub (PK k) (PP (CallThread f k))
| sub_k k v : sub (PP (k v)) (PK k).
Lemma wf_sub : well_founded sub.
Proof.
  assert (H : forall p, Acc sub (PP p)).
  { induction p; constructor; intros y Hy; inversion Hy; subst; auto. constructor. intros z Hz. inversion Hz; subst; auto. }
  intros [p|k]; [apply H|]. constructor. intros y Hy. inversion Hy; subst. apply H.
Qed.
Local Notation uses := (@uses D c).
Local Notation "a << b" := (below sub a b) (at level 70).
Local Notation "a <<= b" := (beloweq sub a b) (at level 70).

Section Phase.
Variables (ex h : bool).
Hypothesis Hh : ex = true -> h = false.
Hypothesis Hf : ex = true -> forall st u, exists os o, finis c fini (if c_pae c then c_thread c else false) st (nfini c) u os o.

Definition pp (l : list (prog D)) : list pend := map PP l.
Definition stk (u : ust) : Prop := ex = true -> Forall (uses ex) (uts u) /\ Forall (uses ex) (ups u).
Definition adds (u u' : @ust D) : Prop :=
  (exists l, uts u' = l ++ uts u /\ Forall (uses ex) l) /\ (exists l, ups u' = l ++ ups u /\ Forall (uses ex) l).
Lemma adds_refl u : adds u u.
Proof. split; exists []; auto. Qed.
Lemma adds_trans a b d : adds a b -> adds b d -> adds a d.
Proof.
  intros [(l1 & E1 & F1) (l2 & E2 & F2)] [(l3 & E3 & F3) (l4 & E4 & F4)]. split.
  - exists (l3 ++ l1). rewrite E3, E1, app_assoc. split; [reflexivity|]. apply Forall_app. auto.
  - exists (l4 ++ l2). rewrite E4, E2, app_assoc. split; [reflexivity|]. apply Forall_app. auto.
Qed.
Lemma adds_stk u u' : adds u u' -> stk u -> stk u'.
Proof.
  intros [(l1 & E1 & F1) (l2 & E2 & F2)] S X. destruct (S X) as [A B]. rewrite E1, E2. split; apply Forall_app; auto.
Qed.

Definition TA (W : list pend) : Prop := forall p u C, Permutation W (PP p :: pp (uts u) ++ pp (ups u) ++ C) -> uses ex p -> stk u ->
  exists os r, runs c fini h p u os r /\
    match r with Back v u' => adds u u' /\ pp (uts u') ++ pp (ups u') ++ C << W | End _ => True end.
Definition TB (W : list pend) : Prop := forall v u C, Permutation W (pp (uts u) ++ pp (ups u) ++ C) -> Forall (uses ex) (uts u) -> stk u ->
  exists os r, drain c fini h v u os r /\
    match r with Back v' u' => v' = v /\ uts u' = [] /\ (exists l, ups u' = l ++ ups u /\ Forall (uses ex) l) /\ pp (ups u') ++ C <<= W | End _ => True end.
Definition TQ (W : list pend) : Prop := forall st u C, Permutation W (pp (uts u) ++ pp (ups u) ++ C) -> ex = true -> stk u ->
  exists os o, pops c fini h st u os o.

Lemma total_all W : TA W /\ TB W /\ TQ W.
Proof.
  induction W as [W IH] using (well_founded_induction (wf_below sub wf_sub)).
  assert (IA : forall W', W' << W -> TA W') by (intros W' L; apply (IH W' L)).
  assert (IB : forall W', W' << W -> TB W') by (intros W' L; apply (IH W' L)).
  assert (IQ : forall W', W' << W -> TQ W') by (intros W' L; apply (IH W' L)).
  assert (A : TA W).
  { intros p u C PW U SK.
    assert (REM : pp (uts u) ++ pp (ups u) ++ C << W).
    { eapply (below_step sub _ _ _ _ []); [exact PW|apply Permutation_refl|intros y []]. }
    destruct p; cbn [uses] in U.
    - (* Return *) do 2 eexists. split; [apply R_return|]. split; [apply adds_refl|exact REM].
    - (* Do *) destruct (g (ud u)) as [d' o] eqn:G.
      edestruct (IA (PP (k d') :: pp (uts u) ++ pp (ups u) ++ C)) with (p := k d') (u := with_d u d') (C := C) as (os & r & R & X); auto.
      { eapply (below_step sub _ _ _ _ [PP (k d')]); [exact PW|apply Permutation_refl|intros y [<-|[]]; apply sub_do]. }
      do 2 eexists. split; [eapply R_do; eauto|]. destruct r; [|exact Logic.I]. destruct X as [X1 X2]. split; [exact X1|].
      eapply below_trans; [exact X2|]. eapply (below_step sub _ _ _ _ [PP (k d')]); [exact PW|apply Permutation_refl|intros y [<-|[]]; apply sub_do].
    - (* AtThreadExit *) destruct U as (U1 & U2 & U3).
      assert (LT : PP p2 :: pp (p1 :: uts u) ++ pp (ups u) ++ C << W).
      { eapply (below_step sub _ _ _ _ [PP p2; PP p1]); [exact PW|apply Permutation_refl|intros y [<-|[<-|[]]]; constructor]. }
      edestruct (IA _ LT) with (p := p2) (u := with_ts u (p1 :: uts u)) (C := C) as (os & r & R & X); auto.
      { intros E. destruct (SK E). cbn. auto. }
      do 2 eexists. split; [apply R_at_thread_exit; eauto|]. destruct r; [|exact Logic.I]. destruct X as [X1 X2]. split.
      + eapply adds_trans; [|exact X1]. split; [exists [p1]; auto|exists []; auto].
      + eapply below_trans; eauto.
    - (* AtProgramExit *) destruct U as (U0 & U1 & U2 & U3).
      assert (LT : PP p2 :: pp (uts u) ++ pp (p1 :: ups u) ++ C << W).
      { eapply (below_step sub _ _ _ _ [PP p2; PP p1]); [exact PW| |intros y [<-|[<-|[]]]; constructor].
        cbn. apply perm_skip. apply Permutation_sym. apply Permutation_middle. }
      edestruct (IA _ LT) with (p := p2) (u := with_ps u (p1 :: ups u)) (C := C) as (os & r & R & X); auto.
      { intros E. destruct (SK E). cbn. auto. }
      do 2 eexists. split; [apply R_at_program_exit; eauto|]. destruct r; [|exact Logic.I]. destruct X as [X1 X2]. split.
      + eapply adds_trans; [|exact X1]. split; [exists []; auto|exists [p1]; auto].
      + eapply below_trans; eauto.
    - (* CallThread *) destruct U as (U1 & U2 & U3).
      assert (LT : PP p :: pp [] ++ pp (ups u) ++ (PK k :: pp (uts u) ++ C) << W).
      { eapply (below_step sub _ _ _ _ [PP p; PK k]); [exact PW| |intros y [<-|[<-|[]]]; constructor]. cbn. apply perm_skip.
        eapply Permutation_trans; [apply Permutation_sym; apply Permutation_middle|]. apply perm_skip.
        rewrite !app_assoc. apply Permutation_app_tail. apply Permutation_app_comm. }
      edestruct (IA _ LT) with (p := p) (u := with_ts u []) (C := PK k :: pp (uts u) ++ C) as (os & r & R & X); auto.
      { intros E. destruct (SK E). cbn. auto. }
      destruct r as [v u1|o]; [|do 2 eexists; split; [apply R_thread_end; [auto|]; apply T_end; eauto|exact Logic.I]].
      destruct X as [X1 X2]. pose proof (below_trans _ _ _ _ X2 LT) as X3.
      edestruct (IB _ X3) with (v := v) (u := u1) (C := PK k :: pp (uts u) ++ C) as (os2 & r2 & R2 & Y); auto.
      { destruct X1 as [(l & E1 & F1) _]. cbn in E1. rewrite E1, app_nil_r. exact F1. }
      { eapply adds_stk; eauto. intros E. destruct (SK E). cbn. auto. }
      destruct r2 as [v2 u2|o]; [|do 2 eexists; split; [apply R_thread_end; [auto|]; eapply T_run; eauto|exact Logic.I]].
      destruct Y as (-> & Y1 & Y2 & Y3). pose proof (beloweq_below _ _ _ _ Y3 X3) as Y4.
      assert (LT2 : PP (k v) :: pp (uts u) ++ pp (ups u2) ++ C << W).
      { eapply below_trans; [|exact Y4]. eapply (below_step sub _ _ (PK k) (pp (uts u) ++ pp (ups u2) ++ C) [PP (k v)]); [|apply Permutation_refl|intros y [<-|[]]; constructor].
        eapply Permutation_trans; [apply Permutation_sym; apply Permutation_middle|]. apply perm_skip. rewrite !app_assoc. apply Permutation_app_tail. apply Permutation_app_comm. }
      assert (AD : adds u (with_ts u2 (uts u))).
      { destruct X1 as [_ (l1 & E1 & F1)]. destruct Y2 as (l2 & E2 & F2). cbn in E1. split; [exists []; auto|]. exists (l2 ++ l1). cbn. rewrite E2, E1, app_assoc. split; [reflexivity|apply Forall_app; auto]. }
      edestruct (IA _ LT2) with (p := k v) (u := with_ts u2 (uts u)) (C := C) as (os3 & r3 & R3 & Z); auto.
      { eapply adds_stk; eauto. }
      do 2 eexists. split; [eapply R_thread; [auto|eapply T_run; eauto|eauto]|]. destruct r3; [|exact Logic.I]. destruct Z as [Z1 Z2].
      split; [eapply adds_trans; eauto|eapply below_trans; eauto].
    - (* Exit *) destruct (SK U) as [S1 S2].
      edestruct (IB _ REM) with (v := status) (u := u) (C := C) as (os & r & R & X); auto.
      destruct r as [v u1|o]; [|do 2 eexists; split; [apply R_exit; apply X_end; eauto|exact Logic.I]].
      destruct X as (-> & X1 & (l & E2 & F2) & X3).
      assert (LT : pp (uts u1) ++ pp (ups u1) ++ C << W) by (rewrite X1; cbn; eapply beloweq_below; eauto).
      edestruct (IQ _ LT) with (st := status) (u := u1) (C := C) as (os2 & o & R2); auto.
      { intros _. rewrite X1, E2. split; [constructor|apply Forall_app; auto]. }
      do 2 eexists. split; [apply R_exit; eapply X_exit; eauto|exact Logic.I].
    - do 2 eexists. split; [apply R_immediate_exit|exact Logic.I].
    - do 2 eexists. split; [apply R_trap|exact Logic.I]. }
  split; [exact A|]. split.
  - intros v u C PW FU SK. destruct (uts u) as [|f l] eqn:E.
    + do 2 eexists. split; [apply D_nil; exact E|]. split; [reflexivity|]. split; [exact E|]. split; [exists []; auto|right; apply Permutation_sym; exact PW].
    + inversion FU; subst.
      destruct (A f (with_ts u l) C) as (os & r & R & X); auto.
      { intros Ex. destruct (SK Ex). cbn. auto. }
      destruct r as [v1 u1|o]; [|do 2 eexists; split; [eapply D_end; eauto|exact Logic.I]]. destruct X as [X1 X2].
      destruct X1 as [(l1 & E1 & F1) (l2 & E2 & F2)]. cbn in E1, E2.
      edestruct (IB _ X2) with (v := v) (u := u1) (C := C) as (os2 & r2 & R2 & Y); auto.
      { rewrite E1. apply Forall_app. auto. }
      { intros Ex. destruct (SK Ex) as [S1 S2]. rewrite E1, E2. split; apply Forall_app; auto. }
      do 2 eexists. split; [eapply D_fn; eauto|]. destruct r2; [|exact Logic.I]. destruct Y as (-> & Y1 & (l3 & E3 & F3) & Y3).
      split; [reflexivity|]. split; [exact Y1|]. split.
      * exists (l3 ++ l2). rewrite E3, E2, app_assoc. split; [reflexivity|apply Forall_app; auto].
      * left. eapply beloweq_below; eauto.
  - intros st u C PW Ex SK. specialize (Hh Ex). specialize (Hf Ex). destruct (c_pae c) eqn:Ep.
    + destruct (ups u) as [|f l] eqn:E.
      * destruct (Hf st u) as (os & o & F). do 2 eexists. apply P_nil; eauto.
      * destruct (SK Ex) as [S1 S2]. rewrite E in S2. inversion S2; subst.
        destruct (A f (with_ps u l) C) as (os & r & R & X); auto.
        { cbn. eapply Permutation_trans; [exact PW|]. cbn. apply Permutation_sym. apply Permutation_middle. }
        { intros _. cbn. auto. }
        destruct r as [v1 u1|o]; [|do 2 eexists; eapply P_end; eauto]. destruct X as [X1 X2].
        edestruct (IQ _ X2) with (st := st) (u := u1) (C := C) as (os2 & o & R2); auto.
        { eapply adds_stk; eauto. intros _. cbn. auto. }
        do 2 eexists. eapply P_fn; eauto.
    + destruct (Hf st u) as (os & o & F). do 2 eexists. apply P_off; [exact Ep|]. rewrite Hh. exact F.
Qed.
End Phase.

Lemma finis_total : (forall k, uses false (fini k)) -> forall h n st u, exists os o, finis c fini h st n u os o.
Proof.
  intros F h. induction n as [|n IH]; intros st u; [do 2 eexists; apply F_nil|].
  destruct (total_all false h ltac:(discriminate) ltac:(discriminate) (PP (fini n) :: pp (uts u) ++ pp (ups u) ++ [])) as (A & _).
  destruct (A (fini n) u [] (Permutation_refl _) (F n)) as (os & r & R & _); [intros X; discriminate X|].
  destruct r as [v u1|o]; [|do 2 eexists; eapply F_end; eauto]. destruct (IH st u1) as (os2 & o & R2). do 2 eexists. eapply F_fn; eauto.
Qed.

Theorem total main d0 : (forall k, uses false (fini k)) -> uses true main -> exists os o, means c fini main d0 os o.
Proof.
  intros F HU.
  assert (T := fun W => total_all true false (fun _ => eq_refl) (fun _ st u => finis_total F _ _ st u) W).
  destruct (T (PP main :: [])) as (A & _).
  destruct (A main (U d0 [] []) []) as (os & r & R & X); [apply Permutation_refl|exact HU|intros _; cbn; auto|].
  destruct r as [v u|o]; [|do 2 eexists; apply M_end; eauto]. destruct X as [[(l1 & E1 & F1) (l2 & E2 & F2)] _]. cbn in E1, E2. rewrite app_nil_r in *.
  destruct (T (pp (uts u) ++ pp (ups u) ++ [])) as (_ & B & _).
  destruct (B v u []) as (os2 & r2 & R2 & Y); [apply Permutation_refl|subst; auto|intros _; subst; auto|].
  destruct r2 as [v2 u2|o]; [|do 2 eexists; eapply M_return; [eauto|apply X_end; eauto]]. destruct Y as (-> & Y1 & (l3 & E3 & F3) & _).
  destruct (T (pp (uts u2) ++ pp (ups u2) ++ [])) as (_ & _ & Q).
  destruct (Q v u2 []) as (os3 & o & R3); [apply Permutation_refl|reflexivity|intros _; rewrite Y1, E3, E2; split; [constructor|apply Forall_app; auto]|].
  do 2 eexists. eapply M_return; [eauto|eapply X_exit; eauto].
Qed.
End Total.
