(** The same program with a tick printed before every action, used to bound the
    number of actions of a program (for C72). *)
From Coq Require Import ZArith List Bool Lia Arith.
From Verif Require Import Machine LayoutModel ThreadModel ByteModel DtorsModel DtorsFacts DtorsInv DtorsPres ProcModel Props_Proc Props_Byte ScriptModel ScriptSpec ScriptProofs ScriptChain ScriptDet.
Import ListNotations.
Open Scope Z_scope.

Section Tick.
Context {D : Type}.
Definition tick (d : D) : D * list Z := (d, [0]).
Fixpoint T (p : prog D) : prog D :=
  match p with
  | Return v => Do tick (fun _ => Return v)
  | Do g k => Do (fun d => (fst (g d), 0 :: snd (g d))) (fun d => T (k d))
  | AtThreadExit f k => Do tick (fun _ => AtThreadExit (T f) (T k))
  | AtProgramExit f k => Do tick (fun _ => AtProgramExit (T f) (T k))
  | CallThread f k => Do tick (fun _ => CallThread (T f) (fun v => T (k v)))
  | Exit st => Do tick (fun _ => Exit st)
  | ImmediateExit st => Do tick (fun _ => ImmediateExit st)
  | Trap => Do tick (fun _ => Trap)
  end.
Definition Tu (u : @ust D) : ust := U (ud u) (map T (uts u)) (map T (ups u)).
Definition Tr (r : @ures D) : ures := match r with Back v u => Back v (Tu u) | End o => End o end.

Variables (c : dcfg) (fini : nat -> prog D).
Definition tfini (k : nat) : prog D := T (fini k).
Local Notation runs' := (runs c tfini). Local Notation thread' := (thread c tfini). Local Notation drain' := (drain c tfini).
Local Notation exits' := (ScriptSpec.exits c tfini). Local Notation pops' := (pops c tfini). Local Notation finis' := (finis c tfini).

Lemma R_tick h p u os r : runs' h p u os r -> runs' h (Do tick (fun _ => p)) u ([0] ++ os) r.
Proof. intros R. eapply R_do; [reflexivity|]. destruct u; exact R. Qed.

Lemma tick_all : forall h,
  (forall p u os r, runs c fini h p u os r -> exists os', runs' h (T p) (Tu u) os' (Tr r)) /\
  (forall p u os r, thread c fini h p u os r -> exists os', thread' h (T p) (Tu u) os' (Tr r)) /\
  (forall v u os r, drain c fini h v u os r -> exists os', drain' h v (Tu u) os' (Tr r)) /\
  (forall v u os o, ScriptSpec.exits c fini h v u os o -> exists os', exits' h v (Tu u) os' o) /\
  (forall v u os o, pops c fini h v u os o -> exists os', pops' h v (Tu u) os' o) /\
  (forall v n u os o, finis c fini h v n u os o -> exists os', finis' h v n (Tu u) os' o).
Proof.
  apply (script_ind D c fini
    (fun h p u os r => exists os', runs' h (T p) (Tu u) os' (Tr r))
    (fun h p u os r => exists os', thread' h (T p) (Tu u) os' (Tr r))
    (fun h v u os r => exists os', drain' h v (Tu u) os' (Tr r))
    (fun h v u os o => exists os', exits' h v (Tu u) os' o)
    (fun h v u os o => exists os', pops' h v (Tu u) os' o)
    (fun h v n u os o => exists os', finis' h v n (Tu u) os' o)); intros;
    repeat match goal with H : exists _, _ |- _ => destruct H end; cbn [T Tr] in *.
  - eexists. apply R_tick. apply R_return.
  - eexists. eapply R_do; [cbn; rewrite H; reflexivity|]. cbn. eassumption.
  - eexists. apply R_tick. apply R_at_thread_exit; eauto.
  - eexists. apply R_tick. apply R_at_program_exit; eauto.
  - eexists. apply R_tick. eapply R_thread; eauto.
  - eexists. apply R_tick. eapply R_thread_end; eauto.
  - eexists. apply R_tick. eapply R_exit; eauto.
  - eexists. apply R_tick. apply R_immediate_exit.
  - eexists. apply R_tick. apply R_trap.
  - eexists. eapply T_run; eauto.
  - eexists. eapply T_end; eauto.
  - eexists. apply D_nil. cbn. now rewrite H.
  - eexists. eapply D_fn; eauto. cbn. now rewrite H.
  - eexists. eapply D_end; eauto. cbn. now rewrite H.
  - eexists. eapply X_exit; eauto.
  - eexists. eapply X_end; eauto.
  - eexists. eapply P_off; eauto.
  - eexists. eapply P_nil; eauto. cbn. now rewrite H1.
  - eexists. eapply P_fn; eauto. cbn. now rewrite H1.
  - eexists. eapply P_end; eauto. cbn. now rewrite H1.
  - eexists. apply F_nil.
  - eexists. eapply F_fn; eauto.
  - eexists. eapply F_end; eauto.
Qed.
Lemma tick_means main d0 os o : means c fini main d0 os o -> exists os', means c tfini (T main) d0 os' o.
Proof.
  destruct (tick_all false) as (A & _ & _ & B & _). intros [os1 v u os2 o' R X|os' o' R].
  - destruct (A _ _ _ _ R) as (a & R'). destruct (B _ _ _ _ X) as (b & X'). eexists. eapply M_return; eauto.
  - destruct (A _ _ _ _ R) as (a & R'). eexists. eapply M_end; eauto.
Qed.

(** ** The run with ticks *)
Definition Tk (k : ukont D) : ukont D :=
  match k with
  | URun w p => URun w (T p)
  | UJoin w j k => UJoin w j (fun v => T (k v))
  | UWait w j k => UWait w j (fun v => T (k v))
  | UGone => UGone
  end.
Record trel (s : pst) (m m' : mach D) : Prop := {
  tr_k : forall t, konts m' t = map Tk (konts m t);
  tr_r : forall f, (f < nextf (fns s))%nat -> reg m' f = T (reg m f);
  tr_d : data m' = data m }.

(** Actions of user code other than computing. *)
Definition acts (x : pevent) : bool :=
  match x with
  | PFns _ (RegT _ | BeginP _ | Ret _ | ExitCall _ | ImmCall _ | TrapCall) | PReturns _ _ | PCreate _ _ _ => true
  | _ => false
  end.

Variables (main : prog D) (d0 : D) (e : benv).
Local Notation run' := (srun tfini (T main) d0 e c).

(** The tick of the action about to be taken. *)
Lemma do_tick tr s m' t w p r : run' tr s m' -> term (fns s) = None -> in_user (fns s) t -> t_pc (bT (life s) t) = Run ->
  konts m' t = URun w (Do tick (fun _ => p)) :: r ->
  run' tr s (Mach (dupd (konts m') t (URun w p :: r)) (reg m') (data m') (out m' ++ [0])).
Proof. intros R Tm U P K. exact (sr_do tfini (T main) d0 e c tr s m' t w tick (fun _ => p) r R Tm U P K). Qed.

Lemma user_event d t a x d' tr : DtorsInv.inv c tr d -> dstep c d t a = Some (x, d') ->
  match x with RegT _ | BeginP _ | Ret _ | ExitCall _ | ImmCall _ | TrapCall | Spawn _ => True | _ => False end ->
  term d = None /\ in_user d t.
Proof.
  intros I DS X. pose proof (dstep_effect _ _ _ _ _ _ DS) as [ET EL EO _ _ _ _ _ _ _ _ _].
  assert (TN : t <> nthr d).
  { intros ->. destruct (i_new _ _ _ I (nthr d)) as [Y _]; [lia|]. contradiction. }
  specialize (EO TN). split; [exact ET|]. unfold in_user. revert EO. generalize (frames d' t) (frames d t). intros A B F.
  destruct F; try contradiction; eauto.
Qed.

Lemma tick_step tr s m x s' m1 m' : run' tr s m' -> trel s m m' -> pstep e c s x s' -> follows fini m x m1 ->
  exists m1', run' (tr ++ [x]) s' m1' /\ trel s' m1 m1' /\
    (length (out m1') = length (out m') + if acts x then 1 else 0)%nat.
Proof.
  intros R [TK TR TD] St F. pose proof (srun_prun _ _ _ _ _ _ _ _ R) as PR.
  destruct (proj _ _ _ _ PR) as [RB RD]. pose proof (exec_inv _ _ _ RD) as I. pose proof (exec_known _ _ _ RD) as (K1 & K2 & K3).
  assert (NF : nextf (fns s') = match x with PFns _ (RegT _) | PFns _ (BeginP _) => S (nextf (fns s)) | _ => nextf (fns s) end /\
     match x with PFns _ (RegT f) | PFns _ (BeginP f) => f = nextf (fns s) | _ => True end).
  { destruct St as [acc b' Tm B|acc i ins y b' Tm B LO AC|t act y d' DS FO PC|t v d' DS PC UV|acc i ins j b' d' B DS|acc t ins b' d' DS B]; cbn [fns]; auto;
      pose proof (e_nextf _ _ _ _ _ (dstep_effect _ _ _ _ _ _ DS)) as EN; pose proof (e_guard _ _ _ _ _ (dstep_effect _ _ _ _ _ _ DS)) as EG; auto.
    destruct y; auto; destruct EG as [-> _]; auto. }
  destruct NF as [NF NG].
  assert (UE : acts x = true -> forall t, match x with PFns u _ | PReturns u _ | PCreate u _ _ => u = t | _ => False end ->
     term (fns s) = None /\ in_user (fns s) t /\ t_pc (bT (life s) t) = Run).
  { intros A t Et. destruct St as [acc b' Tm B|acc i ins y b' Tm B LO AC|t' act y d' DS FO PC|t' v d' DS PC UV|acc i ins j b' d' B DS|acc t' ins b' d' DS B]; try contradiction; subst.
    - destruct (user_event _ _ _ _ _ _ I DS) as [U1 U2]; auto. destruct y; try discriminate A; exact Logic.I.
    - destruct (user_event _ _ _ _ _ _ I DS Logic.I) as [U1 U2]; auto.
    - destruct (user_event _ _ _ _ _ _ I DS Logic.I) as [U1 U2]; split; [|split]; auto. inversion B; assumption. }
  (* a step that uses no user code *)
  assert (QUIET : m1 = m -> acts x = false -> follows tfini m' x m' -> nextf (fns s') = nextf (fns s) ->
     exists m1', run' (tr ++ [x]) s' m1' /\ trel s' m1 m1' /\ (length (out m1') = length (out m') + if acts x then 1 else 0)%nat).
  { intros -> A F' N. exists m'. split; [eapply sr_step; eauto|]. split; [constructor; auto; rewrite N; auto|rewrite A; lia]. }
  (* the continuation changes, user code is not consulted *)
  assert (KQ : forall m2 t l, m1 = kset m t l -> m2 = kset m' t (map Tk l) -> acts x = false -> follows tfini m' x m2 -> nextf (fns s') = nextf (fns s) ->
     exists m1', run' (tr ++ [x]) s' m1' /\ trel s' m1 m1' /\ (length (out m1') = length (out m') + if acts x then 1 else 0)%nat).
  { intros m2 t l -> -> A F' N. eexists. split; [eapply sr_step; eauto|]. rewrite A. split; [|cbn; lia]. constructor; cbn; auto.
    - intros u. unfold dupd. destruct (Nat.eqb u t); auto.
    - rewrite N; auto. }
  (* the continuation changes after a tick *)
  assert (KT : forall t w p q r m2, konts m t = URun w p :: r -> T p = Do tick (fun _ => q) -> acts x = true ->
     match x with PFns u _ | PReturns u _ | PCreate u _ _ => u = t | _ => False end ->
     follows tfini (Mach (dupd (konts m') t (URun w q :: map Tk r)) (reg m') (data m') (out m' ++ [0])) x m2 ->
     out m2 = out m' ++ [0] -> trel s' m1 m2 ->
     exists m1', run' (tr ++ [x]) s' m1' /\ trel s' m1 m1' /\ (length (out m1') = length (out m') + if acts x then 1 else 0)%nat).
  { intros t w p q r m2 KK TQ A Et F2 O2 RR. destruct (UE A t Et) as (U1 & U2 & U3). exists m2. split; [|split; [exact RR|rewrite A, O2, app_length; cbn; lia]].
    eapply sr_step; [|exact St|exact F2]. apply do_tick with (w := w) (p := q); auto. rewrite TK, KK. cbn. now rewrite TQ. }
  assert (DK : forall t l l' u, konts m t = l' -> dupd (dupd (konts m') t l) t (map Tk l') u = map Tk (konts m u)).
  { intros t l l' u E. unfold dupd. destruct (Nat.eqb_spec u t) as [->|]; [now rewrite E|apply TK]. }
  inversion F; subst.
  - apply QUIET; auto. constructor.
  - eapply KQ; try reflexivity; auto. cbn [map Tk]. eapply f_calljoin. rewrite TK, H. reflexivity.
  - eapply KQ; try reflexivity; auto. cbn [map Tk]. refine (f_join _ _ _ _ _ _ _ (fun v => T (k v)) _ _). rewrite TK, H. reflexivity.
  - apply QUIET; auto. apply f_life; auto.
  - eapply KT; [exact H|reflexivity|reflexivity|reflexivity|apply f_regt; cbn; apply dupd_eq|reflexivity|]. constructor; cbn; auto.
    + intros u. unfold dupd. destruct (Nat.eqb u t); [reflexivity|apply TK].
    + intros f' Hf. rewrite NF in Hf. unfold dupd. destruct (Nat.eqb_spec f' f) as [->|]; [reflexivity|]. apply TR. lia.
  - eapply KT; [exact H|reflexivity|reflexivity|reflexivity|apply f_regp; cbn; apply dupd_eq|reflexivity|]. constructor; cbn; auto.
    + intros u. unfold dupd. destruct (Nat.eqb u t); [reflexivity|apply TK].
    + intros f' Hf. rewrite NF in Hf. unfold dupd. destruct (Nat.eqb_spec f' f) as [->|]; [reflexivity|]. apply TR. lia.
  - assert (KF : (f < nextf (fns s))%nat).
    { inversion St as [| |t' act y d' DS FO PC| | |]; subst. pose proof (e_guard _ _ _ _ _ (dstep_effect _ _ _ _ _ _ DS)) as [l El]. eapply K1. rewrite El. left. reflexivity. }
    eapply KQ; try reflexivity; auto. cbn [map Tk]. rewrite <- (TR f KF), <- TK. apply f_callt.
  - assert (KF : (f < nextf (fns s))%nat).
    { inversion St as [| |t' act y d' DS FO PC| | |]; subst. pose proof (dstep_effect _ _ _ _ _ _ DS) as [_ EL EO _ _ _ _ _ _ _ _ _].
      assert (TN : t <> nthr (fns s)).
      { intros ->. destruct (i_new _ _ _ I (nthr (fns s))) as [Y _]; [lia|]. contradiction. }
      specialize (EO TN). specialize (K3 t). revert EO K3. generalize (frames d' t) (frames (fns s) t). intros A B FF KK.
      inversion FF; subst. eapply KK; [left; reflexivity|left; reflexivity]. }
    eapply KQ; try reflexivity; auto. cbn [map Tk]. rewrite <- (TR f KF), <- TK. apply f_callp.
  - eapply KQ; try reflexivity; auto. cbn [map Tk]. rewrite <- TK. change (T (fini k)) with (tfini k). apply f_callf.
  - eapply KT; [exact H|reflexivity|reflexivity|reflexivity|eapply f_ret; cbn; apply dupd_eq|reflexivity|]. constructor; cbn; auto.
    + intros u. unfold dupd. destruct (Nat.eqb u t); [reflexivity|apply TK].
    + rewrite NF. auto.
  - eapply KT; [exact H|reflexivity|reflexivity|reflexivity|eapply f_exit; cbn; apply dupd_eq|reflexivity|]. constructor; cbn; auto.
    + intros u. unfold dupd. destruct (Nat.eqb u t); [reflexivity|apply TK].
    + rewrite NF. auto.
  - eapply KT; [exact H|reflexivity|reflexivity|reflexivity|eapply f_main; cbn; apply dupd_eq|reflexivity|]. constructor; cbn; auto.
    + intros u. unfold dupd. destruct (Nat.eqb u t); [reflexivity|apply TK].
    + rewrite NF. auto.
  - eapply KT; [exact H|reflexivity|reflexivity|reflexivity|eapply f_imm; cbn; apply dupd_eq|reflexivity|]. constructor; cbn; auto.
    + intros u. unfold dupd. destruct (Nat.eqb u t); [reflexivity|apply TK].
    + rewrite NF. auto.
  - eapply KT; [exact H|reflexivity|reflexivity|reflexivity|eapply f_trap; cbn; apply dupd_eq|reflexivity|]. constructor; cbn; auto.
    + intros u. unfold dupd. destruct (Nat.eqb u t); [reflexivity|apply TK].
    + rewrite NF. auto.
  - apply QUIET; auto; [destruct x0; try contradiction; reflexivity|apply f_fns; auto|rewrite NF; destruct x0; try contradiction; reflexivity].
  - eapply KT; [exact H|reflexivity|reflexivity|reflexivity|eapply f_returns; cbn; apply dupd_eq|reflexivity|]. constructor; cbn; auto.
    + intros u. unfold dupd. destruct (Nat.eqb u t); [reflexivity|apply TK].
    + rewrite NF. auto.
  - eapply KT; [exact H|reflexivity|reflexivity|reflexivity|eapply f_create; cbn; apply dupd_eq|reflexivity|]. constructor; cbn; auto.
    + intros u. unfold dupd. destruct (Nat.eqb u j); [reflexivity|]. destruct (Nat.eqb u i); [reflexivity|apply TK].
    + rewrite NF. auto.
  - apply QUIET; auto. constructor.
Qed.

Lemma tick_do tr s m t w g k r m' : run' tr s m' -> trel s m m' -> term (fns s) = None -> in_user (fns s) t -> t_pc (bT (life s) t) = Run ->
  konts m t = URun w (Do g k) :: r ->
  exists m1', run' tr s m1' /\
    trel s (Mach (dupd (konts m) t (URun w (k (fst (g (data m)))) :: r)) (reg m) (fst (g (data m))) (out m ++ snd (g (data m)))) m1' /\
    (length (out m') + 1 <= length (out m1'))%nat.
Proof.
  intros R [TK TR TD] Tm U P K. pose proof (TK t) as Q. rewrite K in Q. cbn in Q. eexists. split; [eapply sr_do; eauto|]. cbn. split.
  - constructor; cbn.
    + intros u. unfold dupd. destruct (Nat.eqb u t); [now rewrite TD|apply TK].
    + exact TR.
    + now rewrite TD.
  - rewrite app_length. cbn. lia.
Qed.
End Tick.
