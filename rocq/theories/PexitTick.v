(** A program that also prints a tick with every action bounds the number of
    actions of a parallel program (for C83). *)
From Coq Require Import ZArith List Bool Lia Arith Permutation.
From Verif Require Import Machine LayoutModel ThreadModel FairCore ByteModel DtorsModel DtorsFacts DtorsInv DtorsPres ExitFairSpec ProcModel Props_Proc Props_Byte ScriptProofs ForkProofs ForkPc PexitModel PexitSpec PexitProofs PexitAll PexitPc.
Import ListNotations.
Open Scope Z_scope.

Fixpoint QT (p : qprog) : qprog :=
  match p with
  | QReturn v => QPrint 0 (QReturn v)
  | QPrint z k => QPrint z (QT k)
  | QAtThreadExit f k => QPrint 0 (QAtThreadExit (QT f) (QT k))
  | QAtExit f k => QPrint 0 (QAtExit (QT f) (QT k))
  | QCreate f k => QPrint 0 (QCreate (QT f) (QT k))
  | QJoin n k => QJoin n (fun v => QPrint 0 (QT (k v)))
  | QDetach n k => QDetach n (QPrint 0 (QT k))
  end.
Definition QTa (a : act) : act := Act (a_who a) (QT (a_prog a)) (PexitModel.a_kids a).

Section Tick.
Variables (c : dcfg) (fini : nat -> qprog) (main : qprog) (e : benv).
Definition ftfini (k : nat) : qprog := QT (fini k).
Record ftrel (s : pst) (m m' : qmach) : Prop := {
  tk_a : forall t, acts m' t = option_map QTa (acts m t);
  tk_r : forall f, (f < nextf (fns s))%nat -> freg m' f = QT (freg m f) }.

(** Actions of user code other than printing. *)
Definition facts (x : pevent) : bool :=
  match x with
  | PFns _ (RegT _ | BeginP _ | Ret _ | ExitCall _) | PReturns _ _ | PCreate _ _ _ | PLife (_, _, (EJoin _ _ | EDetach _)) => true
  | _ => false
  end.
Local Notation run' := (qrun ftfini (QT main) e c).

Lemma user_evt d t a x d' tr : DtorsInv.inv c tr d -> dstep c d t a = Some (x, d') ->
  match x with RegT _ | BeginP _ | Ret _ | ExitCall _ | Spawn _ => True | _ => False end -> term d = None /\ in_user d t.
Proof.
  intros I DS X. pose proof (dstep_effect _ _ _ _ _ _ DS) as [ET EL EO _ _ _ _ _ _ _ _ _].
  assert (TN : t <> nthr d).
  { intros ->. destruct (i_new _ _ _ I (nthr d)) as [Y _]; [lia|]. contradiction. }
  specialize (EO TN). split; [exact ET|]. unfold in_user. revert EO. generalize (frames d' t) (frames d t). intros A B F.
  destruct F; try contradiction; eauto.
Qed.

Lemma back_pc b acc i ins y b' : bstep e b acc (Some (i, ins, y)) b' -> (exists j, (exists v, y = EJoin j v) \/ y = EDetach j) -> t_pc (bT b i) <> Run.
Proof. intros B (j & [(v & ->)| ->]) X; inversion B; subst; congruence. Qed.
Lemma ftick_step tr s m x s' m1 m' : good_env e -> run' tr s m' -> ftrel s m m' -> pstep e c s x s' -> qollows fini m x m1 ->
  exists m1', run' (tr ++ [x]) s' m1' /\ ftrel s' m1 m1' /\
    (length (fout m1') = length (fout m') + if facts x then 1 else 0)%nat.
Proof.
  intros Ge R [TK TR] St F. pose proof (frun_prun _ _ _ _ _ _ _ R) as PR.
  destruct (proj _ _ _ _ PR) as [RB RD]. pose proof (exec_inv _ _ _ RD) as I. pose proof (fexec_known _ _ _ RD) as (K1 & K2 & K3).
  pose proof (frun_user c ftfini (QT main) e tr s m' Ge R) as WA0.
  assert (WA : forall t, acts m' t <> None -> t_pc (bT (life s) t) <> Run -> in_user (fns s) t) .
  { intros t A NR. eapply user_now; eauto. intros fr l E. destruct (isreg fr) eqn:X; [|reflexivity]. exfalso. apply NR. eapply reg_run; eauto. }
  assert (NF : nextf (fns s') = match x with PFns _ (RegT _) | PFns _ (BeginP _) => S (nextf (fns s)) | _ => nextf (fns s) end /\
     match x with PFns _ (RegT f) | PFns _ (BeginP f) => f = nextf (fns s) | _ => True end).
  { destruct St as [acc b' Tm B|acc i ins y b' Tm B LO AC|t act y d' DS FO PC|t v d' DS PC UV|acc i ins j b' d' B DS|acc t ins b' d' DS B]; cbn [fns]; auto;
      pose proof (e_nextf _ _ _ _ _ (dstep_effect _ _ _ _ _ _ DS)) as EN; pose proof (e_guard _ _ _ _ _ (dstep_effect _ _ _ _ _ _ DS)) as EG; auto.
    destruct y; auto; destruct EG as [-> _]; auto. }
  destruct NF as [NF NG].
  assert (UE : forall t, match x with PFns u (RegT _ | BeginP _ | Ret _ | ExitCall _) | PReturns u _ | PCreate u _ _ => u = t | _ => False end ->
     term (fns s) = None /\ in_user (fns s) t /\ t_pc (bT (life s) t) = Run).
  { intros t Et. destruct St as [acc b' Tm B|acc i ins y b' Tm B LO AC|t' act y d' DS FO PC|t' v d' DS PC UV|acc i ins j b' d' B DS|acc t' ins b' d' DS B]; try contradiction; subst.
    - destruct (user_evt _ _ _ _ _ _ I DS) as [U1 U2]; destruct y; try contradiction; try exact Logic.I; subst; auto.
    - destruct (user_evt _ _ _ _ _ _ I DS Logic.I) as [U1 U2]; auto.
    - destruct (user_evt _ _ _ _ _ _ I DS Logic.I) as [U1 U2]; split; [|split]; auto. inversion B; assumption. }
  (* a step that uses no user code *)
  assert (QUIET : m1 = m -> facts x = false -> qollows ftfini m' x m' -> nextf (fns s') = nextf (fns s) ->
     exists m1', run' (tr ++ [x]) s' m1' /\ ftrel s' m1 m1' /\ (length (fout m1') = length (fout m') + if facts x then 1 else 0)%nat).
  { intros -> A F' N. exists m'. split; [eapply qr_step; eauto|]. split; [constructor; auto; rewrite N; auto|rewrite A; lia]. }
  (* a new activation *)
  assert (KQ : forall m2 t a, m1 = aset m t (Some a) -> m2 = aset m' t (Some (QTa a)) -> facts x = false -> qollows ftfini m' x m2 -> nextf (fns s') = nextf (fns s) ->
     exists m1', run' (tr ++ [x]) s' m1' /\ ftrel s' m1 m1' /\ (length (fout m1') = length (fout m') + if facts x then 1 else 0)%nat).
  { intros m2 t a -> -> A F' N. eexists. split; [eapply qr_step; eauto|]. rewrite A. split; [|cbn; lia]. constructor; cbn; auto.
    - intros u. unfold dupd. destruct (Nat.eqb u t); auto.
    - rewrite N; auto. }
  (* an action after a tick *)
  assert (KT : forall t w p q hs m2, acts m t = Some (Act w p hs) -> QT p = QPrint 0 q -> facts x = true ->
     match x with PFns u (RegT _ | BeginP _ | Ret _ | ExitCall _) | PReturns u _ | PCreate u _ _ => u = t | _ => False end ->
     qollows ftfini (oput (aset m' t (Some (Act w q hs))) t 0) x m2 ->
     fout m2 = fout m' ++ [(t, 0)] -> ftrel s' m1 m2 ->
     exists m1', run' (tr ++ [x]) s' m1' /\ ftrel s' m1 m1' /\ (length (fout m1') = length (fout m') + if facts x then 1 else 0)%nat).
  { intros t w p q hs m2 KK TQ A Et F2 O2 RR. destruct (UE t Et) as (U1 & U2 & U3). exists m2. split; [|split; [exact RR|rewrite A, O2, app_length; cbn; lia]].
    eapply qr_step; [|exact St|exact F2]. apply qr_print; auto. rewrite TK, KK. unfold option_map, QTa. cbn [a_who a_prog PexitModel.a_kids]. now rewrite TQ. }
  (* an action before a tick *)
  assert (KL : forall i w q hs m2, fns s' = fns s -> term (fns s) = None -> acts m' i <> None -> t_pc (bT (life s) i) <> Run -> t_pc (bT (life s') i) = Run ->
     m2 = aset m' i (Some (Act w (QPrint 0 (QT q)) hs)) -> qollows ftfini m' x m2 -> facts x = true -> m1 = aset m i (Some (Act w q hs)) ->
     exists m1', run' (tr ++ [x]) s' m1' /\ ftrel s' m1 m1' /\ (length (fout m1') = length (fout m') + if facts x then 1 else 0)%nat).
  { intros i w q hs m2 Ef Tm AA NR PC Em2 G FX ->. exists (oput (aset m2 i (Some (Act w (QT q) hs))) i 0). split; [|split].
    - apply qr_print; [eapply qr_step; eauto|congruence|rewrite Ef; apply WA; [exact AA|exact NR]|exact PC|]. subst m2. cbn. apply dupd_eq.
    - subst m2. constructor; cbn.
      + intros u. unfold dupd. destruct (Nat.eqb u i); [reflexivity|apply TK].
      + intros f Hf. apply TR. rewrite <- Ef. exact Hf.
    - subst m2. rewrite FX. cbn. rewrite app_length. cbn. lia. }
  inversion F; subst.
  - apply QUIET; auto. constructor.
  - apply QUIET; auto. eapply q_calljoin; [rewrite TK, H; reflexivity|exact H0].
  - inversion St as [|acc0 i0 ins0 y b' Tm B LO AC| | | |]; subst. pose proof (fpc_step _ _ _ _ _ i B) as [P1 _].
    eapply (KL i w (k v) hs); try reflexivity; cbn [fns life]; auto; [rewrite TK, H; discriminate|eapply back_pc; [exact B|eauto]|].
    refine (q_join _ _ _ _ _ _ (fun v => QPrint 0 (QT (k v))) _ _ _ _ H0). rewrite TK, H. reflexivity.
  - apply QUIET; auto. eapply q_calldetach; [rewrite TK, H; reflexivity|exact H0].
  - inversion St as [|acc0 i0 ins0 y b' Tm B LO AC| | | |]; subst. pose proof (fpc_step _ _ _ _ _ i B) as [P1 _].
    eapply (KL i w k hs); try reflexivity; cbn [fns life]; auto; [rewrite TK, H; discriminate|eapply back_pc; [exact B|eauto]|].
    eapply q_detach; [|exact H0]. rewrite TK, H. reflexivity.
  - apply QUIET; auto; [|apply q_life; auto]. cbn. destruct x0; auto; exfalso; match goal with A : forall _, _ |- _ => eapply A; reflexivity end.
  - eapply KT; [exact H|reflexivity|reflexivity|reflexivity|apply q_regt; cbn; apply dupd_eq|reflexivity|]. constructor; cbn; auto.
    + intros u. unfold dupd. destruct (Nat.eqb u t); [reflexivity|apply TK].
    + intros f' Hf. rewrite NF in Hf. unfold dupd. destruct (Nat.eqb_spec f' f) as [->|]; [reflexivity|]. apply TR. lia.
  - eapply KT; [exact H|reflexivity|reflexivity|reflexivity|eapply q_begp; cbn; apply dupd_eq|reflexivity|]. constructor; cbn; auto.
    + intros u. unfold dupd. destruct (Nat.eqb u t); [reflexivity|apply TK].
    + intros f' Hf. rewrite NF in Hf. unfold dupd. destruct (Nat.eqb_spec f' f) as [->|]; [reflexivity|]. apply TR. lia.
  - assert (KF : (f < nextf (fns s))%nat).
    { inversion St as [| |t' act y d' DS FO PC| | |]; subst. apply dstep_inv in DS as [_ DS]. inversion DS; subst; (match goal with E : frames (fns s) _ = _ :: _ |- _ => eapply (K3 _ (FX _ (XCall f))); [rewrite E; left; reflexivity|left; reflexivity] end). }
    eapply KQ; try reflexivity; auto. unfold QTa; cbn [a_who a_prog PexitModel.a_kids]. rewrite <- (TR f KF). apply q_callp.
  - assert (KF : (f < nextf (fns s))%nat).
    { inversion St as [| |t' act y d' DS FO PC| | |]; subst. pose proof (e_guard _ _ _ _ _ (dstep_effect _ _ _ _ _ _ DS)) as [l El]. eapply K1. rewrite El. left. reflexivity. }
    eapply KQ; try reflexivity; auto. unfold QTa; cbn [a_who a_prog PexitModel.a_kids]. rewrite <- (TR f KF). apply q_callt.
  - eapply KQ; try reflexivity; auto. unfold QTa; cbn [a_who a_prog PexitModel.a_kids]. change (QT (fini k)) with (ftfini k). apply q_callf.
  - eapply KT; [exact H|reflexivity|reflexivity|reflexivity|eapply q_ret; cbn; apply dupd_eq|reflexivity|]. constructor; cbn; auto.
    + intros u. unfold dupd. destruct (Nat.eqb u t); [reflexivity|apply TK].
    + rewrite NF. auto.
  - eapply KT; [exact H|reflexivity|reflexivity|reflexivity|eapply q_main; cbn; apply dupd_eq|reflexivity|]. constructor; cbn; auto.
    + intros u. unfold dupd. destruct (Nat.eqb u t); [reflexivity|apply TK].
    + rewrite NF. auto.
  - apply QUIET; auto; [destruct x0; try contradiction; reflexivity|apply q_fns; auto|rewrite NF; destruct x0; try contradiction; reflexivity].
  - eapply KT; [exact H|reflexivity|reflexivity|reflexivity|eapply q_returns; cbn; apply dupd_eq|reflexivity|]. constructor; cbn; auto.
    + intros u. unfold dupd. destruct (Nat.eqb u t); [reflexivity|apply TK].
    + rewrite NF. auto.
  - eapply KT; [exact H|reflexivity|reflexivity|reflexivity|eapply q_create; cbn; apply dupd_eq|reflexivity|]. constructor; cbn; auto.
    + intros u. unfold dupd. destruct (Nat.eqb u j); [reflexivity|]. destruct (Nat.eqb u i); [reflexivity|apply TK].
    + rewrite NF. auto.
  - apply QUIET; auto. constructor.
Qed.

Lemma ftick_print tr s m t w z k hs m' : run' tr s m' -> ftrel s m m' -> term (fns s) = None -> in_user (fns s) t -> t_pc (bT (life s) t) = Run ->
  acts m t = Some (Act w (QPrint z k) hs) ->
  exists m1', run' tr s m1' /\ ftrel s (oput (aset m t (Some (Act w k hs))) t z) m1' /\ (length (fout m1') = length (fout m') + 1)%nat.
Proof.
  intros R [TK TR] Tm U P K. pose proof (TK t) as Q. rewrite K in Q. unfold option_map, QTa in Q. cbn in Q. eexists. split; [eapply qr_print; eauto|]. split.
  - constructor; cbn; [|exact TR]. intros u. unfold dupd. destruct (Nat.eqb u t); [reflexivity|apply TK].
  - cbn. rewrite app_length. reflexivity.
Qed.

Lemma tick_bound tr s m' : good_env e -> run' tr s m' -> (length (fout m') <= length (total Early (QT main) [] ++ fini_total ftfini (fini_entries c)))%nat.
Proof.
  intros Ge R. destruct (arun_inv c ftfini e (QT main) tr s m' Ge R) as [g V]. pose proof (a_perm _ _ _ _ _ _ _ V) as P.
  apply Permutation_length in P. rewrite <- P, app_length, map_length. lia.
Qed.
End Tick.
