(** What is left of a scripted program in each state of the model, and that no
    step changes it (for C71). *)
From Coq Require Import ZArith List Bool Lia Arith.
From Verif Require Import Machine LayoutModel ThreadModel ByteModel DtorsModel DtorsFacts DtorsInv DtorsPres ProcModel Props_Proc Props_Byte ScriptModel ScriptSpec.
Import ListNotations.
Open Scope Z_scope.

(** ** Registered functions are known *)
Definition ffids (fr : frame) : list fid :=
  match fr with FLock f | FPush f | FX _ (XUnlock f) | FX _ (XCall f) => [f] | _ => [] end.
Definition known (s : dst) : Prop :=
  (forall t f, In f (tdt s t) -> (f < nextf s)%nat) /\ (forall f, In f (pdt s) -> (f < nextf s)%nat) /\
  (forall t fr f, In fr (frames s t) -> In f (ffids fr) -> (f < nextf s)%nat).

Lemma known_step c tr s t a x s' : DtorsInv.inv c tr s -> known s -> dstep c s t a = Some (x, s') -> known s'.
Proof.
  intros I (K1 & K2 & K3) H. pose proof (dstep_effect _ _ _ _ _ _ H) as [_ EL EO EF ET EP _ EN _ _ EG _].
  assert (TN : t <> nthr s).
  { intros ->. destruct (i_new _ _ _ I (nthr s)) as [X _]; [lia|]. contradiction. }
  specialize (EO TN). pose proof (K3 t) as K3t.
  assert (NL : (nextf s <= nextf s')%nat) by (rewrite EN; destruct x; lia).
  split; [|split].
  - intros u f Hf. rewrite ET in Hf. rewrite EN.
    destruct x; try (apply (K1 u); exact Hf); try (apply Nat.lt_lt_succ_r; apply (K1 u); exact Hf);
      try (destruct (Nat.eqb_spec u t) as [->|]; [|first [apply (K1 u); exact Hf|apply Nat.lt_lt_succ_r; apply (K1 u); exact Hf]]).
    + destruct EG as [-> _]. destruct Hf as [<-|Hf]; [lia|]. specialize (K1 _ _ Hf). lia.
    + apply (K1 t). destruct (tdt s t); [destruct Hf|right; exact Hf].
    + destruct (Nat.eqb_spec u u0) as [->|]; [destruct Hf|apply (K1 u); exact Hf].
  - intros f Hf. rewrite EP in Hf. cut (f < nextf s)%nat; [lia|]. destruct x; try (apply K2; exact Hf).
    + destruct Hf as [<-|Hf]; [|apply K2; exact Hf]. inversion EO; subst.
      eapply K3t; [match goal with E : _ = frames s t |- _ => rewrite <- E end; left; reflexivity|left; reflexivity].
    + apply K2. destruct (pdt s); [destruct Hf|right; exact Hf].
  - intros u fr f Hfr Hf. destruct (Nat.eq_dec u t) as [->|NE].
    + inversion EO; subst;
        repeat match goal with E : _ = frames s t |- _ => rewrite <- E in * | E : _ = frames s' t |- _ => rewrite <- E in * end;
        cbn [In] in Hfr; repeat match goal with H : _ \/ _ |- _ => destruct H as [<-|H] end; cbn [ffids In] in Hf;
        try contradiction;
        try (destruct Hf as [<-|[]]);
        try (eapply Nat.lt_le_trans; [|exact NL]; eapply K3t; [left; reflexivity|cbn [ffids In]; auto; fail]);
        try (eapply Nat.lt_le_trans; [|exact NL]; eapply K3t; [right; eassumption|assumption]);
        try (eapply Nat.lt_le_trans; [|exact NL]; eapply K3t; [left; reflexivity|assumption]);
        try (eapply Nat.lt_le_trans; [|exact NL]; eapply K3t; [eassumption|assumption]).
      * destruct EG as [-> _]. rewrite EN. lia.
      * unfold first_phase, after_t in Hf. destruct (c_tae c), (c_pae c); destruct Hf.
      * unfold first_phase, after_t in Hf. destruct (c_tae c), (c_pae c); destruct Hf.
      * unfold after_t in Hf. destruct (c_pae c); destruct Hf.
      * eapply Nat.lt_le_trans; [|exact NL]. destruct EG as [l El]. apply K2. rewrite El. left. reflexivity.
    + rewrite (EF u NE) in Hfr. cut (f < nextf s)%nat; [lia|].
      destruct x; try (eapply (K3 u); eauto; fail). destruct (Nat.eqb_spec u u0); [|eapply (K3 u); eauto].
      destruct Hfr as [<-|[]]. destruct Hf.
Qed.

Section Script.
Context {D : Type}.
Variables (c : dcfg) (fini : nat -> prog D).
Local Notation runs := (runs c fini). Local Notation thread := (thread c fini). Local Notation drain := (drain c fini).
Local Notation exits := (ScriptSpec.exits c fini). Local Notation pops := (pops c fini). Local Notation finis := (finis c fini).

(** What is left of [main]. *)
Definition mains (h : bool) (p : prog D) (u : ust) (os : list Z) (o : outcome) : Prop :=
  runs h p u os (End o) \/ exists os1 v u1 os2, os = os1 ++ os2 /\ runs h p u os1 (Back v u1) /\ exits h v u1 os2 o.

(** What is left of a thread with these frames; [fv]: what its function returned. *)
Inductive feval (reg : fid -> prog D) (h : bool) (fv : Z) : list frame -> list (ukont D) -> ust -> list Z -> ures -> Prop :=
| E_done u : feval reg h fv [] [] u [] (Back fv u)
| E_fn w p fs ks u os1 v u1 os2 r : w <> WMain -> w <> WThread -> runs h p u os1 (Back v u1) ->
    feval reg h fv fs ks u1 os2 r -> feval reg h fv (FUser w :: fs) (URun w p :: ks) u (os1 ++ os2) r
| E_fn_end w p fs ks u os o : w <> WMain -> w <> WThread -> runs h p u os (End o) ->
    feval reg h fv (FUser w :: fs) (URun w p :: ks) u os (End o)
| E_thread p u os r : thread h p u os r -> feval reg h fv [FUser WThread] [URun WThread p] u os r
| E_main p fs ks u os o : mains h p u os o -> feval reg h fv (FUser WMain :: fs) (URun WMain p :: ks) u os (End o)
| E_lock f fs ks u os r : h = false -> feval reg h fv fs ks (with_ps u (reg f :: ups u)) os r ->
    feval reg h fv (FLock f :: fs) ks u os r
| E_push f fs ks u os r : feval reg h fv fs ks (with_ps u (reg f :: ups u)) os r ->
    feval reg h fv (FPush f :: fs) ks u os r
| E_unlock fs ks u os r : feval reg h fv fs ks u os r -> feval reg h fv (FUnlock :: fs) ks u os r
| E_dtors u os r : drain h fv u os r -> feval reg h fv [FDtors] [] u os r
| E_xt st fs ks u os o : exits h st u os o -> feval reg h fv (FX st XT :: fs) ks u os (End o)
| E_xlock st fs ks u os o : c_pae c = true -> pops h st u os o -> feval reg h fv (FX st XLock :: fs) ks u os (End o)
| E_xpop st fs ks u os o : c_pae c = true -> pops h st u os o -> feval reg h fv (FX st XPop :: fs) ks u os (End o)
| E_xunlock st f fs ks u os o : c_pae c = true -> pops h st (with_ps u (reg f :: ups u)) os o ->
    feval reg h fv (FX st (XUnlock f) :: fs) ks u os (End o)
| E_xcall st f fs ks u os o : c_pae c = true -> pops h st (with_ps u (reg f :: ups u)) os o ->
    feval reg h fv (FX st (XCall f) :: fs) ks u os (End o)
| E_xfini st n fs ks u os o : finis h st n u os o -> feval reg h fv (FX st (XFini n) :: fs) ks u os (End o)
| E_imm st fs ks u : feval reg h fv (FImm st :: fs) ks u [] (End (Exited st))
| E_trap fs ks u : feval reg h fv (FTrap :: fs) ks u [] (End (Killed (trap_signal (c_arch c)))).

Lemma feval_reg reg reg' h fv fs ks u os r : (forall fr f, In fr fs -> In f (ffids fr) -> reg' f = reg f) ->
  feval reg h fv fs ks u os r -> feval reg' h fv fs ks u os r.
Proof.
  intros E H. induction H; try (econstructor; eauto; fail).
  - econstructor; eauto. apply IHfeval. intros fr f Hi. apply E. right. exact Hi.
  - econstructor; eauto. rewrite (E (FLock f) f) by (cbn; auto). apply IHfeval. intros fr f' Hi. apply E. right. exact Hi.
  - econstructor; eauto. rewrite (E (FPush f) f) by (cbn; auto). apply IHfeval. intros fr f' Hi. apply E. right. exact Hi.
  - econstructor; eauto. apply IHfeval. intros fr f' Hi. apply E. right. exact Hi.
  - econstructor; eauto. now rewrite (E (FX st (XUnlock f)) f) by (cbn; auto).
  - econstructor; eauto. now rewrite (E (FX st (XCall f)) f) by (cbn; auto).
Qed.

Definition ustof (s : dst) (m : mach D) (t : nat) : ust := U (data m) (map (reg m) (tdt s t)) (map (reg m) (pdt s)).

Lemma exit_feval tr s m t reg' h fv st fs ks os o : DtorsInv.inv c tr s -> exits h st (ustof s m t) os o ->
  feval reg' h fv (FX st (first_phase c) :: fs) ks (ustof s m t) os (End o).
Proof.
  intros I X. unfold first_phase. destruct (c_tae c) eqn:Et; [constructor; exact X|].
  pose proof (i_tae _ _ _ I Et t) as E0.
  assert (N : uts (ustof s m t) = []) by (unfold ustof; cbn; now rewrite E0).
  assert (P : pops h st (ustof s m t) os o).
  { inversion X as [st' u os1 u1 os2 o' H H0|st' u os' o' H]; subst; inversion H; subst; try congruence. exact H0. }
  unfold after_t. destruct (c_pae c) eqn:Ep; [constructor; auto|]. inversion P; subst; try congruence. constructor. assumption.
Qed.

Lemma map_dupd (f : fid -> prog D) i q l : (forall x, In x l -> (x < i)%nat) -> map (dupd f i q) l = map f l.
Proof. intros H. apply map_ext_in. intros x Hx. unfold dupd. destruct (Nat.eqb_spec x i); [specialize (H x Hx); lia|reflexivity]. Qed.

(** User code at the top of the stack. *)
Lemma user_swap reg reg' h fv w p p' fs ks u u' os r :
  (forall fr f, In fr fs -> In f (ffids fr) -> reg' f = reg f) ->
  (forall os r, runs h p u os r -> runs h p' u' os r) ->
  feval reg h fv (FUser w :: fs) (URun w p :: ks) u os r -> feval reg' h fv (FUser w :: fs) (URun w p' :: ks) u' os r.
Proof.
  intros RE S E. inversion E; subst.
  - econstructor; eauto. eapply feval_reg; eauto.
  - econstructor; eauto.
  - match goal with H : thread _ _ _ _ _ |- _ => inversion H; subst end; apply E_thread; [eapply T_run; eauto|apply T_end; eauto].
  - apply E_main. unfold mains. match goal with H : mains _ _ _ _ _ |- _ => destruct H as [H|(o1 & v & u1 & o2 & -> & H & X)] end; [left; eauto|right].
    exists o1, v, u1, o2. eauto.
Qed.
Lemma user_runs reg h fv w w' p fs ks u os r : feval reg h fv (FUser w :: fs) (URun w' p :: ks) u os r ->
  w = w' /\ exists os' r', runs h p u os' r'.
Proof.
  intros E. inversion E; subst; eauto.
  - match goal with H : thread _ _ _ _ _ |- _ => inversion H; subst end; eauto.
  - match goal with H : mains _ _ _ _ _ |- _ => destruct H as [H|(o1 & v & u1 & o2 & -> & H & X)] end; eauto.
Qed.
Lemma user_exit reg h fv w w' p fs ks u os r : (forall os1 v u1, ~ runs h p u os1 (Back v u1)) ->
  feval reg h fv (FUser w :: fs) (URun w' p :: ks) u os r -> exists o, r = End o /\ runs h p u os (End o).
Proof.
  intros N E. inversion E; subst; try (edestruct N; eauto; fail); eauto.
  - match goal with H : thread _ _ _ _ _ |- _ => inversion H; subst end; [edestruct N; eauto|eauto].
  - match goal with H : mains _ _ _ _ _ |- _ => destruct H as [H|(o1 & v & u1 & o2 & -> & H & X)] end; [eauto|edestruct N; eauto].
Qed.
Lemma user_kont reg h fv w kt fs ks u os r : feval reg h fv (FUser w :: fs) (kt :: ks) u os r -> exists p, kt = URun w p.
Proof. intros E. inversion E; subst; eauto. Qed.
Lemma trap_sig a : linux_signal (trap_insn a) = trap_signal a.
Proof. destruct a; reflexivity. Qed.

(** A step of the running thread. *)
Lemma own_step tr s t a x s' m m' h fv os r : DtorsInv.inv c tr s -> known s -> dstep c s t a = Some (x, s') -> fns_only x = true ->
  follows fini m (PFns t x) m' -> feval (reg m) h fv (frames s t) (konts m t) (ustof s m t) os r ->
  (exists o, x = Term o /\ os = [] /\ r = End o) \/
  (exists h', (match x with Empty => h' = c_thread c /\ exists o, r = End o | _ => h' = h end) /\ feval (reg m') h' fv (frames s' t) (konts m' t) (ustof s' m' t) os r).
Proof.
  intros I (K1 & K2 & K3) H FO F E. pose proof (dstep_effect _ _ _ _ _ _ H) as [_ EL EO EF ET EP _ EN _ _ EG EX].
  assert (TN : t <> nthr s).
  { intros ->. destruct (i_new _ _ _ I (nthr s)) as [X _]; [lia|]. contradiction. }
  specialize (EO TN). pose proof (K3 t) as K3t.
  assert (Q : match x with RegT _ | CallT _ | RegP _ | Take _ | Spawn _ => True | _ => ustof s' m t = ustof s m t end).
  { unfold ustof. rewrite ET, EP. destruct x; try exact Logic.I; reflexivity. }
  assert (KS : forall l, ustof s' (kset m t l) t = ustof s' m t) by reflexivity.
  inversion F; subst; try discriminate FO; try contradiction; rewrite ?KS; cbn [kset rset konts reg] in *; rewrite ?dupd_eq.
  - (* RegT *) right. exists h. split; [cbn; auto|]. destruct EG as [-> Et]. inversion EO; subst.
    match goal with A : _ = frames s t, B : _ = frames s' t |- _ => rewrite <- A, <- ?B in * end.
    match goal with A : konts m t = _ |- _ => rewrite A in E end.
    destruct (user_runs _ _ _ _ _ _ _ _ _ _ _ E) as (-> & _). revert E. apply user_swap.
    + intros fr f Hi Hf. apply dupd_ne. assert (f < nextf s)%nat; [|lia]. eapply K3t; [right; exact Hi|exact Hf].
    + intros os' r' R. inversion R; subst; clear R. match goal with A : runs _ _ _ _ _ |- _ => revert A end. unfold ustof, with_ts. cbn [data reg rset kset ud uts ups]. rewrite ET, EP, Nat.eqb_refl. cbn [map].
      rewrite dupd_eq, !map_dupd; auto. intros; eapply K1; eauto.
  - (* BeginP *) right. exists h. split; [cbn; auto|]. destruct EG as [-> Ep]. inversion EO; subst.
    match goal with A : _ = frames s t, B : _ = frames s' t |- _ => rewrite <- A, <- ?B in * end.
    match goal with A : konts m t = _ |- _ => rewrite A in E end.
    destruct (user_runs _ _ _ _ _ _ _ _ _ _ _ E) as (-> & os' & r' & R). assert (Eh : h = false) by (inversion R; auto). clear R.
    apply E_lock; [exact Eh|]. revert E. apply user_swap.
    + intros fr f Hi Hf. apply dupd_ne. assert (f < nextf s)%nat; [|lia]. eapply K3t; [right; exact Hi|exact Hf].
    + clear os' r'. intros os' r' R. inversion R; subst; clear R. match goal with A : runs _ _ _ _ _ |- _ => revert A end. unfold ustof, with_ps. cbn [data reg rset kset ud uts ups]. rewrite ET, EP. cbn [map].
      rewrite dupd_eq, !map_dupd; auto. intros; eapply K1; eauto.
  - (* CallT *) right. exists h. split; [cbn; auto|]. destruct EG as [l Etd].
    assert (EU : ustof s' m t = with_ts (ustof s m t) (map (reg m) l)).
    { unfold ustof, with_ts. cbn. now rewrite ET, EP, Nat.eqb_refl, Etd. }
    assert (EH : uts (ustof s m t) = reg m f :: map (reg m) l) by (unfold ustof; cbn; now rewrite Etd).
    rewrite EU. inversion EO; subst;
      match goal with A : _ = frames s t, B : _ = frames s' t |- _ => rewrite <- A, <- ?B in * end; inversion E; subst.
    + match goal with A : drain _ _ _ _ _ |- _ => inversion A; subst end; try congruence.
      * rewrite EH in *. match goal with A : _ :: _ = _ :: _ |- _ => injection A as <- <- end. eapply E_fn; [discriminate..|eassumption|]. apply E_dtors. assumption.
      * rewrite EH in *. match goal with A : _ :: _ = _ :: _ |- _ => injection A as <- <- end. apply E_fn_end; [discriminate..|assumption].
    + match goal with A : exits _ _ _ _ _ |- _ => inversion A; subst end;
        match goal with A : drain _ _ _ _ _ |- _ => inversion A; subst end; try congruence.
      * rewrite EH in *. match goal with A : _ :: _ = _ :: _ |- _ => injection A as <- <- end. rewrite <- app_assoc. eapply E_fn; [discriminate..|eassumption|]. apply E_xt. eapply X_exit; eauto.
      * rewrite EH in *. match goal with A : _ :: _ = _ :: _ |- _ => injection A as <- <- end. eapply E_fn; [discriminate..|eassumption|]. apply E_xt. apply X_end. assumption.
      * rewrite EH in *. match goal with A : _ :: _ = _ :: _ |- _ => injection A as <- <- end. apply E_fn_end; [discriminate..|assumption].
  - (* CallP *) right. exists h. split; [cbn; auto|]. inversion EO; subst.
    match goal with A : _ = frames s t, B : _ = frames s' t |- _ => rewrite <- A, <- ?B in * end. rewrite Q.
    inversion E; subst. unfold ustof, with_ps in *. cbn [ups ud uts] in *.
    match goal with A : pops _ _ _ _ _ |- _ => inversion A; subst end; cbn [ups ud uts with_ps] in *; try congruence.
    + match goal with A : _ :: _ = _ :: _ |- _ => injection A as <- <- end. eapply E_fn; [discriminate..|eassumption|]. apply E_xlock; auto.
    + match goal with A : _ :: _ = _ :: _ |- _ => injection A as <- <- end. apply E_fn_end; [discriminate..|assumption].
  - (* CallF *) right. exists h. split; [cbn; auto|]. inversion EO; subst.
    match goal with A : _ = frames s t, B : _ = frames s' t |- _ => rewrite <- A, <- ?B in * end. rewrite Q.
    inversion E; subst.
    match goal with A : finis _ _ _ _ _ _ |- _ => inversion A; subst end.
    + eapply E_fn; [discriminate..|eassumption|]. apply E_xfini; auto.
    + apply E_fn_end; [discriminate..|assumption].
  - (* Ret *) right. exists h. split; [cbn; auto|]. rewrite Q.
    match goal with A : konts m t = _ |- _ => rewrite A in E end.
    inversion EO; subst; [discriminate FO|].
    match goal with A : _ = frames s t |- _ => rewrite <- A in * end.
    inversion E; subst; try congruence;
      match goal with A : runs _ _ _ _ _ |- _ => inversion A; subst end. cbn [app]. assumption.
  - (* ExitCall *) right. exists h. split; [cbn; auto|]. rewrite Q.
    match goal with A : konts m t = _ |- _ => rewrite A in E end.
    inversion EO; subst; match goal with A : _ = frames s t |- _ => rewrite <- A in * end;
      (edestruct user_exit as (o & -> & R); [|exact E|]; [intros ? ? ? R; inversion R|]; inversion R; subst; eapply exit_feval; eauto).
  - (* main returns *) right. exists h. split; [cbn; auto|]. rewrite Q.
    match goal with A : konts m t = _ |- _ => rewrite A in E end.
    inversion EO; subst; match goal with A : _ = frames s t |- _ => rewrite <- A in * end; inversion E; subst; try congruence;
      (match goal with A : mains _ _ _ _ _ |- _ => destruct A as [RM|(o1 & v & u1 & o2 & -> & RM & RX)] end; inversion RM; subst; cbn [app]; eapply exit_feval; eauto).
  - (* ImmCall *) right. exists h. split; [cbn; auto|]. rewrite Q.
    match goal with A : konts m t = _ |- _ => rewrite A in E end.
    inversion EO; subst; match goal with A : _ = frames s t |- _ => rewrite <- A in * end;
      (edestruct user_exit as (o & -> & R); [|exact E|]; [intros ? ? ? R; inversion R|]; inversion R; subst; apply E_imm).
  - (* TrapCall *) right. exists h. split; [cbn; auto|]. rewrite Q.
    match goal with A : konts m t = _ |- _ => rewrite A in E end.
    inversion EO; subst; match goal with A : _ = frames s t |- _ => rewrite <- A in * end;
      (edestruct user_exit as (o & -> & R); [|exact E|]; [intros ? ? ? R; inversion R|]; inversion R; subst; apply E_trap).
  - (* origin's own steps *)
    inversion EO; subst; try contradiction; match goal with A : _ = frames s t |- _ => rewrite <- A in E end;
      try (lazymatch goal with _ : fns_only Empty = true |- _ => fail | _ : fns_only (Term _) = true |- _ => fail | _ => idtac end; right; exists h; split; [cbn; auto|]; rewrite Q; match goal with A : _ = frames s' t |- _ => rewrite <- A in * end).
    + exact E.
    + inversion E; subst. apply E_push. assumption.
    + (* RegP *) right. exists h. split; [cbn; auto|]. try match goal with A : _ = frames s' t |- _ => rewrite <- A end.
      inversion E; subst. apply E_unlock. unfold ustof. rewrite ET, EP. assumption.
    + right. exists h. split; [cbn; auto|]. rewrite Q. inversion E; subst. assumption.
    + match goal with A : _ = frames s t |- _ => specialize (EX st fs (eq_sym A) eq_refl) end. inversion E; subst.
      assert (N : uts (ustof s m' t) = []) by (unfold ustof; cbn; now rewrite EX).
      assert (P : pops h st (ustof s m' t) os o).
      { match goal with A : exits _ _ _ _ _ |- _ => inversion A; subst end; match goal with A : drain _ _ _ _ _ |- _ => inversion A; subst end; try congruence. assumption. }
      unfold after_t. destruct (c_pae c) eqn:Ep; [apply E_xlock; auto|]. inversion P; subst; try congruence. apply E_xfini. assumption.
    + inversion E; subst. apply E_xpop; assumption.
    + (* Take *) right. exists h. split; [cbn; auto|]. try match goal with A : _ = frames s' t |- _ => rewrite <- A end. destruct EG as [l Epd].
      inversion E; subst. apply E_xunlock; [assumption|]. unfold ustof, with_ps in *. cbn [ud uts ups]. rewrite ET, EP, Epd in *. assumption.
    + (* Empty *) right. try match goal with A : _ = frames s' t |- _ => rewrite <- A end. rewrite Q.
      inversion E; subst.
      assert (N : ups (ustof s m' t) = []) by (unfold ustof; cbn; now rewrite EG).
      exists (c_thread c). split; [cbn; eauto|]. apply E_xfini.
      match goal with A : pops _ _ _ _ _ |- _ => inversion A; subst end; try congruence. assumption.
    + inversion E; subst. apply E_xcall; assumption.
    + left. inversion E; subst. match goal with A : finis _ _ _ _ _ _ |- _ => inversion A; subst end. eauto.
    + left. inversion E; subst. eauto.
    + left. inversion E; subst. rewrite trap_sig. eauto.
Qed.
End Script.
