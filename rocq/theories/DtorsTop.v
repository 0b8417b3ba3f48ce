(** Theorems about exit functions, proved from the invariant. *)
From Coq Require Import ZArith List Bool Lia Arith Permutation.
From Verif Require Import LayoutModel DtorsModel DtorsSpec DtorsFacts DtorsInv DtorsPres.
Import ListNotations.

Lemma exec_snoc c tr x s : exec c (tr ++ [x]) s ->
  exists s0 a, exec c tr s0 /\ dstep c s0 (fst x) a = Some (snd x, s).
Proof.
  intros H. inversion H as [H0|tr0 s0 t a e s' H1 H2 H3]; subst.
  - destruct tr; discriminate.
  - apply app_inj_tail in H3. destruct H3 as [-> <-]. exists s0, a. auto.
Qed.

Lemma exec_prefix c a b s : exec c (a ++ b) s -> exists s0, exec c a s0.
Proof.
  revert s. induction b as [|x b IH] using rev_ind; intros s H.
  - rewrite app_nil_r in H. eauto.
  - rewrite app_assoc in H. apply exec_snoc in H. destruct H as [s0 [k [H _]]]. eauto.
Qed.

Tactic Notation "snoc" hyp(H) ident(s0) ident(II) ident(E) :=
  let a := fresh "act" in
  apply exec_snoc in H; destruct H as [s0 [a [H E]]]; cbn [fst snd] in E;
  pose proof (exec_inv _ _ _ H) as II; apply dstep_effect in E.

(** ** thread::at_exit *)
Lemma lifo_t c tr t f s : exec c (tr ++ [(t, CallT f)]) s -> exists rest, waiting t tr = f :: rest.
Proof.
  intros H. snoc H s0 I E. pose proof (e_guard _ _ _ _ _ E) as [l G]. exists l.
  rewrite <- (i_wt _ _ _ I). exact G.
Qed.

Lemma reg_thread c tr s t u f : inv c tr s -> In (t, RegT f) tr -> In (u, RegT f) tr -> t = u.
Proof.
  intros I H1 H2. apply (pick_nodup_thread g_alloc tr f); [rewrite (i_alloc _ _ _ I); apply seq_NoDup| |];
    apply opick_in; exists (RegT f); simpl; auto.
Qed.

Lemma callt_reg c tr s t f : inv c tr s -> In (t, CallT f) tr -> In (t, RegT f) tr.
Proof.
  intros I H. assert (In f (opick g_callt t tr)) by (apply opick_in; exists (CallT f); simpl; auto).
  assert (R : In f (opick g_regt t tr)).
  { eapply Permutation_in; [apply Permutation_sym, (i_permt _ _ _ I)|]. apply in_or_app; auto. }
  apply opick_in in R. destruct R as [e [R1 R2]]. destruct e; simpl in R2; try contradiction.
  destruct R2 as [->|[]]. exact R1.
Qed.
Lemma tdt_reg c tr s t f : inv c tr s -> In f (tdt s t) -> In (t, RegT f) tr.
Proof.
  intros I H.
  assert (R : In f (opick g_regt t tr)).
  { eapply Permutation_in; [apply Permutation_sym, (i_permt _ _ _ I)|]. apply in_or_app; auto. }
  apply opick_in in R. destruct R as [e [R1 R2]]. destruct e; simpl in R2; try contradiction.
  destruct R2 as [->|[]]. exact R1.
Qed.
Lemma reg_callt c tr s t f : inv c tr s -> In (t, RegT f) tr -> In (t, CallT f) tr \/ In f (tdt s t).
Proof.
  intros I H.
  assert (R : In f (opick g_callt t tr ++ tdt s t)).
  { eapply Permutation_in; [apply (i_permt _ _ _ I)|]. apply opick_in. exists (RegT f). simpl; auto. }
  apply in_app_or in R. destruct R as [R|R]; [left|auto].
  apply opick_in in R. destruct R as [e [R1 R2]]. destruct e; simpl in R2; try contradiction.
  destruct R2 as [->|[]]. exact R1.
Qed.

Lemma once_t c tr s : exec c tr s -> NoDup (t_calls tr).
Proof.
  induction 1 as [|tr s t a e s' H IH D]; [constructor|].
  pose proof (exec_inv _ _ _ H) as I. apply dstep_effect in D. unfold t_calls. rewrite pick_snoc.
  destruct e; simpl; rewrite ?app_nil_r; try exact IH.
  apply NoDup_app_intro; [exact IH|repeat constructor; auto|].
  intros x Hx [->|[]]. apply pick_in in Hx. destruct Hx as [u [e [H1 H2]]].
  destruct e; try contradiction. destruct H2 as [->|[]].
  destruct (e_guard _ _ _ _ _ D) as [l Hl].
  assert (Hin : In x (tdt s t)) by (rewrite Hl; simpl; auto).
  pose proof (reg_thread _ _ _ _ _ _ I (callt_reg _ _ _ _ _ I H1) (tdt_reg _ _ _ _ _ I Hin)) as ->.
  pose proof (nodup_t _ _ _ I t) as N. apply NoDup_app_inv in N. destruct N as [_ [_ N]].
  apply (N x); auto. apply opick_in. exists (CallT x). simpl; auto.
Qed.

Lemma done_all c tr t s : exec c (tr ++ [(t, ThreadDone)]) s ->
  forall f, In (t, RegT f) tr -> In (t, CallT f) tr /\ In (t, Ret (WT f)) tr.
Proof.
  intros H f Hf. pose proof (exec_inv _ _ _ H) as I'. snoc H s0 I E.
  assert (Hc : In (t, CallT f) tr).
  { destruct (reg_callt _ _ _ _ _ I Hf) as [Hc|Hc]; [exact Hc|].
    destruct (c_tae c) eqn:Ht.
    - rewrite (e_guard _ _ _ _ _ E Ht) in Hc. destruct Hc.
    - rewrite (i_tae _ _ _ I Ht) in Hc. destruct Hc. }
  split; [exact Hc|].
  destruct (i_retT _ _ _ I' t f) as [R|R]; [apply in_or_app; auto| |].
  - apply in_app_or in R. destruct R as [R|[R|[]]]; [exact R|inversion R].
  - rewrite (i_done _ _ _ I' t) in R; [destruct R|]. apply in_or_app; simpl; auto.
Qed.

Lemma after_done c t s a b : exec c (a ++ (t, ThreadDone) :: b) s -> own t b = [].
Proof.
  revert s. induction b as [|[u e] b IH] using rev_ind; intros s H; [reflexivity|].
  replace (a ++ (t, ThreadDone) :: b ++ [(u, e)]) with ((a ++ (t, ThreadDone) :: b) ++ [(u, e)]) in H
    by (rewrite <- app_assoc; reflexivity).
  snoc H s0 I E. rewrite own_app, own_one, (IH _ H). simpl.
  destruct (Nat.eqb_spec u t) as [->|]; [|reflexivity].
  exfalso. apply (e_live _ _ _ _ _ E). apply (i_done _ _ _ I). apply in_or_app; simpl; auto.
Qed.

Lemma after_term c t o s a b : exec c (a ++ (t, Term o) :: b) s -> b = [].
Proof.
  revert s. induction b as [|[u e] b IH] using rev_ind; intros s H; [reflexivity|].
  replace (a ++ (t, Term o) :: b ++ [(u, e)]) with ((a ++ (t, Term o) :: b) ++ [(u, e)]) in H
    by (rewrite <- app_assoc; reflexivity).
  snoc H s0 I E. pose proof (i_term _ _ _ I t o) as T.
  rewrite (e_alive _ _ _ _ _ E) in T. discriminate T. apply in_or_app; simpl; auto.
Qed.

(** ** program::at_exit *)
Lemma lifo_p c tr t f s : exec c (tr ++ [(t, Take f)]) s -> exists rest, listed tr = f :: rest.
Proof.
  intros H. snoc H s0 I E. pose proof (e_guard _ _ _ _ _ E) as [l G]. exists l.
  rewrite <- (i_wp _ _ _ I). exact G.
Qed.

Lemma once_p c tr s : exec c tr s -> NoDup (p_calls tr).
Proof.
  induction 1 as [|tr s t a e s' H IH D]; [constructor|].
  pose proof (exec_inv _ _ _ H) as I. apply dstep_effect in D. unfold p_calls. rewrite pick_snoc.
  pose proof (fs _ _ _ _ _ _ I D) as F.
  destruct e; simpl; rewrite ?app_nil_r; try exact IH.
  apply NoDup_app_intro; [exact IH|repeat constructor; auto|].
  intros x Hx [->|[]]. apply pick_in in Hx. destruct Hx as [u [e [H1 H2]]].
  destruct e; try contradiction. destruct H2 as [->|[]].
  assert (NT : NoDup (pick g_take tr)) by (pose proof (nodup_p _ _ _ I) as N; apply NoDup_app_inv in N; tauto).
  inversion F as [ | | | | | | | | | | | | | | | | | | | | |st0 f0 fs0 E1 E2 E3| | | | ]; subst f0.
  pose proof (i_take _ _ _ I t) as Tt. rewrite <- E1 in Tt. simpl in Tt.
  assert (Cu : In x (opick g_callp u tr)) by (apply opick_in; exists (CallP x); simpl; auto).
  assert (u = t).
  { apply (pick_nodup_thread g_take tr x); auto.
    - rewrite (i_take _ _ _ I u). apply in_or_app; auto.
    - rewrite Tt. apply in_or_app; simpl; auto. }
  subst u. apply (pick_nodup_own _ t) in NT. rewrite Tt in NT. apply NoDup_app_inv in NT.
  destruct NT as [_ [_ NT]]. apply (NT x); simpl; auto.
Qed.

(** Every call of a program::at_exit function is of the function the thread
    has just taken off the list. *)
Definition last_own (t : nat) (tr : trace) (l : list event) : Prop := exists pre, own t tr = pre ++ l.

Lemma take_shape c tr s : exec c tr s -> forall t,
  match frames s t with
  | FX _ (XUnlock f) :: _ => last_own t tr [Take f]
  | FX _ (XCall f) :: _ => last_own t tr [Take f; Unlock]
  | _ => True
  end.
Proof.
  induction 1 as [|tr s t a e s' H IH D]; intros u.
  - simpl. unfold dupd. destruct (Nat.eqb u 0); exact Logic.I.
  - pose proof (exec_inv _ _ _ H) as I. apply dstep_effect in D.
    destruct (Nat.eq_dec u t) as [->|Hne].
    + pose proof (i_stack _ _ _ I t) as [LO _]. specialize (IH t). pose proof (fs _ _ _ _ _ _ I D) as F.
      remember (frames s t) as l1. remember (frames s' t) as l2.
      unfold last_own in *. rewrite own_app, own_one, Nat.eqb_refl.
      destruct F; simpl in *; unfold first_phase, after_t; auto.
      all: try (destruct (c_tae c), (c_pae c); exact Logic.I).
      all: try (destruct (c_pae c); exact Logic.I).
      * destruct fs as [|x fs]; [exact Logic.I|]. inversion LO as [|? ? L1 L2]; subst.
        destruct x as [ | | | | |? p | | ]; auto; destruct p; auto; contradiction.
      * destruct fs as [|x fs]; [exact Logic.I|]. inversion LO as [|? ? L1 L2]; subst.
        destruct x as [ | | | | |? p | | ]; auto; destruct p; auto; contradiction.
      * eexists; reflexivity.
      * destruct IH as [pre ->]. exists pre. rewrite <- app_assoc. reflexivity.
    + destruct (fr_other _ _ _ _ _ _ I D u Hne) as [->|[_ [_ [-> _]]]]; [|exact Logic.I].
      specialize (IH u). unfold last_own in *. rewrite own_app, own_one.
      destruct (Nat.eqb_spec t u); [congruence|]. rewrite app_nil_r. exact IH.
Qed.

Lemma call_taken c tr t f s : exec c (tr ++ [(t, CallP f)]) s -> last_own t tr [Take f; Unlock].
Proof.
  intros H. snoc H s0 I E. pose proof (fs _ _ _ _ _ _ I E) as F.
  pose proof (take_shape _ _ _ H t) as S.
  inversion F as [ | | | | | | | | | | | | | | | | | | | | |st0 f0 fs0 E1 E2 E3| | | | ]; subst f0.
  rewrite <- E1 in S. exact S.
Qed.

Lemma take_exit c tr s : exec c tr s -> forall t,
  (existsb (fun fr => match fr with FX _ _ => true | _ => false end) (frames s t) = true -> exists st, In (t, ExitCall st) tr) /\
  (forall f, In (t, Take f) tr -> exists st, In (t, ExitCall st) tr).
Proof.
  induction 1 as [|tr s t a e s' H IH D]; intros u.
  - split; [|intros f []]. simpl. unfold dupd. destruct (Nat.eqb u 0); discriminate.
  - pose proof (exec_inv _ _ _ H) as I. apply dstep_effect in D. destruct (IH u) as [IH1 IH2].
    assert (W : (exists st, In (u, ExitCall st) tr) -> exists st, In (u, ExitCall st) (tr ++ [(t, e)])).
    { intros [st Hst]. exists st. apply in_or_app; auto. }
    destruct (Nat.eq_dec u t) as [->|Hne].
    + pose proof (fs _ _ _ _ _ _ I D) as F. pose proof (i_stack _ _ _ I t) as [_ B].
      remember (frames s t) as l1. remember (frames s' t) as l2.
      split.
      * destruct F; simpl in *; intros Hx; try (apply W, IH1; assumption); try (apply W, IH1; reflexivity);
          try (eexists; apply in_or_app; right; simpl; left; reflexivity). discriminate.
      * intros f Hf. apply in_snoc in Hf. destruct Hf as [Hf|Hf]; [apply W, (IH2 f Hf)|].
        inversion Hf; subst e. inversion F; subst. apply W, IH1. rewrite <- H0. reflexivity.
    + split.
      * destruct (fr_other _ _ _ _ _ _ I D u Hne) as [->|[_ [_ [-> _]]]]; [intros; auto|discriminate].
      * intros f Hf. apply in_snoc in Hf. destruct Hf as [Hf|Hf]; [eauto|inversion Hf; congruence].
Qed.

(** Once an exit has drained the registry (thread + program-at-exit), it
    stays empty. *)
Lemma drained c tr s : exec c tr s -> c_thread c = true -> c_pae c = true ->
  forall t, existsb isfini (frames s t) = true -> pdt s = [].
Proof.
  induction 1 as [|tr s t a e s' H IH D]; intros Hc Hp u Hu; [reflexivity|].
  pose proof (exec_inv _ _ _ H) as I. apply dstep_effect in D.
  specialize (IH Hc Hp). pose proof (e_pdt _ _ _ _ _ D) as P. pose proof (e_guard _ _ _ _ _ D) as G.
  assert (HU : existsb isfini (frames s u) = true \/ (u = t /\ e = Empty)).
  { destruct (Nat.eq_dec u t) as [->|Hne].
    - pose proof (fs _ _ _ _ _ _ I D) as F. remember (frames s t) as l1. remember (frames s' t) as l2.
      destruct F; simpl in *; auto; unfold first_phase, after_t in Hu; rewrite ?Hp in Hu;
        try (destruct (c_tae c); simpl in Hu; auto); discriminate.
    - destruct (fr_other _ _ _ _ _ _ I D u Hne) as [Q|[_ [_ [Q _]]]]; rewrite Q in Hu; [auto|discriminate]. }
  destruct HU as [HU|[-> ->]].
  - specialize (IH u HU). rewrite IH in P. destruct e; auto.
    (* a push while the lock is leaked *)
    exfalso. assert (LU : lk s = Some u).
    { apply (i_hold _ _ _ I Hc). unfold holds. rewrite Hp, HU. apply orb_true_r. }
    pose proof (fs _ _ _ _ _ _ I D) as F.
    inversion F as [ | | | | | | | | | | |f0 fs0 Hf1 Hf2| | | | | | | | | | | | | | ]; subst.
    assert (LT : lk s = Some t).
    { apply (i_hold _ _ _ I Hc). rewrite <- Hf1. reflexivity. }
    assert (u = t) by congruence. subst u.
    pose proof (i_excl _ _ _ I Hc Hp t) as X. rewrite <- Hf1 in X, HU. simpl in X, HU. rewrite X in HU by reflexivity. discriminate.
  - rewrite P. exact G.
Qed.

(** ** immediate_exit and trap *)
Lemma ending_only c t e0 o tr1 tr2 s :
  (e0 = TrapCall /\ o = Killed (linux_signal (trap_insn (c_arch c)))) \/ (exists st, e0 = ImmCall st /\ o = Exited st) ->
  exec c (tr1 ++ (t, e0) :: tr2) s ->
  (own t tr2 = [] /\ (term s = None -> exists a s', dstep c s t a = Some (Term o, s'))) \/
  (exists pre, tr2 = pre ++ [(t, Term o)] /\ own t pre = []).
Proof.
  intros He H.
  enough (Q : (own t tr2 = [] /\ exists fs, frames s t = (match e0 with TrapCall => FTrap | ImmCall st => FImm st | _ => FUnlock end) :: fs) \/
    (exists pre, tr2 = pre ++ [(t, Term o)] /\ own t pre = [])).
  { destruct Q as [[Q1 [fs Q2]]|Q]; [left|right; exact Q]. split; [exact Q1|]. intros Ht.
    exists AGo. unfold dstep. rewrite Ht, Q2.
    destruct He as [[-> ->]|[st [-> ->]]]; simpl; eauto. }
  revert s H. induction tr2 as [|[u e] tr2 IH] using rev_ind; intros s H.
  - left. split; [reflexivity|]. snoc H s0 I E. pose proof (fs _ _ _ _ _ _ I E) as F.
    destruct He as [[-> ->]|[st [-> ->]]]; inversion F; subst; eauto.
  - replace (tr1 ++ (t, e0) :: tr2 ++ [(u, e)]) with ((tr1 ++ (t, e0) :: tr2) ++ [(u, e)]) in H
      by (rewrite <- app_assoc; reflexivity).
    snoc H s0 I E. destruct (IH _ H) as [[O [fs0 Hf]]|[pre [-> _]]].
    + destruct (Nat.eq_dec t u) as [<-|Hne].
      * right. exists tr2. split; [|exact O]. pose proof (fs _ _ _ _ _ _ I E) as F. rewrite Hf in F.
        destruct He as [[-> ->]|[st [-> ->]]]; inversion F; subst; reflexivity.
      * left. rewrite own_app, own_one, O. destruct (Nat.eqb_spec u t); [congruence|]. split; [reflexivity|].
        exists fs0. destruct (fr_other _ _ _ _ _ _ I E t Hne) as [->|[_ [_ [_ N]]]]; [exact Hf|].
        rewrite N in Hf. discriminate.
    + exfalso. pose proof (i_term _ _ _ I t o) as T. rewrite (e_alive _ _ _ _ _ E) in T.
      discriminate T. apply in_or_app. right. simpl. right. apply in_or_app. simpl; auto.
Qed.
