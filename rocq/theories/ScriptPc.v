(** Where the threads of a scripted program are (for C72). *)
From Coq Require Import ZArith List Bool Lia Arith.
From Verif Require Import Machine LayoutModel ThreadModel ByteModel DtorsModel DtorsFacts DtorsInv DtorsPres ExitFairSpec ProcModel Props_Proc Props_Byte ScriptModel ScriptSpec ScriptProofs ScriptChain.
Import ListNotations.
Open Scope Z_scope.

(** Inside join(j). *)
Definition injoin (j : nat) (p : pc) : Prop :=
  match p with
  | JLoad KJoin j' | JFutex KJoin j' _ | JSleep KJoin j' | JDone KJoin j' | JFree KJoin j' _ | JRet KJoin j' _ => j' = j
  | Panicked => True
  | _ => False
  end.

Lemma pc_step e b acc l b' t : bstep e b acc l b' ->
  match l with
  | Some (_, _, ECreate j) => t <> j -> t_pc (bT b' t) = t_pc (bT b t)
  | Some (i, _, EReturn _) => t <> i -> t_pc (bT b' t) = t_pc (bT b t)
  | Some (i, _, ECallJoin j) => t_pc (bT b i) = Run /\ (t <> i -> t_pc (bT b' t) = t_pc (bT b t)) /\ injoin j (t_pc (bT b' i))
  | Some (i, _, ECallDetach j) => True
  | Some (i, _, EJoin j v) => injoin j (t_pc (bT b i)) /\ t_pc (bT b' i) = Run /\ (t <> i -> t_pc (bT b' t) = t_pc (bT b t))
  | _ => (t_pc (bT b t) = Run -> t_pc (bT b' t) = Run) /\ (forall j, injoin j (t_pc (bT b t)) -> injoin j (t_pc (bT b' t)))
  end.
Proof.
  intros H. destruct H; cbn [bgoto btask bset_mem bset_loc bset_claim bmunmap bT]; auto; unfold fupd.
  all: rewrite ?Nat.eqb_refl.
  all: repeat match goal with |- context [Nat.eqb ?a ?b] => destruct (Nat.eqb_spec a b); subst end; cbn [set_pc set_fin set_clear set_block t_pc injoin].
  all: try match goal with A : t_pc (bT ?bb ?i) = _ |- context [t_pc (bT ?bb ?i)] => rewrite A end; cbn [injoin].
  all: try match goal with k : kind |- _ => destruct k end.
  all: try (intuition (auto; try contradiction; try congruence; try discriminate); fail).
Qed.

Section Pc.
Context {D : Type}.
Variables (c : dcfg) (fini : nat -> prog D).

(** A thread that waits is inside join; any other thread that has something to
    run is in no function of the life cycle; only existing threads are waited for. *)
Record where_ (s : pst) (m : mach D) : Prop := {
  wh_pc : forall t, match konts m t with
                    | UWait _ j _ :: _ => injoin j (t_pc (bT (life s) t))
                    | _ => frames (fns s) t <> [] -> t_pc (bT (life s) t) = Run end;
  wh_tl : forall t, Forall going (tl (konts m t));
  wh_u : forall t w j k r, konts m t = UJoin w j k :: r \/ konts m t = UWait w j k :: r -> in_user (fns s) t;
  wh_j : forall t w j k, In (UJoin w j k) (konts m t) \/ In (UWait w j k) (konts m t) -> (j < nthr (fns s))%nat }.

Definition nowait (l : list (ukont D)) : Prop := match l with UWait _ _ _ :: _ => False | _ => True end.
Lemma nowait_going l : Forall going l -> nowait l.
Proof. intros F. destruct F as [|[] l G]; cbn in *; auto. Qed.
Lemma nowait_pc s m t : nowait (konts m t) -> t_pc (bT (life s) t) = Run ->
  match konts m t with UWait _ j _ :: _ => injoin j (t_pc (bT (life s) t)) | _ => frames (fns s) t <> [] -> t_pc (bT (life s) t) = Run end.
Proof. destruct (konts m t) as [|[]]; cbn; auto; contradiction. Qed.

Lemma where_step e tr s m x s' m' : prun e c tr s -> where_ s m -> pstep e c s x s' -> follows fini m x m' -> where_ s' m'.
Proof.
  intros R [WP WT WU WJ] St F. destruct (proj _ _ _ _ R) as [RB RD]. pose proof (exec_inv _ _ _ RD) as I.
  pose proof (prun_inv _ _ _ _ R) as PI.
  assert (NT : (nthr (fns s) <= nthr (fns s'))%nat).
  { destruct St as [acc b' Tm B|acc i ins y b' Tm B LO AC|t act y d' DS FO PC|t v d' DS PC UV|acc i ins j b' d' B DS|acc t ins b' d' DS B]; cbn [fns]; auto;
      rewrite (e_nthr _ _ _ _ _ (dstep_effect _ _ _ _ _ _ DS)); try destruct y; lia. }
  assert (NW : forall t, t_pc (bT (life s) t) = Run -> nowait (konts m t)).
  { intros t P. specialize (WP t). destruct (konts m t) as [|[]]; cbn; auto. rewrite P in WP. contradiction. }
  assert (EO : forall t act y d', dstep c (fns s) t act = Some (y, d') -> fstep c (frames (fns s) t) y (frames d' t)).
  { intros t act y d' DS. pose proof (dstep_effect _ _ _ _ _ _ DS) as [_ EL EO _ _ _ _ _ _ _ _ _]. apply EO.
    intros ->. destruct (i_new _ _ _ I (nthr (fns s))) as [Y _]; [lia|]. contradiction. }
  assert (CALL : forall t act y d', dstep c (fns s) t act = Some (y, d') -> t_pc (bT (life s) t) = Run ->
     match y with CallT _ | CallP _ | CallF _ => True | _ => False end -> Forall going (konts m t)).
  { intros t act y d' DS PC Y. specialize (EO _ _ _ _ DS). specialize (WT t). specialize (NW t PC). pose proof (WU t) as U.
    destruct (konts m t) as [|k r]; [constructor|]. constructor; [|exact WT]. destruct k; try exact Logic.I; [|contradiction].
    destruct (U _ _ _ _ (or_introl eq_refl)) as (w' & fs & Fr). rewrite Fr in EO. inversion EO; subst; contradiction. }
  assert (TLS : forall t, Forall going (tl (konts m' t))).
  { assert (TT : forall t k r, konts m t = k :: r -> Forall going r) by (intros t k r E; pose proof (WT t) as Q; rewrite E in Q; exact Q).
    assert (TT2 : forall r : list (ukont D), Forall going r -> Forall going (tl r)) by (intros r Q; destruct Q; cbn; auto).
    assert (CALL' : forall t y, x = PFns t y -> match y with CallT _ | CallP _ | CallF _ => True | _ => False end -> Forall going (konts m t)).
    { intros t y -> Y. inversion St as [| |t' act y' d' DS FO PC| | |]; subst. eapply CALL; eauto. }
    intros u. inversion F; subst; cbn; unfold dupd; auto;
      repeat match goal with |- context [Nat.eqb ?a ?b] => destruct (Nat.eqb_spec a b); subst end; cbn; eauto.
    all: eapply CALL'; [reflexivity|exact Logic.I]. }
  constructor; [|exact TLS| |].
  - intros t.
    destruct St as [acc b' Tm B|acc i ins y b' Tm B LO AC|t' act y d' DS FO PC|t' v d' DS PC UV|acc i ins j b' d' B DS|acc t' ins b' d' DS B]; cbn [fns life].
    + inversion F; subst. pose proof (pc_step _ _ _ _ _ t B) as [P1 P2]. specialize (WP t). destruct (konts m' t) as [|[]]; auto.
    + pose proof (pc_step _ _ _ _ _ t B) as P. inversion F; subst; cbn [kset konts]; unfold dupd.
      * destruct P as (_ & P1 & P2). destruct (Nat.eqb_spec t i) as [->|NE]; [exact P2|]. rewrite (P1 NE). apply WP.
      * destruct P as (_ & P1 & P2). destruct (Nat.eqb_spec t i) as [->|NE]; [auto|]. rewrite (P2 NE). apply WP.
      * specialize (WP t). destruct y; try discriminate LO; try (match goal with A : api_call _ = false |- _ => discriminate A end); try (destruct P as [P1 P2]; destruct (konts m' t) as [|[]]; auto; fail).
        all: exfalso; match goal with A : forall j v, _ <> EJoin j v |- _ => eapply A; reflexivity end.
    + (* exit functions *)
      destruct (Nat.eq_dec t t') as [->|NE].
      * apply (nowait_pc (PSt (life s) d' (fval s))); [|exact PC]. specialize (NW t' PC). specialize (WT t').
        inversion F; subst; cbn; rewrite ?dupd_eq; cbn; auto; apply nowait_going; match goal with A : konts m _ = _ |- _ => rewrite A in WT end; exact WT.
      * assert (KE : konts m' t = konts m t) by (inversion F; subst; cbn; rewrite ?dupd_ne by assumption; reflexivity). rewrite KE.
        specialize (WP t). pose proof (e_other _ _ _ _ _ (dstep_effect _ _ _ _ _ _ DS) t NE) as EF.
        destruct (konts m t) as [|[]]; auto; rewrite EF; destruct y; try discriminate FO; auto.
    + inversion F; subst. destruct (Nat.eq_dec t t') as [->|NE].
      * apply (nowait_pc (PSt (life s) d' (fval s)) (kset m t' r)); [|exact PC]. cbn. rewrite dupd_eq. apply nowait_going. specialize (WT t'). rewrite H2 in WT. exact WT.
      * cbn. rewrite dupd_ne by assumption. specialize (WP t). pose proof (e_other _ _ _ _ _ (dstep_effect _ _ _ _ _ _ DS) t NE) as EF.
        destruct (konts m t) as [|[]]; auto; rewrite EF; auto.
    + pose proof (pc_step _ _ _ _ _ t B) as P. cbn in P. inversion F; subst.
      assert (PCi : t_pc (bT (life s) i) = Run) by (inversion B; assumption).
      assert (Ej : j = nthr (fns s)) by (pose proof (e_guard _ _ _ _ _ (dstep_effect _ _ _ _ _ _ DS)) as [Q _]; exact Q).
      cbn. unfold dupd. destruct (Nat.eqb_spec t j) as [Etj|Nj].
      * intros _. rewrite Etj. clear - B. inversion B; subst. cbn. unfold fupd. now rewrite Nat.eqb_refl.
      * rewrite (P Nj). destruct (Nat.eqb_spec t i) as [->|Ni]; [intros _; exact PCi|]. specialize (WP t).
        pose proof (e_other _ _ _ _ _ (dstep_effect _ _ _ _ _ _ DS) t Ni) as EF. cbn in EF. destruct (Nat.eqb_spec t j); [contradiction|].
        destruct (konts m t) as [|[]]; auto; rewrite EF; auto.
    + pose proof (pc_step _ _ _ _ _ t B) as P. cbn in P. inversion F; subst.
      assert (PCi : t_pc (bT (life s) t') = Run) by (inversion B; assumption). specialize (WP t).
      destruct (Nat.eq_dec t t') as [->|NE].
      * assert (Fe : frames d' t' = []).
        { specialize (EO _ _ _ _ DS). revert EO. generalize (frames d' t') (frames (fns s) t'). intros X Y Z. inversion Z; reflexivity. }
        specialize (NW t' PCi). destruct (konts m' t') as [|[]]; try contradiction; rewrite Fe; intros X; congruence.
      * rewrite (P NE). pose proof (e_other _ _ _ _ _ (dstep_effect _ _ _ _ _ _ DS) t NE) as EF. cbn in EF.
        destruct (konts m' t) as [|[]]; auto; rewrite EF; auto.
  - intros t w j k r X.
    destruct St as [acc b' Tm B|acc i ins y b' Tm B LO AC|t' act y d' DS FO PC|t' v d' DS PC UV|acc i ins j' b' d' B DS|acc t' ins b' d' DS B]; cbn [fns].
    + inversion F; subst. eauto.
    + inversion F; subst; eauto; cbn in X; unfold dupd in X; destruct (Nat.eqb_spec t i) as [->|]; eauto; try (destruct X; discriminate).
    + destruct (Nat.eq_dec t t') as [->|NE].
      * specialize (EO _ _ _ _ DS). assert (G : konts m' t' = konts m t' \/ nowait (konts m' t') /\ forall w j k r, konts m' t' <> UJoin w j k :: r).
        { assert (TT : forall k r, konts m t' = k :: r -> Forall going r) by (intros k0 r0 E; pose proof (WT t') as Q; rewrite E in Q; exact Q).
          assert (GG : forall r0, Forall going r0 -> nowait r0 /\ forall w j k r, r0 <> UJoin w j k :: r).
          { intros r0 Q. split; [apply nowait_going; exact Q|]. intros w0 j0 k0 r1 ->. inversion Q; contradiction. }
          inversion F; subst; cbn; rewrite ?dupd_eq; auto; right; eauto; (split; [exact Logic.I|discriminate]). }
        destruct G as [G|[G1 G2]]; [|destruct X as [X|X]; [edestruct G2; eauto|rewrite X in G1; contradiction]].
        rewrite G in X. destruct (WU _ _ _ _ _ X) as (w' & fs & Fr). rewrite Fr in EO.
        assert (y = Nop) as ->.
        { inversion F; subst; auto; try (cbn in G; rewrite dupd_eq in G; destruct X as [X|X]; congruence).
          all: inversion EO; subst; auto; contradiction. }
        inversion EO; subst. exists w', fs. auto.
      * assert (KE : konts m' t = konts m t) by (inversion F; subst; cbn; rewrite ?dupd_ne by assumption; reflexivity). rewrite KE in X.
        pose proof (e_other _ _ _ _ _ (dstep_effect _ _ _ _ _ _ DS) t NE) as EF. unfold in_user. rewrite EF. destruct y; try discriminate FO; eapply WU; eauto.
    + inversion F; subst. cbn in X. unfold dupd in X. destruct (Nat.eqb_spec t t') as [->|NE].
      * specialize (WT t'). rewrite H2 in WT. cbn in WT. destruct X as [-> | ->]; inversion WT; contradiction.
      * pose proof (e_other _ _ _ _ _ (dstep_effect _ _ _ _ _ _ DS) t NE) as EF. unfold in_user. rewrite EF. eapply WU; eauto.
    + specialize (EO _ _ _ _ DS). inversion F; subst. cbn in X. unfold dupd in X. destruct (Nat.eqb_spec t j') as [->|NE]; [destruct X; discriminate|].
      destruct (Nat.eqb_spec t i) as [->|NE2].
      * unfold in_user. revert EO. generalize (frames d' i) (frames (fns s) i). intros A A' Q. inversion Q; subst; eauto.
      * pose proof (e_other _ _ _ _ _ (dstep_effect _ _ _ _ _ _ DS) t NE2) as EF. cbn in EF. unfold in_user. rewrite EF.
        destruct (Nat.eqb_spec t j'); [contradiction|]. eapply WU; eauto.
    + inversion F; subst. specialize (EO _ _ _ _ DS). destruct (Nat.eq_dec t t') as [->|NE].
      * destruct (WU _ _ _ _ _ X) as (w' & fs & Fr). rewrite Fr in EO. inversion EO.
      * pose proof (e_other _ _ _ _ _ (dstep_effect _ _ _ _ _ _ DS) t NE) as EF. cbn in EF. unfold in_user. rewrite EF. eapply WU; eauto.
  - assert (WJ' : forall t w j k, In (UJoin w j k) (konts m t) \/ In (UWait w j k) (konts m t) -> (j < nthr (fns s'))%nat) by (intros t w j k X; specialize (WJ _ _ _ _ X); lia).
    assert (KIN : forall u k0 r0, konts m u = k0 :: r0 -> forall w j k, In (UJoin w j k) r0 \/ In (UWait w j k) r0 -> (j < nthr (fns s'))%nat).
    { intros u k0 r0 E w j k X. apply (WJ' u w j k). rewrite E. cbn. tauto. }
    assert (NEWJ : forall i ins j, x = PCreate i ins j -> (j < nthr (fns s'))%nat).
    { intros i ins j ->. inversion St; subst. cbn [fns]. match goal with A : dstep _ _ _ _ = _ |- _ => pose proof (dstep_effect _ _ _ _ _ _ A) as EE end.
      rewrite (e_nthr _ _ _ _ _ EE). pose proof (e_guard _ _ _ _ _ EE) as [-> _]. lia. }
    intros t w j k X. inversion F; subst; cbn in X; unfold dupd in X; eauto;
      repeat match goal with A : context [Nat.eqb ?a ?b] |- _ => destruct (Nat.eqb_spec a b); subst end; cbn [In] in X; eauto;
      destruct X as [X|X]; try (destruct X as [X|X]; [try discriminate X|]); eauto.
    all: try (injection X as <- <- <-; eauto).
    all: try (eapply WJ'; right; match goal with A : konts _ _ = _ |- _ => rewrite A end; left; reflexivity).
    all: try (eapply WJ'; left; match goal with A : konts _ _ = _ |- _ => rewrite A end; left; reflexivity).
    all: try contradiction.
Qed.

Lemma where_do s m t w g k r : where_ s m -> konts m t = URun w (Do g k) :: r ->
  where_ s (Mach (dupd (konts m) t (URun w (k (fst (g (data m)))) :: r)) (reg m) (fst (g (data m))) (out m ++ snd (g (data m)))).
Proof.
  intros [WP WT WU WJ] K. constructor; cbn.
  - intros u. unfold dupd. destruct (Nat.eqb_spec u t) as [->|]; [|apply WP]. specialize (WP t). rewrite K in WP. exact WP.
  - intros u. unfold dupd. destruct (Nat.eqb_spec u t) as [->|]; [|apply WT]. specialize (WT t). rewrite K in WT. exact WT.
  - intros u w' j k' r' X. unfold dupd in X. destruct (Nat.eqb_spec u t) as [->|]; [destruct X; discriminate|eauto].
  - intros u w' j k' X. unfold dupd in X. destruct (Nat.eqb_spec u t) as [->|]; [|eauto]. apply (WJ t w' j k'). rewrite K. cbn in *.
    destruct X as [[X|X]|[X|X]]; try discriminate; auto.
Qed.
Lemma where_init e b main d0 : bstarts e b ->
  where_ (PSt b dinit (fun _ => 0)) (Mach (dupd (fun _ => []) 0%nat [URun WMain main]) (fun _ => Return 0) d0 []).
Proof.
  intros (m0 & sp & ee & rl & rn & an & tid & R & len & map & _ & _ & _ & ->). constructor; cbn.
  - intros t. unfold dupd. destruct (Nat.eqb_spec t 0) as [->|]; [reflexivity|]. intros X. congruence.
  - intros t. unfold dupd. destruct (Nat.eqb t 0); constructor.
  - intros t w j k r X. unfold dupd in X. destruct (Nat.eqb t 0); destruct X; discriminate.
  - intros t w j k X. unfold dupd in X. destruct (Nat.eqb t 0); destruct X as [X|X]; try destruct X as [X|X]; try discriminate; try contradiction.
Qed.
Lemma srun_where main d0 e tr s m : srun fini main d0 e c tr s m -> where_ s m.
Proof.
  intros R. induction R as [b Hb|tr s m x s' m' R IH St F|tr s m t w g k r R IH T U P K].
  - eapply where_init; eauto.
  - eapply where_step; eauto. eapply srun_prun; eauto.
  - apply where_do; auto.
Qed.

(** A thread that has nothing left to run is done. *)
Definition bottom (fr : frame) : Prop :=
  match fr with FUser WMain | FUser WThread | FDtors | FX _ _ | FImm _ | FTrap => True | _ => False end.
Lemma bottom_step A x B : fstep c A x B -> (A <> [] -> bottom (last A FTrap)) -> (B <> [] -> bottom (last B FTrap)) /\ (B = [] -> x = ThreadDone).
Proof.
  intros F H.
  assert (C : forall (f : frame) l, l <> [] -> last (f :: l) FTrap = last l FTrap) by (intros f [|]; [congruence|reflexivity]).
  destruct F; (split; [intros NB|intros EB; try discriminate EB; try reflexivity; subst]);
    try (specialize (H ltac:(discriminate))); try (destruct fs; cbn in *; auto; destruct w; contradiction); try contradiction;
    try (exfalso; cbn in H; destruct w; auto; contradiction);
    try (destruct fs; [cbn in *; auto|rewrite !C in * by discriminate; auto]; fail).
Qed.
Lemma done_in tr d : DtorsModel.exec c tr d -> (forall t, frames d t <> [] -> bottom (last (frames d t) FTrap)) /\
  (forall t, (t < nthr d)%nat -> frames d t = [] -> In (t, ThreadDone) tr).
Proof.
  intros H. induction H as [|tr d u a x d' H [IH1 IH2] DS].
  - split; intros t; cbn; unfold dupd; [destruct (Nat.eqb t 0); [exact (fun _ => Logic.I)|congruence]|].
    intros L. assert (t = 0%nat) as -> by lia. discriminate.
  - pose proof (exec_inv _ _ _ H) as I. pose proof (dstep_effect _ _ _ _ _ _ DS) as [_ EL EO EF _ _ _ _ EN _ EG _].
    assert (TN : u <> nthr d).
    { intros ->. destruct (i_new _ _ _ I (nthr d)) as [Y _]; [lia|]. contradiction. }
    specialize (EO TN). destruct (bottom_step _ _ _ EO (IH1 u)) as [B1 B2]. split.
    + intros t. destruct (Nat.eq_dec t u) as [->|NE]; [exact B1|]. rewrite (EF t NE). destruct x; try apply IH1.
      destruct (Nat.eqb t u0); [intros _; exact Logic.I|apply IH1].
    + intros t L Fr. apply in_or_app. destruct (Nat.eq_dec t u) as [->|NE].
      * right. rewrite (B2 Fr). left. reflexivity.
      * left. specialize (EF t NE). apply IH2; [|destruct x; try (rewrite <- EF; exact Fr); destruct (Nat.eqb_spec t u0); congruence].
        rewrite EN in L. destruct x; try lia. destruct EG as [-> _]. rewrite EF in Fr. destruct (Nat.eqb_spec t (nthr d)); [discriminate|lia].
Qed.

(** Only the running thread is in origin's code, and it is never kept waiting for
    a lock. *)
Lemma other_frames s (m : mach D) t rest u : shape s m t rest -> u <> t -> frames s u = [] \/ exists w fs, frames s u = FUser w :: fs.
Proof.
  intros Sh NE. destruct (in_dec Nat.eq_dec u rest) as [Hu|Hu].
  - destruct (linked_in _ _ _ _ (sh_link _ _ _ _ Sh) _ Hu) as (j & w & kk & rr & fs & _ & Fr & _). eauto.
  - left. apply (sh_out _ _ _ _ Sh u). intros [->|]; contradiction.
Qed.
Lemma not_blocked tr s (m : mach D) h t rest ks u os' r : DtorsInv.inv c tr (fns s) -> hok c (fns s) h -> shape (fns s) m t rest ->
  feval c fini (reg m) h (fval s t) (frames (fns s) t) ks u os' r -> ~ blocked c (fns s) t.
Proof.
  intros I Hk Sh E (Ct & Lk & B).
  assert (X : c_pae c = true /\ exists v, existsb isfini (frames (fns s) v) = true).
  { destruct (lk (fns s)) as [v|] eqn:El; [|congruence]. apply (i_hold _ _ _ I Ct v) in El. unfold holds in El. apply orb_prop in El as [El|El].
    - exfalso. destruct (Nat.eq_dec v t) as [->|NE].
      + destruct B as [(f & l & B)|(st & l & B)]; rewrite B in El; discriminate El.
      + destruct (other_frames _ _ t rest v Sh NE) as [Z|(w & fs & Z)]; rewrite Z in El; discriminate El.
    - apply andb_prop in El as [E1 E2]. eauto. }
  destruct X as (Ep & v & Ev).
  assert (h = true) as ->.
  { destruct h; [reflexivity|]. exfalso. rewrite (Hk eq_refl Ct Ep v) in Ev. discriminate. }
  destruct B as [(f & l & B)|(st & l & B)]; rewrite B in E; inversion E; subst; try discriminate.
  match goal with P : pops _ _ _ _ _ _ _ |- _ => inversion P; subst; congruence end.
Qed.
End Pc.
