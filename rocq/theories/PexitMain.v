(** What the main thread prints, whoever registers program::at_exit functions
    (for C82). *)
From Coq Require Import ZArith List Bool Lia Arith Permutation.
From Verif Require Import Machine LayoutModel ThreadModel ByteModel ByteProofs DtorsModel DtorsFacts DtorsInv DtorsPres ProcModel Props_Proc Props_Byte ScriptProofs ForkProofs PexitModel PexitSpec PexitProofs PexitAll.
Import ListNotations.
Open Scope Z_scope.

Lemma pcalls_snoc tr x : pcalls (tr ++ [x]) = pcalls tr ++ match x with PFns _ (CallP f) => [f] | _ => [] end.
Proof. unfold pcalls. rewrite flat_map_app. cbn [flat_map]. rewrite app_nil_r. reflexivity. Qed.
Lemma pcalls_same tr x : match x with PFns _ (CallP _) => False | _ => True end -> pcalls (tr ++ [x]) = pcalls tr.
Proof. intros H. rewrite pcalls_snoc. destruct x as [| |t []| | |]; try contradiction; apply app_nil_r. Qed.

Lemma nextf_mono c s t a x s' : dstep c s t a = Some (x, s') -> (nextf s <= nextf s')%nat.
Proof. intros D. rewrite (e_nextf _ _ _ _ _ (dstep_effect _ _ _ _ _ _ D)). destruct x; lia. Qed.

Section Main.
Variables (c : dcfg) (fini : nat -> qprog) (e : benv) (main : qprog).
Local Notation qrun := (qrun fini main e c).
Local Notation N := (fini_entries c).

(** Where an activation of the main thread goes on, and how many .fini_array
    entries are left. *)
Inductive mk : who -> list frame -> stage -> nat -> Prop :=
| mk_main : mk WMain [] Early 0
| mk_xt st f bot : mk (WT f) (FX st XT :: bot) Early 0
| mk_p st f bot : mk (WP f) (FX st XLock :: bot) Late 0
| mk_f st k bot : mk (WF k) (FX st (XFini k) :: bot) Last k.
Definition isreg (fr : frame) : bool := match fr with FLock _ | FPush _ | FUnlock => true | _ => false end.
Definition midx (ph : xphase) : bool := match ph with XLock | XPop | XUnlock _ | XCall _ => true | _ => false end.
Definition fin (d : stage) : list Z := match d with Last => finis fini N | _ => [] end.

Section text.
  Variables (C : nat -> qprog) (G : fid -> qprog).
  (** What this activation and what follows it in its stage print. *)
  Definition mrest (d : stage) (k : nat) (p : qprog) (vs : list Z) (l : list fid) : list Z :=
    prints p vs ++ match d with Early => after p vs ++ pend G l | Late => [] | Last => finis fini k end.
  (** The main thread with these frames, activation, thread::at_exit functions
      and program::at_exit functions called so far: what it still prints, except
      that of functions not called yet; and of .fini_array what counts already. *)
  Inductive mtext : list frame -> option act -> list fid -> list fid -> list Z -> list Z -> Prop :=
  | M_user w fs p hs l pc d k : mk w fs d k -> (d = Early -> pc = []) ->
      mtext (FUser w :: fs) (Some (Act w p hs)) l pc (mrest d k p (vals C hs) l) (fin d)
  | M_reg fr w fs p hs l pc d k : isreg fr = true -> mk w fs d k -> (d = Early -> pc = []) ->
      mtext (fr :: FUser w :: fs) (Some (Act w p hs)) l pc (mrest d k p (vals C hs) l) (fin d)
  | M_xt st bot l : mtext (FX st XT :: bot) None l [] (pend G l) []
  | M_x st ph bot l pc : midx ph = true -> mtext (FX st ph :: bot) None l pc [] []
  | M_fini st k bot l pc : mtext (FX st (XFini k) :: bot) None l pc (finis fini k) (finis fini N).
End text.

Lemma mtext_ext C C' G G' fs a l pc r tl : mtext C G fs a l pc r tl ->
  (forall j, In j (kids a) -> C' j = C j) -> (forall f, In f l -> G' f = G f) -> mtext C' G' fs a l pc r tl.
Proof.
  intros H HC HG. destruct (pend_ext G G' l HG) as (E1 & _).
  assert (X : forall d k p vs, mrest G d k p vs l = mrest G' d k p vs l) by (intros; unfold mrest; rewrite E1; reflexivity).
  destruct H; try (cbn in HC; rewrite <- (vals_ext C C' hs HC), X).
  - apply M_user; assumption.
  - apply M_reg; assumption.
  - rewrite <- E1. apply M_xt.
  - apply M_x; assumption.
  - apply M_fini.
Qed.

Definition mtold (G : fid -> qprog) (pc : list fid) : list Z := flat_map (fun f => prints (G f) []) pc.
Lemma mtold_ext G G' pc : (forall f, In f pc -> G' f = G f) -> mtold G' pc = mtold G pc.
Proof. intros H. unfold mtold. rewrite !flat_map_concat_map. f_equal. apply map_ext_in. intros f Hf. rewrite H by auto. reflexivity. Qed.
Lemma mtold_snoc G pc f : mtold G (pc ++ [f]) = mtold G pc ++ prints (G f) [].
Proof. unfold mtold. rewrite flat_map_app. cbn. rewrite app_nil_r. reflexivity. Qed.

Definition minv (tr : list pevent) (s : pst) (m : qmach) : Prop :=
  (forall f, In f (pcalls tr) -> (f < nextf (fns s))%nat) /\
  exists r tl, mtext (code m) (freg m) (frames (fns s) 0%nat) (acts m 0%nat) (tdt (fns s) 0%nat) (pcalls tr) r tl /\
    out_of m 0%nat ++ r = said main ++ mtold (freg m) (pcalls tr) ++ tl.

(** Entering exit. *)
Lemma mexits C G tr d st bot : DtorsInv.inv c tr d -> exists r tl, mtext C G (FX st (first_phase c) :: bot) None (tdt d 0%nat) [] r tl /\
  forall o, o ++ pend G (tdt d 0%nat) = said main -> o ++ r = said main ++ tl.
Proof.
  intros I. pose proof (i_tae _ _ _ I) as TAE. unfold first_phase. destruct (c_tae c).
  - eexists _, _. split; [apply M_xt|]. intros o H. rewrite app_nil_r. exact H.
  - rewrite (TAE eq_refl 0%nat). unfold after_t. destruct (c_pae c).
    + eexists _, _. split; [apply M_x; reflexivity|]. intros o H. cbn in H. rewrite !app_nil_r in *. exact H.
    + eexists _, _. split; [apply M_fini|]. intros o H. cbn in H. rewrite app_nil_r in H. rewrite H. reflexivity.
Qed.

Ltac noreg := match goal with H : isreg _ = true |- _ => discriminate H | H : midx _ = true |- _ => discriminate H end.

(** A step of the main thread in its exit functions. *)
Lemma mown tr d m ac x d' m' C out : DtorsInv.inv c tr d -> dstep c d 0%nat ac = Some (x, d') -> fns_only x = true ->
  qollows fini m (PFns 0%nat x) m' -> known d -> forall ptr,
  (forall f, In f (pcalls ptr) -> (f < nextf d)%nat) ->
  forall r tl, mtext C (freg m) (frames d 0%nat) (acts m 0%nat) (tdt d 0%nat) (pcalls ptr) r tl ->
  out ++ r = said main ++ mtold (freg m) (pcalls ptr) ++ tl ->
  exists r' tl', mtext C (freg m') (frames d' 0%nat) (acts m' 0%nat) (tdt d' 0%nat) (pcalls (ptr ++ [PFns 0%nat x])) r' tl' /\
    out ++ r' = said main ++ mtold (freg m') (pcalls (ptr ++ [PFns 0%nat x])) ++ tl'.
Proof.
  intros I D FO F (K1 & K2 & K3) ptr PC r tl L O. rewrite pcalls_snoc. generalize dependent (pcalls ptr). clear ptr. intros pc PC L O.
  pose proof (dstep_effect _ _ _ _ _ _ D) as Ef.
  apply dstep_inv in D as [Tm St].
  destruct St as [w fs E|w fs E Hc|w fs E Hc|w fs st E|w fs st E|w fs E|w fs E Hc|fs st E|fs E|w fs E N1 N2|f fs s1 E Lk|f fs E|fs E
    |f l fs E Hc Dt|fs E Dt|st f l fs E Dt|st fs E Dt|st fs s1 E Lk|st f l fs E Dt|st fs E Dt|st f fs E|st f fs E|st k fs E|st fs E|st fs E|fs E];
    try discriminate FO; try (inversion F; subst; contradiction); rewrite E in L; rewrite ?app_nil_r.
  - (* Nop *) inversion F; subst m'. rewrite E. eauto.
  - (* RegT *) inversion F; subst; try contradiction. match goal with H : acts m 0%nat = _ |- _ => rewrite H in L end.
    cbn [acts freg fset aset frames tdt bump set_tdt]. rewrite !dupd_eq, E.
    destruct (pend_ext (freg m) (dupd (freg m) (nextf d) q) (tdt d 0%nat)) as (E1 & _). { intros f Hf. apply dupd_ne. specialize (K1 _ _ Hf). lia. }
    assert (E2 : mtold (dupd (freg m) (nextf d) q) pc = mtold (freg m) pc) by (apply mtold_ext; intros f Hf; apply dupd_ne; specialize (PC _ Hf); lia).
    inversion L; subst; try noreg. eexists _, _. split; [eapply M_user; eassumption|]. rewrite E2. rewrite <- O. f_equal. unfold mrest. cbn [prints after]. f_equal.
    destruct d0; try reflexivity. unfold pend at 1. cbn [flat_map]. rewrite dupd_eq. fold (pend (dupd (freg m) (nextf d) q) (tdt d 0%nat)). rewrite E1. unfold said. rewrite <- !app_assoc. reflexivity.
  - (* BeginP *) inversion F; subst; try contradiction. match goal with H : acts m 0%nat = _ |- _ => rewrite H in L end.
    cbn [acts freg fset aset frames tdt bump set_frames]. rewrite !dupd_eq.
    destruct (pend_ext (freg m) (dupd (freg m) (nextf d) q) (tdt d 0%nat)) as (E1 & _). { intros f Hf. apply dupd_ne. specialize (K1 _ _ Hf). lia. }
    assert (E2 : mtold (dupd (freg m) (nextf d) q) pc = mtold (freg m) pc) by (apply mtold_ext; intros f Hf; apply dupd_ne; specialize (PC _ Hf); lia).
    inversion L; subst; try noreg. eexists _, _. split; [eapply M_reg; [reflexivity|eassumption|assumption]|]. rewrite E2, <- O. unfold mrest. rewrite E1. reflexivity.
  - (* exit called by user code *) inversion F; subst; try contradiction. match goal with H : acts m 0%nat = _ |- _ => rewrite H in L end. inversion L; subst; try noreg.
    match goal with H : mk _ _ _ _ |- _ => inversion H; subst end. match goal with H : _ -> pc = [] |- _ => rewrite (H eq_refl) in * end.
    cbn [acts aset freg frames set_frames tdt]. rewrite !dupd_eq. destruct (mexits C (freg m) _ _ st [FUser WMain] I) as (r' & tl' & A & B). exists r', tl'. split; [exact A|].
    apply B. unfold mrest in O. cbn [prints after app fin mtold flat_map] in O. rewrite app_nil_r in O. exact O.
  - inversion F; subst; try contradiction. match goal with H : acts m 0%nat = _ |- _ => rewrite H in L end. inversion L; subst; try noreg.
    match goal with H : mk _ _ _ _ |- _ => inversion H; subst end. match goal with H : _ -> pc = [] |- _ => rewrite (H eq_refl) in * end.
    cbn [acts aset freg frames set_frames tdt]. rewrite !dupd_eq. destruct (mexits C (freg m) _ _ st [] I) as (r' & tl' & A & B). exists r', tl'. split; [exact A|].
    apply B. unfold mrest in O. cbn [prints after app fin mtold flat_map] in O. rewrite app_nil_r in O. exact O.
  - (* an exit function returns *) inversion F; subst; try contradiction. match goal with H : acts m 0%nat = _ |- _ => rewrite H in L end. inversion L; subst; try noreg.
    cbn [acts aset freg frames set_frames tdt]. rewrite !dupd_eq.
    match goal with H : mk _ _ _ _ |- _ => inversion H; subst end; try congruence; cbn [mrest prints after app fin] in O.
    + match goal with H : _ -> pc = [] |- _ => rewrite (H eq_refl) in * end. eexists _, _. split; [apply M_xt|exact O].
    + eexists _, _. split; [apply M_x; reflexivity|exact O].
    + eexists _, _. split; [apply M_fini|exact O].
  - (* lock in at_exit *) assert (m' = m) as -> by (inversion F; reflexivity).
    assert (TD : tdt s1 0%nat = tdt d 0%nat) by (unfold try_lock in Lk; destruct (c_thread c); [destruct (lk d); [discriminate|]|]; inversion Lk; auto).
    cbn [frames set_frames tdt]; rewrite dupd_eq, TD. inversion L; subst. eexists _, _. split; [eapply M_reg; [reflexivity|eassumption|assumption]|exact O].
  - (* push *) assert (m' = m) as -> by (inversion F; reflexivity). cbn [frames set_frames tdt pdt set_pdt]; rewrite dupd_eq.
    inversion L; subst. eexists _, _. split; [eapply M_reg; [reflexivity|eassumption|assumption]|exact O].
  - (* unlock *) assert (m' = m) as -> by (inversion F; reflexivity).
    assert (TD : tdt (unlock c d) 0%nat = tdt d 0%nat) by (unfold unlock; destruct (c_thread c); auto).
    cbn [frames set_frames tdt]; rewrite dupd_eq, TD. inversion L; subst. eexists _, _. split; [eapply M_user; eassumption|exact O].
  - inversion L; noreg.
  - (* XT *) inversion L; subst; try noreg. inversion F; subst; try contradiction.
    cbn [acts aset freg frames set_frames set_tdt tdt pdt]. rewrite !dupd_eq. rewrite Dt in O.
    eexists _, _. split; [apply M_user; [apply mk_xt|reflexivity]|]. cbn [fin]. rewrite <- O. f_equal. unfold mrest. cbn [vals map]. unfold pend at 2. cbn [flat_map]. unfold said. rewrite <- app_assoc. reflexivity.
  - inversion L; subst; try noreg. inversion F; subst. cbn [acts aset freg frames set_frames set_tdt tdt pdt]. rewrite !dupd_eq. rewrite Dt in *. cbn [pend flat_map] in O.
    try match goal with H : _ = acts _ 0%nat |- _ => rewrite <- H end.
    unfold after_t. destruct (c_pae c).
    + eexists _, _. split; [apply M_x; reflexivity|exact O].
    + eexists _, _. split; [apply M_fini|]. rewrite app_nil_r in O. rewrite O. cbn. rewrite app_nil_r. reflexivity.
  - (* lock *) inversion L; subst; try noreg. assert (m' = m) as -> by (inversion F; reflexivity).
    assert (TD : tdt s1 0%nat = tdt d 0%nat) by (unfold try_lock in Lk; destruct (c_thread c); [destruct (lk d); [discriminate|]|]; inversion Lk; auto).
    cbn [frames set_frames tdt pdt]; rewrite dupd_eq, TD; try match goal with H : _ = acts _ 0%nat |- _ => rewrite <- H end.
    eexists _, _. split; [apply M_x; reflexivity|exact O].
  - (* take *) inversion L; subst; try noreg. assert (m' = m) as -> by (inversion F; reflexivity).
    cbn [frames set_frames tdt pdt set_pdt]; rewrite dupd_eq; try match goal with H : _ = acts _ 0%nat |- _ => rewrite <- H end.
    eexists _, _. split; [apply M_x; reflexivity|exact O].
  - (* empty *) inversion L; subst; try noreg. assert (m' = m) as -> by (inversion F; reflexivity).
    cbn [frames set_frames tdt pdt]; rewrite dupd_eq; try match goal with H : _ = acts _ 0%nat |- _ => rewrite <- H end.
    eexists _, _. split; [apply M_fini|]. rewrite !app_nil_r in O. rewrite O, <- app_assoc. reflexivity.
  - (* unlock *) inversion L; subst; try noreg. assert (m' = m) as -> by (inversion F; reflexivity).
    assert (TD : tdt (unlock c d) 0%nat = tdt d 0%nat) by (unfold unlock; destruct (c_thread c); auto).
    cbn [frames set_frames tdt pdt]; rewrite dupd_eq, TD; try match goal with H : _ = acts _ 0%nat |- _ => rewrite <- H end.
    eexists _, _. split; [apply M_x; reflexivity|exact O].
  - (* CallP *) inversion L; subst; try noreg. inversion F; subst; try contradiction.
    cbn [acts aset freg frames set_frames set_tdt tdt pdt]. rewrite !dupd_eq.
    eexists _, _. split; [apply M_user; [apply mk_p|discriminate]|]. cbn [fin]. unfold mrest. cbn [vals map]. rewrite !app_nil_r in *. rewrite mtold_snoc, O, <- app_assoc. reflexivity.
  - (* fini *) inversion L; subst; try noreg. inversion F; subst; try contradiction.
    cbn [acts aset freg frames set_frames set_tdt tdt pdt]. rewrite !dupd_eq.
    eexists _, _. split; [apply M_user; [apply mk_f|discriminate]|]. exact O.
  - (* the end *) assert (m' = m) as -> by (inversion F; reflexivity). cbn [finish frames tdt pdt]. rewrite E. eauto.
  - inversion L; noreg.
  - inversion L; noreg.
Qed.

(** Another thread, or origin's own code, moved. *)
Lemma minv_other tr s m tr' s' m' : minv tr s m -> pcalls tr' = pcalls tr -> (nextf (fns s) <= nextf (fns s'))%nat ->
  frames (fns s') 0%nat = frames (fns s) 0%nat -> tdt (fns s') 0%nat = tdt (fns s) 0%nat -> acts m' 0%nat = acts m 0%nat -> out_of m' 0%nat = out_of m 0%nat ->
  (forall j, In j (kids (acts m 0%nat)) -> code m' j = code m j) -> (forall f, (f < nextf (fns s))%nat -> freg m' f = freg m f) ->
  known (fns s) -> minv tr' s' m'.
Proof.
  intros (PC & r & tl & L & O) E1 E2 E3 E4 E5 E6 E7 E8 (K1 & _). split; [intros f Hf; rewrite E1 in Hf; specialize (PC _ Hf); lia|].
  exists r, tl. rewrite E1, E3, E4, E5, E6. split.
  - eapply mtext_ext; [exact L|exact E7|]. intros f Hf. apply E8. exact (K1 _ _ Hf).
  - rewrite O. f_equal. f_equal. symmetry. apply mtold_ext. intros f Hf. apply E8. auto.
Qed.
(** The main thread's activation goes on. *)
Lemma minv_act tr s m tr' s' w p hs p' o : minv tr s m -> pcalls tr' = pcalls tr -> fns s' = fns s -> acts m 0%nat = Some (Act w p hs) ->
  (let vs := vals (code m) hs in prints p vs = o ++ prints p' vs /\ after p' vs = after p vs) ->
  minv tr' s' (QMach (dupd (acts m) 0%nat (Some (Act w p' hs))) (freg m) (code m) (fout m ++ map (pair 0%nat) o)).
Proof.
  intros (PC & r & tl & L & O) E1 E2 A (P1 & P2). rewrite A in L. split; [intros f Hf; rewrite E1 in Hf; rewrite E2; auto|].
  cbn [acts freg code]. rewrite E1, E2, dupd_eq.
  erewrite (out_of_app m _ 0%nat o 0%nat) by (cbn [fout]; reflexivity). rewrite Nat.eqb_refl.
  assert (X : forall d k, mrest (freg m) d k p (vals (code m) hs) (tdt (fns s) 0%nat) = o ++ mrest (freg m) d k p' (vals (code m) hs) (tdt (fns s) 0%nat)).
  { intros d k. unfold mrest. rewrite P1, P2, <- app_assoc. reflexivity. }
  inversion L; subst; rewrite X in O.
  - eexists _, _. split; [eapply M_user; eassumption|]. rewrite <- app_assoc. exact O.
  - eexists _, _. split; [eapply M_reg; eassumption|]. rewrite <- app_assoc. exact O.
Qed.

Lemma minv_step tr s m g x s' m' : good_env e -> prun e c tr s -> ainv c fini main tr s m g -> minv tr s m -> pstep e c s x s' -> qollows fini m x m' ->
  minv (tr ++ [x]) s' m'.
Proof.
  intros Ge R V M St F.
  destruct (proj _ _ _ _ R) as [RB RD]. pose proof (exec_inv _ _ _ RD) as I. pose proof (fexec_known _ _ _ RD) as K.
  assert (R' : prun e c (tr ++ [x]) s') by (econstructor; eauto).
  destruct St as [acc b' T' B|acc i ins x b' T' B LO AC|t0 act x d' DS FO PC|t0 v d' DS PC UV|acc i ins j b' d' B DS|acc t0 ins b' d' DS B].
  - assert (m' = m) as -> by (inversion F; reflexivity). eapply minv_other; eauto. apply pcalls_same; exact Logic.I.
  - assert (PS : pcalls (tr ++ [PLife (i, ins, x)]) = pcalls tr) by (apply pcalls_same; exact Logic.I).
    assert (OTH : forall a, i <> 0%nat -> m' = aset m i a -> minv (tr ++ [PLife (i, ins, x)]) (PSt b' (fns s) (fval s)) m').
    { intros a D ->. eapply minv_other; eauto. cbn [acts aset]. apply dupd_ne. auto. }
    inversion F; subst; try (eapply minv_other; eauto; fail).
    + match goal with H : acts m i = _ |- _ => rename H into A end. match goal with H : nth_error _ _ = _ |- _ => rename H into Nt end.
      destruct (Nat.eq_dec i 0) as [->|D]; [|eapply OTH; eauto].
      destruct (C62_join_partial e c tr 0%nat ins j v _ Ge R') as [VR _]. assert (Pr : In (PReturns j v) tr) by (apply VR; reflexivity).
      destruct (a_ret _ _ _ _ _ _ _ V _ _ Pr) as [_ Ev].
      pose proof (minv_act tr s m (tr ++ [PLife (0%nat, ins, EJoin j v)]) (PSt b' (fns s) (fval s)) w (QJoin n k) hs (k v) [] M PS eq_refl A) as X.
      cbn [map] in X. rewrite app_nil_r in X. apply X. cbn [prints after app]. rewrite (nth_vals _ _ _ _ Nt), <- Ev. auto.
    + match goal with H : acts m i = _ |- _ => rename H into A end. destruct (Nat.eq_dec i 0) as [->|D]; [|eapply OTH; eauto].
      pose proof (minv_act tr s m (tr ++ [PLife (0%nat, ins, EDetach j)]) (PSt b' (fns s) (fval s)) w (QDetach n k) hs k [] M PS eq_refl A) as X.
      cbn [map] in X. rewrite app_nil_r in X. apply X. auto.
  - pose proof (dstep_effect _ _ _ _ _ _ DS) as Ef. pose proof Ef as [_ EL _ EF ET EP _ _ EN _ EG _].
    assert (Lt : (t0 < nthr (fns s))%nat).
    { destruct (le_lt_dec (nthr (fns s)) t0) as [X|X]; [|exact X]. destruct (i_new _ _ _ I t0 X) as [Y _]. contradiction. }
    pose proof (nextf_mono _ _ _ _ _ _ DS) as NM.
    destruct (Nat.eq_dec t0 0) as [->|D].
    + destruct M as (PF & r & tl & L & O). split.
      * cbn [fns]. intros f Hf. rewrite pcalls_snoc in Hf. apply in_app_iff in Hf as [Hf|Hf]; [specialize (PF _ Hf); lia|].
        destruct x as [| | | | | | | | |f0| | | | | | | | |]; try contradiction Hf. destruct Hf as [<-|[]]. apply dstep_inv in DS as [_ DS]. inversion DS; subst.
        destruct K as (_ & _ & K3). match goal with H : frames (fns s) 0%nat = _ |- _ => rename H into E end.
        assert (Y : (f0 < nextf (fns s))%nat) by (eapply (K3 0%nat); [rewrite E; left; reflexivity|left; reflexivity]). lia.
      * cbn [fns]. assert (Co : code m' = code m) by (inversion F; subst; reflexivity). assert (Ou : out_of m' 0%nat = out_of m 0%nat) by (inversion F; subst; reflexivity).
        rewrite Co, Ou. eapply mown; eauto.
    + assert (NP : match x with CallP _ => False | _ => True end).
      { destruct x; auto. destruct (a_left _ _ _ _ _ _ _ V t0 Lt) as (os & L & _). apply dstep_inv in DS as [_ DS]. inversion DS; subst.
        match goal with H : frames (fns s) t0 = _ |- _ => rewrite H in L end. destruct (Nat.eqb_spec t0 0); [contradiction|]. inversion L; subst. match goal with H : _ = _ \/ _ |- _ => destruct H as [X|X]; discriminate X end. }
      eapply minv_other; eauto; cbn [fns].
      * apply pcalls_same. destruct x; auto.
      * rewrite EF by auto. destruct x; try reflexivity. discriminate FO.
      * rewrite ET. destruct x; try reflexivity; try (destruct (Nat.eqb_spec 0 t0); [congruence|reflexivity]). discriminate FO.
      * inversion F; subst; cbn [acts aset fset]; rewrite ?dupd_ne by auto; reflexivity.
      * inversion F; subst; reflexivity.
      * intros j _. inversion F; subst; reflexivity.
      * intros f Hf. inversion F; subst; cbn [freg aset fset]; try reflexivity; apply dupd_ne; destruct EG as [-> _]; lia.
  - pose proof (dstep_effect _ _ _ _ _ _ DS) as Ef. pose proof Ef as [_ EL _ EF ET EP _ _ EN _ EG _].
    assert (D : t0 <> 0%nat).
    { intros ->. destruct M as (_ & r & tl & L & _). apply dstep_inv in DS as [_ DS]. inversion DS; subst; [|congruence]. match goal with H : frames (fns s) 0%nat = _ |- _ => rewrite H in L end.
      inversion L; subst; try noreg. match goal with H : mk _ _ _ _ |- _ => inversion H end. }
    inversion F; subst. eapply minv_other; eauto; cbn [fns acts aset].
    + apply pcalls_same; exact Logic.I.
    + exact (nextf_mono _ _ _ _ _ _ DS).
    + apply dupd_ne. auto.
  - pose proof (dstep_effect _ _ _ _ _ _ DS) as Ef. pose proof Ef as [_ EL _ EF ET EP _ _ EN _ EG _]. destruct EG as [-> _].
    inversion F; subst. match goal with H : acts m i = _ |- _ => rename H into A end.
    set (j := nthr (fns s)) in *. destruct (a_main _ _ _ _ _ _ _ V) as [_ J0]. fold j in J0.
    assert (NF : frames d' 0%nat = frames (fns s) 0%nat /\ nextf d' = nextf (fns s)).
    { apply dstep_inv in DS as [_ DS]. inversion DS; subst. cbn [spawn frames nextf]. rewrite dupd_ne by lia. auto. }
    assert (TD : tdt d' 0%nat = tdt (fns s) 0%nat). { rewrite ET. destruct (Nat.eqb_spec 0 j); [lia|reflexivity]. }
    destruct NF as [NF NX].
    assert (KC : forall q, In q (kids (acts m 0%nat)) -> dupd (code m) j f q = code m q).
    { intros q Hq. apply dupd_ne. pose proof (a_kids _ _ _ _ _ _ _ V _ _ Hq). unfold j. lia. }
    assert (PS : pcalls (tr ++ [PCreate i ins j]) = pcalls tr) by (apply pcalls_same; exact Logic.I).
    destruct (Nat.eq_dec i 0) as [->|D].
    + destruct M as (PF & r & tl & L & O). rewrite A in L. split; [intros f' Hf; rewrite PS in Hf; cbn [fns]; rewrite NX; auto|].
      cbn [fns]. rewrite PS, NF, TD. cbn [acts aset cset freg code]. rewrite (dupd_ne _ j) by lia. rewrite dupd_eq.
      change (out_of (cset (aset (aset m 0%nat (Some (Act w k (hs ++ [j])))) j (Some (Act WThread f []))) j f) 0%nat) with (out_of m 0%nat).
      assert (EV : vals (dupd (code m) j f) (hs ++ [j]) = vals (code m) hs ++ [value f []]).
      { rewrite vals_snoc, dupd_eq. f_equal. apply vals_ext. intros q Hq. apply KC. rewrite A. exact Hq. }
      inversion L; subst; (eexists _, _; split; [first [eapply M_user; eassumption|eapply M_reg; eassumption]|]); rewrite EV; exact O.
    + eapply minv_other; eauto; cbn [fns acts aset cset code]; try lia.
      rewrite !dupd_ne by lia. reflexivity.
  - pose proof (dstep_effect _ _ _ _ _ _ DS) as Ef. pose proof Ef as [_ EL _ EF ET EP _ _ EN _ EG _].
    assert (D : t0 <> 0%nat).
    { intros ->. destruct M as (_ & r & tl & L & _). apply dstep_inv in DS as [_ DS]. inversion DS; subst. match goal with H : frames (fns s) 0%nat = _ |- _ => rewrite H in L end. inversion L; noreg. }
    assert (m' = m) as -> by (inversion F; reflexivity). eapply minv_other; eauto; cbn [fns].
    + apply pcalls_same; exact Logic.I.
    + exact (nextf_mono _ _ _ _ _ _ DS).
Qed.

Theorem qrun_main tr s m : good_env e -> qrun tr s m -> minv tr s m.
Proof.
  intros Ge. induction 1 as [b Hb|tr s m x s' m' R IH St F|tr s m t w z k hs R IH T U P A].
  - split; [intros f []|]. cbn [fns acts code freg frames tdt dinit pcalls flat_map]. eexists _, _. split; [apply M_user; [apply mk_main|reflexivity]|].
    unfold mrest, said. cbn. rewrite !app_nil_r. reflexivity.
  - destruct (arun_inv c fini e main _ _ _ Ge R) as [g V]. eapply minv_step; eauto. eapply frun_prun; eauto.
  - destruct (Nat.eq_dec t 0) as [->|D].
    + exact (minv_act tr s m tr s w (QPrint z k) hs k [z] IH eq_refl eq_refl A (conj eq_refl eq_refl)).
    + pose proof (frun_prun _ _ _ _ _ _ _ R) as RP. destruct (proj _ _ _ _ RP) as [RB RD].
      eapply minv_other; eauto; cbn [acts aset oput].
      * apply dupd_ne. auto.
      * rewrite (out_of_app m (oput (aset m t (Some (Act w k hs))) t z) t [z] 0%nat eq_refl). destruct (Nat.eqb_spec 0 t); [congruence|]. apply app_nil_r.
      * exact (fexec_known _ _ _ RD).
Qed.
End Main.
