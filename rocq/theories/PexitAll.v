(** What holds of parallel programs with program::at_exit whoever registers: the
    results, what every thread but main prints, and that nothing that is to be
    printed is lost or repeated (for C82). *)
From Coq Require Import ZArith List Bool Lia Arith Permutation.
From Verif Require Import Machine LayoutModel ThreadModel ByteModel ByteProofs DtorsModel DtorsFacts DtorsInv DtorsPres ProcModel Props_Proc Props_Byte ScriptProofs ForkProofs PexitModel PexitSpec PexitProofs.
Import ListNotations.
Open Scope Z_scope.

Lemma exec_one c tr s : DtorsModel.exec c tr s -> c_thread c = false -> nthr s = 1%nat.
Proof.
  intros E H. induction E as [|tr s t a x s' E IH St]; [reflexivity|].
  pose proof (dstep_effect _ _ _ _ _ _ St) as Ef. rewrite (e_nthr _ _ _ _ _ Ef). destruct x; auto.
  destruct (e_guard _ _ _ _ _ Ef) as [_ X]. congruence.
Qed.

Section Fork.
Variables (c : dcfg) (fini : nat -> qprog).
Local Notation N := (fini_entries c).

Section left.
  Variables (C : nat -> qprog) (G : fid -> qprog).
  Local Notation vals := (vals C).
  Local Notation pend := (pend G).
  Local Notation pendt := (pendt G).

  (** As [kont], but of text only the totals. *)
  Inductive akont (fv : Z) : bool -> who -> list frame -> stage -> bool -> Z -> list Z -> Prop :=
  | K_thread : akont fv false WThread [] Early true 0 []
  | K_tfn f : akont fv false (WT f) [FDtors] Early false fv []
  | K_main : akont fv true WMain [] Early true 0 (fini_total fini N)
  | K_xtfn st f bot : existsb isfini bot = false -> akont fv true (WT f) (FX st XT :: bot) Early false st (fini_total fini N)
  | K_pfn st f bot : existsb isfini bot = false -> akont fv true (WP f) (FX st XLock :: bot) Late false st (fini_total fini N)
  | K_fini st k bot : akont fv true (WF k) (FX st (XFini k) :: bot) Last false st (fini_total fini k).

  Definition waitt (d : stage) (l : list fid) : list Z := match d with Early => pendt l | _ => [] end.
  (** What is being registered counts as long as it will be called. *)
  Definition regt (d : stage) (f : fid) : list Z := match d with Last => [] | _ => total Late (G f) [] end.
  (** Only what threads other than main print. *)
  Definition text (ism : bool) (p : qprog) (vs : list Z) (l : list fid) : list Z := if ism then [] else prints p vs ++ after p vs ++ pend l.

  Inductive aleft (fv : Z) : bool -> list frame -> option act -> list fid -> Z -> list Z -> list Z -> Prop :=
  | L_user ism w fs p hs l d o r T2 : akont fv ism w fs d o r T2 ->
      aleft fv ism (FUser w :: fs) (Some (Act w p hs)) l (if o then value p (vals hs) else r)
        (text ism p (vals hs) l) (total d p (vals hs) ++ waitt d l ++ T2)
  | L_reg fr f ism w fs p hs l d o r T2 : fr = FLock f \/ fr = FPush f -> akont fv ism w fs d o r T2 ->
      aleft fv ism (fr :: FUser w :: fs) (Some (Act w p hs)) l (if o then value p (vals hs) else r)
        (text ism p (vals hs) l) (total d p (vals hs) ++ (waitt d l ++ T2) ++ regt d f)
  | L_regend ism w fs p hs l d o r T2 : akont fv ism w fs d o r T2 ->
      aleft fv ism (FUnlock :: FUser w :: fs) (Some (Act w p hs)) l (if o then value p (vals hs) else r)
        (text ism p (vals hs) l) (total d p (vals hs) ++ waitt d l ++ T2)
  | L_dtors l : aleft fv false [FDtors] None l fv (pend l) (pendt l)
  | L_done l : aleft fv false [] None l fv [] []
  | L_xt st l bot : existsb isfini bot = false -> aleft fv true (FX st XT :: bot) None l st [] (pendt l ++ fini_total fini N)
  | L_x st ph l bot : existsb isfini bot = false -> ph = XLock \/ ph = XPop -> aleft fv true (FX st ph :: bot) None l st [] (fini_total fini N)
  | L_xf st ph f l bot : existsb isfini bot = false -> ph = XUnlock f \/ ph = XCall f ->
      aleft fv true (FX st ph :: bot) None l st [] (total Late (G f) [] ++ fini_total fini N)
  | L_xfini st k l bot : aleft fv true (FX st (XFini k) :: bot) None l st [] (fini_total fini k).
End left.

(** Registered functions that will still be called: none once exit has found the
    list empty. *)
Definition pool (G : fid -> qprog) (d : dst) : list Z := if existsb isfini (frames d 0%nat) then [] else ppt G (pdt d).

Lemma aleft_ext C C' G G' fv ism fs a l v os tt : aleft C G fv ism fs a l v os tt ->
  (forall j, In j (kids a) -> C' j = C j) -> (forall f, In f (infl fs ++ l) -> G' f = G f) -> aleft C' G' fv ism fs a l v os tt.
Proof.
  intros H HC HG. destruct (pend_ext G G' l) as (E1 & E2 & _). { intros f Hf. apply HG. apply in_or_app. auto. }
  assert (TX : forall b p vs, text G b p vs l = text G' b p vs l) by (intros; unfold text; rewrite E1; reflexivity).
  assert (WX : forall d, waitt G d l = waitt G' d l) by (intros; unfold waitt; rewrite E2; reflexivity).
  destruct H; try (cbn in HC; rewrite <- (vals_ext C C' hs HC), TX, WX).
  - apply L_user; assumption.
  - replace (regt G d f) with (regt G' d f); [apply L_reg; assumption|]. unfold regt. rewrite HG; [reflexivity|]. destruct H as [->| ->]; left; reflexivity.
  - apply L_regend; assumption.
  - rewrite <- E1, <- E2. apply L_dtors.
  - apply L_done.
  - rewrite <- E2. apply L_xt; assumption.
  - apply L_x; assumption.
  - rewrite <- (HG f); [apply L_xf; assumption|]. destruct H0 as [->| ->]; left; reflexivity.
  - apply L_xfini.
Qed.

(** Entering exit. *)
Lemma exits_left C G tr d t fv st bot : DtorsInv.inv c tr d -> existsb isfini bot = false ->
  aleft C G fv true (FX st (first_phase c) :: bot) None (tdt d t) st [] (pendt G (tdt d t) ++ fini_total fini N).
Proof.
  intros I B. pose proof (i_tae _ _ _ I) as TAE. unfold first_phase. destruct (c_tae c); [apply L_xt; exact B|].
  rewrite (TAE eq_refl t). cbn [pendt flat_map app]. unfold after_t. destruct (c_pae c); [apply L_x; auto|apply L_xfini].
Qed.

Ltac other_x := match goal with H : _ = _ \/ _ |- _ => destruct H as [X|X]; discriminate X end.

(** The frames of main tell whether the list still counts. *)
Lemma akont_fini fv w fs d o r T2 : akont fv true w fs d o r T2 -> existsb isfini fs = match d with Last => true | _ => false end.
Proof. destruct 1; cbn; auto. Qed.

Lemma pool_eq G d d' : existsb isfini (frames d' 0%nat) = existsb isfini (frames d 0%nat) -> pdt d' = pdt d -> pool G d' = pool G d.
Proof. intros E1 E2. unfold pool. rewrite E1, E2. reflexivity. Qed.

Lemma own_fns C tr d m t ac x d' m' fv v os tt : DtorsInv.inv c tr d -> (c_pae c = false -> pdt d = []) -> (c_thread c = false -> nthr d = 1%nat) ->
  (t < nthr d)%nat -> dstep c d t ac = Some (x, d') -> fns_only x = true ->
  qollows fini m (PFns t x) m' -> known d ->
  aleft C (freg m) fv (Nat.eqb t 0) (frames d t) (acts m t) (tdt d t) v os tt ->
  exists tt', aleft C (freg m') fv (Nat.eqb t 0) (frames d' t) (acts m' t) (tdt d' t) v os tt' /\
    Permutation (tt ++ pool (freg m) d) (tt' ++ pool (freg m') d').
Proof.
  intros I PAE ONE LTN D FO F (K1 & K2 & K3) L. pose proof (i_tae _ _ _ I) as TAE.
  (* main's list does not change *)
  assert (SAME : forall fs fs' G, frames d t = fs -> frames d' t = fs' -> pdt d' = pdt d -> (forall u, u <> t -> frames d' u = frames d u) ->
     (t = 0%nat -> existsb isfini fs' = existsb isfini fs \/ pdt d = []) -> (forall f, In f (pdt d) -> G f = freg m f) -> pool G d' = pool (freg m) d).
  { intros fs fs' G E1 E2 E3 E4 E5 E6. transitivity (pool G d).
    - destruct (Nat.eq_dec 0 t) as [<-|D0]; [|apply pool_eq; [rewrite E4; auto|exact E3]].
      destruct (E5 eq_refl) as [E7|E7]; [apply pool_eq; [rewrite E1, E2; auto|exact E3]|]. unfold pool. rewrite E3, E7. cbn. destruct (existsb isfini (frames d 0%nat)), (existsb isfini (frames d' 0%nat)); reflexivity.
    - unfold pool. destruct (existsb isfini (frames d 0%nat)); [reflexivity|]. destruct (pend_ext (freg m) G (pdt d) E6) as (_ & _ & _ & _ & X). exact X. }
  assert (PA : forall st bot, existsb isfini bot = false -> existsb isfini (FX st (after_t c) :: bot) = false \/ pdt d = []).
  { intros st bot B. unfold after_t. destruct (c_pae c); [left; exact B|right; auto]. }
  assert (PH : forall st bot, existsb isfini bot = false -> existsb isfini (FX st (first_phase c) :: bot) = false \/ pdt d = []).
  { intros st bot B. unfold first_phase. destruct (c_tae c); [left; exact B|auto]. }
  pose proof (dstep_effect _ _ _ _ _ _ D) as Ef. pose proof (e_other _ _ _ _ _ Ef) as EO. pose proof (e_pdt _ _ _ _ _ Ef) as EP.
  apply dstep_inv in D as [Tm St].
  destruct St as [w fs E|w fs E Hc|w fs E Hc|w fs st E|w fs st E|w fs E|w fs E Hc|fs st E|fs E|w fs E N1 N2|f fs s1 E Lk|f fs E|fs E
    |f l fs E Hc Dt|fs E Dt|st f l fs E Dt|st fs E Dt|st fs s1 E Lk|st f l fs E Dt|st fs E Dt|st f fs E|st f fs E|st k fs E|st fs E|st fs E|fs E];
    try discriminate FO; try (inversion F; subst; contradiction); rewrite E in L.
  - (* Nop *) inversion F; subst m'. rewrite E. eexists. split; [exact L|apply Permutation_refl].
  - (* RegT *) inversion F; subst; try contradiction. cbn [acts freg fset aset frames tdt bump set_tdt]. rewrite dupd_eq, dupd_eq, E.
    match goal with H : acts m t = _ |- _ => rewrite H in L end.
    destruct (pend_ext (freg m) (dupd (freg m) (nextf d) q) (tdt d t)) as (E1 & E2 & _).
    { intros f Hf. apply dupd_ne. specialize (K1 _ _ Hf). lia. }
    inversion L; subst; try other_x. match goal with H : akont _ _ _ _ _ _ _ _ |- _ => rename H into K end.
    rewrite (SAME _ _ (dupd (freg m) (nextf d) q) E E eq_refl EO (fun _ => or_introl eq_refl)) by (intros f Hf; apply dupd_ne; specialize (K2 _ Hf); lia).
    set (G' := dupd (freg m) (nextf d) q) in *.
    assert (Gn : G' (nextf d) = q) by apply dupd_eq.
    eexists. split.
    + replace (text (freg m) (Nat.eqb t 0) (QAtThreadExit q k) (vals C hs) (tdt d t))
        with (text G' (Nat.eqb t 0) k (vals C hs) (nextf d :: tdt d t)).
      * exact (L_user C G' fv _ _ _ k hs (nextf d :: tdt d t) _ _ _ _ K).
      * unfold text. destruct (Nat.eqb t 0); [reflexivity|]. unfold pend at 1. cbn [flat_map prints after]. rewrite Gn. fold (pend G' (tdt d t)). rewrite E1. unfold said. rewrite <- !app_assoc. reflexivity.
    + apply Permutation_app_tail. cbn [total]. destruct d0; cbn [waitt app]; [|apply Permutation_refl|apply Permutation_refl].
      unfold pendt at 2. cbn [flat_map]. rewrite Gn. fold (pendt G' (tdt d t)). rewrite E2. rewrite <- !app_assoc. apply Permutation_app_swap_app.
  - (* BeginP *) inversion F; subst; try contradiction. match goal with H : acts m t = _ |- _ => rename H into A; rewrite A in L end.
    cbn [acts freg fset aset frames tdt bump set_frames]. rewrite !dupd_eq.
    destruct (pend_ext (freg m) (dupd (freg m) (nextf d) q) (tdt d t)) as (E1 & E2 & _).
    { intros f Hf. apply dupd_ne. specialize (K1 _ _ Hf). lia. }
    inversion L; subst; try other_x. match goal with H : akont _ _ _ _ _ _ _ _ |- _ => rename H into K end.
    rewrite (SAME _ (FLock (nextf d) :: FUser w0 :: fs) (dupd (freg m) (nextf d) q) E (dupd_eq _ _ _) eq_refl EO (fun _ => or_introl eq_refl)) by (intros f Hf; apply dupd_ne; specialize (K2 _ Hf); lia).
    set (G' := dupd (freg m) (nextf d) q) in *.
    assert (Gn : G' (nextf d) = q) by apply dupd_eq.
    eexists. split.
    + replace (text (freg m) (Nat.eqb t 0) (QAtExit q k) (vals C hs) (tdt d t)) with (text G' (Nat.eqb t 0) k (vals C hs) (tdt d t)).
      * exact (L_reg C G' fv _ _ _ _ _ k hs (tdt d t) _ _ _ _ (or_introl eq_refl) K).
      * unfold text. rewrite E1. reflexivity.
    + apply Permutation_app_tail. cbn [total]. unfold waitt, regt. rewrite E2, Gn. rewrite <- app_assoc. destruct d0; cbn [app]; try (rewrite !app_nil_r; apply Permutation_refl);
        (eapply Permutation_trans; [apply Permutation_app_comm|]); rewrite <- !app_assoc; apply Permutation_refl.
  - (* exit called by user code: origin_main's return *)
    inversion F; subst; try contradiction. match goal with H : acts m t = _ |- _ => rewrite H in L end. inversion L; subst; try other_x.
    match goal with H : akont _ _ _ _ _ _ _ _ |- _ => inversion H; subst end.
    erewrite (SAME _ (FX _ (first_phase c) :: [FUser WMain])); [|exact E|cbn; apply dupd_eq|reflexivity|exact EO|intros _; apply PH; reflexivity|auto].
    cbn [acts aset freg frames set_frames tdt]. rewrite !dupd_eq. cbn [value text prints after total waitt app].
    eexists. split; [eapply exits_left; eauto|apply Permutation_refl].
  - inversion F; subst; try contradiction. match goal with H : acts m t = _ |- _ => rewrite H in L end. inversion L; subst; try other_x.
    match goal with H : akont _ _ _ _ _ _ _ _ |- _ => inversion H; subst end.
    erewrite (SAME _ (FX _ (first_phase c) :: [])); [|exact E|cbn; apply dupd_eq|reflexivity|exact EO|intros _; apply PH; reflexivity|auto].
    cbn [acts aset freg frames set_frames tdt]. rewrite !dupd_eq. cbn [value text prints after total waitt app].
    eexists. split; [eapply exits_left; eauto|apply Permutation_refl].
  - (* an exit function returns *)
    inversion F; subst; try contradiction. match goal with H : acts m t = _ |- _ => rewrite H in L end. inversion L; subst; try other_x.
    erewrite (SAME _ fs); [|exact E|cbn; apply dupd_eq|reflexivity|exact EO|auto|auto].
    cbn [acts aset freg frames set_frames tdt]. rewrite !dupd_eq.
    match goal with H : akont _ _ _ _ _ _ _ _ |- _ => inversion H; subst end; try congruence;
      cbn [text prints after total waitt app]; rewrite ?app_nil_r;
      eexists; (split; [first [apply L_xfini|apply L_x; solve [auto]|constructor; solve [auto]]|apply Permutation_refl]).
  - (* lock in at_exit *) assert (m' = m) as -> by (inversion F; reflexivity).
    assert (TD : tdt s1 t = tdt d t) by (unfold try_lock in Lk; destruct (c_thread c); [destruct (lk d); [discriminate|]|]; inversion Lk; auto).
    erewrite (SAME _ (FPush f :: fs)); [|exact E|cbn; apply dupd_eq|exact EP|exact EO|auto|auto].
    cbn [frames set_frames tdt]; rewrite dupd_eq, TD.
    inversion L; subst. match goal with H : _ = _ \/ _ |- _ => destruct H as [X|X]; [injection X as <-|discriminate X] end.
    try match goal with H : _ = acts _ t |- _ => rewrite <- H end.
    eexists. split; [eapply L_reg; eauto|apply Permutation_refl].
  - (* push *) assert (m' = m) as -> by (inversion F; reflexivity). cbn [frames set_frames tdt pdt set_pdt]; rewrite dupd_eq.
    inversion L; subst. match goal with H : _ = _ \/ _ |- _ => destruct H as [X|X]; [discriminate X|injection X as <-] end.
    match goal with H : akont _ _ _ _ _ _ _ _ |- _ => rename H into K end.
    eexists. split; [match goal with H : Some _ = acts _ t |- _ => try rewrite <- H end; eapply L_regend; eauto|].
    rewrite <- !app_assoc. do 3 apply Permutation_app_head. unfold pool. cbn [frames set_frames set_pdt pdt].
    destruct (Nat.eqb_spec t 0) as [->|D0].
    + rewrite dupd_eq, E. cbn [existsb isfini orb]. rewrite (akont_fini _ _ _ _ _ _ _ K). destruct d0; cbn [regt app]; apply Permutation_refl.
    + rewrite dupd_ne by auto.
      assert (NFS : existsb isfini (frames d 0%nat) = false).
      { destruct (existsb isfini (frames d 0%nat)) eqn:X; [exfalso|reflexivity]. apply D0.
        assert (CT : c_thread c = true) by (destruct (c_thread c); [reflexivity|rewrite ONE in LTN by auto; lia]).
        assert (CP : c_pae c = true). { destruct (c_pae c) eqn:Y; [reflexivity|]. pose proof (i_pae _ _ _ I Y t) as Z. rewrite E in Z. discriminate Z. }
        pose proof (proj2 (i_hold _ _ _ I CT 0%nat)) as HA. pose proof (proj2 (i_hold _ _ _ I CT t)) as HB.
        unfold holds in HA, HB. rewrite E in HB. rewrite X, CP in HA. rewrite orb_true_r in HA. specialize (HA eq_refl). specialize (HB eq_refl). congruence. }
      rewrite NFS. inversion K; subst; cbn [regt app]; apply Permutation_refl.
  - (* unlock *) assert (m' = m) as -> by (inversion F; reflexivity).
    assert (TD : tdt (unlock c d) t = tdt d t) by (unfold unlock; destruct (c_thread c); auto).
    erewrite (SAME _ fs); [|exact E|cbn; apply dupd_eq|exact EP|exact EO|auto|auto].
    cbn [frames set_frames tdt]; rewrite dupd_eq, TD.
    inversion L; subst; try other_x.
    try match goal with H : _ = acts _ t |- _ => rewrite <- H end.
    eexists. split; [eapply L_user; eauto|apply Permutation_refl].
  - (* CallT in FDtors *)
    inversion L; subst; try other_x. inversion F; subst; try contradiction.
    erewrite (SAME _ (FUser (WT f) :: FDtors :: [])); [|exact E|cbn; apply dupd_eq|reflexivity|exact EO|auto|auto].
    cbn [acts aset freg frames set_frames set_tdt tdt pdt]. rewrite !dupd_eq. rewrite Dt.
    eexists. split; [|apply Permutation_refl].
    pose proof (L_user C (freg m) v _ _ _ (freg m f) [] l _ _ _ _ (K_tfn v f)) as X. cbn [vals map text waitt] in X. rewrite !app_nil_r in X.
    unfold pend at 1. cbn [flat_map]. unfold said. rewrite <- app_assoc. unfold pendt at 1. cbn [flat_map]. exact X.
  - (* XT *)
    inversion L; subst; try other_x. inversion F; subst; try contradiction.
    erewrite (SAME _ (FUser (WT f) :: FX v XT :: fs)); [|exact E|cbn; apply dupd_eq|reflexivity|exact EO|auto|auto].
    cbn [acts aset freg frames set_frames set_tdt tdt pdt]. rewrite !dupd_eq. rewrite Dt.
    eexists. split; [|apply Permutation_refl].
    match goal with H : existsb isfini fs = false |- _ => pose proof (L_user C (freg m) fv _ _ _ (freg m f) [] l _ _ _ _ (K_xtfn fv v f fs H)) as X end. cbn [vals map text waitt] in X.
    unfold pendt at 1. cbn [flat_map]. repeat rewrite <- app_assoc. exact X.
  - inversion L; subst; try other_x. inversion F; subst.
    erewrite (SAME _ (FX v (after_t c) :: fs)); [|exact E|cbn; apply dupd_eq|reflexivity|exact EO|intros _; change (existsb isfini (FX v XT :: fs)) with (existsb isfini fs); match goal with H : existsb isfini fs = false |- _ => rewrite H; exact (PA v fs H) end|auto].
    cbn [acts aset freg frames set_frames set_tdt tdt pdt]. rewrite !dupd_eq. rewrite Dt.
    cbn [pendt flat_map app]. try match goal with H : _ = acts _ t |- _ => rewrite <- H end.
    unfold after_t. destruct (c_pae c); (eexists; split; [first [apply L_xfini|apply L_x; solve [auto]]|apply Permutation_refl]).
  - (* lock *) inversion L; subst; try other_x. assert (m' = m) as -> by (inversion F; reflexivity).
    assert (TD : tdt s1 t = tdt d t) by (unfold try_lock in Lk; destruct (c_thread c); [destruct (lk d); [discriminate|]|]; inversion Lk; auto).
    erewrite (SAME _ (FX v XPop :: fs)); [|exact E|cbn; apply dupd_eq|exact EP|exact EO|auto|auto].
    cbn [frames set_frames tdt pdt]; rewrite dupd_eq, TD; try match goal with H : _ = acts _ t |- _ => rewrite <- H end.
    eexists; (split; [apply L_x; auto|apply Permutation_refl]).
  - (* take *) inversion L; subst; try other_x. assert (m' = m) as -> by (inversion F; reflexivity).
    assert (t = 0%nat) as -> by (apply Nat.eqb_eq; auto).
    assert (X : pool (freg m) d = total Late (freg m f) [] ++ pool (freg m) (set_frames (set_pdt d l) 0%nat (FX v (XUnlock f) :: fs))).
    { unfold pool. cbn [frames set_frames set_pdt pdt]. rewrite dupd_eq, E. cbn [existsb isfini orb]. match goal with H : existsb isfini fs = false |- _ => rewrite H end. rewrite Dt. reflexivity. }
    rewrite X. cbn [frames set_frames tdt pdt set_pdt]; rewrite dupd_eq; try match goal with H : _ = acts _ 0%nat |- _ => rewrite <- H end.
    eexists; (split; [apply L_xf; auto|]). rewrite <- app_assoc. apply Permutation_app_swap_app.
  - (* empty *) inversion L; subst; try other_x. assert (m' = m) as -> by (inversion F; reflexivity).
    erewrite (SAME _ (FX v (XFini (DtorsModel.nfini c)) :: fs)); [|exact E|cbn; apply dupd_eq|exact EP|exact EO|auto|auto].
    cbn [frames set_frames tdt pdt]; rewrite dupd_eq. try match goal with H : _ = acts _ t |- _ => rewrite <- H end.
    eexists; (split; [apply L_xfini|apply Permutation_refl]).
  - (* unlock *) inversion L; subst; try other_x. match goal with H : _ = _ \/ _ |- _ => destruct H as [X|X]; [injection X as <-|discriminate X] end.
    assert (m' = m) as -> by (inversion F; reflexivity).
    assert (TD : tdt (unlock c d) t = tdt d t) by (unfold unlock; destruct (c_thread c); auto).
    erewrite (SAME _ (FX v (XCall f) :: fs)); [|exact E|cbn; apply dupd_eq|exact EP|exact EO|auto|auto].
    cbn [frames set_frames tdt pdt]; rewrite dupd_eq, TD. try match goal with H : _ = acts _ t |- _ => rewrite <- H end.
    eexists; (split; [apply L_xf; auto|apply Permutation_refl]).
  - (* CallP *) inversion L; subst; try other_x. match goal with H : _ = _ \/ _ |- _ => destruct H as [X|X]; [discriminate X|injection X as <-] end.
    inversion F; subst; try contradiction.
    erewrite (SAME _ (FUser (WP f) :: FX v XLock :: fs)); [|exact E|cbn; apply dupd_eq|reflexivity|exact EO|auto|auto].
    cbn [acts aset freg frames set_frames set_tdt tdt pdt]. rewrite !dupd_eq.
    eexists. split; [|apply Permutation_refl].
    match goal with H : existsb isfini fs = false |- _ => exact (L_user C (freg m) fv _ _ _ (freg m f) [] (tdt d t) _ _ _ _ (K_pfn fv v f fs H)) end.
  - (* fini *) inversion L; subst; try other_x. inversion F; subst; try contradiction.
    erewrite (SAME _ (FUser (WF k) :: FX v (XFini k) :: fs)); [|exact E|cbn; apply dupd_eq|reflexivity|exact EO|auto|auto].
    cbn [acts aset freg frames set_frames set_tdt tdt pdt]. rewrite !dupd_eq.
    eexists. split; [|apply Permutation_refl].
    exact (L_user C (freg m) fv _ _ _ (fini k) [] (tdt d t) _ _ _ _ (K_fini fv v k fs)).
  - (* the end *) assert (m' = m) as -> by (inversion F; reflexivity). cbn [finish frames tdt pdt]. rewrite E. eexists. split; [exact L|apply Permutation_refl].
  - inversion L; other_x.
  - inversion L; other_x.
Qed.
(** ** The whole program *)
Variables (e : benv) (main : qprog).
Local Notation qrun := (qrun fini main e c).

Record ainv (tr : list pevent) (s : pst) (m : qmach) (g : nat -> list Z) : Prop := {
  a_new : forall t, (nthr (fns s) <= t)%nat -> acts m t = None;
  a_left : forall t, (t < nthr (fns s))%nat -> exists os,
    aleft (code m) (freg m) (fval s t) (Nat.eqb t 0) (frames (fns s) t) (acts m t) (tdt (fns s) t) (value (code m t) []) os (g t) /\
    (t <> 0%nat -> out_of m t ++ os = said (code m t));
  a_perm : Permutation (map snd (fout m) ++ flat_map g (seq 0 (nthr (fns s))) ++ pool (freg m) (fns s)) (total Early main [] ++ fini_total fini N);
  a_kids : forall t j, In j (kids (acts m t)) -> (0 < j < nthr (fns s))%nat;
  a_ret : forall t v, In (PReturns t v) tr -> (t < nthr (fns s))%nat /\ v = value (code m t) [];
  a_out : forall x, In x (fout m) -> (fst x < nthr (fns s))%nat;
  a_main : code m 0%nat = main /\ (0 < nthr (fns s))%nat }.

Lemma perm_pool (g : nat -> list Z) n t o tt A B : (t < n)%nat -> Permutation (g t ++ A) (o ++ tt ++ B) ->
  Permutation ((o ++ flat_map (dupd g t tt) (seq 0 n)) ++ B) (flat_map g (seq 0 n) ++ A).
Proof.
  intros L P. assert (I : In t (seq 0 n)) by (apply in_seq; lia).
  pose proof (seq_NoDup n 0) as ND. apply in_split in I as (l1 & l2 & E). rewrite E in *.
  apply NoDup_remove_2 in ND. rewrite !flat_map_app. cbn [flat_map].
  assert (X : forall l, ~ In t l -> flat_map (dupd g t tt) l = flat_map g l).
  { induction l as [|y l IH]; cbn; [reflexivity|]. intros Hn. rewrite dupd_ne by tauto. rewrite IH by tauto. reflexivity. }
  rewrite (X l1), (X l2) by (intros Y; apply ND; apply in_or_app; auto). rewrite dupd_eq.
  set (a := flat_map g l1). set (b := flat_map g l2). rewrite <- !app_assoc.
  transitivity ((a ++ b) ++ (o ++ tt ++ B)).
  - rewrite <- !app_assoc. eapply Permutation_trans; [apply Permutation_app_swap_app|]. apply Permutation_app_head.
    eapply Permutation_trans; [|apply Permutation_app_swap_app]. apply Permutation_app_head. apply Permutation_app_swap_app.
  - rewrite <- P. rewrite <- !app_assoc. apply Permutation_app_head. apply Permutation_app_swap_app.
Qed.

Lemma ainv_upd tr s m g tr' s' m' t o : ainv tr s m g -> (t < nthr (fns s))%nat ->
  nthr (fns s') = nthr (fns s) ->
  (forall u, u <> t -> frames (fns s') u = frames (fns s) u /\ tdt (fns s') u = tdt (fns s) u /\ acts m' u = acts m u /\ fval s' u = fval s u) ->
  (forall u f, u <> t -> In f (infl (frames (fns s) u) ++ tdt (fns s) u) -> freg m' f = freg m f) ->
  code m' = code m -> fout m' = fout m ++ map (pair t) o ->
  incl (kids (acts m' t)) (kids (acts m t)) ->
  (forall u v, In (PReturns u v) tr' -> In (PReturns u v) tr \/ (u = t /\ v = value (code m t) [])) ->
  (forall os tt, aleft (code m) (freg m) (fval s t) (Nat.eqb t 0) (frames (fns s) t) (acts m t) (tdt (fns s) t) (value (code m t) []) os tt ->
     exists os' tt', aleft (code m) (freg m') (fval s' t) (Nat.eqb t 0) (frames (fns s') t) (acts m' t) (tdt (fns s') t) (value (code m t) []) os' tt' /\
       (t <> 0%nat -> os = o ++ os') /\ Permutation (tt ++ pool (freg m) (fns s)) (o ++ tt' ++ pool (freg m') (fns s'))) ->
  exists g', ainv tr' s' m' g'.
Proof.
  intros [V1 V2 V3 V4 V5 V6 V8] Lt En Ot Fr Co Fo Ki Re Lf.
  destruct (V2 t Lt) as (os & Hl & Ho). destruct (Lf _ _ Hl) as (os' & tt' & Hl' & EOs & P).
  exists (dupd g t tt'). constructor.
  - intros u Hu. destruct (Nat.eq_dec u t) as [->|D]; [lia|]. destruct (Ot u D) as (_ & _ & -> & _). apply V1. lia.
  - intros u Hu. rewrite En in Hu. rewrite Co. rewrite (out_of_app _ _ _ _ u Fo). destruct (Nat.eq_dec u t) as [->|D].
    + rewrite dupd_eq, Nat.eqb_refl. exists os'. split; [exact Hl'|]. intros D0. rewrite <- (Ho D0), (EOs D0). rewrite <- app_assoc. reflexivity.
    + rewrite dupd_ne by auto. destruct (V2 u Hu) as (os1 & H1 & H2). destruct (Ot u D) as (-> & -> & -> & ->).
      exists os1. split; [eapply aleft_ext; eauto|]. destruct (Nat.eqb_spec u t); [contradiction|]. rewrite app_nil_r. exact H2.
  - rewrite En, Fo, map_app, map_map. cbn [snd]. rewrite map_id, <- app_assoc.
    eapply Permutation_trans; [|exact V3]. apply Permutation_app_head. rewrite app_assoc. apply perm_pool; auto.
  - intros u j Hj. rewrite En. destruct (Nat.eq_dec u t) as [->|D]; [apply (V4 t); apply Ki; exact Hj|].
    destruct (Ot u D) as (_ & _ & E & _). rewrite E in Hj. eauto.
  - intros u v Hi. rewrite En, Co. destruct (Re _ _ Hi) as [X|[-> ->]]; [apply V5; exact X|auto].
  - intros x Hx. rewrite En. rewrite Fo in Hx. apply in_app_iff in Hx as [Hx|Hx]; [auto|]. apply in_map_iff in Hx as (z & <- & _). exact Lt.
  - rewrite En, Co. exact V8.
Qed.

Lemma aact_lt tr s m g t a : ainv tr s m g -> acts m t = Some a -> (t < nthr (fns s))%nat.
Proof. intros V A. destruct (le_lt_dec (nthr (fns s)) t) as [X|X]; [|exact X]. rewrite (a_new _ _ _ _ V t X) in A. discriminate. Qed.

(** Nothing visible changes. *)
Lemma ainv_same tr s m g tr' s' : ainv tr s m g -> fns s' = fns s -> fval s' = fval s ->
  (forall u v, In (PReturns u v) tr' -> In (PReturns u v) tr) -> ainv tr' s' m g.
Proof. intros [V1 V2 V3 V4 V5 V6 V8] E1 E2 R. constructor; rewrite ?E1, ?E2; auto. Qed.

(** An activation goes on with a program that means the same, or prints. *)
Lemma ainv_act tr s m g tr' s' t w p hs p' o : ainv tr s m g -> fns s' = fns s -> fval s' = fval s ->
  (forall u v, In (PReturns u v) tr' -> In (PReturns u v) tr) ->
  acts m t = Some (Act w p hs) ->
  (let vs := vals (code m) hs in value p' vs = value p vs /\ prints p vs = o ++ prints p' vs /\ after p' vs = after p vs /\
     forall d, total d p vs = o ++ total d p' vs) ->
  exists g', ainv tr' s' (QMach (dupd (acts m) t (Some (Act w p' hs))) (freg m) (code m) (fout m ++ map (pair t) o)) g'.
Proof.
  intros V E1 E2 R A (P1 & P2 & P3 & P4).
  eapply (ainv_upd tr s m g tr' s' _ t o V); cbn [code freg acts fout]; rewrite ?E1, ?E2; auto.
  - eapply aact_lt; eauto.
  - intros u D. rewrite dupd_ne by auto. auto.
  - rewrite dupd_eq, A. cbn. apply incl_refl.
  - intros os tt L. rewrite dupd_eq. rewrite A in L. generalize dependent (value (code m t) []). intros V0 L.
    assert (TT : forall l, Nat.eqb t 0 = false -> text (freg m) (Nat.eqb t 0) p (vals (code m) hs) l = o ++ text (freg m) (Nat.eqb t 0) p' (vals (code m) hs) l).
    { intros l X. unfold text. rewrite X, P2, P3. rewrite <- !app_assoc. reflexivity. }
    inversion L; subst.
    + eexists _, _. split; [rewrite <- P1; apply L_user; eassumption|]. split; [intros D0; apply TT, Nat.eqb_neq; exact D0|].
      rewrite P4. repeat rewrite <- app_assoc. apply Permutation_refl.
    + eexists _, _. split; [rewrite <- P1; apply L_reg; eassumption|]. split; [intros D0; apply TT, Nat.eqb_neq; exact D0|].
      rewrite P4. repeat rewrite <- app_assoc. apply Permutation_refl.
    + eexists _, _. split; [rewrite <- P1; apply L_regend; eassumption|]. split; [intros D0; apply TT, Nat.eqb_neq; exact D0|].
      rewrite P4. repeat rewrite <- app_assoc. apply Permutation_refl.
Qed.

Lemma ainv_init b : ainv [] (PSt b dinit (fun _ => 0)) (QMach (dupd (fun _ => None) 0%nat (Some (Act WMain main []))) (fun _ => QReturn 0) (dupd (fun _ => QReturn 0) 0%nat main) [])
  (fun _ => total Early main [] ++ fini_total fini N).
Proof.
  constructor; cbn [fns life fval nthr dinit frames tdt pdt acts code fout freg].
  - intros t Ht. rewrite dupd_ne by lia. reflexivity.
  - intros t Ht. assert (t = 0%nat) as -> by lia. rewrite !dupd_eq. eexists. split; [|intros X; contradiction X; reflexivity].
    pose proof (L_user (dupd (fun _ => QReturn 0) 0%nat main) (fun _ => QReturn 0) 0 _ _ _ main [] [] _ _ _ _ (K_main 0)) as X.
    cbn [vals map waitt pendt flat_map app] in X. exact X.
  - cbn. rewrite !app_nil_r. apply Permutation_refl.
  - intros t j. unfold dupd. destruct (Nat.eqb t 0); intros [].
  - intros t v [].
  - intros x [].
  - split; [apply dupd_eq|lia].
Qed.

Lemma ainv_step tr s m g x s' m' : good_env e -> prun e c tr s -> ainv tr s m g -> pstep e c s x s' -> qollows fini m x m' ->
  exists g', ainv (tr ++ [x]) s' m' g'.
Proof.
  intros Ge R V St F.
  destruct (proj _ _ _ _ R) as [RB RD]. pose proof (exec_inv _ _ _ RD) as I. pose proof (fexec_known _ _ _ RD) as K.
  assert (R' : prun e c (tr ++ [x]) s') by (econstructor; eauto).
  assert (POOL : forall t fs fs' G, G = freg m -> frames (fns s) t = fs -> existsb isfini fs' = existsb isfini fs -> pool G (set_frames (fns s) t fs') = pool (freg m) (fns s)).
  { intros t fs fs' G -> E1 E2. apply pool_eq; [|reflexivity]. cbn [set_frames frames]. destruct (Nat.eq_dec 0 t) as [<-|D0]; [rewrite dupd_eq, E1; exact E2|rewrite dupd_ne by auto; reflexivity]. }
  destruct St as [acc b' T' B|acc i ins x b' T' B LO AC|t0 act x d' DS FO PC|t0 v d' DS PC UV|acc i ins j b' d' B DS|acc t0 ins b' d' DS B].
  - (* user *) assert (m' = m) as -> by (inversion F; reflexivity). exists g. eapply ainv_same; eauto.
    intros u v H. apply in_app_iff in H as [H|[H|[]]]; [exact H|discriminate].
  - (* life *)
    assert (SAME : m' = m -> exists g', ainv (tr ++ [PLife (i, ins, x)]) (PSt b' (fns s) (fval s)) m' g').
    { intros ->. exists g. eapply ainv_same; eauto. intros u v. apply life_ret. }
    inversion F; subst; auto.
    + (* join *)
      match goal with H : acts m i = _ |- _ => rename H into A end. match goal with H : nth_error _ _ = _ |- _ => rename H into Nt end.
      destruct (C62_join_partial e c tr i ins j v _ Ge R') as [VR _]. assert (Pr : In (PReturns j v) tr) by (apply VR; reflexivity).
      destruct (a_ret _ _ _ _ V _ _ Pr) as [_ Ev].
      destruct (ainv_act tr s m g (tr ++ [PLife (i, ins, EJoin j v)]) (PSt b' (fns s) (fval s)) i w (QJoin n k) hs (k v) [] V eq_refl eq_refl) as [g' V']; auto.
      * intros u v0. apply life_ret.
      * cbn [value prints after total app]. rewrite (nth_vals _ _ _ _ Nt), <- Ev. repeat split; reflexivity.
      * exists g'. cbn [map] in V'. rewrite app_nil_r in V'. exact V'.
    + (* detach *)
      match goal with H : acts m i = _ |- _ => rename H into A end.
      destruct (ainv_act tr s m g (tr ++ [PLife (i, ins, EDetach j)]) (PSt b' (fns s) (fval s)) i w (QDetach n k) hs k [] V eq_refl eq_refl) as [g' V']; auto.
      * intros u v0. apply life_ret.
      * exists g'. cbn [map] in V'. rewrite app_nil_r in V'. exact V'.
  - (* exit functions *)
    pose proof (dstep_effect _ _ _ _ _ _ DS) as Ef. pose proof Ef as [_ EL _ EF ET EP _ _ EN _ EG _].
    assert (Lt : (t0 < nthr (fns s))%nat).
    { destruct (le_lt_dec (nthr (fns s)) t0) as [X|X]; [|exact X]. destruct (i_new _ _ _ I t0 X) as [Y _]. contradiction. }
    eapply (ainv_upd tr s m g _ _ _ t0 [] V Lt); cbn [fns fval].
    + rewrite EN. destruct x; try reflexivity. discriminate FO.
    + intros u D. rewrite EF, ET by auto. split; [destruct x; try reflexivity; discriminate FO|]. split.
      * destruct x; try reflexivity; try (destruct (Nat.eqb_spec u t0); [contradiction|reflexivity]). discriminate FO.
      * split; [|reflexivity]. inversion F; subst; cbn [acts aset fset]; rewrite ?dupd_ne by auto; reflexivity.
    + intros u f D Hf.
      assert (FL : (f < nextf (fns s))%nat).
      { destruct K as (K1 & _ & K3). apply in_app_iff in Hf as [Hf|Hf]; [|eauto]. unfold infl in Hf. destruct (frames (fns s) u) as [|fr fs] eqn:Fr0; [destruct Hf|].
        apply (K3 u fr); [rewrite Fr0; left; reflexivity|exact Hf]. }
      inversion F; subst; cbn [freg aset fset]; try reflexivity; apply dupd_ne; destruct EG as [-> _]; lia.
    + inversion F; subst; reflexivity.
    + cbn [map]. rewrite app_nil_r. inversion F; subst; reflexivity.
    + inversion F; subst; cbn [acts aset fset]; rewrite ?dupd_eq; try (intros y []); try apply incl_refl;
      match goal with H : acts m t0 = _ |- _ => rewrite H end; apply incl_refl.
    + intros u v H. apply in_app_iff in H as [H|[H|[]]]; [left; exact H|discriminate].
    + intros os tt L. destruct (own_fns (code m) _ _ _ _ _ _ _ _ _ _ _ _ I (exec_pae _ _ _ RD) (exec_one _ _ _ RD) Lt DS FO F K L) as (tt' & L' & P).
      exists os, tt'. auto.
  - (* a thread function returns *)
    pose proof (dstep_effect _ _ _ _ _ _ DS) as Ef. pose proof Ef as [_ EL _ EF ET EP _ _ EN _ EG _].
    assert (Lt : (t0 < nthr (fns s))%nat).
    { destruct (le_lt_dec (nthr (fns s)) t0) as [X|X]; [|exact X]. destruct (i_new _ _ _ I t0 X) as [Y _]. contradiction. }
    inversion F; subst. match goal with H : acts m t0 = _ |- _ => rename H into A end.
    apply dstep_inv in DS as [_ DS]. inversion DS; subst; [|congruence]. match goal with H : frames (fns s) t0 = _ |- _ => rename H into Fr end.
    assert (Ev : v = value (code m t0) [] /\ fs = []).
    { destruct (a_left _ _ _ _ V t0 Lt) as (os & L & _). rewrite Fr, A in L. revert L. generalize (value (code m t0) []). intros V0 L.
      inversion L; subst; try other_x. match goal with H : akont _ _ _ _ _ _ _ _ |- _ => inversion H; subst end. auto. }
    destruct Ev as [Ev ->].
    eapply (ainv_upd tr s m g _ _ _ t0 [] V Lt); cbn [fns fval acts aset freg code fout map set_frames frames tdt pdt nthr]; auto.
    + intros u D. rewrite !dupd_ne by auto. auto.
    + rewrite app_nil_r. reflexivity.
    + rewrite dupd_eq. intros y [].
    + intros u v0 H. apply in_app_iff in H as [H|[H|[]]]; [left; exact H|right]. injection H as <- <-. auto.
    + intros os tt L. rewrite Fr, A in L. rewrite !dupd_eq. rewrite <- Ev in *.
      inversion L; subst; try other_x. match goal with H : akont _ _ _ _ _ _ _ _ |- _ => inversion H; subst end.
      cbn [text prints waitt after total app]. rewrite !app_nil_r. eexists _, _. split; [apply L_dtors|]. split; [auto|]. apply Permutation_app_head. rewrite (POOL _ _ _ _ eq_refl Fr); [apply Permutation_refl|reflexivity].
  - (* create *)
    pose proof (dstep_effect _ _ _ _ _ _ DS) as Ef. pose proof Ef as [_ EL _ EF ET EP _ _ EN _ EG _]. destruct EG as [-> _].
    inversion F; subst. match goal with H : acts m i = _ |- _ => rename H into A end.
    pose proof (aact_lt _ _ _ _ _ _ V A) as Lt. set (j := nthr (fns s)) in *.
    assert (NF : forall t, t <> j -> frames d' t = frames (fns s) t).
    { intros t D. apply dstep_inv in DS as [_ DS]. inversion DS; subst. cbn [spawn frames]. rewrite dupd_ne by auto. reflexivity. }
    assert (Fi : exists w0 fs0, frames (fns s) i = FUser w0 :: fs0).
    { apply dstep_inv in DS as [_ DS]. inversion DS; subst. eauto. }
    destruct Fi as (w0 & fs0 & Fi).
    assert (NJ : frames d' j = [FUser WThread] /\ pdt d' = pdt (fns s)).
    { rewrite EP. apply dstep_inv in DS as [_ DS]. inversion DS; subst. cbn [spawn frames]. split; [apply dupd_eq|reflexivity]. }
    destruct NJ as [NJ NP].
    pose proof V as [V1 V2 V3 V4 V5 V6 [V8 V9]].
    assert (KC : forall t q, In q (kids (acts m t)) -> dupd (code m) j f q = code m q).
    { intros t q Hq. apply dupd_ne. specialize (V4 _ _ Hq). lia. }
    destruct (V2 i Lt) as (os & L & Ho). rewrite A in L.
    assert (LI : exists tt', aleft (dupd (code m) j f) (freg m) (fval s i) (Nat.eqb i 0) (frames (fns s) i) (Some (Act w k (hs ++ [j]))) (tdt (fns s) i) (value (code m i) []) os tt' /\
        g i = total Early f [] ++ tt').
    { revert L. generalize (value (code m i) []) (g i). intros V0 gi L. rewrite Fi in L |- *. inversion L; subst; try other_x.
      assert (EV : vals (dupd (code m) j f) (hs ++ [j]) = vals (code m) hs ++ [value f []]).
      { rewrite vals_snoc, dupd_eq. f_equal. apply vals_ext. intros q Hq. apply (KC i). rewrite A. exact Hq. }
      eexists. split.
      - replace (text (freg m) (Nat.eqb i 0) (QCreate f k) (vals (code m) hs) (tdt (fns s) i))
          with (text (freg m) (Nat.eqb i 0) k (vals (dupd (code m) j f) (hs ++ [j])) (tdt (fns s) i)) by (unfold text; rewrite EV; reflexivity).
        cbn [value]. rewrite <- EV. eapply L_user. eassumption.
      - cbn [total]. rewrite EV. rewrite <- app_assoc. reflexivity. }
    destruct LI as (tt' & LI & Gi).
    exists (dupd (dupd g i tt') j (total Early f [])).
    constructor; cbn [fns fval acts aset cset freg code fout]; try rewrite EN.
    + intros t Ht. rewrite !dupd_ne by lia. apply V1. lia.
    + intros t Ht. destruct (Nat.eq_dec t j) as [->|Dj].
      * rewrite !dupd_eq, NJ, ET, Nat.eqb_refl. destruct (Nat.eqb_spec j 0) as [X|_]; [lia|].
        exists (said f). split.
        -- pose proof (L_user (dupd (code m) j f) (freg m) (fval s j) _ _ _ f [] [] _ _ _ _ (K_thread (fval s j))) as X.
           cbn [vals map text waitt pend pendt flat_map app] in X. rewrite !app_nil_r in X. exact X.
        -- intros _. unfold out_of. cbn [code fout cset aset].
           replace (filter (fun x => Nat.eqb (fst x) j) (fout m)) with (@nil (nat * Z)); [reflexivity|].
           symmetry. clear - V6. fold j in V6. induction (fout m) as [|y o IH]; [reflexivity|]. cbn.
           destruct (Nat.eqb_spec (fst y) j) as [X|_]; [specialize (V6 y (or_introl eq_refl)); lia|]. apply IH. intros x Hx. apply V6. right. exact Hx.
      * rewrite NF, ET by auto. destruct (Nat.eqb_spec t j) as [|_]; [contradiction|].
        cbn [code cset aset acts freg fout]. change (out_of (QMach (dupd (dupd (acts m) i (Some (Act w k (hs ++ [j])))) j (Some (Act WThread f []))) (freg m) (dupd (code m) j f) (fout m)) t) with (out_of m t).
        rewrite !(dupd_ne _ j) by auto.
        destruct (Nat.eq_dec t i) as [->|Di].
        -- rewrite !dupd_eq. exists os. split; [exact LI|exact Ho].
        -- rewrite !dupd_ne by auto. destruct (V2 t ltac:(lia)) as (os1 & L1 & H1). exists os1. split; [|exact H1].
           eapply aleft_ext; [exact L1| |auto]. intros q Hq. apply (KC t). exact Hq.
    + fold j. rewrite seq_S, flat_map_app. cbn [flat_map plus]. rewrite app_nil_r, dupd_eq.
      assert (X : flat_map (dupd (dupd g i tt') j (total Early f [])) (seq 0 j) = flat_map (dupd g i tt') (seq 0 j)).
      { rewrite !flat_map_concat_map. f_equal. apply map_ext_in. intros q Hq. apply in_seq in Hq. apply dupd_ne. lia. }
      rewrite X. eapply Permutation_trans; [|exact V3]. apply Permutation_app_head.
      assert (EP' : pool (freg m) d' = pool (freg m) (fns s)) by (apply pool_eq; [rewrite NF by lia; reflexivity|exact NP]).
      rewrite EP'. rewrite (Permutation_app_comm (flat_map (dupd g i tt') (seq 0 j))). apply perm_pool; [exact Lt|]. rewrite Gi, <- app_assoc. apply Permutation_refl.
    + intros t q Hq. fold j. destruct (Nat.eq_dec t j) as [->|Dj]; [rewrite dupd_eq in Hq; destruct Hq|]. rewrite dupd_ne in Hq by auto.
      destruct (Nat.eq_dec t i) as [->|Di].
      * rewrite dupd_eq in Hq. cbn in Hq. apply in_app_iff in Hq as [Hq|[<-|[]]]; [|unfold j; lia]. specialize (V4 i q). rewrite A in V4. specialize (V4 Hq). unfold j. lia.
      * rewrite dupd_ne in Hq by auto. specialize (V4 _ _ Hq). unfold j. lia.
    + intros t v H. apply in_app_iff in H as [H|[H|[]]]; [|discriminate]. destruct (V5 _ _ H) as [Lt' ->]. fold j in Lt'. split; [lia|]. rewrite dupd_ne by lia. reflexivity.
    + intros y Hy. specialize (V6 _ Hy). lia.
    + split; [rewrite dupd_ne by (unfold j; lia); exact V8|lia].
  - (* last exit function called *)
    assert (m' = m) as -> by (inversion F; reflexivity).
    pose proof (dstep_effect _ _ _ _ _ _ DS) as Ef. pose proof Ef as [_ EL _ EF ET EP _ _ EN _ EG _].
    assert (Lt : (t0 < nthr (fns s))%nat).
    { destruct (le_lt_dec (nthr (fns s)) t0) as [X|X]; [|exact X]. destruct (i_new _ _ _ I t0 X) as [Y _]. contradiction. }
    pose proof (i_tae _ _ _ I) as TAE.
    apply dstep_inv in DS as [_ DS]. inversion DS; subst. match goal with H : frames (fns s) t0 = _ |- _ => rename H into Fr end.
    eapply (ainv_upd tr s m g _ _ _ t0 [] V Lt); cbn [fns fval map set_frames frames tdt pdt nthr]; auto.
    + intros u D. rewrite !dupd_ne by auto. auto.
    + rewrite app_nil_r. reflexivity.
    + apply incl_refl.
    + intros u v0 H. apply in_app_iff in H as [H|[H|[]]]; [left; exact H|discriminate].
    + intros os tt L. rewrite Fr in L. rewrite !dupd_eq. inversion L; subst; try other_x.
      assert (E0 : tdt (fns s) t0 = []) by (destruct (c_tae c); auto). rewrite E0.
      eexists _, _. split; [apply L_done|]. split; [reflexivity|]. apply Permutation_app_head. rewrite (POOL _ _ _ _ eq_refl Fr); [apply Permutation_refl|reflexivity].
Qed.

Theorem arun_inv tr s m : good_env e -> qrun tr s m -> exists g, ainv tr s m g.
Proof.
  intros Ge. induction 1 as [b Hb|tr s m x s' m' R [g V] St F|tr s m t w z k hs R [g V] T U P A].
  - eexists. apply ainv_init.
  - eapply ainv_step; eauto. eapply frun_prun; eauto.
  - destruct (ainv_act tr s m g tr s t w (QPrint z k) hs k [z] V eq_refl eq_refl) as [g' V']; auto.

    exists g'. exact V'.
Qed.
End Fork.
