(** What is left to do of each thread of a parallel program with
    program::at_exit, and that no step changes what will be returned and printed
    in the end (for C82). *)
From Coq Require Import ZArith List Bool Lia Arith Permutation.
From Verif Require Import Machine LayoutModel ThreadModel ByteModel ByteProofs DtorsModel DtorsFacts DtorsInv DtorsPres ProcModel Props_Proc Props_Byte ScriptProofs ForkProofs PexitModel PexitSpec.
Import ListNotations.
Open Scope Z_scope.

Lemma exec_pae c tr s : DtorsModel.exec c tr s -> c_pae c = false -> pdt s = [].
Proof.
  intros E H. induction E as [|tr s t a x s' E IH St]; [reflexivity|].
  rewrite (e_pdt _ _ _ _ _ (dstep_effect _ _ _ _ _ _ St)). destruct x; auto.
  - exfalso. apply dstep_inv in St as [_ St]. inversion St; subst.
    pose proof (i_pae _ _ _ (exec_inv _ _ _ E) H t) as X. match goal with F : frames s t = _ |- _ => rewrite F in X end. discriminate X.
  - rewrite IH. reflexivity.
Qed.

Section Fork.
Variables (c : dcfg) (fini : nat -> qprog).
Local Notation N := (fini_entries c).

(** ** Only the main thread registers program::at_exit functions *)
Definition okp (ism : bool) (p : qprog) : Prop := if ism then main_only p else quiet p.
Lemma quiet_main p : quiet p -> main_only p.
Proof. induction p; cbn; intros; try tauto; auto. Qed.
Lemma okp_main b p : okp b p -> main_only p.
Proof. destruct b; [auto|apply quiet_main]. Qed.
Lemma okp_more b p : okp b p -> match p with
  | QReturn _ => True | QPrint _ k | QDetach _ k => okp b k | QAtThreadExit f k => okp b f /\ okp b k
  | QAtExit f k => b = true /\ okp b f /\ okp b k | QCreate f k => quiet f /\ okp b k | QJoin _ k => forall v, okp b (k v) end.
Proof. destruct b, p; cbn; tauto. Qed.

Record qinv (d : dst) (m : qmach) : Prop := {
  q_act : forall t w p hs, acts m t = Some (Act w p hs) -> okp (Nat.eqb t 0) p;
  q_tdt : forall t f, In f (tdt d t) -> okp (Nat.eqb t 0) (freg m f);
  q_all : forall f, main_only (freg m f) }.

Section left.
  Variables (C : nat -> qprog) (G : fid -> qprog).
  Definition vals (hs : list nat) : list Z := map (fun j => value (C j) []) hs.
  Definition pend (l : list fid) : list Z := flat_map (fun f => said (G f)) l.
  Definition pendt (l : list fid) : list Z := flat_map (fun f => total Early (G f) []) l.
  (** What waiting thread::at_exit functions will have registered with program::at_exit. *)
  Fixpoint plate (l : list fid) : list Z := match l with [] => [] | f :: l' => plate l' ++ late (G f) [] ++ later (G f) [] end.
  (** Waiting program::at_exit functions. *)
  Definition pp (l : list fid) : list Z := flat_map (fun f => prints (G f) [] ++ later (G f) []) l.
  Definition ppt (l : list fid) : list Z := flat_map (fun f => total Late (G f) []) l.

  (** Where an activation [w] goes on when it returns: which functions still
      waiting will be called ([d]), whether it is the one whose result counts
      ([o]; else that is [r]), and what is printed after it. *)
  Inductive kont (fv : Z) : bool -> who -> list frame -> stage -> bool -> Z -> list Z -> list Z -> Prop :=
  | K_thread : kont fv false WThread [] Early true 0 [] []
  | K_tfn f : kont fv false (WT f) [FDtors] Early false fv [] []
  | K_main : kont fv true WMain [] Early true 0 (finis fini N) (fini_total fini N)
  | K_xtfn st f bot : kont fv true (WT f) (FX st XT :: bot) Early false st (finis fini N) (fini_total fini N)
  | K_pfn st f bot : kont fv true (WP f) (FX st XLock :: bot) Late false st (finis fini N) (fini_total fini N)
  | K_fini st k bot : kont fv true (WF k) (FX st (XFini k) :: bot) Last false st (finis fini k) (fini_total fini k).

  (** What registered functions print, those of [p] included. *)
  Definition rest (ism : bool) (d : stage) (p : qprog) (vs : list Z) (l P : list fid) : list Z :=
    match d with
    | Early => after p vs ++ pend l ++ (if ism then plate l ++ late p vs ++ later p vs ++ pp P else [])
    | Late => later p vs ++ pp P
    | Last => []
    end.
  Definition restt (ism : bool) (d : stage) (l P : list fid) : list Z :=
    match d with Early => pendt l ++ (if ism then ppt P else []) | Late => ppt P | Last => [] end.

  (** What is left of a thread ([ism]: the main thread) with these frames, this
      activation and these waiting functions: the result, what it will print,
      and what is owed by it and the threads it will create. *)
  Inductive left (fv : Z) : bool -> list frame -> option act -> list fid -> list fid -> Z -> list Z -> list Z -> Prop :=
  | L_user ism w fs p hs l P d o r T1 T2 : kont fv ism w fs d o r T1 T2 ->
      left fv ism (FUser w :: fs) (Some (Act w p hs)) l P (if o then value p (vals hs) else r)
        (prints p (vals hs) ++ rest ism d p (vals hs) l P ++ T1) (total d p (vals hs) ++ restt ism d l P ++ T2)
  | L_reg fr f w fs p hs l P d o r T1 T2 : fr = FLock f \/ fr = FPush f -> kont fv true w fs d o r T1 T2 ->
      left fv true (fr :: FUser w :: fs) (Some (Act w p hs)) l P (if o then value p (vals hs) else r)
        (prints p (vals hs) ++ rest true d p (vals hs) l (f :: P) ++ T1) (total d p (vals hs) ++ restt true d l (f :: P) ++ T2)
  | L_regend w fs p hs l P d o r T1 T2 : kont fv true w fs d o r T1 T2 ->
      left fv true (FUnlock :: FUser w :: fs) (Some (Act w p hs)) l P (if o then value p (vals hs) else r)
        (prints p (vals hs) ++ rest true d p (vals hs) l P ++ T1) (total d p (vals hs) ++ restt true d l P ++ T2)
  | L_dtors l P : left fv false [FDtors] None l P fv (pend l) (pendt l)
  | L_done l P : left fv false [] None l P fv [] []
  | L_xt st l P bot : left fv true (FX st XT :: bot) None l P st (pend l ++ plate l ++ pp P ++ finis fini N) (pendt l ++ ppt P ++ fini_total fini N)
  | L_x st ph l P bot : ph = XLock \/ ph = XPop -> left fv true (FX st ph :: bot) None l P st (pp P ++ finis fini N) (ppt P ++ fini_total fini N)
  | L_xf st ph f l P bot : ph = XUnlock f \/ ph = XCall f ->
      left fv true (FX st ph :: bot) None l P st (pp (f :: P) ++ finis fini N) (ppt (f :: P) ++ fini_total fini N)
  | L_xfini st k l P bot : left fv true (FX st (XFini k) :: bot) None l P st (finis fini k) (fini_total fini k).
End left.

Definition kids (a : option act) : list nat := match a with Some x => a_kids x | None => [] end.
Definition infl (fs : list frame) : list fid := match fs with fr :: _ => ffids fr | [] => [] end.

Lemma vals_ext C C' hs : (forall j, In j hs -> C' j = C j) -> vals C' hs = vals C hs.
Proof. intros H. unfold vals. apply map_ext_in. intros j Hj. rewrite H; auto. Qed.
Lemma pend_ext G G' l : (forall f, In f l -> G' f = G f) -> pend G' l = pend G l /\ pendt G' l = pendt G l /\ plate G' l = plate G l /\ pp G' l = pp G l /\ ppt G' l = ppt G l.
Proof.
  intros H. unfold pend, pendt, pp, ppt.
  repeat split; (induction l as [|f l IH]; cbn; [reflexivity|]; rewrite H by (left; reflexivity); f_equal; apply IH; intros; apply H; right; assumption).
Qed.
Lemma left_ext C C' G G' fv ism fs a l P v os tt : left C G fv ism fs a l P v os tt ->
  (forall j, In j (kids a) -> C' j = C j) -> (forall f, In f l -> G' f = G f) ->
  (ism = true -> forall f, In f (infl fs ++ P) -> G' f = G f) -> left C' G' fv ism fs a l P v os tt.
Proof.
  intros H HC HG HP. destruct (pend_ext G G' _ HG) as (E1 & E2 & E3 & _ & _).
  assert (Q : ism = true -> forall Q, incl Q (infl fs ++ P) -> pp G' Q = pp G Q /\ ppt G' Q = ppt G Q).
  { intros X Q HQ. destruct (pend_ext G G' Q) as (_ & _ & _ & Y). { intros f Hf. apply HP; auto. } exact Y. }
  destruct H.
  - replace (rest G ism d p (vals C hs) l P) with (rest G' ism d p (vals C' hs) l P).
    + replace (restt G ism d l P) with (restt G' ism d l P).
      * cbn in HC. rewrite <- (vals_ext C C' hs HC). apply L_user. exact H.
      * unfold restt. destruct ism; [destruct (Q eq_refl P) as [_ ->]; [apply incl_appr, incl_refl|]|]; rewrite E2; destruct d; try reflexivity; inversion H.
    + cbn in HC. rewrite (vals_ext C C' hs HC). unfold rest. destruct ism; [destruct (Q eq_refl P) as [-> _]; [apply incl_appr, incl_refl|]|]; rewrite E1, ?E3; destruct d; try reflexivity; inversion H.
  - assert (I : incl (f :: P) (infl (fr :: FUser w :: fs) ++ P)) by (destruct H as [->| ->]; cbn; apply incl_refl).
    destruct (Q eq_refl _ I) as [X1 X2]. cbn in HC.
    replace (rest G true d p (vals C hs) l (f :: P)) with (rest G' true d p (vals C' hs) l (f :: P)) by (rewrite (vals_ext C C' hs HC); unfold rest; rewrite X1, E1, E3; reflexivity).
    replace (restt G true d l (f :: P)) with (restt G' true d l (f :: P)) by (unfold restt; rewrite X2, E2; reflexivity).
    rewrite <- (vals_ext C C' hs HC). apply (L_reg C' G'); assumption.
  - destruct (Q eq_refl P) as [X1 X2]; [apply incl_appr, incl_refl|]. cbn in HC.
    replace (rest G true d p (vals C hs) l P) with (rest G' true d p (vals C' hs) l P) by (rewrite (vals_ext C C' hs HC); unfold rest; rewrite X1, E1, E3; reflexivity).
    replace (restt G true d l P) with (restt G' true d l P) by (unfold restt; rewrite X2, E2; reflexivity).
    rewrite <- (vals_ext C C' hs HC). apply (L_regend C' G'); assumption.
  - rewrite <- E1, <- E2. apply L_dtors.
  - apply L_done.
  - destruct (Q eq_refl P) as [<- <-]; [apply incl_appr, incl_refl|]. rewrite <- E1, <- E2, <- E3. apply L_xt.
  - destruct (Q eq_refl P) as [<- <-]; [apply incl_appr, incl_refl|]. apply L_x. assumption.
  - destruct (Q eq_refl (f :: P)) as [<- <-]; [destruct H as [->| ->]; cbn; apply incl_refl|]. apply L_xf. assumption.
  - apply L_xfini.
Qed.
(** Other threads do not care what is registered with program::at_exit. *)
Lemma left_any C G fv fs a l P P' v os tt : left C G fv false fs a l P v os tt -> left C G fv false fs a l P' v os tt.
Proof.
  intros H. inversion H; subst.
  - match goal with H : kont _ _ _ _ _ _ _ _ _ |- _ => rename H into K end. destruct d; try (inversion K; fail).
    exact (L_user C G fv false w fs0 p hs l P' Early o r T1 T2 K).
  - apply L_dtors.
  - apply L_done.
Qed.

Lemma vals_snoc C hs j : vals C (hs ++ [j]) = vals C hs ++ [value (C j) []].
Proof. unfold vals. now rewrite map_app. Qed.

(** ** Steps of one thread *)
(** Entering exit. *)
Lemma exits_left C G tr d t fv st bot : DtorsInv.inv c tr d -> (c_pae c = false -> pdt d = []) ->
  exists tt', left C G fv true (FX st (first_phase c) :: bot) None (tdt d t) (pdt d) st (pend G (tdt d t) ++ plate G (tdt d t) ++ pp G (pdt d) ++ finis fini N) tt' /\
    Permutation (pendt G (tdt d t) ++ ppt G (pdt d) ++ fini_total fini N) tt'.
Proof.
  intros I PAE. pose proof (i_tae _ _ _ I) as TAE. unfold first_phase. destruct (c_tae c).
  - eexists. split; [constructor|apply Permutation_refl].
  - rewrite (TAE eq_refl t). cbn [pend pendt plate flat_map app]. unfold after_t. destruct (c_pae c).
    + eexists. split; [apply L_x; auto|apply Permutation_refl].
    + rewrite (PAE eq_refl). eexists. split; [apply L_xfini|apply Permutation_refl].
Qed.

Ltac other_x := match goal with H : _ \/ _ |- _ => destruct H as [X|X]; discriminate X end.

Lemma own_fns C tr d m t act x d' m' fv v os tt : DtorsInv.inv c tr d -> (c_pae c = false -> pdt d = []) -> dstep c d t act = Some (x, d') -> fns_only x = true ->
  qollows fini m (PFns t x) m' -> known d -> qinv d m ->
  left C (freg m) fv (Nat.eqb t 0) (frames d t) (acts m t) (tdt d t) (pdt d) v os tt ->
  exists tt', left C (freg m') fv (Nat.eqb t 0) (frames d' t) (acts m' t) (tdt d' t) (pdt d') v os tt' /\ Permutation tt tt'.
Proof.
  intros I PAE D FO F (K1 & K2 & K3) QI L. pose proof (i_tae _ _ _ I) as TAE. apply dstep_inv in D as [Tm St].
  destruct St as [w fs E|w fs E Hc|w fs E Hc|w fs st E|w fs st E|w fs E|w fs E Hc|fs st E|fs E|w fs E N1 N2|f fs s1 E Lk|f fs E|fs E
    |f l fs E Hc Dt|fs E Dt|st f l fs E Dt|st fs E Dt|st fs s1 E Lk|st f l fs E Dt|st fs E Dt|st f fs E|st f fs E|st k fs E|st fs E|st fs E|fs E];
    try discriminate FO; try (inversion F; subst; contradiction); rewrite E in L.
  - (* Nop *) inversion F; subst m'. rewrite E. eauto.
  - (* RegT *) inversion F; subst; try contradiction. cbn [acts freg fset aset frames tdt pdt bump set_tdt]. rewrite dupd_eq, dupd_eq, E.
    match goal with H : acts m t = _ |- _ => rewrite H in L end.
    destruct (pend_ext (freg m) (dupd (freg m) (nextf d) q) (tdt d t)) as (E1 & E2 & E3 & _).
    { intros f Hf. apply dupd_ne. specialize (K1 _ _ Hf). lia. }
    destruct (pend_ext (freg m) (dupd (freg m) (nextf d) q) (pdt d)) as (_ & _ & _ & E4 & E5).
    { intros f Hf. apply dupd_ne. specialize (K2 _ Hf). lia. }
    inversion L; subst; try other_x. match goal with H : kont _ _ _ _ _ _ _ _ _ |- _ => rename H into K end.
    set (G' := dupd (freg m) (nextf d) q) in *.
    assert (Gn : G' (nextf d) = q) by apply dupd_eq.
    eexists. split.
    + replace (prints (QAtThreadExit q k) (vals C hs) ++ rest (freg m) (Nat.eqb t 0) d0 (QAtThreadExit q k) (vals C hs) (tdt d t) (pdt d) ++ T1)
        with (prints k (vals C hs) ++ rest G' (Nat.eqb t 0) d0 k (vals C hs) (nextf d :: tdt d t) (pdt d) ++ T1).
      * exact (L_user C G' fv _ _ _ k hs (nextf d :: tdt d t) (pdt d) _ _ _ _ _ K).
      * cbn [prints]. do 2 f_equal. unfold rest. destruct d0; cbn [after late later]; [|rewrite E4; reflexivity|reflexivity].
        unfold pend at 1. cbn [flat_map plate]. rewrite Gn. fold (pend G' (tdt d t)). rewrite E1, E3, E4. unfold said. rewrite <- !app_assoc.
        destruct (Nat.eqb t 0); rewrite <- ?app_assoc; reflexivity.
    + cbn [total]. unfold restt. destruct d0; cbn [app]; [|rewrite E5; apply Permutation_refl|apply Permutation_refl].
      unfold pendt at 2. cbn [flat_map]. rewrite Gn. fold (pendt G' (tdt d t)). rewrite E2, E5.
      rewrite <- !app_assoc. rewrite (app_assoc (total Early q [])). rewrite (app_assoc _ (total Early q [])). apply Permutation_app_tail, Permutation_app_comm.
  - (* BeginP *) inversion F; subst; try contradiction. match goal with H : acts m t = _ |- _ => rename H into A; rewrite A in L end.
    destruct (okp_more _ _ (q_act _ _ QI _ _ _ _ A)) as [E0 _]. rewrite E0 in *.
    cbn [acts freg fset aset frames tdt pdt bump set_frames]. rewrite !dupd_eq.
    destruct (pend_ext (freg m) (dupd (freg m) (nextf d) q) (tdt d t)) as (E1 & E2 & E3 & _).
    { intros f Hf. apply dupd_ne. specialize (K1 _ _ Hf). lia. }
    destruct (pend_ext (freg m) (dupd (freg m) (nextf d) q) (pdt d)) as (_ & _ & _ & E4 & E5).
    { intros f Hf. apply dupd_ne. specialize (K2 _ Hf). lia. }
    inversion L; subst; try other_x. match goal with H : kont _ _ _ _ _ _ _ _ _ |- _ => rename H into K end.
    set (G' := dupd (freg m) (nextf d) q) in *.
    assert (Gn : G' (nextf d) = q) by apply dupd_eq.
    assert (P1 : pp G' (nextf d :: pdt d) = (prints q [] ++ later q []) ++ pp (freg m) (pdt d)).
    { unfold pp at 1. cbn [flat_map]. rewrite Gn. fold (pp G' (pdt d)). rewrite E4. reflexivity. }
    assert (P2 : ppt G' (nextf d :: pdt d) = total Late q [] ++ ppt (freg m) (pdt d)).
    { unfold ppt at 1. cbn [flat_map]. rewrite Gn. fold (ppt G' (pdt d)). rewrite E5. reflexivity. }
    eexists. split.
    + replace (prints (QAtExit q k) (vals C hs) ++ rest (freg m) true d0 (QAtExit q k) (vals C hs) (tdt d t) (pdt d) ++ T1)
        with (prints k (vals C hs) ++ rest G' true d0 k (vals C hs) (tdt d t) (nextf d :: pdt d) ++ T1).
      * exact (L_reg C G' fv _ _ _ _ k hs (tdt d t) (pdt d) _ _ _ _ _ (or_introl eq_refl) K).
      * cbn [prints]. do 2 f_equal. unfold rest. rewrite P1, E1, E3. destruct d0; cbn [after late later]; rewrite <- ?app_assoc; reflexivity.
    + cbn [total]. unfold restt. rewrite P2, E2. destruct d0; cbn [app]; [| |apply Permutation_refl]; rewrite <- !app_assoc.
      * eapply Permutation_trans; [apply Permutation_app_swap_app|]. apply Permutation_app_head. apply Permutation_app_swap_app.
      * apply Permutation_app_swap_app.
  - (* exit called by user code: origin_main's return *)
    inversion F; subst; try contradiction. match goal with H : acts m t = _ |- _ => rewrite H in L end. inversion L; subst; try other_x.
    cbn [acts aset freg frames set_frames tdt pdt]. rewrite !dupd_eq. match goal with H : kont _ _ _ _ _ _ _ _ _ |- _ => inversion H; subst end.
    cbn [value prints rest after late later total restt app]. rewrite <- !app_assoc. eapply exits_left; eauto.
  - inversion F; subst; try contradiction. match goal with H : acts m t = _ |- _ => rewrite H in L end. inversion L; subst; try other_x.
    cbn [acts aset freg frames set_frames tdt pdt]. rewrite !dupd_eq. match goal with H : kont _ _ _ _ _ _ _ _ _ |- _ => inversion H; subst end.
    cbn [value prints rest after late later total restt app]. rewrite <- !app_assoc. eapply exits_left; eauto.
  - (* an exit function returns *)
    inversion F; subst; try contradiction. match goal with H : acts m t = _ |- _ => rewrite H in L end. inversion L; subst; try other_x.
    cbn [acts aset freg frames set_frames tdt pdt]. rewrite !dupd_eq.
    match goal with H : kont _ _ _ _ _ _ _ _ _ |- _ => inversion H; subst end; try congruence;
      cbn [prints rest after late later total restt app]; rewrite ?app_nil_r, <- ?app_assoc;
      eexists; (split; [first [apply L_xfini|apply L_x; solve [auto]|constructor]|apply Permutation_refl]).
  - (* lock in at_exit *) assert (m' = m) as -> by (inversion F; reflexivity).
    assert (TD : tdt s1 t = tdt d t /\ pdt s1 = pdt d) by (unfold try_lock in Lk; destruct (c_thread c); [destruct (lk d); [discriminate|]|]; inversion Lk; auto).
    destruct TD as [TD TP]. cbn [frames set_frames tdt pdt]; rewrite dupd_eq, TD, TP.
    inversion L; subst. match goal with H : _ \/ _ |- _ => destruct H as [X|X]; [injection X as <-|discriminate X] end.
    try match goal with H : _ = acts _ t |- _ => rewrite <- H end.
    eexists. split; [eapply L_reg; eauto|apply Permutation_refl].
  - (* push *) assert (m' = m) as -> by (inversion F; reflexivity). cbn [frames set_frames tdt pdt set_pdt]; rewrite dupd_eq.
    inversion L; subst. match goal with H : _ \/ _ |- _ => destruct H as [X|X]; [discriminate X|injection X as <-] end.
    try match goal with H : _ = acts _ t |- _ => rewrite <- H end.
    eexists. split; [eapply L_regend; eauto|apply Permutation_refl].
  - (* unlock *) assert (m' = m) as -> by (inversion F; reflexivity).
    assert (TD : tdt (unlock c d) t = tdt d t /\ pdt (unlock c d) = pdt d) by (unfold unlock; destruct (c_thread c); auto).
    destruct TD as [TD TP]. cbn [frames set_frames tdt pdt]; rewrite dupd_eq, TD, TP.
    inversion L; subst; [match goal with H : _ \/ _ |- _ => destruct H as [X|X]; discriminate X end|].
    try match goal with H : _ = acts _ t |- _ => rewrite <- H end.
    eexists. split; [eapply L_user; eauto|apply Permutation_refl].
  - (* CallT in FDtors *)
    inversion L; subst; try other_x. inversion F; subst; try contradiction. cbn [acts aset freg frames set_frames set_tdt tdt pdt]. rewrite !dupd_eq. rewrite Dt.
    eexists. split; [|apply Permutation_refl].
    pose proof (L_user C (freg m) v _ _ _ (freg m f) [] l (pdt d) _ _ _ _ _ (K_tfn v f)) as X. cbn [vals map rest restt] in X. rewrite !app_nil_r in X.
    unfold pend at 1. cbn [flat_map]. unfold said. rewrite <- app_assoc. unfold pendt at 1. cbn [flat_map]. exact X.
  - (* XT *)
    inversion L; subst; try other_x. inversion F; subst; try contradiction. cbn [acts aset freg frames set_frames set_tdt tdt pdt]. rewrite !dupd_eq. rewrite Dt.
    eexists. split; [|apply Permutation_refl].
    pose proof (L_user C (freg m) fv _ _ _ (freg m f) [] l (pdt d) _ _ _ _ _ (K_xtfn fv v f fs)) as X. cbn [vals map rest restt] in X.
    unfold pend at 1. cbn [flat_map plate]. unfold said. unfold pendt at 1. cbn [flat_map]. repeat rewrite <- app_assoc in X. repeat rewrite <- app_assoc. exact X.
  - inversion L; subst; try other_x. inversion F; subst. cbn [acts aset freg frames set_frames set_tdt tdt pdt]. rewrite !dupd_eq. rewrite Dt.
    cbn [pend pendt plate flat_map app]. try match goal with H : _ = acts _ t |- _ => rewrite <- H end.
    unfold after_t. destruct (c_pae c).
    + eexists. split; [apply L_x; auto|apply Permutation_refl].
    + rewrite (PAE eq_refl). eexists. split; [apply L_xfini|apply Permutation_refl].
  - (* lock *) inversion L; subst; try other_x. assert (m' = m) as -> by (inversion F; reflexivity).
    assert (TD : tdt s1 t = tdt d t /\ pdt s1 = pdt d) by (unfold try_lock in Lk; destruct (c_thread c); [destruct (lk d); [discriminate|]|]; inversion Lk; auto).
    destruct TD as [TD TP]. cbn [frames set_frames tdt pdt]; rewrite dupd_eq, TD, TP; try match goal with H : _ = acts _ t |- _ => rewrite <- H end.
    eexists; (split; [apply L_x; auto|apply Permutation_refl]).
  - (* take *) inversion L; subst; try other_x. assert (m' = m) as -> by (inversion F; reflexivity).
    cbn [frames set_frames tdt pdt set_pdt]; rewrite dupd_eq, Dt; try match goal with H : _ = acts _ t |- _ => rewrite <- H end.
    eexists; (split; [apply L_xf; auto|apply Permutation_refl]).
  - (* empty *) inversion L; subst; try other_x. assert (m' = m) as -> by (inversion F; reflexivity). cbn [frames set_frames tdt pdt]; rewrite dupd_eq, Dt. try match goal with H : _ = acts _ t |- _ => rewrite <- H end.
    eexists; (split; [apply L_xfini|apply Permutation_refl]).
  - (* unlock *) inversion L; subst; try other_x. match goal with H : _ \/ _ |- _ => destruct H as [X|X]; [injection X as <-|discriminate X] end.
    assert (m' = m) as -> by (inversion F; reflexivity).
    assert (TD : tdt (unlock c d) t = tdt d t /\ pdt (unlock c d) = pdt d) by (unfold unlock; destruct (c_thread c); auto).
    destruct TD as [TD TP]. cbn [frames set_frames tdt pdt]; rewrite dupd_eq, TD, TP. try match goal with H : _ = acts _ t |- _ => rewrite <- H end.
    eexists; (split; [apply L_xf; auto|apply Permutation_refl]).
  - (* CallP *) inversion L; subst; try other_x. match goal with H : _ \/ _ |- _ => destruct H as [X|X]; [discriminate X|injection X as <-] end.
    inversion F; subst; try contradiction. cbn [acts aset freg frames set_frames set_tdt tdt pdt]. rewrite !dupd_eq.
    eexists. split; [|apply Permutation_refl].
    pose proof (L_user C (freg m) fv _ _ _ (freg m f) [] (tdt d t) (pdt d) _ _ _ _ _ (K_pfn fv v f fs)) as X. cbn [vals map rest restt] in X.
    unfold pp at 1. unfold ppt at 1. cbn [flat_map]. repeat rewrite <- app_assoc in X. repeat rewrite <- app_assoc. exact X.
  - (* fini *) inversion L; subst; try other_x. inversion F; subst; try contradiction. cbn [acts aset freg frames set_frames set_tdt tdt pdt]. rewrite !dupd_eq.
    eexists. split; [|apply Permutation_refl].
    exact (L_user C (freg m) fv _ _ _ (fini k) [] (tdt d t) (pdt d) _ _ _ _ _ (K_fini fv v k fs)).
  - (* the end *) assert (m' = m) as -> by (inversion F; reflexivity). cbn [finish frames tdt pdt]. rewrite E. eauto.
  - inversion L; other_x.
  - inversion L; other_x.
Qed.
(** ** The whole program *)
Variables (e : benv) (main : qprog).
Hypothesis Hfini : forall k, main_only (fini k).
Hypothesis Hmain : main_only main.
Local Notation qrun := (qrun fini main e c).

Lemma frun_prun tr s m : qrun tr s m -> prun e c tr s.
Proof. induction 1; [constructor; auto|econstructor; eauto|auto]. Qed.

Definition full (m : qmach) (t : nat) : list Z := said (code m t) ++ (if Nat.eqb t 0 then (late (code m t) [] ++ later (code m t) []) ++ finis fini N else []).

Record finv (tr : list pevent) (s : pst) (m : qmach) (g : nat -> list Z) : Prop := {
  v_new : forall t, (nthr (fns s) <= t)%nat -> acts m t = None;
  v_left : forall t, (t < nthr (fns s))%nat -> exists os,
    left (code m) (freg m) (fval s t) (Nat.eqb t 0) (frames (fns s) t) (acts m t) (tdt (fns s) t) (pdt (fns s)) (value (code m t) []) os (g t) /\
    out_of m t ++ os = full m t;
  v_perm : Permutation (map snd (fout m) ++ flat_map g (seq 0 (nthr (fns s)))) (total Early main [] ++ fini_total fini N);
  v_kids : forall t j, In j (kids (acts m t)) -> (0 < j < nthr (fns s))%nat;
  v_ret : forall t v, In (PReturns t v) tr -> (t < nthr (fns s))%nat /\ v = value (code m t) [];
  v_out : forall x, In x (fout m) -> (fst x < nthr (fns s))%nat;
  v_q : qinv (fns s) m;
  v_main : code m 0%nat = main /\ (0 < nthr (fns s))%nat }.

Lemma perm_flat (g : nat -> list Z) n t o tt : (t < n)%nat -> Permutation (g t) (o ++ tt) ->
  Permutation (flat_map g (seq 0 n)) (o ++ flat_map (dupd g t tt) (seq 0 n)).
Proof.
  intros L P. assert (I : In t (seq 0 n)) by (apply in_seq; lia).
  pose proof (seq_NoDup n 0) as ND. apply in_split in I as (l1 & l2 & E). rewrite E in *.
  apply NoDup_remove_2 in ND. rewrite !flat_map_app. cbn [flat_map].
  assert (X : forall l, ~ In t l -> flat_map (dupd g t tt) l = flat_map g l).
  { induction l as [|y l IH]; cbn; [reflexivity|]. intros Hn. rewrite dupd_ne by tauto. rewrite IH by tauto. reflexivity. }
  rewrite (X l1), (X l2) by (intros Y; apply ND; apply in_or_app; auto). rewrite dupd_eq.
  rewrite (app_assoc o), (Permutation_app_comm o), <- app_assoc. apply Permutation_app_head.
  rewrite app_assoc. apply Permutation_app_tail. exact P.
Qed.
Lemma out_of_app m m' t o u : fout m' = fout m ++ map (pair t) o -> out_of m' u = out_of m u ++ (if Nat.eqb u t then o else []).
Proof.
  intros E. unfold out_of. rewrite E, filter_app, map_app. f_equal.
  destruct (Nat.eqb_spec u t) as [->|D].
  - clear E. induction o as [|z o IH]; cbn; [reflexivity|]. rewrite Nat.eqb_refl. cbn. now rewrite IH.
  - clear E. induction o as [|z o IH]; cbn; [reflexivity|]. destruct (Nat.eqb_spec t u); [congruence|exact IH].
Qed.

Lemma finv_upd tr s m g tr' s' m' t o : finv tr s m g -> (t < nthr (fns s))%nat ->
  nthr (fns s') = nthr (fns s) -> (t <> 0%nat -> pdt (fns s') = pdt (fns s)) -> qinv (fns s') m' ->
  (t <> 0%nat -> forall f, In f (infl (frames (fns s) 0%nat) ++ pdt (fns s)) -> freg m' f = freg m f) ->
  (forall u, u <> t -> frames (fns s') u = frames (fns s) u /\ tdt (fns s') u = tdt (fns s) u /\ acts m' u = acts m u /\ fval s' u = fval s u) ->
  (forall u f, u <> t -> In f (tdt (fns s) u) -> freg m' f = freg m f) ->
  code m' = code m -> fout m' = fout m ++ map (pair t) o ->
  incl (kids (acts m' t)) (kids (acts m t)) ->
  (forall u v, In (PReturns u v) tr' -> In (PReturns u v) tr \/ (u = t /\ v = value (code m t) [])) ->
  (forall os tt, left (code m) (freg m) (fval s t) (Nat.eqb t 0) (frames (fns s) t) (acts m t) (tdt (fns s) t) (pdt (fns s)) (value (code m t) []) os tt ->
     exists os' tt', left (code m) (freg m') (fval s' t) (Nat.eqb t 0) (frames (fns s') t) (acts m' t) (tdt (fns s') t) (pdt (fns s')) (value (code m t) []) os' tt' /\
       os = o ++ os' /\ Permutation tt (o ++ tt')) ->
  exists g', finv tr' s' m' g'.
Proof.
  intros [V1 V2 V3 V4 V5 V6 V7 V8] Lt En Pd Qi Pf Ot Fr Co Fo Ki Re Lf.
  destruct (V2 t Lt) as (os & Hl & Ho). destruct (Lf _ _ Hl) as (os' & tt' & Hl' & -> & P).
  exists (dupd g t tt'). constructor.
  - intros u Hu. destruct (Nat.eq_dec u t) as [->|D]; [lia|]. destruct (Ot u D) as (_ & _ & -> & _). apply V1. lia.
  - intros u Hu. rewrite En in Hu. rewrite Co. unfold full. rewrite (out_of_app _ _ _ _ u Fo), Co. destruct (Nat.eq_dec u t) as [->|D].
    + rewrite dupd_eq, Nat.eqb_refl. exists os'. split; [exact Hl'|]. unfold full in Ho. rewrite <- Ho. rewrite <- app_assoc. reflexivity.
    + rewrite dupd_ne by auto. destruct (V2 u Hu) as (os1 & H1 & H2). destruct (Ot u D) as (-> & -> & -> & ->).
      exists os1. split; [|destruct (Nat.eqb_spec u t); [contradiction|]; rewrite app_nil_r; exact H2].
      destruct (Nat.eqb_spec u 0) as [->|D0].
      * rewrite Pd by auto. eapply left_ext; eauto.
      * eapply left_any. eapply left_ext; eauto; try discriminate.
  - rewrite En, Fo, map_app, map_map. cbn [snd]. rewrite map_id, <- app_assoc.
    eapply Permutation_trans; [|exact V3]. apply Permutation_app_head. symmetry. apply perm_flat; auto.
  - intros u j Hj. rewrite En. destruct (Nat.eq_dec u t) as [->|D]; [apply (V4 t); apply Ki; exact Hj|].
    destruct (Ot u D) as (_ & _ & E & _). rewrite E in Hj. eauto.
  - intros u v Hi. rewrite En, Co. destruct (Re _ _ Hi) as [X|[-> ->]]; [apply V5; exact X|auto].
  - intros x Hx. rewrite En. rewrite Fo in Hx. apply in_app_iff in Hx as [Hx|Hx]; [auto|]. apply in_map_iff in Hx as (z & <- & _). exact Lt.
  - exact Qi.
  - rewrite En, Co. exact V8.
Qed.

Lemma life_ret tr l u v : In (PReturns u v) (tr ++ [PLife l]) -> In (PReturns u v) tr.
Proof. intros H. apply in_app_iff in H as [H|[H|[]]]; [exact H|discriminate]. Qed.
Lemma act_lt tr s m g t a : finv tr s m g -> acts m t = Some a -> (t < nthr (fns s))%nat.
Proof. intros V A. destruct (le_lt_dec (nthr (fns s)) t) as [X|X]; [|exact X]. rewrite (v_new _ _ _ _ V t X) in A. discriminate. Qed.

(** Nothing visible changes. *)
Lemma finv_same tr s m g tr' s' : finv tr s m g -> fns s' = fns s -> fval s' = fval s ->
  (forall u v, In (PReturns u v) tr' -> In (PReturns u v) tr) -> finv tr' s' m g.
Proof. intros [V1 V2 V3 V4 V5 V6 V7 V8] E1 E2 R. constructor; rewrite ?E1, ?E2; auto. Qed.

(** An activation goes on with a program that means the same, or prints. *)
Lemma finv_act tr s m g tr' s' t w p hs p' o : finv tr s m g -> fns s' = fns s -> fval s' = fval s ->
  (forall u v, In (PReturns u v) tr' -> In (PReturns u v) tr) ->
  acts m t = Some (Act w p hs) ->
  (let vs := vals (code m) hs in value p' vs = value p vs /\ prints p vs = o ++ prints p' vs /\ after p' vs = after p vs /\
     late p' vs = late p vs /\ later p' vs = later p vs /\ forall d, total d p vs = o ++ total d p' vs) ->
  (forall b, okp b p -> okp b p') ->
  exists g', finv tr' s' (QMach (dupd (acts m) t (Some (Act w p' hs))) (freg m) (code m) (fout m ++ map (pair t) o)) g'.
Proof.
  intros V E1 E2 R A (P1 & P2 & P3 & P5 & P6 & P4) OK.
  eapply (finv_upd tr s m g tr' s' _ t o V); cbn [code freg acts fout]; rewrite ?E1, ?E2; auto.
  - eapply act_lt; eauto.
  - destruct (v_q _ _ _ _ V) as [Q1 Q2 Q3]. constructor; cbn [acts freg]; auto. intros u w' p0 hs' X. destruct (Nat.eq_dec u t) as [->|D].
    + rewrite dupd_eq in X. injection X as <- <- <-. apply OK. eapply Q1; eauto.
    + rewrite dupd_ne in X by auto. eauto.
  - intros u D. rewrite dupd_ne by auto. auto.
  - rewrite dupd_eq, A. cbn. apply incl_refl.
  - intros os tt L. rewrite dupd_eq. rewrite A in L. generalize dependent (value (code m t) []). intros V0 L.
    assert (RR : forall b d l P, rest (freg m) b d p' (vals (code m) hs) l P = rest (freg m) b d p (vals (code m) hs) l P).
    { intros b d l P. unfold rest. rewrite P3, P5, P6. reflexivity. }
    inversion L; subst; (eexists _, _; split; [|split]).
    all: try (rewrite P4; rewrite <- app_assoc; apply Permutation_refl).
    all: try (rewrite P2, <- RR; rewrite <- app_assoc; reflexivity).
    + rewrite <- P1. apply L_user. assumption.
    + rewrite <- P1. apply L_reg; assumption.
    + rewrite <- P1. apply L_regend; assumption.
Qed.

Lemma nth_vals C hs n j : nth_error hs n = Some j -> nth n (vals C hs) 0 = value (C j) [].
Proof. intros H. apply nth_error_nth. unfold vals. apply (map_nth_error (fun j => value (C j) [])) in H. exact H. Qed.

Lemma finv_init b : finv [] (PSt b dinit (fun _ => 0)) (QMach (dupd (fun _ => None) 0%nat (Some (Act WMain main []))) (fun _ => QReturn 0) (dupd (fun _ => QReturn 0) 0%nat main) [])
  (fun _ => total Early main [] ++ fini_total fini N).
Proof.
  constructor; cbn [fns life fval nthr dinit frames tdt pdt acts code fout freg].
  - intros t Ht. rewrite dupd_ne by lia. reflexivity.
  - intros t Ht. assert (t = 0%nat) as -> by lia. rewrite !dupd_eq. eexists. split; [|reflexivity].
    pose proof (L_user (dupd (fun _ => QReturn 0) 0%nat main) (fun _ => QReturn 0) 0 _ _ _ main [] [] [] _ _ _ _ _ (K_main 0)) as X.
    cbn [vals map rest restt pend pendt plate pp ppt flat_map app] in X. rewrite !app_nil_r in X. unfold full, said. cbn [code]. rewrite dupd_eq, <- !app_assoc. rewrite <- !app_assoc in X. exact X.
  - cbn. rewrite app_nil_r. apply Permutation_refl.
  - intros t j. unfold dupd. destruct (Nat.eqb t 0); intros [].
  - intros t v [].
  - intros x [].
  - constructor; cbn; [|intros t f []|auto]. intros t w p hs. unfold dupd. destruct (Nat.eqb_spec t 0); [|discriminate]. intros X. injection X as <- <- <-. exact Hmain.
  - split; [apply dupd_eq|lia].
Qed.

(** Exit phases are the main thread's. *)
Lemma xmain tr s m g t act x d' : finv tr s m g -> (t < nthr (fns s))%nat -> dstep c (fns s) t act = Some (x, d') ->
  match x with CallP _ | CallF _ | RegP _ | Take _ | Lock | EndP | Unlock => Nat.eqb t 0 = true | _ => True end.
Proof.
  intros V Lt DS. destruct (v_left _ _ _ _ V t Lt) as (os & L & _). apply dstep_inv in DS as [_ DS].
  destruct (Nat.eqb t 0) eqn:E; [destruct x; auto|].
  destruct x; auto; inversion DS; subst; match goal with H : frames (fns s) t = _ |- _ => rewrite H in L end; inversion L.
Qed.
Lemma qinv_fns tr s m g t ac x d' m' : finv tr s m g -> known (fns s) -> (t < nthr (fns s))%nat -> dstep c (fns s) t ac = Some (x, d') -> fns_only x = true ->
  qollows fini m (PFns t x) m' -> qinv d' m'.
Proof.
  intros V (K1 & K2 & K3) Lt DS FO F. pose proof (xmain _ _ _ _ _ _ _ _ V Lt DS) as XM. pose proof (v_q _ _ _ _ V) as [Q1 Q2 Q3].
  pose proof (dstep_effect _ _ _ _ _ _ DS) as [_ _ _ _ ET _ _ _ _ _ EG _].
  assert (A1 : forall p (b : nat -> option act), (forall u, u <> t -> b u = acts m u) -> b t = p -> match p with Some (Act _ q _) => okp (Nat.eqb t 0) q | None => True end ->
     forall u w q hs, b u = Some (Act w q hs) -> okp (Nat.eqb u 0) q).
  { intros p b B1 B2 B3 u w q hs X. destruct (Nat.eq_dec u t) as [->|D]; [rewrite B2 in X; rewrite X in B3; exact B3|]. rewrite B1 in X by auto. eauto. }
  inversion F; subst; constructor; cbn [acts freg fset aset]; auto.
  all: try (eapply A1; [intros; apply dupd_ne; auto|apply dupd_eq|]).
  all: try (intros u f' Hf'; rewrite ET in Hf').
  all: try match goal with A : acts _ _ = Some (Act _ _ _) |- _ => pose proof (okp_more _ _ (Q1 _ _ _ _ A)) as OK; cbn in OK end.
  all: try exact Logic.I.
  all: try (eapply Q2; exact Hf').
  - apply OK.
  - destruct EG as [-> _]. destruct (Nat.eqb_spec u t) as [->|D].
    + destruct Hf' as [<-|Hf']; [rewrite dupd_eq; apply OK|]. rewrite dupd_ne by (specialize (K1 _ _ Hf'); lia). eauto.
    + rewrite dupd_ne by (specialize (K1 _ _ Hf'); lia). eauto.
  - intros f'. unfold dupd. destruct (Nat.eqb f' f); [|apply Q3]. eapply okp_main. apply OK.
  - apply OK.
  - destruct EG as [-> _]. rewrite dupd_ne by (specialize (K1 _ _ Hf'); lia). eauto.
  - intros f'. unfold dupd. destruct (Nat.eqb f' f); [|apply Q3]. eapply okp_main. apply OK.
  - rewrite XM. apply Q3.
  - destruct EG as [l EG]. apply Q2. rewrite EG. left. reflexivity.
  - destruct (Nat.eqb_spec u t) as [->|D]; [|eauto]. apply Q2. destruct (tdt (fns s) t); [destruct Hf'|right; exact Hf'].
  - rewrite XM. apply Hfini.
  - destruct x; try contradiction; eauto.
Qed.

Lemma finv_step tr s m g x s' m' : good_env e -> prun e c tr s -> finv tr s m g -> pstep e c s x s' -> qollows fini m x m' ->
  exists g', finv (tr ++ [x]) s' m' g'.
Proof.
  intros Ge R V St F.
  destruct (proj _ _ _ _ R) as [RB RD]. pose proof (exec_inv _ _ _ RD) as I. pose proof (fexec_known _ _ _ RD) as K.
  assert (R' : prun e c (tr ++ [x]) s') by (econstructor; eauto).
  destruct St as [acc b' T' B|acc i ins x b' T' B LO AC|t0 act x d' DS FO PC|t0 v d' DS PC UV|acc i ins j b' d' B DS|acc t0 ins b' d' DS B].
  - (* user *) assert (m' = m) as -> by (inversion F; reflexivity). exists g. eapply finv_same; eauto.
    intros u v H. apply in_app_iff in H as [H|[H|[]]]; [exact H|discriminate].
  - (* life *)
    assert (SAME : m' = m -> exists g', finv (tr ++ [PLife (i, ins, x)]) (PSt b' (fns s) (fval s)) m' g').
    { intros ->. exists g. eapply finv_same; eauto. intros u v. apply life_ret. }
    inversion F; subst; auto.
    + (* join *)
      match goal with H : acts m i = _ |- _ => rename H into A end. match goal with H : nth_error _ _ = _ |- _ => rename H into Nt end.
      destruct (C62_join_partial e c tr i ins j v _ Ge R') as [VR _]. assert (Pr : In (PReturns j v) tr) by (apply VR; reflexivity).
      destruct (v_ret _ _ _ _ V _ _ Pr) as [_ Ev].
      destruct (finv_act tr s m g (tr ++ [PLife (i, ins, EJoin j v)]) (PSt b' (fns s) (fval s)) i w (QJoin n k) hs (k v) [] V eq_refl eq_refl) as [g' V']; auto.
      * intros u v0. apply life_ret.
      * cbn [value prints after late later total app]. rewrite (nth_vals _ _ _ _ Nt), <- Ev. repeat split; reflexivity.
      * intros b X. apply okp_more in X. apply X.
      * exists g'. cbn [map] in V'. rewrite app_nil_r in V'. exact V'.
    + (* detach *)
      match goal with H : acts m i = _ |- _ => rename H into A end.
      destruct (finv_act tr s m g (tr ++ [PLife (i, ins, EDetach j)]) (PSt b' (fns s) (fval s)) i w (QDetach n k) hs k [] V eq_refl eq_refl) as [g' V']; auto.
      * intros u v0. apply life_ret.
      * repeat split; reflexivity.
      * exists g'. cbn [map] in V'. rewrite app_nil_r in V'. exact V'.
  - (* exit functions *)
    pose proof (dstep_effect _ _ _ _ _ _ DS) as Ef. pose proof Ef as [_ EL _ EF ET EP _ _ EN _ EG _].
    assert (Lt : (t0 < nthr (fns s))%nat).
    { destruct (le_lt_dec (nthr (fns s)) t0) as [X|X]; [|exact X]. destruct (i_new _ _ _ I t0 X) as [Y _]. contradiction. }
    eapply (finv_upd tr s m g _ _ _ t0 [] V Lt); cbn [fns fval].
    + rewrite EN. destruct x; try reflexivity. discriminate FO.
    + intros D. rewrite EP. pose proof (xmain _ _ _ _ _ _ _ _ V Lt DS) as XM. destruct x; try reflexivity; apply Nat.eqb_eq in XM; contradiction.
    + eapply qinv_fns; eauto.
    + intros D f Hf.
      assert (FL : (f < nextf (fns s))%nat).
      { destruct K as (_ & K2 & K3). apply in_app_iff in Hf as [Hf|Hf]; [|auto]. unfold infl in Hf. destruct (frames (fns s) 0%nat) as [|fr fs] eqn:Fr0; [destruct Hf|].
        apply (K3 0%nat fr); [rewrite Fr0; left; reflexivity|exact Hf]. }
      inversion F; subst; cbn [freg aset fset]; try reflexivity; apply dupd_ne; destruct EG as [-> _]; lia.
    + intros u D. rewrite EF, ET by auto. split; [destruct x; try reflexivity; discriminate FO|]. split.
      * destruct x; try reflexivity; try (destruct (Nat.eqb_spec u t0); [contradiction|reflexivity]). discriminate FO.
      * split; [|reflexivity]. inversion F; subst; cbn [acts aset fset]; rewrite ?dupd_ne by auto; reflexivity.
    + intros u f D Hf. inversion F; subst; cbn [freg aset fset]; try reflexivity; apply dupd_ne; destruct EG as [-> _];
      destruct K as [K _]; specialize (K _ _ Hf); lia.
    + inversion F; subst; reflexivity.
    + cbn [map]. rewrite app_nil_r. inversion F; subst; reflexivity.
    + inversion F; subst; cbn [acts aset fset]; rewrite ?dupd_eq; try (intros y []); try apply incl_refl;
      match goal with H : acts m t0 = _ |- _ => rewrite H end; apply incl_refl.
    + intros u v H. apply in_app_iff in H as [H|[H|[]]]; [left; exact H|discriminate].
    + intros os tt L. destruct (own_fns (code m) _ _ _ _ _ _ _ _ _ _ _ _ I (exec_pae _ _ _ RD) DS FO F K (v_q _ _ _ _ V) L) as (tt' & L' & P).
      exists os, tt'. auto.
  - (* a thread function returns *)
    pose proof (dstep_effect _ _ _ _ _ _ DS) as Ef. pose proof Ef as [_ EL _ EF ET EP _ _ EN _ EG _].
    assert (Lt : (t0 < nthr (fns s))%nat).
    { destruct (le_lt_dec (nthr (fns s)) t0) as [X|X]; [|exact X]. destruct (i_new _ _ _ I t0 X) as [Y _]. contradiction. }
    inversion F; subst. match goal with H : acts m t0 = _ |- _ => rename H into A end.
    apply dstep_inv in DS as [_ DS]. inversion DS; subst; [|congruence]. match goal with H : frames (fns s) t0 = _ |- _ => rename H into Fr end.
    assert (Ev : v = value (code m t0) [] /\ fs = []).
    { destruct (v_left _ _ _ _ V t0 Lt) as (os & L & _). rewrite Fr, A in L. revert L. generalize (value (code m t0) []). intros V0 L.
      inversion L; subst; try other_x. match goal with H : kont _ _ _ _ _ _ _ _ _ |- _ => inversion H; subst end. auto. }
    destruct Ev as [Ev ->].
    eapply (finv_upd tr s m g _ _ _ t0 [] V Lt); cbn [fns fval acts aset freg code fout map set_frames frames tdt pdt nthr]; auto.
    + destruct (v_q _ _ _ _ V) as [Q1 Q2 Q3]. constructor; cbn [acts aset freg tdt]; auto. intros u w p hs' X. destruct (Nat.eq_dec u t0) as [->|D]; [rewrite dupd_eq in X; discriminate|].
      rewrite dupd_ne in X by auto. eauto.
    + intros u D. rewrite !dupd_ne by auto. auto.
    + rewrite app_nil_r. reflexivity.
    + rewrite dupd_eq. intros y [].
    + intros u v0 H. apply in_app_iff in H as [H|[H|[]]]; [left; exact H|right]. injection H as <- <-. auto.
    + intros os tt L. rewrite Fr, A in L. rewrite !dupd_eq. rewrite <- Ev in *.
      inversion L; subst; try other_x. match goal with H : kont _ _ _ _ _ _ _ _ _ |- _ => inversion H; subst end.
      cbn [prints rest restt after total app]. rewrite !app_nil_r. eexists _, _. split; [apply L_dtors|]. auto.
  - (* create *)
    pose proof (dstep_effect _ _ _ _ _ _ DS) as Ef. pose proof Ef as [_ EL _ EF ET EP _ _ EN _ EG _]. destruct EG as [-> _].
    inversion F; subst. match goal with H : acts m i = _ |- _ => rename H into A end.
    pose proof (act_lt _ _ _ _ _ _ V A) as Lt. set (j := nthr (fns s)) in *.
    assert (NF : forall t, t <> j -> frames d' t = frames (fns s) t).
    { intros t D. apply dstep_inv in DS as [_ DS]. inversion DS; subst. cbn [spawn frames]. rewrite dupd_ne by auto. reflexivity. }
    assert (Fi : exists w0 fs0, frames (fns s) i = FUser w0 :: fs0).
    { apply dstep_inv in DS as [_ DS]. inversion DS; subst. eauto. }
    destruct Fi as (w0 & fs0 & Fi).
    assert (NJ : frames d' j = [FUser WThread] /\ pdt d' = pdt (fns s)).
    { rewrite EP. apply dstep_inv in DS as [_ DS]. inversion DS; subst. cbn [spawn frames]. split; [apply dupd_eq|reflexivity]. }
    destruct NJ as [NJ NP].
    pose proof V as [V1 V2 V3 V4 V5 V6 V7 [V8 V9]].
    assert (KC : forall t q, In q (kids (acts m t)) -> dupd (code m) j f q = code m q).
    { intros t q Hq. apply dupd_ne. specialize (V4 _ _ Hq). lia. }
    destruct (V2 i Lt) as (os & L & Ho). rewrite A in L.
    assert (LI : exists tt', left (dupd (code m) j f) (freg m) (fval s i) (Nat.eqb i 0) (frames (fns s) i) (Some (Act w k (hs ++ [j]))) (tdt (fns s) i) (pdt (fns s)) (value (code m i) []) os tt' /\
        g i = total Early f [] ++ tt').
    { revert L. generalize (value (code m i) []) (g i). intros V0 gi L. rewrite Fi in L |- *. inversion L; subst; try other_x.
      assert (EV : vals (dupd (code m) j f) (hs ++ [j]) = vals (code m) hs ++ [value f []]).
      { rewrite vals_snoc, dupd_eq. f_equal. apply vals_ext. intros q Hq. apply (KC i). rewrite A. exact Hq. }
      eexists. split.
      - replace (rest (freg m) (Nat.eqb i 0) d (QCreate f k) (vals (code m) hs) (tdt (fns s) i) (pdt (fns s)))
          with (rest (freg m) (Nat.eqb i 0) d k (vals (dupd (code m) j f) (hs ++ [j])) (tdt (fns s) i) (pdt (fns s))) by (unfold rest; rewrite EV; reflexivity).
        cbn [value prints]. rewrite <- EV. eapply L_user. eassumption.
      - cbn [total]. rewrite EV. rewrite <- app_assoc. reflexivity. }
    destruct LI as (tt' & LI & Gi).
    exists (dupd (dupd g i tt') j (total Early f [])).
    constructor; cbn [fns fval acts aset cset freg code fout]; try rewrite EN.
    + intros t Ht. rewrite !dupd_ne by lia. apply V1. lia.
    + intros t Ht. destruct (Nat.eq_dec t j) as [->|Dj].
      * rewrite !dupd_eq, NJ, ET, Nat.eqb_refl. destruct (Nat.eqb_spec j 0) as [X|_]; [lia|].
        exists (said f). split.
        -- pose proof (L_user (dupd (code m) j f) (freg m) (fval s j) _ _ _ f [] [] (pdt d') _ _ _ _ _ (K_thread (fval s j))) as X.
           cbn [vals map rest restt pend pendt flat_map app] in X. rewrite !app_nil_r in X. exact X.
        -- unfold full, out_of. cbn [code fout cset aset]. rewrite dupd_eq. destruct (Nat.eqb_spec j 0) as [X|_]; [lia|]. rewrite app_nil_r.
           replace (filter (fun x => Nat.eqb (fst x) j) (fout m)) with (@nil (nat * Z)); [reflexivity|].
           symmetry. clear - V6. fold j in V6. induction (fout m) as [|y o IH]; [reflexivity|]. cbn.
           destruct (Nat.eqb_spec (fst y) j) as [X|_]; [specialize (V6 y (or_introl eq_refl)); lia|]. apply IH. intros x Hx. apply V6. right. exact Hx.
      * rewrite NF, ET, NP by auto. destruct (Nat.eqb_spec t j) as [|_]; [contradiction|].
        unfold full. cbn [code cset aset acts freg fout]. change (out_of (QMach (dupd (dupd (acts m) i (Some (Act w k (hs ++ [j])))) j (Some (Act WThread f []))) (freg m) (dupd (code m) j f) (fout m)) t) with (out_of m t).
        rewrite !(dupd_ne _ j) by auto.
        destruct (Nat.eq_dec t i) as [->|Di].
        -- rewrite !dupd_eq. exists os. split; [exact LI|exact Ho].
        -- rewrite !dupd_ne by auto. destruct (V2 t ltac:(lia)) as (os1 & L1 & H1). exists os1. split; [|exact H1].
           eapply left_ext; [exact L1| |auto|auto]. intros q Hq. apply (KC t). exact Hq.
    + fold j. rewrite seq_S, flat_map_app. cbn [flat_map plus]. rewrite app_nil_r, dupd_eq.
      assert (X : flat_map (dupd (dupd g i tt') j (total Early f [])) (seq 0 j) = flat_map (dupd g i tt') (seq 0 j)).
      { rewrite !flat_map_concat_map. f_equal. apply map_ext_in. intros q Hq. apply in_seq in Hq. apply dupd_ne. lia. }
      rewrite X. eapply Permutation_trans; [|exact V3]. apply Permutation_app_head. rewrite Permutation_app_comm. symmetry.
      apply perm_flat; [exact Lt|]. rewrite Gi. apply Permutation_refl.
    + intros t q Hq. fold j. destruct (Nat.eq_dec t j) as [->|Dj]; [rewrite dupd_eq in Hq; destruct Hq|]. rewrite dupd_ne in Hq by auto.
      destruct (Nat.eq_dec t i) as [->|Di].
      * rewrite dupd_eq in Hq. cbn in Hq. apply in_app_iff in Hq as [Hq|[<-|[]]]; [|unfold j; lia]. specialize (V4 i q). rewrite A in V4. specialize (V4 Hq). unfold j. lia.
      * rewrite dupd_ne in Hq by auto. specialize (V4 _ _ Hq). unfold j. lia.
    + intros t v H. apply in_app_iff in H as [H|[H|[]]]; [|discriminate]. destruct (V5 _ _ H) as [Lt' ->]. fold j in Lt'. split; [lia|]. rewrite dupd_ne by lia. reflexivity.
    + intros y Hy. specialize (V6 _ Hy). lia.
    + pose proof (okp_more _ _ (q_act _ _ V7 _ _ _ _ A)) as [OK1 OK2]. destruct V7 as [Q1 Q2 Q3]. constructor; cbn [acts aset cset freg]; auto.
      * intros u w1 p hs1 X. destruct (Nat.eq_dec u j) as [->|Dj].
        -- rewrite dupd_eq in X. injection X as <- <- <-. destruct (Nat.eqb_spec j 0) as [X|_]; [lia|]. exact OK1.
        -- rewrite dupd_ne in X by auto. destruct (Nat.eq_dec u i) as [->|Di].
           ++ rewrite dupd_eq in X. injection X as <- <- <-. exact OK2.
           ++ rewrite dupd_ne in X by auto. eauto.
      * intros u q Hq. rewrite ET in Hq. destruct (Nat.eqb u j); [destruct Hq|eauto].
    + split; [rewrite dupd_ne by (unfold j; lia); exact V8|lia].
  - (* last exit function called *)
    assert (m' = m) as -> by (inversion F; reflexivity).
    pose proof (dstep_effect _ _ _ _ _ _ DS) as Ef. pose proof Ef as [_ EL _ EF ET EP _ _ EN _ EG _].
    assert (Lt : (t0 < nthr (fns s))%nat).
    { destruct (le_lt_dec (nthr (fns s)) t0) as [X|X]; [|exact X]. destruct (i_new _ _ _ I t0 X) as [Y _]. contradiction. }
    pose proof (i_tae _ _ _ I) as TAE.
    apply dstep_inv in DS as [_ DS]. inversion DS; subst. match goal with H : frames (fns s) t0 = _ |- _ => rename H into Fr end.
    eapply (finv_upd tr s m g _ _ _ t0 [] V Lt); cbn [fns fval map set_frames frames tdt pdt nthr]; auto.
    + destruct (v_q _ _ _ _ V) as [Q1 Q2 Q3]. constructor; auto.
    + intros u D. rewrite !dupd_ne by auto. auto.
    + rewrite app_nil_r. reflexivity.
    + apply incl_refl.
    + intros u v0 H. apply in_app_iff in H as [H|[H|[]]]; [left; exact H|discriminate].
    + intros os tt L. rewrite Fr in L. rewrite !dupd_eq. inversion L; subst; try other_x.
      assert (E0 : tdt (fns s) t0 = []) by (destruct (c_tae c); auto). rewrite E0.
      eexists _, _. split; [|split; [reflexivity|apply Permutation_refl]].
      apply L_done.
Qed.

Theorem frun_inv tr s m : good_env e -> qrun tr s m -> exists g, finv tr s m g.
Proof.
  intros Ge. induction 1 as [b Hb|tr s m x s' m' R [g V] St F|tr s m t w z k hs R [g V] T U P A].
  - eexists. apply finv_init.
  - eapply finv_step; eauto. eapply frun_prun; eauto.
  - destruct (finv_act tr s m g tr s t w (QPrint z k) hs k [z] V eq_refl eq_refl) as [g' V']; auto.
    { repeat split; reflexivity. }
    exists g'. exact V'.
Qed.
End Fork.
