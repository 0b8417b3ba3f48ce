(** Where the threads of a parallel program are (for C83). *)
From Coq Require Import ZArith List Bool Lia Arith.
From Verif Require Import Machine LayoutModel ThreadModel FairCore ByteModel DtorsModel DtorsFacts DtorsInv DtorsPres ExitFairSpec ProcModel Props_Proc Props_Byte ForkProofs ForkPc PexitModel PexitSpec PexitProofs PexitAll.
Import ListNotations.
Open Scope Z_scope.

Definition isreg (fr : frame) : bool := match fr with FLock _ | FPush _ | FUnlock => true | _ => false end.
(** Inside program::at_exit a thread is in no function of the life cycle. *)
Lemma reg_run e c tr s : prun e c tr s -> forall t fr l, frames (fns s) t = fr :: l -> isreg fr = true -> t_pc (bT (life s) t) = Run.
Proof.
  induction 1 as [b Hb|tr s x s' R IH St]; intros t fr l Fr Rg.
  - cbn [fns] in Fr. unfold dinit in Fr. cbn [frames] in Fr. destruct t; [|discriminate Fr]. injection Fr as <- <-. discriminate Rg.
  - destruct (proj _ _ _ _ R) as [RB RD]. pose proof (exec_inv _ _ _ RD) as I.
    assert (NN : forall u a y d', dstep c (fns s) u a = Some (y, d') -> u <> nthr (fns s)).
    { intros u a y d' DS ->. destruct (i_new _ _ _ I (nthr (fns s))) as [Y _]; [lia|]. exact (e_live _ _ _ _ _ (dstep_effect _ _ _ _ _ _ DS) Y). }
    destruct St as [acc b' Tm B|acc i ins y b' Tm B LO AC|u act y d' DS FO PC|u v d' DS PC UV|acc i ins j b' d' B DS|acc u ins b' d' DS B]; cbn [fns life] in *.
    + pose proof (fpc_step _ _ _ _ _ t B) as (P1 & _). eauto.
    + pose proof (fpc_step _ _ _ _ _ t B) as P. specialize (IH _ _ _ Fr Rg).
      destruct y; try discriminate LO; try (destruct P as (P1 & _); auto; fail).
      all: destruct (Nat.eq_dec t i) as [->|D]; try (destruct P as (_ & P & _); rewrite P by auto; exact IH); try (destruct P as (_ & P); rewrite P by auto; exact IH); try (destruct P as (P & _); exact P).
      all: destruct (AC eq_refl) as (w & fs & U); rewrite U in Fr; injection Fr as <- <-; discriminate.
    + destruct (Nat.eq_dec t u) as [->|D]; [exact PC|]. rewrite (e_other _ _ _ _ _ (dstep_effect _ _ _ _ _ _ DS) t D) in Fr. apply (IH t fr l); [|exact Rg]. destruct y; try discriminate FO; exact Fr.
    + destruct (Nat.eq_dec t u) as [->|D]; [exact PC|]. rewrite (e_other _ _ _ _ _ (dstep_effect _ _ _ _ _ _ DS) t D) in Fr. eauto.
    + pose proof (fpc_step _ _ _ _ _ t B) as P. cbn in P. pose proof (dstep_effect _ _ _ _ _ _ DS) as Ef. destruct (Nat.eq_dec t i) as [->|D].
      * pose proof (e_own _ _ _ _ _ Ef (NN _ _ _ _ DS)) as FS. revert FS Fr. generalize (frames d' i) (frames (fns s) i). intros A B' FS ->. inversion FS; subst; discriminate Rg.
      * rewrite (e_other _ _ _ _ _ Ef t D) in Fr. cbn in Fr. destruct (Nat.eqb_spec t j) as [->|Dj]; [injection Fr as <- <-; discriminate|]. rewrite P by auto. eauto.
    + pose proof (fpc_step _ _ _ _ _ t B) as P. cbn in P. pose proof (dstep_effect _ _ _ _ _ _ DS) as Ef. destruct (Nat.eq_dec t u) as [->|D].
      * pose proof (e_own _ _ _ _ _ Ef (NN _ _ _ _ DS)) as FS. revert FS Fr. generalize (frames d' u) (frames (fns s) u). intros A B' FS ->. inversion FS.
      * rewrite (e_other _ _ _ _ _ Ef t D) in Fr. cbn in Fr. rewrite P by auto. eauto.
Qed.

Section Pc.
Variables (c : dcfg) (fini : nat -> qprog).

(** User code of [t] is running, or in the middle of program::at_exit. *)
Definition in_user_or_reg (d : dst) (t : nat) : Prop :=
  exists w fs, frames d t = FUser w :: fs \/ exists fr, (fr = FUnlock \/ exists f, fr = FLock f \/ fr = FPush f) /\ frames d t = fr :: FUser w :: fs.

(** A thread with something to run is in no function of the life cycle, or in
    the join or detach its program is at; handles are of younger threads. *)
Definition at_call (p : pc) (a : option act) : Prop :=
  match a with
  | Some (Act _ (QJoin n _) hs) => exists j, nth_error hs n = Some j /\ inorp p KJoin j
  | Some (Act _ (QDetach n _) hs) => exists j, nth_error hs n = Some j /\ inorp p KDetach j
  | _ => False
  end.
Record qwhere (s : pst) (m : qmach) : Prop := {
  fw_pc : forall t, frames (fns s) t <> [] -> t_pc (bT (life s) t) = Run \/ at_call (t_pc (bT (life s) t)) (acts m t);
  fw_kid : forall t w p hs j, acts m t = Some (Act w p hs) -> In j hs -> (t < j < nthr (fns s))%nat }.

Lemma at_call_eq p a a' : a' = a -> at_call p a -> at_call p a'. Proof. now intros ->. Qed.

Lemma qwhere_step e tr s m x s' m' : prun e c tr s -> (forall t, acts m t <> None -> in_user_or_reg (fns s) t) -> qwhere s m -> pstep e c s x s' -> qollows fini m x m' -> qwhere s' m'.
Proof.
  intros R WA [WP WK] St F. destruct (proj _ _ _ _ R) as [RB RD]. pose proof (exec_inv _ _ _ RD) as I.
  pose proof (prun_inv _ _ _ _ R) as PI.
  assert (NT : (nthr (fns s) <= nthr (fns s'))%nat).
  { destruct St as [acc b' Tm B|acc i ins y b' Tm B LO AC|t act y d' DS FO PC|t v d' DS PC UV|acc i ins j b' d' B DS|acc t ins b' d' DS B]; cbn [fns]; auto;
      rewrite (e_nthr _ _ _ _ _ (dstep_effect _ _ _ _ _ _ DS)); try destruct y; lia. }
  assert (LV : forall t act y d', dstep c (fns s) t act = Some (y, d') -> (t < nthr (fns s))%nat).
  { intros t act y d' DS. pose proof (dstep_effect _ _ _ _ _ _ DS) as [_ EL _ _ _ _ _ _ _ _ _ _].
    destruct (le_lt_dec (nthr (fns s)) t) as [L|L]; [|exact L]. destruct (i_new _ _ _ I t L) as [Y _]. contradiction. }
  assert (EO : forall t act y d', dstep c (fns s) t act = Some (y, d') -> fstep c (frames (fns s) t) y (frames d' t)).
  { intros t act y d' DS. apply (dstep_effect _ _ _ _ _ _ DS). apply LV in DS. lia. }
  assert (AL : forall t, acts m t <> None -> (t < nthr (fns s))%nat).
  { intros t A. apply WA in A as (w0 & fs0 & [A|(fr0 & _ & A)]); (destruct (le_lt_dec (nthr (fns s)) t) as [L|L]; [|exact L]; destruct (i_new _ _ _ I t L) as [Y _]; congruence). }
  constructor.
  - intros t NE.
    destruct St as [acc b' Tm B|acc i ins y b' Tm B LO AC|t' act y d' DS FO PC|t' v d' DS PC UV|acc i ins j b' d' B DS|acc t' ins b' d' DS B]; cbn [fns life] in *.
    + assert (m' = m) as -> by (inversion F; reflexivity). pose proof (fpc_step _ _ _ _ _ t B) as (P1 & P2 & _). destruct (WP t NE) as [X|X]; [auto|right].
      unfold at_call in *. destruct (acts m t) as [[w p hs]|]; auto. destruct p; auto; destruct X as (j & X1 & X2); eauto.
    + pose proof (fpc_step _ _ _ _ _ t B) as P.
      assert (KEEP : (t_pc (bT (life s) t) = Run -> t_pc (bT b' t) = Run) /\ (forall q j, inorp (t_pc (bT (life s) t)) q j -> inorp (t_pc (bT b' t)) q j) ->
         acts m' t = acts m t -> t_pc (bT b' t) = Run \/ at_call (t_pc (bT b' t)) (acts m' t)).
      { intros [P1 P2] ->. destruct (WP t NE) as [X|X]; [auto|right].
        unfold at_call in *. destruct (acts m t) as [[w p hs]|]; auto. destruct p; auto; destruct X as (j & X1 & X2); eauto. }
      assert (SAME : t_pc (bT b' t) = t_pc (bT (life s) t) -> acts m' t = acts m t -> t_pc (bT b' t) = Run \/ at_call (t_pc (bT b' t)) (acts m' t)) by (intros -> ->; auto).
      inversion F; subst.
      * destruct P as (_ & P1 & P2). destruct (Nat.eq_dec t i) as [->|N]; [|apply SAME; auto]. right.
        match goal with H : acts m' i = _ |- _ => rewrite H end. exists j. split; [auto|left; exact P2].
      * destruct P as (P1 & P2). destruct (Nat.eq_dec t i) as [->|N]; [auto|]. apply SAME; [auto|]. cbn. now rewrite dupd_ne.
      * destruct P as (_ & P1 & P2). destruct (Nat.eq_dec t i) as [->|N]; [|apply SAME; auto]. right.
        match goal with H : acts m' i = _ |- _ => rewrite H end. exists j. split; [auto|left; exact P2].
      * destruct P as (P1 & P2). destruct (Nat.eq_dec t i) as [->|N]; [auto|]. apply SAME; [auto|]. cbn. now rewrite dupd_ne.
      * match goal with A1 : forall j v, _ <> EJoin j v, A2 : forall j, _ <> EDetach j |- _ => destruct y; try discriminate LO; try (match goal with A : api_call _ = false |- _ => discriminate A end);
          try (apply KEEP; [destruct P as (P1 & P2 & _); auto|reflexivity]); exfalso; [eapply A1; reflexivity|eapply A2; reflexivity] end.
    + destruct (Nat.eq_dec t t') as [->|N]; [left; exact PC|].
      assert (KE : acts m' t = acts m t) by (inversion F; subst; cbn; rewrite ?dupd_ne by assumption; reflexivity). rewrite KE.
      pose proof (e_other _ _ _ _ _ (dstep_effect _ _ _ _ _ _ DS) t N) as EF. apply WP. rewrite EF in NE. destruct y; try discriminate FO; auto.
    + inversion F; subst. destruct (Nat.eq_dec t t') as [->|N]; [left; exact PC|]. cbn [acts aset]. rewrite dupd_ne by auto.
      pose proof (e_other _ _ _ _ _ (dstep_effect _ _ _ _ _ _ DS) t N) as EF. apply WP. rewrite EF in NE. exact NE.
    + pose proof (fpc_step _ _ _ _ _ t B) as P. cbn in P. inversion F; subst.
      assert (PCi : t_pc (bT (life s) i) = Run) by (inversion B; assumption).
      assert (Ej : j = nthr (fns s)) by (pose proof (e_guard _ _ _ _ _ (dstep_effect _ _ _ _ _ _ DS)) as [Q _]; exact Q).
      destruct (Nat.eq_dec t j) as [Etj|Nj].
      * left. rewrite Etj. clear - B. inversion B; subst. cbn. unfold fupd. now rewrite Nat.eqb_refl.
      * rewrite (P Nj). cbn [acts aset cset]. rewrite (dupd_ne _ j) by auto. destruct (Nat.eq_dec t i) as [->|Ni]; [auto|]. rewrite dupd_ne by auto.
        pose proof (e_other _ _ _ _ _ (dstep_effect _ _ _ _ _ _ DS) t Ni) as EF. cbn in EF. destruct (Nat.eqb_spec t j); [contradiction|]. apply WP. congruence.
    + pose proof (fpc_step _ _ _ _ _ t B) as P. cbn in P. assert (m' = m) as -> by (inversion F; reflexivity).
      destruct (Nat.eq_dec t t') as [->|N].
      * exfalso. apply NE. specialize (EO _ _ _ _ DS). revert EO. generalize (frames d' t') (frames (fns s) t'). intros X Y Z. inversion Z; reflexivity.
      * rewrite (P N). pose proof (e_other _ _ _ _ _ (dstep_effect _ _ _ _ _ _ DS) t N) as EF. cbn in EF. apply WP. congruence.
  - assert (NEWJ : forall i ins j, x = PCreate i ins j -> j = nthr (fns s) /\ (j < nthr (fns s'))%nat).
    { intros i ins j ->. inversion St; subst. cbn [fns]. match goal with A : dstep _ _ _ _ = _ |- _ => pose proof (dstep_effect _ _ _ _ _ _ A) as EE end.
      rewrite (e_nthr _ _ _ _ _ EE). pose proof (e_guard _ _ _ _ _ EE) as [-> _]. lia. }
    intros t w p hs j A Hj.
    assert (OLD : forall u w p hs j, acts m u = Some (Act w p hs) -> In j hs -> (u < j < nthr (fns s'))%nat) by (intros u w0 p0 hs0 j0 X Y; specialize (WK _ _ _ _ _ X Y); lia).
    inversion F; subst; cbn [acts aset fset cset] in A; eauto;
      try (unfold dupd in A; destruct (Nat.eqb_spec t i) as [->|]; [injection A as <- <- <-|]; eauto; fail);
      try (unfold dupd in A; destruct (Nat.eqb_spec t t0) as [->|]; [try discriminate A; injection A as <- <- <-|]; eauto; try contradiction; fail).
    destruct (NEWJ _ _ _ eq_refl) as [Ej Lj]. unfold dupd in A. destruct (Nat.eqb_spec t j0) as [->|]; [injection A as <- <- <-; contradiction|].
    destruct (Nat.eqb_spec t i) as [->|]; [|eauto]. injection A as <- <- <-. apply in_app_iff in Hj as [Hj|[<-|[]]]; [eauto|].
    split; [|exact Lj]. rewrite Ej. apply AL. congruence.
Qed.


Lemma frun_user main e tr s m : good_env e -> qrun fini main e c tr s m -> forall t, acts m t <> None -> in_user_or_reg (fns s) t.
Proof.
  intros Ge R t A. destruct (arun_inv c fini e main tr s m Ge R) as [g V]. destruct (acts m t) as [a|] eqn:E; [|congruence].
  pose proof (aact_lt _ _ _ _ _ _ _ _ _ V E) as LT. destruct (a_left _ _ _ _ _ _ _ V t LT) as (os & L & _). rewrite E in L. revert L. generalize (value (code m t) []).
  intros v0 L. unfold in_user_or_reg. inversion L; subst; do 2 eexists; [left; reflexivity| |]; right; eexists; (split; [|reflexivity]); eauto; match goal with H : _ \/ _ |- _ => destruct H as [->| ->]; eauto end.
Qed.

Lemma user_now main e tr s m : good_env e -> qrun fini main e c tr s m -> forall t, acts m t <> None -> (forall fr l, frames (fns s) t = fr :: l -> isreg fr = false) -> in_user (fns s) t.
Proof.
  intros Ge R t A NR. destruct (frun_user main e tr s m Ge R t A) as (w & fs & [X|(fr & [->|(f & [->| ->])] & X)]); [exists w, fs; exact X|..]; discriminate (NR _ _ X).
Qed.
Lemma qwhere_print s m t w z k hs : qwhere s m -> acts m t = Some (Act w (QPrint z k) hs) -> qwhere s (oput (aset m t (Some (Act w k hs))) t z).
Proof.
  intros [WP WK] A. constructor; cbn [acts aset oput].
  - intros u NE. destruct (WP u NE) as [X|X]; [auto|]. unfold dupd. destruct (Nat.eqb_spec u t) as [->|]; [|auto]. rewrite A in X. contradiction.
  - intros u w0 p hs0 j X Hj. unfold dupd in X. destruct (Nat.eqb_spec u t) as [->|]; [|eauto]. injection X as <- <- <-. eauto.
Qed.
Lemma qwhere_init main e b : bstarts e b ->
  qwhere (PSt b dinit (fun _ => 0)) (QMach (dupd (fun _ => None) 0%nat (Some (Act WMain main []))) (fun _ => QReturn 0) (dupd (fun _ => QReturn 0) 0%nat main) []).
Proof.
  intros (m0 & sp & ee & rl & rn & an & tid & R & len & map & _ & _ & _ & ->). constructor; cbn.
  - intros t. unfold dupd. destruct (Nat.eqb_spec t 0) as [->|]; [left; reflexivity|]. intros X. congruence.
  - intros t w p hs j. unfold dupd. destruct (Nat.eqb t 0); [|discriminate]. intros X. injection X as <- <- <-. intros [].
Qed.
Lemma frun_where main e tr s m : good_env e -> qrun fini main e c tr s m -> qwhere s m.
Proof.
  intros Ge R. induction R as [b Hb|tr s m x s' m' R IH St F|tr s m t w z k hs R IH T U P K].
  - eapply qwhere_init; eauto.
  - eapply qwhere_step; eauto; [eapply frun_prun; eauto|eapply frun_user; eauto].
  - eapply qwhere_print; eauto.
Qed.
End Pc.
