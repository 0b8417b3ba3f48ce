(** Programs that join every thread they create: nobody is left when the process
    ends (for C73). *)
From Coq Require Import ZArith List Bool Lia Arith Permutation.
From Verif Require Import Machine LayoutModel ThreadModel ByteModel ByteProofs DtorsModel DtorsFacts DtorsInv DtorsPres ProcModel Props_Proc Props_Byte ScriptProofs ForkModel ForkSpec ForkProofs.
Import ListNotations.
Open Scope Z_scope.

Section Tidy.
Variables (c : dcfg) (fini : nat -> fprog) (e : benv) (main : fprog).
Local Notation frun := (frun fini main e c).
Hypothesis Hmain : tidy main 0 [].
Hypothesis Hfini : forall k, tidy (fini k) 0 [].

(** [opn t]: the handles of [t]'s activation that are still to be joined. *)
Record tinv (d : dst) (m : fmach) (opn : nat -> list nat) : Prop := {
  t_act : forall t w p hs, acts m t = Some (Act w p hs) -> tidy p (length hs) (opn t);
  t_reg : forall f, tidy (freg m f) 0 [];
  t_kid : forall j, (0 < j < nthr d)%nat -> frames d j = [] \/
    exists t w p hs i, (t < j)%nat /\ acts m t = Some (Act w p hs) /\ In i (opn t) /\ nth_error hs i = Some j }.

Lemma tinv_step tr s m g x s' m' opn : good_env e -> prun e c tr s -> finv c fini main tr s m g -> tinv (fns s) m opn ->
  pstep e c s x s' -> gollows fini m x m' -> exists opn', tinv (fns s') m' opn'.
Proof.
  intros Ge R V [T1 T2 T3] St F.
  destruct (proj _ _ _ _ R) as [RB RD]. pose proof (exec_inv _ _ _ RD) as I.
  assert (R' : prun e c (tr ++ [x]) s') by (econstructor; eauto).
  (* an activation without open handles can go *)
  assert (GONE : forall t a' d' m2, (forall t', t' <> t -> acts m2 t' = acts m t') -> acts m2 t = a' ->
     match acts m t with Some (Act _ p hs) => tidy p (length hs) (opn t) -> opn t = [] | None => True end ->
     match a' with Some (Act _ p hs) => tidy p (length hs) [] | None => True end ->
     (forall f, tidy (freg m2 f) 0 []) -> nthr d' = nthr (fns s) -> (forall u, frames (fns s) u = [] -> frames d' u = []) ->
     exists opn', tinv d' m2 opn').
  { intros t a' d' m2 O1 O2 O3 O4 O5 O6 O7. exists (dupd opn t []). constructor.
    - intros u w p hs A. destruct (Nat.eq_dec u t) as [->|D]; [rewrite dupd_eq; rewrite O2 in A; rewrite A in O4; exact O4|].
      rewrite dupd_ne by auto. rewrite O1 in A by auto. eauto.
    - exact O5.
    - intros j Hj. rewrite O6 in Hj. destruct (T3 j Hj) as [X|(u & w & p & hs & i & X1 & X2 & X3 & X4)]; [left; auto|].
      destruct (Nat.eq_dec u t) as [->|D].
      + rewrite X2 in O3. rewrite O3 in X3 by eauto. destruct X3.
      + right. exists u, w, p, hs, i. rewrite dupd_ne, O1 by auto. auto. }
  destruct St as [acc b' T' B|acc i ins x b' T' B LO AC|t0 act x d' DS FO PC|t0 v d' DS PC UV|acc i ins j b' d' B DS|acc t0 ins b' d' DS B].
  - assert (m' = m) as -> by (inversion F; reflexivity). exists opn. constructor; auto.
  - cbn [fns] in *. inversion F; subst; try (exists opn; constructor; auto; fail).
    + (* join *) match goal with H : acts m i = _ |- _ => rename H into A end. match goal with H : nth_error _ _ = _ |- _ => rename H into Nt end.
      destruct (C62_join_partial e c tr i ins j v _ Ge R') as (_ & _ & _ & Dj). cbn [fns] in Dj.
      pose proof (T1 _ _ _ _ A) as Td. cbn [tidy] in Td. destruct Td as [_ Td].
      exists (dupd opn i (remove Nat.eq_dec n (opn i))). constructor.
      * intros u w' p hs' A'. cbn [acts aset] in A'. destruct (Nat.eq_dec u i) as [->|D].
        -- rewrite dupd_eq in A'; rewrite dupd_eq. injection A' as <- <- <-. apply Td.
        -- rewrite dupd_ne in A' by auto; rewrite dupd_ne by auto. eauto.
      * exact T2.
      * intros j' Hj'. destruct (Nat.eq_dec j' j) as [->|Dj']; [left; exact Dj|].
        destruct (T3 j' Hj') as [X|(u & w' & p & hs' & i' & X1 & X2 & X3 & X4)]; [left; exact X|right].
        cbn [acts aset]. destruct (Nat.eq_dec u i) as [->|D].
        -- rewrite A in X2. injection X2 as <- <- <-. exists i, w, (k v), hs, i'. rewrite !dupd_eq. repeat split; auto.
           apply in_in_remove; [|exact X3]. intros ->. congruence.
        -- exists u, w', p, hs', i'. rewrite !dupd_ne by auto. auto.
    + (* detach *) match goal with H : acts m i = _ |- _ => destruct (T1 _ _ _ _ H) end.
  - pose proof (dstep_effect _ _ _ _ _ _ DS) as [_ EL _ _ _ _ _ _ EN _ _ _]. cbn [fns].
    assert (NT : nthr d' = nthr (fns s)) by (rewrite EN; destruct x; try reflexivity; discriminate FO).
    assert (FN : forall u, frames (fns s) u = [] -> frames d' u = []).
    { intros u Hu. destruct (frames d' u) eqn:E; [reflexivity|]. destruct (frames_step _ _ _ _ _ _ _ u I DS) as (X & _).
      destruct X as [X| -> ]; [congruence|contradiction|discriminate FO]. }
    assert (Lt : (t0 < nthr (fns s))%nat).
    { destruct (le_lt_dec (nthr (fns s)) t0) as [X|X]; [|exact X]. destruct (i_new _ _ _ I t0 X) as [Y _]. contradiction. }
    assert (NA : match x with CallT _ | CallF _ => acts m t0 = None | _ => True end).
    { destruct (v_left _ _ _ _ _ _ _ V t0 Lt) as (os & L & _).
      destruct x; auto; apply dstep_inv in DS as [_ DS]; inversion DS; subst; match goal with H : frames (fns s) t0 = _ |- _ => rewrite H in L end; inversion L; auto. }
    inversion F; subst.
    + (* regt *) match goal with H : acts m t0 = _ |- _ => rename H into A end. destruct (T1 _ _ _ _ A) as [Q1 Q2].
      exists opn. constructor; cbn [acts aset fset freg].
      * intros u w' p hs' A'. destruct (Nat.eq_dec u t0) as [->|D]; [rewrite dupd_eq in A'; injection A' as <- <- <-; exact Q2|].
        rewrite dupd_ne in A' by auto. eauto.
      * intros f'. unfold dupd. destruct (Nat.eqb f' f); auto.
      * intros j Hj. rewrite NT in Hj. destruct (T3 j Hj) as [X|(u & w' & p & hs' & i & X1 & X2 & X3 & X4)]; [left; auto|right].
        destruct (Nat.eq_dec u t0) as [->|D].
        -- rewrite A in X2. injection X2 as <- <- <-. exists t0, w, k, hs, i. rewrite dupd_eq. auto.
        -- exists u, w', p, hs', i. rewrite dupd_ne by auto. auto.
    + eapply (GONE t0 (Some (Act (WT f) (freg m f) []))); [intros; apply dupd_ne; auto|apply dupd_eq|rewrite NA; exact Logic.I|apply T2|exact T2|exact NT|exact FN].
    + eapply (GONE t0 (Some (Act (WF k) (fini k) []))); [intros; apply dupd_ne; auto|apply dupd_eq|rewrite NA; exact Logic.I|apply Hfini|exact T2|exact NT|exact FN].
    + eapply (GONE t0 None); [intros; apply dupd_ne; auto|apply dupd_eq|match goal with H : acts m t0 = _ |- _ => rewrite H end; exact (fun X => X)|exact Logic.I|exact T2|exact NT|exact FN].
    + eapply (GONE t0 None); [intros; apply dupd_ne; auto|apply dupd_eq|match goal with H : acts m t0 = _ |- _ => rewrite H end; exact (fun X => X)|exact Logic.I|exact T2|exact NT|exact FN].
    + exists opn. constructor; auto. intros j Hj. rewrite NT in Hj. destruct (T3 j Hj) as [X|X]; [left; auto|right; exact X].
  - pose proof (dstep_effect _ _ _ _ _ _ DS) as [_ EL _ _ _ _ _ _ EN _ _ _]. cbn [fns].
    inversion F; subst. eapply (GONE t0 None); [intros; apply dupd_ne; auto|apply dupd_eq|match goal with H : acts m t0 = _ |- _ => rewrite H end; exact (fun X => X)|exact Logic.I|exact T2|rewrite EN; reflexivity|].
    + intros u Hu. destruct (frames d' u) eqn:E; [reflexivity|]. destruct (frames_step _ _ _ _ _ _ _ u I DS) as (X & _).
      destruct X as [X|X]; [congruence|contradiction|discriminate X].
  - (* create *) pose proof (dstep_effect _ _ _ _ _ _ DS) as [_ EL _ EF _ _ _ _ EN _ EG _]. destruct EG as [-> _]. cbn [fns].
    inversion F; subst. match goal with H : acts m i = _ |- _ => rename H into A end. pose proof (act_lt _ _ _ _ _ _ _ _ _ V A) as Lt.
    destruct (T1 _ _ _ _ A) as [Q1 Q2]. set (j := nthr (fns s)) in *.
    exists (dupd (dupd opn i (length hs :: opn i)) j []). constructor; cbn [acts aset cset freg].
    + intros u w' p hs' A'. destruct (Nat.eq_dec u j) as [->|Dj].
      * rewrite dupd_eq in A'; rewrite dupd_eq. injection A' as <- <- <-. exact Q1.
      * rewrite dupd_ne in A' by auto; rewrite dupd_ne by auto. destruct (Nat.eq_dec u i) as [->|Di].
        -- rewrite dupd_eq in A'; rewrite dupd_eq. injection A' as <- <- <-. rewrite app_length, Nat.add_comm. exact Q2.
        -- rewrite dupd_ne in A' by auto; rewrite dupd_ne by auto. eauto.
    + exact T2.
    + intros q Hq. rewrite EN in Hq. destruct (Nat.eq_dec q j) as [->|Dq].
      * right. exists i, w, k, (hs ++ [j]), (length hs). rewrite !(dupd_ne _ j) by (unfold j; lia). rewrite !dupd_eq. repeat split; [exact Lt|left; reflexivity|].
        rewrite nth_error_app2, Nat.sub_diag by lia. reflexivity.
      * destruct (T3 q ltac:(lia)) as [X|(u & w' & p & hs' & i' & X1 & X2 & X3 & X4)].
        -- left. destruct (frames d' q) eqn:E; [reflexivity|]. destruct (frames_step _ _ _ _ _ _ _ q I DS) as (Y & _).
           destruct Y as [Y|Y]; [congruence|contradiction|injection Y as Y; congruence].
        -- right. assert (u <> j) by lia. destruct (Nat.eq_dec u i) as [->|Di].
           ++ rewrite A in X2. injection X2 as <- <- <-. exists i, w, k, (hs ++ [j]), i'. rewrite !(dupd_ne _ j) by auto. rewrite !dupd_eq.
              repeat split; [lia|right; exact X3|]. rewrite nth_error_app1; [exact X4|]. apply nth_error_Some. congruence.
           ++ exists u, w', p, hs', i'. rewrite !dupd_ne by auto. auto.
  - pose proof (dstep_effect _ _ _ _ _ _ DS) as [_ EL _ _ _ _ _ _ EN _ _ _]. cbn [fns].
    assert (m' = m) as -> by (inversion F; reflexivity). exists opn. constructor; auto. intros j Hj. rewrite EN in Hj.
    destruct (T3 j Hj) as [X|X]; [left|right; exact X]. destruct (frames d' j) eqn:E; [reflexivity|].
    destruct (frames_step _ _ _ _ _ _ _ j I DS) as (Y & _). destruct Y as [Y|Y]; [congruence|contradiction|discriminate Y].
Qed.

Lemma frun_tidy tr s m : good_env e -> frun tr s m -> exists opn, tinv (fns s) m opn.
Proof.
  intros Ge. induction 1 as [b Hb|tr s m x s' m' R [opn V] St F|tr s m t w z k hs R [opn [T1 T2 T3]] Tm U P A].
  - exists (fun _ => []). constructor; cbn [acts freg fns].
    + intros t w p hs A. destruct t; [|discriminate A]. injection A as <- <- <-. exact Hmain.
    + reflexivity.
    + intros j Hj. cbn in Hj. lia.
  - destruct (frun_inv c fini e main _ _ _ Ge R) as [g Vi]. eapply tinv_step; eauto. eapply frun_prun; eauto.
  - exists opn. constructor; cbn [acts aset oput freg]; auto.
    + intros u w' p hs' A'. destruct (Nat.eq_dec u t) as [->|D]; [rewrite dupd_eq in A'; injection A' as <- <- <-; exact (T1 _ _ _ _ A)|].
      rewrite dupd_ne in A' by auto. eauto.
    + intros j Hj. destruct (T3 j Hj) as [X|(u & w' & p & hs' & i & X1 & X2 & X3 & X4)]; [left; exact X|right].
      destruct (Nat.eq_dec u t) as [->|D].
      * rewrite A in X2. injection X2 as <- <- <-. exists t, w, k, hs, i. rewrite dupd_eq. auto.
      * exists u, w', p, hs', i. rewrite dupd_ne by auto. auto.
Qed.

(** Once the main thread has no activation left, nobody has. *)
Lemma all_done tr s m : good_env e -> frun tr s m -> acts m 0%nat = None -> forall j, (0 < j < nthr (fns s))%nat -> frames (fns s) j = [].
Proof.
  intros Ge R A0. destruct (frun_tidy _ _ _ Ge R) as [opn [T1 T2 T3]]. destruct (frun_inv c fini e main _ _ _ Ge R) as [g V].
  induction j as [j IH] using (well_founded_induction lt_wf). intros Hj.
  destruct (T3 j Hj) as [X|(u & w & p & hs & i & X1 & X2 & X3 & X4)]; [exact X|]. exfalso.
  destruct u as [|u]; [congruence|]. pose proof (act_lt _ _ _ _ _ _ _ _ _ V X2) as Lu. specialize (IH (S u) X1 ltac:(lia)).
  destruct (v_left _ _ _ _ _ _ _ V (S u) Lu) as (os & L & _). rewrite IH, X2 in L. inversion L.
Qed.
End Tidy.
