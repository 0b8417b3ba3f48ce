(** A parallel program that has not ended can go on (for C74). *)
From Coq Require Import ZArith List Bool Lia Arith.
From Verif Require Import Machine LayoutModel LayoutSpec ThreadModel ThreadInv ThreadPres ThreadTop ThreadTop2 FairCore ByteModel ByteSpec ByteProofs ByteSim ByteFairSpec Props_ByteFair DtorsModel DtorsFacts DtorsInv DtorsPres ExitFairSpec Props_ExitFair ProcModel Props_Proc Props_Byte ScriptPc ScriptFairSpec ScriptStuck ForkModel ForkSpec ForkProofs ForkPc ForkFairSpec ForkFair.
Import ListNotations.
Open Scope Z_scope.

Lemma NoDup_app_snoc {A} (l : list A) x : NoDup l -> ~ In x l -> NoDup (l ++ [x]).
Proof.
  intros H N. induction H as [|y l Hy H IH]; cbn; [constructor; [intros []|constructor]|]. constructor; [|apply IH; intros X; apply N; right; exact X].
  intros X. apply in_app_iff in X as [X|[<-|[]]]; [contradiction|]. apply N. left. reflexivity.
Qed.
Section Stuck.
Variables (fini : nat -> fprog) (main : fprog) (e : benv) (c : dcfg).
Hypothesis Hmain : proper c main 0 [].
Hypothesis Hfini : forall k, proper c (fini k) 0 [].
Hypothesis W : good_env e.
Local Notation run := (frun fini main e c).

Definition calling (i : nat) (p : fprog) : Prop := match p with FJoin n _ | FDetach n _ => n = i | _ => False end.
(** [opn t]: the handles of [t]'s activation not used up; nobody has used them
    yet, but perhaps [t] itself is doing so now. *)
Record hinv (s : pst) (m : fmach) (opn : nat -> list nat) : Prop := {
  h_act : forall t w p hs, acts m t = Some (Act w p hs) -> proper c p (length hs) (opn t);
  h_open : forall t w p hs i, acts m t = Some (Act w p hs) -> In i (opn t) -> exists j, nth_error hs i = Some j /\
     (bclaim (life s) j = None \/ (calling i p /\ at_call (t_pc (bT (life s) t)) (acts m t)));
  h_nodup : forall t w p hs, acts m t = Some (Act w p hs) -> NoDup hs;
  h_disj : forall t t' w p hs w' p' hs' j, acts m t = Some (Act w p hs) -> acts m t' = Some (Act w' p' hs') -> In j hs -> In j hs' -> t = t';
  h_reg : forall f, proper c (freg m f) 0 [] }.

Lemma at_call_keep p p' a : (forall q j, inorp p q j -> inorp p' q j) -> at_call p a -> at_call p' a.
Proof.
  intros K X. unfold at_call in *. destruct a as [[w q hs]|]; auto. destruct q; auto; destruct X as (j & X1 & X2); eauto.
Qed.

(** Nothing about the activations changes. *)
Lemma hinv_same s m opn s' : hinv s m opn ->
  (forall t w p hs j, acts m t = Some (Act w p hs) -> In j hs -> bclaim (life s) j = None -> bclaim (life s') j = None) ->
  (forall t, acts m t <> None -> at_call (t_pc (bT (life s) t)) (acts m t) -> at_call (t_pc (bT (life s') t)) (acts m t)) -> hinv s' m opn.
Proof.
  intros [H1 H2 H3 H4 H5] K1 K2. constructor; auto. intros t w p hs i A Hi. destruct (H2 _ _ _ _ _ A Hi) as (j & X & [Y|[Y Z]]); exists j; (split; [exact X|]).
  - left. eapply K1; eauto. eapply nth_error_In; eauto.
  - right. split; [exact Y|]. apply K2; [congruence|exact Z].
Qed.
(** One activation changes; it is not inside join or detach. *)
Lemma hinv_upd s m opn s' m' t0 o : hinv s m opn -> life s' = life s ->
  (forall t, t <> t0 -> acts m' t = acts m t) -> (forall f, freg m' f = freg m f \/ proper c (freg m' f) 0 []) ->
  match acts m' t0 with
  | Some (Act w p hs) => proper c p (length hs) o /\ (forall i, In i o -> exists j, nth_error hs i = Some j /\ bclaim (life s) j = None) /\ NoDup hs /\
      (hs = [] \/ exists w0 p0, acts m t0 = Some (Act w0 p0 hs))
  | None => True
  end -> exists opn', hinv s' m' opn'.
Proof.
  intros [H1 H2 H3 H4 H5] EL O1 O2 O3. exists (dupd opn t0 o). constructor; rewrite ?EL.
  - intros t w p hs A. destruct (Nat.eq_dec t t0) as [->|D]; [rewrite A in O3; rewrite dupd_eq; tauto|]. rewrite dupd_ne by auto. rewrite O1 in A by auto. eauto.
  - intros t w p hs i A Hi. destruct (Nat.eq_dec t t0) as [->|D].
    + rewrite dupd_eq in Hi. rewrite A in O3. destruct O3 as (_ & O3 & _). destruct (O3 i Hi) as (j & X & Y). eauto.
    + rewrite dupd_ne in Hi by auto. rewrite O1 in * by auto. eauto.
  - intros t w p hs A. destruct (Nat.eq_dec t t0) as [->|D]; [rewrite A in O3; tauto|]. rewrite O1 in A by auto. eauto.
  - assert (SUB : forall t w p hs j, acts m' t = Some (Act w p hs) -> In j hs -> exists w0 p0 hs0, acts m t = Some (Act w0 p0 hs0) /\ In j hs0).
    { intros t w p hs j A Hj. destruct (Nat.eq_dec t t0) as [->|D]; [|rewrite O1 in A by auto; eauto 6]. rewrite A in O3. destruct O3 as (_ & _ & _ & [->|(w0 & p0 & X)]); [destruct Hj|eauto 6]. }
    intros t t' w p hs w' p' hs' j A A' Hj Hj'. destruct (SUB _ _ _ _ _ A Hj) as (w1 & p1 & hs1 & B1 & B2). destruct (SUB _ _ _ _ _ A' Hj') as (w2 & p2 & hs2 & B3 & B4). eauto.
  - intros f. destruct (O2 f) as [->|X]; auto.
Qed.

Lemma hinv_step tr s m x s' m' opn : run tr s m -> hinv s m opn -> pstep e c s x s' -> gollows fini m x m' -> exists opn', hinv s' m' opn'.
Proof.
  intros R H St F. pose proof (frun_prun _ _ _ _ _ _ _ R) as PR. destruct (proj _ _ _ _ PR) as [RB RD]. pose proof (exec_inv _ _ _ RD) as I.
  pose proof (frun_user c fini main e tr s m W R) as WA. pose proof (frun_where c fini main e tr s m W R) as [WP WK].
  pose proof H as [H1 H2 H3 H4 H5].
  destruct St as [acc b' Tm B|acc i ins y b' Tm B LO AC|t0 act y d' DS FO PC|t0 v d' DS PC UV|acc i ins j b' d' B DS|acc t0 ins b' d' DS B].
  - assert (m' = m) as -> by (inversion F; reflexivity). exists opn. eapply hinv_same; eauto; cbn [life].
    + intros t w p hs j _ _ Cl. eapply claim_step; eauto; discriminate.
    + intros t _. apply at_call_keep. apply (fpc_step _ _ _ _ _ t B).
  - cbn [life fns] in *.
    (* join or detach is called *)
    assert (CALLED : forall w p hs n j q, m' = m -> acts m i = Some (Act w p hs) -> calling n p -> nth_error hs n = Some j ->
      (y = ECallJoin j \/ y = ECallDetach j) -> (match p with FJoin _ _ => KJoin | _ => KDetach end) = q -> incallp (t_pc (bT b' i)) q j ->
      (forall t, t <> i -> t_pc (bT b' t) = t_pc (bT (life s) t)) -> exists opn', hinv (PSt b' (fns s) (fval s)) m' opn').
    { intros w p hs n j q -> A Ca Nt Ey Eq In' Ot. exists opn. constructor; cbn [life]; auto.
      assert (CS : forall j', j' <> j -> bclaim (life s) j' = None -> bclaim b' j' = None).
      { intros j' D Cl. eapply claim_step; eauto; intros ? ? [= -> -> ->]; destruct Ey; congruence. }
      intros t w0 p0 hs0 k A0 Hk. destruct (H2 _ _ _ _ _ A0 Hk) as (j' & X & Y). exists j'. split; [exact X|].
      destruct (Nat.eq_dec t i) as [->|D].
      - rewrite A in A0. injection A0 as <- <- <-. destruct (Nat.eq_dec k n) as [->|Dk].
        + right. split; [exact Ca|]. rewrite A. unfold at_call. destruct p; try contradiction; cbn in Ca; subst n0; exists j; (split; [exact Nt|left; subst q; exact In']).
        + left. apply CS.
          * intros ->. apply Dk. apply (proj1 (NoDup_nth_error hs) (H3 _ _ _ _ A)); [apply nth_error_Some; congruence|congruence].
          * destruct Y as [Y|[Y _]]; [exact Y|exfalso; apply Dk]. destruct p; try contradiction; cbn in *; congruence.
      - rewrite (Ot t D). destruct Y as [Y|Y]; [left|right; exact Y]. apply CS; [|exact Y]. intros ->. apply D. eapply H4; eauto; eapply nth_error_In; eauto. }
    (* it returned *)
    assert (BACK : forall w p hs n p', m' = aset m i (Some (Act w p' hs)) -> acts m i = Some (Act w p hs) -> calling n p ->
      proper c p' (length hs) (remove Nat.eq_dec n (opn i)) -> (forall t, t <> i -> t_pc (bT b' t) = t_pc (bT (life s) t)) ->
      (forall j, bclaim (life s) j = None -> bclaim b' j = None) -> exists opn', hinv (PSt b' (fns s) (fval s)) m' opn').
    { intros w p hs n p' -> A Ca Pr Ot CS. exists (dupd opn i (remove Nat.eq_dec n (opn i))). constructor; cbn [life acts aset freg].
      - intros t w0 p0 hs0 A0. destruct (Nat.eq_dec t i) as [->|D]; [rewrite dupd_eq in A0; rewrite dupd_eq; injection A0 as <- <- <-; exact Pr|].
        rewrite dupd_ne in A0 by auto. rewrite dupd_ne by auto. eauto.
      - intros t w0 p0 hs0 k A0 Hk. destruct (Nat.eq_dec t i) as [->|D].
        + rewrite dupd_eq in A0. rewrite dupd_eq in Hk. injection A0 as <- <- <-. apply in_remove in Hk as [Hk Dk]. destruct (H2 _ _ _ _ _ A Hk) as (j' & X & Y). exists j'. split; [exact X|]. left. apply CS.
          destruct Y as [Y|[Y _]]; [exact Y|exfalso; apply Dk]. destruct p; try contradiction; cbn in *; congruence.
        + rewrite dupd_ne in A0 by auto. rewrite dupd_ne in Hk by auto. rewrite dupd_ne by auto. rewrite (Ot t D). destruct (H2 _ _ _ _ _ A0 Hk) as (j' & X & [Y|Y]); exists j'; auto.
      - intros t w0 p0 hs0 A0. destruct (Nat.eq_dec t i) as [->|D]; [rewrite dupd_eq in A0; injection A0 as <- <- <-; eauto|]. rewrite dupd_ne in A0 by auto. eauto.
      - assert (SUB : forall t w0 p0 hs0, dupd (acts m) i (Some (Act w p' hs)) t = Some (Act w0 p0 hs0) -> exists w1 p1, acts m t = Some (Act w1 p1 hs0)).
        { intros t w0 p0 hs0 A0. destruct (Nat.eq_dec t i) as [->|D]; [rewrite dupd_eq in A0; injection A0 as <- <- <-; eauto|]. rewrite dupd_ne in A0 by auto. eauto. }
        intros t t' w1 p1 hs1 w2 p2 hs2 j A1 A2 J1 J2. apply SUB in A1 as (? & ? & A1). apply SUB in A2 as (? & ? & A2). eauto.
      - exact H5. }
    pose proof (fun t => fpc_step _ _ _ _ _ t B) as P. inversion F; subst.
    + eapply (CALLED w (FJoin n k) hs n j KJoin); eauto; try reflexivity; [apply (P i)|]. intros t D. now apply (P t).
    + eapply (BACK w (FJoin n k) hs n (k v)); eauto; try reflexivity; [match goal with A0 : acts m i = _ |- _ => apply (H1 _ _ _ _ A0) end| |].
      * intros t D. now apply (P t).
      * intros j' Cl. eapply claim_step; eauto; discriminate.
    + eapply (CALLED w (FDetach n k) hs n j KDetach); eauto; try reflexivity; [apply (P i)|]. intros t D. now apply (P t).
    + eapply (BACK w (FDetach n k) hs n k); eauto; try reflexivity; [match goal with A0 : acts m i = _ |- _ => apply (H1 _ _ _ _ A0) end| |].
      * intros t D. now apply (P t).
      * intros j' Cl. eapply claim_step; eauto; discriminate.
    + exists opn. eapply hinv_same; eauto; cbn [life].
      * intros t w p hs j _ _ Cl. eapply claim_step; eauto; intros i0 ins0 [= -> -> ->]; discriminate.
      * intros t _. apply at_call_keep. specialize (P t). destruct y; try discriminate LO; try (match goal with A : api_call _ = false |- _ => discriminate A end); try apply P;
          exfalso; match goal with A : forall _, _ |- _ => eapply A; reflexivity end.
  - (* exit functions *)
    assert (NC : forall w p hs i, acts m t0 = Some (Act w p hs) -> In i (opn t0) -> exists j, nth_error hs i = Some j /\ bclaim (life s) j = None).
    { intros w p hs i A Hi. destruct (H2 _ _ _ _ _ A Hi) as (j & X & [Y|[_ Y]]); [eauto|exfalso]. rewrite PC, A in Y. unfold at_call in Y. destruct p; try contradiction; destruct Y as (? & _ & Y); eapply run_in; exact Y. }
    assert (SM : exists opn', hinv (PSt (life s) d' (fval s)) m opn') by (exists opn; eapply hinv_same; eauto).
    inversion F; subst; try exact SM.
    + eapply (hinv_upd s m opn _ _ t0 (opn t0) H); [reflexivity|intros t D; cbn; now rewrite dupd_ne| |].
      * intros f0. cbn. unfold dupd. destruct (Nat.eqb f0 f); [right; match goal with A0 : acts m t0 = _ |- _ => apply (H1 _ _ _ _ A0) end|auto].
      * cbn. rewrite dupd_eq. split; [match goal with A0 : acts m t0 = _ |- _ => apply (H1 _ _ _ _ A0) end|]. split; [eauto|]. split; [eauto|]. right. eauto.
    + eapply (hinv_upd s m opn _ _ t0 [] H); [reflexivity|intros t D; cbn; now rewrite dupd_ne|auto|].
      cbn. rewrite dupd_eq. split; [apply H5|]. split; [intros ? []|]. split; [constructor|auto].
    + eapply (hinv_upd s m opn _ _ t0 [] H); [reflexivity|intros t D; cbn; now rewrite dupd_ne|auto|].
      cbn. rewrite dupd_eq. split; [apply Hfini|]. split; [intros ? []|]. split; [constructor|auto].
    + eapply (hinv_upd s m opn _ _ t0 [] H); [reflexivity|intros t D; cbn; now rewrite dupd_ne|auto|]. cbn. rewrite dupd_eq. exact Logic.I.
    + eapply (hinv_upd s m opn _ _ t0 [] H); [reflexivity|intros t D; cbn; now rewrite dupd_ne|auto|]. cbn. rewrite dupd_eq. exact Logic.I.
  - inversion F; subst. eapply (hinv_upd s m opn _ _ t0 [] H); [reflexivity|intros t D; cbn; now rewrite dupd_ne|auto|]. cbn. rewrite dupd_eq. exact Logic.I.
  - (* create *)
    inversion F; subst. match goal with A0 : acts m i = _ |- _ => rename A0 into A end.
    assert (Ej : j = nthr (fns s)) by (pose proof (e_guard _ _ _ _ _ (dstep_effect _ _ _ _ _ _ DS)) as [Q _]; exact Q).
    assert (Li : (i < nthr (fns s))%nat).
    { destruct (WA i) as (w0 & fs0 & X); [congruence|]. destruct (le_lt_dec (nthr (fns s)) i) as [L|L]; [|exact L]. destruct (i_new _ _ _ I i L) as [Y _]. congruence. }
    assert (FR : forall t w p hs, acts m t = Some (Act w p hs) -> ~ In j hs) by (intros t w0 p0 hs0 A0 Hj; pose proof (WK _ _ _ _ _ A0 Hj); lia).
    assert (CL : forall j', bclaim (life s) j' = None -> bclaim b' j' = None) by (intros j' Cl; eapply claim_step; eauto; discriminate).
    assert (CJ : bclaim b' j = None) by (clear - B; inversion B; subst; cbn; unfold fupd; now rewrite Nat.eqb_refl).
    pose proof (fun t => fpc_step _ _ _ _ _ t B) as P. cbn in P.
    assert (NJ : acts m j = None).
    { destruct (acts m j) eqn:E; [|reflexivity]. destruct (WA j) as (w0 & fs0 & X); [congruence|]. destruct (i_new _ _ _ I j) as [Y _]; [lia|]. congruence. }
    pose proof (H1 _ _ _ _ A) as [Pf Pk].
    assert (AA : forall t a, acts (cset (aset (aset m i (Some (Act w k (hs ++ [j])))) j (Some (Act WThread f []))) j f) t = Some a ->
      (t = j /\ a = Act WThread f []) \/ (t = i /\ t <> j /\ a = Act w k (hs ++ [j])) \/ (t <> i /\ t <> j /\ acts m t = Some a)).
    { intros t a. cbn. unfold dupd. destruct (Nat.eqb_spec t j); [intros [= <-]; auto|]. destruct (Nat.eqb_spec t i); [intros [= <-]; auto|auto]. }
    exists (dupd (dupd opn i (length hs :: opn i)) j []). constructor; cbn [life].
    + intros t w0 p0 hs0 A0. apply AA in A0 as [[-> E]|[(-> & D & E)|(D1 & D2 & E)]]; [injection E as -> -> ->..|].
      * rewrite dupd_eq. exact Pf.
      * rewrite dupd_ne, dupd_eq by auto. rewrite app_length. cbn. rewrite Nat.add_1_r. exact Pk.
      * rewrite !dupd_ne by auto. eauto.
    + intros t w0 p0 hs0 k0 A0 Hk. pose proof A0 as A0'. apply AA in A0 as [[-> E]|[(-> & D & E)|(D1 & D2 & E)]]; [injection E as -> -> ->..|].
      * rewrite dupd_eq in Hk. destruct Hk.
      * rewrite dupd_ne, dupd_eq in Hk by auto. destruct Hk as [<-|Hk]; [exists j; split; [rewrite nth_error_app2, Nat.sub_diag by lia; reflexivity|auto]|].
        destruct (H2 _ _ _ _ _ A Hk) as (j' & X & [Y|[[] _]]). exists j'. split; [|left; auto]. rewrite nth_error_app1; [exact X|]. apply nth_error_Some. congruence.
      * rewrite !dupd_ne in Hk by auto. destruct (H2 _ _ _ _ _ E Hk) as (j' & X & [Y|[Y Z]]); exists j'; (split; [exact X|]); [left; auto|right]. split; [exact Y|].
        rewrite (P t D2). rewrite A0'. rewrite E in Z. exact Z.
    + intros t w0 p0 hs0 A0. apply AA in A0 as [[-> E]|[(-> & D & E)|(D1 & D2 & E)]]; [injection E as -> -> ->..|]; [constructor| |eauto].
      apply NoDup_app_snoc; eauto.
    + assert (JJ : forall t w0 p0 hs0 j', acts (cset (aset (aset m i (Some (Act w k (hs ++ [j])))) j (Some (Act WThread f []))) j f) t = Some (Act w0 p0 hs0) -> In j' hs0 ->
        (t = i /\ j' = j) \/ exists w1 p1 hs1, acts m t = Some (Act w1 p1 hs1) /\ In j' hs1).
      { intros t w0 p0 hs0 j' A0 Hj. apply AA in A0 as [[-> E]|[(-> & D & E)|(D1 & D2 & E)]]; [injection E as -> -> ->..|]; [destruct Hj| |eauto 6].
        apply in_app_iff in Hj as [Hj|[<-|[]]]; [eauto 6|auto]. }
      intros t t' w1 p1 hs1 w2 p2 hs2 j' A1 A2 J1 J2. destruct (JJ _ _ _ _ _ A1 J1) as [[-> ->]|(? & ? & ? & X1 & X2)]; destruct (JJ _ _ _ _ _ A2 J2) as [[-> E]|(? & ? & ? & X3 & X4)]; subst; auto; try (exfalso; eapply FR; eauto; fail). eauto.
    + exact H5.
  - assert (m' = m) as -> by (inversion F; reflexivity). exists opn. eapply hinv_same; eauto; cbn [life].
    + intros t w p hs j _ _ Cl. eapply claim_step; eauto; discriminate.
    + intros t A. pose proof (fpc_step _ _ _ _ _ t B) as P. cbn in P. destruct (Nat.eq_dec t t0) as [->|D]; [|rewrite (P D); auto].
      exfalso. destruct (WA t0 A) as (w & fs & X). pose proof (dstep_effect _ _ _ _ _ _ DS) as [_ EL EO _ _ _ _ _ _ _ _ _].
      assert (TN : t0 <> nthr (fns s)) by (intros ->; destruct (i_new _ _ _ I (nthr (fns s))) as [Y _]; [lia|]; contradiction).
      specialize (EO TN). rewrite X in EO. inversion EO.
Qed.
Lemma frun_hinv tr s m : run tr s m -> exists opn, hinv s m opn.
Proof.
  intros R. induction R as [b Hb|tr s m x s' m' R [opn IH] St F|tr s m t w z k hs R [opn IH] T U P K].
  - exists (fun _ => []). constructor; cbn [acts freg life]; try (intros; exact Logic.I).
    + intros t w p hs. unfold dupd. destruct (Nat.eqb t 0); [|discriminate]. intros [= <- <- <-]. exact Hmain.
    + intros t w p hs i _ [].
    + intros t w p hs. unfold dupd. destruct (Nat.eqb t 0); [|discriminate]. intros [= <- <- <-]. constructor.
    + intros t t' w p hs w' p' hs' j. unfold dupd. destruct (Nat.eqb t 0); [|discriminate]. intros [= <- <- <-] _ [].
  - eapply hinv_step; eauto.
  - eapply (hinv_upd s m opn s _ t (opn t) IH); [reflexivity|intros u D; cbn; now rewrite dupd_ne|auto|].
    cbn. rewrite dupd_eq. split; [apply (h_act _ _ _ IH _ _ _ _ K)|]. split; [|split; [eapply h_nodup; eauto|right; eauto]].
    intros i Hi. destruct (h_open _ _ _ IH _ _ _ _ _ K Hi) as (j & X & [Y|[[] _]]). eauto.
Qed.

(** Nobody waits for a lock. *)
Lemma fnot_blocked tr s m t : run tr s m -> (t < nthr (fns s))%nat -> ~ blocked c (fns s) t.
Proof.
  intros R Lt (Ct & Lk & B). pose proof (frun_prun _ _ _ _ _ _ _ R) as PR. destruct (proj _ _ _ _ PR) as [RB RD]. pose proof (exec_inv _ _ _ RD) as I.
  destruct (frun_inv c fini e main tr s m W R) as [g V].
  assert (LF : forall u, (u < nthr (fns s))%nat -> exists v os g', left c fini (code m) (freg m) (fval s u) (Nat.eqb u 0) (frames (fns s) u) (acts m u) (tdt (fns s) u) v os g').
  { intros u Lu. destruct (v_left _ _ _ _ _ _ _ V u Lu) as (os & L & _). eauto. }
  destruct (LF t Lt) as (v & os & g' & L).
  assert (E : exists st l, frames (fns s) t = FX st XLock :: l /\ t = 0%nat).
  { destruct B as [(f & l & B)|(st & l & B)]; rewrite B in L.
    - inversion L.
    - exists st, l. split; [exact B|]. destruct (Nat.eqb_spec t 0) as [->|]; [reflexivity|inversion L]. }
  destruct E as (st & l & E & ->). clear B.
  pose proof (frun_nof _ _ _ _ _ _ _ W R) as NB. rewrite E in NB. cbn in NB.
  destruct (lk (fns s)) as [v0|] eqn:El; [|congruence]. apply (i_hold _ _ _ I Ct v0) in El.
  destruct (Nat.eq_dec v0 0) as [->|NE].
  - rewrite E in El. unfold holds in El. cbn in El. rewrite NB, andb_false_r in El. discriminate.
  - destruct (le_lt_dec (nthr (fns s)) v0) as [Z|Z].
    { destruct (i_new _ _ _ I v0 Z) as [Y _]. rewrite Y in El. unfold holds in El. cbn in El. rewrite andb_false_r in El. discriminate. }
    destruct (LF v0 Z) as (v1 & os1 & g1 & L1). destruct (Nat.eqb_spec v0 0) as [|_]; [contradiction|].
    revert El L1. generalize (frames (fns s) v0). intros A El L1.
    inversion L1; subst; try match goal with A : kont _ _ _ _ _ _ _ _ _ _ _ |- _ => inversion A; subst end; try discriminate;
      unfold holds in El; cbn in El; rewrite andb_false_r in El; discriminate.
Qed.

Lemma finside_step b acc i a x b' : bstep e b acc (Some (i, a, x)) b' -> t_pc (bT b i) <> Run -> x <> ESignal ->
  life_only x = true /\ api_call x = false /\ (forall j v, x = EJoin j v -> incallp (t_pc (bT b i)) KJoin j) /\ (forall j, x = EDetach j -> incallp (t_pc (bT b i)) KDetach j).
Proof.
  intros H N NS. inversion H; subst; try contradiction; (split; [reflexivity|split; [reflexivity|split; intros; try discriminate]]);
    match goal with A : _ = _ |- incallp _ _ _ => idtac end; repeat match goal with A : EJoin _ _ = EJoin _ _ |- _ => injection A; clear A; intros; subst | A : EDetach _ = EDetach _ |- _ => injection A; clear A; intros; subst end;
    match goal with A : t_pc _ = _ |- _ => rewrite A end; cbn; auto.
Qed.

Lemma flife_step s m i : term (fns s) = None -> ~ bidle (life s) i ->
  (forall q j, incallp (t_pc (bT (life s) i)) q j -> at_call (t_pc (bT (life s) i)) (acts m i)) ->
  exists x s' m', pstep e c s x s' /\ gollows fini m x m' /\ fdue s x.
Proof.
  intros Tm NI CA. destruct (C68_byte_never_stuck e (life s) i) as [X|(acc & a & ev & b' & NS & B)]; [contradiction|].
  assert (NR : t_pc (bT (life s) i) <> Run) by (intros X; apply NI; unfold bidle; rewrite X; exact Logic.I).
  assert (NPn : t_pc (bT (life s) i) <> Panicked) by (intros X; apply NI; unfold bidle; rewrite X; exact Logic.I).
  destruct (finside_step _ _ _ _ _ _ B NR NS) as (L & A & EJ & ED).
  exists (PLife (i, a, ev)), (PSt b' (fns s) (fval s)).
  assert (PS : pstep e c s (PLife (i, a, ev)) (PSt b' (fns s) (fval s))) by (eapply p_life; eauto; congruence).
  assert (Du : fdue s (PLife (i, a, ev))) by (cbn; destruct ev; try discriminate; try exact NI; contradiction).
  assert (UNI : forall q q' j j', incallp (t_pc (bT (life s) i)) q j -> inorp (t_pc (bT (life s) i)) q' j' -> q = q' /\ j = j').
  { intros q q' j j' H1 [H2|H2]; [|contradiction]. revert H1 H2. destruct (t_pc (bT (life s) i)); cbn; try contradiction; intros [<- <-] [<- <-]; auto. }
  destruct ev; try (exists m; split; [exact PS|]; split; [|exact Du]; apply g_life; [exact A|intros; discriminate|intros; discriminate]).
  - specialize (EJ _ _ eq_refl). pose proof (CA _ _ EJ) as X. unfold at_call in X. destruct (acts m i) as [[w p hs]|] eqn:Ai; [|contradiction].
    destruct p; try contradiction; destruct X as (j' & X1 & X2); destruct (UNI _ _ _ _ EJ X2) as [Q1 Q2]; try discriminate Q1. subst j'.
    eexists. split; [exact PS|]. split; [eapply g_join; eauto|exact Du].
  - specialize (ED _ eq_refl). pose proof (CA _ _ ED) as X. unfold at_call in X. destruct (acts m i) as [[w p hs]|] eqn:Ai; [|contradiction].
    destruct p; try contradiction; destruct X as (j' & X1 & X2); destruct (UNI _ _ _ _ ED X2) as [Q1 Q2]; try discriminate Q1. subst j'.
    eexists. split; [exact PS|]. split; [eapply g_detach; eauto|exact Du].
Qed.

Theorem fgoes_on tr s m : run tr s m -> bguards_ok e (life s) -> term (fns s) = None ->
  (exists t w f k hs, fabout_to s m t /\ acts m t = Some (Act w (FCreate f k) hs)) \/
  (exists t v hs, fabout_to s m t /\ acts m t = Some (Act WThread (FReturn v) hs) /\ ~ usize (be_arch e) v) \/
  (exists t w z k hs, fabout_to s m t /\ acts m t = Some (Act w (FPrint z k) hs)) \/
  exists x s' m', pstep e c s x s' /\ gollows fini m x m' /\ fdue s x.
Proof.
  intros R Gd Tm. pose proof (frun_prun _ _ _ _ _ _ _ R) as PR. destruct (proj _ _ _ _ PR) as [RB RD]. pose proof (exec_inv _ _ _ RD) as I.
  pose proof (prun_inv _ _ _ _ PR) as PI. destruct (frun_hinv _ _ _ R) as [opn [H1 H2 H3 H4 H5]].
  pose proof (frun_user c fini main e tr s m W R) as WA. pose proof (frun_where c fini main e tr s m W R) as [WP WK].
  destruct (frun_inv c fini e main tr s m W R) as [g V].
  assert (NP : forall i, t_pc (bT (life s) i) <> Panicked) by (intros i; apply (C56_no_leak_partial e _ _ i W RB Gd)).
  assert (ALL : forall d t, (t < nthr (fns s))%nat -> (nthr (fns s) - t <= d)%nat -> t_pc (bT (life s) t) <> Dead ->
    (exists t w f k hs, fabout_to s m t /\ acts m t = Some (Act w (FCreate f k) hs)) \/
    (exists t v hs, fabout_to s m t /\ acts m t = Some (Act WThread (FReturn v) hs) /\ ~ usize (be_arch e) v) \/
    (exists t w z k hs, fabout_to s m t /\ acts m t = Some (Act w (FPrint z k) hs)) \/
    exists x s' m', pstep e c s x s' /\ gollows fini m x m' /\ fdue s x).
  2:{ destruct (v_main _ _ _ _ _ _ _ V) as [_ Lt]. apply (ALL (nthr (fns s)) 0%nat Lt); [lia|].
      destruct (v_left _ _ _ _ _ _ _ V 0%nat Lt) as (os & L & _).
      assert (NE : frames (fns s) 0 <> []) by (intros X; rewrite X in L; revert L; generalize (value (code m 0%nat) []); intros v0 L; inversion L).
      destruct (WP _ NE) as [X|X]; [congruence|]. intros D. rewrite D in X. unfold at_call in X. destruct (acts m 0) as [[w p hs]|]; [|contradiction].
      destruct p; try contradiction; destruct X as (j & _ & [X|X]); try discriminate X; exact X. }
  induction d as [|d IHd]; intros t Lt Ld ND; [lia|].
  destruct (v_left _ _ _ _ _ _ _ V t Lt) as (os & L & _). revert L. generalize (value (code m t) []). intros v0 L.
  destruct (frames (fns s) t) as [|fr fs] eqn:Fr.
  - (* it is done with its exit functions *)
    right. right. right.
    pose proof (page_pos e W) as Hp. destruct (W) as [W1 Hr]. destruct (brun_sim e W1 Hr _ _ RB) as (ss & Rs & Rl).
    destruct (fin_history _ _ _ Hp Hr Rs) as (_ & F2 & F3).
    assert (Dn : exists v acc, In (t, acc, EReturn v) (lifes tr)).
    { pose proof (proj2 (done_in c (fun _ => ScriptModel.Return 0 : ScriptModel.prog unit) _ _ RD) t Lt Fr) as X. unfold ProcModel.exits in X. apply in_flat_map in X as (y & X1 & X2).
      destruct y as [| | | | |t' acc v]; cbn in X2; try (destruct X2 as [X2|[]]; try discriminate X2); try contradiction.
      - injection X2 as -> ->. exfalso. clear - X1 PR. induction PR as [b Hb|tr s x s' R IH St]; [destruct X1|].
        apply in_app_iff in X1 as [X1|[->|[]]]; [auto|]. inversion St; subst. discriminate.
      - injection X2 as ->. exists v, acc. apply in_flat_map. exists (PDone t acc v). split; [exact X1|left; reflexivity]. }
    destruct Dn as (v & acc & Dn). assert (FN : t_fin (T ss t) = Some v) by (apply F3; exists acc; exact Dn).
    assert (NR : forall P, match P with Run | JLoad _ _ | JFutex _ _ _ | JSleep _ _ | JDone _ _ | JFree _ _ _ | JRet _ _ _ | DSwap _ => True | _ => False end -> t_pc (bT (life s) t) <> P).
    { intros P HP X. rewrite (F2 t) in FN; [discriminate|]. rewrite (rl_T _ _ _ Rl t), X. exact HP. }
    apply (flife_step s m t Tm).
    + unfold bidle. pose proof (NP t) as NPt. destruct (t_pc (bT (life s) t)) eqn:Pt; auto; intros _; (eapply NR; [|reflexivity]; exact Logic.I).
    + intros q j X. exfalso. destruct (t_pc (bT (life s) t)) eqn:Pt; try contradiction X; (eapply NR; [|reflexivity]; exact Logic.I).
  - assert (NE : frames (fns s) t <> []) by congruence.
    assert (RR : t_pc (bT (life s) t) = Run \/ t_pc (bT (life s) t) <> Run) by (destruct (t_pc (bT (life s) t)); (left; reflexivity) || (right; discriminate)).
    destruct RR as [PC|NR].
    2:{ (* inside join or detach *)
      destruct (WP t NE) as [X|X]; [contradiction|].
      assert (Q : exists q j, incallp (t_pc (bT (life s) t)) q j /\ (t < j < nthr (fns s))%nat).
      { unfold at_call in X. destruct (acts m t) as [[w p hs]|] eqn:A; [|contradiction].
        destruct p; try contradiction; destruct X as (j & X1 & [X2|X2]); try (exfalso; eapply NP; exact X2); apply nth_error_In in X1; pose proof (WK _ _ _ _ _ A X1); eauto. }
      destruct Q as (q & j & Q & Lj).
      destruct (match t_pc (bT (life s) t) with JSleep _ _ => true | _ => false end) eqn:Sl.
      - destruct (t_pc (bT (life s) t)) as [| | |kj j'| | | | | | | | | | | | | | |] eqn:Pp; try discriminate Sl. cbn in Q. destruct Q as [-> ->].
        apply (IHd j); [lia|lia|]. intros Dj. exact (C56_no_sleeper_partial e _ _ t q j W RB Pp Dj).
      - right. right. right. apply (flife_step s m t Tm); [|auto]. unfold bidle. pose proof (NP t) as NPt. destruct (t_pc (bT (life s) t)); cbn in Q; auto; try contradiction. discriminate Sl. }
    destruct (match fr with FUser _ => true | _ => false end) eqn:Us.
    + (* user code *)
      destruct fr as [w| | | | | | |]; try discriminate Us.
      assert (EA : exists p hs, acts m t = Some (Act w p hs)).
      { inversion L; subst; eauto. }
      destruct EA as (p & hs & A).
      assert (AB : fabout_to s m t) by (split; [exact PC|]; split; [exists w, fs; exact Fr|congruence]).
      assert (DS : forall a y d', user_step c (fns s) t w fs a = Some (y, d') -> dstep c (fns s) t a = Some (y, d')) by (intros; unfold dstep; rewrite Tm, Fr; assumption).
      assert (FN : forall a y d' m', user_step c (fns s) t w fs a = Some (y, d') -> fns_only y = true -> y <> Nop -> gollows fini m (PFns t y) m' ->
        exists x s' m', pstep e c s x s' /\ gollows fini m x m' /\ fdue s x).
      { intros a y d' m' A1 A2 A3 A4. exists (PFns t y), (PSt (life s) d' (fval s)), m'. split; [eapply p_fns; eauto|]. split; [exact A4|]. destruct y; cbn; auto. }
      pose proof (H1 _ _ _ _ A) as Pr.
      assert (CALL : forall i, In i (opn t) -> exists j, nth_error hs i = Some j /\ bclaim (life s) j = None /\ (j < bn (life s))%nat /\ j <> t /\ j <> 0%nat).
      { intros i Hi. destruct (H2 _ _ _ _ _ A Hi) as (j & X & [Y|[_ Y]]).
        - exists j. pose proof (WK _ _ _ _ _ A (nth_error_In _ _ X)). rewrite (pi_n _ _ PI). repeat (split; [solve [auto|lia]|]). lia.
        - exfalso. rewrite PC, A in Y. unfold at_call in Y. destruct p; try contradiction; destruct Y as (? & _ & Y); eapply run_in; exact Y. }
      destruct p as [v|z k|q k|q k|n k|n k].
      * destruct (match w with WMain | WThread => false | _ => true end) eqn:Wk.
        -- right. right. right. eapply (FN (ARet 0)); [destruct w; try discriminate Wk; reflexivity|destruct w; try discriminate Wk; reflexivity|discriminate|eapply g_ret; exact A].
        -- destruct w; try discriminate Wk.
           ++ right. right. right. eapply (FN (ARet v)); [reflexivity|reflexivity|discriminate|eapply g_main; exact A].
           ++ assert (UD : usize (be_arch e) v \/ ~ usize (be_arch e) v) by (unfold usize; lia).
              destruct UD as [UD|UD]; [|right; left; eauto 8]. right. right. right.
              exists (PReturns t v). do 2 eexists. split; [eapply p_returns; [apply DS; reflexivity|exact PC|exact UD]|]. split; [eapply g_returns; exact A|exact Logic.I].
      * right. right. left. exists t, w, z, k, hs. auto.
      * right. right. right. destruct Pr as (Et & _). eapply (FN ARegT); [cbn; rewrite Et; reflexivity|reflexivity|discriminate|eapply g_regt; exact A].
      * left. exists t, w, q, k, hs. auto.
      * right. right. right. destruct Pr as (Hn & _). destruct (CALL n Hn) as (j & X1 & X2 & X3 & X4 & X5).
        exists (PLife (t, [t], ECallJoin j)). do 2 eexists. split; [eapply p_life; [exact Tm|apply b_join; auto; rewrite (pi_n _ _ PI); exact Lt|reflexivity|intros _; apply AB]|].
        split; [eapply g_calljoin; eauto|exact Logic.I].
      * right. right. right. destruct Pr as (Hn & _). destruct (CALL n Hn) as (j & X1 & X2 & X3 & X4 & X5).
        exists (PLife (t, [t], ECallDetach j)). do 2 eexists. split; [eapply p_life; [exact Tm|apply b_detach; auto; rewrite (pi_n _ _ PI); exact Lt|reflexivity|intros _; apply AB]|].
        split; [eapply g_calldetach; eauto|exact Logic.I].
    + (* origin's code *)
      right. right. right. pose proof (fnot_blocked _ _ _ _ R Lt) as NB.
      destruct (C70_never_stuck c _ _ t RD) as [X|[X|[(w & X)|[X|(y & d' & DS)]]]].
      * exact (False_rect _ (X Tm)).
      * unfold gone in X. congruence.
      * unfold running in X. destruct X as (l & X). rewrite Fr in X. injection X as -> _. discriminate Us.
      * contradiction.
      * pose proof (dstep_effect _ _ _ _ _ _ DS) as EE. assert (TN : t <> nthr (fns s)) by lia.
        pose proof (e_own _ _ _ _ _ EE TN) as EO. rewrite Fr in EO.
        assert (NU : ~ in_user (fns s) t) by (intros (w & l & X); rewrite Fr in X; injection X as -> _; discriminate Us).
        destruct (match y with ThreadDone => true | _ => false end) eqn:TD.
        -- destruct y; try discriminate TD.
           assert (HD : In FDtors (frames (fns s) t)) by (rewrite Fr; revert EO; generalize (frames d' t); intros Z EO; inversion EO; subst; left; reflexivity).
           exists (PDone t [t] (fval s t)). do 2 eexists. split; [eapply p_done; [exact DS|apply ByteModel.b_return]|].
           ++ destruct t as [|t]; [|lia]. edestruct (main_frames _ _ _ RD) as (_ & _ & X). contradiction.
           ++ rewrite (pi_n _ _ PI). exact Lt.
           ++ exact PC.
           ++ eapply dtors_usize; eauto.
           ++ split; [apply g_done|exact Logic.I].
        -- assert (FO : fns_only y = true /\ exists m', gollows fini m (PFns t y) m').
           { revert EO. generalize (frames d' t). intros Z EO.
             inversion EO; subst; try discriminate Us; try discriminate TD; (split; [reflexivity|]);
               first [eexists; apply g_callt | eexists; apply g_callf | exists m; apply g_fns; exact Logic.I | exfalso; inversion L; subst; match goal with A : _ \/ _ |- _ => destruct A; discriminate end]. }
           destruct FO as (FO & m' & F). exists (PFns t y), (PSt (life s) d' (fval s)), m'. split; [eapply p_fns; eauto|]. split; [exact F|].
           destruct y; cbn; auto.
Qed.
End Stuck.
