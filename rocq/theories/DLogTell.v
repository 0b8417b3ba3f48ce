(** What is logged about exit functions is what happens. *)
From Coq Require Import ZArith List Bool Lia Arith.
From Verif Require Import LayoutModel DtorsModel DtorsSpec DtorsFacts DLogModel DLogSpec DLogProofs DLogConv.
Import ListNotations.
Local Open Scope nat_scope.

Definition tm (m : msg) : list msg := if telling m then [m] else [].
(** What has been announced and not been done. *)
Definition waitmsg (fs : list lframe) : list msg :=
  match fs with
  | LLog m :: _ => tm m
  | LCall _ :: _ => [MCallT] | LFini _ k :: _ => [MCallF k] | LTerm st :: _ => [MExiting st]
  | LF (FX _ (XCall _)) :: _ => [MCallP]
  | _ => []
  end.
Definition nocall (x : lframe) : Prop := forall st f, x <> LF (FX st (XCall f)).
Definition calm (fs : list lframe) : Prop :=
  match fs with
  | LSay m :: r | LLog m :: r => tm m = waitmsg r /\ Forall nocall (tl r)
  | _ => Forall nocall (tl fs)
  end.

Lemma wait_plain l : Forall nocall (map LF l) -> waitmsg (map LF l) = [].
Proof. destruct l as [|x l]; [reflexivity|]. intros H. inversion H; subst. cbn. destruct x as [| | | | |st p| |]; try reflexivity. destruct p; try reflexivity. exfalso. eapply H2; reflexivity. Qed.
Lemma calm_plain l : Forall nocall (tl (map LF l)) -> calm (map LF l).
Proof. destruct l as [|x l]; auto. Qed.
Lemma tl_nocall {l} : Forall nocall (map LF l) -> Forall nocall (tl (map LF l)).
Proof. destruct l; [auto|]. cbn. inversion 1; auto. Qed.

Lemma told_snoc u t e tr : told u (tr ++ [(t, e)]) = told u tr ++ (if Nat.eqb t u then match e with Say m => tm m | _ => [] end else []).
Proof. unfold told. rewrite flat_map_app. cbn. rewrite app_nil_r. reflexivity. Qed.
Lemma did_snoc u t e tr : did u (tr ++ [(t, e)]) = did u tr ++ (if Nat.eqb t u then match e with Ev ev => announcement ev | _ => [] end else []).
Proof.
  unfold did, own. rewrite silence_app, filter_app, map_app, flat_map_app. f_equal. destruct e; cbn; try (destruct (Nat.eqb t u); reflexivity).
  destruct (Nat.eqb t u); cbn; rewrite ?app_nil_r; reflexivity.
Qed.

Section Tell.
Variable c : lcfg.
Hypothesis Log : l_log c = true.

Definition tellinv (tr : ltrace) (s : lst) : Prop := forall t, told t tr = did t tr ++ waitmsg (lfr s t) /\ calm (lfr s t).

Lemma nc (fr : frame) : (forall st f, fr <> FX st (XCall f)) -> nocall (LF fr).
Proof. intros H st f E. inversion E. eapply H; eauto. Qed.

Lemma first_plain st r : waitmsg (LF (FX st (first_phase (l_dtors c))) :: r) = [].
Proof. unfold first_phase, after_t. destruct (c_tae (l_dtors c)), (c_pae (l_dtors c)); reflexivity. Qed.
Lemma after_plain st r : waitmsg (LF (FX st (after_t (l_dtors c))) :: r) = [].
Proof. unfold after_t. destruct (c_pae (l_dtors c)); reflexivity. Qed.

(** Other threads: nothing happens to them, except that they are created. *)
Lemma lstep_others s t a e s' : lstep c s t a = Some (e, s') ->
  (forall u, u <> t -> lfr s' u = lfr s u /\ ltdt s' u = ltdt s u) \/ s' = lspawn c s /\ e = Ev (Spawn (lnthr s)).
Proof.
  unfold lstep. destruct (lterm s); [discriminate|]. destruct (lfr s t) as [|top fs]; [discriminate|].
  destruct top as [fr|m|m|f|st k|st| |st]; [destruct fr as [w|f|f| | |st p|st|]|..]; destruct a; cbn; try discriminate;
    unfold ltry_lock, lunlock;
    repeat match goal with
    | |- context [if c_thread ?x then _ else _] => destruct (c_thread x)
    | |- context [match llk ?x with _ => _ end] => destruct (llk x)
    | |- (match ?x with _ => _ end) = _ -> _ => destruct x
    | |- context [if ?x then _ else _] => destruct x
    end; cbn; try discriminate; intros H; inversion H; subst; auto;
    left; intros u Nu; cbn; rewrite ?(dupd_ne _ _ _ _ Nu); auto.
Qed.

Lemma tell_step tr s d t a e s' : sim c tr s d -> lstep c s t a = Some (e, s') -> (busy t tr = true -> forall ev, e <> Ev ev) ->
  tellinv tr s -> (forall o, e <> Ev (Term o)) -> tellinv (tr ++ [(t, e)]) s'.
Proof.
  intros S H Q I NT.
  assert (K : forall u, u <> t -> lfr s' u = lfr s u \/ (lfr s u = [] /\ exists m, lfr s' u = say c m [LF (FUser WThread)] /\ telling m = false)).
  { intros u Nu. destruct (lstep_others _ _ _ _ _ H) as [O|[-> _]]; [left; now apply O|].
    cbn. unfold dupd. destruct (Nat.eqb_spec u (lnthr s)) as [->|]; [|auto]. right. split; [apply (m_new _ _ _ _ S); auto|eauto]. }
  assert (L : told t (tr ++ [(t, e)]) = did t (tr ++ [(t, e)]) ++ waitmsg (lfr s' t) /\ calm (lfr s' t)).
  { destruct (I t) as [T C]. rewrite told_snoc, did_snoc, Nat.eqb_refl, T.
    unfold lstep in H. destruct (lterm s) eqn:Tm; [discriminate|]. pose proof (m_sh _ _ _ _ S t) as Sh.
    destruct (lfr s t) as [|top fs] eqn:L; [discriminate|]. apply shape_inv in Sh.
    destruct top as [fr|m|m|f|st k|st| |st].
    - destruct Sh as (B & l & ->). cbn in C. destruct fr as [w|f|f| | |st p|st|].
      + destruct a; cbn in H; try discriminate.
        * inversion H; subst. rewrite L. cbn. rewrite !app_nil_r. auto.
        * destruct (c_tae (l_dtors c)); inversion H; subst. cbn. rewrite L. cbn. rewrite !app_nil_r. auto.
        * destruct (c_pae (l_dtors c)); inversion H; subst. cbn. rewrite dupd_eq. cbn. rewrite !app_nil_r. split; [auto|]. constructor; [|auto]. apply nc; intros; discriminate.
        * inversion H; subst. cbn. rewrite dupd_eq, first_plain, !app_nil_r. split; [auto|]. constructor; [|auto]. apply nc; intros; discriminate.
        * inversion H; subst. cbn. rewrite dupd_eq. cbn. rewrite !app_nil_r. split; [auto|]. constructor; [|auto]. apply nc; intros; discriminate.
        * inversion H; subst. cbn. rewrite dupd_eq. cbn. rewrite !app_nil_r. split; [auto|]. constructor; [|auto]. apply nc; intros; discriminate.
        * destruct (c_thread (l_dtors c)); inversion H; subst. cbn. rewrite dupd_ne, L; [cbn; rewrite !app_nil_r; auto|].
          intros E. pose proof (m_new _ _ _ _ S (lnthr s) (le_n _)) as E'. rewrite <- E, L in E'. discriminate.
        * destruct w; inversion H; subst; cbn; rewrite dupd_eq; unfold say; rewrite ?Log; cbn; rewrite ?(wait_plain _ C), !app_nil_r; auto; (split; [auto|]); apply calm_plain; now apply tl_nocall.
      + destruct a; try discriminate. cbn in H. unfold ltry_lock in H. destruct (c_thread (l_dtors c)); [destruct (llk s); [discriminate|]|]; inversion H; subst; cbn; rewrite dupd_eq; cbn; rewrite !app_nil_r; auto.
      + destruct a; inversion H; subst. cbn. rewrite dupd_eq. cbn. rewrite !app_nil_r. auto.
      + destruct a; inversion H; subst. cbn. rewrite dupd_eq, (wait_plain _ C), !app_nil_r. split; [auto|]. apply calm_plain; now apply tl_nocall.
      + destruct a; try discriminate. cbn in H. destruct (if c_tae (l_dtors c) then ltdt s t else []); inversion H; subst; cbn; rewrite dupd_eq; unfold say; rewrite Log; cbn; rewrite !app_nil_r; repeat split; auto.
        constructor; [|auto]. apply nc; intros; discriminate.
      + destruct a; try discriminate. cbn in H. destruct p as [| | |f|f|k].
        * destruct (ltdt s t); inversion H; subst; cbn; rewrite dupd_eq; [rewrite after_plain|unfold say; rewrite Log; cbn]; rewrite !app_nil_r; repeat split; auto.
          constructor; [|auto]. apply nc; intros; discriminate.
        * unfold ltry_lock in H. destruct (c_thread (l_dtors c)); [destruct (llk s); [discriminate|]|]; inversion H; subst; cbn; rewrite dupd_eq; cbn; rewrite !app_nil_r; auto.
        * destruct (lpdt s); inversion H; subst; cbn; rewrite dupd_eq; cbn; rewrite !app_nil_r; auto.
        * inversion H; subst; cbn; rewrite dupd_eq; unfold say; rewrite Log; cbn; rewrite !app_nil_r; repeat split; auto.
        * inversion H; subst; cbn; rewrite dupd_eq; cbn; rewrite !app_nil_r; split; auto. constructor; [|auto]. apply nc; intros; discriminate.
        * destruct k; inversion H; subst; cbn; rewrite dupd_eq; unfold say; rewrite Log; cbn; rewrite !app_nil_r; repeat split; auto. constructor; [|auto]. apply nc; intros; discriminate.
      + destruct a; inversion H; subst. cbn. rewrite dupd_eq; unfold say; rewrite Log; cbn; rewrite !app_nil_r; repeat split; auto. constructor; [|auto]. apply nc; intros; discriminate.
      + exfalso. destruct a; inversion H; subst. eapply NT; reflexivity.
    - destruct a; inversion H; subst. cbn in *. rewrite dupd_eq. cbn. rewrite !app_nil_r. auto.
    - destruct Sh as [B X]. specialize (Q B). destruct a; cbn in H; try discriminate;
        try (exfalso; revert H; repeat match goal with |- context [if ?x then _ else _] => destruct x end; intros H; inversion H; subst; eapply Q; reflexivity).
      + inversion H; subst. rewrite L. cbn in *. rewrite !app_nil_r. auto.
      + inversion H; subst. cbn in *. rewrite dupd_eq. destruct C as [C1 C2]. rewrite C1, !app_nil_r. split; [reflexivity|].
        inversion X; subst; auto. now apply calm_plain.
    - destruct a; inversion H; subst. cbn in *. rewrite dupd_eq. cbn. rewrite !app_nil_r. auto.
    - destruct a; inversion H; subst. cbn in *. rewrite dupd_eq. cbn. rewrite !app_nil_r. split; [reflexivity|]. constructor; [|auto]. apply nc; intros; discriminate.
    - destruct a; inversion H; subst. cbn. rewrite dupd_eq, first_plain, !app_nil_r. auto.
    - destruct a; inversion H; subst. cbn in *. rewrite dupd_eq. cbn. rewrite !app_nil_r. auto.
    - exfalso. destruct a; inversion H; subst. eapply NT; reflexivity. }
  intros u. destruct (Nat.eq_dec u t) as [->|Nu]; [exact L|]. rewrite told_snoc, did_snoc. destruct (Nat.eqb_spec t u); [congruence|]. rewrite !app_nil_r.
  destruct (K u Nu) as [->|(E & m & -> & Em)]; [apply I|]. destruct (I u) as [A _]. rewrite A, E. unfold say. rewrite Log. cbn. unfold tm. rewrite Em. auto.
Qed.

Lemma tell_exec : forall tr s, lexec c tr s -> quiet tr ->
  (lterm s = None -> tellinv tr s) /\ forall t, exists w, told t tr = did t tr ++ w /\ length w <= 1.
Proof.
  intros tr s H. induction H as [|tr s t a e s' H IH St]; intros Q.
  - assert (I : tellinv [] linit). { intros t. unfold linit; cbn. unfold dupd. destruct (Nat.eqb t 0); cbn; auto. }
    split; [auto|]. intros t. exists []. cbn. auto.
  - apply quiet_inv in Q. destruct Q as [Q B]. destruct (IH Q) as [I W]. assert (T : lterm s = None) by (unfold lstep in St; destruct (lterm s); [discriminate|reflexivity]).
    specialize (I T). destruct (quiet_exec c _ _ H Q) as (d & _ & S).
    assert (L1 : forall x, length (waitmsg x) <= 1).
    { intros x. destruct x as [|[fr|m|m|f|st k|st| |st] x]; cbn; auto; [destruct fr as [| | | | |st p| |]; cbn; auto; destruct p; cbn; auto|unfold tm; destruct (telling m); cbn; auto]. }
    assert (D : (exists o, e = Ev (Term o)) \/ forall o, e <> Ev (Term o)) by (destruct e as [e| | | | |]; try (right; discriminate); destruct e; try (right; discriminate); left; eauto).
    destruct D as [[o ->]|D].
    + assert (T' : lterm s' = Some o /\ (forall st, o = Exited st -> exists fs, lfr s t = LTerm st :: fs)).
      { unfold lstep in St. rewrite T in St. destruct (lfr s t) as [|top fs]; [discriminate|].
        destruct top as [fr|m|m|f|st k|st| |st]; [destruct fr as [w|f|f| | |st p|st|]|..]; destruct a; cbn in St; try discriminate;
          unfold ltry_lock, lunlock in St; revert St;
          repeat match goal with
          | |- context [if c_thread ?x then _ else _] => destruct (c_thread x)
          | |- context [match llk ?x with _ => _ end] => destruct (llk x)
          | |- (match ?x with _ => _ end) = _ -> _ => destruct x
          | |- context [if ?x then _ else _] => destruct x
          end; cbn; try discriminate; intros St; inversion St; subst; (split; [reflexivity|]); intros st0 E; inversion E; subst; eauto. }
      destruct T' as [T1 T2]. split; [congruence|]. intros u. rewrite told_snoc, did_snoc. destruct (Nat.eqb_spec t u) as [->|]; rewrite ?app_nil_r; [|apply W].
      destruct (I u) as [A _]. destruct o as [st|sg]; cbn; [|rewrite app_nil_r; apply W]. destruct (T2 st eq_refl) as [fs E]. rewrite A, E. cbn. exists []. rewrite ?app_nil_r. cbn. auto.
    + pose proof (tell_step _ _ _ _ _ _ _ S St B I D) as I'. split; [auto|]. intros u. destruct (I' u) as [A _]. eauto.
Qed.
End Tell.
