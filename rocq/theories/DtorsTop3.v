(** Locking, progress, completeness of exit. *)
From Coq Require Import ZArith List Bool Lia Arith Permutation.
From Verif Require Import LayoutModel DtorsModel DtorsSpec DtorsFacts DtorsInv DtorsPres DtorsTop DtorsTop2.
Import ListNotations.

(** ** Consequences of a fini call *)
Lemma fini_frames c tr s : exec c tr s -> forall t,
  ((exists k, In (t, CallF k) tr) \/ In (t, Empty) tr -> existsb isfini (frames s t) = true) /\
  (existsb isfini (tl (frames s t)) = true -> exists k, In (t, CallF k) tr) /\
  (c_pae c = true -> existsb isfini (frames s t) = true -> In (t, Empty) tr).
Proof.
  induction 1 as [|tr s t a e s' H IH D]; intros u.
  - split; [|split].
    + intros [[k []]|[]].
    + simpl. unfold dupd. destruct (Nat.eqb u 0); discriminate.
    + simpl. unfold dupd. destruct (Nat.eqb u 0); discriminate.
  - pose proof (exec_inv _ _ _ H) as I. apply dstep_effect in D. destruct (IH u) as [IH1 [IH2 IH3]]. clear IH.
    assert (W : (exists k, In (u, CallF k) tr) -> exists k, In (u, CallF k) (tr ++ [(t, e)])).
    { intros [k Hk]. exists k. apply in_or_app; auto. }
    assert (W3 : In (u, Empty) tr -> In (u, Empty) (tr ++ [(t, e)])) by (intros; apply in_or_app; auto).
    destruct (Nat.eq_dec u t) as [->|Hne].
    + pose proof (fs _ _ _ _ _ _ I D) as F. pose proof (i_stack _ _ _ I t) as [LO B].
      remember (frames s t) as l1. remember (frames s' t) as l2.
      split; [|split].
      * intros Hk. assert (Hk' : ((exists k, In (t, CallF k) tr) \/ In (t, Empty) tr) \/ (exists k, e = CallF k) \/ e = Empty).
        { destruct Hk as [[k Hk]|Hk]; apply in_snoc in Hk; destruct Hk as [Hk|Hk]; eauto; inversion Hk; eauto. }
        clear Hk. destruct Hk' as [Hk|Hk].
        -- specialize (IH1 Hk). destruct F; simpl in *; auto; try discriminate.
           ++ rewrite IH1. apply orb_true_r.
           ++ rewrite IH1. apply orb_true_r.
           ++ destruct B as [[->|B] _]; discriminate.
           ++ rewrite IH1. apply orb_true_r.
        -- destruct Hk as [[k ->]| ->]; inversion F; subst; reflexivity.
      * intros Hx. destruct F; simpl in *; try (apply W, IH2; assumption); try (eexists; apply in_or_app; right; simpl; left; reflexivity).
        all: try (apply W, IH2; destruct fs; simpl in *; [discriminate|]; rewrite Hx, ?orb_true_r; reflexivity).
        all: try discriminate.
      * intros Hp Hx. unfold first_phase, after_t in F. destruct F; simpl in *; unfold first_phase, after_t in *; rewrite ?Hp in *; simpl in *;
          try (apply W3, IH3; solve [auto]); try (apply in_or_app; right; simpl; left; reflexivity).
        all: try (destruct (c_tae c); simpl in Hx; apply W3, IH3; auto).
        all: try (apply W3, IH3; auto; rewrite Hx; apply orb_true_r).
        all: try discriminate.
    + assert (Q : frames s' u = frames s u \/ existsb isfini (frames s' u) = false /\ existsb isfini (tl (frames s' u)) = false /\ frames s u = []).
      { destruct (fr_other _ _ _ _ _ _ I D u Hne) as [->|[_ [_ [-> N]]]]; auto. }
      assert (X : forall e', In (u, e') (tr ++ [(t, e)]) -> In (u, e') tr).
      { intros e' He. apply in_snoc in He. destruct He as [He|He]; [exact He|inversion He; congruence]. }
      destruct Q as [->|[Q1 [Q2 Q3]]].
      * split; [|split]; auto. intros [[k Hk]|Hk]; apply IH1; [left; exists k; auto|right; auto].
      * split; [|split]; try congruence. intros Hk. exfalso.
        rewrite Q3 in IH1. assert (C : existsb isfini [] = true).
        { apply IH1. destruct Hk as [[k Hk]|Hk]; [left; exists k|right]; auto. }
        discriminate C.
Qed.

(** Once some exit has found the registry empty (thread + program-at-exit),
    nothing is ever registered or taken any more: at_exit and exit calls that
    need the registry never get past it. *)
Lemma frozen c h tr1 tr2 s :
  c_thread c = true -> c_pae c = true -> exec c (tr1 ++ (h, Empty) :: tr2) s ->
  forall u, ~ In (u, Lock) tr2 /\ (forall f, ~ In (u, RegP f) tr2 /\ ~ In (u, Take f) tr2) /\ ~ In (u, Empty) tr2.
Proof.
  intros Hc Hp. revert s. induction tr2 as [|[v e] tr2 IH] using rev_ind; intros s H u; [simpl; tauto|].
  replace (tr1 ++ (h, Empty) :: tr2 ++ [(v, e)]) with ((tr1 ++ (h, Empty) :: tr2) ++ [(v, e)]) in H
    by (rewrite <- app_assoc; reflexivity).
  snoc H s0 I E. destruct (IH _ H u) as [IH1 [IH2 IH3]].
  assert (HF : existsb isfini (frames s0 h) = true).
  { apply (fini_frames _ _ _ H). right. apply in_or_app. simpl; auto. }
  assert (HL : lk s0 = Some h).
  { apply (i_hold _ _ _ I Hc). unfold holds. rewrite Hp, HF. apply orb_true_r. }
  assert (NT : forall x fs0, frames s0 v = x :: fs0 -> holds_top x = false).
  { intros x fs0 Hx. destruct (holds_top x) eqn:Q; [|reflexivity].
    assert (lk s0 = Some v) by (apply (i_hold _ _ _ I Hc); unfold holds; rewrite Hx, Q; reflexivity).
    assert (h = v) by congruence. subst v. pose proof (i_excl _ _ _ I Hc Hp h) as X. rewrite Hx in X. simpl in X.
    rewrite Hx in HF. simpl in HF. rewrite (X Q) in HF. destruct x as [ | | | | |? p| | ]; try discriminate. destruct p; discriminate. }
  pose proof (fs _ _ _ _ _ _ I E) as F. pose proof (e_guard _ _ _ _ _ E) as G.
  assert (Hn : e <> Lock /\ (forall f, e <> RegP f /\ e <> Take f) /\ e <> Empty).
  { repeat split; intros ->.
    - rewrite (G Hc) in HL. discriminate.
    - inversion F as [ | | | | | | | | | | |f0 fs0 Hf1 Hf2| | | | | | | | | | | | | | ]; subst. symmetry in Hf1. apply NT in Hf1. discriminate.
    - inversion F; subst. match goal with Hq : _ = frames s0 v |- _ => symmetry in Hq; apply NT in Hq; discriminate end.
    - inversion F; subst. match goal with Hq : _ = frames s0 v |- _ => symmetry in Hq; apply NT in Hq; discriminate end. }
  destruct Hn as [N1 [N2 N3]].
  split; [|split].
  - intros Hin. apply in_snoc in Hin. destruct Hin as [Hin|Hin]; [auto|inversion Hin; congruence].
  - intros f. destruct (N2 f), (IH2 f). split; intros Hin; apply in_snoc in Hin; (destruct Hin as [Hin|Hin]; [auto|inversion Hin; congruence]).
  - intros Hin. apply in_snoc in Hin. destruct Hin as [Hin|Hin]; [auto|inversion Hin; congruence].
Qed.

(** A registration call made from a fini function never returns. *)
Lemma fini_hang c t k f tr1 tr2 tr3 s :
  c_thread c = true -> c_pae c = true ->
  exec c (tr1 ++ (t, CallF k) :: tr2 ++ (t, BeginP f) :: tr3) s -> own t tr3 = [].
Proof.
  intros Hc Hp H.
  assert (Q : own t tr3 = [] /\ exists fs, frames s t = FLock f :: fs); [|tauto].
  revert s H. induction tr3 as [|[u e] tr3 IH] using rev_ind; intros s H.
  - split; [reflexivity|].
    replace (tr1 ++ (t, CallF k) :: tr2 ++ [(t, BeginP f)]) with ((tr1 ++ (t, CallF k) :: tr2) ++ [(t, BeginP f)]) in H
      by (rewrite <- app_assoc; reflexivity).
    snoc H s0 I E. pose proof (fs _ _ _ _ _ _ I E) as F. inversion F; subst; eauto.
  - replace (tr1 ++ (t, CallF k) :: tr2 ++ (t, BeginP f) :: tr3 ++ [(u, e)])
      with ((tr1 ++ (t, CallF k) :: tr2 ++ (t, BeginP f) :: tr3) ++ [(u, e)]) in H
      by (rewrite <- !app_assoc; simpl; rewrite <- !app_assoc; reflexivity).
    snoc H s0 I E. destruct (IH _ H) as [O [fs0 Hf]].
    destruct (Nat.eq_dec u t) as [->|Hne].
    + exfalso. pose proof (fs _ _ _ _ _ _ I E) as F. rewrite Hf in F. inversion F; subst.
      assert (HF : existsb isfini (frames s0 t) = true).
      { apply (fini_frames _ _ _ H). left. exists k. apply in_or_app. right. simpl. auto. }
      assert (HL : lk s0 = Some t).
      { apply (i_hold _ _ _ I Hc). unfold holds. rewrite Hp, HF. apply orb_true_r. }
      rewrite (e_guard _ _ _ _ _ E Hc) in HL. discriminate.
    + rewrite own_app, own_one, O. destruct (Nat.eqb_spec u t); [congruence|]. split; [reflexivity|].
      exists fs0. destruct (fr_other _ _ _ _ _ _ I E t (not_eq_sym Hne)) as [->|[_ [_ [_ N]]]]; [exact Hf|].
      rewrite N in Hf. discriminate.
Qed.

(** ** No at_exit function is called with the lock held by its caller. *)
Lemma xcall_nofini c tr s : exec c tr s -> c_thread c = true -> c_pae c = true -> forall t st f fs,
  frames s t = FX st (XCall f) :: fs -> existsb isfini fs = false.
Proof.
  induction 1 as [|tr s t a e s' H IH D]; intros Hc Hp u st f l Hu.
  - simpl in Hu. unfold dupd in Hu. destruct (Nat.eqb u 0); discriminate.
  - pose proof (exec_inv _ _ _ H) as I. apply dstep_effect in D. specialize (IH Hc Hp).
    destruct (Nat.eq_dec u t) as [->|Hne].
    + pose proof (fs _ _ _ _ _ _ I D) as F. pose proof (i_excl _ _ _ I Hc Hp t) as X.
      pose proof (i_stack _ _ _ I t) as [LO _]. rewrite Hu in F. unfold first_phase, after_t in F.
      inversion F; subst; unfold first_phase, after_t in *; rewrite ?Hp in *; try discriminate;
        try (destruct (c_tae c); discriminate).
      * match goal with Hq : _ = frames _ _ |- _ => rewrite <- Hq in LO end. simpl in LO. inversion LO; contradiction.
      * match goal with Hq : _ = frames _ _ |- _ => rewrite <- Hq in LO end. simpl in LO. inversion LO; contradiction.
      * match goal with Hq : _ = frames _ _ |- _ => rewrite <- Hq in X end. apply X. reflexivity.
    + destruct (fr_other _ _ _ _ _ _ I D u Hne) as [Q|[_ [_ [Q _]]]]; rewrite Q in Hu; [eauto|discriminate].
Qed.

Lemma no_lock_p c tr t f s : c_thread c = true -> c_pae c = true ->
  exec c (tr ++ [(t, CallP f)]) s -> holder tr <> Some t.
Proof.
  intros Hc Hp H. snoc H s0 I E. pose proof (fs _ _ _ _ _ _ I E) as F.
  rewrite <- (i_lk _ _ _ I Hc). intros L. apply (i_hold _ _ _ I Hc) in L.
  inversion F as [ | | | | | | | | | | | | | | | | | | | | |st0 f0 fs0 E1 E2 E3| | | | ]; subst f0.
  symmetry in E1. pose proof (xcall_nofini _ _ _ H Hc Hp t _ _ _ E1) as N. rewrite E1 in L.
  unfold holds in L. simpl in L. rewrite N, andb_false_r in L. discriminate.
Qed.

Lemma no_lock_t c tr t f s : c_thread c = true ->
  exec c (tr ++ [(t, CallT f)]) s -> (forall k, ~ In (t, CallF k) tr) -> holder tr <> Some t.
Proof.
  intros Hc H HN. snoc H s0 I E. pose proof (fs _ _ _ _ _ _ I E) as F.
  rewrite <- (i_lk _ _ _ I Hc). intros L. apply (i_hold _ _ _ I Hc) in L.
  destruct (fini_frames _ _ _ H t) as [_ [FF _]].
  assert (Q : existsb isfini (tl (frames s0 t)) = false).
  { destruct (existsb isfini (tl (frames s0 t))); [|reflexivity]. destruct (FF eq_refl) as [k Hk]. destruct (HN k Hk). }
  inversion F; subst; match goal with Hq : _ = frames _ _ |- _ => rewrite <- Hq in L, Q end; unfold holds in L; simpl in L, Q; rewrite Q, andb_false_r in L; discriminate.
Qed.

(** ** .fini_array functions run at most once (thread + program-at-exit). *)
Fixpoint finis (l : list frame) : list nat :=
  match l with [] => [] | FX _ (XFini k) :: l' => k :: finis l' | _ :: l' => finis l' end.
Lemma finis_nil l : existsb isfini l = false -> finis l = [].
Proof. induction l as [|x l IH]; simpl; auto. destruct x as [ | | | | |? p| | ]; simpl; auto. destruct p; simpl; auto; discriminate. Qed.
Lemma finis_cons l k m : finis l = k :: m -> existsb isfini l = true.
Proof. intros H. destruct (existsb isfini l) eqn:Q; [reflexivity|]. rewrite (finis_nil _ Q) in H. discriminate. Qed.

Lemma fini_once c tr s : exec c tr s -> c_thread c = true -> c_pae c = true ->
  ((forall t, finis (frames s t) = []) /\ f_calls tr = []) \/
  (exists t k, lk s = Some t /\ (k <= nfini c)%nat /\ finis (frames s t) = [k] /\ f_calls tr = rev (seq k (nfini c - k))).
Proof.
  intros H Hc Hp. induction H as [|tr s t a e s' H IH D].
  - left. split; [|reflexivity]. intros t. simpl. unfold dupd. destruct (Nat.eqb t 0); reflexivity.
  - pose proof (exec_inv _ _ _ H) as I. apply dstep_effect in D.
    pose proof (fs _ _ _ _ _ _ I D) as F. pose proof (e_lk _ _ _ _ _ D) as L. rewrite Hc in L.
    assert (FC : f_calls (tr ++ [(t, e)]) = f_calls tr ++ match e with CallF k => [k] | _ => [] end).
    { unfold f_calls. rewrite pick_snoc. reflexivity. }
    assert (OT : forall u, u <> t -> finis (frames s' u) = finis (frames s u)).
    { intros u Hu. destruct (fr_other _ _ _ _ _ _ I D u Hu) as [->|[_ [_ [-> ->]]]]; reflexivity. }
    assert (OW : finis (frames s' t) =
       match e with CallF k => k :: tl (finis (frames s t)) | Empty => nfini c :: finis (frames s t) | ThreadDone => [] | _ => finis (frames s t) end).
    { remember (frames s t) as l1. remember (frames s' t) as l2. destruct F; simpl; auto; unfold first_phase, after_t; rewrite ?Hp;
       destruct (c_tae c); reflexivity. }
    pose proof (i_hold _ _ _ I Hc) as HH. unfold holds in HH. rewrite Hp in HH. simpl in HH.
    destruct IH as [[Z1 Z2]|[v [k [K1 [K2 [K3 K4]]]]]].
    + (* no fini yet *)
      destruct e; try (left; split; [intros uu; destruct (Nat.eq_dec uu t) as [->|Hu]; [rewrite OW|rewrite (OT uu Hu)]; try apply Z1; reflexivity
                       |rewrite FC, Z2; reflexivity]).
      * exfalso. inversion F; subst. pose proof (Z1 t) as Z. match goal with Hq : _ = frames s t |- _ => rewrite <- Hq in Z end. discriminate.
      * right. exists t, (nfini c). rewrite OW, Z1, L, FC, Z2, Nat.sub_diag. repeat split; auto.
        apply HH. inversion F; subst. reflexivity.
    + (* v runs the fini functions *)
      assert (KF : existsb isfini (frames s v) = true) by (eapply finis_cons; eauto).
      assert (NL : e <> Lock) by (intros ->; rewrite (e_guard _ _ _ _ _ D Hc) in K1; discriminate).
      assert (NT : forall x fs0, frames s t = x :: fs0 -> holds_top x = false).
      { intros x fs0 Hx. destruct (holds_top x) eqn:Q; [|reflexivity].
        assert (lk s = Some t) by (apply HH; rewrite Hx, Q; reflexivity).
        assert (v = t) by congruence. subst v. pose proof (i_excl _ _ _ I Hc Hp t) as X. rewrite Hx in X. simpl in X.
        rewrite Hx in KF. simpl in KF. rewrite (X Q) in KF. destruct x as [ | | | | |? p| | ]; try discriminate. destruct p; discriminate. }
      assert (NU : e <> Unlock /\ e <> EndP /\ e <> Empty).
      { repeat split; intros ->; inversion F; subst; match goal with Hq : _ = frames s t |- _ => symmetry in Hq; apply NT in Hq; discriminate end. }
      destruct NU as [NU1 [NU2 NU3]].
      assert (LS : lk s' = Some v) by (rewrite L; destruct e; congruence).
      right. exists v. destruct (Nat.eq_dec v t) as [->|Hv].
      * rewrite OW, K3, FC, K4.
        destruct e; try congruence; try (exists k; rewrite app_nil_r; auto; fail).
        -- (* CallF *) inversion F; subst. match goal with Hq : _ = frames s t |- _ => rewrite <- Hq in K3 end. simpl in K3. inversion K3; subst. exists k0.
           split; [exact LS|]. split; [lia|]. match goal with Hq : finis _ = [] |- _ => rewrite ?Hq in * end. split; [reflexivity|]. rewrite (seq_down k0) by lia. reflexivity.
        -- exfalso. inversion F; subst. pose proof (i_stack _ _ _ I t) as [_ B]. match goal with Hq : _ = frames s t |- _ => rewrite <- Hq in B, KF end. simpl in B.
           simpl in KF. destruct B as [[->|B] _]; discriminate.
      * rewrite (OT v Hv), FC. exists k. destruct e; rewrite ?app_nil_r; auto.
        (* CallF by another thread: it would hold the lock too *)
        exfalso. inversion F; subst. assert (lk s = Some t); [|congruence].
        apply HH. match goal with Hq : _ = frames s t |- _ => rewrite <- Hq end. reflexivity.
Qed.

(** ** Progress *)
Lemma progress c tr s t fr l : exec c tr s -> term s = None -> frames s t = fr :: l -> (forall w, fr <> FUser w) ->
  (exists e s', dstep c s t AGo = Some (e, s')) \/
  (c_thread c = true /\ exists h, holder tr = Some h /\
     ((exists e s', dstep c s h AGo = Some (e, s')) \/ In (h, Empty) tr)).
Proof.
  intros H HT Hf HU. pose proof (exec_inv _ _ _ H) as I.
  assert (TL : try_lock c s t = None -> c_thread c = true /\ exists h, holder tr = Some h /\
     ((exists e s', dstep c s h AGo = Some (e, s')) \/ In (h, Empty) tr)).
  { unfold try_lock. destruct (c_thread c) eqn:Hc; [|discriminate]. destruct (lk s) as [h|] eqn:Hl; [|discriminate].
    intros _. split; [reflexivity|]. exists h. rewrite <- (i_lk _ _ _ I Hc). split; [assumption|].
    apply (i_hold _ _ _ I Hc) in Hl. unfold holds in Hl. apply orb_true_iff in Hl. destruct Hl as [Hl|Hl].
    - left. unfold dstep. rewrite HT. destruct (frames s h) as [|x fs0]; [discriminate|].
      destruct x as [ | | | | |? p| | ]; try discriminate; [| |destruct p; try discriminate]; simpl; eauto. destruct (pdt s); eauto.
    - right. apply andb_true_iff in Hl. destruct Hl as [Hp Hl]. apply (fini_frames _ _ _ H); assumption. }
  unfold dstep at 1. rewrite HT, Hf.
  destruct fr as [w|f|f| | |st p|st|]; simpl.
  - congruence.
  - destruct (try_lock c s t) eqn:Q; eauto.
  - eauto.
  - eauto.
  - left. destruct (if c_tae c then tdt s t else []); eauto.
  - destruct p as [| | |f|f|[|k]]; simpl; eauto.
    + left. destruct (tdt s t); eauto.
    + destruct (try_lock c s t) eqn:Q; eauto.
    + left. destruct (pdt s); eauto.
  - eauto.
  - eauto.
Qed.
