(** Programs that create their threads before any is reclaimed by another
    thread: for them nothing need be assumed of how the kernel reuses
    addresses. *)
From Coq Require Import ZArith List Bool Lia Arith.
From Verif Require Import ThreadModel ThreadInv ThreadPres ThreadPres4 ThreadSpec ThreadTop SyncInv SyncTop.
Import ListNotations.
Open Scope Z_scope.

(** The same configuration on a kernel that does not reuse an address for which
    a futex wake is pending. *)
Definition careful (c : cfg) : cfg := Cfg (c_page c) (c_sig c) (c_handlers c) (c_debug c) false.

(** Thread [i] unmapped the memory of another thread (join, or detach of a
    finished thread). *)
Definition reclaims (l : label) : Prop := exists i j a len, l = (i, [i; j], EMunmap a len).
(** No thread is created after that. *)
Definition creates_first (tr : list label) : Prop :=
  forall tr1 l tr2 i acc j, tr = tr1 ++ [l] ++ tr2 -> reclaims l -> ~ In (i, acc, ECreate j) tr2.

Lemma creates_first_pre tr l : creates_first (tr ++ [l]) -> creates_first tr.
Proof.
  intros C tr1 l0 tr2 i acc j -> R Hin. eapply (C tr1 l0 (tr2 ++ [l])); eauto.
  - rewrite <- !app_assoc. reflexivity.
  - apply in_app_iff. eauto.
Qed.

Lemma step_careful c s l s' : step c s l s' ->
  (forall i acc j, l = (i, acc, ECreate j) ->
     forall taddr, r_taddr (R s' j) = taddr -> forall k a, (k < n s)%nat -> P s k = KWake a -> a <> taddr) ->
  step (careful c) s l s'.
Proof.
  intros St H.
  assert (E1 : forall r, munmap_ok c r = munmap_ok (careful c) r) by reflexivity.
  destruct St; try (econstructor; eauto; fail).
  - apply (s_create (careful c) s i base guard map tid taddr); auto.
    intros _ k a L E. eapply (H i [i] (n s)); eauto. cbn [R]. unfold fupd. now rewrite Nat.eqb_refl.
Qed.

Lemma joinable_mapped c : 0 < c_page c -> c_reuse c = false -> forall tr s, run c tr s ->
  (forall l, In l tr -> ~ reclaims l) -> forall k, (k < n s)%nat -> jn (T s k) = true -> mapped s k.
Proof.
  intros Hp Hr. apply (run_ind' c (fun tr s => (forall l, In l tr -> ~ reclaims l) -> forall k, (k < n s)%nat -> jn (T s k) = true -> mapped s k)); auto.
  - intros s (tid & sk & g & ta & b & len & _ & _ & ->) _ k L J. destruct k; [discriminate|]. cbn in L. lia.
  - intros tr s [[i acc] e] s' Rn I I' IH St NR k L' J.
    pose proof (jn_new c s i acc e s' k St L' J) as L.
    destruct (r_mapped (R s' k)) eqn:M'; [exact M'|exfalso].
    assert (M : mapped s k).
    { destruct (into_jn _ _ _ _ _ _ _ I St L J) as [J0|(-> & v & Ek & _)].
      - apply IH; auto. intros l Hl. apply NR. apply in_app_iff; auto.
      - unfold mapped. eapply user_mapped; eauto; rewrite Ek; reflexivity. }
    assert (N : ~ mapped s' k) by (unfold mapped; congruence).
    destruct (reclaim_actor c Hp s i acc e s' k I St L M N) as [(kk & v & E)|(-> & E)].
    + destruct (Nat.eq_dec i k) as [->|D].
      { assert (W : woken (P s k) k) by (rewrite E; cbn; auto). destruct (i_woken _ _ I _ _ W) as (_ & G). rewrite E in G. discriminate. }
      apply (NR (i, acc, e)); [apply in_app_iff; cbn; auto|].
      inversion St; subst; unfold mapped in *; unf; try congruence;
        try (rewrite M' in M; discriminate); try (unfold fupd in M'; match type of M' with context [Nat.eqb ?a ?b] => destruct (Nat.eqb_spec a b) end; subst; cbn in *; congruence).
      * match goal with H : P s i = JFree ?a ?b ?d |- _ => rewrite H in E; injection E as -> -> -> end. unfold reclaims. eauto.
    + destruct (into_jn _ _ _ _ _ _ _ I St L J) as [J0|(_ & v & Ek & _)]; [|congruence].
      unfold jn in J0. rewrite E in J0. discriminate.
Qed.

Lemma careful_step c tr s l s' : 0 < c_page c -> run (careful c) tr s -> step c s l s' -> creates_first (tr ++ [l]) ->
  step (careful c) s l s'.
Proof.
  intros Hp R1 St C. apply (step_careful c); auto.
  intros i acc j -> taddr Et k a L Ek.
  pose proof (run_inv (careful c) tr s Hp eq_refl R1) as I.
  assert (M : mapped s k).
  { apply (joinable_mapped (careful c) Hp eq_refl tr s R1); auto.
    - intros l Hl Rl. apply in_split in Hl as (tr1 & tr2 & ->).
      eapply (C tr1 l (tr2 ++ [(i, acc, ECreate j)])); eauto.
      + rewrite <- !app_assoc. reflexivity.
      + apply in_app_iff. cbn. eauto.
    - unfold jn. rewrite Ek. reflexivity. }
  pose proof (i_wake _ _ I _ _ Ek) as ->.
  destruct (i_geo _ _ I k L) as (G & _). unfold mapped in M.
  inversion St; subst. cbn [R] in *. unfold fupd. rewrite Nat.eqb_refl. cbn [r_taddr].
  match goal with H : forall k, _ -> r_mapped _ = true -> overlaps _ _ _ = false |- _ => specialize (H k L M); rename H into O end.
  unfold overlaps in O. apply andb_false_iff in O as [O|O]; apply Z.ltb_ge in O; lia.
Qed.

Theorem careful_run c tr s : 0 < c_page c -> run c tr s -> creates_first tr -> run (careful c) tr s.
Proof.
  intros Hp (s0 & Hi & E). induction E as [s|s tr s1 l s2 E IH St]; intros C.
  - exists s. split; auto. constructor.
  - pose proof (IH Hi (creates_first_pre _ _ C)) as R1.
    eapply run_snoc; eauto. eapply careful_step; eauto.
Qed.

Lemma creates_first_app tr tr2 : creates_first (tr ++ tr2) -> creates_first tr.
Proof.
  intros C. induction tr2 as [|l t IH] using rev_ind; [rewrite app_nil_r in C; auto|].
  apply IH. rewrite app_assoc in C. eapply creates_first_pre; eauto.
Qed.
Lemma careful_exec c tr s tr2 s2 : 0 < c_page c -> run c tr s -> exec c s tr2 s2 -> creates_first (tr ++ tr2) ->
  exec (careful c) s tr2 s2.
Proof.
  intros Hp Rn E Cf. induction E as [s|s t s1 l s2 E IH St]; [constructor|].
  rewrite app_assoc in Cf. pose proof (creates_first_pre _ _ Cf) as Cft.
  econstructor; [apply IH; auto|].
  pose proof (run_app _ _ _ _ _ Rn E) as R1.
  eapply (careful_step c (tr ++ t) s1); eauto. apply careful_run; auto.
Qed.

(** a decision procedure for concrete traces *)
Fixpoint cf_go (seen : bool) (tr : list label) : bool :=
  match tr with
  | [] => true
  | (_, acc, e) :: t =>
    match e with
    | ECreate _ => negb seen && cf_go seen t
    | EMunmap _ _ => cf_go (seen || match acc with [_; _] => true | _ => false end) t
    | _ => cf_go seen t
    end
  end.
Lemma cf_seen tr : cf_go true tr = true -> forall i acc j, ~ In (i, acc, ECreate j) tr.
Proof.
  induction tr as [|[[i0 acc0] e] t IH]; intros H i acc j Hin; [destruct Hin|]. destruct Hin as [E|Hin].
  - injection E as -> -> ->. discriminate.
  - destruct e; cbn in H; try discriminate; eapply IH; eauto.
Qed.
Lemma cf_sound tr : forall seen, cf_go seen tr = true -> creates_first tr.
Proof.
  induction tr as [|[[i0 acc0] e] t IH]; intros seen H tr1 l tr2 i acc j E Rl Hin.
  - destruct tr1; discriminate.
  - destruct tr1 as [|x tr1]; cbn [app] in E.
    + injection E as <- <-. destruct Rl as (i1 & j1 & a & len & X). injection X as -> -> ->. cbn in H.
      rewrite orb_true_r in H. eapply cf_seen; eauto.
    + injection E as _ E. destruct e; cbn in H; try exact (IH _ H tr1 l tr2 i acc j E Rl Hin).
      apply andb_prop in H as (_ & H). exact (IH _ H tr1 l tr2 i acc j E Rl Hin).
Qed.
