(** The byte-level life cycle on any kernel, for programs that create no thread
    after one thread reclaimed another's memory (ThreadPhase.v). *)
From Coq Require Import ZArith List Bool Lia Arith ZifyBool.
From Verif Require Import Machine LayoutModel LayoutSpec ThreadModel ThreadSpec ThreadInv ThreadPres4 ThreadTop ThreadTop2 ThreadPhase ByteModel ByteSpec ByteProofs ByteSim.
Import ListNotations.
Open Scope Z_scope.

(** The same environment on a kernel that does not reuse an address for which a
    futex wake is pending. *)
Definition bcareful (e : benv) : benv := BEnv (be_ck e) (be_arch e) (be_td e) (be_tls e) (careful (be_cfg e)).

Ltac to_careful e := repeat first
  [ progress change (a_tid e) with (a_tid (bcareful e)) in * | progress change (a_det e) with (a_det (bcareful e)) in *
  | progress change (a_ret e) with (a_ret (bcareful e)) in * | progress change (a_req e) with (a_req (bcareful e)) in *
  | progress change (own e) with (own (bcareful e)) in * | progress change (ld_tid e) with (ld_tid (bcareful e)) in *
  | progress change (ld_det e) with (ld_det (bcareful e)) in * | progress change (ld_ret e) with (ld_ret (bcareful e)) in *
  | progress change (st_det e) with (st_det (bcareful e)) in * | progress change (st_ret e) with (st_ret (bcareful e)) in *
  | progress change (unmap_request e) with (unmap_request (bcareful e)) in * ].

Lemma bstep_careful e b acc l b' : bstep e b acc l b' ->
  (forall i j ac, l = Some (i, ac, ECreate j) -> forall k a, (k < bn b)%nat -> t_pc (bT b k) = KWake a -> a <> i_ctid (bI b' j)) ->
  bstep (bcareful e) b acc l b'.
Proof.
  intros St H. destruct St; to_careful e; try solve [econstructor; eauto].
  eapply (b_create (bcareful e) b i ans fn args s g t log m'); eauto.
  intros _ k a Hk Ek. specialize (H i (bn b) [i] eq_refl k a Hk Ek). cbn [bI] in H. unfold fupd in H. rewrite Nat.eqb_refl in H. exact H.
Qed.

Lemma wf_page e : wf_env (be_arch e) (be_td e) (be_tls e) (c_page (be_cfg e)) -> 0 < c_page (be_cfg e).
Proof. intros W. destruct (wf_env_page _ _ _ _ W) as (k & Hk & ->). apply Z.pow_pos_nonneg; lia. Qed.

Lemma bcareful_step e tr b s acc l b' :
  wf_env (be_arch e) (be_td e) (be_tls e) (c_page (be_cfg e)) ->
  run (careful (be_cfg e)) tr s -> rel (bcareful e) b s -> bstep e b acc l b' -> creates_first (tr ++ olist l) ->
  bstep (bcareful e) b acc l b'.
Proof.
  intros W Rs Rl St C. apply bstep_careful; auto. pose proof (wf_page e W) as Hp.
  intros i j ac -> k x Hk Ek. rewrite <- (rl_n _ _ _ Rl) in Hk.
  pose proof (run_inv (careful (be_cfg e)) tr s Hp eq_refl Rs) as I.
  assert (M : mapped s k).
  { apply (joinable_mapped (careful (be_cfg e)) Hp eq_refl tr s Rs); auto.
    - intros l Hl Rc. apply in_split in Hl as (tr1 & tr2 & ->).
      eapply (C tr1 l (tr2 ++ [(i, ac, ECreate j)])); eauto.
      + rewrite <- !app_assoc. reflexivity.
      + apply in_app_iff. cbn. eauto.
    - unfold jn. rewrite (rl_T _ _ _ Rl k), Ek. reflexivity. }
  pose proof Ek as Ek'. rewrite <- (rl_T _ _ _ Rl k) in Ek'. pose proof (i_wake _ _ I _ _ Ek') as ->.
  destruct (i_geo _ _ I k Hk) as (G & _). unfold mapped in M.
  inversion St; subst. cbn [bI]. unfold fupd. rewrite Nat.eqb_refl. cbn [i_ctid].
  match goal with HA : create _ _ _ _ _ _ _ ?ans ?fn ?args ?sz ?g = (COk ?t, ?log, ?m'), Hm : In (SMmap _ _) _, Hc : In (SClone _ _ _ _ _ _ _) _, Ht : 0 < _ < _ |- _ =>
    assert (SC : successful_create (be_ck e) (be_arch e) (be_td e) (be_tls e) (c_page (be_cfg e)) (bmem b) (i_tp (bI b i)) ans fn args sz g t log m')
      by (constructor; auto);
    destruct (create_facts e W _ _ _ _ _ _ _ _ _ _ _ _ _ _ _ _ _ _ _ SC Hm Hc Ht) as (_ & _ & _ & _ & _ & F & _ & F6 & _) end.
  match goal with HO : forall k, _ -> i_mapd _ = true -> apart _ _ _ _ |- _ =>
    destruct (rl_geo _ _ _ Rl k) as (E1 & E2 & E3); specialize (HO k ltac:(rewrite <- (rl_n _ _ _ Rl); exact Hk) ltac:(congruence)); rewrite <- E1, <- E2 in HO; unfold apart in HO end.
  lia.
Qed.

(** A run on any kernel is a run on a careful one. *)
Theorem bcareful_run e tr b : wf_env (be_arch e) (be_td e) (be_tls e) (c_page (be_cfg e)) ->
  brun e tr b -> creates_first tr -> brun (bcareful e) tr b.
Proof.
  intros W (b0 & Hb & E). induction E as [b|b tr b1 acc l b2 E IH St]; intros C.
  - exists b. split; [exact Hb|constructor].
  - assert (C0 : creates_first tr) by (destruct l; cbn [olist] in C; [eapply creates_first_pre; eauto|now rewrite app_nil_r in C]).
    pose proof (IH Hb C0) as R1. destruct (brun_sim (bcareful e) W eq_refl _ _ R1) as (s & Rs & Rl).
    pose proof (bcareful_step e tr b1 s acc l b2 W Rs Rl St C) as St'.
    destruct R1 as (b0' & Hb' & E'). exists b0'. split; [exact Hb'|]. econstructor; eauto.
Qed.
Lemma bcareful_next e tr b acc l b' : wf_env (be_arch e) (be_td e) (be_tls e) (c_page (be_cfg e)) ->
  brun e tr b -> bstep e b acc l b' -> creates_first (tr ++ olist l) -> bstep (bcareful e) b acc l b'.
Proof.
  intros W Rn St C.
  assert (C0 : creates_first tr) by (destruct l; cbn [olist] in C; [eapply creates_first_pre; eauto|now rewrite app_nil_r in C]).
  destruct (brun_sim (bcareful e) W eq_refl _ _ (bcareful_run e _ _ W Rn C0)) as (s & Rs & Rl).
  eapply bcareful_step; eauto.
Qed.
