From Coq Require Import ZArith List Bool Lia Arith.
From Verif Require Import ThreadModel ThreadInv.
Import ListNotations.
Open Scope Z_scope.

Ltac unf := unfold goto, with_task, with_rec, with_claim in *; cbn [n T R claim] in *.
Ltac fu :=
  unfold fupd in *;
  repeat match goal with
  | |- context [Nat.eqb ?a ?b] => destruct (Nat.eqb_spec a b); try subst a
  | H : context [Nat.eqb ?a ?b] |- _ => destruct (Nat.eqb_spec a b); try subst a
  end.
Ltac cb := cbn [t_pc t_tid t_clear t_block t_fin set_pc set_clear set_block set_fin
  r_tid r_det r_ret r_stack r_guard r_map r_taddr r_base r_len r_mapped set_tid set_det set_ret unmap
  pre jn self gone sfreed waits woken xval stored jval clear_of negb andb] in *.

(** A pc in the [pre] phase. *)
Lemma pre_facts p : pre p = true ->
  (forall t, t_pc t = p -> jn t = false) /\ (forall t, t_pc t = p -> self t = false) /\
  gone p = false /\ (forall b, clear_of p b = b) /\ (forall a, p <> KWake a).
Proof. destruct p; cbn; intros; try discriminate; repeat split; intros; try discriminate;
  unfold jn, self; try rewrite H0; reflexivity. Qed.

(** A move between [pre] pcs that changes no memory. *)
Lemma goto_pre c s i p : inv c s ->
  pre (P s i) = true -> xval (P s i) = None -> pre p = true -> xval p = None ->
  (forall k j, waits p k j -> claim s j = Some (k, i) /\ r_mapped (R s j) = true /\
      (k = KDetach -> r_det (R s j) = Detached /\ jn (T s j) = true)) ->
  (forall j, p = DSwap j -> claim s j = Some (KDetach, i) /\ r_mapped (R s j) = true /\ r_det (R s j) <> Detached) ->
  (forall k j rv, p = JRet k j rv -> claim s j = Some (k, i) /\ r_mapped (R s j) = false) ->
  (forall j, claim s j = Some (KJoin, i) -> r_mapped (R s j) = true -> waits p KJoin j \/ p = Panicked) ->
  (forall j, claim s j = Some (KDetach, i) -> r_det (R s j) <> Detached -> p = DSwap j) ->
  (forall j, claim s j = Some (KDetach, i) -> r_det (R s j) = Detached -> jn (T s j) = true -> r_mapped (R s j) = true ->
      waits p KDetach j \/ p = Panicked) ->
  (forall j v, jval p j = Some v -> t_fin (T s j) = Some v) ->
  (forall j, woken p j -> jn (T s j) = true /\ gone (P s j) = true) ->
  (forall k j, p = JSleep k j -> r_tid (R s j) <> 0 \/ P s j = KWake (r_taddr (R s j))) ->
  (forall k j v, p = JFutex k j v -> v <> 0) ->
  inv c (goto s i p).
Proof.
  intros I Hpi Hxi Hpp Hxp HW HD HR HCJ HCD HCW HV HK HS HF.
  destruct (pre_facts _ Hpi) as (A1 & A2 & A3 & A4 & A5).
  destruct (pre_facts _ Hpp) as (B1 & B2 & B3 & B4 & B5).
  pose proof (A1 _ eq_refl) as A1'. pose proof (A2 _ eq_refl) as A2'.
  pose proof (B1 (set_pc (T s i) p) eq_refl) as B1'. pose proof (B2 (set_pc (T s i) p) eq_refl) as B2'.
  assert (JN : forall j, jn (if Nat.eqb j i then set_pc (T s i) p else T s j) = jn (T s j)).
  { intros j. destruct (Nat.eqb_spec j i); subst; congruence. }
  assert (SF : forall j, self (if Nat.eqb j i then set_pc (T s i) p else T s j) = self (T s j)).
  { intros j. destruct (Nat.eqb_spec j i); subst; congruence. }
  assert (GO : forall j, gone (t_pc (if Nat.eqb j i then set_pc (T s i) p else T s j)) = gone (P s j)).
  { intros j. destruct (Nat.eqb_spec j i); subst; cbn; congruence. }
  assert (TF : forall j, t_fin (if Nat.eqb j i then set_pc (T s i) p else T s j) = t_fin (T s j)).
  { intros j. destruct (Nat.eqb_spec j i); subst; cbn; congruence. }
  assert (TT : forall j, t_tid (if Nat.eqb j i then set_pc (T s i) p else T s j) = t_tid (T s j)).
  { intros j. destruct (Nat.eqb_spec j i); subst; cbn; congruence. }
  assert (XV : forall j, xval (t_pc (if Nat.eqb j i then set_pc (T s i) p else T s j)) = xval (P s j)).
  { intros j. destruct (Nat.eqb_spec j i); subst; cbn; congruence. }
  assert (PR : forall j, pre (t_pc (if Nat.eqb j i then set_pc (T s i) p else T s j)) = pre (P s j)).
  { intros j. destruct (Nat.eqb_spec j i); subst; cbn; congruence. }
  assert (KW : forall j a, t_pc (if Nat.eqb j i then set_pc (T s i) p else T s j) = KWake a <-> P s j = KWake a).
  { intros j a. destruct (Nat.eqb_spec j i); subst; cbn; [|tauto]. split; intros X; [now apply B5 in X|now apply A5 in X]. }
  assert (AL : (i < n s)%nat). { apply (actor_lt c s i I). intros X; rewrite X in Hpi; discriminate. }
  unfold goto. constructor; cbn [n T R claim]; intros; unfold fupd in *;
    try rewrite JN in *; try rewrite SF in *; try rewrite GO in *; try rewrite TF in *; try rewrite TT in *; try rewrite XV in *; try rewrite PR in *.
  - apply I.
  - destruct (Nat.eqb_spec i0 i); [lia|]. now apply (i_out c s).
  - destruct (Nat.eqb_spec j i); subst; [|apply (i_clear c s I)]. cbn. rewrite B4. specialize (i_clear c s I i). now rewrite A4.
  - eapply i_init; eauto.
  - eapply i_aband; eauto.
  - destruct (i_det c s I j H H0) as (i' & C1 & C2 & C3). exists i'. destruct (Nat.eqb_spec i' i); subst; cbn; [|auto].
    repeat split; auto. intros X. destruct (HD _ X) as (_ & _ & Y). contradiction.
  - eapply i_self; eauto.
  - destruct (Nat.eqb_spec i0 i); subst; cbn in *; [auto|]. apply (i_waits c s I); auto.
  - destruct (Nat.eqb_spec i0 i); subst; cbn in *; [auto|]. apply (i_dswap c s I); auto.
  - destruct (Nat.eqb_spec i0 i); subst; cbn in *; [eauto|]. eapply (i_jret c s I); eauto.
  - eapply (i_claim_lt c s I); eauto.
  - destruct (Nat.eqb_spec i0 i); subst; cbn in *; [eauto|]. eapply (i_claim_j c s I); eauto.
  - destruct (Nat.eqb_spec i0 i); subst; cbn in *; [eauto|]. eapply (i_claim_d c s I); eauto.
  - eapply (i_mapped_none c s I); eauto.
  - destruct (i_mapped c s I j H H0) as [X|[X Y]]; [auto|]. right. split; auto.
    destruct (Nat.eqb_spec j i); subst; cbn in *; auto; congruence.
  - eapply (i_freed c s I); eauto. destruct (Nat.eqb_spec j i); subst; cbn in *; auto; congruence.
  - eapply (i_tid0 c s I); eauto.
  - eapply (i_tid c s I); eauto.
  - eapply (i_tpos c s I); eauto.
  - eapply (i_xval c s I); eauto.
  - eapply (i_ret c s I); eauto. destruct (Nat.eqb_spec j i); subst; cbn in *; auto; congruence.
  - destruct (Nat.eqb_spec i0 i); subst; cbn in *; [eauto|]. eapply (i_jval c s I); eauto.
  - destruct (Nat.eqb_spec i0 i); subst; cbn in *; [eauto|]. eapply (i_woken c s I); eauto.
  - rewrite KW. destruct (Nat.eqb_spec i0 i); subst; cbn in *; [eauto|]. eapply (i_sleep c s I); eauto.
  - destruct (Nat.eqb_spec i0 i); subst; cbn in *; [eauto|]. eapply (i_futex c s I); eauto.
  - apply KW in H. eapply (i_wake c s I); eauto.
  - apply KW in H. eapply (i_wake_d c s I); eauto.
  - eapply (i_geo c s I); eauto.
  - eapply (i_disj c s I); eauto.
  - eapply (i_main c s I).
  - destruct (Nat.eqb_spec j i); subst; cbn in *; [|eapply (i_block c s I); eauto].
    destruct p; cbn in *; try discriminate; tauto.
Qed.

Ltac rwp := repeat match goal with
  | H : t_pc (T ?s ?i) = _ |- context [t_pc (T ?s ?i)] => rewrite H
  | H : t_pc (T ?s ?i) = _, H' : context [t_pc (T ?s ?i)] |- _ => lazymatch H with H' => fail | _ => rewrite H in H' end
  end.
(** facts about a task known by pc *)
Ltac know I i :=
  pose proof (i_clear _ _ I i); pose proof (i_init _ _ I i); pose proof (i_aband _ _ I i);
  pose proof (i_self _ _ I i); pose proof (i_waits _ _ I i); pose proof (i_dswap _ _ I i);
  pose proof (i_mapped _ _ I i); pose proof (i_freed _ _ I i);
  pose proof (i_tid0 _ _ I i); pose proof (i_tid _ _ I i); pose proof (i_tpos _ _ I i);
  pose proof (i_xval _ _ I i); pose proof (i_ret _ _ I i); pose proof (i_wake _ _ I i); pose proof (i_block _ _ I i); pose proof (i_main _ _ I); pose proof (i_out _ _ I i).
Ltac fin I := 
  try solve [ eapply (i_out _ _ I); lia | eapply (i_clear _ _ I); eauto 2| eapply (i_init _ _ I); eauto 2| eapply (i_aband _ _ I); eauto 2
  | eapply (i_self _ _ I); eauto 2| eapply (i_waits _ _ I); eauto 2| eapply (i_dswap _ _ I); eauto 2| eapply (i_jret _ _ I); eauto 2
  | eapply (i_claim_lt _ _ I); eauto 2| eapply (i_claim_j _ _ I); eauto 2| eapply (i_claim_d _ _ I); eauto 2
  | eapply (i_mapped_none _ _ I); eauto 2| eapply (i_mapped _ _ I); eauto 2| eapply (i_freed _ _ I); eauto 2
  | eapply (i_tid0 _ _ I); eauto 2| eapply (i_tid _ _ I); eauto 2| eapply (i_tpos _ _ I); eauto 2
  | eapply (i_xval _ _ I); eauto 2| eapply (i_ret _ _ I); eauto 2| eapply (i_jval _ _ I); eauto 2
  | eapply (i_woken _ _ I); eauto 2| eapply (i_sleep _ _ I); eauto 2| eapply (i_futex _ _ I); eauto 2
  | eapply (i_wake _ _ I); eauto 2| eapply (i_wake_d _ _ I); eauto 2| eapply (i_geo _ _ I); eauto 2| eapply (i_disj _ _ I); eauto 2
  | eapply (i_main _ _ I); eauto 2| eapply (i_block _ _ I); eauto 2 ].
Ltac simp := unfold jn, self, munmap_ok, munmap_addr in *; cb; rwp; cb.
Ltac learn t := let ty := type of t in
  lazymatch goal with | _ : ty |- _ => fail | _ => pose proof t end.
Lemma jval_woken p j v : jval p j = Some v -> woken p j.
Proof. destruct p; cbn; try discriminate; destruct k; try discriminate; destruct (Nat.eqb_spec j0 j); congruence. Qed.
Lemma init_nd (r : trec) : r_det r = Initial -> r_det r <> Detached. Proof. congruence. Qed.
Lemma aband_nd (r : trec) : r_det r = Abandoned -> r_det r <> Detached. Proof. congruence. Qed.
Ltac sat I := repeat match goal with
  | H : jval ?p ?j = Some ?v |- _ => learn (jval_woken p j v H)
  | H : r_det (R ?s ?j) = Initial |- _ => learn (init_nd _ H)
  | H : r_det (R ?s ?j) = Abandoned |- _ => learn (aband_nd _ H)
  | H : claim ?s ?j = Some (KJoin, ?i), M : r_mapped (R ?s ?j) = true |- _ => learn (i_claim_j _ _ I j i H M)
  | H : claim ?s ?j = Some (KDetach, ?i), M : r_det (R ?s ?j) <> Detached |- _ => learn (i_claim_d _ _ I j i H M)
  | H : claim ?s ?j = Some (?k, ?i) |- _ => learn (i_claim_lt _ _ I j k i H)
  | H : waits (P ?s ?i) ?k ?j |- _ => learn (i_waits _ _ I i k j H)
  | H : woken (P ?s ?i) ?j |- _ => learn (i_woken _ _ I i j H)
  | H : jval (P ?s ?i) ?j = Some ?v |- _ => learn (i_jval _ _ I i j v H)
  | H : P ?s ?i = DSwap ?j |- _ => learn (i_dswap _ _ I i j H)
  | H : P ?s ?i = JSleep ?k ?j |- _ => learn (i_sleep _ _ I i k j H)
  | H : P ?s ?i = JRet ?k ?j ?v |- _ => learn (i_jret _ _ I i k j v H)
  end.
Ltac wrk := match goal with H : woken ?p ?j |- _ => destruct p eqn:?; cbn [woken] in H; try contradiction; subst | _ => idtac end.
Ltac ik := let i' := fresh in intros i'; intros;
  repeat match goal with |- context [Nat.eqb ?a ?b] => destruct (Nat.eqb_spec a b); try subst a end.
Ltac ex I := match goal with
  | H : (?j < n ?s)%nat, D : r_det _ = Detached |- exists _, claim ?s ?j = _ /\ _ =>
     let i' := fresh "w" in let A := fresh in let B := fresh in let C := fresh in
     destruct (i_det _ _ I j H ltac:(first [exact D | assumption])) as (i' & A & B & C); exists i'; fu
  | _ => idtac end.
Ltac sm := simp; first [congruence | lia | tauto | discriminate | solve [intuition congruence]].
Ltac post I := try (subst; sm);
  try (match goal with H : negb ?b = true |- _ => destruct b eqn:?; sm end);
  try (match goal with H : t_clear ?b = true |- _ => simp; rewrite H in *; sm end);
  try solve [eauto 3].
Ltac go I := constructor; intros; unf; fu; fin I; cb; try sm; ex I; try sm; sat I; try sm; post I.


