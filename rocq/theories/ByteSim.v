(** Every byte-level step is a step of the abstract life cycle. *)
From Coq Require Import ZArith List Bool Lia Arith ZifyBool ZifyNat.
From Verif Require Import Machine LayoutModel LayoutSpec ThreadModel ThreadSpec ThreadInv ThreadPres4 ThreadTop ThreadTop2 ByteModel ByteSpec ByteProofs.
Import ListNotations.
Open Scope Z_scope.

Section sim.
  Variable e : benv.
  Notation a := (be_arch e).
  Notation td := (be_td e).
  Notation c := (be_cfg e).
  Hypothesis Hwf : wf_env a td (be_tls e) (c_page c).
  Hypothesis Hreuse : c_reuse c = false.

  Lemma in_rec b s j o k : rel e b s -> (j < n s)%nat -> r_mapped (R s j) = true -> In (o, k) (td_fields a td) ->
    in_mapping b (i_t (bI b j) + o, k).
  Proof.
    intros Rl Hj M Hin. exists j. unfold bmapped. rewrite <- (rl_n _ _ _ Rl). destruct (rl_geo _ _ _ Rl j) as (_ & _ & <-).
    destruct (rl_place _ _ _ Rl j Hj) as [[L H _ _] _]. pose proof (field_in e Hwf _ _ Hin). cbn [fst snd]. repeat split; auto; lia.
  Qed.

  Ltac t_of i := match goal with Rl : rel e ?b ?s, H : t_pc (bT ?b i) = _ |- _ => rewrite <- (rl_T _ _ _ Rl i) in H end.

  (** the waiting call's target is mapped *)
  Lemma wait_m s i k j : inv c s -> waits (P s i) k j -> (j < n s)%nat /\ r_mapped (R s j) = true.
  Proof. intros Iv W. destruct (i_waits _ _ Iv _ _ _ W) as (C & M & _). destruct (i_claim_lt _ _ Iv _ _ _ C). auto. Qed.
  Lemma swap_m s i j : inv c s -> P s i = DSwap j -> (j < n s)%nat /\ r_mapped (R s j) = true.
  Proof. intros Iv W. destruct (i_dswap _ _ Iv _ _ W) as (C & M & _). destruct (i_claim_lt _ _ Iv _ _ _ C). auto. Qed.
  Lemma own_m s i : inv c s -> P s i <> Dead -> gone (P s i) = false -> sfreed (P s i) && self (T s i) = false ->
     (i < n s)%nat /\ r_mapped (R s i) = true.
  Proof. intros Iv D G S. pose proof (actor_lt _ _ _ Iv D). split; auto. eapply user_mapped; eauto. Qed.

  Lemma main_not_x s i : inv c s -> xval (P s i) <> None \/ pre (P s i) = false -> (i < n s)%nat -> (0 < i)%nat.
  Proof. intros Iv H L. destruct i; [|lia]. destruct (i_main _ _ Iv) as [A B]. rewrite A, B in H. intuition congruence. Qed.

  Lemma det_iff b s j d : rel e b s -> (j < n s)%nat -> r_mapped (R s j) = true ->
    (ld_det e (bmem b) (i_t (bI b j)) = dcode d <-> r_det (R s j) = d).
  Proof.
    intros Rl L M. destruct (rl_enc _ _ _ Rl j L M). rewrite en_det. split; [apply dcode_inj|congruence].
  Qed.

  Ltac nopc := first [ let v := fresh in let X := fresh in intros v X; discriminate X | let X := fresh in intros X; exfalso; exact X ].

  Theorem bsim b s acc l b' : rel e b s -> inv c s -> bstep e b acc l b' ->
    (forall x, In x acc -> in_mapping b x) /\
    match l with
    | None => rel e b' s
    | Some lab => exists s', step c s lab s' /\ rel e b' s'
    end.
  Proof.
    intros Rl Iv St. pose proof (rl_n _ _ _ Rl) as En.
    assert (Hp : 0 < c_page c) by (destruct (wf_env_page _ _ _ _ Hwf) as (k & Hk & ->); apply Z.pow_pos_nonneg; lia).
    destruct St.
    - (* write *) split; [intros ? []|]. apply rel_write; auto.
    - (* create *) split; [intros ? []|].
      assert (SC : successful_create (be_ck e) a td (be_tls e) (c_page c) (bmem b) (i_tp (bI b i)) ans fn args s0 g t log m')
        by (constructor; auto).
      destruct (create_facts e Hwf _ _ _ _ _ _ _ _ _ _ _ _ _ _ _ _ _ _ _ SC H8 H9 H10) as (Pl & En' & F1 & F2 & F3 & F4 & F5 & F6 & F7).
      pose proof H0 as HR. t_of i. 
      eexists. split.
      + rewrite <- En. apply s_create with (base := map) (guard := g) (map := len) (tid := tid) (taddr := ctid); auto; try lia.
        * intros k Hk. rewrite (rl_T _ _ _ Rl k). apply H11. lia.
        * intros k Hk M. destruct (rl_geo _ _ _ Rl k) as (E1 & E2 & E3). specialize (H12 k ltac:(lia) ltac:(congruence)).
          unfold overlaps. rewrite E1, E2. unfold apart in H12. lia.
        * intros _ k x Hk W. rewrite (rl_T _ _ _ Rl k) in W. apply (H13 Hreuse k x); [lia|exact W].
      + destruct (i_out _ _ Iv (n s) ltac:(lia)) as (O1 & O2 & O3). rewrite <- En.
        constructor; cbn [n T R claim bn bT bI bclaim bmem].
        * congruence.
        * intros k. apply fu_ext; auto. apply (rl_T _ _ _ Rl).
        * intros k. apply fu_ext; auto. apply (rl_c _ _ _ Rl).
        * intros k. unfold fupd. destruct (Nat.eqb_spec k (n s)); [cbn; auto|]. apply (rl_geo _ _ _ Rl).
        * intros k Hk. unfold fupd. destruct (Nat.eqb_spec k (n s)); [split; [exact Pl|reflexivity]|]. apply (rl_place _ _ _ Rl). lia.
        * intros k Hk M. destruct (Nat.eqb_spec k (n s)) as [->|D]; [rewrite !fu_same; exact En'|].
          rewrite !fu_other in * by auto. assert (k < n s)%nat by lia. eapply keeps_enc; [|apply (rl_enc _ _ _ Rl); auto].
          apply F7; [apply (rl_place _ _ _ Rl); auto|].
          destruct (rl_geo _ _ _ Rl k) as (E1 & E2 & E3). specialize (H12 k ltac:(lia) ltac:(congruence)).
          unfold apart in *. lia.
        * intros k Hk. unfold fupd. destruct (Nat.eqb_spec k (n s)); [reflexivity|]. apply (rl_guard _ _ _ Rl). lia.
        * intros k Hk. unfold fupd. destruct (Nat.eqb_spec k (n s)); [exact F5|]. apply (rl_range _ _ _ Rl). lia.
        * intros k v. unfold fupd. destruct (Nat.eqb_spec k (n s)); [discriminate|]. apply (rl_val _ _ _ Rl).
        * intros k. unfold fupd. destruct (Nat.eqb_spec k (n s)); [intros []|]. apply (rl_loc _ _ _ Rl).
    - (* join *) split; [intros ? []|]. t_of i. eexists. split; [apply s_join; auto; try lia; rewrite (rl_c _ _ _ Rl); auto|].
      apply rel_goto; [apply rel_claim; auto|nopc|nopc].
    - (* detach *) split; [intros ? []|]. t_of i. eexists. split; [apply s_detach; auto; try lia; rewrite (rl_c _ _ _ Rl); auto|].
      apply rel_goto; [apply rel_claim; auto|nopc|nopc].
    - (* id *)
      assert (L : (j < n s)%nat) by lia.
      assert (C : claim s j = None) by (rewrite (rl_c _ _ _ Rl); auto).
      pose proof (i_mapped_none _ _ Iv j L C) as M.
      split; [intros x [<-|[]]; eapply in_rec; eauto; cbn; tauto|]. t_of i.
      destruct (rl_enc _ _ _ Rl j L M). rewrite en_tid. eexists. split; [apply s_id; auto; lia|exact Rl].
    - (* current_id *) t_of i.
      assert (OM : (i < n s)%nat /\ r_mapped (R s i) = true) by (apply own_m; auto; rewrite H0; try reflexivity; discriminate).
      destruct OM as [L M]. rewrite (own_of e _ _ _ Rl L M).
      split; [intros x [<-|[]]; eapply in_rec; eauto; cbn; tauto|].
      destruct (rl_enc _ _ _ Rl i L M). rewrite en_tid. eexists. split; [apply s_id; auto; lia|exact Rl].
    - (* return *) split; [intros ? []|]. t_of i. eexists. split; [apply s_return; auto; lia|].
      rewrite (rl_T _ _ _ Rl i). apply rel_task; auto; [|intros []]. cbn. intros v' [= <-]; auto.
    - (* load0 *) t_of i. destruct (wait_m s i k j Iv) as [L M]; [rewrite H; cbn; auto|].
      split; [intros x [<-|[]]; eapply in_rec; eauto; cbn; tauto|].
      destruct (rl_enc _ _ _ Rl j L M). rewrite en_tid in *. eexists. split; [eapply s_load0; eauto|]. apply rel_goto; auto; nopc.
    - (* load *) t_of i. destruct (wait_m s i k j Iv) as [L M]; [rewrite H; cbn; auto|].
      split; [intros x [<-|[]]; eapply in_rec; eauto; cbn; tauto|].
      destruct (rl_enc _ _ _ Rl j L M). rewrite en_tid in *. eexists. split; [eapply s_load; eauto|]. apply rel_goto; auto; nopc.
    - (* futex again *) t_of i. destruct (wait_m s i k j Iv) as [L M]; [rewrite H; cbn; auto|].
      split; [intros x [<-|[]]; eapply in_rec; eauto; cbn; tauto|].
      destruct (rl_enc _ _ _ Rl j L M). rewrite en_tid in *. eexists. split; [eapply s_futex_again; eauto|]. apply rel_goto; auto; nopc.
    - t_of i. destruct (wait_m s i k j Iv) as [L M]; [rewrite H; cbn; auto|].
      split; [intros x [<-|[]]; eapply in_rec; eauto; cbn; tauto|].
      eexists. split; [eapply s_futex_intr; eauto|]. apply rel_goto; auto; nopc.
    - t_of i. destruct (wait_m s i k j Iv) as [L M]; [rewrite H; cbn; auto|].
      split; [intros x [<-|[]]; eapply in_rec; eauto; cbn; tauto|].
      destruct (rl_enc _ _ _ Rl j L M). rewrite en_tid in *. eexists. split; [eapply s_futex_sleep; eauto|]. apply rel_goto; auto; nopc.
    - t_of i. split; [intros ? []|]. eexists. split; [eapply s_sleep_intr; eauto|]. apply rel_goto; auto; nopc.
    - (* join load *) t_of i. destruct (wait_m s i KJoin j Iv) as [L M]; [rewrite H; cbn; auto|].
      split; [intros x [<-|[<-|[]]]; eapply in_rec; eauto; cbn; tauto|].
      rewrite (det_iff b s j Abandoned Rl L M) in H0.
      destruct (rl_enc _ _ _ Rl j L M). rewrite en_ret. eexists. split; [eapply s_join_load; eauto|]. apply rel_goto; auto; nopc.
    - (* join assert *) t_of i. destruct (wait_m s i KJoin j Iv) as [L M]; [rewrite H; cbn; auto|].
      split; [intros x [<-|[]]; eapply in_rec; eauto; cbn; tauto|].
      rewrite (det_iff b s j Abandoned Rl L M) in H0.
      eexists. split; [eapply s_join_assert; eauto|]. apply rel_goto; auto; nopc.
    - t_of i. split; [intros ? []|]. eexists. split; [eapply s_detach_done; eauto|]. apply rel_goto; auto; nopc.
    - (* free *) t_of i. destruct (wait_m s i k j Iv) as [L M]; [rewrite H; cbn; auto|].
      destruct (req_of e _ _ _ Rl Iv L M) as [Q1 Q2]. subst r. rewrite Q1 in H1.
      split; [intros x [<-|[<-|[<-|[]]]]; eapply in_rec; eauto; cbn; tauto|].
      assert (J : (0 < j)%nat).
      { destruct (i_woken _ _ Iv i j) as [_ G]; [rewrite H; cbn; auto|]. eapply self_not_main; eauto. }
      specialize (Q2 H1 J). rewrite Q2 in *. cbn [fst snd] in *.
      eexists. split; [eapply s_free; eauto|]. apply rel_goto; [apply rel_munmap; auto|nopc|nopc].
    - (* free einval *) t_of i. destruct (wait_m s i k j Iv) as [L M]; [rewrite H; cbn; auto|].
      destruct (req_of e _ _ _ Rl Iv L M) as [Q1 Q2]. subst r. rewrite Q1 in H1.
      split; [intros x [<-|[<-|[<-|[]]]]; eapply in_rec; eauto; cbn; tauto|].
      assert (J : (0 < j)%nat).
      { destruct (i_woken _ _ Iv i j) as [_ G]; [rewrite H; cbn; auto|]. eapply self_not_main; eauto. }
      specialize (Q2 H1 J). rewrite Q2 in *. cbn [fst snd] in *.
      eexists. split; [eapply s_free_einval; eauto|]. apply rel_goto; auto; nopc.
    - (* free none *) t_of i. destruct (wait_m s i k j Iv) as [L M]; [rewrite H; cbn; auto|].
      destruct (req_of e _ _ _ Rl Iv L M) as [Q1 Q2]. subst r. rewrite Q1 in H1.
      split; [intros x [<-|[<-|[<-|[]]]]; eapply in_rec; eauto; cbn; tauto|].
      eexists. split; [eapply s_free_none; eauto|]. apply rel_goto; auto; nopc.
    - t_of i. split; [intros ? []|]. eexists. split; [eapply s_ret_join; eauto|]. apply rel_goto; auto; nopc.
    - t_of i. split; [intros ? []|]. eexists. split; [eapply s_ret_detach; eauto|]. apply rel_goto; auto; nopc.
    - (* swap *) t_of i. destruct (swap_m s i j Iv H) as [L M].
      split; [intros x [<-|[]]; eapply in_rec; eauto; cbn; tauto|].
      rewrite (det_iff b s j Abandoned Rl L M) in H0. eexists. split; [eapply s_swap; eauto|].
      apply rel_goto; [|nopc|nopc].
      destruct (rl_place _ _ _ Rl j L) as [Pl _]. pose proof (field_in e Hwf (o_detached td) 1 ltac:(cbn; tauto)).
      eapply rel_store with (p := i_t (bI b j) + o_detached td) (k := 1%nat) (v := DETACHED); [exact Hwf|exact Rl|exact Iv|exact L|exact M|reflexivity|destruct Pl; cbn; lia| |repeat split].
      apply (enc_det e Hwf _ _ _ Detached Pl). apply (rl_enc _ _ _ Rl); auto.
    - (* swap running *) t_of i. destruct (swap_m s i j Iv H) as [L M].
      split; [intros x [<-|[]]; eapply in_rec; eauto; cbn; tauto|].
      rewrite (det_iff b s j Abandoned Rl L M) in H0. eexists. split; [eapply s_swap_running; eauto|].
      apply rel_goto; [|nopc|nopc].
      destruct (rl_place _ _ _ Rl j L) as [Pl _]. pose proof (field_in e Hwf (o_detached td) 1 ltac:(cbn; tauto)).
      eapply rel_store with (p := i_t (bI b j) + o_detached td) (k := 1%nat) (v := DETACHED); [exact Hwf|exact Rl|exact Iv|exact L|exact M|reflexivity|destruct Pl; cbn; lia| |repeat split].
      apply (enc_det e Hwf _ _ _ Detached Pl). apply (rl_enc _ _ _ Rl); auto.
    - (* cas *) t_of i.
      assert (OM : (i < n s)%nat /\ r_mapped (R s i) = true) by (apply own_m; auto; rewrite H; try reflexivity; discriminate).
      destruct OM as [L M]. rewrite (own_of e _ _ _ Rl L M) in *.
      split; [intros x [<-|[]]; eapply in_rec; eauto; cbn; tauto|].
      rewrite (det_iff b s i Initial Rl L M) in H0. eexists. split; [eapply s_cas; eauto|].
      pose proof (rl_val _ _ _ Rl i rv) as V. rewrite H in V. specialize (V eq_refl).
      apply rel_goto; [|cbn; intros v' [= <-]; exact V|nopc].
      destruct (rl_place _ _ _ Rl i L) as [Pl _]. pose proof (field_in e Hwf (o_detached td) 1 ltac:(cbn; tauto)).
      eapply rel_store with (p := i_t (bI b i) + o_detached td) (k := 1%nat) (v := ABANDONED); [exact Hwf|exact Rl|exact Iv|exact L|exact M|reflexivity|destruct Pl; cbn; lia| |repeat split].
      apply (enc_det e Hwf _ _ _ Abandoned Pl). apply (rl_enc _ _ _ Rl); auto.
    - (* cas assert *) t_of i.
      assert (OM : (i < n s)%nat /\ r_mapped (R s i) = true) by (apply own_m; auto; rewrite H; try reflexivity; discriminate).
      destruct OM as [L M]. rewrite (own_of e _ _ _ Rl L M) in *.
      split; [intros x [<-|[<-|[<-|[<-|[]]]]]; eapply in_rec; eauto; cbn; tauto|].
      rewrite (det_iff b s i Initial Rl L M) in H0. rewrite (det_iff b s i Detached Rl L M) in H1.
      eexists. split; [eapply s_cas_assert; eauto|apply rel_goto; auto; nopc].
      destruct (r_det (R s i)); congruence.
    - (* cas detached *) t_of i.
      assert (OM : (i < n s)%nat /\ r_mapped (R s i) = true) by (apply own_m; auto; rewrite H; try reflexivity; discriminate).
      destruct OM as [L M]. rewrite (own_of e _ _ _ Rl L M) in *.
      destruct (req_of e _ _ _ Rl Iv L M) as [Q1 Q2]. subst r. rewrite Q1 in H3.
      split; [intros x [<-|[<-|[<-|[<-|[]]]]]; eapply in_rec; eauto; cbn; tauto|].
      rewrite (det_iff b s i Initial Rl L M) in H0. rewrite (det_iff b s i Detached Rl L M) in H1.
      assert (J : (0 < i)%nat) by (eapply main_not_x; eauto; left; rewrite H; discriminate).
      specialize (Q2 H3 J). rewrite Q2.
      eexists. split; [eapply s_cas_detached; eauto|apply rel_goto; [apply rel_loc; auto|nopc|]].
      intros _. cbn. rewrite fu_same. reflexivity.
    - (* cas nomap *) t_of i.
      assert (OM : (i < n s)%nat /\ r_mapped (R s i) = true) by (apply own_m; auto; rewrite H; try reflexivity; discriminate).
      destruct OM as [L M]. rewrite (own_of e _ _ _ Rl L M) in *.
      destruct (req_of e _ _ _ Rl Iv L M) as [Q1 Q2]. subst r. rewrite Q1 in H3.
      split; [intros x [<-|[<-|[<-|[<-|[]]]]]; eapply in_rec; eauto; cbn; tauto|].
      rewrite (det_iff b s i Initial Rl L M) in H0. rewrite (det_iff b s i Detached Rl L M) in H1.
      eexists. split; [eapply s_cas_nomap; eauto|apply rel_goto; auto; nopc].
    - (* store *) t_of i.
      assert (OM : (i < n s)%nat /\ r_mapped (R s i) = true) by (apply own_m; auto; rewrite H; try reflexivity; discriminate).
      destruct OM as [L M]. rewrite (own_of e _ _ _ Rl L M) in *.
      split; [intros x [<-|[]]; eapply in_rec; eauto; cbn; tauto|].
      eexists. split; [eapply s_store; eauto|].
      pose proof (rl_val _ _ _ Rl i rv) as V. rewrite H in V. specialize (V eq_refl).
      apply rel_goto; [|nopc|nopc].
      destruct (rl_place _ _ _ Rl i L) as [Pl _]. pose proof (field_in e Hwf (o_retval td) (wsz a) ltac:(cbn; tauto)).
      eapply rel_store with (p := i_t (bI b i) + o_retval td) (k := word a) (v := rv); [exact Hwf|exact Rl|exact Iv|exact L|exact M|reflexivity|rewrite <- wsz_nat; destruct Pl; cbn; lia| |repeat split].
      apply (enc_ret e Hwf _ _ _ _ Pl V). apply (rl_enc _ _ _ Rl); auto.
    - t_of i. split; [intros ? []|]. eexists. split; [eapply s_exit; eauto|]. apply rel_goto; auto; nopc.
    - (* settid *) t_of i. split; [intros ? []|]. eexists. split; [eapply s_dx_settid; eauto|].
      rewrite (rl_T _ _ _ Rl i). apply rel_task; auto; [nopc|]. intros _. apply (rl_loc _ _ _ Rl). rewrite H. exact I.
    - t_of i. split; [intros ? []|]. eexists. split; [eapply s_dx_block; eauto|].
      rewrite (rl_T _ _ _ Rl i). apply rel_task; auto; [nopc|]. intros _. apply (rl_loc _ _ _ Rl). rewrite H. exact I.
    - t_of i. split; [intros ? []|]. eexists. split; [eapply s_dx_noblock; eauto|].
      apply rel_goto; auto; [nopc|]. intros _. apply (rl_loc _ _ _ Rl). rewrite H. exact I.
    - (* munmap *) t_of i. split; [intros ? []|].
      assert (LC : i_loc (bI b i) = (munmap_addr (R s i), r_map (R s i))) by (apply (rl_loc _ _ _ Rl); rewrite H; exact I).
      subst r. rewrite LC in *. cbn [fst snd] in *.
      eexists. split; [eapply s_dx_munmap; eauto|]. apply rel_goto; [apply rel_munmap; auto|nopc|nopc].
    - t_of i. split; [intros ? []|].
      assert (LC : i_loc (bI b i) = (munmap_addr (R s i), r_map (R s i))) by (apply (rl_loc _ _ _ Rl); rewrite H; exact I).
      subst r. rewrite LC in *. cbn [fst snd] in *.
      eexists. split; [eapply s_dx_munmap_einval; eauto|]. apply rel_goto; auto; nopc.
    - t_of i. split; [intros ? []|]. eexists. split; [eapply s_dx_exit; eauto|]. apply rel_goto; auto; nopc.
    - (* kclear *) t_of i. pose proof (rl_T _ _ _ Rl i) as TT. rewrite <- TT in H0.
      assert (OM : (i < n s)%nat /\ r_mapped (R s i) = true).
      { apply own_m; auto; try (rewrite H; try reflexivity; discriminate). unfold self. rewrite H, H0. reflexivity. }
      destruct OM as [L M]. destruct (rl_place _ _ _ Rl i L) as [Pl TA].
      pose proof (field_in e Hwf (o_tid td) 4 ltac:(cbn; tauto)).
      split.
      { intros x [<-|[]]. rewrite (pl_ctid _ _ Pl). eapply in_rec; eauto; cbn; tauto. }
      eexists. split; [eapply s_kclear; eauto|]. rewrite TA. apply rel_goto; [|nopc|nopc].
      eapply rel_store with (p := i_ctid (bI b i)) (k := 4%nat) (v := 0); [exact Hwf|exact Rl|exact Iv|exact L|exact M|reflexivity|rewrite (pl_ctid _ _ Pl); destruct Pl; cbn; lia| |repeat split].
      apply (enc_tid0 e Hwf _ _ _ Pl). apply (rl_enc _ _ _ Rl); auto.
    - t_of i. pose proof (rl_T _ _ _ Rl i) as TT. rewrite <- TT in H0.
      split; [intros ? []|]. eexists. split; [eapply s_kclear_null; eauto|]. apply rel_goto; auto; nopc.
    - (* kwake *) t_of i. t_of w. split; [intros ? []|].
      destruct (wait_m s w k j Iv) as [L M]; [rewrite H0; cbn; auto|].
      destruct (rl_place _ _ _ Rl j L) as [Pl TA]. rewrite (pl_ctid _ _ Pl) in TA.
      eexists. split; [eapply s_kwake with (w := w); eauto; congruence|]. apply rel_goto; [|nopc|nopc]. apply rel_goto; auto; nopc.
    - t_of i. split; [intros ? []|]. eexists. split; [eapply s_kwake_none; eauto|apply rel_goto; auto; nopc].
      intros w k j Hw W. destruct (wait_m s w k j Iv) as [L M]; [rewrite W; cbn; auto|].
      destruct (rl_place _ _ _ Rl j L) as [Pl TA]. rewrite (pl_ctid _ _ Pl) in TA. rewrite TA.
      rewrite (rl_T _ _ _ Rl w) in W. eapply H0; eauto. lia.
    - split; [intros ? []|]. pose proof (rl_T _ _ _ Rl i) as TT. rewrite <- TT in *.
      eexists. split; [eapply s_signal; eauto; lia|exact Rl].
  Qed.

  Lemma bstarts_rel b : bstarts e b -> exists s, initial s /\ rel e b s.
  Proof.
    intros (m0 & sp & ee & rl & rnd & ans & tid & Rr & len & map & SM & Ht & Hin & ->).
    destruct (main_facts e Hwf _ _ _ _ _ _ _ _ _ _ _ SM Ht Hin) as (stack & guard & Pl & En & TA).
    exists (init tid stack guard (mr_thread Rr + o_tid td) map len). split.
    - exists tid, stack, guard, (mr_thread Rr + o_tid td), map, len. repeat split; auto; lia.
    - constructor; cbn [n T R claim init bn bT bI bclaim bmem]; auto.
      + intros [|j]; cbn; auto.
      + intros [|j] Hj; [cbn; auto|lia].
      + intros [|j] Hj M; [exact En|lia].
      + intros j Hj. lia.
      + intros j Hj. lia.
      + intros [|j] v X; discriminate X.
      + intros [|j] [].
  Qed.

  Lemma bexec_sim b0 tr b s0 : inv c s0 -> rel e b0 s0 -> bexec e b0 tr b -> exists s, exec c s0 tr s /\ rel e b s.
  Proof.
    assert (Hp : 0 < c_page c) by (destruct (wf_env_page _ _ _ _ Hwf) as (k & Hk & ->); apply Z.pow_pos_nonneg; lia).
    intros I0 Rl H. induction H as [b|b tr b1 acc l b2 H IH St]; [exists s0; split; [constructor|auto]|].
    destruct (IH Rl) as (s & Ex & R1). pose proof (exec_inv _ _ _ _ Hp Hreuse I0 Ex) as Iv.
    destruct (bsim _ _ _ _ _ R1 Iv St) as [_ Q]. destruct l as [lab|].
    - destruct Q as (s' & St' & R2). exists s'. split; [econstructor; eauto|auto].
    - exists s. cbn [olist]. rewrite app_nil_r. auto.
  Qed.

  Theorem brun_sim tr b : brun e tr b -> exists s, run c tr s /\ rel e b s.
  Proof.
    intros (b0 & St & Ex). destruct (bstarts_rel _ St) as (s0 & I0 & Rl).
    destruct (bexec_sim _ _ _ _ (init_inv _ _ I0) Rl Ex) as (s & E & Rl'). exists s. split; [exists s0; auto|auto].
  Qed.
End sim.
