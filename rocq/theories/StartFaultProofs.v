(** The faulting machine of StartFault.v against StartModel.v and
    LayoutModel.v, and the accesses it makes. *)
From Verif Require Import Machine MachineFacts LayoutModel LayoutSpec LayoutFacts LayoutProofs LayoutTop LayoutTop2 RelocModel RelocSpec RelocFacts RelocProofs RelocTop RelocMono
  StartModel StartSpec StartProofs StartTop RelocFault RelocFaultSpec RelocFaultProofs RelocFaultTop StartFault StartFaultSpec.

(** ** It does what StartModel says, or faults having done part of it *)
Definition sbelow (r : frun) (r' : StartModel.run) : Prop :=
  r = (fst r', Some (snd r')) \/ (snd r = None /\ prefix (fst r) (fst r')).

Lemma sb_fault r : sbelow fault r.
Proof. right. split; [reflexivity|apply prefix_nil]. Qed.
Lemma sb_ends f : sbelow (fends f) ([], f).
Proof. now left. Qed.
Lemma sb_emit e r r' : sbelow r r' -> sbelow (femit e r) (emit e r').
Proof.
  intros [ -> |[H1 H2]]; [now left|]. right. split; [exact H1|]. cbn. apply prefix_cons. exact H2.
Qed.

Section F.
Context (ac : access).

Lemma args_below ck a m sp : fcompute_args ac ck a m sp = None \/ fcompute_args ac ck a m sp = Some (compute_args ck a m sp).
Proof.
  unfold fcompute_args, compute_args. destruct (may_read ac sp (word a)); [|now left]. cbv zeta.
  destruct (uadd _ _ _ _) as [n|]; cbn [bind]; [|now right]. destruct ck; cbn [andb]; [|now right].
  destruct ((0 <=? _) && (_ =? _)); cbn [andb negb]; [|now right].
  destruct (may_read _ _ _); [|now left]. destruct (_ =? 0); now right.
Qed.
Lemma auxl_below a m : forall n p, faux_list ac n a m p = None \/ faux_list ac n a m p = Some (aux_list n a m p).
Proof.
  induction n as [|n IH]; intros p; [now right|]. cbn [faux_list aux_list]. cbv zeta.
  destruct (_ && _); [|now left]. destruct (_ =? AT_NULL); [now right|].
  destruct (IH (padd a p (2 * wsz a))) as [ -> | -> ]; [now left|]. right. destruct (aux_list _ _ _ _); reflexivity.
Qed.
Lemma param_below n a m p : fparam_init ac n a m p = None \/ fparam_init ac n a m p = Some (param_init n a m p).
Proof.
  unfold fparam_init, param_init. destruct (skip_below ac a m n p) as [ -> | -> ]; [now left|].
  destruct (skip_env _ _ _ _); [apply auxl_below|now right].
Qed.
Lemma cstr_below m : forall n p, fcstr_end ac n m p = None \/ fcstr_end ac n m p = Some (cstr_end n m p).
Proof.
  induction n as [|n IH]; intros p; [now right|]. cbn [fcstr_end cstr_end].
  destruct (ac_r ac p); [|now left]. destruct (_ =? 0); auto.
Qed.
Lemma info_below a m first phent dynv pend : forall n p s,
  fscan_info ac n a m first phent dynv p pend s = None \/
  fscan_info ac n a m first phent dynv p pend s = Some (scan_info n a m first phent dynv p pend s).
Proof.
  induction n as [|n IH]; intros p s; [now right|]. cbn [fscan_info scan_info]. cbv zeta.
  repeat match goal with
  | |- (if ?b then _ else _) = _ \/ _ => destruct b; auto
  end.
Qed.
Lemma startup_below n ck a aux dynv m :
  finitialize_startup_info ac n ck a aux dynv m = None \/
  finitialize_startup_info ac n ck a aux dynv m = Some (initialize_startup_info n ck a aux dynv m).
Proof.
  unfold finitialize_startup_info, initialize_startup_info. destruct (exe_phdrs aux) as [[first phent] phnum].
  destruct (ck && _); [now right|]. cbv zeta.
  destruct (info_below a m first phent dynv (padd a first ((phnum * phent) mod modulus (wsz a))) n first (PS 0 0 0)) as [ -> | -> ]; [now left|].
  destruct (scan_info _ _ _ _ _ _ _ _ _) as [s|]; [|now right].
  unfold fstartup_values. destruct (_ =? 0); [now right|]. destruct (_ && _); [now right|now left].
Qed.
Lemma tls_below_ok a td tls m d md cn sl ss g ms :
  finitialize_tls ac a td tls m d md cn sl ss g ms = None \/
  finitialize_tls ac a td tls m d md cn sl ss g ms = Some (initialize_tls a td tls m d md cn sl ss g ms).
Proof.
  unfold finitialize_tls, initialize_tls. cbv zeta.
  destruct (writes _ _ _); [|now left]. destruct (_ && _); [|now left].
  destruct (_ <=? _); [|now right]. destruct (writes _ _ _); [now right|now left].
Qed.
End F.

Lemma main_below ac ck a td tls page m sp e rl rnd ans tid :
  finitialize_main ac ck a td tls page m sp e rl rnd ans tid = None \/
  exists x, finitialize_main ac ck a td tls page m sp e rl rnd ans tid = Some x /\
    option_map snd x = initialize_main ck a td tls page m sp e rl rnd ans tid.
Proof.
  unfold finitialize_main, initialize_main. destruct (round_up _ _ _ _) as [sb|]; cbn [bind]; [|right; eexists; split; reflexivity].
  destruct rl as [lim|]; cbn [bind]; [|right; eexists; split; reflexivity]. cbv zeta.
  destruct (may_read _ _ _); [|now left].
  destruct (calculate_tls_size _ _ _ _ _ _) as [[[n tb] h]|]; cbn [bind]; [|right; eexists; split; reflexivity].
  destruct ans as [new|]; cbn [bind]; [|right; eexists; split; reflexivity].
  destruct (ck && _); [right; eexists; split; reflexivity|].
  match goal with |- context [finitialize_tls ?A ?b ?c ?d ?e ?f ?g ?h ?i ?j ?k ?l] =>
    destruct (tls_below_ok A b c d e f g h i j k l) as [ -> | -> ]; [now left|] end.
  destruct (initialize_tls _ _ _ _ _ _ _ _ _ _ _) as [[[m1 nt] tp]|]; cbn [bind]; [|right; eexists; split; reflexivity].
  destruct (writes _ _ _); [|now left]. right. eexists. split; reflexivity.
Qed.

Lemma loop_below ac a w args k k' : (forall m, sbelow (k m) (k' m)) -> forall n i init pend m,
  sbelow (finit_loop ac n a w args i init pend m k) (init_loop n a w args i init pend m k').
Proof.
  intros K. induction n as [|n IH]; intros i init pend m; [apply sb_ends|]. cbn [finit_loop init_loop].
  destruct (_ =? _); [apply K|]. destruct args as [[argc argv] envp].
  destruct (may_read _ _ _); [|apply sb_fault]. cbv zeta. apply sb_emit.
  destruct (w_init _ _ _ _ _ _ _); [apply IH|apply sb_ends].
Qed.

Lemma runtime_below ac n c l w sp envp m k k' : (forall ac m, sbelow (k ac m) (k' m)) ->
  sbelow (finit_runtime ac n c l w sp envp m k) (init_runtime n c l w sp envp m k').
Proof.
  intros K. unfold finit_runtime, init_runtime. destruct (has_param c); [|apply K].
  destruct (param_below ac n (f_arch c) m envp) as [ -> | -> ]; [apply sb_fault|].
  destruct (param_init _ _ _ _) as [aux|]; [|apply sb_ends]. apply sb_emit.
  destruct (f_thread c); [|apply K].
  destruct (startup_below ac n (f_debug c) (f_arch c) aux (l_dynv l) m) as [ -> | -> ]; [apply sb_fault|].
  destruct (initialize_startup_info _ _ _ _ _ _) as [[t st]| |]; [|apply sb_ends|apply sb_ends]. apply sb_emit.
  destruct (cstr_below ac m n (value_of AT_EXECFN aux)) as [ -> | -> ]; [apply sb_fault|].
  destruct (cstr_end _ _ _) as [ee|]; [|apply sb_ends]. apply sb_emit.
  match goal with |- context [finitialize_main ?A ?b ?c ?d ?e ?f ?g ?h ?i ?j ?k ?l ?o] =>
    destruct (main_below A b c d e f g h i j k l o) as [ -> | (x & -> & <-)]; [apply sb_fault|] end.
  destruct x as [[ac' r]|]; cbn [option_map snd]; [apply K|apply sb_ends].
Qed.

Lemma after_below ac n c l w sp args m : sbelow (fafter_relocate ac n c l w sp args m) (after_relocate n c l w sp args m).
Proof.
  unfold fafter_relocate, after_relocate. apply runtime_below. intros ac' m'.
  destruct (f_init_array c); [apply loop_below; intros m2; now left|now left].
Qed.

Lemma entry_below ac n c l w sp m : sbelow (fentry ac n c l w sp m) (entry n c l w sp m).
Proof.
  unfold fentry, entry. destruct (negb _); [apply sb_ends|].
  destruct (args_below ac (f_debug c) (f_arch c) m sp) as [ -> | -> ]; [apply sb_fault|].
  destruct (compute_args _ _ _ _) as [args|]; [|apply sb_ends].
  destruct (f_relocate c && f_origin_start c); [|apply after_below]. apply sb_emit.
  destruct (frelocate_below ac n (reloc_env c l w (snd args)) (RelocSpec.start m)) as [ -> | -> ]; [apply sb_fault|].
  destruct (relocate _ _ _); [apply after_below|apply sb_ends|apply sb_ends|apply sb_ends].
Qed.

Lemma create_below ac ck a td tls page m tpreg ans fn args s g :
  fcreate ac ck a td tls page m tpreg ans fn args s g = None \/
  fcreate ac ck a td tls page m tpreg ans fn args s g = Some (create ck a td tls page m tpreg ans fn args s g).
Proof.
  unfold fcreate, create. destruct (create_layout _ _ _ _ _ _ _) as [L|]; [|now right].
  destruct (ans_mmap ans) as [map|]; [|now right]. cbv zeta. destruct (negb (ans_mprotect ans)); [now right|].
  destruct (negb _ || _); [|now left]. destruct (may_read _ _ _); [|now left].
  match goal with |- context [finitialize_tls ?A ?b ?c ?d ?e ?f ?g ?h ?i ?j ?k ?l] =>
    destruct (tls_below_ok A b c d e f g h i j k l) as [ -> | -> ]; [now left|] end.
  destruct (initialize_tls _ _ _ _ _ _ _ _ _ _ _) as [[[m1 nt] tp]|]; [|now right].
  destruct (writes _ _ _); [|now left]. destruct (_ <=? _); now right.
Qed.

(** ** Accesses that are permitted *)
Lemma can_reads ac p n : can (ac_r ac) p n -> reads ac p n = true.
Proof.
  intros H. apply can_read. intros x Hx. apply H. destruct (Z_lt_le_dec n 0); [|lia].
  rewrite Z2Nat.inj_neg in Hx || replace (Z.to_nat n) with O in Hx by lia. cbn in Hx. lia.
Qed.
Lemma can_writes ac p n : can (ac_w ac) p n -> writes ac p n = true.
Proof.
  intros H. unfold writes. apply forallb_forall. intros i Hi. apply in_seq in Hi. apply H. lia.
Qed.
Lemma grant_r ac p n x : ac_r ac x = true -> ac_r (grant ac p n) x = true.
Proof. intros H. cbn. rewrite H. apply orb_true_r. Qed.
Lemma grant_can_r ac p n q k : can (ac_r ac) q k -> can (ac_r (grant ac p n)) q k.
Proof. intros H x Hx. apply grant_r. auto. Qed.
Lemma grant_can_w ac p n q k : p <= q -> q + k <= p + n -> can (ac_w (grant ac p n)) q k.
Proof.
  intros H1 H2 x Hx. cbn. rewrite (proj2 (Z.leb_le p x)), (proj2 (Z.ltb_lt x (p + n))) by lia. reflexivity.
Qed.
Lemma revoke_can_r ac p n q k : can (ac_r ac) q k -> LayoutSpec.apart q k p n -> can (ac_r (revoke ac p n)) q k.
Proof.
  intros H A x Hx. cbn. rewrite (H x Hx), andb_true_r. apply negb_true_iff. apply andb_false_iff.
  destruct A as [A|A]; [left; apply Z.leb_gt; lia|right; apply Z.ltb_ge; lia].
Qed.

Lemma args_ok ac ck a m sp args env aux : kernel_stack a m sp args env aux ->
  stack_readable ac a sp args env aux ->
  fcompute_args ac ck a m sp = Some (Some (Z.of_nat (length args), argv_of a sp, envp_of a sp args)).
Proof.
  intros HK HC. rewrite <- (compute_args_spec ck a m sp args env aux HK).
  destruct (args_below ac ck a m sp) as [E|E]; [exfalso|exact E]. revert E.
  pose proof HK as (_ & Hn & _ & _ & Hs). unfold stack_readable in HC.
  unfold fcompute_args.
  assert (R0 : may_read ac sp (word a) = true).
  { apply can_word. specialize (HC 0%nat ltac:(lia)). rewrite Z.mul_0_l, Z.add_0_r, Z.mod_small in HC by lia. exact HC. }
  rewrite R0, (kernel_argc _ _ _ _ _ _ HK). cbv zeta. rewrite to_i32_small, i32_usize by lia.
  destruct (uadd _ _ _ _); [|discriminate]. destruct ck; [|discriminate].
  destruct (_ && _); [|discriminate].
  assert (R1 : may_read ac (padd a (padd a sp (wsz a)) (Z.of_nat (length args) * wsz a)) (word a) = true).
  { apply can_word. specialize (HC (S (length args)) ltac:(lia)).
    unfold padd, wrapping_add. rewrite Zplus_mod_idemp_l.
    replace (sp + wsz a + Z.of_nat (length args) * wsz a) with (sp + Z.of_nat (S (length args)) * wsz a) by lia. exact HC. }
  rewrite R1. destruct (_ =? 0); discriminate.
Qed.

Lemma auxl_ok ac a m : forall aux fuel p rest,
  Forall (fun r => 0 < fst r < 2 ^ 32) aux -> words_at a m p (pairs aux ++ 0 :: rest) ->
  can_words a (ac_r ac) p (2 * (length aux + 1)) ->
  faux_list ac fuel a m (p mod modulus (wsz a)) <> None.
Proof.
  induction aux as [|[t v] aux IH]; intros fuel p rest Hn Hw Hc; (destruct fuel as [|fuel]; [discriminate|]).
  - cbn [pairs flat_map app] in Hw. apply words_cons in Hw. destruct Hw as [Hw1 Hw2].
    cbn [length] in Hc. replace (2 * (0 + 1))%nat with 2%nat in Hc by lia.
    apply can_words_S in Hc. destruct Hc as [Hc1 Hc2]. apply can_words_S in Hc2. destruct Hc2 as [Hc2 _].
    cbn [faux_list]. rewrite padd_mod, (can_word ac a _ Hc1), (can_word ac a _ Hc2). cbn [andb]. rewrite Hw1.
    discriminate.
  - cbn [pairs flat_map app fst snd] in Hw. apply words_cons in Hw. destruct Hw as [Hw1 Hw].
    apply words_cons in Hw. destruct Hw as [Hw2 Hw].
    cbn [length] in Hc. replace (2 * (S (length aux) + 1))%nat with (S (S (2 * (length aux + 1)))) in Hc by lia.
    apply can_words_S in Hc. destruct Hc as [Hc1 Hc]. apply can_words_S in Hc. destruct Hc as [Hc2 Hc].
    cbn [faux_list]. rewrite !padd_mod, (can_word ac a _ Hc1), (can_word ac a _ Hc2). cbn [andb].
    destruct (_ =? AT_NULL); [discriminate|].
    replace (p + 2 * wsz a) with (p + wsz a + wsz a) by lia.
    specialize (IH fuel (p + wsz a + wsz a) rest (Forall_inv_tail Hn) Hw Hc).
    destruct (faux_list _ _ _ _ _) as [[|]|]; congruence.
Qed.

Lemma param_ok ac a m p env aux fuel :
  0 <= p < modulus (wsz a) -> stack_at a m p env aux ->
  can_words a (ac_r ac) p (length env + 1 + 2 * (length aux + 1)) ->
  fparam_init ac fuel a m p <> None.
Proof.
  intros Hp (Hw & He & Ha) Hc. unfold fparam_init. cbn [app] in Hw.
  destruct (fskip_env ac fuel a m p) as [[x|]|] eqn:E; [|discriminate|].
  - assert (Hw' : words_at a m (p + Z.of_nat (length env + 1) * wsz a) (pairs aux ++ [0])).
    { change (env ++ 0 :: pairs aux ++ [0]) with (env ++ [0] ++ pairs aux ++ [0]) in Hw. rewrite app_assoc in Hw.
      apply words_tail in Hw. rewrite app_length in Hw. exact Hw. }
    apply fskip_val in E.
    assert (X : x = (p + Z.of_nat (length env + 1) * wsz a) mod modulus (wsz a)).
    { pose proof (skip_env_mono a m fuel (fuel + S (length env)) _ _ ltac:(lia) E) as E'.
      rewrite <- (Z.mod_small p (modulus (wsz a))) in E' by lia.
      rewrite (skip_env_spec a m env _ p (pairs aux ++ [0])) in E' by (auto; lia).
      injection E' as <-. replace (length env + 1)%nat with (S (length env)) by lia. reflexivity. }
    subst x. apply (auxl_ok ac a m aux fuel _ []); auto. apply can_words_add in Hc. exact Hc.
  - exfalso. revert E. rewrite <- (Z.mod_small p (modulus (wsz a))) by lia.
    apply (fskip_ok ac a m env fuel p (pairs aux ++ [0]) (2 * (length aux + 1))); auto.
Qed.

Lemma cstr_ok ac m : forall fuel p n, 0 <= n -> m (p + n) = 0 -> can (ac_r ac) p (n + 1) -> fcstr_end ac fuel m p <> None.
Proof.
  induction fuel as [|fuel IH]; intros p n Hn H0 Hc; [discriminate|]. cbn [fcstr_end].
  rewrite (Hc p ltac:(lia)). destruct (Z.eqb_spec (m p) 0) as [E|N]; [discriminate|].
  destruct (Z.eq_dec n 0) as [->|N0]; [rewrite Z.add_0_r in H0; contradiction|].
  apply (IH (p + 1) (n - 1)); [lia|replace (p + 1 + (n - 1)) with (p + n) by lia; exact H0|].
  intros x Hx. apply Hc. lia.
Qed.

Lemma phdr_reads ac a p : can (ac_r ac) p (sizeof_phdr a) ->
  may_read ac p 4 = true /\ may_read ac (p + o_p_vaddr a) (word a) = true /\ may_read ac (p + o_p_memsz a) (word a) = true /\
  may_read ac (p + o_p_filesz a) (word a) = true /\ may_read ac (p + o_p_align a) (word a) = true.
Proof.
  intros H. split; [apply can_read; eapply can_sub; [exact H|lia|]; destruct a; cbn; lia|].
  repeat split; apply can_word; (eapply can_sub; [exact H| |]; destruct a; cbn; lia).
Qed.

Lemma info_ok ac a m first ent dynv : forall n fuel p s,
  0 <= p -> 0 < ent -> p + Z.of_nat n * ent < modulus (wsz a) ->
  (forall i, (i < n)%nat -> can (ac_r ac) (p + Z.of_nat i * ent) (sizeof_phdr a)) ->
  fscan_info ac fuel a m first ent dynv p (p + Z.of_nat n * ent) s <> None /\
  forall s', fscan_info ac fuel a m first ent dynv p (p + Z.of_nat n * ent) s = Some (Some s') ->
    ph_tls s' = ph_tls s \/ can (ac_r ac) (ph_tls s') (sizeof_phdr a).
Proof.
  induction n as [|n IH]; intros fuel p s Hp He HM Hl; (destruct fuel as [|fuel]; [split; [discriminate|discriminate]|]).
  - cbn. rewrite Z.add_0_r, Z.eqb_refl. split; [discriminate|]. intros s' E. injection E as <-. now left.
  - pose proof (Hl 0%nat ltac:(lia)) as H0. rewrite Z.mul_0_l, Z.add_0_r in H0.
    destruct (phdr_reads ac a p H0) as (Q1 & Q2 & Q3 & _).
    cbn [fscan_info]. rewrite (proj2 (Z.eqb_neq _ _)) by lia. rewrite Q1, Q2, Q3. cbv zeta.
    assert (Ep : padd a p ent = p + ent) by (unfold padd, wrapping_add; apply Z.mod_small; lia).
    rewrite Ep. replace (p + Z.of_nat (S n) * ent) with (p + ent + Z.of_nat n * ent) in * by lia.
    assert (Hl' : forall i, (i < n)%nat -> can (ac_r ac) (p + ent + Z.of_nat i * ent) (sizeof_phdr a)).
    { intros i Hi. specialize (Hl (S i) ltac:(lia)). replace (p + ent + Z.of_nat i * ent) with (p + Z.of_nat (S i) * ent) by lia. exact Hl. }
    assert (IH' := fun s => IH fuel (p + ent) s ltac:(lia) He HM Hl').
    destruct (_ =? PT_PHDR); [apply (IH' (PS _ _ _))|]. destruct (_ =? PT_DYNAMIC); [apply (IH' (PS _ _ _))|].
    destruct (_ =? PT_TLS).
    { destruct (IH' (PS p (ph_stack s) (ph_off s))) as [I1 I2]. split; [exact I1|].
      intros s' E. destruct (I2 s' E) as [X|X]; [|now right]. right. rewrite X. exact H0. }
    destruct (_ =? PT_GNU_STACK); [apply (IH' (PS _ _ _))|apply IH'].
Qed.

Lemma startup_ok ac fuel ck a m aux hs dynv :
  headers a m aux hs -> headers_readable ac a aux (length hs) ->
  finitialize_startup_info ac fuel ck a aux dynv m <> None.
Proof.
  intros (Hn & H0 & He & HM & _) Hr. unfold finitialize_startup_info, exe_phdrs. rewrite Hn.
  rewrite (proj2 (Z.leb_gt _ _)) by nia. rewrite andb_false_r. cbv zeta.
  rewrite (Z.mod_small (_ * _)) by nia.
  unfold padd, wrapping_add. rewrite (Z.mod_small (_ + _)) by nia.
  destruct (info_ok ac a m (value_of AT_PHDR aux) (value_of AT_PHENT aux) dynv (length hs) fuel (value_of AT_PHDR aux) (PS 0 0 0) ltac:(lia) He HM Hr) as [I1 I2].
  destruct (fscan_info _ _ _ _ _ _ _ _ _ _) as [[s|]|]; [|discriminate|congruence].
  unfold fstartup_values. destruct (Z.eqb_spec (ph_tls s) 0) as [E|N]; [discriminate|].
  destruct (I2 s eq_refl) as [X|X]; [cbn in X; contradiction|].
  destruct (phdr_reads ac a _ X) as (_ & Q2 & Q3 & Q4 & Q5). rewrite Q2, Q3, Q4, Q5. discriminate.
Qed.

Lemma tls_ok ac a td tls m d md cn sl ss g ms :
  0 <= tls_filesz tls ->
  can (ac_w ac) md (meta_size a td) -> can (ac_r ac) (tls_addr tls) (tls_filesz tls) ->
  can (ac_w ac) d (Z.max (tls_filesz tls) (tls_memsz tls)) ->
  finitialize_tls ac a td tls m d md cn sl ss g ms <> None.
Proof.
  intros F H1 H2 H3. unfold finitialize_tls. rewrite (can_writes _ _ _ H1), (can_reads _ _ _ H2).
  rewrite (can_writes ac d) by (eapply can_sub; [exact H3|lia|lia]). cbn [andb].
  destruct (Z.leb_spec (tls_filesz tls) (tls_memsz tls)); [|discriminate].
  rewrite can_writes by (eapply can_sub; [exact H3|lia|lia]). discriminate.
Qed.

Lemma tid_in a td : wf_td a td -> forall md, md <= thread_at a td md + o_tid td /\ thread_at a td md + o_tid td + 4 <= md + meta_size a td.
Proof.
  intros Htd md. pose proof (thread_in a td Htd md 0 0 0 0) as TI.
  apply Forall_cons_iff in TI. destruct TI as [TI _]. unfold f_addr, f_len in TI. cbn [fst snd] in TI.
  pose proof (parts_in a td Htd md) as PI. lia.
Qed.

Lemma init_tls_tid a td tls m d md cn sl ss g ms m1 nt tp :
  initialize_tls a td tls m d md cn sl ss g ms = Some (m1, nt, tp) -> tp = thread_at a td md + o_tid td.
Proof. unfold initialize_tls. destruct (_ <=? _); congruence. Qed.

Lemma main_no_fault ac ck a td tls page m sp e rl rnd ans tid :
  wf_env a td tls page -> checked_or_fits ck a td tls page 0 0 ->
  can (ac_r ac) (tls_addr tls) (tls_filesz tls) -> can (ac_r ac) rnd 16 ->
  finitialize_main ac ck a td tls page m sp e rl rnd ans tid <> None.
Proof.
  intros Hwf Hck Ht Hr. pose proof (wf_env_td _ _ _ _ Hwf) as Htd.
  pose proof (wf_tls_file _ _ (wf_env_tls _ _ _ _ Hwf)) as F.
  unfold finitialize_main. destruct (round_up _ _ _ _) as [sb|]; [|discriminate]. destruct rl as [lim|]; [|discriminate].
  cbv zeta. rewrite (can_word ac a rnd) by (eapply can_sub; [exact Hr|lia|destruct a; cbn; lia]).
  destruct (calculate_tls_size ck a td tls page 0) as [[[n tb] h]|] eqn:E3; [|discriminate].
  destruct ans as [new|]; [|discriminate]. destruct (ck && _); [discriminate|].
  assert (EI : ideal_tls a td tls 0 = (n, tb, h)).
  { destruct Hck as [-> | Hfit].
    - apply (calc_ck a td tls page Hwf) in E3; [congruence|lia].
    - rewrite (calc_fits a td tls page Hwf) in E3; [congruence|lia|unfold fits in Hfit].
      pose proof (al_facts a td tls page Hwf) as (_ & _ & P & _). lia. }
  pose proof (ideal_tls_good a td tls page Hwf _ _ _ EI) as (G1 & G2 & G3 & G4 & G5 & G6).
  match goal with |- match ?x with _ => _ end <> None => assert (N : x <> None) end.
  { apply tls_ok; [lia|apply grant_can_w; lia|apply grant_can_r; exact Ht|apply grant_can_w; lia]. }
  match goal with |- context [finitialize_tls ?A ?b ?c ?d ?e ?f ?g ?h ?i ?j ?k ?l] =>
    destruct (tls_below_ok A b c d e f g h i j k l) as [E|E]; [congruence|]; rewrite E in * end.
  destruct (initialize_tls _ _ _ _ _ _ _ _ _ _ _) as [[[m1 nt] tp]|] eqn:ET; [|discriminate].
  rewrite (init_tls_tid _ _ _ _ _ _ _ _ _ _ _ _ _ _ ET) in *.
  pose proof (tid_in a td Htd (new + h)) as TI.
  rewrite can_writes by (apply grant_can_w; lia). discriminate.
Qed.

Lemma loop_ok ac a w args k : (forall m, snd (k m) <> None) -> forall n fuel i p m,
  Z.of_nat n * wsz a < modulus (wsz a) -> can_words a (ac_r ac) p n ->
  snd (finit_loop ac fuel a w args i (p mod modulus (wsz a)) ((p + Z.of_nat n * wsz a) mod modulus (wsz a)) m k) <> None.
Proof.
  intros K. induction n as [|n IH]; intros fuel i p m HM Hc; (destruct fuel as [|fuel]; [discriminate|]); cbn [finit_loop].
  - rewrite Z.mul_0_l, Z.add_0_r, Z.eqb_refl. apply K.
  - rewrite ptr_neq by (pose proof (wsz_cases a); lia). destruct args as [[argc argv] envp].
    apply can_words_S in Hc. destruct Hc as [Hc1 Hc2]. rewrite (can_word ac a _ Hc1). cbv zeta. cbn [femit snd].
    destruct (w_init _ _ _ _ _ _ _) as [m'|]; [|discriminate]. rewrite padd_mod.
    replace (p + Z.of_nat (S n) * wsz a) with (p + wsz a + Z.of_nat n * wsz a) by lia.
    apply IH; [pose proof (wsz_cases a); lia|exact Hc2].
Qed.
