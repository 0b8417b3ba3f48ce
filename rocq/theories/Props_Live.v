(** C67: the life cycle of threads starts where process startup ends.  The state
    in which the first user function is called (C59, C60: kernel stack,
    `_start`, relocation, main thread setup) is one from which C56 and C62 start:
    everything they say holds of the process from its first user instruction. *)
From Verif Require Import Machine MachineFacts LayoutModel LayoutSpec LayoutFacts LayoutTop2 LayoutTop4 LayoutTop5 Props_Layout.
From Verif Require Import RelocModel RelocSpec StartModel StartSpec Props_Start Props_Boot Props_Boot2.
From Verif Require StartProofs AsmModel AsmSpec Props_Asm ThreadModel ThreadSpec ThreadPhase ByteModel ByteSpec BytePhase Props_Byte Props_BytePhase.
Local Open Scope Z_scope.

(** The environment of the life cycle in a process built as [c], linked as [l],
    started with the auxiliary vector [aux] and TLS template [t]; signals and
    the kernel's reuse of addresses are arbitrary. *)
Definition env_of (c : cfg) (l : link) (aux : list (Z * Z)) (t : tls_info) (sig handlers reuse : bool) : ByteModel.benv :=
  ByteModel.BEnv (f_debug c) (f_arch c) (l_td l) t
    (ThreadModel.Cfg (value_of AT_PAGESZ aux) sig handlers (f_debug c) reuse).

Lemma starts_here c l w aux t m1 sp e R sig handlers reuse :
  successful_main (f_debug c) (f_arch c) (l_td l) t (value_of AT_PAGESZ aux) m1 sp e
      (w_rlimit w) (value_of AT_RANDOM aux) (w_mmap w) (w_tid w) R ->
  0 < w_tid w < 2 ^ 31 ->
  exists b, ByteModel.bstarts (env_of c l aux t sig handlers reuse) b /\ ByteModel.bmem b = mr_mem R /\
    ByteModel.bn b = 1%nat /\ ThreadModel.t_tid (ByteModel.bT b 0%nat) = w_tid w /\
    ThreadModel.t_pc (ByteModel.bT b 0%nat) = ThreadModel.Run.
Proof.
  intros SM Ht. destruct (main_placed _ _ _ _ _ _ _ _ _ _ _ _ _ SM) as (new & len & tb & h & EL & _).
  eexists. split.
  - exists m1, sp, e, (w_rlimit w), (value_of AT_RANDOM aux), (w_mmap w), (w_tid w), R, len, new.
    split; [exact SM|]. split; [exact Ht|]. split; [rewrite EL; left; reflexivity|reflexivity].
  - cbn. auto.
Qed.

(** From the kernel's first instruction. *)
Theorem C67_process_lives : forall c l w s args env aux fns hs base fuel ks m1 t s' sig handlers reuse,
  let a := f_arch c in
  let sp := AsmSpec.stack_pointer a s in
  let envp := envp_of a sp args in
  fresh_process a s args env aux ->
  AsmModel.run a (AsmModel.start_asm a) s ks = (t, AsmModel.Entered s') ->
  relocated c l w envp (AsmModel.cmem s') m1 -> stack_at a m1 envp env aux ->
  array_ok c l m1 fns -> inits_keep a l w (length fns) ->
  f_thread c = true -> thread_area_ok c l w sp aux m1 (length fns) ->
  headers a m1 aux hs -> loaded_at a base (value_of AT_PHDR aux) (l_dynv l) hs ->
  0 < w_tid w < 2 ^ 31 ->
  let r := entry fuel c l w (AsmSpec.c_arg a s' 0) (AsmModel.cmem s') in
  snd r <> More -> Exists is_user (fst r) ->
  exists tls b es, template_is a base hs tls /\
    (* the first user function is called on the memory of b ... *)
    ready a (l_td l) w aux tls m1 (ByteModel.bmem b) /\
    user_runs w (Z.of_nat (length args)) (sp + wsz a) (sp + (Z.of_nat (length args) + 2) * wsz a) 0 fns (ByteModel.bmem b) es (snd r) /\
    (* ... which starts the life cycle, with the process's first thread alone *)
    Props_BytePhase.any_env (env_of c l aux tls sig handlers reuse) /\
    ByteModel.bstarts (env_of c l aux tls sig handlers reuse) b /\
    ByteModel.bn b = 1%nat /\ ThreadModel.t_tid (ByteModel.bT b 0%nat) = w_tid w.
Proof.
  intros c l w s args env aux fns hs base fuel ks m1 t s' sig handlers reuse a sp envp HF Hrun H1 H2 H3 H4 H5 H6 H7 H8 Htid.
  pose proof (fp_low _ _ _ _ _ HF) as HL. fold sp in HL.
  pose proof (fp_fits _ _ _ _ _ HF) as HB. fold sp in HB.
  assert (W : 0 < wsz a) by (destruct a; cbn; lia).
  destruct (Props_Asm.C42_start a s ks (fp_regs _ _ _ _ _ HF)) as (t0 & s0 & R1 & _ & R3 & _ & _ & _ & _ & R7 & _).
  { eapply Z.divide_trans; [|exact (fp_aligned _ _ _ _ _ HF)]. destruct a; cbn; try apply Z.divide_refl. exists 2. reflexivity. }
  { intros _. exact (fp_zeroed _ _ _ _ _ HF). }
  { exact (fp_low _ _ _ _ _ HF). }
  rewrite Hrun in R1. injection R1 as <- <-. fold sp in R3, R7. rewrite R3.
  pose proof (kernel_stack_kept a _ _ sp args env aux (fp_stack _ _ _ _ _ HF) HB R7) as HK.
  cbv zeta. intros HM HU.
  destruct (boot_core fuel c l w sp (AsmModel.cmem s') m1 args env aux fns hs base HK H1 H2 H3 H4 H5 H6 H7 H8 HM HU)
    as (tls & R & e & es & E1 & SM & E2 & _ & E4).
  destruct (starts_here c l w aux tls m1 sp e R sig handlers reuse SM Htid) as (b & B1 & B2 & B3 & B4 & _).
  exists tls, b, es. rewrite B2. split; [exact E1|]. split; [exact E2|]. split; [|split; [exact (sm_env _ _ _ _ _ _ _ _ _ _ _ _ _ SM)|auto]].
  fold a in E4. unfold argv_of, envp_of in E4. rewrite !Z.mod_small in E4 by nia.
  replace (sp + (Z.of_nat (length args) + 2) * wsz a) with (sp + wsz a + (Z.of_nat (length args) + 1) * wsz a) by lia. exact E4.
Qed.
Print Assumptions C67_process_lives.

(** ... and on from there: whatever the threads do next, C56's facts hold, on
    any kernel, as long as no thread is created after memory was reclaimed. *)
Lemma bexec_bn e b tr b2 : ByteModel.bexec e b tr b2 -> (ByteModel.bn b <= ByteModel.bn b2)%nat.
Proof.
  induction 1 as [|b tr b1 acc l b2 _ IH St]; [lia|]. destruct St; cbn in *; lia.
Qed.

Theorem C67_memory_safe : forall c l w s args env aux fns hs base fuel ks m1 t s' sig handlers reuse,
  let a := f_arch c in
  let sp := AsmSpec.stack_pointer a s in
  let envp := envp_of a sp args in
  fresh_process a s args env aux ->
  AsmModel.run a (AsmModel.start_asm a) s ks = (t, AsmModel.Entered s') ->
  relocated c l w envp (AsmModel.cmem s') m1 -> stack_at a m1 envp env aux ->
  array_ok c l m1 fns -> inits_keep a l w (length fns) ->
  f_thread c = true -> thread_area_ok c l w sp aux m1 (length fns) ->
  headers a m1 aux hs -> loaded_at a base (value_of AT_PHDR aux) (l_dynv l) hs ->
  0 < w_tid w < 2 ^ 31 ->
  let r := entry fuel c l w (AsmSpec.c_arg a s' 0) (AsmModel.cmem s') in
  snd r <> More -> Exists is_user (fst r) ->
  exists tls b, template_is a base hs tls /\ ready a (l_td l) w aux tls m1 (ByteModel.bmem b) /\
    forall tr b2, ByteModel.bexec (env_of c l aux tls sig handlers reuse) b tr b2 -> ThreadPhase.creates_first tr ->
      (* no access to memory that is not mapped *)
      (forall acc ev b3 x, ByteModel.bstep (env_of c l aux tls sig handlers reuse) b2 acc ev b3 ->
         ThreadPhase.creates_first (tr ++ ByteModel.olist ev) -> In x acc -> ByteSpec.in_mapping b2 x) /\
      (* the first thread's memory is never unmapped, nor anybody's that nobody joined or detached *)
      ByteSpec.bmapped b2 0%nat /\
      (forall j, (j < ByteModel.bn b2)%nat -> ~ ThreadSpec.join_called tr j -> ~ ThreadSpec.detach_called tr j -> ByteSpec.bmapped b2 j) /\
      (* every thread that is there finds itself *)
      (forall j, ByteSpec.bmapped b2 j ->
         current a (l_td l) (ByteModel.bmem b2) (ByteModel.i_tp (ByteModel.bI b2 j)) = ByteModel.i_t (ByteModel.bI b2 j)) /\
      (* join returns what the thread's function returned *)
      (forall tr0 i acc j rv, tr = tr0 ++ [(i, acc, ThreadModel.EJoin j rv)] ->
         forall v, ThreadSpec.did tr0 j (ThreadModel.EReturn v) <-> v = rv).
Proof.
  intros c l w s args env aux fns hs base fuel ks m1 t s' sig handlers reuse a sp envp HF Hrun H1 H2 H3 H4 H5 H6 H7 H8 Htid r HM HU.
  destruct (C67_process_lives c l w s args env aux fns hs base fuel ks m1 t s' sig handlers reuse HF Hrun H1 H2 H3 H4 H5 H6 H7 H8 Htid HM HU)
    as (tls & b & es & E1 & E2 & _ & E4 & E5 & E6 & _).
  exists tls, b. split; [exact E1|]. split; [exact E2|]. intros tr b2 Ex Cf.
  assert (Rn : ByteModel.brun (env_of c l aux tls sig handlers reuse) tr b2) by (exists b; auto).
  destruct (Props_BytePhase.C56_any_kernel _ _ _ E4 Rn Cf) as (A & (js & _ & _ & B & B0) & C & _ & _ & D).
  split; [exact A|]. split; [|split; [exact D|split]].
  - destruct (ByteModel.i_mapd (ByteModel.bI b2 0%nat)) eqn:Em.
    + split; [|exact Em]. pose proof (bexec_bn _ _ _ _ Ex). lia.
    + exfalso. apply B0, B. split; [pose proof (bexec_bn _ _ _ _ Ex); lia|]. intros [_ X]. congruence.
  - intros j M. exact (proj1 (C j M)).
  - intros tr0 i acc j rv ->. apply (Props_BytePhase.C56_join_any_kernel _ tr0 i acc j rv b2 E4 Rn).
    eapply ThreadPhase.creates_first_app; eauto.
Qed.
Print Assumptions C67_memory_safe.

(** ** The hypotheses are met *)
(** The program of C11_ex from [execve] on: `_start` writes only below the
    initial stack pointer, where neither the program nor its stack is. *)
Section Example.
  Variable m : mem.
  Hypothesis Hm : AsmSpec.same_on (fun x => 0x7f000 <= x) ex2_m m.
  Lemma ex_load p n : 0x7f000 <= p -> load_le m p n = load_le ex2_m p n.
  Proof. intros H. apply load_le_ext. intros i Hi. apply Hm. lia. Qed.
  Lemma ex_kernel : kernel_stack X86_64 m 0x7f000 [0x6000] [0x6100] ex2_aux.
  Proof. eapply kernel_stack_kept; [exact ex2_kernel|vm_compute; discriminate|exact Hm]. Qed.
  Lemma ex_array : array_ok ex2_cfg ex2_link m [0x401000].
  Proof.
    destruct C10_complete_ex as (_ & _ & H & _). destruct H as (A & B & C & D).
    split; [exact A|]. split; [exact B|]. split; [exact C|].
    intros i x Hi. rewrite <- (D i x Hi). apply ex_load. destruct i as [|[|i]]; [vm_compute; discriminate|discriminate|discriminate].
  Qed.
  Lemma ex_headers : headers X86_64 m ex2_aux ex2_hs.
  Proof.
    destruct C11_ex as (H & _). destruct H as (A & B & C & D & E).
    split; [exact A|]. split; [exact B|]. split; [exact C|]. split; [exact D|].
    intros i h Hi. specialize (E i h Hi). unfold phdr_in in *.
    assert (G : 0x400040 <= value_of AT_PHDR ex2_aux + Z.of_nat i * value_of AT_PHENT ex2_aux).
    { change (value_of AT_PHDR ex2_aux) with 0x400040. change (value_of AT_PHENT ex2_aux) with 56. lia. }
    generalize dependent (value_of AT_PHDR ex2_aux + Z.of_nat i * value_of AT_PHENT ex2_aux). intros p E G.
    rewrite !ex_load; [exact E|..]; cbn; lia.
  Qed.
  Lemma ex_area : thread_area_ok ex2_cfg ex2_link ex3_world 0x7f000 ex2_aux m 1.
  Proof.
    intros t st n e R HI HE.
    destruct C11_ex as (_ & HL & _). pose proof ex_headers as HH.
    destruct (C11_startup_info true X86_64 m ex2_aux ex2_hs 0 0x400000 HH HL) as (N & t' & HN).
    destruct (HN (N + n)%nat ltac:(lia)) as (E3 & HT).
    assert (ET : t = Tls 0x402000 24 8 8).
    { cbn [f_debug f_arch ex2_cfg l_dynv ex2_link] in HI.
      destruct (StartProofs.startup_info_mono true X86_64 ex2_aux 0 m n (N + n) ltac:(lia)) as [E|E]; [congruence|].
      rewrite HI, E3 in E. injection E as -> _. exact HT. }
    subst t. clear HI HN E3 HT HH HL.
    change (value_of AT_PAGESZ ex2_aux) with 4096 in *.
    cbn [f_debug f_arch ex2_cfg l_td ex2_link w_rlimit w_mmap w_tid ex3_world] in *.
    assert (WE : wf_env X86_64 td8 (Tls 0x402000 24 8 8) 4096).
    { pose proof env_ex as [W1 W2 W3]. constructor; auto. constructor; cbn; [exists 3; split; [lia|reflexivity]|lia|lia]. }
    assert (EL : mr_log R = [SMmapRW 120 (Some 0x700000)]).
    { unfold initialize_main in HE.
      destruct (round_up true X86_64 e 4096) as [sb|]; [|discriminate]. cbn [bind] in HE.
      change (calculate_tls_size true X86_64 td8 (Tls 0x402000 24 8 8) 4096 0) with (Some (120, 0, 24)) in HE. cbn [bind] in HE.
      change (true && negb (0x700000 mod Z.max (tls_align (Tls 0x402000 24 8 8)) (meta_align X86_64 td8) =? 0)) with false in HE. cbn iota in HE.
      destruct (initialize_tls _ _ _ _ _ _ _ _ _ _ _) as [[[m0 a0] b0]|]; [|discriminate]. cbn [bind] in HE. injection HE as <-. reflexivity. }
    split.
    + constructor; [exact WE|left; reflexivity|exact HE| |]; rewrite EL.
      * intros len map [H|H]; cbn in H; repeat destruct H as [H|H]; try discriminate; try contradiction.
        inversion H; subst. repeat split; try lia. exists 0x700; lia. vm_compute. discriminate.
      * intros len map [H|H]; cbn in H; repeat destruct H as [H|H]; try discriminate; try contradiction.
        inversion H; subst. left. cbn. lia.
    + rewrite EL. intros len map [H|[]]. inversion H; subst. intros i Hi.
      right. destruct i as [|i]; [vm_compute; discriminate|lia].
  Qed.
End Example.

Theorem C67_ex : exists t s', AsmModel.run X86_64 (AsmModel.start_asm X86_64) ex2_s [] = (t, AsmModel.Entered s') /\
  fresh_process X86_64 ex2_s [0x6000] [0x6100] ex2_aux /\
  (let m1 := AsmModel.cmem s' in
   relocated ex2_cfg ex2_link ex3_world 0x7f018 (AsmModel.cmem s') m1 /\ stack_at X86_64 m1 0x7f018 [0x6100] ex2_aux /\
   array_ok ex2_cfg ex2_link m1 [0x401000] /\ inits_keep X86_64 ex2_link ex3_world 1 /\
   f_thread ex2_cfg = true /\ thread_area_ok ex2_cfg ex2_link ex3_world 0x7f000 ex2_aux m1 1 /\
   headers X86_64 m1 ex2_aux ex2_hs /\ loaded_at X86_64 0x400000 (value_of AT_PHDR ex2_aux) (l_dynv ex2_link) ex2_hs) /\
  0 < w_tid ex3_world < 2 ^ 31 /\
  snd (entry 80 ex2_cfg ex2_link ex3_world (AsmSpec.c_arg X86_64 s' 0) (AsmModel.cmem s')) = Exited 0x55667788 /\
  Exists is_user (fst (entry 80 ex2_cfg ex2_link ex3_world (AsmSpec.c_arg X86_64 s' 0) (AsmModel.cmem s'))).
Proof.
  destruct C60_run_ex as (t & s' & R & E). exists t, s'. split; [exact R|]. split; [exact C60_ex|].
  destruct (Props_Asm.C42_start X86_64 ex2_s [] (fp_regs _ _ _ _ _ C60_ex)) as (t0 & s0 & R1 & _ & _ & _ & _ & _ & _ & R7 & _).
  { exists 0x7f00. reflexivity. } { reflexivity. } { vm_compute. discriminate. }
  rewrite R in R1. injection R1 as <- <-. clear R.
  change (AsmSpec.stack_pointer X86_64 ex2_s) with 0x7f000 in R7. change (AsmModel.cmem ex2_s) with ex2_m in R7.
  rewrite E. cbn [fst snd]. clear E. generalize dependent (AsmModel.cmem s'). intros m Hm.
  cbv zeta. split; [|split; [cbn; lia|split; [reflexivity|repeat first [left; exact Logic.I | right]]]].
  split; [reflexivity|]. split; [exact (StartProofs.kernel_tail X86_64 m 0x7f000 [0x6000] [0x6100] ex2_aux (ex_kernel m Hm))|].
  split; [exact (ex_array m Hm)|]. split; [intros k f ac av ep m0 m' H; injection H as <-; intros i Hi; reflexivity|].
  split; [reflexivity|]. split; [exact (ex_area m Hm)|]. split; [exact (ex_headers m Hm)|].
  destruct C11_ex as (_ & H & _). exact H.
Qed.
Print Assumptions C67_ex.
