(** Property C60: a whole process start, from the first instruction of `_start`
    (AsmModel.v) through `entry` (StartModel.v) to the user's functions.
    AsmModel and StartModel both define [run]; the former is written
    qualified. *)
From Verif Require Import Machine MachineFacts LayoutModel LayoutSpec RelocModel RelocSpec RelocFacts.
From Verif Require AsmModel AsmSpec Props_Asm.
From Verif Require Import StartModel StartSpec StartProofs StartTop Props_Start Props_Boot.

(** The process as execve leaves it: stack pointer, registers, and argc, argv,
    envp and auxv at the stack pointer, in memory that does not wrap around. *)
Record fresh_process (a : arch) (s : AsmModel.cpu) (args env : list Z) (aux : list (Z * Z)) : Prop := {
  fp_regs : AsmSpec.wf_cpu a s;
  fp_aligned : (16 | AsmSpec.stack_pointer a s);
  fp_zeroed : AsmSpec.frame_pointer a s = 0;
  fp_low : 20 <= AsmSpec.stack_pointer a s;
  fp_stack : kernel_stack a (AsmModel.cmem s) (AsmSpec.stack_pointer a s) args env aux;
  fp_fits : AsmSpec.stack_pointer a s + (Z.of_nat (length args + length env + 2 * length aux) + 4) * wsz a <= modulus (wsz a) }.

Lemma pairs_len l : length (pairs l) = (2 * length l)%nat.
Proof. unfold pairs. induction l; cbn [flat_map app length]; lia. Qed.

Lemma kernel_stack_kept a m m' sp args env aux :
  kernel_stack a m sp args env aux ->
  sp + (Z.of_nat (length args + length env + 2 * length aux) + 4) * wsz a <= modulus (wsz a) ->
  AsmSpec.same_on (fun x => sp <= x) m m' -> kernel_stack a m' sp args env aux.
Proof.
  intros (H1 & H2 & H3 & H4 & H5) Hf Hs. split; [|auto].
  intros i x Hi. rewrite <- (H1 i x Hi).
  assert (Li : (i < length ([Z.of_nat (length args)] ++ args ++ [0%Z] ++ env ++ [0%Z] ++ pairs aux ++ [0%Z]))%nat)
    by (apply nth_error_Some; congruence).
  rewrite !app_length, pairs_len in Li. cbn [length] in Li.
  assert (W : 0 < wsz a) by (destruct a; cbn; lia).
  assert (B : sp + Z.of_nat i * wsz a + wsz a <= modulus (wsz a)) by nia.
  rewrite Z.mod_small by nia. apply load_le_ext. intros j Hj. apply Hs. nia.
Qed.

(** C60.  For every target, build, argument list, environment and auxv: the
    process runs `_start` without any system call and without touching what the
    kernel put at or above the stack pointer, and enters origin with the
    original stack pointer as its argument, a null return address and an
    ABI-aligned stack; from there, for any number of steps, what happens is the
    startup sequence in order, and every user function gets the argc, argv and
    envp the kernel laid out. *)
Theorem C60_process_start c l w s args env aux ks :
  let a := f_arch c in
  let sp := AsmSpec.stack_pointer a s in
  fresh_process a s args env aux ->
  exists t s', AsmModel.run a (AsmModel.start_asm a) s ks = (t, AsmModel.Entered s') /\
    AsmSpec.syscalls t = [] /\
    AsmSpec.return_address a s' = 0 /\ AsmSpec.abi_aligned a s' /\ AsmSpec.runs_on a sp s' /\
    AsmSpec.same_on (fun x => sp <= x) (AsmModel.cmem s) (AsmModel.cmem s') /\
    forall fuel, let r := entry fuel c l w (AsmSpec.c_arg a s' 0) (AsmModel.cmem s') in
      (exists fns, order_ok c sp (Z.of_nat (length args)) (argv_of a sp) (envp_of a sp args) fns r) /\
      forall e argc argv envp, In e (fst r) -> carries e argc argv envp ->
        argc = Z.of_nat (length args) /\ argv = sp + wsz a /\ envp = sp + (Z.of_nat (length args) + 2) * wsz a /\
        words_at a (AsmModel.cmem s) argv (args ++ [0]) /\ stack_at a (AsmModel.cmem s) envp env aux.
Proof.
  intros a sp HF.
  destruct (Props_Asm.C42_start a s ks (fp_regs _ _ _ _ _ HF)) as (t & s' & H1 & H2 & H3 & H4 & _ & H6 & H65 & H7 & _).
  - eapply Z.divide_trans; [|exact (fp_aligned _ _ _ _ _ HF)]. destruct a; cbn; try apply Z.divide_refl. exists 2. reflexivity.
  - intros _. exact (fp_zeroed _ _ _ _ _ HF).
  - exact (fp_low _ _ _ _ _ HF).
  - exists t, s'. repeat (split; [assumption|]). fold sp in H3, H65, H7.
    pose proof (fp_stack _ _ _ _ _ HF) as HK. fold sp in HK.
    pose proof (fp_fits _ _ _ _ _ HF) as HB. fold sp in HB.
    pose proof (kernel_stack_kept a _ _ sp args env aux HK HB H7) as HK'.
    intros fuel r. unfold r. rewrite H3. clear r. split.
    + destruct (C10_order fuel c l w sp (AsmModel.cmem s') args env aux HK') as (fns & HO & _). exists fns. exact HO.
    + intros e argc argv envp Hi Hc.
      destruct (C08_args fuel c l w sp (AsmModel.cmem s') args env aux e argc argv envp HK' Hi Hc) as (E1 & E2 & E3 & _).
      pose proof (fp_low _ _ _ _ _ HF) as HL. fold sp in HL.
      assert (W : 0 < wsz a) by (destruct a; cbn; lia).
      fold a in E2, E3. rewrite Z.mod_small in E2 by nia. rewrite Z.mod_small in E3 by nia.
      split; [exact E1|]. split; [exact E2|]. split; [exact E3|].
      pose proof (kernel_argv a _ sp args env aux HK) as K1. pose proof (kernel_tail a _ sp args env aux HK) as K2.
      unfold argv_of in K1. unfold envp_of in K2. rewrite Z.mod_small in K1 by nia. rewrite Z.mod_small in K2 by nia.
      rewrite E2, E3. split; [exact K1|].
      replace (sp + (Z.of_nat (length args) + 2) * wsz a) with (sp + wsz a + (Z.of_nat (length args) + 1) * wsz a) by lia. exact K2.
Qed.
Print Assumptions C60_process_start.

(** Going on from there to C59: the memory user code first sees is that of
    [execve] after `_start`'s few stack words, relocation and the main thread's
    setup.  (What `_start` pushed lies below the initial stack pointer.) *)
Theorem C60_user_sees c l w s args env aux fns hs base fuel ks m1 t s' :
  let a := f_arch c in
  let sp := AsmSpec.stack_pointer a s in
  let envp := envp_of a sp args in
  fresh_process a s args env aux ->
  AsmModel.run a (AsmModel.start_asm a) s ks = (t, AsmModel.Entered s') ->
  relocated c l w envp (AsmModel.cmem s') m1 -> stack_at a m1 envp env aux ->
  array_ok c l m1 fns -> inits_keep a l w (length fns) ->
  f_thread c = true -> thread_area_ok c l w sp aux m1 (length fns) ->
  headers a m1 aux hs -> loaded_at a base (value_of AT_PHDR aux) (l_dynv l) hs ->
  let r := entry fuel c l w (AsmSpec.c_arg a s' 0) (AsmModel.cmem s') in
  snd r <> More -> Exists is_user (fst r) ->
  exists tls m2 es, template_is a base hs tls /\ ready a (l_td l) w aux tls m1 m2 /\
    user_runs w (Z.of_nat (length args)) (sp + wsz a) (sp + (Z.of_nat (length args) + 2) * wsz a) 0 fns m2 es (snd r).
Proof.
  intros a sp envp HF Hrun H1 H2 H3 H4 H5 H6 H7 H8.
  pose proof (fp_low _ _ _ _ _ HF) as HL. fold sp in HL.
  pose proof (fp_fits _ _ _ _ _ HF) as HB. fold sp in HB.
  assert (W : 0 < wsz a) by (destruct a; cbn; lia).
  destruct (Props_Asm.C42_start a s ks (fp_regs _ _ _ _ _ HF)) as (t0 & s0 & R1 & _ & R3 & _ & _ & _ & _ & R7 & _).
  { eapply Z.divide_trans; [|exact (fp_aligned _ _ _ _ _ HF)]. destruct a; cbn; try apply Z.divide_refl. exists 2. reflexivity. }
  { intros _. exact (fp_zeroed _ _ _ _ _ HF). }
  { exact (fp_low _ _ _ _ _ HF). }
  rewrite Hrun in R1. injection R1 as <- <-. fold sp in R3, R7. rewrite R3.
  pose proof (kernel_stack_kept a _ _ sp args env aux (fp_stack _ _ _ _ _ HF) HB R7) as HK.
  cbv zeta. intros HM HU.
  destruct (C59_user_sees fuel c l w sp (AsmModel.cmem s') m1 args env aux fns hs base HK H1 H2 H3 H4 H5 H6 H7 H8 HM HU)
    as (tls & m2 & es & E1 & E2 & _ & E4).
  exists tls, m2, es. split; [exact E1|]. split; [exact E2|].
  fold a in E4. unfold argv_of, envp_of in E4. rewrite !Z.mod_small in E4 by nia.
  replace (sp + (Z.of_nat (length args) + 2) * wsz a) with (sp + wsz a + (Z.of_nat (length args) + 1) * wsz a) by lia. exact E4.
Qed.
Print Assumptions C60_user_sees.

(** The program of C11_ex as execve leaves it. *)
Definition ex2_s : AsmModel.cpu := AsmModel.Cpu (fun r => if Nat.eqb r 4 then 0x7f000 else 0) false ex2_m.
Theorem C60_ex : fresh_process X86_64 ex2_s [0x6000] [0x6100] ex2_aux.
Proof.
  constructor.
  - intros r. unfold AsmSpec.word_ok. change (modulus (wsz X86_64)) with 18446744073709551616. cbn [AsmModel.regs ex2_s]. destruct (Nat.eqb r 4); lia.
  - exists 0x7f00. reflexivity.
  - reflexivity.
  - vm_compute. discriminate.
  - exact ex2_kernel.
  - vm_compute. discriminate.
Qed.
(** ... and, through `_start`, its run. *)
Theorem C60_run_ex : exists t s', AsmModel.run X86_64 (AsmModel.start_asm X86_64) ex2_s [] = (t, AsmModel.Entered s') /\
  entry 80 ex2_cfg ex2_link ex3_world (AsmSpec.c_arg X86_64 s' 0) (AsmModel.cmem s') =
    ([ParamInit 0x7f018; StartupInfo (Tls 0x402000 24 8 8) 0x100000; MainThread 0x7f000;
      InitFn 0x401000 1 0x7f008 0x7f018; OriginMain 1 0x7f008 0x7f018; Exit 0x55667788], Exited 0x55667788).
Proof.
  destruct (AsmModel.run X86_64 (AsmModel.start_asm X86_64) ex2_s []) as [t o] eqn:E.
  destruct (Props_Asm.C42_start X86_64 ex2_s [] (fp_regs _ _ _ _ _ C60_ex)) as (t0 & s0 & R1 & _).
  { exists 0x7f00. reflexivity. } { reflexivity. } { vm_compute. discriminate. }
  rewrite R1 in E. injection E as -> <-. exists t, s0. split; [reflexivity|].
  assert (E : match snd (AsmModel.run X86_64 (AsmModel.start_asm X86_64) ex2_s []) with
    | AsmModel.Entered s' => entry 80 ex2_cfg ex2_link ex3_world (AsmSpec.c_arg X86_64 s' 0) (AsmModel.cmem s')
    | _ => ([], More) end = ([ParamInit 0x7f018; StartupInfo (Tls 0x402000 24 8 8) 0x100000; MainThread 0x7f000;
      InitFn 0x401000 1 0x7f008 0x7f018; OriginMain 1 0x7f008 0x7f018; Exit 0x55667788], Exited 0x55667788)) by (vm_compute; reflexivity).
  rewrite R1 in E. exact E.
Qed.
