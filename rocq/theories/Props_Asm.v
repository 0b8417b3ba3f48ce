(** Property theorems C41-C43 and C49-C52: the assembly of src/arch.
    Vocabulary: [AsmSpec.v]; model: [AsmModel.v]. *)
From Verif Require Import Machine MachineFacts LayoutModel LayoutSpec LayoutProofs AsmModel AsmSpec AsmProofs AsmProofs2 LayoutFacts LayoutTop LayoutTop2 LayoutTop3 LayoutTop4 Props_Layout.

(** * C41 new-thread trampoline *)
Theorem C41_clone a p gs dp arr c m0 s :
  wf_cpu a s -> wf_clone a c -> 20 <= c_stack c -> 0 <= gs < 2 ^ 16 ->
  pickable a (p_fn p) = true -> pickable a (p_n p) = true ->
  (* riscv64 takes the call number from the whole register, see C41_riscv64_upper_half_refuted *)
  (a = Riscv64 -> regs s (r_nr a) < 2 ^ 32) ->
  caller_frame a (stack_pointer a s) dp arr (c_stack c) ->
  clone_operands a p gs dp arr c m0 s ->
  clone_ok a c gs s (run a (clone_asm a p) s).
Proof.
  intros Hw Hc Hs Hg Hf Hn Hr Hcf Ho. destruct a.
  - exact (clone_x86_64 p gs dp arr c m0 s Hw Hc Hs Ho).
  - exact (clone_x86 p gs dp arr c m0 s Hw Hc Hs Hg Hcf Ho).
  - exact (clone_aarch64 p gs dp arr c m0 s Hw Hc Hs Hr Hf Hn Ho).
  - exact (clone_arm p gs dp arr c m0 s Hw Hc Hs Hr Hf Hn Ho).
  - exact (clone_riscv64 p gs dp arr c m0 s Hw Hc Hs Hr Hf Hn Ho).
Qed.
Print Assumptions C41_clone.

(** The kernel reads the whole of a7 on riscv64, but the operand is a u32 whose
    upper half Rust leaves undefined: an allowed state asks for another system
    call. *)
Theorem C41_riscv64_upper_half_refuted : exists p c s, wf_cpu Riscv64 s /\ clone_operands Riscv64 p 0 0 0 c (fun _ => 0) s /\
  forall ks, exists nr args sc rest, fst (run Riscv64 (clone_asm Riscv64 p) s ks) = ESys nr args sc :: rest /\ nr <> linux_nr Riscv64 Sys_clone.
Proof.
  exists (Pick 5 6), (CA 0 0x1000 0 0 0 7 2),
    (Cpu (fun r => match r with 17%nat => 220 + 2 ^ 32 | 11%nat => 0x1000 | 5%nat => 7 | 6%nat => 2 | _ => 0 end) false (fun _ => 0)).
  split; [|split].
  - intros r. unfold word_ok. cbn [regs]. change (modulus (wsz Riscv64)) with 18446744073709551616.
    do 18 (destruct r; [cbn; lia|]). cbn. lia.
  - repeat split.
  - intros [|k ks].
    + eexists _, _, _, _. split; [reflexivity|]. vm_compute. discriminate.
    + unfold run, clone_asm. cbn [length]. rewrite x_sys. cbv zeta. eexists _, _, _, _. split; [reflexivity|]. vm_compute. discriminate.
Qed.
Print Assumptions C41_riscv64_upper_half_refuted.

(** A concrete call meeting the hypotheses, on x86 (where they are most). *)
Definition ex_c : clone_args := CA 0x7d0f00 0x20000 0x30000 0x30000 0x31000 0x4000 3.
Definition ex_m0 : mem :=
  let w p v m := store_le m p 4 v in
  w 0x10100 0x10200 (w 0x10104 120 (w 0x10108 3
    (w 0x10200 6 (w 0x10204 0x31000 (w 0x10208 0xfffff (w 0x1020c 81 (fun _ => 0))))))).
Definition ex_s : cpu :=
  Cpu (fun r => nth r [0x10100; 0x1fffc; 0x30000; 0x7d0f00; 0x10000; 12; 11; 0x30000] 0)
      false (store_le ex_m0 0x1fffc 4 0x4000).
Theorem C41_ex : wf_cpu X86 ex_s /\ wf_clone X86 ex_c /\ 20 <= c_stack ex_c /\
  caller_frame X86 (stack_pointer X86 ex_s) 0x10200 0x10100 (c_stack ex_c) /\
  clone_operands X86 (Pick 0 0) 51 0x10200 0x10100 ex_c ex_m0 ex_s /\ (16 | c_stack ex_c).
Proof.
  split; [|split; [|split; [|split; [|split]]]].
  - intros r. unfold word_ok. change (modulus (wsz X86)) with 4294967296. cbn [regs ex_s].
    do 8 (destruct r; [cbn; lia|]). destruct r; cbn; lia.
  - repeat split; vm_compute; congruence.
  - vm_compute. discriminate.
  - intros _. unfold apart_from. cbn [stack_pointer r_sp regs ex_s ex_c c_stack nth]. lia.
  - repeat split.
  - exists 0x2000. reflexivity.
Qed.

(** * Creating a thread, end to end: C19 with C41.
    After a successful `create` with room for 40 bytes besides the arguments,
    running the assembly of `clone` with the arguments `create` passed to it
    makes the new thread enter the Rust entry point with fn, a pointer and the
    number of arguments as C arguments, the pointer leading to the argument
    values, a null return address and frame pointer, and an ABI-aligned stack
    (on arm: see [args_stack_alignment_arm_refuted]), having touched only its
    own stack below the arguments. *)
Theorem C41_created_thread ck a td tls page m tpreg ans fn args stack_size guard_size t log m' :
  a <> Arm ->
  successful_create ck a td tls page m tpreg ans fn args stack_size guard_size t log m' ->
  (forall v, In v args -> usize a v) -> Z.of_nat (length args) * wsz a + 40 <= stack_size ->
  exists sp ptid ctid tp r addr, In (SClone sp ptid ctid tp fn (Z.of_nat (length args)) r) log /\
  stack_of a td m' t = (addr, stack_size, guard_size) /\ addr + 20 <= sp /\
  forall p gs dp arr flags m0 s,
    let n := Z.of_nat (length args) in
    (* the state in which `create` reaches the assembly *)
    same_on (fun x => sp <= x < sp + n * wsz a) m' m0 ->
    wf_cpu a s -> wf_clone a (CA flags sp ptid ctid tp fn n) -> 0 <= gs < 2 ^ 16 ->
    pickable a (p_fn p) = true -> pickable a (p_n p) = true -> (a = Riscv64 -> regs s (r_nr a) < 2 ^ 32) ->
    caller_frame a (stack_pointer a s) dp arr sp ->
    apart_from (stack_pointer a s - 8) 8 sp (n * wsz a) ->
    clone_operands a p gs dp arr (CA flags sp ptid ctid tp fn n) m0 s ->
    exists nr ca sc pre,
      asks_clone a flags (match a with X86 => sp - 4 | _ => sp end) ptid ctid (passes_tls a gs tp) (nr, ca, sc) /\
      forall k, child_resumes sc (nth 1 ca 0) (sp - 20) (sp + n * wsz a) k ->
      exists post s', run a (clone_asm a p) s [k] = (pre ++ ESys nr ca sc :: post, Entered s') /\
        c_arg a s' 0 = fn /\ c_arg a s' 2 = n /\
        (forall i v, nth_error args i = Some v -> load_le (cmem s') (c_arg a s' 1 + Z.of_nat i * wsz a) (word a) = v) /\
        return_address a s' = 0 /\ frame_pointer a s' = 0 /\ abi_aligned a s' /\ runs_on a sp s' /\
        (forall x l, In (x, l) (accesses post) -> addr <= x /\ x + l <= sp).
Proof.
  intros Ha SC Hv Hroom.
  destruct (sc_stack_of _ _ _ _ _ _ _ _ _ _ _ _ _ _ _ SC) as (addr & Est & EA).
  destruct (sc_created _ _ _ _ _ _ _ _ _ _ _ _ _ _ _ SC) as (map & sp & C).
  pose proof (sc_bounds _ _ _ _ _ _ _ _ _ _ _ _ _ _ _ SC _ _ C) as B.
  pose proof (sc_good _ _ _ _ _ _ _ _ _ _ _ _ _ _ _ SC) as GL.
  rewrite (EA _ _ C) in *. clear EA. destruct C.
  set (L := ideal a td tls page stack_size guard_size) in *.
  assert (SA : 4 <= STACK_ALIGNMENT a <= 16) by (destruct a; cbn; lia).
  pose proof (align_to_bounds (Z.of_nat (length args) * wsz a) (STACK_ALIGNMENT a) ltac:(lia)) as AB.
  pose proof (gl_stack _ _ _ _ _ _ GL) as GS.
  assert (Hsp20 : map + l_stack_bottom L + 20 <= sp) by lia.
  assert (Hal : (abi_align_stack a | sp)).
  { assert (SE : abi_align_stack a = STACK_ALIGNMENT a) by (destruct a; try reflexivity; congruence). rewrite SE.
    rewrite cr_sp. apply Z.divide_sub_r; [|apply align_to_div].
    apply Z.divide_add_r.
    - apply Z.divide_trans with page; [|apply B].
      destruct (wf_env_page _ _ _ _ (sc_env _ _ _ _ _ _ _ _ _ _ _ _ _ _ _ SC)) as (e & He & ->).
      destruct a; try congruence; change (STACK_ALIGNMENT _) with (2 ^ 4); exists (2 ^ (e - 4)); rewrite <- Z.pow_add_r by lia; f_equal; lia.
    - destruct a; try congruence; apply (gl_top_aligned _ _ _ _ _ _ GL). }
  exists sp, (t + o_tid td), (t + o_tid td), (abi_at a td (map + l_header L) ThreadPointee), (ans_clone ans), (map + l_stack_bottom L).
  split; [rewrite cr_log; right; right; left; reflexivity|]. split; [exact Est|]. split; [exact Hsp20|].
  intros p gs dp arr flags m0 s n Hm Hw Hc Hg Hpf Hpn Hrv Hcf Hap Ho.
  assert (B0 : 0 <= map + l_stack_bottom L).
  { pose proof (gl_guard _ _ _ _ _ _ GL). lia. }
  set (ca := CA flags sp (t + o_tid td) (t + o_tid td) (abi_at a td (map + l_header L) ThreadPointee) fn n) in *.
  destruct (C41_clone a p gs dp arr ca m0 s Hw Hc ltac:(cbn [ca c_stack]; lia) Hg Hpf Hpn Hrv Hcf Ho)
    as (pre & nr & cargs & sc & _ & _ & Hsame & Hask & Hchild & _).
  exists nr, cargs, sc, pre. split; [exact Hask|].
  intros k Hk.
  assert (Wn : 0 <= n * wsz a) by (unfold n; destruct a; cbn; lia).
  destruct (Hchild k (sp + n * wsz a) ltac:(cbn [ca c_stack]; lia) Hk) as (post & s' & Hrun & _ & A0 & A1 & A2 & Hra & Hfp & Hab & Hon & Hmem & Hacc).
  exists post, s'. cbn [ca c_fn c_stack c_nargs] in *.
  split; [exact Hrun|]. split; [exact A0|]. split; [exact A2|]. split; [|split; [exact Hra|split; [exact Hfp|split; [exact (Hab Hal)|split; [exact Hon|]]]]].
  - intros i v Hi. rewrite A1. rewrite <- (Z.mod_small v (modulus (wsz a))) by (apply Hv; eapply nth_error_In; eauto).
    rewrite <- (cr_args i v Hi). apply load_le_ext.
    assert (Hlt : (i < length args)%nat) by (apply nth_error_Some; congruence).
    intros j Hj. assert (Wd : Z.of_nat (word a) = wsz a) by (destruct a; reflexivity). rewrite Wd in Hj.
    assert (R : sp <= sp + Z.of_nat i * wsz a + j < sp + n * wsz a).
    { unfold n. destruct a; cbn [wsz] in *; lia. }
    rewrite (Hmem _ R). rewrite Hsame.
    2: { unfold within, apart_from in *. lia. }
    assert (O : cmem s (sp + Z.of_nat i * wsz a + j) = m0 (sp + Z.of_nat i * wsz a + j)).
    { destruct a; cbn [clone_operands ca c_stack] in Ho; try (destruct Ho as (_ & _ & _ & _ & _ & _ & _ & _ & ->); reflexivity).
      destruct Ho as (-> & _). apply store_apart.
      destruct (sc_env _ _ _ _ _ _ _ _ _ _ _ _ _ _ _ SC). destruct B as (_ & _ & _ & _ & BM & BT & _).
      pose proof (gl_stack _ _ _ _ _ _ GL). rewrite wsub_small; [unfold inside; cbn [Z.of_nat Pos.of_succ_nat Pos.succ]; lia|].
      cbn [wsz] in BM. rewrite mod4 in *. lia. }
    rewrite O. apply Hm. exact R.
  - intros x l Hx. destruct (Hacc x l Hx). lia.
Qed.
Print Assumptions C41_created_thread.

(** * C42 process entry trampoline *)
Theorem C42_start a s ks :
  wf_cpu a s ->
  (* Linux starts a program with an aligned stack pointer and zeroed registers; riscv64's _start does not rely on the latter *)
  (abi_align_stack a | stack_pointer a s) -> (a <> Riscv64 -> frame_pointer a s = 0) -> 20 <= stack_pointer a s ->
  exists t s', run a (start_asm a) s ks = (t, Entered s') /\ syscalls t = [] /\
    c_arg a s' 0 = stack_pointer a s /\ return_address a s' = 0 /\ frame_pointer a s' = 0 /\ abi_aligned a s' /\ runs_on a (stack_pointer a s) s' /\
    same_on (fun x => stack_pointer a s <= x) (cmem s) (cmem s') /\
    (forall x n, In (x, n) (accesses t) -> stack_pointer a s - 20 <= x /\ x + n <= stack_pointer a s).
Proof. intros Hw Ha Hf Hs. exact (start_entry a s ks Hw Hf Hs Ha). Qed.
Print Assumptions C42_start.
Definition ex_start : cpu := Cpu (fun r => if Nat.eqb r 4 then 0x7ff0 else 0) false (fun x => x mod 256).
Theorem C42_ex : wf_cpu X86 ex_start /\ (abi_align_stack X86 | stack_pointer X86 ex_start) /\
  frame_pointer X86 ex_start = 0 /\ 20 <= stack_pointer X86 ex_start.
Proof.
  split; [|split; [|split]].
  - intros r. unfold word_ok. change (modulus (wsz X86)) with 4294967296. cbn [regs ex_start]. destruct (Nat.eqb r 4); lia.
  - exists 0x7ff. reflexivity.
  - reflexivity.
  - vm_compute. discriminate.
Qed.

(** * C43 munmap_and_exit_thread *)
(** Whatever the kernel answers ([ks]: the results of the calls that return),
    the system calls are munmap(map, len), and then, if that returns, exit(0);
    no memory is accessed; control never leaves the block: the last call does
    not return or an invalid instruction is executed. *)
Theorem C43_munmap_exit a map len s ks :
  munmap_operands a map len s -> wf_cpu a s ->
  (a = Riscv64 -> regs s (r_nr a) < 2 ^ 32) ->
  let (t, o) := run a (munmap_asm a) s ks in
  accesses t = [] /\
  match ks with
  | [] => o = InKernel /\ exists r, syscalls t = [(linux_nr a Sys_munmap, map :: len :: r, s)]
  | [_] => o = InKernel /\ exists r r' c, syscalls t = [(linux_nr a Sys_munmap, map :: len :: r, s); (linux_nr a Sys_exit, 0 :: r', c)]
  | _ => o = Trapped /\ exists r r' c, syscalls t = [(linux_nr a Sys_munmap, map :: len :: r, s); (linux_nr a Sys_exit, 0 :: r', c)]
  end.
Proof. intros H Hw Hr. exact (munmap_exit a map len s ks H Hr Hw). Qed.
Print Assumptions C43_munmap_exit.
Theorem C43_ex : exists s, munmap_operands X86_64 0x700000 0x3000 s /\ wf_cpu X86_64 s /\ regs s 0%nat <> 11.
Proof.
  exists (Cpu (fun r => match r with 0%nat => 11 + 5 * 2 ^ 32 | 7%nat => 0x700000 | 6%nat => 0x3000 | _ => 0 end) true (fun _ => 0)).
  split; [repeat split|]. split; [|vm_compute; discriminate].
  intros r. unfold word_ok. change (modulus (wsz X86_64)) with 18446744073709551616. cbn [regs].
  do 8 (destruct r; [cbn; lia|]). destruct r; cbn; lia.
Qed.
(** As for clone, nothing but the compiler's habit of zero-extending keeps
    riscv64 right. *)
Theorem C43_riscv64_upper_half_refuted : exists s, munmap_operands Riscv64 0x700000 0x3000 s /\ wf_cpu Riscv64 s /\
  forall ks nr args c rest, syscalls (fst (run Riscv64 (munmap_asm Riscv64) s ks)) = (nr, args, c) :: rest -> nr <> linux_nr Riscv64 Sys_munmap.
Proof.
  exists (Cpu (fun r => match r with 17%nat => 215 + 2 ^ 32 | 10%nat => 0x700000 | 11%nat => 0x3000 | _ => 0 end) true (fun _ => 0)).
  split; [repeat split|]. split.
  - intros r. unfold word_ok. change (modulus (wsz Riscv64)) with 18446744073709551616. cbn [regs].
    do 18 (destruct r; [cbn; lia|]). cbn; lia.
  - intros ks nr args c rest H. destruct ks as [|k ks]; unfold run, munmap_asm in H; cbn [length] in H.
    + rewrite x_sys0 in H. cbn [fst syscalls] in H. injection H as <- _ _ _. vm_compute. discriminate.
    + rewrite x_sys in H. cbv zeta in H. cbn [fst syscalls] in H. injection H as <- _ _ _. vm_compute. discriminate.
Qed.

(** * C49 returning from a signal handler *)
(** The restorer issues exactly the sigreturn of the frame's kind, with the
    stack pointer from which the kernel finds the frame it pushed, memory
    unchanged, and does not continue afterwards.  [siginfo]: the handler was
    installed with SA_SIGINFO. *)
Theorem C49_signal_return a (siginfo : bool) frame s ks :
  a <> Riscv64 -> wf_cpu a s -> 0 <= frame -> frame + 8 < modulus (wsz a) -> at_restorer a frame s ->
  exists t nr args c,
    run a (if siginfo then restorer_asm a else restorer_noinfo_asm a) s ks = (t, match ks with [] => InKernel | _ => Trapped end) /\
    syscalls t = [(nr, args, c)] /\ writes t = [] /\
    nr = (if rt_frame a siginfo then linux_nr a Sys_rt_sigreturn else linux_nr a Sys_sigreturn) /\
    frame_used a (rt_frame a siginfo) (stack_pointer a c) = frame /\ cmem c = cmem s.
Proof. exact (restorer_returns a siginfo frame s ks). Qed.
Print Assumptions C49_signal_return.
Theorem C49_ex : at_restorer X86 0x7fec ex_start /\ wf_cpu X86 ex_start.
Proof. split; [reflexivity|apply C42_ex]. Qed.

(** * C50 thread pointer on x86 *)
(** `set_thread_pointer(p)`: the kernel accepts the descriptor, the selector
    loaded into gs selects it, its base is p and it spans all memory. *)
Theorem C50_set_thread_pointer p : 0 <= p < 2 ^ 32 ->
  desc_okay (stp_desc p) /\ desc_flat (stp_desc p) /\ ud_entry (stp_desc p) = 2 ^ 32 - 1 /\
  forall g slot g' d', k_set_thread_area g (stp_desc p) slot g' d' -> sel_base g' (stp_selector d') = Some p.
Proof. intros Hp. pose proof (stp_desc_good p). repeat split; try tauto. intros. eapply set_tp_selects; eauto. Qed.
Print Assumptions C50_set_thread_pointer.
(** Thread creation: every thread that runs was given its gs by
    set_thread_pointer or inherited it from its creator; in the child of clone
    the inherited selector selects a descriptor whose base is the new thread's
    tls address. *)
Theorem C50_child p0 g slot g1 d1 tls g2 : 0 <= tls < 2 ^ 32 ->
  k_set_thread_area g (stp_desc p0) slot g1 d1 ->
  desc_okay (clone_desc (stp_selector d1) tls) /\
  (k_clone_settls g1 (clone_desc (stp_selector d1) tls) g2 -> sel_base g2 (stp_selector d1) = Some tls).
Proof.
  intros Ht K. split; [repeat split; vm_compute; reflexivity|].
  intros H. eapply clone_tp_selects; eauto. apply stp_selector_mod.
  destruct K as (_ & _ & Hs & _ & _ & ->). exact Hs.
Qed.
Print Assumptions C50_child.
Theorem C50_ex : exists g' d', k_set_thread_area (fun _ => None) (stp_desc 0x31000) 6 g' d' /\ stp_selector d' = 51.
Proof.
  exists (fun i => if i =? 6 then Some 0x31000 else None), (UD 6 0x31000 0xfffff desc_bits).
  split; [|reflexivity]. split; [repeat split; vm_compute; reflexivity|]. split; [reflexivity|]. split; [lia|].
  split; [reflexivity|]. split; [|reflexivity]. intros i Hi. apply Z.eqb_neq in Hi. rewrite Hi. reflexivity.
Qed.

(** * C51 relocation primitives *)
Theorem C51_load_store a d p v s ks : word_ok a (regs s p) ->
  run a (rload_asm d p) s ks =
    ([ERead (regs s p) (wsz a)], Fell (Cpu (setr (regs s) d (load_le (cmem s) (regs s p) (word a))) (zf s) (cmem s))) /\
  run a (rstore_asm p v) s ks =
    ([EWrite (regs s p) (wsz a) (regs s v)], Fell (Cpu (regs s) (zf s) (store_le (cmem s) (regs s p) (word a) (regs s v)))).
Proof. intros H. split; [apply rload_run; exact H|apply rstore_run; exact H]. Qed.
Print Assumptions C51_load_store.
Theorem C51_mprotect a ptr len s k :
  rmprotect_operands a ptr len s -> wf_cpu a s -> (a = Riscv64 -> regs s (r_nr a) < 2 ^ 32) ->
  exists prot r, prot mod 2 ^ 32 = 1 /\
    run a (rmprotect_asm a) s [k] =
    ([ESys (linux_nr a Sys_mprotect) (ptr :: len :: prot :: r) s], if k_ret k =? 0 then Fell (k_return a s k) else Trapped).
Proof. exact (rmprotect_run a ptr len s k). Qed.
Print Assumptions C51_mprotect.

(** * C52 position-independent addresses *)
(** Wherever the program is loaded, `dynamic_table_addr` and `ehdr_addr` give
    the run-time address of the symbol (link-time address plus bias). *)
Theorem C52_addresses x pc bias :
  (- 2 ^ 31 <= x - pc < 2 ^ 31 -> addr_x86_64 x pc bias = wrapping_add 8 x bias) /\
  (forall got, addr_x86 x got pc 1 bias = wrapping_add 4 x bias) /\
  (bias mod 4096 = 0 -> - 2 ^ 20 <= x / 4096 - pc / 4096 < 2 ^ 20 -> addr_aarch64 x pc bias = wrapping_add 8 x bias) /\
  addr_arm x pc bias = wrapping_add 4 x bias /\
  (- 2 ^ 31 <= x - pc + 0x800 < 2 ^ 31 -> addr_riscv64 x pc bias = wrapping_add 8 x bias).
Proof.
  split; [apply addr_x86_64_ok|]. split; [intros got; apply addr_x86_ok; reflexivity|].
  split; [apply addr_aarch64_ok|]. split; [apply addr_arm_ok|apply addr_riscv64_ok].
Qed.
Print Assumptions C52_addresses.
(** The x86 sequence needs `pop` to be one byte long, as its comment says. *)
Theorem C52_pop_length x got pc poplen bias : 0 <= poplen < 16 -> poplen <> 1 -> addr_x86 x got pc poplen bias <> wrapping_add 4 x bias.
Proof.
  intros H0 H1 E. unfold addr_x86, wrapping_add in E. cbv zeta in E. rewrite Zplus_mod_idemp_l in E.
  rewrite <- Z.add_assoc, Zplus_mod_idemp_l in E.
  assert (M : (x + bias + (1 - poplen) - (x + bias)) mod modulus 4 = 0).
  { rewrite Zminus_mod. replace (x + bias + (1 - poplen)) with (pc + bias + (got + 1 - (pc + poplen) + (x - got))) by lia.
    rewrite E. rewrite Z.sub_diag. reflexivity. }
  replace (x + bias + (1 - poplen) - (x + bias)) with (1 - poplen) in M by lia.
  rewrite mod4 in M. apply Z.mod_divide in M; [|lia]. destruct M as [q Hq]. assert (q = 0 \/ q <= -1 \/ 1 <= q) by lia. lia.
Qed.
Theorem C52_ex : addr_riscv64 0x12fff 0x11000 0x2aaaaaa000 = 0x2aaaabcfff /\ addr_aarch64 0x12fff 0x11008 0x2aaaaaa000 = 0x2aaaabcfff.
Proof. split; reflexivity. Qed.
