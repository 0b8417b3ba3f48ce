(** Proofs about the assembly model, continued: signal return, thread pointer,
    relocation primitives, position-independent addresses. *)
From Verif Require Import Machine MachineFacts LayoutModel LayoutSpec LayoutProofs AsmModel AsmSpec AsmProofs.

(** ** Signal return *)
Lemma restorer_returns a (siginfo : bool) frame s ks :
  a <> Riscv64 -> wf_cpu a s -> 0 <= frame -> frame + 8 < modulus (wsz a) -> at_restorer a frame s ->
  exists t nr args c, 
    run a (if siginfo then restorer_asm a else restorer_noinfo_asm a) s ks = (t, match ks with [] => InKernel | _ => Trapped end) /\
    syscalls t = [(nr, args, c)] /\ writes t = [] /\
    nr = (if rt_frame a siginfo then NR_rt_sigreturn a else NR_sigreturn a) /\
    frame_used a (rt_frame a siginfo) (stack_pointer a c) = frame /\ cmem c = cmem s.
Proof.
  intros Ha Hw Hf0 Hf1 Hat. unfold at_restorer, stack_pointer in Hat.
  destruct a; try congruence; destruct siginfo; destruct ks as [|k ks];
    unfold restorer_noinfo_asm, restorer_asm, run; cbn [length]; repeat x1;
    eexists _, _, _, _; (split; [reflexivity|]); (split; [reflexivity|]); (split; [reflexivity|]);
    cbn [rt_frame]; (split; [reflexivity|]);
    cbn [r_sp wsz] in Hat; unfold frame_used, stack_pointer; xregs; rewrite ?Hat; cbn [wsz] in Hf1;
    rewrite ?mod4, ?mod8 in Hf1; rewrite ?wadd_small by small; split; try reflexivity; lia.
Qed.

(** ** Thread pointer on x86 *)
Lemma lor3 n : 0 <= n -> Z.lor (n * 8) 3 = n * 8 + 3.
Proof.
  intros H. assert (L : Z.land (n * 8) 3 = 0).
  { change 3 with (Z.ones 2). rewrite Z.land_ones by lia. change (2 ^ 2) with 4.
    replace (n * 8) with (n * 2 * 4) by lia. apply Z.mod_mul. lia. }
  rewrite Z.add_nocarry_lxor by exact L. rewrite Z.lxor_lor by exact L. reflexivity.
Qed.
Lemma set_tp_selects g p slot g' d' : 0 <= p < 2 ^ 32 ->
  k_set_thread_area g (stp_desc p) slot g' d' -> sel_base g' (stp_selector d') = Some p.
Proof.
  intros Hp (_ & _ & Hs & Hg & _ & ->). unfold stp_selector. cbn [ud_entry].
  rewrite Z.shiftl_mul_pow2 by lia. change (2 ^ 3) with 8.
  rewrite (Z.mod_small (slot * 8)) by (change (2 ^ 13) with 8192 in Hs; change (2 ^ 32) with 4294967296; lia).
  rewrite lor3 by lia. rewrite Z.mod_small by (change (2 ^ 13) with 8192 in Hs; change (2 ^ 16) with 65536; lia).
  unfold sel_base. replace (slot * 8 + 3) with (3 + slot * 8) by lia.
  rewrite Z.mod_add, Z.div_add by lia. change (3 mod 8) with 3. change (3 / 8) with 0.
  replace (0 + slot) with slot by lia. cbn [Z.eqb Pos.eqb]. rewrite Hg. unfold stp_desc. cbn [ud_base]. f_equal. apply Z.mod_small. exact Hp.
Qed.
(** The kernel accepts the descriptor and it spans the whole address space. *)
Lemma stp_desc_good p : desc_okay (stp_desc p) /\ desc_flat (stp_desc p) /\ ud_entry (stp_desc p) = 2 ^ 32 - 1.
Proof. repeat split; vm_compute; reflexivity. Qed.
Lemma clone_tp_selects g gs tls g' : 0 <= tls < 2 ^ 32 -> gs mod 8 = 3 ->
  k_clone_settls g (clone_desc gs tls) g' -> sel_base g' gs = Some tls.
Proof.
  intros Ht Hg (_ & H & _). unfold sel_base. rewrite Hg. cbn [Z.eqb Pos.eqb].
  cbn [clone_desc ud_entry ud_base] in H. rewrite Z.shiftr_div_pow2 in H by lia. change (2 ^ 3) with 8 in H.
  rewrite H. f_equal. apply Z.mod_small. exact Ht.
Qed.
Lemma stp_selector_mod d : 0 <= ud_entry d < 2 ^ 13 -> stp_selector d mod 8 = 3.
Proof.
  intros Hs. unfold stp_selector. rewrite Z.shiftl_mul_pow2 by lia. change (2 ^ 3) with 8.
  rewrite (Z.mod_small (_ * 8)) by (change (2 ^ 13) with 8192 in Hs; change (2 ^ 32) with 4294967296; lia).
  rewrite lor3 by lia. rewrite (Z.mod_small _ (2 ^ 16)) by (change (2 ^ 13) with 8192 in Hs; change (2 ^ 16) with 65536; lia).
  replace (ud_entry d * 8 + 3) with (3 + ud_entry d * 8) by lia. rewrite Z.mod_add by lia. reflexivity.
Qed.

(** ** Relocation primitives *)
Lemma rload_run a d p s ks : word_ok a (regs s p) ->
  run a (rload_asm d p) s ks =
  ([ERead (regs s p) (wsz a)], Fell (Cpu (setr (regs s) d (load_le (cmem s) (regs s p) (word a))) (zf s) (cmem s))).
Proof.
  intros H. unfold run, rload_asm. cbn [length]. repeat x1.
  replace (wrapping_add (wsz a) (regs s p) 0) with (regs s p); [reflexivity|].
  unfold wrapping_add. rewrite Z.add_0_r. symmetry. apply Z.mod_small. exact H.
Qed.
Lemma rstore_run a p v s ks : word_ok a (regs s p) ->
  run a (rstore_asm p v) s ks =
  ([EWrite (regs s p) (wsz a) (regs s v)], Fell (Cpu (regs s) (zf s) (store_le (cmem s) (regs s p) (word a) (regs s v)))).
Proof.
  intros H. unfold run, rstore_asm. cbn [length]. repeat x1.
  replace (wrapping_add (wsz a) (regs s p) 0) with (regs s p); [reflexivity|].
  unfold wrapping_add. rewrite Z.add_0_r. symmetry. apply Z.mod_small. exact H.
Qed.
Lemma rmprotect_run a ptr len s k : rmprotect_operands a ptr len s -> wf_cpu a s -> (a = Riscv64 -> regs s (r_nr a) < 2 ^ 32) ->
  exists prot r, prot mod 2 ^ 32 = 1 /\
    run a (rmprotect_asm a) s [k] =
    ([ESys (NR_mprotect a) (ptr :: len :: prot :: r) s], if k_ret k =? 0 then Fell (k_return a s k) else Trapped).
Proof.
  intros (H1 & H2 & H3 & H4) Hw Hr. exists (regs s (nth 2 (r_args a) 0%nat)), (map (regs s) (skipn 3 (r_args a))).
  split; [exact H4|].
  assert (K : k_nr a (regs s (r_nr a)) = NR_mprotect a).
  { unfold k_nr, low32 in *. destruct a; try exact H1; cbn [r_nr] in *.
    - rewrite H1. reflexivity.
    - rewrite H1. reflexivity.
    - rewrite <- H1. symmetry. apply Z.mod_small. specialize (Hr eq_refl). pose proof (Hw 17%nat) as [? ?]. lia. }
  unfold run, rmprotect_asm. cbn [length]. rewrite x_sys. cbv zeta. rewrite x_cbz. rewrite kr_ret by apply Nat.eqb_refl.
  rewrite K. destruct a; cbn [r_args nth map skipn] in *; rewrite <- H2, <- H3; destruct (k_ret k =? 0); reflexivity.
Qed.

(** ** Position-independent addresses *)
Lemma sext_small bits v : 0 < bits -> - 2 ^ (bits - 1) <= v < 2 ^ (bits - 1) -> sext bits v = v.
Proof.
  intros Hb H. unfold sext. assert (E : 2 ^ bits = 2 * 2 ^ (bits - 1)) by (rewrite <- Z.pow_succ_r by lia; f_equal; lia).
  rewrite Z.mod_small by lia. lia.
Qed.
Ltac wrap := unfold wrapping_add; repeat (rewrite Zplus_mod_idemp_r || rewrite Zplus_mod_idemp_l || (rewrite <- Z.add_assoc; rewrite Zplus_mod_idemp_l)).
Lemma addr_x86_64_ok x pc bias : - 2 ^ 31 <= x - pc < 2 ^ 31 -> addr_x86_64 x pc bias = wrapping_add 8 x bias.
Proof. intros H. unfold addr_x86_64. rewrite sext_small by (try lia; exact H). wrap. f_equal. lia. Qed.
Lemma addr_x86_ok x got l2 poplen bias : poplen = 1 -> addr_x86 x got l2 poplen bias = wrapping_add 4 x bias.
Proof. intros ->. unfold addr_x86. wrap. f_equal. lia. Qed.
Lemma addr_arm_ok x l0 bias : addr_arm x l0 bias = wrapping_add 4 x bias.
Proof. unfold addr_arm. change (2 ^ 32) with (modulus 4). wrap. f_equal. lia. Qed.
Lemma addr_riscv64_ok x pc bias : - 2 ^ 31 <= x - pc + 0x800 < 2 ^ 31 -> addr_riscv64 x pc bias = wrapping_add 8 x bias.
Proof.
  intros H. unfold addr_riscv64. cbv zeta. set (d := x - pc) in *. set (hi := (d + 2048) / 4096).
  assert (E : d + 2048 = 4096 * hi + (d + 2048) mod 4096) by (apply Z.div_mod; lia).
  pose proof (Z.mod_pos_bound (d + 2048) 4096 ltac:(lia)).
  change (2 ^ 31) with 2147483648 in H.
  rewrite (sext_small 32) by (try lia; change (2 ^ (32 - 1)) with 2147483648; lia).
  rewrite (sext_small 12) by (try lia; change (2 ^ (12 - 1)) with 2048; lia).
  wrap. f_equal. unfold d. lia.
Qed.
Lemma page12_mod v : page12 v = v - v mod 4096.
Proof. unfold page12. pose proof (Z.div_mod v 4096 ltac:(lia)). lia. Qed.
Lemma addr_aarch64_ok x pc bias : bias mod 4096 = 0 -> - 2 ^ 20 <= x / 4096 - pc / 4096 < 2 ^ 20 ->
  addr_aarch64 x pc bias = wrapping_add 8 x bias.
Proof.
  intros Hb H. unfold addr_aarch64. cbv zeta.
  assert (P : forall v, page12 v / 4096 = v / 4096) by (intros v; unfold page12; rewrite Z.div_mul; lia).
  rewrite !P, (sext_small 21) by (try lia; exact H).
  rewrite page12_mod.
  assert (M : wrapping_add 8 pc bias mod 4096 = pc mod 4096).
  { unfold wrapping_add. rewrite mod8. change 18446744073709551616 with (4096 * 4503599627370496).
    rewrite <- Znumtheory.Zmod_div_mod by (solve [lia | exists 4503599627370496; lia]).
    rewrite <- Zplus_mod_idemp_r, Hb, Z.add_0_r. reflexivity. }
  rewrite M. pose proof (Z.div_mod x 4096 ltac:(lia)). pose proof (Z.div_mod pc 4096 ltac:(lia)).
  assert (E : wrapping_add 8 (wrapping_add 8 (wrapping_add 8 pc bias - pc mod 4096) ((x / 4096 - pc / 4096) * 4096)) (x mod 4096)
            = (pc + bias - pc mod 4096 + (x / 4096 - pc / 4096) * 4096 + x mod 4096) mod modulus 8).
  { unfold wrapping_add. rewrite Zplus_mod_idemp_l. rewrite <- !Z.add_assoc.
    rewrite <- (Zplus_mod_idemp_l ((pc + bias) mod modulus 8 - _)).
    rewrite Zminus_mod_idemp_l. rewrite Zplus_mod_idemp_l. reflexivity. }
  rewrite E. unfold wrapping_add. f_equal. lia.
Qed.
