(** Proofs about the assembly model. *)
From Verif Require Import Machine MachineFacts LayoutModel LayoutSpec LayoutProofs AsmModel AsmSpec.

Ltac asm := cbn -[load_le store_le wrapping_add wrapping_sub modulus Z.modulo Z.pow Z.add Z.mul Z.sub Z.shiftr Z.shiftl Z.div clone_desc desc_at NR_clone NR_munmap NR_exit NR_mprotect NR_rt_sigreturn NR_sigreturn].

Lemma ld_same n m p v : 0 <= v < 2 ^ (8 * Z.of_nat n) -> load_le (store_le m p n v) p n = v.
Proof. intros H. rewrite load_store_same. apply Z.mod_small. exact H. Qed.
Lemma ld_other n k m p q v : p + Z.of_nat n <= q \/ q + Z.of_nat k <= p ->
  load_le (store_le m q k v) p n = load_le m p n.
Proof.
  intros H. apply load_le_ext. intros i Hi. apply store_apart. unfold inside. lia.
Qed.
Lemma wsub_small ws x y : 0 <= x - y < modulus ws -> wrapping_sub ws x y = x - y.
Proof. intros H. apply Z.mod_small. exact H. Qed.
Lemma wadd_small ws x y : 0 <= x + y < modulus ws -> wrapping_add ws x y = x + y.
Proof. intros H. apply Z.mod_small. exact H. Qed.
Lemma mod4 : modulus 4 = 4294967296. Proof. reflexivity. Qed.
Lemma mod8 : modulus 8 = 18446744073709551616. Proof. reflexivity. Qed.
Lemma divide_sub a x y : (a | x) -> (a | y) -> (a | x - y).
Proof. intros [u ->] [v ->]. exists (u - v). lia. Qed.

(** ** C43 *)
Lemma munmap_exit a map len s ks :
  munmap_operands a map len s -> (a = Riscv64 -> regs s (r_nr a) < 2 ^ 32) -> wf_cpu a s ->
  let (t, o) := run a (munmap_asm a) s ks in
  accesses t = [] /\
  match ks with
  | [] => o = InKernel /\ exists r, syscalls t = [(NR_munmap a, map :: len :: r, s)]
  | [_] => o = InKernel /\ exists r r' c, syscalls t = [(NR_munmap a, map :: len :: r, s); (NR_exit a, 0 :: r', c)]
  | _ => o = Trapped /\ exists r r' c, syscalls t = [(NR_munmap a, map :: len :: r, s); (NR_exit a, 0 :: r', c)]
  end.
Proof.
  intros (H1 & H2 & H3) Hr Hw. unfold low32 in H1.
  assert (K : k_nr a (regs s (r_nr a)) = NR_munmap a).
  { unfold k_nr. destruct a; try exact H1. rewrite <- H1. symmetry. apply Z.mod_small.
    specialize (Hr eq_refl). pose proof (Hw (r_nr Riscv64)) as [? ?]. split; [assumption|exact Hr]. }
  destruct ks as [|k1 [|k2 ks]]; destruct a; unfold run; asm; asm; cbn in H2, H3, K |- *;
    repeat (split; [reflexivity|]); repeat (eexists || reflexivity || (rewrite K, H2, H3)).
Qed.

Ltac small := rewrite ?mod4, ?mod8; lia.
Ltac ws := repeat first [rewrite wsub_small by small | rewrite wadd_small by small].

Ltac splits := repeat match goal with |- _ /\ _ => split end.
(** ** C42 *)
Lemma start_entry a s ks :
  wf_cpu a s -> (a <> Riscv64 -> frame_pointer a s = 0) -> 20 <= stack_pointer a s ->
  (abi_align_stack a | stack_pointer a s) ->
  exists t s', run a (start_asm a) s ks = (t, Entered s') /\ syscalls t = [] /\
    c_arg a s' 0 = stack_pointer a s /\ return_address a s' = 0 /\ frame_pointer a s' = 0 /\ abi_aligned a s' /\ runs_on a (stack_pointer a s) s' /\
    same_on (fun x => stack_pointer a s <= x) (cmem s) (cmem s') /\
    (forall x n, In (x, n) (accesses t) -> stack_pointer a s - 20 <= x /\ x + n <= stack_pointer a s).
Proof.
  intros Hw Hf Hs Ha. pose proof (Hw (r_sp a)) as Hsp. unfold word_ok in Hsp.
  destruct a; unfold run; asm;
    try (specialize (Hf ltac:(discriminate)));
    unfold stack_pointer, frame_pointer, r_sp, abi_align_stack, wsz in *; rewrite ?mod4, ?mod8 in *;
    eexists _, _; (split; [reflexivity|]); (split; [reflexivity|]).
  - (* x86_64 *)
    unfold c_arg, return_address, frame_pointer, abi_aligned, runs_on, stack_pointer; asm. ws. rewrite ld_same, Hf by (rewrite Hf; cbn; lia).
    splits; try reflexivity; try lia.
    + replace (regs s 4%nat - 8 + 8) with (regs s 4%nat) by lia. exact Ha.
    + intros x Hx. apply store_apart. unfold inside. lia.
    + intros x n [E|[]]. inversion E; subst. lia.
  - (* x86 *)
    unfold c_arg, return_address, frame_pointer, abi_aligned, runs_on, stack_pointer; asm. ws.
    rewrite Hf.
    splits; try reflexivity; try lia.
    + rewrite ld_other by lia. replace (regs s 4%nat - 4 - 4 - 4 - 4 - 4 + 4 + 4 * 0) with (regs s 4%nat - 4 - 4 - 4 - 4) by lia.
      apply ld_same. cbn. lia.
    + apply ld_same. cbn. lia.
    + replace (regs s 4%nat - 4 - 4 - 4 - 4 - 4 + 4) with (regs s 4%nat - 16) by lia. apply divide_sub; [exact Ha|exists 1; lia].
    + intros x Hx. repeat (rewrite store_apart by (unfold inside; lia)). reflexivity.
    + intros x n Hx. repeat (destruct Hx as [E|Hx]; [inversion E; subst; lia|]). contradiction.
  - unfold c_arg, return_address, frame_pointer, abi_aligned, runs_on, stack_pointer; asm. splits; try assumption; try reflexivity; try exact Hf; try (intros ? ?; reflexivity); intros; try contradiction.
  - unfold c_arg, return_address, frame_pointer, abi_aligned, runs_on, stack_pointer; asm. splits; try assumption; try reflexivity; try exact Hf; try (intros ? ?; reflexivity); intros; try contradiction.
  - unfold c_arg, return_address, frame_pointer, abi_aligned, runs_on, stack_pointer; asm. splits; try assumption; try reflexivity; try exact Hf; try (intros ? ?; reflexivity); intros; try contradiction.
Qed.

(** One-step equations of [exec]. *)
Section Steps.
Variables (f : nat) (a : arch) (q : list instr) (s : cpu) (ks : list kresp).
Lemma x_mov d r : exec (S f) a (IMov d r :: q) s ks = exec f a q (Cpu (setr (regs s) d (regs s r)) (zf s) (cmem s)) ks.
Proof. reflexivity. Qed.
Lemma x_imm d v : exec (S f) a (IImm d v :: q) s ks = exec f a q (Cpu (setr (regs s) d v) (zf s) (cmem s)) ks.
Proof. reflexivity. Qed.
Lemma x_zero d : exec (S f) a (IZero d :: q) s ks = exec f a q (Cpu (setr (regs s) d 0) (zf s) (cmem s)) ks.
Proof. reflexivity. Qed.
Lemma x_load d b off : exec (S f) a (ILoad d b off :: q) s ks =
  let e := wrapping_add (wsz a) (regs s b) off in
  let r := exec f a q (Cpu (setr (regs s) d (load_le (cmem s) e (word a))) (zf s) (cmem s)) ks in
  (ERead e (wsz a) :: fst r, snd r).
Proof. cbn [exec]. cbv zeta. destruct (exec f a q _ ks). reflexivity. Qed.
Lemma x_store b off v : exec (S f) a (IStore b off v :: q) s ks =
  let e := wrapping_add (wsz a) (regs s b) off in
  let r := exec f a q (Cpu (regs s) (zf s) (store_le (cmem s) e (word a) (regs s v))) ks in
  (EWrite e (wsz a) (regs s v) :: fst r, snd r).
Proof. cbn [exec]. cbv zeta. destruct (exec f a q _ ks). reflexivity. Qed.
Lemma x_push v : exec (S f) a (IPush v :: q) s ks =
  let e := wrapping_sub (wsz a) (regs s (r_sp a)) (wsz a) in
  let r := exec f a q (Cpu (setr (regs s) (r_sp a) e) (zf s) (store_le (cmem s) e (word a) (regs s v))) ks in
  (EWrite e (wsz a) (regs s v) :: fst r, snd r).
Proof. cbn [exec]. cbv zeta. destruct (exec f a q _ ks). reflexivity. Qed.
Lemma x_pop d : exec (S f) a (IPop d :: q) s ks =
  let e := regs s (r_sp a) in
  let r := exec f a q (Cpu (setr (setr (regs s) (r_sp a) (wrapping_add (wsz a) e (wsz a))) d (load_le (cmem s) e (word a))) (zf s) (cmem s)) ks in
  (ERead e (wsz a) :: fst r, snd r).
Proof. cbn [exec]. cbv zeta. destruct (exec f a q _ ks). reflexivity. Qed.
Lemma x_test r : exec (S f) a (ITest32 r :: q) s ks = exec f a q (Cpu (regs s) (regs s r mod 2 ^ 32 =? 0) (cmem s)) ks.
Proof. reflexivity. Qed.
Lemma x_jnz n : exec (S f) a (IJnz n :: q) s ks = exec f a (if zf s then q else skipn n q) s ks.
Proof. reflexivity. Qed.
Lemma x_cbnz r n : exec (S f) a (ICbnz r n :: q) s ks = exec f a (if regs s r =? 0 then q else skipn n q) s ks.
Proof. reflexivity. Qed.
Lemma x_cbz r n : exec (S f) a (ICbz r n :: q) s ks = exec f a (if regs s r =? 0 then skipn n q else q) s ks.
Proof. reflexivity. Qed.
Lemma x_sys k : exec (S f) a (ISys :: q) s (k :: ks) =
  let r := exec f a q (k_return a s k) ks in
  (ESys (k_nr a (regs s (r_nr a))) (map (regs s) (r_args a)) s :: fst r, snd r).
Proof. cbn [exec]. cbv zeta. destruct (exec f a q _ ks). reflexivity. Qed.
Lemma x_sys0 : exec (S f) a (ISys :: q) s [] = ([ESys (k_nr a (regs s (r_nr a))) (map (regs s) (r_args a)) s], InKernel).
Proof. reflexivity. Qed.
Lemma x_jmp : exec (S f) a (IJmp :: q) s ks = ([], Entered s).
Proof. reflexivity. Qed.
Lemma x_trap : exec (S f) a (ITrap :: q) s ks = ([], Trapped).
Proof. reflexivity. Qed.
Lemma x_nil : exec (S f) a [] s ks = ([], Fell s).
Proof. reflexivity. Qed.
End Steps.
Lemma setr_same g d v : setr g d v d = v.
Proof. unfold setr. rewrite Nat.eqb_refl. reflexivity. Qed.
Lemma setr_other g d v r : Nat.eqb r d = false -> setr g d v r = g r.
Proof. unfold setr. intros ->. reflexivity. Qed.
Lemma kr_ret a s k r : Nat.eqb r (r_ret a) = true -> regs (k_return a s k) r = k_ret k.
Proof. unfold k_return. cbn [regs]. intros ->. reflexivity. Qed.
Lemma kr_sp a s k r : Nat.eqb r (r_sp a) = true -> regs (k_return a s k) r = match k_sp k with Some v => v | None => regs s (r_sp a) end.
Proof. intros H. apply Nat.eqb_eq in H. subst r. destruct a; reflexivity. Qed.
Lemma kr_other a s k r : Nat.eqb r (r_ret a) = false -> existsb (Nat.eqb r) (r_clob a) = false -> Nat.eqb r (r_sp a) = false ->
  regs (k_return a s k) r = regs s r.
Proof. unfold k_return. cbn [regs]. intros -> -> ->. reflexivity. Qed.
Lemma kr_zf a s k : zf (k_return a s k) = k_zf k. Proof. reflexivity. Qed.
Lemma kr_mem a s k : cmem (k_return a s k) = k_mem k. Proof. reflexivity. Qed.
Ltac xred := cbn [regs zf cmem r_sp r_ret r_nr r_args word wsz fst snd app map nth skipn].
Ltac xregs := xred; repeat (first
  [ rewrite setr_same | rewrite setr_other by (reflexivity || assumption) | rewrite kr_ret by reflexivity
  | rewrite kr_other by (reflexivity || assumption) | rewrite kr_sp by reflexivity | rewrite kr_zf | rewrite kr_mem ]; xred).
Ltac x1 := first [rewrite x_mov | rewrite x_imm | rewrite x_zero | rewrite x_load | rewrite x_store | rewrite x_push | rewrite x_pop
  | rewrite x_test | rewrite x_jnz | rewrite x_cbnz | rewrite x_sys | rewrite x_sys0 | rewrite x_jmp | rewrite x_trap | rewrite x_nil ]; cbv zeta; xregs.
Ltac xrun := unfold run, clone_asm, length; repeat x1.

(** ** C41 *)
Lemma desc_bits_val : desc_bits = 81. Proof. reflexivity. Qed.

Lemma leb_neq r n : Nat.leb r n = true -> Nat.eqb r (S n) = false.
Proof. intros H. apply Nat.leb_le in H. apply Nat.eqb_neq. lia. Qed.

(** The block up to the system call, with everything after it abstract. *)
Lemma x86_prefix f q s k ks : exec (S (S (S (S (S (S f)))))) X86
    (IPush 6 :: IPush 5 :: ILoad 5 0 8 :: ILoad 6 0 0 :: ILoad 0 0 4 :: ISys :: q) s (k :: ks) =
  let sp := regs s 4%nat in
  let sp1 := wrapping_sub 4 sp 4 in let sp2 := wrapping_sub 4 sp1 4 in
  let m1 := store_le (store_le (cmem s) sp1 4 (regs s 6%nat)) sp2 4 (regs s 5%nat) in
  let ea i := wrapping_add 4 (regs s 0%nat) i in
  let sc := Cpu (setr (setr (setr (setr (setr (regs s) 4 sp1) 4 sp2) 5 (load_le m1 (ea 8%Z) 4)) 6 (load_le m1 (ea 0%Z) 4)) 0
                      (load_le m1 (ea 4%Z) 4))%nat (zf s) m1 in
  let r := exec f X86 q (k_return X86 sc k) ks in
  (EWrite sp1 4 (regs s 6%nat) :: EWrite sp2 4 (regs s 5%nat) :: ERead (ea 8) 4 :: ERead (ea 0) 4 :: ERead (ea 4) 4 ::
   ESys (k_nr X86 (regs sc 0%nat)) (map (regs sc) (r_args X86)) sc :: fst r, snd r).
Proof.
  rewrite x_push; cbv zeta. rewrite x_push; cbv zeta. rewrite x_load; cbv zeta. rewrite x_load; cbv zeta.
  rewrite x_load; cbv zeta. rewrite x_sys; cbv zeta. cbn [fst snd]. reflexivity.
Qed.

Section Clone.
Variables (p : pick) (gs dp arr : Z) (c : clone_args) (m0 : mem) (s : cpu).

Ltac prep Hop :=
  unfold low32 in Hop.

Lemma nz32 v ws : ws = 4 \/ ws = 8 -> 0 < v < 2 ^ 31 \/ modulus ws - 4095 <= v < modulus ws -> (v mod 2 ^ 32 =? 0) = false.
Proof.
  intros [ -> | -> ] [H|H]; rewrite ?mod4, ?mod8 in H; apply Z.eqb_neq; change (2 ^ 31) with 2147483648 in *; change (2 ^ 32) with 4294967296.
  - rewrite Z.mod_small; lia.
  - rewrite Z.mod_small; lia.
  - rewrite Z.mod_small; lia.
  - assert (v mod 4294967296 = v - 4294967295 * 4294967296); [|lia].
    symmetry. apply Z.mod_unique with 4294967295; lia.
Qed.
Lemma nz v ws : ws = 4 \/ ws = 8 -> 0 < v < 2 ^ 31 \/ modulus ws - 4095 <= v < modulus ws -> (v =? 0) = false.
Proof.
  intros [ -> | -> ] [H|H]; rewrite ?mod4, ?mod8 in H; apply Z.eqb_neq; lia.
Qed.

Ltac outs := let Hr := fresh in intros r Hr; unfold k_return, setr; asm; cbn in Hr;
  repeat match goal with |- context[Nat.eqb ?x ?y] => destruct (Nat.eqb_spec x y); [subst; exfalso; apply Hr; tauto|] end.

Lemma clone_x86_64 : wf_cpu X86_64 s -> wf_clone X86_64 c -> 20 <= c_stack c ->
  clone_operands X86_64 p gs dp arr c m0 s -> clone_ok X86_64 c gs s (run X86_64 (clone_asm X86_64 p) s).
Proof.
  intros Hw (Wf & Ws & Wn & Wa & Wt) Hs (H0 & H7 & H6 & H2 & H10 & H8 & H9 & H12 & Hm).
  unfold low32 in H7. unfold word_ok in *. cbn [wsz] in *. rewrite mod8 in *.
  exists [], (NR_clone X86_64), (map (regs s) (r_args X86_64)), s.
  split; [reflexivity|]. split; [intros x n []|]. split; [intros x _; reflexivity|].
  split. { unfold asks_clone, passes_tls. cbn [nth map r_args]. rewrite H6, H2, H10, H8. tauto. }
  split.
  - intros k hi Hhi (Hr & Hsp & Hk). xrun. rewrite H0. change (k_nr X86_64 (NR_clone X86_64)) with (NR_clone X86_64).
    rewrite Hr. change (0 mod 2 ^ 32 =? 0) with true. xrun. rewrite Hsp. cbn [nth map r_args].
    rewrite H6. ws.
    eexists _, _. split; [reflexivity|]. split; [reflexivity|].
    unfold c_arg, return_address, frame_pointer, abi_aligned, runs_on, stack_pointer. xregs.
    rewrite ?Hsp, ?Hr, ?H9, ?H12, ?H6.
    splits; try reflexivity; try lia.
    + apply ld_same. change (2 ^ (8 * Z.of_nat 8)) with 18446744073709551616. lia.
    + intros D. replace (c_stack c - 8 + 8) with (c_stack c) by lia. exact D.
    + intros x Hx. rewrite store_apart by (unfold inside; lia). apply Hk. lia.
    + intros x n [E|[]]. inversion E; subst. lia.
  - intros k (Hr & Hsp & Hk). xrun. rewrite H0. change (k_nr X86_64 (NR_clone X86_64)) with (NR_clone X86_64).
    rewrite (nz32 _ 8) by tauto. xrun.
    eexists _, _. split; [reflexivity|]. splits; xregs; try reflexivity.
    outs. destruct (Nat.eqb_spec r 4); [rewrite Hsp|]; reflexivity.
Qed.

Lemma clone_aarch64 : wf_cpu Aarch64 s -> wf_clone Aarch64 c -> 20 <= c_stack c ->
  (Aarch64 = Riscv64 -> regs s (r_nr Aarch64) < 2 ^ 32) -> pickable Aarch64 (p_fn p) = true -> pickable Aarch64 (p_n p) = true ->
  clone_operands Aarch64 p gs dp arr c m0 s -> clone_ok Aarch64 c gs s (run Aarch64 (clone_asm Aarch64 p) s).
Proof.
  intros Hw (Wf & Ws & Wn & Wa & Wt) Hs Hrv Pf Pn (Hnr & Hfl & Hst & Hpt & Htl & Hct & Hfn & Hna & Hm).
  unfold low32 in Hnr. unfold word_ok in *. cbn [wsz] in *.
  pose proof (Hw (r_nr Aarch64)) as Wnr. unfold word_ok in Wnr. cbn [r_nr wsz] in Wnr, Hrv.
  rewrite mod8 in *.
  assert (N : k_nr Aarch64 (regs s (r_nr Aarch64)) = NR_clone Aarch64).
  { cbn [r_nr]. unfold k_nr. exact Hnr. }
  cbn [r_nr] in N.
  unfold pickable in Pf, Pn. apply andb_true_iff in Pf, Pn. destruct Pf as [Lf Pf], Pn as [Ln Pn].
  pose proof (leb_neq _ _ Lf) as Lf'. pose proof (leb_neq _ _ Ln) as Ln'.
  apply negb_true_iff in Pf, Pn. cbn [existsb] in Pf, Pn.
  rewrite !orb_false_iff in Pf, Pn.
  decompose [and] Pf. decompose [and] Pn.
  exists [], (NR_clone Aarch64), (map (regs s) (r_args Aarch64)), s.
  split; [reflexivity|]. split; [intros x n []|]. split; [intros x _; reflexivity|].
  split. { unfold asks_clone, passes_tls. cbn [nth map r_args]. rewrite Hfl, Hst, Hpt, Htl, Hct.
    rewrite Z.mod_small by lia. tauto. }
  split.
  - intros k hi Hhi (Hr & Hsp & Hk). xrun. rewrite N. rewrite Hr. change (0 =? 0) with true. xrun. rewrite Hsp. cbn [nth map r_args].
    rewrite Hst.
    eexists _, _. split; [reflexivity|]. split; [reflexivity|].
    unfold c_arg, return_address, frame_pointer, abi_aligned, runs_on, stack_pointer. cbn [Nat.add]. xregs.
    rewrite ?Hsp, ?Hr, ?Hfn, ?Hna, ?Hst. cbn [nth map r_args]. rewrite ?Hst.
    splits; try reflexivity.
    + intros D. exact D.
    + intros x Hx. apply Hk. lia.
    + intros x n [].
  - intros k (Hr & Hsp & Hk). xrun. rewrite N.
    rewrite (nz _ 8) by tauto. xrun.
    eexists _, _. split; [reflexivity|]. splits; xregs; try reflexivity.
    outs. destruct (Nat.eqb_spec r 31); [rewrite Hsp|]; reflexivity.
Qed.

Lemma clone_arm : wf_cpu Arm s -> wf_clone Arm c -> 20 <= c_stack c ->
  (Arm = Riscv64 -> regs s (r_nr Arm) < 2 ^ 32) -> pickable Arm (p_fn p) = true -> pickable Arm (p_n p) = true ->
  clone_operands Arm p gs dp arr c m0 s -> clone_ok Arm c gs s (run Arm (clone_asm Arm p) s).
Proof.
  intros Hw (Wf & Ws & Wn & Wa & Wt) Hs Hrv Pf Pn (Hnr & Hfl & Hst & Hpt & Htl & Hct & Hfn & Hna & Hm).
  unfold low32 in Hnr. unfold word_ok in *. cbn [wsz] in *.
  pose proof (Hw (r_nr Arm)) as Wnr. unfold word_ok in Wnr. cbn [r_nr wsz] in Wnr, Hrv.
  rewrite mod4 in *.
  assert (N : k_nr Arm (regs s (r_nr Arm)) = NR_clone Arm).
  { cbn [r_nr]. unfold k_nr. exact Hnr. }
  cbn [r_nr] in N.
  unfold pickable in Pf, Pn. apply andb_true_iff in Pf, Pn. destruct Pf as [Lf Pf], Pn as [Ln Pn].
  pose proof (leb_neq _ _ Lf) as Lf'. pose proof (leb_neq _ _ Ln) as Ln'.
  apply negb_true_iff in Pf, Pn. cbn [existsb] in Pf, Pn.
  rewrite !orb_false_iff in Pf, Pn.
  decompose [and] Pf. decompose [and] Pn.
  exists [], (NR_clone Arm), (map (regs s) (r_args Arm)), s.
  split; [reflexivity|]. split; [intros x n []|]. split; [intros x _; reflexivity|].
  split. { unfold asks_clone, passes_tls. cbn [nth map r_args]. rewrite Hfl, Hst, Hpt, Htl, Hct.
    rewrite Z.mod_small by lia. tauto. }
  split.
  - intros k hi Hhi (Hr & Hsp & Hk). xrun. rewrite N. rewrite Hr. change (0 mod 2 ^ 32 =? 0) with true. xrun. rewrite Hsp. cbn [nth map r_args].
    rewrite Hst.
    eexists _, _. split; [reflexivity|]. split; [reflexivity|].
    unfold c_arg, return_address, frame_pointer, abi_aligned, runs_on, stack_pointer. cbn [Nat.add]. xregs.
    rewrite ?Hsp, ?Hr, ?Hfn, ?Hna, ?Hst. cbn [nth map r_args]. rewrite ?Hst.
    splits; try reflexivity.
    + intros D. exact D.
    + intros x Hx. apply Hk. lia.
    + intros x n [].
  - intros k (Hr & Hsp & Hk). xrun. rewrite N.
    rewrite (nz32 _ 4) by tauto. xrun.
    eexists _, _. split; [reflexivity|]. splits; xregs; try reflexivity.
    outs. destruct (Nat.eqb_spec r 13); [rewrite Hsp|]; reflexivity.
Qed.

Lemma clone_riscv64 : wf_cpu Riscv64 s -> wf_clone Riscv64 c -> 20 <= c_stack c ->
  (Riscv64 = Riscv64 -> regs s (r_nr Riscv64) < 2 ^ 32) -> pickable Riscv64 (p_fn p) = true -> pickable Riscv64 (p_n p) = true ->
  clone_operands Riscv64 p gs dp arr c m0 s -> clone_ok Riscv64 c gs s (run Riscv64 (clone_asm Riscv64 p) s).
Proof.
  intros Hw (Wf & Ws & Wn & Wa & Wt) Hs Hrv Pf Pn (Hnr & Hfl & Hst & Hpt & Htl & Hct & Hfn & Hna & Hm).
  unfold low32 in Hnr. unfold word_ok in *. cbn [wsz] in *.
  pose proof (Hw (r_nr Riscv64)) as Wnr. unfold word_ok in Wnr. cbn [r_nr wsz] in Wnr, Hrv.
  rewrite mod8 in *.
  assert (N : k_nr Riscv64 (regs s (r_nr Riscv64)) = NR_clone Riscv64).
  { cbn [r_nr]. unfold k_nr. rewrite <- Hnr. symmetry. apply Z.mod_small. specialize (Hrv eq_refl). lia. }
  cbn [r_nr] in N.
  unfold pickable in Pf, Pn. apply andb_true_iff in Pf, Pn. destruct Pf as [Lf Pf], Pn as [Ln Pn].
  pose proof (leb_neq _ _ Lf) as Lf'. pose proof (leb_neq _ _ Ln) as Ln'.
  apply negb_true_iff in Pf, Pn. cbn [existsb] in Pf, Pn.
  rewrite !orb_false_iff in Pf, Pn.
  decompose [and] Pf. decompose [and] Pn.
  exists [], (NR_clone Riscv64), (map (regs s) (r_args Riscv64)), s.
  split; [reflexivity|]. split; [intros x n []|]. split; [intros x _; reflexivity|].
  split. { unfold asks_clone, passes_tls. cbn [nth map r_args]. rewrite Hfl, Hst, Hpt, Htl, Hct.
    rewrite Z.mod_small by lia. tauto. }
  split.
  - intros k hi Hhi (Hr & Hsp & Hk). xrun. rewrite N. rewrite Hr. change (0 =? 0) with true. xrun. rewrite Hsp. cbn [nth map r_args].
    rewrite Hst.
    eexists _, _. split; [reflexivity|]. split; [reflexivity|].
    unfold c_arg, return_address, frame_pointer, abi_aligned, runs_on, stack_pointer. cbn [Nat.add]. xregs.
    rewrite ?Hsp, ?Hr, ?Hfn, ?Hna, ?Hst. cbn [nth map r_args]. rewrite ?Hst.
    splits; try reflexivity.
    + intros D. exact D.
    + intros x Hx. apply Hk. lia.
    + intros x n [].
  - intros k (Hr & Hsp & Hk). xrun. rewrite N.
    rewrite (nz _ 8) by tauto. xrun.
    eexists _, _. split; [reflexivity|]. splits; xregs; try reflexivity.
    outs. destruct (Nat.eqb_spec r 2); [rewrite Hsp|]; reflexivity.
Qed.

Lemma clone_x86 : wf_cpu X86 s -> wf_clone X86 c -> 20 <= c_stack c -> 0 <= gs < 2 ^ 16 ->
  caller_frame X86 (stack_pointer X86 s) dp arr (c_stack c) ->
  clone_operands X86 p gs dp arr c m0 s -> clone_ok X86 c gs s (run X86 (clone_asm X86 p) s).
Proof.
  intros Hw (Wf & Ws & Wn & Wa & Wt) Hs Hgs Hcf (Hm & Hst & Hfl & Hpt & Hct & Heax & Ltl & Lnr & Lna & Hd).
  destruct (Hcf eq_refl) as (F1 & F2 & F3 & F4 & F5 & F6 & F7 & F8 & F9 & F10). clear Hcf.
  unfold stack_pointer, r_sp, apart_from in F1, F2, F3, F4, F5, F6, F7, F8, F9, F10.
  pose proof (Hw 4%nat) as Wsp. pose proof (Hw 5%nat) as Wbp. pose proof (Hw 6%nat) as Wsi.
  unfold word_ok in *. cbn [wsz] in *. rewrite mod4 in *. change (2 ^ 32) with 4294967296 in *.
  set (sp := regs s 4%nat) in *.
  rewrite wsub_small in Hm, Hst by small.
  set (m1 := store_le (store_le (cmem s) (sp - 4) 4 (regs s 6%nat)) (sp - 8) 4 (regs s 5%nat)).
  assert (L1 : forall x, x + 4 <= sp - 8 \/ sp <= x -> load_le m1 x 4 = load_le (cmem s) x 4).
  { intros x Hx. unfold m1. rewrite !ld_other by (cbn; lia). reflexivity. }
  assert (L2 : forall x, x + 4 <= c_stack c - 4 \/ c_stack c <= x -> load_le (cmem s) x 4 = load_le m0 x 4).
  { intros x Hx. rewrite Hm. rewrite ld_other by (cbn; lia). reflexivity. }
  set (sc := Cpu (setr (setr (setr (setr (setr (regs s) 4 (sp - 4)) 4 (sp - 8)) 5 (c_nargs c)) 6 dp) 0 (NR_clone X86))%nat (zf s) m1).
  assert (R : forall k, run X86 (clone_asm X86 p) s [k] =
    let r := exec 14 X86 (skipn 6 (clone_asm X86 p)) (k_return X86 sc k) [] in
    ([EWrite (sp - 4) 4 (regs s 6%nat); EWrite (sp - 8) 4 (regs s 5%nat); ERead (arr + 8) 4; ERead arr 4; ERead (arr + 4) 4] ++
     ESys (NR_clone X86) (map (regs sc) (r_args X86)) sc :: fst r, snd r)).
  { intros k. unfold run, clone_asm. cbn [length skipn]. rewrite x86_prefix. cbv zeta. fold sp.
    rewrite !(wsub_small 4 sp) by small. rewrite (wsub_small 4 (sp - 4)) by small.
    replace (sp - 4 - 4) with (sp - 8) by lia. fold m1.
    rewrite !Heax. rewrite !wadd_small by small. replace (arr + 0) with arr by lia.
    rewrite !L1 by lia. rewrite !L2 by lia. rewrite Ltl, Lnr, Lna. fold sc.
    replace (k_nr X86 (regs sc 0%nat)) with (NR_clone X86) by reflexivity. cbn [app]. reflexivity. }
  exists [EWrite (sp - 4) 4 (regs s 6%nat); EWrite (sp - 8) 4 (regs s 5%nat); ERead (arr + 8) 4; ERead arr 4; ERead (arr + 4) 4],
    (NR_clone X86), (map (regs sc) (r_args X86)), sc.
  assert (A : map (regs sc) (r_args X86) = [c_flags c; c_stack c - 4; c_ptid c; dp; c_ctid c; c_nargs c]).
  { unfold sc. xregs. rewrite Hfl, Hst, Hpt, Hct. reflexivity. }
  fold sp. change (stack_pointer X86 s) with sp.
  split; [reflexivity|].
  split. { intros x n [E|[E|[]]]; inversion E; subst; lia. }
  split. { intros x Hx. unfold within in Hx. change (m1 x = cmem s x). unfold m1. rewrite !store_apart by (unfold inside; cbn; lia). reflexivity. }
  split.
  { unfold asks_clone, passes_tls. rewrite A. cbn [nth]. rewrite Z.mod_small by lia.
    splits; try reflexivity. exists (clone_desc gs (c_tls c)). splits.
    - destruct Hd as (D1 & D2 & D3 & D4). unfold desc_at. change (cmem sc) with m1. rewrite !L1, !L2 by lia. tauto.
    - repeat split; vm_compute; reflexivity. - repeat split; vm_compute; reflexivity.
    - cbn [clone_desc ud_base]. apply Z.mod_small. change (2 ^ 32) with 4294967296. lia.
    - cbn [clone_desc ud_entry]. rewrite Z.shiftr_div_pow2 by lia. reflexivity. }
  split.
  - intros k hi Hhi (Hr & Hsp & Hk). rewrite R. cbv zeta. unfold clone_asm. cbn [skipn].
    rewrite A in Hsp. cbn [nth] in Hsp.
    assert (FN : load_le (k_mem k) (c_stack c - 4) 4 = c_fn c).
    { transitivity (load_le (cmem s) (c_stack c - 4) 4).
      - transitivity (load_le m1 (c_stack c - 4) 4); [|apply L1; lia]. apply load_le_ext.
        intros i Hi. apply Hk. lia.
      - rewrite Hm. apply ld_same. change (2 ^ (8 * Z.of_nat 4)) with 4294967296. lia. }
    rewrite x_test. xregs. rewrite Hr. change (0 mod 2 ^ 32 =? 0) with true. repeat x1.
    rewrite Hsp, FN, Hr. rewrite !wadd_small by small. replace (c_stack c - 4 + 4) with (c_stack c) by lia.
    rewrite (wsub_small 4 (c_stack c)) by small. rewrite (wsub_small 4 (c_stack c - 4)) by small.
    rewrite (wsub_small 4 (c_stack c - 4 - 4)) by small. rewrite (wsub_small 4 (c_stack c - 4 - 4 - 4)) by small.
    rewrite (wsub_small 4 (c_stack c - 4 - 4 - 4 - 4)) by small.
    unfold sc at 3 4 5 6 7. xregs.
    eexists _, _. split; [reflexivity|]. split; [reflexivity|].
    unfold c_arg, return_address, frame_pointer, abi_aligned, runs_on, stack_pointer. xregs.
    splits.
    + replace (c_stack c - 4 - 4 - 4 - 4 - 4 + 4 + 4 * Z.of_nat 0) with (c_stack c - 4 - 4 - 4 - 4) by lia.
      rewrite ld_other by lia. apply ld_same. change (2 ^ (8 * Z.of_nat 4)) with 4294967296. lia.
    + replace (c_stack c - 4 - 4 - 4 - 4 - 4 + 4 + 4 * Z.of_nat 1) with (c_stack c - 4 - 4 - 4) by lia.
      rewrite !ld_other by lia. apply ld_same. change (2 ^ (8 * Z.of_nat 4)) with 4294967296. lia.
    + replace (c_stack c - 4 - 4 - 4 - 4 - 4 + 4 + 4 * Z.of_nat 2) with (c_stack c - 4 - 4) by lia.
      rewrite !(ld_other 4 4 _ (c_stack c - 4 - 4)) by lia. apply ld_same. change (2 ^ (8 * Z.of_nat 4)) with 4294967296. lia.
    + apply ld_same. cbn. lia.
    + reflexivity.
    + intros D. replace (c_stack c - 4 - 4 - 4 - 4 - 4 + 4) with (c_stack c - 16) by lia. apply divide_sub; [exact D|exists 1; lia].
    + lia.
    + lia.
    + intros x Hx. rewrite !store_apart by (unfold inside; cbn; lia). apply Hk. lia.
    + intros x n Hx. repeat (destruct Hx as [E|Hx]; [inversion E; subst; lia|]). contradiction.
  - intros k (Hr & Hsp & Hk). rewrite R. cbv zeta. unfold clone_asm. cbn [skipn].
    rewrite x_test. xregs. rewrite (nz32 _ 4) by tauto. repeat x1. rewrite Hsp.
    replace (regs sc 4%nat) with (sp - 8) by (unfold sc; xregs; reflexivity).
    rewrite !wadd_small by small. replace (sp - 8 + 4) with (sp - 4) by lia.
    replace (sp - 4 + 4) with sp by lia.
    assert (B5 : load_le (k_mem k) (sp - 8) 4 = regs s 5%nat).
    { transitivity (load_le m1 (sp - 8) 4); [apply load_le_ext; intros i Hi; apply Hk; lia|].
      unfold m1. apply ld_same. change (2 ^ (8 * Z.of_nat 4)) with 4294967296. lia. }
    assert (B6 : load_le (k_mem k) (sp - 4) 4 = regs s 6%nat).
    { transitivity (load_le m1 (sp - 4) 4); [apply load_le_ext; intros i Hi; apply Hk; lia|].
      unfold m1. rewrite ld_other by lia. apply ld_same. change (2 ^ (8 * Z.of_nat 4)) with 4294967296. lia. }
    rewrite B5, B6.
    eexists _, _. split; [reflexivity|]. splits; xregs; try reflexivity.
    intros r Hr'. cbn in Hr'. xred.
    destruct (Nat.eqb_spec r 6); [subst; xregs; reflexivity|].
    destruct (Nat.eqb_spec r 4); [subst; xregs; reflexivity|].
    destruct (Nat.eqb_spec r 5); [subst; xregs; reflexivity|].
    assert (r <> 0%nat) by (intros ->; tauto).
    rewrite !setr_other by (apply Nat.eqb_neq; assumption).
    rewrite kr_other by (try reflexivity; apply Nat.eqb_neq; assumption).
    unfold sc. xred. rewrite !setr_other by (apply Nat.eqb_neq; assumption). reflexivity.
Qed.
End Clone.
