(** C63: the checks origin makes where assembly enters Rust (debug builds) never
    fail, for the program and for every created thread, and what they check is
    what the ABI requires, except on arm. *)
From Coq Require Import ZArith Lia List Bool.
From Verif Require Import Machine LayoutModel LayoutSpec LayoutFacts LayoutTop LayoutTop4 AsmModel AsmSpec AsmProofs Props_Layout Props_Asm EntryModel.
Import ListNotations.
Open Scope Z_scope.

Lemma land15 x : Z.land x 15 = x mod 16.
Proof. change 15 with (Z.ones 4). rewrite Z.land_ones by lia. reflexivity. Qed.
Lemma land7 x : Z.land x 7 = x mod 8.
Proof. change 7 with (Z.ones 3). rewrite Z.land_ones by lia. reflexivity. Qed.
Lemma land3 x : Z.land x 3 = x mod 4.
Proof. change 3 with (Z.ones 2). rewrite Z.land_ones by lia. reflexivity. Qed.

(** The frame lies on the stack, not at address 0: the aarch64 frame is at most
    [k] * 16 bytes. *)
Definition room (a : arch) (k sp : Z) : Prop := 1 <= k /\ 16 * k < sp.

Ltac bools := repeat match goal with
  | |- _ && _ = true => apply andb_true_intro; split
  | |- negb _ = true => apply negb_true_iff
  | |- (_ =? _) = true => apply Z.eqb_eq
  | |- (_ =? _) = false => apply Z.eqb_neq
  | |- (_ <=? _) = true => apply Z.leb_le
  end.
Ltac mods := repeat match goal with H : (_ | _) |- _ => destruct H as [? H] end;
  rewrite ?land15, ?land7, ?land3;
  match goal with |- ?x mod ?n = ?r => Z.to_euclidean_division_equations; lia end.

(** * The program *)
(** Linux starts the program with a 16-byte aligned stack pointer. *)
Theorem C63_program a s ks k :
  wf_cpu a s -> (16 | stack_pointer a s) -> (a <> Riscv64 -> frame_pointer a s = 0) -> 36 <= stack_pointer a s -> room a k (stack_pointer a s) ->
  exists t s', run a (start_asm a) s ks = (t, Entered s') /\
    program_checks (c_arg a s' 0) = true /\ program_nightly_checks a (c_arg a s' 0) (seen a k s') = true.
Proof.
  intros Hw Ha Hf Hs Hk.
  destruct (C42_start a s ks Hw) as (t & s' & R & _ & C & RA & FP & AL & ON & _); auto; [|lia|].
  { eapply Z.divide_trans; [|exact Ha]. destruct a; cbn; try apply Z.divide_refl. exists 2. reflexivity. }
  exists t, s'. split; [exact R|]. unfold room in Hk.
  assert (F : v_return (seen a k s') = 0 /\ v_frame1 (seen a k s') = 0).
  { unfold return_address, frame_pointer, stack_pointer in RA, FP. destruct a; cbn [seen v_return v_frame1]; auto. }
  destruct F as [F1 F2]. split.
  - unfold program_checks. rewrite C. bools; [lia|]. mods.
  - unfold program_nightly_checks. rewrite C, F1, F2. unfold runs_on, abi_aligned, stack_pointer in *.
    destruct a; cbn [seen v_frame v_sp wsz r_sp abi_align_stack] in *; bools; try lia; try mods; try reflexivity.
Qed.
Print Assumptions C63_program.

(** * Threads *)
(** The stack pointer `create` gives clone is aligned to 16, on arm to 4. *)
Definition given_alignment (a : arch) : Z := match a with Arm => 4 | _ => 16 end.

Lemma thread_checks_pass a k c s' :
  (given_alignment a | c_stack c) -> 36 <= c_stack c -> room a k (c_stack c) ->
  return_address a s' = 0 -> frame_pointer a s' = 0 -> runs_on a (c_stack c) s' ->
  ((abi_align_stack a | c_stack c) -> abi_aligned a s') ->
  thread_nightly_checks a (seen a k s') = true.
Proof.
  intros Ha Hs Hk RA FP ON AL. unfold room in Hk.
  assert (F : v_return (seen a k s') = 0 /\ v_frame1 (seen a k s') = 0).
  { unfold return_address, frame_pointer, stack_pointer in RA, FP. destruct a; cbn [seen v_return v_frame1]; auto. }
  destruct F as [F1 F2]. unfold thread_nightly_checks. rewrite F1, F2. unfold runs_on, abi_aligned, stack_pointer in *.
  destruct a; cbn [seen v_frame v_sp wsz r_sp abi_align_stack given_alignment] in *; try specialize (AL Ha); bools; try lia; try mods; try reflexivity.
Qed.

Theorem C63_thread ck a td tls page m tpreg ans fn args stack_size guard_size t log m' :
  successful_create ck a td tls page m tpreg ans fn args stack_size guard_size t log m' ->
  Z.of_nat (length args) * wsz a + 56 <= stack_size ->
  exists sp ptid ctid tp r, In (SClone sp ptid ctid tp fn (Z.of_nat (length args)) r) log /\
  forall p gs dp arr flags m0 s k,
    let n := Z.of_nat (length args) in
    (* the state in which `create` reaches the assembly *)
    wf_cpu a s -> wf_clone a (CA flags sp ptid ctid tp fn n) -> 0 <= gs < 2 ^ 16 ->
    pickable a (p_fn p) = true -> pickable a (p_n p) = true -> (a = Riscv64 -> regs s (r_nr a) < 2 ^ 32) ->
    caller_frame a (stack_pointer a s) dp arr sp ->
    clone_operands a p gs dp arr (CA flags sp ptid ctid tp fn n) m0 s ->
    room a k sp ->
    exists nr ca sc pre,
      asks_clone a flags (match a with X86 => sp - 4 | _ => sp end) ptid ctid (passes_tls a gs tp) (nr, ca, sc) /\
      forall kr, child_resumes sc (nth 1 ca 0) (sp - 20) sp kr ->
      exists post s', run a (clone_asm a p) s [kr] = (pre ++ ESys nr ca sc :: post, Entered s') /\
        thread_nightly_checks a (seen a k s') = true.
Proof.
  intros SC Hroom.
  destruct (sc_created _ _ _ _ _ _ _ _ _ _ _ _ _ _ _ SC) as (map & sp & C).
  pose proof (sc_bounds _ _ _ _ _ _ _ _ _ _ _ _ _ _ _ SC _ _ C) as B.
  pose proof (sc_good _ _ _ _ _ _ _ _ _ _ _ _ _ _ _ SC) as GL.
  destruct C. set (L := ideal a td tls page stack_size guard_size) in *.
  assert (SA : STACK_ALIGNMENT a = given_alignment a) by (destruct a; reflexivity).
  assert (S16 : 4 <= given_alignment a <= 16) by (destruct a; cbn; lia).
  pose proof (align_to_bounds (Z.of_nat (length args) * wsz a) (STACK_ALIGNMENT a) ltac:(lia)) as AB.
  pose proof (gl_stack _ _ _ _ _ _ GL) as GS.
  assert (B0 : 0 <= map + l_stack_bottom L) by (pose proof (gl_guard _ _ _ _ _ _ GL); lia).
  assert (Hsp20 : map + l_stack_bottom L + 36 <= sp) by lia.
  assert (Hal : (given_alignment a | sp)).
  { rewrite cr_sp, SA. apply Z.divide_sub_r; [|apply align_to_div; lia].
    apply Z.divide_add_r.
    - apply Z.divide_trans with page; [|apply B].
      destruct (wf_env_page _ _ _ _ (sc_env _ _ _ _ _ _ _ _ _ _ _ _ _ _ _ SC)) as (e & He & ->).
      apply Z.divide_trans with (2 ^ 4); [destruct a; cbn; try apply Z.divide_refl; exists 4; reflexivity|].
      exists (2 ^ (e - 4)); rewrite <- Z.pow_add_r by lia; f_equal; lia.
    - pose proof (gl_top_aligned _ _ _ _ _ _ GL) as X. eapply Z.divide_trans; [|exact X]. destruct a; cbn; try apply Z.divide_refl; exists 4; reflexivity. }
  exists sp, (t + o_tid td), (t + o_tid td), (abi_at a td (map + l_header L) ThreadPointee), (ans_clone ans).
  split; [rewrite cr_log; right; right; left; reflexivity|].
  intros p gs dp arr flags m0 s k n Hw Hc Hg Hpf Hpn Hrv Hcf Ho Hk.
  set (ca := CA flags sp (t + o_tid td) (t + o_tid td) (abi_at a td (map + l_header L) ThreadPointee) fn n) in *.
  destruct (C41_clone a p gs dp arr ca m0 s Hw Hc ltac:(cbn [ca c_stack]; lia) Hg Hpf Hpn Hrv Hcf Ho)
    as (pre & nr & cargs & sc & _ & _ & _ & Hask & Hchild & _).
  exists nr, cargs, sc, pre. split; [exact Hask|]. intros kr Hkr.
  destruct (Hchild kr sp ltac:(cbn [ca c_stack]; lia) Hkr) as (post & s' & Hrun & _ & _ & _ & _ & Hra & Hfp & Hab & Hon & _).
  exists post, s'. split; [exact Hrun|]. apply (thread_checks_pass a k ca s'); cbn [ca c_stack]; auto. lia.
Qed.
Print Assumptions C63_thread.

(** * What the checks are worth *)
(** A thread entered with a misaligned stack, or a non-null return address or
    frame pointer, would be caught, ... *)
Theorem C63_checks_complete a k s : a <> Arm -> 
  thread_nightly_checks a (seen a k s) = true -> return_address a s = 0 /\ frame_pointer a s = 0 /\ abi_aligned a s /\
  v_frame (seen a k s) <> 0 /\ (a = Aarch64 -> stack_pointer a s <> 0).
Proof.
  intros NA H.
  assert (X : v_frame (seen a k s) <> 0 /\ (a = Aarch64 -> stack_pointer a s <> 0)).
  { clear NA. unfold thread_nightly_checks in H. repeat (apply andb_prop in H as [H ?]).
    match goal with Y : negb (v_frame _ =? 0) = true |- _ => apply negb_true_iff, Z.eqb_neq in Y; split; [exact Y|] end.
    intros ->. cbn in *. match goal with Y : negb (regs s 31 =? 0) && _ = true |- _ => apply andb_prop in Y as [Y _]; now apply negb_true_iff, Z.eqb_neq in Y end. }
  cut (return_address a s = 0 /\ frame_pointer a s = 0 /\ abi_aligned a s); [tauto|]. clear X. unfold thread_nightly_checks in H. repeat (apply andb_prop in H as [H ?]).
  apply Z.eqb_eq in H. repeat match goal with X : (_ =? _) = true |- _ => apply Z.eqb_eq in X end.
  unfold return_address, frame_pointer, abi_aligned, stack_pointer.
  destruct a; try congruence; cbn [seen v_frame v_return v_frame1 v_sp word wsz r_sp abi_align_stack] in *; (split; [assumption|]); (split; [assumption|]);
    rewrite land15 in *; try (apply andb_prop in H0 as [? H0]; apply Z.eqb_eq in H0; rewrite land15 in H0; now apply Z.mod_divide);
    try (apply Z.mod_divide; [lia|]; Z.to_euclidean_division_equations; lia).
Qed.
Print Assumptions C63_checks_complete.
(** At program start the checks are complete on every architecture, and also
    pin down the pointer to the kernel's data. *)
Theorem C63_program_checks_complete a k mem_ s :
  program_checks mem_ = true -> program_nightly_checks a mem_ (seen a k s) = true ->
  mem_ <> 0 /\ (16 | mem_) /\ v_frame (seen a k s) <= mem_ /\ v_frame (seen a k s) <> 0 /\
  return_address a s = 0 /\ frame_pointer a s = 0 /\ abi_aligned a s /\ (a = Aarch64 -> stack_pointer a s <> 0).
Proof.
  unfold program_checks, program_nightly_checks. intros P H. repeat (apply andb_prop in P as [P ?]). repeat (apply andb_prop in H as [H ?]).
  apply Z.leb_le in H. apply negb_true_iff, Z.eqb_neq in P.
  repeat match goal with X : (_ =? _) = true |- _ => apply Z.eqb_eq in X | X : negb _ = true |- _ => apply negb_true_iff, Z.eqb_neq in X end.
  rewrite land15 in *. split; [exact P|]. split; [now apply Z.mod_divide|]. split; [exact H|]. split; [assumption|].
  unfold return_address, frame_pointer, abi_aligned, stack_pointer.
  destruct a; cbn [seen v_frame v_return v_frame1 v_sp word wsz r_sp abi_align_stack] in *;
    try match goal with X : _ && _ = true |- _ => apply andb_prop in X as [X Y]; apply negb_true_iff, Z.eqb_neq in X; apply Z.eqb_eq in Y; rewrite land15 in Y end;
    rewrite ?land15, ?land7 in *; (split; [assumption|]); (split; [assumption|]); (split; [|try discriminate; try (intros _; assumption)]); try
    (apply Z.mod_divide; [lia|]; Z.to_euclidean_division_equations; lia).
  intros _. apply andb_prop in H1 as [H1 _]. now apply negb_true_iff, Z.eqb_neq in H1.
Qed.
Print Assumptions C63_program_checks_complete.
(** ... except on arm, where the thread's check accepts a stack the calling
    convention forbids (and `create` makes such stacks: C19). *)
Theorem C63_arm_check_refuted : exists s, thread_nightly_checks Arm (seen Arm 1 s) = true /\ ~ abi_aligned Arm s.
Proof.
  exists (Cpu (fun r => if Nat.eqb r 13 then 0x10004 else 0) false (fun _ => 0)). split; [reflexivity|].
  unfold abi_aligned, stack_pointer. cbn. intros [z Hz]. lia.
Qed.
Print Assumptions C63_arm_check_refuted.

(** The hypotheses are met: [create_ex]'s thread on x86-64, with the stack
    pointer, tid address and thread pointer of that call. *)
Definition ex_regs (r : nat) : Z :=
  nth r [56; 0; 7448296; 0; 0x7ff0; 0; 7448192; 0x7d0f00; 7448248; 0x4000; 7448296; 0; 3]%Z 0.
Definition ex_s : cpu := Cpu ex_regs false (fun _ => 0).
Theorem C63_ex : exists t log m', 
  successful_create true X86_64 td8 tls_ex 4096 mem0 0 ans_ex 0x4000 [11; 22; 33] 100000 5000 t log m' /\
  Z.of_nat (length [11; 22; 33]) * wsz X86_64 + 56 <= 100000 /\
  In (SClone 7448192 7448296 7448296 7448248 0x4000 3 77) log /\
  wf_cpu X86_64 ex_s /\ wf_clone X86_64 (CA 0x7d0f00 7448192 7448296 7448296 7448248 0x4000 3) /\
  pickable X86_64 0 = true /\ caller_frame X86_64 (stack_pointer X86_64 ex_s) 0 0 7448192 /\
  clone_operands X86_64 (Pick 0 0) 0 0 0 (CA 0x7d0f00 7448192 7448296 7448296 7448248 0x4000 3) (cmem ex_s) ex_s /\
  room X86_64 1 7448192.
Proof.
  destruct create_ex as (t & log & m' & SC). exists t, log, m'. split; [exact SC|].
  pose proof (sc_call _ _ _ _ _ _ _ _ _ _ _ _ _ _ _ SC) as E.
  assert (EL : log = snd (fst (create true X86_64 td8 tls_ex 4096 mem0 0 ans_ex 0x4000 [11; 22; 33] 100000 5000))) by (rewrite E; reflexivity).
  split; [cbn; lia|]. split. { rewrite EL. vm_compute. right. right. left. reflexivity. }
  split. { intros r. unfold word_ok. change (modulus (wsz X86_64)) with 18446744073709551616. cbn [regs ex_s]. unfold ex_regs.
    do 13 (destruct r; [cbn; lia|]). cbn [nth]. destruct r; lia. }
  split. { unfold wf_clone, word_ok. change (modulus (wsz X86_64)) with 18446744073709551616. cbn. lia. }
  split; [reflexivity|]. split; [intros X; discriminate X|]. split; [repeat split|]. unfold room. lia.
Qed.
Print Assumptions C63_ex.
Theorem C63_program_ex : wf_cpu X86 ex_start /\ (16 | stack_pointer X86 ex_start) /\ frame_pointer X86 ex_start = 0 /\
  36 <= stack_pointer X86 ex_start /\ room X86 1 (stack_pointer X86 ex_start).
Proof.
  destruct C42_ex as (A & B & C & _). split; [exact A|]. split; [exact B|]. split; [exact C|]. unfold room. split; [|split]; vm_compute; congruence.
Qed.
