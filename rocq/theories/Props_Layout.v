(** Property theorems C17-C27, C45, C47: thread memory.
    Vocabulary: [LayoutSpec.v]; model: [LayoutModel.v]. *)
From Coq Require Import ZifyBool.
From Verif Require Import Machine MachineFacts LayoutModel LayoutSpec LayoutFacts LayoutTop LayoutTop2 LayoutTop3 LayoutTop4 LayoutTop5.

(** * A concrete environment (used to show that hypotheses can be met) *)
Definition td8 : td_layout := TD 48 8 0 4 8 16 24 32 40 None.
Definition td4 : td_layout := TD 28 4 0 4 8 12 16 20 24 None.
Definition tls_ex : tls_info := Tls 0x5000 24 12 8.
Lemma env_ex : wf_env X86_64 td8 tls_ex 4096.
Proof.
  constructor.
  - constructor; cbn; try discriminate; try lia; try (exists 6; lia); repeat constructor; cbn; unfold apart; cbn; lia.
  - constructor; cbn; try lia. exists 3. split; [lia|reflexivity].
  - exists 12. split; [lia|reflexivity].
Qed.
Definition mem0 : mem := fun x => x mod 251.

Ltac solve_env :=
  constructor; [constructor; cbn; try discriminate; try lia; repeat constructor; cbn; unfold apart; cbn; lia
               |constructor; cbn; try lia|exists 12; split; [lia|reflexivity]].

(** * C17 thread memory layout *)
Theorem thread_layout_good ck a td tls page stack_size guard_size L :
  wf_env a td tls page -> usize a stack_size -> usize a guard_size ->
  checked_or_fits ck a td tls page stack_size guard_size ->
  create_layout ck a td tls page stack_size guard_size = Some L ->
  good_layout tls page stack_size guard_size (meta_size a td) L.
Proof. intros Hwf Hs Hg Hc HL. exact (layout_good a td tls page Hwf ck stack_size guard_size L Hs Hg Hc HL). Qed.
Print Assumptions thread_layout_good.
(** ... and a request that fits is never refused by the computation. *)
Theorem thread_layout_exists ck a td tls page stack_size guard_size :
  wf_env a td tls page -> usize a stack_size -> usize a guard_size ->
  fits a td tls page stack_size guard_size ->
  exists L, create_layout ck a td tls page stack_size guard_size = Some L.
Proof. intros Hwf Hs Hg Hf. exact (ex_intro _ _ (layout_fits a td tls page Hwf stack_size guard_size Hs Hg ck Hf)). Qed.
Print Assumptions thread_layout_exists.
Example thread_layout_ex :
  create_layout true X86_64 td8 tls_ex 4096 100000 5000 =
  Some (Layout 8192 108192 108192 108216 108312).
Proof. reflexivity. Qed.

(** * A concrete successful call of `create` *)
Definition ans_ex : answers := Answers (Some 0x700000) true 77.
Lemma create_ex : exists t log m',
  successful_create true X86_64 td8 tls_ex 4096 mem0 0 ans_ex 0x4000 [11; 22; 33] 100000 5000 t log m'.
Proof.
  destruct (create true X86_64 td8 tls_ex 4096 mem0 0 ans_ex 0x4000 [11; 22; 33] 100000 5000) as [[r log] m'] eqn:E.
  assert (R : (r, log) = fst (create true X86_64 td8 tls_ex 4096 mem0 0 ans_ex 0x4000 [11; 22; 33] 100000 5000)) by (rewrite E; reflexivity).
  vm_compute in R. inversion R; subst. eexists _, _, m'.
  constructor; [apply env_ex|unfold usize; cbn; lia|unfold usize; cbn; lia|left; reflexivity|exact E| | |cbn; lia].
  - intros len map [H|H]; cbn in H; repeat destruct H as [H|H]; try discriminate; try contradiction.
    inversion H; subst. repeat split; try lia. exists 0x700; lia. vm_compute. discriminate.
  - intros len map [H|H]; cbn in H; repeat destruct H as [H|H]; try discriminate; try contradiction.
    inversion H; subst. left. cbn. lia.
Qed.

(** * C18 the guard is inaccessible and `stack()` tells the truth *)
Theorem stack_and_guard ck a td tls page m tpreg ans fn args stack_size guard_size t log m' (before : Z -> prot) :
  successful_create ck a td tls page m tpreg ans fn args stack_size guard_size t log m' ->
  exists addr, stack_of a td m' t = (addr, stack_size, guard_size) /\
    (forall x, addr <= x < addr + stack_size -> prot_after page before log x = ReadWrite) /\
    (forall x, addr - guard_size <= x < addr -> prot_after page before log x = NoAccess).
Proof. intros SC. exact (stack_truthful _ _ _ _ _ _ _ _ _ _ _ _ _ _ _ before SC). Qed.
Print Assumptions stack_and_guard.

(** * C19 arguments reach the new thread *)
Theorem args_reach_thread ck a td tls page m tpreg ans fn args stack_size guard_size t log m' (before : Z -> prot) :
  a <> Arm ->
  successful_create ck a td tls page m tpreg ans fn args stack_size guard_size t log m' ->
  (forall v, In v args -> usize a v) ->
  exists sp ptid ctid tp r addr,
    In (SClone sp ptid ctid tp fn (Z.of_nat (length args)) r) log /\
    stack_of a td m' t = (addr, stack_size, guard_size) /\ addr <= sp /\
    (forall i v, nth_error args i = Some v -> load_le m' (sp + Z.of_nat i * wsz a) (word a) = v) /\
    (forall x, sp <= x < sp + Z.of_nat (length args) * wsz a -> prot_after page before log x = ReadWrite) /\
    (abi_stack_align a | sp).
Proof.
  intros Ha SC Hv. destruct a; try (exact (args_reach _ _ _ _ _ _ _ _ _ _ _ _ _ _ _ before SC Hv)).
  exfalso. apply Ha. reflexivity.
Qed.
Print Assumptions args_reach_thread.
(** On arm everything but the ABI's 8-byte stack alignment holds (4 bytes only)... *)
Theorem args_reach_thread_arm_partial ck td tls page m tpreg ans fn args stack_size guard_size t log m' (before : Z -> prot) :
  successful_create ck Arm td tls page m tpreg ans fn args stack_size guard_size t log m' ->
  (forall v, In v args -> usize Arm v) ->
  exists sp ptid ctid tp r addr,
    In (SClone sp ptid ctid tp fn (Z.of_nat (length args)) r) log /\
    stack_of Arm td m' t = (addr, stack_size, guard_size) /\ addr <= sp /\
    (forall i v, nth_error args i = Some v -> load_le m' (sp + Z.of_nat i * 4) 4 = v) /\
    (forall x, sp <= x < sp + Z.of_nat (length args) * 4 -> prot_after page before log x = ReadWrite) /\
    (4 | sp).
Proof. intros SC Hv. exact (args_reach _ _ _ _ _ _ _ _ _ _ _ _ _ _ _ before SC Hv). Qed.
Print Assumptions args_reach_thread_arm_partial.
(** ... and that alignment really fails: one argument suffices. *)
Definition tls_ex4 : tls_info := Tls 0x5000 24 12 4.
Lemma env_ex_arm : wf_env Arm td4 tls_ex4 4096.
Proof.
  constructor.
  - constructor; cbn; try discriminate; try lia; try (exists 7; lia); repeat constructor; cbn; unfold apart; cbn; lia.
  - constructor; cbn; try lia. exists 2. split; [lia|reflexivity].
  - exists 12. split; [lia|reflexivity].
Qed.
Theorem args_stack_alignment_arm_refuted :
  exists t log m' sp p c tp r,
    successful_create true Arm td4 tls_ex4 4096 mem0 0 ans_ex 0x4000 [11] 100000 4096 t log m' /\
    In (SClone sp p c tp 0x4000 1 r) log /\ ~ (abi_stack_align Arm | sp).
Proof.
  destruct (create true Arm td4 tls_ex4 4096 mem0 0 ans_ex 0x4000 [11] 100000 4096) as [[r log] m'] eqn:E.
  assert (R : (r, log) = fst (create true Arm td4 tls_ex4 4096 mem0 0 ans_ex 0x4000 [11] 100000 4096)) by (rewrite E; reflexivity).
  vm_compute in R. inversion R; subst. eexists _, _, m', _, _, _, _, _. split; [|split].
  - constructor; [apply env_ex_arm|unfold usize; cbn; lia|unfold usize; cbn; lia|left; reflexivity|exact E| | |cbn; lia].
    + intros len map [H|H]; cbn in H; repeat destruct H as [H|H]; try discriminate; try contradiction.
      inversion H; subst. repeat split; try lia. exists 0x700; lia. vm_compute. discriminate.
    + intros len map [H|H]; cbn in H; repeat destruct H as [H|H]; try discriminate; try contradiction.
      inversion H; subst. left. cbn. lia.
  - right. right. left. reflexivity.
  - intros D. apply Z.mod_divide in D; [|discriminate]. vm_compute in D. discriminate.
Qed.
Print Assumptions args_stack_alignment_arm_refuted.

(** * C20 each thread starts with a fresh TLS image *)
Theorem created_thread_tls_fresh ck a td tls page m tpreg ans fn args stack_size guard_size t log m' L len map :
  successful_create ck a td tls page m tpreg ans fn args stack_size guard_size t log m' ->
  create_layout ck a td tls page stack_size guard_size = Some L -> In (SMmap len (Some map)) log ->
  fresh_tls tls m m' (map + l_tls L) /\
  exists sp, map + l_stack_bottom L <= sp /\ sp + Z.of_nat (length args) * wsz a <= map + l_stack_top L /\
    forall x, ~ inside (map + l_tls L) (tls_memsz tls) x ->       (* outside the TLS block, *)
      ~ inside (map + l_header L) (meta_size a td) x ->             (* the thread record *)
      ~ inside sp (Z.of_nat (length args) * wsz a) x ->             (* and the arguments *)
      m' x = m x.
Proof. intros SC HL Hm. exact (created_tls_fresh _ _ _ _ _ _ _ _ _ _ _ _ _ _ _ _ _ _ SC HL Hm). Qed.
Print Assumptions created_thread_tls_fresh.
Theorem main_thread_tls_fresh ck a td tls page m sp execfn_end rlim random ans tid R :
  successful_main ck a td tls page m sp execfn_end rlim random ans tid R ->
  exists new len tls_off rec_off, mr_log R = [SMmapRW len (Some new)] /\
    mr_tp R = abi_at a td (new + rec_off) ThreadPointee /\
    new <= new + tls_off /\ new + tls_off + tls_memsz tls <= new + len /\
    new <= new + rec_off /\ new + rec_off + meta_size a td <= new + len /\
    fresh_tls tls m (mr_mem R) (new + tls_off) /\ (tls_align tls | new + tls_off) /\
    (forall x, ~ inside (new + tls_off) (tls_memsz tls) x ->
       ~ inside (new + rec_off) (meta_size a td) x -> mr_mem R x = m x).
Proof. intros SM. exact (main_tls_fresh _ _ _ _ _ _ _ _ _ _ _ _ _ SM). Qed.
Print Assumptions main_thread_tls_fresh.

Lemma main_ex : exists R,
  successful_main true X86_64 td8 tls_ex 4096 mem0 0x7ff000 0x7fffe8 (Some 0x10000) 0x7ff800 (Some 0x700000) 42 R.
Proof.
  destruct (initialize_main true X86_64 td8 tls_ex 4096 mem0 0x7ff000 0x7fffe8 (Some 0x10000) 0x7ff800 (Some 0x700000) 42) as [R|] eqn:E.
  - exists R. assert (EL : mr_log R = [SMmapRW 120 (Some 0x700000)]).
    { pose proof (f_equal (fun o => match o with Some r => mr_log r | None => [] end) E) as H. vm_compute in H. symmetry. exact H. }
    constructor; [apply env_ex|left; reflexivity|exact E| |].
    + intros len map [H|H]; rewrite EL in H; cbn in H; repeat destruct H as [H|H]; try discriminate; try contradiction.
      inversion H; subst. repeat split; try lia. exists 0x700; lia. vm_compute. discriminate.
    + intros len map [H|H]; rewrite EL in H; cbn in H; repeat destruct H as [H|H]; try discriminate; try contradiction.
      inversion H; subst. left. cbn. lia.
  - exfalso. pose proof (f_equal (fun o => match o with Some _ => true | None => false end) E) as H. vm_compute in H. discriminate.
Qed.

(** * C21 current_tls_addr *)

(** Proved when the TLS size (x86, x86-64) or the record size (other targets)
    is a multiple of the TLS alignment; the full claim drops this condition. *)
Theorem current_tls_addr_partial ck a td tls page m tpreg ans fn args stack_size guard_size t log m' sp p c tp f n r L len map i :
  successful_create ck a td tls page m tpreg ans fn args stack_size guard_size t log m' ->
  In (SClone sp p c tp f n r) log -> In (SMmap len (Some map)) log ->
  create_layout ck a td tls page stack_size guard_size = Some L ->
  (if tls_below a then (tls_align tls | tls_memsz tls) else (tls_align tls | meta_size a td)) ->
  0 <= i < tls_memsz tls ->
  current_tls_addr a tls (thread_pointer a m' tp) 1 (wrapping_sub (wsz a) i (abi_dtp_bias a)) = Some (map + l_tls L + i).
Proof.
  intros SC H1 H2 HL Hc Hi.
  destruct (created_placed _ _ _ _ _ _ _ _ _ _ _ _ _ _ _ _ _ _ _ _ _ _ _ _ _ SC H1 H2 HL) as (P & -> & B1 & B2 & _ & ->).
  exact (cta a td tls page (sc_env _ _ _ _ _ _ _ _ _ _ _ _ _ _ _ SC) _ _ map i Hc P B1 B2 Hi).
Qed.
Print Assumptions current_tls_addr_partial.
Theorem current_tls_addr_main_partial ck a td tls page m sp execfn_end rlim random ans tid R i :
  successful_main ck a td tls page m sp execfn_end rlim random ans tid R ->
  (if tls_below a then (tls_align tls | tls_memsz tls) else (tls_align tls | meta_size a td)) ->
  0 <= i < tls_memsz tls ->
  exists b, current_tls_addr a tls (thread_pointer a (mr_mem R) (mr_tp R)) 1 (wrapping_sub (wsz a) i (abi_dtp_bias a)) = Some (b + i) /\
    fresh_tls tls m (mr_mem R) b.
Proof.
  intros SM Hc Hi. destruct (main_placed _ _ _ _ _ _ _ _ _ _ _ _ _ SM) as (new & l & tb & h & _ & P & ET & B1 & B2 & _ & TP & _ & FT).
  exists (new + tb). split; [|exact FT]. rewrite TP, ET.
  exact (cta a td tls page (sm_env _ _ _ _ _ _ _ _ _ _ _ _ _ SM) _ _ new i Hc P B1 B2 Hi).
Qed.
Print Assumptions current_tls_addr_main_partial.
(** Any module other than 1 panics. *)
Theorem current_tls_addr_module a tls tp module offset :
  module <> 1 -> current_tls_addr a tls tp module offset = None.
Proof.
  intros H. unfold current_tls_addr. destruct (Z.eqb_spec module 1); [contradiction|reflexivity].
Qed.
Print Assumptions current_tls_addr_module.
(** The unconditional claim is false of the code: x86-64, p_memsz = 12,
    p_align = 8: byte 0 of the block is reported 4 bytes above where it is. *)
Definition tls_bad : tls_info := Tls 0x5000 12 12 8.
Lemma env_bad : wf_env X86_64 td8 tls_bad 4096.
Proof.
  constructor.
  - apply env_ex.
  - constructor; cbn; try lia. exists 3. split; [lia|reflexivity].
  - exists 12. split; [lia|reflexivity].
Qed.
Theorem current_tls_addr_refuted :
  exists L map tp m',
    wf_env X86_64 td8 tls_bad 4096 /\
    create_layout true X86_64 td8 tls_bad 4096 100000 4096 = Some L /\
    (exists t log sp p c f n r, create true X86_64 td8 tls_bad 4096 mem0 0 ans_ex 0x4000 [11] 100000 4096 = (COk t, log, m') /\
       In (SMmap (l_map_size L) (Some map)) log /\ In (SClone sp p c tp f n r) log) /\
    current_tls_addr X86_64 tls_bad (thread_pointer X86_64 m' tp) 1 0 = Some (map + l_tls L + 4).
Proof.
  destruct (create true X86_64 td8 tls_bad 4096 mem0 0 ans_ex 0x4000 [11] 100000 4096) as [[r log] m'] eqn:E.
  pose proof (f_equal fst E) as R. vm_compute in R. inversion R; subst r log. clear R.
  eexists _, 0x700000, 7444144, m'. split; [apply env_bad|]. split; [vm_compute; reflexivity|]. split.
  - eexists _, _, _, _, _, _, _, _. split; [reflexivity|]. split; [left; reflexivity|right; right; left; reflexivity].
  - assert (H : load_le (snd (create true X86_64 td8 tls_bad 4096 mem0 0 ans_ex 0x4000 [11] 100000 4096)) 7444144 8 = 7444144)
      by (vm_compute; reflexivity).
    rewrite E in H. cbn [snd] in H.
    unfold thread_pointer. cbn [tls_below]. change (word X86_64) with 8%nat. rewrite H. vm_compute. reflexivity.
Qed.
Print Assumptions current_tls_addr_refuted.

(** * C22 the thread record is aligned *)
(** Proved for the variant I targets, and on x86/x86-64 when the TLS alignment
    or the rounded TLS size is a multiple of the record's alignment. *)
Theorem record_aligned_partial ck a td tls page m tpreg ans fn args stack_size guard_size t log m' sp p c tp f n r L len map :
  successful_create ck a td tls page m tpreg ans fn args stack_size guard_size t log m' ->
  In (SClone sp p c tp f n r) log -> In (SMmap len (Some map)) log ->
  create_layout ck a td tls page stack_size guard_size = Some L ->
  tls_below a = false \/ (meta_align a td | tls_align tls) \/
    (meta_align a td | align_to (tls_memsz tls) (tls_align tls)) ->
  (meta_align a td | map + l_header L).
Proof.
  intros SC H1 H2 HL Hc.
  destruct (created_placed _ _ _ _ _ _ _ _ _ _ _ _ _ _ _ _ _ _ _ _ _ _ _ _ _ SC H1 H2 HL) as (P & _ & _ & _ & D & _).
  exact (rec_aligned a td tls page (sc_env _ _ _ _ _ _ _ _ _ _ _ _ _ _ _ SC) _ _ map Hc P D).
Qed.
Print Assumptions record_aligned_partial.
Theorem main_record_aligned_partial ck a td tls page m sp execfn_end rlim random ans tid R :
  successful_main ck a td tls page m sp execfn_end rlim random ans tid R ->
  tls_below a = false \/ (meta_align a td | tls_align tls) \/
    (meta_align a td | align_to (tls_memsz tls) (tls_align tls)) ->
  exists md, mr_thread R = thread_at a td md /\ mr_tp R = abi_at a td md ThreadPointee /\ (meta_align a td | md).
Proof.
  intros SM Hc. destruct (main_placed _ _ _ _ _ _ _ _ _ _ _ _ _ SM) as (new & l & tb & h & _ & P & ET & _ & _ & D & _ & TH & _).
  exact (ex_intro _ (new + h) (conj TH (conj ET (rec_aligned a td tls page (sm_env _ _ _ _ _ _ _ _ _ _ _ _ _ SM) _ _ new Hc P D)))).
Qed.
Print Assumptions main_record_aligned_partial.
Definition tls_four : tls_info := Tls 0x5000 4 4 4.
Theorem record_aligned_refuted :
  exists td tls L, wf_env X86_64 td tls 4096 /\
    create_layout true X86_64 td tls 4096 100000 4096 = Some L /\ ~ (meta_align X86_64 td | l_header L).
Proof.
  exists td8, tls_four. eexists. split; [|split; [reflexivity|]].
  - constructor.
    + apply env_ex.
    + constructor; cbn; try lia. exists 2. split; [lia|reflexivity].
    + exists 12. split; [lia|reflexivity].
  - intros D. apply Z.mod_divide in D; [|discriminate]. vm_compute in D. discriminate.
Qed.
Print Assumptions record_aligned_refuted.

(** * C23 thread pointer, current() and ABI fields agree *)
Theorem created_current ck a td tls page m tpreg ans fn args stack_size guard_size t log m' sp p c tp f n r :
  successful_create ck a td tls page m tpreg ans fn args stack_size guard_size t log m' ->
  In (SClone sp p c tp f n r) log ->
  current a td m' tp = t /\                              (* current() is the record returned *)
  thread_pointer a m' tp = tp /\                          (* x86: self pointer at fs:0 / gs:0 *)
  id_of td m' t = r mod 2 ^ 32 /\                         (* the id stored is the kernel's *)
  load_le m' (canary_addr a tp) (word a) =                (* canary at its ABI address = creator's *)
    load_le m (abi_at a td (current_metadata a td m tpreg) Canary) (word a) mod modulus (wsz a).
Proof. intros SC H. exact (created_tp _ _ _ _ _ _ _ _ _ _ _ _ _ _ _ _ _ _ _ _ _ _ SC H). Qed.
Print Assumptions created_current.
Theorem main_current ck a td tls page m sp execfn_end rlim random ans tid R :
  successful_main ck a td tls page m sp execfn_end rlim random ans tid R ->
  current a td (mr_mem R) (mr_tp R) = mr_thread R /\
  thread_pointer a (mr_mem R) (mr_tp R) = mr_tp R /\
  id_of td (mr_mem R) (mr_thread R) = tid mod 2 ^ 32 /\
  load_le (mr_mem R) (canary_addr a (mr_tp R)) (word a) = mr_guard R mod modulus (wsz a).
Proof. intros SM. exact (main_tp _ _ _ _ _ _ _ _ _ _ _ _ _ SM). Qed.
Print Assumptions main_current.

(** * C24 all threads share the startup canary *)
Theorem canary_shared ck a td tls page m0 random w u :
  wf_env a td tls page -> wf_mem m0 ->
  reachable ck a td tls page m0 random w -> In u (w_live w) ->
  load_le (w_mem w) (canary_addr a (th_tp u)) (word a) = load_le m0 random (word a) /\
  w_guard w = load_le m0 random (word a).
Proof.
  intros Hwf Hm Hr Hu. destruct (inv_reach ck a td tls page Hwf m0 random Hm w Hr) as (I1 & _ & I3).
  destruct (I1 u Hu) as (md & G). exact (conj (gt_canary _ _ _ _ _ _ _ _ G) I3).
Qed.
Print Assumptions canary_shared.

(** * C45 Thread handles *)
Theorem handles_distinct ck a td tls page m0 random w :
  wf_env a td tls page -> wf_mem m0 ->
  reachable ck a td tls page m0 random w ->
  NoDup (map (fun u => to_raw (th_raw u)) (w_live w)).
Proof.
  intros Hwf Hm Hr. exact (inv_nodup a td tls page Hwf m0 random w (inv_reach ck a td tls page Hwf m0 random Hm w Hr)).
Qed.
Print Assumptions handles_distinct.
Theorem handle_round_trip ck a td tls page m0 random w u :
  wf_env a td tls page -> wf_mem m0 ->
  reachable ck a td tls page m0 random w -> In u (w_live w) ->
  from_raw (to_raw (th_raw u)) = Some (th_raw u) /\
  from_raw_unchecked (to_raw (th_raw u)) = th_raw u /\
  from_raw_non_null (to_raw_non_null (th_raw u)) = th_raw u.
Proof.
  intros Hwf Hm Hr Hu. destruct (inv_reach ck a td tls page Hwf m0 random Hm w Hr) as (I1 & _ & I3).
  destruct (I1 u Hu) as (md & G). destruct (raw_in a td tls page Hwf m0 random _ _ _ G) as [_ P].
  unfold from_raw, to_raw. destruct (Z.eqb_spec (th_raw u) 0); [lia|]. auto.
Qed.
Print Assumptions handle_round_trip.
Theorem from_raw_null_panics : from_raw 0 = None.
Proof. exact eq_refl. Qed.
Print Assumptions from_raw_null_panics.

(** A reachable history with two live threads. *)
Example history_ex : exists w, reachable true X86_64 td8 tls_ex 4096 mem0 0x7ff800 w /\ length (w_live w) = 2%nat.
Proof.
  destruct main_ex as [R SM].
  assert (EL : mr_log R = [SMmapRW 120 (Some 0x700000)]).
  { destruct SM. pose proof (f_equal (fun o => match o with Some r => mr_log r | None => [] end) sm_call) as H.
    lazy in H. symmetry. exact H. }
  destruct (create true X86_64 td8 tls_ex 4096 (mr_mem R) (mr_tp R) (Answers (Some 0x900000) true 78) 0x4000 [11; 22] 100000 5000) as [[r log] m'] eqn:E.
  pose proof (f_equal fst E) as F. lazy in F. inversion F; subst r log. clear F.
  eexists. split.
  - eapply r_step.
    + apply r_start. destruct SM. eexists _, _, _, _, _, R, 120, 0x700000. split; [exact sm_call|].
      split; [exact sm_ck|]. split; [exact sm_map|]. split; [exact sm_template|].
      split; [rewrite EL; left; reflexivity|reflexivity].
    + eapply WCreate with (u := Thr (mr_tp R) 0x700000 120 (mr_thread R)); cbn [w_mem w_live w_guard th_tp]; [left; reflexivity| | | | |exact E| | | | | ].
      * unfold usize; cbn; lia.
      * unfold usize; cbn; lia.
      * left; reflexivity.
      * cbn; lia.
      * intros len map [H|H]; cbn in H; repeat destruct H as [H|H]; try discriminate; try contradiction.
        inversion H; subst. repeat split; try lia. exists 0x900; lia. vm_compute. discriminate.
      * intros len map [H|H]; cbn in H; repeat destruct H as [H|H]; try discriminate; try contradiction.
        inversion H; subst. left. cbn. lia.
      * intros len map u Hm [<-|[]]. cbn in Hm. repeat destruct Hm as [Hm|Hm]; try discriminate; try contradiction.
        inversion Hm; subst. right. vm_compute. discriminate.
      * left; reflexivity.
      * right; right; left; reflexivity.
  - reflexivity.
Qed.

(** * C25 a failed create leaves nothing behind *)
(** Full claim: every [CErr] leaves the protections as before and runs no
    thread.  Proved: no thread ever runs; nothing stays mapped if mmap failed. *)
Theorem create_failed_partial ck a td tls page m tpreg ans fn args stack_size guard_size log m' (before : Z -> prot) :
  create ck a td tls page m tpreg ans fn args stack_size guard_size = (CErr, log, m') ->
  (forall sp p c tp f n r, In (SClone sp p c tp f n r) log -> r < 0) /\
  (ans_mmap ans = None -> (forall x, prot_after page before log x = before x) /\ (forall x, m' x = m x)).
Proof.
  intros H. exact (conj (failed_no_clone _ _ _ _ _ _ _ _ _ _ _ _ _ _ H)
                        (fun Ha => mmap_failed _ _ _ _ _ _ _ _ _ _ _ _ _ _ before Ha H)).
Qed.
Print Assumptions create_failed_partial.
(** If clone (EAGAIN) or mprotect (ENOMEM) fails the mapping stays. *)
Theorem create_failed_refuted :
  (exists log m', create true X86_64 td8 tls_ex 4096 mem0 0 (Answers (Some 0x700000) true (-11)) 0x4000 [11] 100000 4096 = (CErr, log, m') /\
     prot_after 4096 (fun _ => Unmapped) log 0x701000 = ReadWrite) /\
  (exists log m', create true X86_64 td8 tls_ex 4096 mem0 0 (Answers (Some 0x700000) false 0) 0x4000 [11] 100000 4096 = (CErr, log, m') /\
     prot_after 4096 (fun _ => Unmapped) log 0x701000 = NoAccess).
Proof.
  split.
  - destruct (create true X86_64 td8 tls_ex 4096 mem0 0 (Answers (Some 0x700000) true (-11)) 0x4000 [11] 100000 4096) as [[r log] m'] eqn:E.
    pose proof (f_equal fst E) as R. vm_compute in R. inversion R; subst r log. clear R.
    eexists _, m'. split; [reflexivity|]. vm_compute. reflexivity.
  - eexists _, _. split; [vm_compute; reflexivity|]. vm_compute. reflexivity.
Qed.
Print Assumptions create_failed_refuted.

(** * C26 the main thread's stack() *)
(** Proved: the address is the top of the stack (the page boundary above
    AT_EXECFN) minus the stack limit, and the guard one page. *)
Theorem main_stack_partial ck a td tls page m sp execfn_end limit random ans tid R :
  successful_main ck a td tls page m sp execfn_end (Some limit) random ans tid R ->
  0 <= execfn_end -> execfn_end + page <= modulus (wsz a) -> 0 <= limit <= page_ceil page execfn_end ->
  exists size, stack_of a td (mr_mem R) (mr_thread R) = (page_ceil page execfn_end - limit, size, page).
Proof. intros SM H1 H2 H3. exact (ex_intro _ _ (main_stack _ _ _ _ _ _ _ _ _ _ _ _ _ SM H1 H2 H3)). Qed.
Print Assumptions main_stack_partial.
(** The size is wrong for every process whose initial stack pointer lies inside
    its stack: it is the negated size modulo the word size. *)
Theorem main_stack_refuted ck a td tls page m sp execfn_end limit random ans tid R addr size guard :
  successful_main ck a td tls page m sp execfn_end (Some limit) random ans tid R ->
  0 <= execfn_end -> execfn_end + page <= modulus (wsz a) -> 0 <= limit <= page_ceil page execfn_end ->
  page_ceil page execfn_end - limit < sp < page_ceil page execfn_end ->
  limit < modulus (wsz a) / 2 ->
  stack_of a td (mr_mem R) (mr_thread R) = (addr, size, guard) ->
  size = modulus (wsz a) - (sp - addr) /\ addr + size > sp.
Proof.
  intros SM H1 H2 H3 H4 H5 HS. rewrite (main_stack _ _ _ _ _ _ _ _ _ _ _ _ _ SM H1 H2 H3) in HS.
  inversion HS; subst addr size guard. clear HS.
  assert (E : (page_ceil page execfn_end - limit - sp) mod modulus (wsz a) = modulus (wsz a) - (sp - (page_ceil page execfn_end - limit))).
  { destruct (modulus_cases a) as [EM|EM]; rewrite EM in *; symmetry; apply Z.mod_unique with (-1); lia. }
  rewrite E. split; [reflexivity|]. destruct (modulus_cases a) as [EM|EM]; rewrite EM in *; lia.
Qed.
Print Assumptions main_stack_refuted.
(** An unlimited RLIMIT_STACK makes start-up panic. *)
Theorem main_unlimited_stack_panics ck a td tls page m sp execfn_end random ans tid :
  initialize_main ck a td tls page m sp execfn_end None random ans tid = None.
Proof. unfold initialize_main, bind. destruct (round_up ck a execfn_end page); reflexivity. Qed.
Print Assumptions main_unlimited_stack_panics.

(** * C27 oversized requests are rejected, not wrapped *)
(** Proved for builds with overflow checks, for all word-sized requests; the
    full claim also covers release builds. *)
Theorem oversized_checked_partial a td tls page m tpreg ans fn args stack_size guard_size t log m' (before : Z -> prot) :
  wf_env a td tls page -> usize a stack_size -> usize a guard_size ->
  create true a td tls page m tpreg ans fn args stack_size guard_size = (COk t, log, m') ->
  good_answer a page log -> template_apart page tls log ->
  Z.of_nat (length args) * wsz a <= stack_size ->
  exists addr,
    (forall x, addr <= x < addr + stack_size -> prot_after page before log x = ReadWrite) /\
    (forall x, addr - guard_size <= x < addr -> prot_after page before log x = NoAccess).
Proof.
  intros Hwf Hs Hg Hc Ga Ta Ha.
  destruct (stack_truthful _ _ _ _ _ _ _ _ _ _ _ _ _ _ _ before
    (Build_successful_create true a td tls page m tpreg ans fn args stack_size guard_size t log m' Hwf Hs Hg (or_introl eq_refl) Hc Ga Ta Ha)) as (addr & _ & H).
  exact (ex_intro _ addr H).
Qed.
Print Assumptions oversized_checked_partial.
(** In a release build a request of 2^64 - 8 bytes of stack succeeds with an
    empty stack: the mapping is smaller than a page, all of it record and TLS. *)
Theorem oversized_release_refuted :
  exists t log m' L,
    create false X86_64 td8 tls_ex 4096 mem0 0 ans_ex 0x4000 [] (2 ^ 64 - 8) 0 = (COk t, log, m') /\
    create_layout false X86_64 td8 tls_ex 4096 (2 ^ 64 - 8) 0 = Some L /\
    In (SMmap (l_map_size L) (Some 0x700000)) log /\ l_map_size L < 4096 /\ l_stack_top L = l_stack_bottom L.
Proof.
  destruct (create false X86_64 td8 tls_ex 4096 mem0 0 ans_ex 0x4000 [] (2 ^ 64 - 8) 0) as [[r log] m'] eqn:E.
  pose proof (f_equal fst E) as R. vm_compute in R. inversion R; subst r log. clear R.
  eexists _, _, m', _. split; [reflexivity|]. split; [vm_compute; reflexivity|]. repeat split; left; reflexivity.
Qed.
Print Assumptions oversized_release_refuted.

(** * C47 compiler-generated (local-exec) TLS accesses *)
(** Full claim on x86 and x86-64 ([True] below). *)
Theorem local_exec_tls ck a td tls page m tpreg ans fn args stack_size guard_size t log m' sp p c tp f n r L len map i :
  successful_create ck a td tls page m tpreg ans fn args stack_size guard_size t log m' ->
  In (SClone sp p c tp f n r) log -> In (SMmap len (Some map)) log ->
  create_layout ck a td tls page stack_size guard_size = Some L ->
  a = X86_64 \/ a = X86 ->
  abi_tls_addr a tls tp i = map + l_tls L + i.
Proof.
  intros SC H1 H2 HL Ha.
  destruct (created_placed _ _ _ _ _ _ _ _ _ _ _ _ _ _ _ _ _ _ _ _ _ _ _ _ _ SC H1 H2 HL) as (P & -> & _).
  apply (le_addr a td tls page (sc_env _ _ _ _ _ _ _ _ _ _ _ _ _ _ _ SC)); [|exact P].
  destruct Ha as [-> | ->]; exact I.
Qed.
Print Assumptions local_exec_tls.
(** aarch64 and riscv64: when the record size is a multiple of p_align (always
    so for p_align <= 8), and p_align <= 16 on aarch64. *)
Theorem local_exec_tls_partial ck a td tls page m tpreg ans fn args stack_size guard_size t log m' sp p c tp f n r L len map i :
  successful_create ck a td tls page m tpreg ans fn args stack_size guard_size t log m' ->
  In (SClone sp p c tp f n r) log -> In (SMmap len (Some map)) log ->
  create_layout ck a td tls page stack_size guard_size = Some L ->
  (tls_align tls | meta_size a td) -> a = Riscv64 \/ (a = Aarch64 /\ tls_align tls <= 16) ->
  abi_tls_addr a tls tp i = map + l_tls L + i.
Proof.
  intros SC H1 H2 HL Hd Ha.
  destruct (created_placed _ _ _ _ _ _ _ _ _ _ _ _ _ _ _ _ _ _ _ _ _ _ _ _ _ SC H1 H2 HL) as (P & -> & _).
  apply (le_addr a td tls page (sc_env _ _ _ _ _ _ _ _ _ _ _ _ _ _ _ SC)); [|exact P].
  destruct Ha as [-> | [-> Hal]]; [exact Hd|exact (conj Hd Hal)].
Qed.
Print Assumptions local_exec_tls_partial.
(** arm, p_align dividing 8: the ABI address is always 4 bytes below the block. *)
Theorem local_exec_tls_arm_refuted ck td tls page m tpreg ans fn args stack_size guard_size t log m' sp p c tp f n r L len map i :
  successful_create ck Arm td tls page m tpreg ans fn args stack_size guard_size t log m' ->
  In (SClone sp p c tp f n r) log -> In (SMmap len (Some map)) log ->
  create_layout ck Arm td tls page stack_size guard_size = Some L ->
  (tls_align tls | 8) ->
  abi_tls_addr Arm tls tp i = map + l_tls L + i - 4.
Proof.
  intros SC H1 H2 HL Hd.
  destruct (created_placed _ _ _ _ _ _ _ _ _ _ _ _ _ _ _ _ _ _ _ _ _ _ _ _ _ SC H1 H2 HL) as (P & -> & _).
  exact (le_addr_arm Arm td tls page (sc_env _ _ _ _ _ _ _ _ _ _ _ _ _ _ _ SC) _ _ map i eq_refl Hd P).
Qed.
Print Assumptions local_exec_tls_arm_refuted.
(** aarch64, p_align = 32: block at the thread pointer + 16, ABI says + 32. *)
Definition td_a64 : td_layout := TD 72 8 0 4 8 16 24 32 40 None.
Definition tls_32 : tls_info := Tls 0x5000 64 12 32.
Theorem local_exec_tls_aarch64_refuted :
  exists L, wf_env Aarch64 td_a64 tls_32 4096 /\
    create_layout true Aarch64 td_a64 tls_32 4096 100000 4096 = Some L /\
    abi_tls_addr Aarch64 tls_32 (abi_at Aarch64 td_a64 (l_header L) ThreadPointee) 0 <> l_tls L.
Proof.
  eexists. split; [|split; [reflexivity|vm_compute; discriminate]].
  constructor.
  - constructor; cbn; try discriminate; try lia; try (exists 9; lia); repeat constructor; cbn; unfold apart; cbn; lia.
  - constructor; cbn; try lia. exists 5. split; [lia|reflexivity].
  - exists 12. split; [lia|reflexivity].
Qed.
Print Assumptions local_exec_tls_aarch64_refuted.
Example local_exec_tls_partial_ex : (tls_align tls_ex | meta_size Aarch64 td8) /\ (tls_align tls_ex | meta_size Riscv64 td8).
Proof. split; [exists 9|exists 8]; reflexivity. Qed.
