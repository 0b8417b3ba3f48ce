(** C77: program startup and thread creation touch only memory that is
    theirs.

    StartFault.v is program/linux_raw.rs `entry` and thread/linux_raw.rs
    `initialize_main` and `create` with page faults; StartFaultSpec.v says
    which memory must be accessible. *)
From Coq Require Import ZifyBool.
From Verif Require Import Machine MachineFacts LayoutModel LayoutSpec LayoutFacts LayoutProofs LayoutTop LayoutTop2 RelocModel RelocSpec RelocFacts RelocProofs RelocTop RelocMono RelocEx
  StartModel StartSpec StartProofs StartTop Props_Layout Props_Start RelocFault RelocFaultSpec RelocFaultProofs RelocFaultTop Props_RelocFault StartFault StartFaultSpec StartFaultProofs.

Lemma after_no_fault ac fuel c l w sp argc argv envp m env aux hs base n :
  let a := f_arch c in
  0 <= envp < modulus (wsz a) -> stack_at a m envp env aux ->
  can_words a (ac_r ac) envp (length env + 1 + 2 * (length aux + 1)) ->
  (f_thread c = true -> thread_readable ac c l aux m hs base) ->
  (f_init_array c = true -> array_readable ac a l n) ->
  snd (fafter_relocate ac fuel c l w sp (argc, argv, envp) m) <> None.
Proof.
  intros a He Hs Hc HT HA. unfold fafter_relocate.
  assert (K : forall ac' m', (forall x, ac_r ac x = true -> ac_r ac' x = true) ->
     snd (if f_init_array c then finit_loop ac' fuel (f_arch c) w (argc, argv, envp) 0 (l_init_start l) (l_init_end l) m' (fcall_main (f_arch c) w (argc, argv, envp))
          else fcall_main (f_arch c) w (argc, argv, envp) m') <> None).
  { intros ac' m' Hac. destruct (f_init_array c); [|discriminate].
    destruct (HA eq_refl) as (A1 & A2 & A3 & A4). rewrite A1. fold a.
    rewrite <- (Z.mod_small (l_init_start l) (modulus (wsz a))) at 1 by lia.
    apply loop_ok; [intros; discriminate|exact A3|]. intros i Hi x Hx. apply Hac. apply (A4 i Hi x Hx). }
  unfold finit_runtime. cbn [snd fst]. destruct (has_param c); [|apply K; auto]. fold a.
  pose proof (param_ok ac a m envp env aux fuel He Hs Hc) as P.
  destruct (param_below ac fuel a m envp) as [E|E]; [congruence|]. rewrite E.
  destruct (param_init fuel a m envp) as [aux'|] eqn:E1; [|discriminate].
  rewrite (param_unique fuel a m envp env aux aux' He Hs E1). cbn [femit snd].
  destruct (f_thread c); [|apply K; auto]. destruct (HT eq_refl) as (T1 & T2 & T3 & T4 & T5 & T6). fold a in T1, T2, T3, T6.
  pose proof (startup_ok ac fuel (f_debug c) a m aux hs (l_dynv l) T1 T3) as Q.
  destruct (startup_below ac fuel (f_debug c) a aux (l_dynv l) m) as [E2|E2]; [congruence|]. rewrite E2.
  destruct (initialize_startup_info fuel (f_debug c) a aux (l_dynv l) m) as [[t st]| |] eqn:E3; [|discriminate|discriminate].
  cbn [femit snd]. destruct T4 as (k & Hk & H0 & Hr).
  pose proof (cstr_ok ac m fuel _ k Hk H0 Hr) as R.
  destruct (fcstr_end ac fuel m (value_of AT_EXECFN aux)) as [[ee|]|]; [|discriminate|congruence]. cbn [femit snd].
  destruct (C11_startup_info (f_debug c) a m aux hs (l_dynv l) base T1 T2) as (N & t' & HN).
  destruct (HN (N + fuel)%nat ltac:(lia)) as (E4 & HTm).
  destruct (startup_info_mono (f_debug c) a aux (l_dynv l) m fuel (N + fuel) ltac:(lia)) as [E5|E5]; [congruence|].
  rewrite E3, E4 in E5. injection E5 as Et _. rewrite <- Et in HTm.
  destruct (T6 t HTm) as (W1 & W2 & W3).
  match goal with |- context [finitialize_main ?A ?b ?c ?d ?e ?f ?g ?h ?i ?j ?k ?l ?o] =>
    pose proof (main_no_fault A b c d e f g h i j k l o W1 W2 W3 T5) as M;
    destruct (finitialize_main A b c d e f g h i j k l o) as [[[ac' r]|]|] eqn:EM; [|discriminate|congruence] end.
  apply K. intros x Hx. revert EM. unfold finitialize_main.
  repeat match goal with |- context [match ?y with _ => _ end = _] => destruct y; try discriminate end;
    intros EM; try discriminate.
  injection EM as <- <-. apply grant_r. exact Hx.
Qed.

(** ** C77 *)

(** A machine with page faults does exactly what StartModel.v says, unless an
    access is not permitted: then it stops there, having done part of it. *)
Theorem C77_agrees ac n c l w sp m :
  (forall f, snd (fentry ac n c l w sp m) = Some f -> entry n c l w sp m = (fst (fentry ac n c l w sp m), f)) /\
  (snd (fentry ac n c l w sp m) = None -> prefix (fst (fentry ac n c l w sp m)) (fst (entry n c l w sp m))).
Proof.
  destruct (entry_below ac n c l w sp m) as [E|[E1 E2]].
  - rewrite E. cbn [fst snd]. split; [|discriminate]. intros f H. injection H as <-. destruct (entry n c l w sp m); reflexivity.
  - split; [intros f H; congruence|]. intros _. exact E2.
Qed.
Print Assumptions C77_agrees.

(** From the kernel's hand-over to origin_main startup reads only the initial
    stack, what relocation may touch (C76), the program headers, the AT_EXECFN
    string, the AT_RANDOM bytes, the TLS template and .init_array, and writes
    only the words to relocate and the memory it mapped for the main thread: if
    these are accessible it does not fault, on any number of steps, whatever
    the user's functions do. *)
Theorem C77_no_fault ac c l w sp m args env aux :
  let a := f_arch c in
  let envp := envp_of a sp args in
  kernel_stack a m sp args env aux -> stack_readable ac a sp args env aux ->
  (f_relocate c && f_origin_start c = true -> ~ faults ac (reloc_env c l w envp) m) ->
  (forall m1, relocated c l w envp m m1 -> stack_at a m1 envp env aux /\
     (f_thread c = true -> exists hs base, thread_readable ac c l aux m1 hs base)) ->
  (f_init_array c = true -> exists n, array_readable ac a l n) ->
  ~ startup_faults ac c l w sp m /\
  (forall r, ends c l w sp m r -> exists n, fentry ac n c l w sp m = (fst r, Some (snd r))).
Proof.
  intros a envp HK HC HR HM HA.
  assert (N : forall n, snd (fentry ac n c l w sp m) <> None).
  { intros n. unfold fentry. destruct (negb _); [discriminate|].
    rewrite (args_ok ac (f_debug c) (f_arch c) m sp args env aux HK HC). cbn [snd]. fold a envp.
    assert (Hce : can_words a (ac_r ac) envp (length env + 1 + 2 * (length aux + 1))).
    { unfold stack_readable in HC.
      replace (1 + (length args + 1) + (length env + 1) + 2 * (length aux + 1))%nat
        with ((length args + 2) + (length env + 1 + 2 * (length aux + 1)))%nat in HC by lia.
      apply can_words_add in HC. intros i Hi. specialize (HC i Hi).
      unfold envp, envp_of. rewrite Zplus_mod_idemp_l.
      replace (sp + wsz a + (Z.of_nat (length args) + 1) * wsz a + Z.of_nat i * wsz a)
        with (sp + Z.of_nat (length args + 2) * wsz a + Z.of_nat i * wsz a) by lia. exact HC. }
    assert (AF : forall ac' m1, ac_r ac' = ac_r ac -> relocated c l w envp m m1 ->
       snd (fafter_relocate ac' n c l w sp (Z.of_nat (length args), argv_of a sp, envp) m1) <> None).
    { intros ac' m1 Hac Hm1. destruct (HM m1 Hm1) as (S1 & S2).
      assert (TR : forall hs base, thread_readable ac c l aux m1 hs base -> thread_readable ac' c l aux m1 hs base).
      { intros hs base H. unfold thread_readable, headers_readable, string_readable in *. rewrite Hac. exact H. }
      assert (AR : forall k, array_readable ac a l k -> array_readable ac' a l k).
      { intros k H. unfold array_readable in *. rewrite Hac. exact H. }
      destruct (f_thread c) eqn:FT.
      - destruct (S2 eq_refl) as (hs & base & T). destruct (f_init_array c) eqn:FI.
        + destruct (HA eq_refl) as (k & Ak).
          apply (after_no_fault ac' n c l w sp _ _ _ m1 env aux hs base k); auto; [apply envp_range|fold a; rewrite Hac; exact Hce].
        + apply (after_no_fault ac' n c l w sp _ _ _ m1 env aux hs base 0); auto; [apply envp_range|fold a; rewrite Hac; exact Hce|congruence].
      - destruct (f_init_array c) eqn:FI.
        + destruct (HA eq_refl) as (k & Ak).
          apply (after_no_fault ac' n c l w sp _ _ _ m1 env aux [] 0 k); auto; [apply envp_range|fold a; rewrite Hac; exact Hce|congruence].
        + apply (after_no_fault ac' n c l w sp _ _ _ m1 env aux [] 0 0); auto; [apply envp_range|fold a; rewrite Hac; exact Hce|congruence|congruence]. }
    destruct (f_relocate c && f_origin_start c) eqn:FR.
    - cbn [femit snd]. specialize (HR eq_refl).
      destruct (frelocate ac n (reloc_env c l w envp) (RelocSpec.start m)) as [[s|s|s|]|] eqn:ER; try discriminate.
      + apply AF; [reflexivity|]. unfold relocated. rewrite FR. exists s. split; [|reflexivity].
        split; [discriminate|]. exists n.
        destruct (frelocate_below ac n (reloc_env c l w envp) (RelocSpec.start m)) as [E|E]; congruence.
      + exfalso. apply HR. exists n. exact ER.
    - apply AF; [reflexivity|]. unfold relocated. rewrite FR. reflexivity. }
  split; [intros [n Hn]; exact (N n Hn)|].
  intros r [_ [n Hn]]. exists n. specialize (N n). destruct (C77_agrees ac n c l w sp m) as [G _].
  destruct (fentry ac n c l w sp m) as [evs [f|]]; [|contradiction]. specialize (G f eq_refl). cbn [fst snd] in *.
  rewrite <- Hn, G. reflexivity.
Qed.
Print Assumptions C77_no_fault.

(** `create` reads only the calling thread's canary and the TLS template, and
    writes only the part of its new mapping it made writable — whether it
    succeeds or not, as long as the arguments fit the requested stack. *)
Theorem C77_create_partial ac ck a td tls page m tpreg ans fn args stack_size guard_size res log m' :
  wf_env a td tls page -> usize a stack_size -> usize a guard_size ->
  checked_or_fits ck a td tls page stack_size guard_size ->
  Z.of_nat (length args) * wsz a <= stack_size ->
  create ck a td tls page m tpreg ans fn args stack_size guard_size = (res, log, m') ->
  good_answer a page log -> template_apart page tls log ->
  can (ac_r ac) (tls_addr tls) (tls_filesz tls) -> caller_readable ac a td m tpreg log ->
  fcreate ac ck a td tls page m tpreg ans fn args stack_size guard_size = Some (res, log, m').
Proof.
  intros Hwf Hs Hg Hck Hargs Hc Hmap Htmpl HT HC. pose proof (wf_env_td _ _ _ _ Hwf) as Htd.
  rewrite <- Hc.
  destruct (create_below ac ck a td tls page m tpreg ans fn args stack_size guard_size) as [E|E]; [exfalso|exact E].
  revert E. unfold fcreate. pose proof Hc as H0. unfold create in H0.
  destruct (create_layout ck a td tls page stack_size guard_size) as [L0|] eqn:EL; [|discriminate].
  pose proof (layout_ideal a td tls page Hwf stack_size guard_size Hs Hg ck L0 Hck EL) as E. subst L0.
  set (L := ideal a td tls page stack_size guard_size) in *.
  destruct (ans_mmap ans) as [map|] eqn:EA; [|discriminate]. cbv zeta.
  destruct (ans_mprotect ans) eqn:EP; cbn [negb] in H0 |- *; [|discriminate].
  assert (ILOG : In (SMmap (l_map_size L) (Some map)) log).
  { destruct (initialize_tls _ _ _ _ _ _ _ _ _ _ _) as [[[? ?] ?]|].
    - destruct (0 <=? ans_clone ans); pose proof (f_equal (fun r => snd (fst r)) H0) as HL; cbn [fst snd] in HL; rewrite <- HL; left; reflexivity.
    - pose proof (f_equal (fun r => snd (fst r)) H0) as HL; cbn [fst snd] in HL; rewrite <- HL; left; reflexivity. }
  set (ac1 := grant (revoke ac map (l_map_size L)) (map + l_stack_bottom L) (l_map_size L - l_stack_bottom L)).
  pose proof (ideal_good a td tls page Hwf stack_size guard_size Hs Hg) as G. fold L in G. destruct G.
  pose proof (wf_tls_file _ _ (wf_env_tls _ _ _ _ Hwf)) as F.
  pose proof Hs as Hs1. unfold usize in Hs1.
  pose proof (meta_size_bounds a td Htd) as MS. pose proof (td_size_pos a td Htd) as TS.
  assert (RD : forall p n, can (ac_r ac) p n -> fresh_for log p n -> can (ac_r ac1) p n).
  { intros p n H1 H2. apply grant_can_r. apply revoke_can_r; [exact H1|]. apply H2. exact ILOG. }
  destruct HC as (C1 & C2 & C3 & C4).
  assert (Q1 : negb (tls_below a) || may_read ac1 tpreg (word a) = true).
  { destruct (tls_below a); [|reflexivity]. destruct (C4 eq_refl) as [D1 D2]. cbn [negb orb]. apply can_word. apply RD; assumption. }
  rewrite Q1.
  assert (QC : abi_at a td (current_metadata a td m tpreg) Canary = canary_addr a (thread_pointer a m tpreg)).
  { rewrite canary_at. f_equal. unfold current_metadata, wrapping_sub.
    assert (OFF : 0 <= meta_off a td FAbi + abi_off a ThreadPointee <= meta_size a td).
    { pose proof (parts_in a td Htd 0) as PI. pose proof (tp_val a td 0) as TV. unfold abi_at in TV.
      rewrite abi_size_val in PI. destruct a; cbn iota in *; clear - PI TV; lia. }
    rewrite Z.mod_small by lia. unfold abi_at. lia. }
  rewrite QC. rewrite (can_word ac1 a) by (apply RD; assumption).
  assert (TR : can (ac_r ac1) (tls_addr tls) (tls_filesz tls)).
  { apply RD; [exact HT|]. intros len mp Hin. pose proof (Htmpl len mp (or_introl Hin)) as A.
    pose proof (wf_page_bounds _ (wf_env_page _ _ _ _ Hwf)) as [PB _].
    pose proof (align_to_bounds len page ltac:(lia)). rewrite page_ceil_align in A. unfold LayoutSpec.apart in *. lia. }
  match goal with |- match ?x with _ => _ end = None -> False => assert (N : x <> None) end.
  { apply tls_ok; [lia|apply grant_can_w; lia|exact TR|apply grant_can_w; lia]. }
  match goal with |- context [finitialize_tls ?A ?b ?c ?d ?e ?f ?g ?h ?i ?j ?k ?l] =>
    destruct (tls_below_ok A b c d e f g h i j k l) as [E|E]; [congruence|]; rewrite E end.
  rewrite QC in H0.
  destruct (initialize_tls _ _ _ _ _ _ _ _ _ _ _) as [[[m1 nt] tp]|] eqn:EI; [|discriminate].
  pose proof (init_tls_tid _ _ _ _ _ _ _ _ _ _ _ _ _ _ EI) as ETp.
  (* the same call with a clone that succeeds *)
  set (ans0 := Answers (ans_mmap ans) true 0).
  set (sp := child_sp a (map + l_stack_top L) (Z.of_nat (length args))) in *.
  set (log0 := [SMmap (l_map_size L) (Some map);
                SMprotectRW (map + l_stack_bottom L) (l_map_size L - l_stack_bottom L) true;
                SClone sp tp tp nt fn (Z.of_nat (length args)) 0]).
  assert (C0 : exists mm, create ck a td tls page m tpreg ans0 fn args stack_size guard_size =
     (COk (thread_at a td (map + l_header L)), log0, mm)).
  { eexists. unfold create. rewrite EL. unfold ans0. cbn [ans_mmap ans_mprotect ans_clone]. rewrite EA. cbn [negb].
    rewrite QC, EI. reflexivity. }
  destruct C0 as (mm & C0).
  assert (GA : good_answer a page log0).
  { intros len b Hin. apply Hmap. cbn in Hin. left.
    destruct Hin as [[E'|[E'|[E'|[]]]]|[E'|[E'|[E'|[]]]]]; inversion E'; subst; exact ILOG. }
  assert (TA : template_apart page tls log0).
  { intros len b Hin. apply Htmpl. cbn in Hin. left.
    destruct Hin as [[E'|[E'|[E'|[]]]]|[E'|[E'|[E'|[]]]]]; inversion E'; subst; exact ILOG. }
  destruct (created_ok a td tls page Hwf ck m tpreg ans0 fn args stack_size guard_size _ _ _ Hs Hg Hck C0 GA TA Hargs) as (map0 & sp0 & C).
  assert (map0 = map). { pose proof (cr_ans _ _ _ _ _ _ _ _ _ _ _ _ _ _ _ _ _ C) as E'. unfold ans0 in E'. cbn in E'. congruence. }
  subst map0. destruct C. fold L in cr_log, cr_sp_lo, cr_sp_hi.
  assert (sp0 = sp). { unfold log0 in cr_log. injection cr_log. intros. congruence. }
  subst sp0.
  rewrite can_writes by (apply grant_can_w; lia).
  destruct (0 <=? ans_clone ans); discriminate.
Qed.
Print Assumptions C77_create_partial.

(** ** Concrete cases *)

(** The program of C10_complete_ex, with nothing accessible but what it is
    entitled to, and no byte writable at all before its own mmap. *)
Definition ex2_access : access := Acc
  (within [(0x7f000, 19 * 8); (0x400040, 168); (0x6300, 1); (0x6200, 16); (0x402000, 8); (0x403000, 8)])
  (fun _ => false).
(** The same without byte [x]. *)
Definition but (ac : access) (x : Z) : access := Acc (fun y => ac_r ac y && negb (y =? x)) (ac_w ac).

Theorem C77_ex :
  kernel_stack X86_64 ex2_m 0x7f000 [0x6000] [0x6100] ex2_aux /\
  stack_readable ex2_access X86_64 0x7f000 [0x6000] [0x6100] ex2_aux /\
  f_relocate ex2_cfg && f_origin_start ex2_cfg = false /\
  thread_readable ex2_access ex2_cfg ex2_link ex2_aux ex2_m ex2_hs 0x400000 /\
  array_readable ex2_access X86_64 ex2_link 1 /\
  fentry ex2_access 80 ex2_cfg ex2_link ex_world 0x7f000 ex2_m =
    ([ParamInit 0x7f018; StartupInfo (Tls 0x402000 24 8 8) 0x100000; MainThread 0x7f000;
      InitFn 0x401000 1 0x7f008 0x7f018; OriginMain 1 0x7f008 0x7f018; Exit 7], Some (Exited 7)) /\
  Forall (fun x => startup_faults (but ex2_access x) ex2_cfg ex2_link ex_world 0x7f000 ex2_m)
    [0x7f000 (* argc *); 0x7f017 (* end of argv *); 0x7f018 (* environment *); 0x7f097 (* end of auxv *);
     0x400040 (* headers *); 0x6300 (* AT_EXECFN *); 0x6200 (* AT_RANDOM *); 0x402007 (* TLS template *); 0x403007 (* .init_array *)].
Proof.
  split; [exact ex2_kernel|]. destruct C11_ex as (HH & HL & _). split; [|split; [reflexivity|split; [|split; [|split]]]].
  - intros i Hi. change (wsz X86_64) with (Z.of_nat 8). apply canb_ok.
    assert (Hi' : (i < 19)%nat) by exact Hi. clear Hi.
    do 19 (destruct i as [|i]; [vm_compute; reflexivity|]). lia.
  - split; [exact HH|]. split; [exact HL|]. split.
    { intros i Hi. apply (canb_ok _ 56). cbn in Hi. do 3 (destruct i as [|i]; [vm_compute; reflexivity|]). lia. }
    split; [exists 0; split; [lia|split; [vm_compute; reflexivity|apply (canb_ok _ 1); vm_compute; reflexivity]]|].
    split; [apply (canb_ok _ 16); vm_compute; reflexivity|].
    intros t HT. cbn in HT. subst t. split; [|split; [left; reflexivity|apply (canb_ok _ 8); vm_compute; reflexivity]].
    pose proof env_ex as [W1 W2 W3]. constructor; auto. constructor; cbn; [exists 3; split; [lia|reflexivity]|lia|lia].
  - split; [reflexivity|]. split; [vm_compute; split; [discriminate|reflexivity]|]. split; [reflexivity|].
    intros i Hi. change (wsz X86_64) with (Z.of_nat 8). apply canb_ok. destruct i as [|i]; [vm_compute; reflexivity|lia].
  - vm_compute. reflexivity.
  - repeat constructor; exists 80%nat; vm_compute; reflexivity.
Qed.
Print Assumptions C77_ex.

(** The call of create_ex, with nothing accessible but the caller's self
    pointer and canary and the template. *)
Definition ex_create_access : access := Acc
  (within [(0, 8); (canary_addr X86_64 (thread_pointer X86_64 mem0 0), 8); (0x5000, 12)]) (fun _ => false).

Theorem C77_create_ex : exists t log m',
  successful_create true X86_64 td8 tls_ex 4096 mem0 0 ans_ex 0x4000 [11; 22; 33] 100000 5000 t log m' /\
  can (ac_r ex_create_access) (tls_addr tls_ex) (tls_filesz tls_ex) /\
  caller_readable ex_create_access X86_64 td8 mem0 0 log /\
  fcreate ex_create_access true X86_64 td8 tls_ex 4096 mem0 0 ans_ex 0x4000 [11; 22; 33] 100000 5000 = Some (COk t, log, m').
Proof.
  destruct create_ex as (t & log & m' & SC). exists t, log, m'. split; [exact SC|].
  assert (EL : (COk t, log) = fst (create true X86_64 td8 tls_ex 4096 mem0 0 ans_ex 0x4000 [11; 22; 33] 100000 5000)) by (rewrite (sc_call _ _ _ _ _ _ _ _ _ _ _ _ _ _ _ SC); reflexivity).
  vm_compute in EL. injection EL as _ EL.
  assert (H1 : can (ac_r ex_create_access) (tls_addr tls_ex) (tls_filesz tls_ex)) by (apply (canb_ok _ 12); vm_compute; reflexivity).
  assert (H2 : caller_readable ex_create_access X86_64 td8 mem0 0 log).
  { split; [vm_compute; split; [discriminate|reflexivity]|]. split; [apply (canb_ok _ 8); vm_compute; reflexivity|]. split.
    - intros len map H. rewrite EL in H. cbn in H. repeat destruct H as [H|H]; try discriminate; try contradiction.
      injection H as <- <-. right. vm_compute. discriminate.
    - intros _. split; [apply (canb_ok _ 8); vm_compute; reflexivity|].
      intros len map H. rewrite EL in H. cbn in H. repeat destruct H as [H|H]; try discriminate; try contradiction.
      injection H as <- <-. left. vm_compute. discriminate. }
  split; [exact H1|]. split; [exact H2|]. destruct SC.
  apply C77_create_partial; auto.
Qed.
Print Assumptions C77_create_ex.

(** ** What does not hold *)

(** create does not check that the arguments fit the requested stack.  With a
    guard the copy runs into it (a fault); without one it overwrites memory
    below the new mapping that belongs to something else. *)
Theorem C77_args_overflow_refuted :
  fcreate ex_create_access true X86_64 td8 tls_ex 4096 mem0 0 ans_ex 0x4000 [11; 22; 33] 16 4096 = None /\
  exists t log m' x, create true X86_64 td8 tls_ex 4096 mem0 0 ans_ex 0x4000 [11; 22; 33] 16 0 = (COk t, log, m') /\
    (forall len map, In (SMmap len (Some map)) log -> ~ inside map len x) /\ m' x <> mem0 x.
Proof.
  split; [vm_compute; reflexivity|].
  destruct (create true X86_64 td8 tls_ex 4096 mem0 0 ans_ex 0x4000 [11; 22; 33] 16 0) as [[r log] m'] eqn:E.
  assert (R : (r, log) = fst (create true X86_64 td8 tls_ex 4096 mem0 0 ans_ex 0x4000 [11; 22; 33] 16 0)) by (rewrite E; reflexivity).
  assert (M : m' 0x6ffff0 = snd (create true X86_64 td8 tls_ex 4096 mem0 0 ans_ex 0x4000 [11; 22; 33] 16 0) 0x6ffff0) by (rewrite E; reflexivity).
  vm_compute in R. injection R as Er El. exists 7340120, log, m', 0x6ffff0. split; [rewrite Er; reflexivity|]. clear E. rewrite El. split.
  - intros len map H. cbn in H. repeat destruct H as [H|H]; try discriminate; try contradiction.
    injection H as <- <-. unfold inside. lia.
  - rewrite M. vm_compute. discriminate.
Qed.
Print Assumptions C77_args_overflow_refuted.
