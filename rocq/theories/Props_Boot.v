(** Property C59: what user code finds when it first runs.  Composition of the
    startup model (StartModel.v: kernel stack, relocation, parameters, program
    headers) with the thread memory model (LayoutModel.v: main thread). *)
From Verif Require Import Machine MachineFacts LayoutModel LayoutSpec LayoutFacts LayoutTop2 LayoutTop4 LayoutTop5 Props_Layout.
From Verif Require Import RelocModel RelocSpec RelocFacts RelocProofs RelocTop RelocMono RelocEx Props_Reloc.
From Verif Require Import StartModel StartSpec StartProofs StartTop Props_Start.

(** ** Vocabulary *)

(** The C string at [p] ends just before [e]. *)
Definition cstring (m : mem) (p e : Z) : Prop :=
  exists n, 0 <= n /\ e = p + n + 1 /\ m (p + n) = 0 /\ forall i, 0 <= i < n -> m (p + i) <> 0.

(** User code running on memory [m]: the [.init_array] functions [fns] (the
    first is number [k]) in order, each on the memory the previous one left,
    then origin_main on what the last one left, then exit with its result; or
    up to the first of them that does not return. *)
Inductive user_runs (w : world) (argc argv envp : Z) : nat -> list Z -> mem -> list ev -> fin -> Prop :=
| ur_main k m m' st : w_main w argc argv envp m = Some (m', st) ->
    user_runs w argc argv envp k [] m [OriginMain argc argv envp; Exit st] (Exited st)
| ur_main_stops k m : w_main w argc argv envp m = None ->
    user_runs w argc argv envp k [] m [OriginMain argc argv envp] UserStopped
| ur_init k f fns m m' es r : w_init w k f argc argv envp m = Some m' ->
    user_runs w argc argv envp (S k) fns m' es r ->
    user_runs w argc argv envp k (f :: fns) m (InitFn f argc argv envp :: es) r
| ur_init_stops k f fns m : w_init w k f argc argv envp m = None ->
    user_runs w argc argv envp k (f :: fns) m [InitFn f argc argv envp] UserStopped.

(** The program's TLS variable at offset [i] of the block is where code compiled
    for the target looks for it (where the code gets this right: see C47). *)
Definition tls_abi_ok (a : arch) (td : td_layout) (t : tls_info) : Prop :=
  a = X86_64 \/ a = X86 \/ ((tls_align t | meta_size a td) /\ (a = Riscv64 \/ (a = Aarch64 /\ tls_align t <= 16))).

(** Memory [m2] is ready for user code: [m1] with the main thread set up.
    The main thread's identity, canary (the word at AT_RANDOM), fresh TLS block
    at the ABI address, its stack() address and guard, and nothing else
    changed. *)
Definition ready (a : arch) (td : td_layout) (w : world) (aux : list (Z * Z)) (t : tls_info) (m1 m2 : mem) : Prop :=
  exists tp me block area len e limit,
    let page := value_of AT_PAGESZ aux in
    thread_pointer a m2 tp = tp /\ current a td m2 tp = me /\
    id_of td m2 me = w_tid w mod 2 ^ 32 /\
    load_le m2 (canary_addr a tp) (word a) = load_le m1 (value_of AT_RANDOM aux) (word a) mod modulus (wsz a) /\
    fresh_tls t m1 m2 block /\ (tls_align t | block) /\
    (tls_abi_ok a td t -> forall i, abi_tls_addr a t tp i = block + i) /\
    cstring m1 (value_of AT_EXECFN aux) e /\ w_rlimit w = Some limit /\
    (0 <= e -> e + page <= modulus (wsz a) -> 0 <= limit <= page_ceil page e ->
       exists size, stack_of a td m2 me = (page_ceil page e - limit, size, page)) /\
    w_mmap w = Some area /\ (forall x, ~ (area <= x < area + len) -> m2 x = m1 x).

(** ** Proofs *)

Lemma cstr_end_sound m : forall n p e, cstr_end n m p = Some e -> cstring m p e.
Proof.
  induction n as [|n IH]; intros p e H; [discriminate|]. cbn [cstr_end] in H.
  destruct (Z.eqb_spec (m p) 0) as [E|E].
  - injection H as <-. exists 0. replace (p + 0) with p by lia. repeat split; auto; lia.
  - destruct (IH _ _ H) as (k & K1 & -> & K3 & K4). exists (k + 1).
    split; [lia|]. split; [lia|]. split; [rewrite <- K3; f_equal; lia|].
    intros i Hi. destruct (Z.eq_dec i 0) as [->|]; [replace (p + 0) with p by lia; exact E|].
    replace (p + i) with (p + 1 + (i - 1)) by lia. apply K4. lia.
Qed.
Lemma cstring_unique m p e e' : cstring m p e -> cstring m p e' -> e = e'.
Proof.
  intros (n & N1 & -> & N3 & N4) (k & K1 & -> & K3 & K4).
  destruct (Z.lt_trichotomy n k) as [L|[->|L]]; auto; exfalso; [exact (K4 n ltac:(lia) N3)|exact (N4 k ltac:(lia) K3)].
Qed.

Lemma main_rlimit ck a td t page m sp e rl rnd ans tid R :
  initialize_main ck a td t page m sp e rl rnd ans tid = Some R -> exists l, rl = Some l.
Proof.
  destruct rl as [l|]; [eauto|]. rewrite main_unlimited_stack_panics. discriminate.
Qed.
Lemma main_mmap ck a td t page m sp e rl rnd ans tid R len new :
  initialize_main ck a td t page m sp e rl rnd ans tid = Some R -> mr_log R = [SMmapRW len (Some new)] -> ans = Some new.
Proof.
  unfold initialize_main. intros H. repeat match type of H with
  | bind ?o _ = _ => destruct o as [?|]; [cbn [bind] in H|discriminate]
  | match ?o with _ => _ end = _ => destruct o; try discriminate
  | (if ?b then _ else _) = _ => destruct b; try discriminate
  end; try (injection H as <-); cbn [mr_log]; intros E; try congruence; injection E; congruence.
Qed.

Lemma setup_ready c l w sp aux m1 t R : 
  main_setup c l w sp aux m1 t R ->
  (forall e, initialize_main (f_debug c) (f_arch c) (l_td l) t (value_of AT_PAGESZ aux) m1 sp e
      (w_rlimit w) (value_of AT_RANDOM aux) (w_mmap w) (w_tid w) = Some R ->
     successful_main (f_debug c) (f_arch c) (l_td l) t (value_of AT_PAGESZ aux) m1 sp e
      (w_rlimit w) (value_of AT_RANDOM aux) (w_mmap w) (w_tid w) R) ->
  ready (f_arch c) (l_td l) w aux t m1 (mr_mem R).
Proof.
  intros (e & (n & HE) & HI) HS. apply cstr_end_sound in HE.
  pose proof (HS e HI) as SM.
  destruct (main_rlimit _ _ _ _ _ _ _ _ _ _ _ _ _ HI) as [limit HL].
  destruct (main_placed _ _ _ _ _ _ _ _ _ _ _ _ _ SM) as (new & len & tb & h & EL & P & ET & B1 & B2 & D & TP & TH & FT).
  destruct (main_tp _ _ _ _ _ _ _ _ _ _ _ _ _ SM) as (C1 & C2 & C3 & C4).
  destruct (main_thread_tls_fresh _ _ _ _ _ _ _ _ _ _ _ _ _ SM) as (new' & len' & to & ro & EL' & ET' & F1 & F2 & F3 & F4 & F5 & F6 & F7).
  rewrite EL in EL'. injection EL' as <- <-.
  pose proof (sm_env _ _ _ _ _ _ _ _ _ _ _ _ _ SM) as WE.
  destruct (main_ok _ _ _ _ WE _ _ _ _ _ _ _ _ _ (sm_ck _ _ _ _ _ _ _ _ _ _ _ _ _ SM) HI (sm_map _ _ _ _ _ _ _ _ _ _ _ _ _ SM) (sm_template _ _ _ _ _ _ _ _ _ _ _ _ _ SM))
    as (new2 & n2 & tb2 & h2 & X).
  destruct X.
  rewrite EL in mn_log. injection mn_log as <- <-.
  pose proof (ideal_tls_placed (f_arch c) (l_td l) t _ _ _ mn_calc) as P2.
  exists (mr_tp R), (mr_thread R), (new + tb2), new, len, e, limit. cbv zeta.
  split; [exact C2|]. split; [exact C1|]. split; [exact C3|]. split; [rewrite C4, mn_guard; reflexivity|].
  split; [exact mn_fresh|]. 
  split.
  { destruct mn_map as (_ & DM & _). apply Z.divide_add_r; [|exact mn_al].
    destruct WE as [_ [W1 W2 W3] WP]. apply wf_page_bounds in WP. destruct WP.
    eapply Z.divide_trans; [|exact DM]. apply pow2_le_div; auto; lia. }
  split.
  { intros Ha i. rewrite mn_tp. apply (le_addr _ _ _ _ WE); [|exact P2].
    destruct Ha as [Ea|[Ea|[Hd [Ea|[Ea Hal]]]]]; rewrite Ea in *; auto; split; auto. }
  split; [exact HE|]. split; [exact HL|].
  split; [intros; rewrite HL in SM; eapply main_stack_partial; eauto|].
  split; [exact (main_mmap _ _ _ _ _ _ _ _ _ _ _ _ _ _ _ HI EL)|].
  intros x Hx. apply F7; unfold inside; lia.
Qed.

Lemma call_main_runs a w argc argv envp k m : 0 <= argc < 2 ^ 31 ->
  user_runs w argc argv envp k [] m (fst (call_main a w (argc, argv, envp) m)) (snd (call_main a w (argc, argv, envp) m)).
Proof.
  intros H. destruct (call_main_cases a w argc argv envp m H) as [(m' & st & E & ->)|[E ->]]; cbn [fst snd].
  - exact (ur_main w argc argv envp k m m' st E).
  - exact (ur_main_stops w argc argv envp k m E).
Qed.

Lemma init_loop_user a w argc argv envp l tot (Hargc : 0 <= argc < 2 ^ 31) (Hkeep : inits_keep a l w tot) :
  forall (rest : list Z) fuel n (done : list Z) m,
  (length done + length rest = tot)%nat ->
  Z.of_nat (length rest) * wsz a < modulus (wsz a) ->
  words_at a m (l_init_start l + Z.of_nat (length done) * wsz a) rest ->
  let r := init_loop fuel a w (argc, argv, envp) n ((l_init_start l + Z.of_nat (length done) * wsz a) mod modulus (wsz a))
             ((l_init_start l + Z.of_nat tot * wsz a) mod modulus (wsz a)) m (call_main a w (argc, argv, envp)) in
  snd r <> More -> user_runs w argc argv envp n rest m (fst r) (snd r).
Proof.
  induction rest as [|f rest IH]; intros fuel n done m Ht HM Hw; cbv zeta; (destruct fuel as [|fuel]; [cbn; congruence|]).
  - cbn [init_loop]. assert (E : tot = length done) by (cbn in Ht; lia). rewrite E, Z.eqb_refl.
    intros _. apply call_main_runs. exact Hargc.
  - cbn [init_loop]. set (init := (l_init_start l + Z.of_nat (length done) * wsz a) mod modulus (wsz a)).
    assert (E : init =? (l_init_start l + Z.of_nat tot * wsz a) mod modulus (wsz a) = false).
    { unfold init. replace (l_init_start l + Z.of_nat tot * wsz a) with
        (l_init_start l + Z.of_nat (length done) * wsz a + Z.of_nat (length (f :: rest)) * wsz a) by (cbn [length] in *; nia).
      apply ptr_neq. pose proof (wsz_pos a). cbn [length] in *. nia. }
    rewrite E. apply words_cons in Hw. destruct Hw as [Hw1 Hw2]. fold init in Hw1. rewrite Hw1.
    destruct (w_init w n f argc argv envp m) as [m'|] eqn:Ei; cbn [emit fst snd]; intros HN.
    2:{ exact (ur_init_stops w argc argv envp n f rest m Ei). }
    assert (En : padd a init (wsz a) = (l_init_start l + Z.of_nat (length (done ++ [f])) * wsz a) mod modulus (wsz a)).
    { unfold init. rewrite padd_mod, app_length. cbn [length]. f_equal. lia. }
    rewrite En in HN |- *. apply (ur_init w argc argv envp n f rest m m'); [exact Ei|]. apply IH; [| | |exact HN].
    + rewrite app_length. cbn [length] in *. lia.
    + cbn [length] in *. pose proof (wsz_pos a). nia.
    + intros i x Hi. specialize (Hw2 i x Hi).
      assert (Li : (i < length rest)%nat) by (apply nth_error_Some; congruence).
      rewrite <- Hw2. rewrite app_length. cbn [length].
      replace (l_init_start l + Z.of_nat (length done) * wsz a + wsz a + Z.of_nat i * wsz a)
        with (l_init_start l + Z.of_nat (length done + 1 + i) * wsz a) by lia.
      replace (l_init_start l + Z.of_nat (length done + 1) * wsz a + Z.of_nat i * wsz a)
        with (l_init_start l + Z.of_nat (length done + 1 + i) * wsz a) by lia.
      apply (Hkeep _ _ _ _ _ _ _ Ei). cbn [length] in Ht. lia.
Qed.

Lemma not_user_setup c sp envp t st pre : prefix pre (runtime_setup c sp envp t st) -> ~ Exists is_user pre.
Proof.
  intros P H. apply Exists_exists in H. destruct H as (e & Hi & U). apply (in_prefix _ _ _ P) in Hi.
  unfold runtime_setup in Hi. destruct (f_relocate c && f_origin_start c), (f_param c || f_thread c), (f_thread c);
  cbn in Hi; repeat (destruct Hi as [<-|Hi]; [exact U|]); exact Hi.
Qed.

Lemma boot_core fuel c l w sp m m1 args env aux fns hs base :
  let a := f_arch c in
  let envp := envp_of a sp args in
  let r := entry fuel c l w sp m in
  kernel_stack a m sp args env aux ->
  relocated c l w envp m m1 -> stack_at a m1 envp env aux ->
  array_ok c l m1 fns -> inits_keep a l w (length fns) ->
  f_thread c = true -> thread_area_ok c l w sp aux m1 (length fns) ->
  headers a m1 aux hs -> loaded_at a base (value_of AT_PHDR aux) (l_dynv l) hs ->
  snd r <> More -> Exists is_user (fst r) ->
  exists t R e es, template_is a base hs t /\
    successful_main (f_debug c) a (l_td l) t (value_of AT_PAGESZ aux) m1 sp e
      (w_rlimit w) (value_of AT_RANDOM aux) (w_mmap w) (w_tid w) R /\
    ready a (l_td l) w aux t m1 (mr_mem R) /\
    fst r = runtime_setup c sp envp t (stack_request hs) ++ es /\
    user_runs w (Z.of_nat (length args)) (argv_of a sp) envp 0 fns (mr_mem R) es (snd r).
Proof.
  intros a envp r HK HR HS HA HI FT HT HH HL HM HU. pose proof HK as (_ & Hn & _).
  set (argc := Z.of_nat (length args)) in *. set (argv := argv_of a sp).
  assert (Hargc : 0 <= argc < 2 ^ 31) by (unfold argc; lia).
  unfold r in HM, HU |- *. clear r.
  destruct (entry_cases fuel c l w sp m args env aux HK) as [(pre & f & Hp & E & _ & _)|(m1' & Hr & E)].
  { exfalso. rewrite E in HU. cbn [fst] in HU. apply (not_user_setup c sp envp (Tls 0 0 0 0) 0 pre); auto.
    rewrite setup_split. apply prefix_more. exact Hp. }
  fold a argc argv envp in E, Hr. pose proof (relocated_unique _ _ _ _ _ _ _ HR Hr) as <-. clear Hr.
  rewrite E in HM, HU |- *. clear E. cbn [fst snd] in *. unfold after_relocate in *. cbn [snd] in *. fold a in HM, HU |- *.
  match goal with |- context [init_runtime fuel c l w sp envp m1 ?k] => set (K := k) in * end.
  destruct (init_runtime_cases fuel c l w sp envp m1 K) as (t & st & [(m2 & E & _ & H2)|(pre & f & Hp & E & _ & _)]);
  rewrite E in HM, HU |- *; cbn [fst snd] in *.
  2:{ exfalso. apply (not_user_setup c sp envp t st _) with (2 := HU). rewrite setup_split. apply prefix_app. exact Hp. }
  destruct (H2 FT) as (aux' & R & E1 & E2 & E3 & ->). fold a in E1, E2.
  rewrite (param_unique fuel a m1 envp env aux aux' (envp_range _ _ _) HS E1) in E2, E3. clear E1 aux'.
  destruct (C11_startup_info (f_debug c) a m1 aux hs (l_dynv l) base HH HL) as (N & t' & HN).
  destruct (HN (N + fuel)%nat ltac:(lia)) as (EN & HTm).
  destruct (startup_info_mono (f_debug c) a aux (l_dynv l) m1 fuel (N + fuel) ltac:(lia)) as [EE|EE]; [congruence|].
  rewrite E2, EN in EE. injection EE as <- ->.
  pose proof E3 as (e0 & _ & HI0).
  exists t, R, e0, (fst (K (mr_mem R))). split; [exact HTm|].
  split; [exact (proj1 (HT t _ _ e0 R E2 HI0))|]. split.
  { apply (setup_ready c l w sp aux m1 t R E3). intros e EQ.
    exact (proj1 (HT t _ _ e R E2 EQ)). }
  split; [rewrite setup_split, <- app_assoc; reflexivity|].
  assert (SA : same_array a l (length fns) m1 (mr_mem R)) by (apply (thread_keeps c l w sp aux m1 (length fns) t _ _ R HT E2 E3)).
  unfold K. unfold array_ok in HA. fold a in HA. unfold K in HM. destruct (f_init_array c).
  - destruct HA as (A1 & A2 & A3 & A4).
    pose proof (init_loop_user a w argc argv envp l (length fns) Hargc HI fns fuel 0 [] (mr_mem R) eq_refl A3) as C.
    cbv zeta in C. cbn [length Z.of_nat] in C. rewrite Z.mul_0_l, Z.add_0_r, Z.mod_small in C by exact A2. rewrite <- A1 in C.
    apply C; [|exact HM]. intros i x Hi. rewrite <- (A4 i x Hi). apply SA. apply nth_error_Some. congruence.
  - subst fns. apply call_main_runs. exact Hargc.
Qed.

(** C59.  Every startup with the "thread" feature that ends and gets as far as
    user code had the memory [m2] ready for its first user function, and then
    ran the user's functions from there. *)
Theorem C59_user_sees fuel c l w sp m m1 args env aux fns hs base :
  let a := f_arch c in
  let envp := envp_of a sp args in
  let r := entry fuel c l w sp m in
  kernel_stack a m sp args env aux ->
  relocated c l w envp m m1 -> stack_at a m1 envp env aux ->
  array_ok c l m1 fns -> inits_keep a l w (length fns) ->
  f_thread c = true -> thread_area_ok c l w sp aux m1 (length fns) ->
  headers a m1 aux hs -> loaded_at a base (value_of AT_PHDR aux) (l_dynv l) hs ->
  snd r <> More -> Exists is_user (fst r) ->
  exists t m2 es, template_is a base hs t /\
    ready a (l_td l) w aux t m1 m2 /\
    fst r = runtime_setup c sp envp t (stack_request hs) ++ es /\
    user_runs w (Z.of_nat (length args)) (argv_of a sp) envp 0 fns m2 es (snd r).
Proof.
  intros a envp r H1 H2 H3 H4 H5 H6 H7 H8 H9 H10 H11.
  destruct (boot_core fuel c l w sp m m1 args env aux fns hs base H1 H2 H3 H4 H5 H6 H7 H8 H9 H10 H11) as (t & R & e & es & A & _ & B & C & D).
  exists t, (mr_mem R), es. auto.
Qed.
Print Assumptions C59_user_sees.

(** Without .init_array functions, the process's exit status is what origin_main
    returned on the ready memory. *)
Theorem C59_status fuel c l w sp m m1 args env aux hs base st :
  let a := f_arch c in
  let envp := envp_of a sp args in
  kernel_stack a m sp args env aux ->
  relocated c l w envp m m1 -> stack_at a m1 envp env aux ->
  array_ok c l m1 [] ->
  f_thread c = true -> thread_area_ok c l w sp aux m1 0 ->
  headers a m1 aux hs -> loaded_at a base (value_of AT_PHDR aux) (l_dynv l) hs ->
  snd (entry fuel c l w sp m) = Exited st ->
  exists t m2 m3, template_is a base hs t /\ ready a (l_td l) w aux t m1 m2 /\
    w_main w (Z.of_nat (length args)) (argv_of a sp) envp m2 = Some (m3, st).
Proof.
  intros a envp HK HR HS HA FT HT HH HL HE.
  assert (HU : Exists is_user (fst (entry fuel c l w sp m))).
  { pose proof (C10_inits fuel c l w sp m m1 args env aux [] HK HR HS HA ltac:(intros k f ac av ep x y E i Hi; inversion Hi) (fun _ => HT)) as O.
    destruct O as (t & s & status & O). rewrite HE in O. destruct O as (-> & ->).
    apply Exists_exists. eexists. split; [apply in_or_app; right; left; reflexivity|exact I]. }
  destruct (C59_user_sees fuel c l w sp m m1 args env aux [] hs base HK HR HS HA ltac:(intros k f ac av ep x y E i Hi; inversion Hi) FT HT HH HL ltac:(rewrite HE; discriminate) HU)
    as (t & m2 & es & H1 & H2 & _ & H4).
  rewrite HE in H4. inversion H4; subst. exists t, m2, m'. auto.
Qed.
Print Assumptions C59_status.

(** The example of C10_complete_ex, with an origin_main that returns a word it
    finds in its TLS block: the whole run, and the hypotheses of C59. *)
Definition ex3_world : world := World 4096 0 (Some 0x4000) (Some 0x700000) 42
  (fun _ _ _ _ _ m => Some m) (fun _ _ _ m => Some (m, load_le m 0x700000 4)).
Theorem C59_ex :
  let r := entry 80 ex2_cfg ex2_link ex3_world 0x7f000 ex2_m in
  snd r = Exited 0x55667788 /\
  exists t m2 es, template_is X86_64 0x400000 ex2_hs t /\
    ready X86_64 td8 ex3_world ex2_aux t ex2_m m2 /\
    fst r = runtime_setup ex2_cfg 0x7f000 0x7f018 t 0x100000 ++ es /\
    user_runs ex3_world 1 0x7f008 0x7f018 0 [0x401000] m2 es (snd r).
Proof.
  assert (E : entry 80 ex2_cfg ex2_link ex3_world 0x7f000 ex2_m =
    ([ParamInit 0x7f018; StartupInfo (Tls 0x402000 24 8 8) 0x100000; MainThread 0x7f000;
      InitFn 0x401000 1 0x7f008 0x7f018; OriginMain 1 0x7f008 0x7f018; Exit 0x55667788], Exited 0x55667788)) by (vm_compute; reflexivity).
  cbv zeta. rewrite E. cbn [fst snd]. split; [reflexivity|].
  destruct C10_complete_ex as (H1 & H2 & H3 & _ & H5 & _). destruct C11_ex as (HH & HL & _).
  pose proof (C59_user_sees 80 ex2_cfg ex2_link ex3_world 0x7f000 ex2_m ex2_m [0x6000] [0x6100] ex2_aux [0x401000] ex2_hs 0x400000) as C.
  cbv zeta in C. rewrite E in C. cbn [fst snd] in C.
  change (f_arch ex2_cfg) with X86_64 in C. change (envp_of X86_64 0x7f000 [0x6000]) with 0x7f018 in C, H2.
  change (l_td ex2_link) with td8 in C. change (argv_of X86_64 0x7f000) with 0x7f008 in C.
  change (stack_request ex2_hs) with 0x100000 in C. change (Z.of_nat (length [0x6000])) with 1 in C.
  clear E H5.
  refine (C ex2_kernel eq_refl H2 H3 _ eq_refl _ HH HL _ _); clear C.
  - intros k f ac av ep m0 m' H; injection H as <-; intros i Hi; reflexivity.
  - intros t st n e R HI HE.
    destruct (C11_startup_info true X86_64 ex2_m ex2_aux ex2_hs 0 0x400000 HH HL) as (N & t' & HN).
    destruct (HN (N + n)%nat ltac:(lia)) as (E3 & HT).
    assert (ET : t = Tls 0x402000 24 8 8).
    { cbn [f_debug f_arch ex2_cfg l_dynv ex2_link] in HI.
      destruct (startup_info_mono true X86_64 ex2_aux 0 ex2_m n (N + n) ltac:(lia)) as [E|E]; [congruence|].
      rewrite HI, E3 in E. injection E as -> _. exact HT. }
    subst t. clear HI HN E3 HT HH HL.
    change (value_of AT_PAGESZ ex2_aux) with 4096 in *.
    cbn [f_debug f_arch ex2_cfg l_td ex2_link w_rlimit w_mmap w_tid ex3_world] in *.
    assert (WE : wf_env X86_64 td8 (Tls 0x402000 24 8 8) 4096).
    { pose proof env_ex as [W1 W2 W3]. constructor; auto. constructor; cbn; [exists 3; split; [lia|reflexivity]|lia|lia]. }
    assert (EL : mr_log R = [SMmapRW 120 (Some 0x700000)]).
    { unfold initialize_main in HE.
      destruct (round_up true X86_64 e 4096) as [sb|]; [|discriminate]. cbn [bind] in HE.
      change (calculate_tls_size true X86_64 td8 (Tls 0x402000 24 8 8) 4096 0) with (Some (120, 0, 24)) in HE. cbn [bind] in HE.
      change (true && negb (0x700000 mod Z.max (tls_align (Tls 0x402000 24 8 8)) (meta_align X86_64 td8) =? 0)) with false in HE. cbn iota in HE.
      destruct (initialize_tls _ _ _ _ _ _ _ _ _ _ _) as [[[m0 a0] b0]|]; [|discriminate]. cbn [bind] in HE. injection HE as <-. reflexivity. }
    split.
    + constructor; [exact WE|left; reflexivity|exact HE| |]; rewrite EL.
      * intros len map [H|H]; cbn in H; repeat destruct H as [H|H]; try discriminate; try contradiction.
        inversion H; subst. repeat split; try lia. exists 0x700; lia. vm_compute. discriminate.
      * intros len map [H|H]; cbn in H; repeat destruct H as [H|H]; try discriminate; try contradiction.
        inversion H; subst. left. cbn. lia.
    + rewrite EL. intros len map [H|[]]. inversion H; subst. intros i Hi.
      right. destruct i as [|i]; [vm_compute; discriminate|cbn in Hi; lia].
  - discriminate.
  - repeat first [left; exact I | right].
Qed.
Print Assumptions C59_ex.
