(** Properties C08, C10, C11, C46: program startup.  Model: StartModel.v (on top
    of RelocModel.v and LayoutModel.v); vocabulary: StartSpec.v. *)
From Verif Require Import Machine MachineFacts LayoutModel LayoutSpec LayoutTop2 Props_Layout.
From Verif Require Import RelocModel RelocSpec RelocFacts RelocProofs RelocTop RelocMono RelocEx Props_Reloc.
From Verif Require Import StartModel StartSpec StartProofs StartTop.

(** ** C08: arguments *)

Definition carries (e : ev) (argc argv envp : Z) : Prop :=
  (exists f, e = InitFn f argc argv envp) \/ e = OriginMain argc argv envp.

Lemma carries_calls fns argc argv envp status e argc' argv' envp' :
  In e (user_calls fns argc argv envp status) -> carries e argc' argv' envp' ->
  argc' = argc /\ argv' = argv /\ envp' = envp.
Proof.
  intros Hi Hc. unfold user_calls in Hi. apply in_app_or in Hi. destruct Hi as [Hi|[Hi|[Hi|[]]]].
  - apply in_map_iff in Hi. destruct Hi as (f & <- & _). destruct Hc as [[f' E]|E]; [injection E; auto|discriminate].
  - subst e. destruct Hc as [[f' E]|E]; [discriminate|injection E; auto].
  - subst e. destruct Hc as [[f' E]|E]; discriminate.
Qed.

Lemma carries_setup c sp envp t st e argc' argv' envp' :
  In e (runtime_setup c sp envp t st) -> carries e argc' argv' envp' -> False.
Proof.
  unfold runtime_setup. intros Hi [[f ->]| ->];
  destruct (f_relocate c && f_origin_start c), (f_param c || f_thread c), (f_thread c); cbn in Hi; intuition discriminate.
Qed.

Lemma in_prefix {A} (x : A) l l' : prefix l l' -> In x l -> In x l'.
Proof. intros [r ->] H. apply in_or_app. auto. Qed.

Lemma order_events c sp argc argv envp fns r e : order_ok c sp argc argv envp fns r -> In e (fst r) ->
  exists t st status, In e (runtime_setup c sp envp t st) \/ In e (user_calls fns argc argv envp status).
Proof.
  intros (t & st & status & H) Hi. exists t, st, status. cbv zeta in H. destruct (snd r).
  - destruct H as [_ H]. rewrite H in Hi. apply in_app_or. exact Hi.
  - destruct H as (u & x & E & _ & Hp). rewrite E in Hi. apply in_app_or in Hi. destruct Hi as [Hi|Hi]; auto.
    right. apply (in_prefix e (u ++ [x])); auto.
  - left. apply (in_prefix _ _ _ H Hi).
  - left. apply (in_prefix _ _ _ H Hi).
  - apply in_app_or. apply (in_prefix _ _ _ H Hi).
Qed.

(** Every init function and origin_main get argc, argv and envp as the kernel
    laid them out: argc is the number of arguments, argv points at the argument
    pointers (followed by NULL), envp at the environment pointers (followed by
    NULL and the auxv).  For every build configuration, target, user program
    and any number of steps. *)
Theorem C08_args fuel c l w sp m args env aux e argc argv envp :
  kernel_stack (f_arch c) m sp args env aux ->
  In e (fst (entry fuel c l w sp m)) -> carries e argc argv envp ->
  argc = Z.of_nat (length args) /\
  argv = (sp + wsz (f_arch c)) mod modulus (wsz (f_arch c)) /\
  envp = (sp + (Z.of_nat (length args) + 2) * wsz (f_arch c)) mod modulus (wsz (f_arch c)) /\
  words_at (f_arch c) m argv (args ++ [0]) /\
  stack_at (f_arch c) m envp env aux.
Proof.
  intros HK Hi Hc. destruct (entry_order fuel c l w sp m args env aux HK) as (fns & HO & _).
  destruct (order_events _ _ _ _ _ _ _ _ HO Hi) as (t & st & status & [H|H]).
  - exfalso. exact (carries_setup _ _ _ _ _ _ _ _ _ H Hc).
  - destruct (carries_calls _ _ _ _ _ _ _ _ _ H Hc) as (-> & -> & ->).
    split; [reflexivity|]. split; [reflexivity|]. split; [unfold envp_of; f_equal; lia|].
    split; [eapply kernel_argv; exact HK|eapply kernel_tail; exact HK].
Qed.

(** Relocation and parameter initialisation are given the same envp. *)
Theorem C08_runtime_envp fuel c l w sp m args env aux p :
  kernel_stack (f_arch c) m sp args env aux ->
  In (Relocate p) (fst (entry fuel c l w sp m)) \/ In (ParamInit p) (fst (entry fuel c l w sp m)) ->
  p = (sp + (Z.of_nat (length args) + 2) * wsz (f_arch c)) mod modulus (wsz (f_arch c)).
Proof.
  intros HK Hi. destruct (entry_order fuel c l w sp m args env aux HK) as (fns & HO & _).
  assert (E : p = envp_of (f_arch c) sp args); [|rewrite E; unfold envp_of; f_equal; lia].
  assert (U : forall e status, In e (user_calls fns (Z.of_nat (length args)) (argv_of (f_arch c) sp) (envp_of (f_arch c) sp args) status) ->
     e <> Relocate p /\ e <> ParamInit p).
  { intros e status H. unfold user_calls in H. apply in_app_or in H. destruct H as [H|[H|[H|[]]]].
    - apply in_map_iff in H. destruct H as (f & <- & _). split; discriminate.
    - subst e. split; discriminate.
    - subst e. split; discriminate. }
  destruct Hi as [Hi|Hi]; destruct (order_events _ _ _ _ _ _ _ _ HO Hi) as (t & st & status & [H|H]);
    try (destruct (U _ _ H); congruence);
    unfold runtime_setup in H; destruct (f_relocate c && f_origin_start c), (f_param c || f_thread c), (f_thread c); cbn in H;
    repeat (destruct H as [H|H]); congruence || contradiction.
Qed.

(** ** C10: order of startup *)

(** For every build configuration and every user program, and at every point
    of the run: relocation, rustix's parameters, startup info, main thread,
    init functions, origin_main and exit happen at most once each and in that
    order; user code runs only when the runtime is set up; the status passed
    to exit is the one origin_main returned; a trap or panic inside origin
    happens before any user code.  The number of init functions is that of the
    words between __init_array_start and __init_array_end. *)
Theorem C10_order fuel c l w sp m args env aux :
  let a := f_arch c in
  kernel_stack a m sp args env aux ->
  exists fns, order_ok c sp (Z.of_nat (length args)) (argv_of a sp) (envp_of a sp args) fns (entry fuel c l w sp m) /\
    (f_init_array c = false -> fns = []) /\
    (f_init_array c = true -> 0 <= l_init_start l < modulus (wsz a) -> (exists st, snd (entry fuel c l w sp m) = Exited st) ->
       (l_init_start l + Z.of_nat (length fns) * wsz a) mod modulus (wsz a) = l_init_end l).
Proof. intros a HK. apply entry_order with env aux. exact HK. Qed.

(** The exit status is origin_main's return value. *)
Theorem C10_status fuel c l w sp m args env aux st :
  let a := f_arch c in
  kernel_stack a m sp args env aux ->
  snd (entry fuel c l w sp m) = Exited st ->
  exists m1 m2, w_main w (Z.of_nat (length args)) (argv_of a sp) (envp_of a sp args) m1 = Some (m2, st).
Proof.
  intros a HK HE. pose proof HK as (_ & Hn & _).
  set (argc := Z.of_nat (length args)) in *. set (argv := argv_of a sp). set (envp := envp_of a sp args).
  assert (Hargc : 0 <= argc < 2 ^ 31) by (unfold argc; lia).
  assert (CM : forall m, snd (call_main a w (argc, argv, envp) m) = Exited st -> exists m1 m2, w_main w argc argv envp m1 = Some (m2, st)).
  { intros m0 H. destruct (call_main_cases a w argc argv envp m0 Hargc) as [(m' & s & E1 & E2)|[E1 E2]]; rewrite E2 in H; cbn in H; [|discriminate].
    injection H as <-. eauto. }
  destruct (entry_cases fuel c l w sp m args env aux HK) as [(pre & f & _ & E & Hf & _)|(m1 & _ & E)]; rewrite E in HE; cbn [snd] in HE.
  { destruct Hf as [->|[->| ->]]; discriminate. }
  fold a argc argv envp in HE. unfold after_relocate in HE. cbn [snd] in HE. fold a in HE.
  match type of HE with context [init_runtime fuel c l w sp envp m1 ?k] => set (K := k) in HE end.
  destruct (init_runtime_cases fuel c l w sp envp m1 K) as (t & s & [(m2 & E2 & _)|(pre & f & _ & E2 & Hf & _)]); rewrite E2 in HE; cbn [snd] in HE.
  2:{ destruct Hf as [->| ->]; discriminate. }
  unfold K in HE. destruct (f_init_array c); [|apply (CM _ HE)].
  destruct (init_loop_any a w argc argv envp (call_main a w (argc, argv, envp)) fuel 0 (l_init_start l) (l_init_end l) m2)
      as [(fns & m3 & E3 & _)|[(fns & _ & E3)|(fns & E3)]]; rewrite E3 in HE; cbn [snd] in HE; [apply (CM _ HE)|discriminate|discriminate].
Qed.

(** The main thread's mapping is a fresh one, away from .init_array. *)
Definition thread_area_ok (c : cfg) (l : link) (w : world) (sp : Z) (aux : list (Z * Z)) (m : mem) (n : nat) : Prop :=
  let a := f_arch c in
  forall t st k e R,
    initialize_startup_info k (f_debug c) a aux (l_dynv l) m = SOk (t, st) ->
    initialize_main (f_debug c) a (l_td l) t (value_of AT_PAGESZ aux) m sp e
      (w_rlimit w) (value_of AT_RANDOM aux) (w_mmap w) (w_tid w) = Some R ->
    successful_main (f_debug c) a (l_td l) t (value_of AT_PAGESZ aux) m sp e
      (w_rlimit w) (value_of AT_RANDOM aux) (w_mmap w) (w_tid w) R /\
    forall len map, In (SMmapRW len (Some map)) (mr_log R) ->
      forall i, (i < n)%nat ->
        apart map len ((l_init_start l + Z.of_nat i * wsz a) mod modulus (wsz a)) (wsz a).

Lemma thread_keeps c l w sp aux m n t st k R : thread_area_ok c l w sp aux m n ->
  initialize_startup_info k (f_debug c) (f_arch c) aux (l_dynv l) m = SOk (t, st) ->
  main_setup c l w sp aux m t R -> same_array (f_arch c) l n m (mr_mem R).
Proof.
  intros HT HSI (e & _ & HE). destruct (HT t st k e R HSI HE) as (SM & HA).
  destruct (main_thread_tls_fresh _ _ _ _ _ _ _ _ _ _ _ _ _ SM) as (new & len & to & ro & EL & _ & B1 & B2 & B3 & B4 & _ & _ & FR).
  intros i Hi p. specialize (HA len new ltac:(rewrite EL; left; reflexivity) i Hi). fold p in HA.
  apply load_le_ext. intros x Hx. apply FR; unfold inside; rewrite wsz_word in Hx; unfold apart in HA; lia.
Qed.

(** The functions called are those that .init_array contains after relocation,
    in order, each once — if the init functions do not overwrite the array
    themselves. *)
Theorem C10_inits fuel c l w sp m m1 args env aux fns :
  let a := f_arch c in
  let envp := envp_of a sp args in
  kernel_stack a m sp args env aux ->
  relocated c l w envp m m1 -> stack_at a m1 envp env aux ->
  array_ok c l m1 fns -> inits_keep a l w (length fns) ->
  (f_thread c = true -> thread_area_ok c l w sp aux m1 (length fns)) ->
  order_ok c sp (Z.of_nat (length args)) (argv_of a sp) envp fns (entry fuel c l w sp m).
Proof.
  intros a envp HK HR HS HA HI HT. apply entry_inits with m1 env aux; auto.
  intros FT t st n R HSI HM. apply thread_keeps with w sp aux t st n; auto.
Qed.

(** Startup reaches origin_main and exits with its status, having done
    everything, if relocation completes, the main thread can be set up and the
    user's functions return. *)
Theorem C10_complete c l w sp m m1 args env aux fns hs base :
  let a := f_arch c in
  let argc := Z.of_nat (length args) in
  let argv := argv_of a sp in
  let envp := envp_of a sp args in
  kernel_stack a m sp args env aux -> sp <> 0 -> sp mod 16 = 0 ->
  relocated c l w envp m m1 -> stack_at a m1 envp env aux ->
  array_ok c l m1 fns -> inits_keep a l w (length fns) ->
  (f_thread c = true ->
     headers a m1 aux hs /\ loaded_at a base (value_of AT_PHDR aux) (l_dynv l) hs /\
     thread_area_ok c l w sp aux m1 (length fns) /\
     forall t, template_is a base hs t -> exists R, main_setup c l w sp aux m1 t R) ->
  (forall n f m, w_init w n f argc argv envp m <> None) -> (forall m, w_main w argc argv envp m <> None) ->
  exists t st status, ends c l w sp m (runtime_setup c sp envp t st ++ user_calls fns argc argv envp status, Exited status).
Proof.
  intros a argc argv envp HK S0 S16 HR HS HA HI HT HRI HRM.
  apply (entry_complete c l w sp m m1 args env aux fns); auto.
  intros FT. destruct (HT FT) as (H1 & H2 & H3 & H4).
  destruct (startup_info_spec (S (length hs)) (f_debug c) a m1 aux hs (l_dynv l) base ltac:(lia) H1 H2) as (t & E & Ht).
  destruct (H4 t Ht) as (R & HM). exists t, (stack_request hs), R. split; [eauto|]. split; [exact HM|].
  apply thread_keeps with w sp aux t (stack_request hs) (S (length hs)); auto.
Qed.

(** In a static PIE, with an .init_array filled by RELA entries: the functions
    called are at load base + addend. *)
Theorem C10_relocated_inits c l w m g s envp ads :
  let a := f_arch c in
  let e := reloc_env c l w envp in
  static_pie e m g -> outcome e m (Ok s) ->
  0 <= l_init_start l < modulus (wsz a) ->
  Z.of_nat (length ads) * wsz a < modulus (wsz a) ->
  l_init_end l = (l_init_start l + Z.of_nat (length ads) * wsz a) mod modulus (wsz a) ->
  (forall i ad, nth_error ads i = Some ad -> exists k o info,
     nth_error (g_rela g) k = Some (o, info, ad) /\ alone a (fixups a m g) k /\
     (bias a g + o) mod modulus (wsz a) = (l_init_start l + Z.of_nat i * wsz a) mod modulus (wsz a)) ->
  init_array_at a l (rm s) (map (fun ad => (bias a g + ad) mod modulus (wsz a)) ads).
Proof.
  intros a e Hp Ho H1 H2 H3 H4. unfold init_array_at. rewrite map_length. repeat split; auto; try lia.
  intros i x Hi. rewrite nth_error_map in Hi. destruct (nth_error ads i) as [ad|] eqn:Ea; [|discriminate].
  cbn in Hi. injection Hi as <-. destruct (H4 i ad Ea) as (k & o & info & E1 & E2 & E3).
  rewrite <- E3. apply (C12_rela e m g s k o info ad); auto.
Qed.

(** ** C11: TLS template and stack size *)

(** For every program-header table, in any order and with any other headers. *)
Theorem C11_startup_info ck a m aux hs dynv base :
  headers a m aux hs -> loaded_at a base (value_of AT_PHDR aux) dynv hs ->
  exists N t, forall n, (N <= n)%nat ->
    initialize_startup_info n ck a aux dynv m = SOk (t, stack_request hs) /\ template_is a base hs t.
Proof.
  intros H1 H2. destruct (startup_info_spec (S (length hs)) ck a m aux hs dynv base ltac:(lia) H1 H2) as (t & E & Ht).
  exists (S (length hs)), t. intros n Hn. split; auto.
  destruct (startup_info_mono ck a aux dynv m (S (length hs)) n Hn) as [E'|E']; congruence.
Qed.

(** In the startup sequence: the values recorded before any user code runs are
    those of the headers, as they are in memory after relocation. *)
Theorem C11_run fuel c l w sp m m1 args env aux hs base t st :
  let a := f_arch c in
  let envp := envp_of a sp args in
  kernel_stack a m sp args env aux -> relocated c l w envp m m1 -> stack_at a m1 envp env aux ->
  headers a m1 aux hs -> loaded_at a base (value_of AT_PHDR aux) (l_dynv l) hs ->
  In (StartupInfo t st) (fst (entry fuel c l w sp m)) ->
  template_is a base hs t /\ default_stack_size st = Z.max 0x20000 (stack_request hs).
Proof.
  intros a envp HK HR HS HH HL Hi. pose proof HK as (_ & Hn & _).
  set (argc := Z.of_nat (length args)) in *. set (argv := argv_of a sp).
  assert (Hargc : 0 <= argc < 2 ^ 31) by (unfold argc; lia).
  assert (U : forall fns status, ~ In (StartupInfo t st) (user_calls fns argc argv envp status)).
  { intros fns status H. unfold user_calls in H. apply in_app_or in H. destruct H as [H|[H|[H|[]]]]; try discriminate.
    apply in_map_iff in H. destruct H as (f & E & _). discriminate. }
  assert (KEY : forall aux', param_init fuel a m1 envp = Some aux' ->
     initialize_startup_info fuel (f_debug c) a aux' (l_dynv l) m1 = SOk (t, st) ->
     template_is a base hs t /\ default_stack_size st = Z.max 0x20000 (stack_request hs)).
  { intros aux' E1 E2. rewrite (param_unique fuel a m1 envp env aux aux' (envp_range _ _ _) HS E1) in E2.
    destruct (C11_startup_info (f_debug c) a m1 aux hs (l_dynv l) base HH HL) as (N & t' & HN).
    destruct (HN (N + fuel)%nat ltac:(lia)) as (E3 & HT).
    destruct (startup_info_mono (f_debug c) a aux (l_dynv l) m1 fuel (N + fuel) ltac:(lia)) as [E|E]; [congruence|].
    rewrite E2, E3 in E. injection E as -> ->. split; [exact HT|reflexivity]. }
  destruct (entry_cases fuel c l w sp m args env aux HK) as [(pre & f & Hp & E & _ & _)|(m1' & Hr & E)]; rewrite E in Hi; cbn [fst] in Hi.
  { exfalso. fold a envp in Hp. apply (in_prefix _ _ _ Hp) in Hi. unfold setup_pre in Hi. destruct (_ && _); cbn in Hi; intuition discriminate. }
  fold a envp in Hr. pose proof (relocated_unique _ _ _ _ _ _ _ HR Hr) as <-. clear Hr E.
  apply in_app_or in Hi. destruct Hi as [Hi|Hi].
  { exfalso. unfold setup_pre in Hi. destruct (_ && _); cbn in Hi; intuition discriminate. }
  fold a argc argv envp in Hi. unfold after_relocate in Hi. cbn [snd] in Hi. fold a in Hi.
  match type of Hi with context [init_runtime fuel c l w sp envp m1 ?k] => set (K := k) in Hi end.
  destruct (init_runtime_cases fuel c l w sp envp m1 K) as (t' & s' & [(m2 & E2 & _ & HT)|(pre & f & Hp & E2 & _ & HS2)]); rewrite E2 in Hi; cbn [fst] in Hi.
  - apply in_app_or in Hi. destruct Hi as [Hi|Hi].
    + unfold rt_events in Hi. destruct (f_thread c) eqn:FT.
      * destruct (HT eq_refl) as (aux' & R & E3 & E4 & _).
        apply in_app_or in Hi. destruct Hi as [Hi|Hi].
        -- exfalso. destruct (has_param c); cbn in Hi; intuition discriminate.
        -- destruct Hi as [Hi|[Hi|[]]]; [|discriminate]. injection Hi as <- <-. apply (KEY aux'); auto.
      * exfalso. rewrite app_nil_r in Hi. destruct (has_param c); cbn in Hi; intuition discriminate.
    + exfalso.
      assert (exists fns status, prefix (fst (K m2)) (user_calls fns argc argv envp status)) as (fns & status & Hp).
      { assert (UP : forall fns k, user_part argc argv envp fns k -> exists status, prefix (fst k) (user_calls fns argc argv envp status)).
        { intros fns k [(x & ->)|[(u & x & y & -> & _ & Hp)|(x & u & -> & Hp)]]; [exists x; apply prefix_refl|exists y; exact Hp|exists x; exact Hp]. }
        unfold K. destruct (f_init_array c).
        - destruct (init_loop_any a w argc argv envp (call_main a w (argc, argv, envp)) fuel 0 (l_init_start l) (l_init_end l) m2)
            as [(fns & m3 & E3 & _)|[(fns & N & E3)|(fns & E3)]]; rewrite E3; exists fns.
          + apply (UP fns (_, _)). apply (main_part w argc argv envp Hargc a m3 fns).
          + apply (UP fns (_, _)). pose proof (stop_part argc argv envp fns [] N) as P. rewrite app_nil_r in P. exact P.
          + apply (UP fns (_, _)). pose proof (more_part argc argv envp fns []) as P. rewrite app_nil_r in P. exact P.
        - exists []. apply (UP [] (call_main a w (argc, argv, envp) m2)).
          pose proof (main_part w argc argv envp Hargc a m2 []) as P. cbn [map app] in P.
          destruct (call_main a w (argc, argv, envp) m2); exact P. }
      exact (U _ _ (in_prefix _ _ _ Hp Hi)).
  - destruct (HS2 t st Hi) as (aux' & _ & E3 & E4). apply (KEY aux'); auto.
Qed.

(** ** C46: getauxval *)

(** After initialisation from the process's stack, getauxval(AT_HWCAP,
    AT_HWCAP2 or AT_MINSIGSTKSZ) is that record's value (0 if absent), for
    every environment and auxv; any other type panics. *)
Theorem C46_values a m envp env aux t :
  0 <= envp < modulus (wsz a) -> stack_at a m envp env aux -> 0 <= t < 2 ^ 32 ->
  exists N, forall n, (N <= n)%nat -> exists params, param_init n a m envp = Some params /\
    getauxval params t =
      if (t =? 16) || (t =? 26) || (t =? 51) then Some (value_of t aux) else None.
Proof.
  intros He Hs Ht. exists (S (length env + length aux)). intros n Hn. exists aux.
  split; [apply param_init_spec with env; auto; lia|].
  unfold getauxval. rewrite Z.mod_small by exact Ht. unfold AT_HWCAP, AT_HWCAP2, AT_MINSIGSTKSZ, linux_hwcap, linux_minsigstksz. cbn [fst snd].
  destruct (Z.eqb_spec t 16) as [->|]; [reflexivity|]. destruct (Z.eqb_spec t 26) as [->|]; [reflexivity|].
  destruct (Z.eqb_spec t 51) as [->|]; reflexivity.
Qed.

(** Where `unsigned long` is 64 bits wide, only its low 32 bits are looked at:
    a type that no auxv record can have is answered like AT_HWCAP. *)
Theorem C46_wide_type_refuted : exists aux t, 2 ^ 32 <= t < 2 ^ 64 /\ value_of t aux = 0 /\
  ~ In t (map fst aux) /\ getauxval aux t = Some 0xbfff.
Proof.
  exists [(16, 0xbfff)], (2 ^ 32 + 16). split; [lia|]. split; [reflexivity|]. split; [|reflexivity].
  cbn. intros [H|[]]. lia.
Qed.

(** ** Concrete cases *)

(** x86-64 static PIE of RelocEx.v loaded at 0x10000, all features on; two
    arguments, two environment variables; an .init_array of the first two
    relocated words. *)
Definition ex_m : mem := fold_left poke (row 0xfe0 [2; 0x6000; 0x6001; 0]) (ex_mem 0x10000).
Definition ex_cfg (dbg : bool) : cfg := Cfg X86_64 dbg true true true true true.
Definition ex_link : link := Link 0x10000 0x12000 0x14000 0x14000 0x14010 td8.
Definition ex_world : world := World 4096 0 (Some 0x10000) (Some 0x700000) 42
  (fun _ _ _ _ _ m => Some m) (fun _ _ _ m => Some (m, 7)).

Lemma ex_wf : wf_mem ex_m.
Proof.
  unfold ex_m. assert (W : forall l m, wf_mem m -> wf_mem (fold_left poke l m)).
  { induction l as [|x l IH]; intros m W; [exact W|]. apply IH. apply wf_store_le. exact W. }
  apply W. apply wf_mem_of.
Qed.

Lemma ex_kernel : kernel_stack X86_64 ex_m 0xfe0 [0x6000; 0x6001] (g_env (ex_image 0x10000)) (g_aux (ex_image 0x10000)).
Proof.
  split; [apply words_atb_ok; vm_compute; reflexivity|]. split; [vm_compute; reflexivity|].
  split; [repeat constructor; discriminate|]. split; [repeat constructor|]. vm_compute. split; [discriminate|reflexivity].
Qed.

Definition ex_trace : list ev :=
  [Relocate 0x1000; ParamInit 0x1000; StartupInfo (Tls 1 0 0 1) 0; MainThread 0xfe0;
   InitFn 0x11100 2 0xfe8 0x1000; InitFn 0x10007 2 0xfe8 0x1000; OriginMain 2 0xfe8 0x1000; Exit 7].

(** The whole run, relocation included. *)
Theorem C10_ex dbg : ends (ex_cfg dbg) ex_link ex_world 0xfe0 ex_m (ex_trace, Exited 7).
Proof.
  split; [discriminate|]. exists 80%nat. destruct dbg; vm_compute; reflexivity.
Qed.

Lemma run_ok' n e m (P : rst -> bool) :
  match relocate n e (RelocSpec.start m) with Ok s => P s | _ => false end = true -> exists s, outcome e m (Ok s) /\ P s = true.
Proof.
  destruct (relocate n e (RelocSpec.start m)) as [s|s|s|] eqn:E; try discriminate. intros H. exists s. split; auto.
  split; [discriminate|eauto].
Qed.

(** ... meets the hypotheses of C10_inits. *)
Theorem C10_inits_ex : exists m1,
  let c := ex_cfg true in
  relocated c ex_link ex_world 0x1000 ex_m m1 /\
  stack_at X86_64 m1 0x1000 (g_env (ex_image 0x10000)) (g_aux (ex_image 0x10000)) /\
  array_ok c ex_link m1 [0x11100; 0x10007] /\ inits_keep X86_64 ex_link ex_world 2 /\
  thread_area_ok c ex_link ex_world 0xfe0 (g_aux (ex_image 0x10000)) m1 2.
Proof.
  destruct (run_ok' 80 (reloc_env (ex_cfg true) ex_link ex_world 0x1000) ex_m (fun s =>
     words_atb X86_64 (rm s) 0x1000 (g_env (ex_image 0x10000) ++ [0] ++ pairs (g_aux (ex_image 0x10000)) ++ [0]) &&
     words_atb X86_64 (rm s) 0x14000 [0x11100; 0x10007])) as (s & Ho & Hs); [vm_compute; reflexivity|].
  apply andb_prop in Hs. destruct Hs as [Hs1 Hs2]. exists (rm s). cbv zeta.
  split; [exists s; split; [exact Ho|reflexivity]|].
  split; [split; [apply words_atb_ok; exact Hs1|split; repeat constructor; discriminate]|].
  split; [split; [reflexivity|split; [vm_compute; split; [discriminate|reflexivity]|split; [reflexivity|apply words_atb_ok; exact Hs2]]]|].
  split; [intros k f ac av ep m0 m' H; injection H as <-; intros i Hi; reflexivity|].
  intros t st n e R HI HE.
  assert (HI' : (t, st) = (Tls 1 0 0 1, 0)).
  { cbn [f_debug f_arch ex_cfg l_dynv ex_link] in HI. destruct n as [|n]; [discriminate|]. cbn in HI. injection HI as <- <-. reflexivity. }
  injection HI' as -> ->. clear HI.
  change (value_of AT_PAGESZ (g_aux (ex_image 0x10000))) with 4096 in *.
  cbn [f_debug f_arch ex_cfg l_td ex_link w_rlimit w_mmap w_tid ex_world] in *.
  assert (WE : wf_env X86_64 td8 (Tls 1 0 0 1) 4096).
  { pose proof env_ex as [W1 W2 W3]. constructor; auto. constructor; cbn; [exists 0; split; [lia|reflexivity]|lia|lia]. }
  assert (EL : mr_log R = [SMmapRW 96 (Some 0x700000)]).
  { unfold initialize_main in HE.
    destruct (round_up true X86_64 e 4096) as [sb|]; [|discriminate]. cbn [bind] in HE.
    change (calculate_tls_size true X86_64 td8 (Tls 1 0 0 1) 4096 0) with (Some (96, 0, 0)) in HE. cbn [bind] in HE.
    change (true && negb (0x700000 mod Z.max (tls_align (Tls 1 0 0 1)) (meta_align X86_64 td8) =? 0)) with false in HE. cbn iota in HE.
    destruct (initialize_tls _ _ _ _ _ _ _ _ _ _ _) as [[[m0 a0] b0]|]; [|discriminate]. cbn [bind] in HE. injection HE as <-. reflexivity. }
  split.
  - constructor; [exact WE|left; reflexivity|exact HE| |]; rewrite EL.
    + intros len map [H|H]; cbn in H; repeat destruct H as [H|H]; try discriminate; try contradiction.
      inversion H; subst. repeat split; try lia. exists 0x700; lia. vm_compute. discriminate.
    + intros len map [H|H]; cbn in H; repeat destruct H as [H|H]; try discriminate; try contradiction.
      inversion H; subst. left. cbn. lia.
  - rewrite EL. intros len map [H|[]]. inversion H; subst. intros i Hi.
    right. destruct i as [|[|i]]; [vm_compute; discriminate|vm_compute; discriminate|lia].
Qed.

(** A program loaded at 0x400000 by something else ("external-start"), with
    PT_PHDR, PT_TLS and PT_GNU_STACK headers. *)
Definition ex2_aux : list (Z * Z) := [(3, 0x400040); (4, 56); (5, 3); (6, 4096); (25, 0x6200); (31, 0x6300)].
Definition ex2_m : mem := mem_of (
  row 0x7f000 ([1; 0x6000; 0; 0x6100; 0] ++ pairs ex2_aux ++ [0]) ++
  row 0x400040 [6; 0x40; 0x40; 0x40; 168; 168; 8;
                7; 0x2000; 0x2000; 0x2000; 8; 24; 8;
                0x6474e551; 0; 0; 0; 0; 0x100000; 16] ++
  row 0x402000 [0x1122334455667788] ++
  row 0x403000 [0x401000]).
Definition ex2_hs : list phdr := [Ph 6 0x40 168 168 8; Ph 7 0x2000 8 24 8; Ph 0x6474e551 0 0 0x100000 16].
Definition ex2_cfg : cfg := Cfg X86_64 true false true true true true.
Definition ex2_link : link := Link 0x400000 0 0 0x403000 0x403008 td8.

Lemma ex2_kernel : kernel_stack X86_64 ex2_m 0x7f000 [0x6000] [0x6100] ex2_aux.
Proof.
  split; [apply words_atb_ok; vm_compute; reflexivity|]. split; [vm_compute; reflexivity|].
  split; [repeat constructor; discriminate|]. split; [repeat constructor|]. vm_compute. split; [discriminate|reflexivity].
Qed.

Theorem C11_ex : headers X86_64 ex2_m ex2_aux ex2_hs /\ loaded_at X86_64 0x400000 (value_of AT_PHDR ex2_aux) 0 ex2_hs /\
  ends ex2_cfg ex2_link ex_world 0x7f000 ex2_m
    ([ParamInit 0x7f018; StartupInfo (Tls 0x402000 24 8 8) 0x100000; MainThread 0x7f000;
      InitFn 0x401000 1 0x7f008 0x7f018; OriginMain 1 0x7f008 0x7f018; Exit 7], Exited 7).
Proof.
  split; [|split].
  - split; [reflexivity|]. split; [reflexivity|]. split; [reflexivity|]. split; [vm_compute; reflexivity|].
    intros i h Hi. destruct i as [|[|[|[|i]]]]; cbn in Hi; try discriminate; injection Hi as <-; vm_compute; auto.
  - split; [repeat constructor; intros; vm_compute in *; congruence|]. left. constructor. left. reflexivity.
  - split; [discriminate|]. exists 80%nat. vm_compute. reflexivity.
Qed.

(** Its main thread can be set up: it meets all hypotheses of C10_complete. *)
Theorem C10_complete_ex :
  relocated ex2_cfg ex2_link ex_world 0x7f018 ex2_m ex2_m /\
  stack_at X86_64 ex2_m (envp_of X86_64 0x7f000 [0x6000]) [0x6100] ex2_aux /\
  array_ok ex2_cfg ex2_link ex2_m [0x401000] /\ inits_keep X86_64 ex2_link ex_world 1 /\
  thread_area_ok ex2_cfg ex2_link ex_world 0x7f000 ex2_aux ex2_m 1 /\
  forall t, template_is X86_64 0x400000 ex2_hs t -> exists R, main_setup ex2_cfg ex2_link ex_world 0x7f000 ex2_aux ex2_m t R.
Proof.
  split; [reflexivity|]. split; [apply kernel_tail; exact ex2_kernel|].
  split; [split; [reflexivity|split; [vm_compute; split; [discriminate|reflexivity]|split; [reflexivity|apply words_atb_ok; vm_compute; reflexivity]]]|].
  split; [intros k f ac av ep m0 m' H; injection H as <-; intros i Hi; reflexivity|].
  split.
  - intros t st n e R HI HE.
    destruct C11_ex as (HH & HL & _).
    destruct (C11_startup_info true X86_64 ex2_m ex2_aux ex2_hs 0 0x400000 HH HL) as (N & t' & HN).
    destruct (HN (N + n)%nat ltac:(lia)) as (E3 & HT).
    assert (ET : t = Tls 0x402000 24 8 8).
    { cbn [f_debug f_arch ex2_cfg l_dynv ex2_link] in HI.
      destruct (startup_info_mono true X86_64 ex2_aux 0 ex2_m n (N + n) ltac:(lia)) as [E|E]; [congruence|].
      rewrite HI, E3 in E. injection E as -> _. exact HT. }
    subst t. clear HI HN E3 HT HH HL.
    change (value_of AT_PAGESZ ex2_aux) with 4096 in *.
    cbn [f_debug f_arch ex2_cfg l_td ex2_link w_rlimit w_mmap w_tid ex_world] in *.
    assert (WE : wf_env X86_64 td8 (Tls 0x402000 24 8 8) 4096).
    { pose proof env_ex as [W1 W2 W3]. constructor; auto. constructor; cbn; [exists 3; split; [lia|reflexivity]|lia|lia]. }
    assert (EL : mr_log R = [SMmapRW 120 (Some 0x700000)]).
    { unfold initialize_main in HE.
      destruct (round_up true X86_64 e 4096) as [sb|]; [|discriminate]. cbn [bind] in HE.
      change (calculate_tls_size true X86_64 td8 (Tls 0x402000 24 8 8) 4096 0) with (Some (120, 0, 24)) in HE. cbn [bind] in HE.
      change (true && negb (0x700000 mod Z.max (tls_align (Tls 0x402000 24 8 8)) (meta_align X86_64 td8) =? 0)) with false in HE. cbn iota in HE.
      destruct (initialize_tls _ _ _ _ _ _ _ _ _ _ _) as [[[m0 a0] b0]|]; [|discriminate]. cbn [bind] in HE. injection HE as <-. reflexivity. }
    split.
    + constructor; [exact WE|left; reflexivity|exact HE| |]; rewrite EL.
      * intros len map [H|H]; cbn in H; repeat destruct H as [H|H]; try discriminate; try contradiction.
        inversion H; subst. repeat split; try lia. exists 0x700; lia. vm_compute. discriminate.
      * intros len map [H|H]; cbn in H; repeat destruct H as [H|H]; try discriminate; try contradiction.
        inversion H; subst. left. cbn. lia.
    + rewrite EL. intros len map [H|[]]. inversion H; subst. intros i Hi.
      right. destruct i as [|i]; [vm_compute; discriminate|lia].
  - intros t HT. cbn in HT. subst t.
    destruct (initialize_main true X86_64 td8 (Tls 0x402000 24 8 8) 4096 ex2_m 0x7f000 0x6301 (Some 0x10000) 0x6200 (Some 0x700000) 42) as [R|] eqn:E.
    + exists R. exists 0x6301. split; [exists 1%nat; vm_compute; reflexivity|exact E].
    + exfalso. pose proof (f_equal (fun o => match o with Some _ => true | None => false end) E) as H. vm_compute in H. discriminate.
Qed.

(** ** What does not hold *)

(** Running as the dynamic linker (AT_BASE <> 0) the headers are the
    executable's but `_DYNAMIC` is the linker's own: an executable with PT_PHDR
    and a later PT_DYNAMIC gets a wrong TLS template address. *)
Definition ex3_aux : list (Z * Z) := [(3, 0x400040); (4, 56); (5, 3); (7, 0x700000)].
Definition ex3_m : mem := mem_of (
  row 0x400040 [6; 0x40; 0x40; 0x40; 168; 168; 8;
                7; 0x2000; 0x2000; 0x2000; 8; 24; 8;
                2; 0x3000; 0x3000; 0x3000; 0x100; 0x100; 8]).
Definition ex3_hs : list phdr := [Ph 6 0x40 168 168 8; Ph 7 0x2000 8 24 8; Ph 2 0x3000 0x100 0x100 8].
Theorem C11_interpreter_refuted :
  headers X86_64 ex3_m ex3_aux ex3_hs /\ value_of AT_BASE ex3_aux = 0x700000 /\
  (forall h, In h ex3_hs -> p_type h = 6 -> 0x400000 + p_vaddr h = value_of AT_PHDR ex3_aux) /\
  (forall ck, initialize_startup_info 10 ck X86_64 ex3_aux (0x700000 + 0x5000) ex3_m = SOk (Tls 0x704000 24 8 8, 0)) /\
  ~ template_is X86_64 0x400000 ex3_hs (Tls 0x704000 24 8 8).
Proof.
  split; [|split; [reflexivity|split; [|split]]].
  - split; [reflexivity|]. split; [reflexivity|]. split; [reflexivity|]. split; [vm_compute; reflexivity|].
    intros i h Hi. destruct i as [|[|[|[|i]]]]; cbn in Hi; try discriminate; injection Hi as <-; vm_compute; auto.
  - intros h [<-|[<-|[<-|[]]]]; cbn; try discriminate; reflexivity.
  - intros ck. destruct ck; vm_compute; reflexivity.
  - vm_compute. discriminate.
Qed.
