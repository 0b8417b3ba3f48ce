(** Startup runs as a whole. *)
From Verif Require Import Machine MachineFacts LayoutModel RelocModel RelocSpec RelocFacts RelocProofs RelocMono StartModel StartSpec StartProofs.

Definition rt_events (c : cfg) (sp envp : Z) (t : tls_info) (st : Z) : list ev :=
  (if has_param c then [ParamInit envp] else []) ++ (if f_thread c then [StartupInfo t st; MainThread sp] else []).

Lemma prefix_nil {A} (l : list A) : prefix [] l. Proof. exists l. reflexivity. Qed.
Lemma prefix_refl {A} (l : list A) : prefix l l. Proof. exists []. symmetry. apply app_nil_r. Qed.
Lemma prefix_app {A} (p l l' : list A) : prefix l l' -> prefix (p ++ l) (p ++ l').
Proof. intros [r ->]. exists r. apply app_assoc. Qed.
Lemma prefix_more {A} (l l' r : list A) : prefix l l' -> prefix l (l' ++ r).
Proof. intros [q ->]. exists (q ++ r). symmetry. apply app_assoc. Qed.
Lemma prefix_cons {A} (x : A) l l' : prefix l l' -> prefix (x :: l) (x :: l').
Proof. intros [r ->]. exists r. reflexivity. Qed.

Lemma init_runtime_cases fuel c l w sp envp m k :
  exists t st,
  (exists m1, init_runtime fuel c l w sp envp m k = (rt_events c sp envp t st ++ fst (k m1), snd (k m1)) /\
     (f_thread c = false -> m1 = m) /\
     (f_thread c = true -> exists aux R, param_init fuel (f_arch c) m envp = Some aux /\
        initialize_startup_info fuel (f_debug c) (f_arch c) aux (l_dynv l) m = SOk (t, st) /\
        main_setup c l w sp aux m t R /\ m1 = mr_mem R)) \/
  (exists pre f, prefix pre (rt_events c sp envp t st) /\
     init_runtime fuel c l w sp envp m k = (pre, f) /\ (f = PanicEnd \/ f = More) /\
     (forall t' st', In (StartupInfo t' st') pre -> exists aux, f_thread c = true /\
        param_init fuel (f_arch c) m envp = Some aux /\
        initialize_startup_info fuel (f_debug c) (f_arch c) aux (l_dynv l) m = SOk (t', st'))).
Proof.
  unfold init_runtime, rt_events. destruct (has_param c) eqn:HP.
  - destruct (param_init fuel (f_arch c) m envp) as [aux|] eqn:EA.
    2:{ exists (Tls 0 0 0 0), 0. right. exists [], More. split; [apply prefix_nil|]. split; [reflexivity|]. split; [auto|intros ? ? []]. }
    destruct (f_thread c) eqn:HT.
    + destruct (initialize_startup_info fuel (f_debug c) (f_arch c) aux (l_dynv l) m) as [[t st]| |] eqn:EI.
      2,3: exists (Tls 0 0 0 0), 0; right; eexists [ParamInit envp], _; split; [apply prefix_cons, prefix_nil|]; split; [reflexivity|]; split; [auto|intros ? ? [H|[]]; discriminate].
      exists t, st. destruct (cstr_end fuel m _) as [e|] eqn:EC.
      2:{ right. exists [ParamInit envp; StartupInfo t st], More. split; [cbn; do 2 apply prefix_cons; apply prefix_nil|]. split; [reflexivity|]. split; [auto|].
          intros t' st' [H|[H|[]]]; [discriminate|injection H as <- <-]. eauto. }
      destruct (initialize_main _ _ _ _ _ _ _ _ _ _ _ _) as [R|] eqn:EM.
      * left. exists (mr_mem R). split; [cbn; destruct (k (mr_mem R)); reflexivity|]. split; [discriminate|].
        intros _. exists aux, R. split; auto. split; auto. split; [|reflexivity]. exists e. split; eauto.
      * right. exists [ParamInit envp; StartupInfo t st; MainThread sp], PanicEnd. split; [apply prefix_refl|]. split; [reflexivity|]. split; [auto|].
        intros t' st' [H|[H|[H|[]]]]; [discriminate|injection H as <- <-|discriminate]. eauto.
    + exists (Tls 0 0 0 0), 0. left. exists m. split; [cbn; destruct (k m); reflexivity|]. split; [auto|discriminate].
  - assert (HT : f_thread c = false) by (unfold has_param in HP; destruct (f_thread c); auto; rewrite orb_true_r in HP; discriminate).
    rewrite HT. exists (Tls 0 0 0 0), 0. left. exists m. split; [cbn; destruct (k m); reflexivity|]. split; [auto|discriminate].
Qed.

Definition setup_pre (c : cfg) (envp : Z) : list ev :=
  if f_relocate c && f_origin_start c then [Relocate envp] else [].
Lemma setup_split c sp envp t st : runtime_setup c sp envp t st = setup_pre c envp ++ rt_events c sp envp t st.
Proof. reflexivity. Qed.

(** What follows relocation, seen from [entry]. *)
Lemma entry_cases fuel c l w sp m args env aux :
  kernel_stack (f_arch c) m sp args env aux ->
  let envp := envp_of (f_arch c) sp args in
  let A := (Z.of_nat (length args), argv_of (f_arch c) sp, envp) in
  (exists pre f, prefix pre (setup_pre c envp) /\ entry fuel c l w sp m = (pre, f) /\ (f = PanicEnd \/ f = TrapEnd \/ f = More) /\
     (f = TrapEnd -> exists s, outcome (reloc_env c l w envp) m (Trapped s)) /\
     (f = PanicEnd -> mem_checks c sp = false \/ exists s, outcome (reloc_env c l w envp) m (Panicked s))) \/
  exists m1, relocated c l w envp m m1 /\
    entry fuel c l w sp m = (setup_pre c envp ++ fst (after_relocate fuel c l w sp A m1), snd (after_relocate fuel c l w sp A m1)).
Proof.
  intros HK envp A. unfold entry, setup_pre, relocated. destruct (negb (mem_checks c sp)) eqn:HC.
  { left. exists [], PanicEnd. split; [apply prefix_nil|]. split; [reflexivity|]. split; [auto|]. split; [discriminate|].
    intros _. left. apply negb_true_iff. exact HC. }
  rewrite (compute_args_spec _ _ _ _ _ _ _ HK). fold envp A. change (snd A) with envp.
  destruct (f_relocate c && f_origin_start c).
  - destruct (relocate fuel (reloc_env c l w envp) (RelocSpec.start m)) as [s|s|s|] eqn:ER.
    + right. exists (rm s). split; [exists s; split; [split; [discriminate|eauto]|reflexivity]|]. destruct (after_relocate _ _ _ _ _ _ _); reflexivity.
    + left. exists [Relocate envp], TrapEnd. split; [apply prefix_refl|]. split; [reflexivity|]. split; [auto|]. split; [|discriminate].
      intros _. exists s. split; [discriminate|eauto].
    + left. exists [Relocate envp], PanicEnd. split; [apply prefix_refl|]. split; [reflexivity|]. split; [auto|]. split; [discriminate|].
      intros _. right. exists s. split; [discriminate|eauto].
    + left. exists [Relocate envp], More. split; [apply prefix_refl|]. split; [reflexivity|]. split; [auto|]. split; discriminate.
  - right. exists m. split; [reflexivity|]. destruct (after_relocate _ _ _ _ _ _ _); reflexivity.
Qed.

Lemma call_main_cases a w argc argv envp m : 0 <= argc < 2 ^ 31 ->
  (exists m' st, w_main w argc argv envp m = Some (m', st) /\
     call_main a w (argc, argv, envp) m = ([OriginMain argc argv envp; Exit st], Exited st)) \/
  (w_main w argc argv envp m = None /\ call_main a w (argc, argv, envp) m = ([OriginMain argc argv envp], UserStopped)).
Proof.
  intros H. unfold call_main. rewrite i32_usize by exact H.
  destruct (w_main w argc argv envp m) as [[m' st]|]; [left; eauto|right; auto].
Qed.

(** ** Order *)
Lemma map_inits_last argc argv envp fns : fns <> [] -> exists u e,
  map (fun f => InitFn f argc argv envp) fns = u ++ [e] /\ is_user e.
Proof.
  intros H. destruct (exists_last H) as (u & x & ->). rewrite map_app. cbn. eauto 6.
  exists (map (fun f => InitFn f argc argv envp) u), (InitFn x argc argv envp). split; auto. exact I.
Qed.

Section user.
Context (c : cfg) (w : world) (sp argc argv envp : Z) (Hargc : 0 <= argc < 2 ^ 31).
Context (tls : tls_info) (stack : Z).

(** Whatever the .init_array calls amount to, the user part of a run. *)
Definition user_part (fns : list Z) (k : run) : Prop :=
  (exists status, k = (user_calls fns argc argv envp status, Exited status)) \/
  (exists u e status, k = (u ++ [e], UserStopped) /\ is_user e /\ prefix (u ++ [e]) (user_calls fns argc argv envp status)) \/
  (exists status u, k = (u, More) /\ prefix u (user_calls fns argc argv envp status)).

Lemma main_part a m fns :
  user_part fns (map (fun f => InitFn f argc argv envp) fns ++ fst (call_main a w (argc, argv, envp) m), snd (call_main a w (argc, argv, envp) m)).
Proof.
  destruct (call_main_cases a w argc argv envp m Hargc) as [(m' & st & _ & ->)|[_ ->]]; cbn [fst snd].
  - left. exists st. reflexivity.
  - right. left. exists (map (fun f => InitFn f argc argv envp) fns), (OriginMain argc argv envp), 0. split; [reflexivity|]. split; [exact I|].
    unfold user_calls. apply prefix_app. exists [Exit 0]. reflexivity.
Qed.

Lemma stop_part pre post : pre <> [] -> user_part (pre ++ post) (map (fun f => InitFn f argc argv envp) pre, UserStopped).
Proof.
  intros N. destruct (map_inits_last argc argv envp pre N) as (u & e & E & He). right. left. exists u, e, 0. rewrite E.
  split; [reflexivity|]. split; [exact He|]. rewrite <- E. unfold user_calls. rewrite map_app, <- app_assoc. eexists. reflexivity.
Qed.

Lemma more_part pre post : user_part (pre ++ post) (map (fun f => InitFn f argc argv envp) pre, More).
Proof.
  right. right. exists 0, (map (fun f => InitFn f argc argv envp) pre). split; [reflexivity|].
  unfold user_calls. rewrite map_app, <- app_assoc. eexists. reflexivity.
Qed.

Lemma user_order fns k : user_part fns k ->
  order_ok c sp argc argv envp fns (runtime_setup c sp envp tls stack ++ fst k, snd k).
Proof.
  intros [(st & ->)|[(u & e & st & -> & He & Hp)|(st & u & -> & Hp)]]; exists tls, stack, st; cbn [fst snd].
  - auto.
  - exists u, e. auto.
  - apply prefix_app. exact Hp.
Qed.
End user.

Lemma setup_order c sp argc argv envp fns pre f t st :
  prefix pre (runtime_setup c sp envp t st) -> (f = PanicEnd \/ f = TrapEnd \/ f = More) ->
  order_ok c sp argc argv envp fns (pre, f).
Proof.
  intros Hp Hf. exists t, st, 0. cbn [fst snd]. destruct Hf as [->|[->| ->]]; auto. apply prefix_more. exact Hp.
Qed.

Lemma entry_order fuel c l w sp m args env aux :
  kernel_stack (f_arch c) m sp args env aux ->
  let argc := Z.of_nat (length args) in
  let argv := argv_of (f_arch c) sp in
  let envp := envp_of (f_arch c) sp args in
  exists fns, order_ok c sp argc argv envp fns (entry fuel c l w sp m) /\
    (f_init_array c = false -> fns = []) /\
    (f_init_array c = true -> 0 <= l_init_start l < modulus (wsz (f_arch c)) -> (exists st, snd (entry fuel c l w sp m) = Exited st) ->
       (l_init_start l + Z.of_nat (length fns) * wsz (f_arch c)) mod modulus (wsz (f_arch c)) = l_init_end l).
Proof.
  intros HK argc argv envp. pose proof HK as (_ & Hn & _).
  assert (Hargc : 0 <= argc < 2 ^ 31) by (unfold argc; lia).
  destruct (entry_cases fuel c l w sp m args env aux HK) as [(pre & f & Hp & -> & Hf & _)|(m1 & Hr & ->)].
  { fold envp in Hp. exists []. split.
    - apply setup_order with (Tls 0 0 0 0) 0; auto. rewrite setup_split. apply prefix_more. exact Hp.
    - split; [reflexivity|]. intros _ _ [st E]. cbn in E. destruct Hf as [->|[->| ->]]; discriminate. }
  fold argc argv envp in Hr |- *. unfold after_relocate. cbn [snd].
  match goal with |- context [init_runtime fuel c l w sp envp m1 ?k] => set (K := k) end.
  destruct (init_runtime_cases fuel c l w sp envp m1 K) as (t & st & [(m2 & -> & _)|(pre & f & Hp & -> & Hf & _)]); cbn [fst snd].
  2:{ exists []. split.
      - apply setup_order with t st; [rewrite setup_split; apply prefix_app; exact Hp|destruct Hf; auto].
      - split; [reflexivity|]. intros _ _ [x E]. destruct Hf as [->| ->]; discriminate. }
  rewrite app_assoc, <- setup_split.
  unfold K at 1 2 3. destruct (f_init_array c) eqn:HI.
  - destruct (init_loop_any (f_arch c) w argc argv envp (call_main (f_arch c) w (argc, argv, envp)) fuel 0 (l_init_start l) (l_init_end l) m2)
      as [(fns & m3 & -> & Hl)|[(fns & N & ->)|(fns & ->)]].
    + exists fns. split; [|split; [discriminate|auto]]. cbn [fst snd].
      pose proof (main_part w argc argv envp Hargc (f_arch c) m3 fns) as UP.
      apply (user_order c sp argc argv envp t st) in UP. exact UP.
    + exists fns. cbn [fst snd]. split; [|split; [discriminate|]]; [|intros _ _ [x E]; discriminate].
      pose proof (stop_part argc argv envp fns [] N) as UP. rewrite app_nil_r in UP.
      apply (user_order c sp argc argv envp t st) in UP. exact UP.
    + exists fns. cbn [fst snd]. split; [|split; [discriminate|]]; [|intros _ _ [x E]; discriminate].
      pose proof (more_part argc argv envp fns []) as UP. rewrite app_nil_r in UP.
      apply (user_order c sp argc argv envp t st) in UP. exact UP.
  - exists []. split; [|split; [reflexivity|discriminate]].
    pose proof (main_part w argc argv envp Hargc (f_arch c) m2 []) as UP.
    apply (user_order c sp argc argv envp t st) in UP. exact UP.
Qed.

Lemma relocated_unique c l w envp m m1 m2 : relocated c l w envp m m1 -> relocated c l w envp m m2 -> m1 = m2.
Proof.
  unfold relocated. destruct (_ && _); [|congruence].
  intros (s1 & [N1 [n1 H1]] & ->) (s2 & [N2 [n2 H2]] & ->).
  pose proof (relocate_any _ _ n1 n2 _ H1 N1) as E1. pose proof (relocate_any _ _ n2 n1 _ H2 N2) as E2.
  rewrite Nat.max_comm in E2. rewrite E1 in E2. injection E2 as ->. reflexivity.
Qed.

Lemma envp_range a sp args : 0 <= envp_of a sp args < modulus (wsz a).
Proof. apply Z.mod_pos_bound. pose proof (mod_pos a). lia. Qed.

Lemma param_unique fuel a m p env aux x : 0 <= p < modulus (wsz a) -> stack_at a m p env aux ->
  param_init fuel a m p = Some x -> x = aux.
Proof.
  intros Hp Hs H.
  pose proof (param_init_mono a m fuel (S (fuel + length env + length aux)) p x ltac:(lia) H) as E1.
  rewrite (param_init_spec a m p env aux) in E1 by (auto; lia). congruence.
Qed.

Lemma after_arr_order fuel c l w sp args m1 m2 fns k :
  let a := f_arch c in
  let argc := Z.of_nat (length args) in let argv := argv_of a sp in let envp := envp_of a sp args in
  0 <= argc < 2 ^ 31 ->
  array_ok c l m1 fns -> inits_keep a l w (length fns) -> same_array a l (length fns) m1 m2 ->
  k = (if f_init_array c
    then init_loop fuel a w (argc, argv, envp) 0 (l_init_start l) (l_init_end l) m2 (call_main a w (argc, argv, envp))
    else call_main a w (argc, argv, envp) m2) ->
  user_part argc argv envp fns k.
Proof.
  intros a argc argv envp Hargc HA HKp HS ->. unfold array_ok in HA. fold a in HA. destruct (f_init_array c).
  - destruct HA as (H1 & H2 & H3 & H4).
    pose proof (init_loop_cases a w argc argv envp (call_main a w (argc, argv, envp)) l (length fns) HKp fuel 0 [] fns m2 eq_refl H3) as C.
    cbv zeta in C. cbn [length Z.of_nat] in C. rewrite Z.mul_0_l, Z.add_0_r, Z.mod_small in C by exact H2. rewrite <- H1 in C.
    destruct C as [(m3 & -> & _)|[(pre & post & -> & N & ->)|(pre & post & -> & ->)]].
    + intros i x Hi. rewrite <- (H4 i x Hi). apply HS. apply nth_error_Some. congruence.
    + apply main_part. exact Hargc.
    + apply stop_part. exact N.
    + apply more_part.
  - subst fns. pose proof (main_part w argc argv envp Hargc a m2 []) as UP. cbn [map app] in UP.
    destruct (call_main a w (argc, argv, envp) m2); exact UP.
Qed.

Lemma entry_inits fuel c l w sp m m1 args env aux fns :
  let a := f_arch c in
  let argc := Z.of_nat (length args) in let argv := argv_of a sp in let envp := envp_of a sp args in
  kernel_stack a m sp args env aux -> relocated c l w envp m m1 -> stack_at a m1 envp env aux ->
  array_ok c l m1 fns -> inits_keep a l w (length fns) ->
  (f_thread c = true -> forall t st n R, initialize_startup_info n (f_debug c) a aux (l_dynv l) m1 = SOk (t, st) ->
     main_setup c l w sp aux m1 t R -> same_array a l (length fns) m1 (mr_mem R)) ->
  order_ok c sp argc argv envp fns (entry fuel c l w sp m).
Proof.
  intros a argc argv envp HK HR HS HA HKp HT. pose proof HK as (_ & Hn & _).
  assert (Hargc : 0 <= argc < 2 ^ 31) by (unfold argc; lia).
  destruct (entry_cases fuel c l w sp m args env aux HK) as [(pre & f & Hp & -> & Hf & _)|(m1' & Hr & ->)].
  { fold a envp in Hp. apply setup_order with (Tls 0 0 0 0) 0; auto. rewrite setup_split. apply prefix_more. exact Hp. }
  fold a argc argv envp in Hr |- *. pose proof (relocated_unique _ _ _ _ _ _ _ HR Hr) as <-. clear Hr.
  unfold after_relocate. cbn [snd]. fold a.
  match goal with |- context [init_runtime fuel c l w sp envp m1 ?k] => set (K := k) end.
  destruct (init_runtime_cases fuel c l w sp envp m1 K) as (t & st & [(m2 & -> & H1 & H2)|(pre & f & Hp & -> & Hf & _)]); cbn [fst snd].
  2:{ apply setup_order with t st; [rewrite setup_split; apply prefix_app; exact Hp|destruct Hf; auto]. }
  rewrite app_assoc, <- setup_split. apply user_order.
  apply (after_arr_order fuel c l w sp args m1 m2); auto.
  destruct (f_thread c).
  - destruct (H2 eq_refl) as (aux' & R & E1 & E2 & E3 & ->). fold a in E1, E2.
    rewrite (param_unique fuel a m1 envp env aux aux' (envp_range _ _ _) HS E1) in E2, E3. apply (HT eq_refl t st fuel R); assumption.
  - rewrite (H1 eq_refl). intros i _. reflexivity.
Qed.

(** ** Completion *)
Lemma init_loop_runs a w argc argv envp k l tot (Hkeep : inits_keep a l w tot)
  (Hret : forall n f m, w_init w n f argc argv envp m <> None) :
  forall (rest : list Z) fuel n (done : list Z) m,
  (length rest < fuel)%nat ->
  (length done + length rest = tot)%nat ->
  Z.of_nat (length rest) * wsz a < modulus (wsz a) ->
  words_at a m (l_init_start l + Z.of_nat (length done) * wsz a) rest ->
  exists m', init_loop fuel a w (argc, argv, envp) n ((l_init_start l + Z.of_nat (length done) * wsz a) mod modulus (wsz a))
             ((l_init_start l + Z.of_nat tot * wsz a) mod modulus (wsz a)) m k =
   (map (fun f => InitFn f argc argv envp) rest ++ fst (k m'), snd (k m')).
Proof.
  induction rest as [|f rest IH]; intros fuel n done m Hf Ht HM Hw; (destruct fuel as [|fuel]; [cbn in Hf; lia|]).
  - cbn [init_loop]. assert (E : tot = length done) by (cbn in Ht; lia). rewrite E, Z.eqb_refl.
    exists m. cbn. destruct (k m); reflexivity.
  - cbn [init_loop]. set (init := (l_init_start l + Z.of_nat (length done) * wsz a) mod modulus (wsz a)).
    assert (E : init =? (l_init_start l + Z.of_nat tot * wsz a) mod modulus (wsz a) = false).
    { unfold init. replace (l_init_start l + Z.of_nat tot * wsz a) with
        (l_init_start l + Z.of_nat (length done) * wsz a + Z.of_nat (length (f :: rest)) * wsz a) by (cbn [length] in *; nia).
      apply ptr_neq. pose proof (wsz_pos a). cbn [length] in *. nia. }
    rewrite E. apply words_cons in Hw. destruct Hw as [Hw1 Hw2]. fold init in Hw1. rewrite Hw1.
    destruct (w_init w n f argc argv envp m) as [m'|] eqn:Ei; [|exfalso; exact (Hret _ _ _ Ei)].
    assert (En : padd a init (wsz a) = (l_init_start l + Z.of_nat (length (done ++ [f])) * wsz a) mod modulus (wsz a)).
    { unfold init. rewrite padd_mod, app_length. cbn [length]. f_equal. lia. }
    rewrite En. destruct (IH fuel (S n) (done ++ [f]) m') as [m2 E2].
    + cbn in Hf. lia.
    + rewrite app_length. cbn [length] in *. lia.
    + cbn [length] in *. pose proof (wsz_pos a). nia.
    + intros i x Hi. specialize (Hw2 i x Hi).
      assert (Li : (i < length rest)%nat) by (apply nth_error_Some; congruence).
      rewrite <- Hw2. rewrite app_length. cbn [length].
      replace (l_init_start l + Z.of_nat (length done) * wsz a + wsz a + Z.of_nat i * wsz a)
        with (l_init_start l + Z.of_nat (length done + 1 + i) * wsz a) by lia.
      replace (l_init_start l + Z.of_nat (length done + 1) * wsz a + Z.of_nat i * wsz a)
        with (l_init_start l + Z.of_nat (length done + 1 + i) * wsz a) by lia.
      apply (Hkeep _ _ _ _ _ _ _ Ei). cbn [length] in Ht. lia.
    + exists m2. rewrite E2. reflexivity.
Qed.

Lemma entry_complete c l w sp m m1 args env aux fns :
  let a := f_arch c in
  let argc := Z.of_nat (length args) in let argv := argv_of a sp in let envp := envp_of a sp args in
  kernel_stack a m sp args env aux -> sp <> 0 -> sp mod 16 = 0 ->
  relocated c l w envp m m1 -> stack_at a m1 envp env aux ->
  array_ok c l m1 fns -> inits_keep a l w (length fns) ->
  (f_thread c = true -> exists t st R, 
     (exists n, initialize_startup_info n (f_debug c) a aux (l_dynv l) m1 = SOk (t, st)) /\ main_setup c l w sp aux m1 t R /\ same_array a l (length fns) m1 (mr_mem R)) ->
  (forall n f m, w_init w n f argc argv envp m <> None) -> (forall m, w_main w argc argv envp m <> None) ->
  exists t st status, ends c l w sp m (runtime_setup c sp envp t st ++ user_calls fns argc argv envp status, Exited status).
Proof.
  intros a argc argv envp HK S0 S16 HR HS HA HKp HT HI HMn. pose proof HK as (_ & Hn & _ & _ & Hsp).
  assert (Hargc : 0 <= argc < 2 ^ 31) by (unfold argc; lia).
  assert (HC : mem_checks c sp = true).
  { unfold mem_checks. destruct (_ && _); [|reflexivity]. rewrite (proj2 (Z.eqb_neq sp 0) S0).
    change 15 with (Z.ones 4). rewrite Z.land_ones by lia. change (2 ^ 4) with 16. rewrite S16. reflexivity. }
  (* the user part, on any memory with the same array *)
  assert (HU : forall m2, same_array a l (length fns) m1 m2 -> exists N status, forall fuel, (N <= fuel)%nat ->
     (if f_init_array c
      then init_loop fuel a w (argc, argv, envp) 0 (l_init_start l) (l_init_end l) m2 (call_main a w (argc, argv, envp))
      else call_main a w (argc, argv, envp) m2) = (user_calls fns argc argv envp status, Exited status)).
  { intros m2 HSm. unfold array_ok in HA. fold a in HA. destruct (f_init_array c).
    - destruct HA as (A1 & A2 & A3 & A4).
      destruct (init_loop_runs a w argc argv envp (call_main a w (argc, argv, envp)) l (length fns) HKp HI fns (S (length fns)) 0 [] m2) as [m3 E3]; auto.
      { intros i x Hi. cbn [length Z.of_nat]. rewrite Z.mul_0_l, Z.add_0_r. rewrite <- (A4 i x Hi). apply HSm. apply nth_error_Some. congruence. }
      cbn [length Z.of_nat] in E3. rewrite Z.mul_0_l, Z.add_0_r, Z.mod_small in E3 by exact A2. rewrite <- A1 in E3.
      destruct (call_main_cases a w argc argv envp m3 Hargc) as [(m' & status & _ & E4)|[E4 _]]; [|exfalso; exact (HMn _ E4)].
      exists (S (length fns)), status. intros fuel L.
      destruct (init_loop_mono a w (argc, argv, envp) (call_main a w (argc, argv, envp)) (S (length fns)) fuel 0 (l_init_start l) (l_init_end l) m2 L) as [E|E].
      + rewrite E3, E4 in E. discriminate.
      + rewrite <- E, E3, E4. reflexivity.
    - subst fns. destruct (call_main_cases a w argc argv envp m2 Hargc) as [(m' & status & _ & E4)|[E4 _]]; [|exfalso; exact (HMn _ E4)].
      exists 0%nat, status. intros fuel _. exact E4. }
  (* runtime setup *)
  assert (HI2 : exists t st status N, forall fuel, (N <= fuel)%nat ->
     after_relocate fuel c l w sp (argc, argv, envp) m1 =
       (rt_events c sp envp t st ++ user_calls fns argc argv envp status, Exited status)).
  { unfold after_relocate, init_runtime, rt_events. cbn [snd]. fold a.
    destruct (f_thread c) eqn:FT.
    - assert (HP : has_param c = true) by (unfold has_param; rewrite FT; apply orb_true_r). rewrite HP.
      destruct (HT eq_refl) as (t & st & R & (n1 & E1) & (e & (n2 & E2) & E3) & HSm).
      destruct (HU (mr_mem R) HSm) as (N & status & HN).
      exists t, st, status, (N + n1 + n2 + S (length env + length aux))%nat. intros fuel L.
      rewrite (param_init_spec a m1 envp env aux) by (try exact HS; try apply envp_range; lia).
      destruct (startup_info_mono (f_debug c) a aux (l_dynv l) m1 n1 fuel ltac:(lia)) as [E|E]; [congruence|].
      rewrite <- E, E1. rewrite (cstr_end_mono m1 n2 fuel _ _ ltac:(lia) E2). fold a in E3. rewrite E3.
      rewrite HN by lia. reflexivity.
    - destruct (HU m1 ltac:(intros i _; reflexivity)) as (N & status & HN).
      exists (Tls 0 0 0 0), 0, status, (N + S (length env + length aux))%nat. intros fuel L.
      destruct (has_param c).
      + rewrite (param_init_spec a m1 envp env aux) by (try exact HS; try apply envp_range; lia). rewrite HN by lia. reflexivity.
      + rewrite HN by lia. reflexivity. }
  destruct HI2 as (t & st & status & N & HN). exists t, st, status. split; [discriminate|].
  unfold relocated in HR. rewrite setup_split. unfold setup_pre.
  destruct (f_relocate c && f_origin_start c) eqn:FR.
  - destruct HR as (s & [_ [n Hr]] & ->). exists (Nat.max n N). unfold entry. rewrite HC. cbn [negb].
    fold a. rewrite (compute_args_spec _ _ _ _ _ _ _ HK). fold argc argv envp. rewrite FR. cbn [snd].
    rewrite (relocate_any _ _ n N _ Hr) by discriminate. rewrite HN by lia. reflexivity.
  - subst m1. exists N. unfold entry. rewrite HC. cbn [negb].
    fold a. rewrite (compute_args_spec _ _ _ _ _ _ _ HK). fold argc argv envp. rewrite FR. rewrite HN by lia. reflexivity.
Qed.
