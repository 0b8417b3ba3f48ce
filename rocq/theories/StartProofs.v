(** Proofs about startup. *)
From Verif Require Import Machine MachineFacts LayoutModel RelocModel RelocSpec RelocFacts RelocProofs RelocMono StartModel StartSpec.

Lemma emit_fst e r : fst (emit e r) = e :: fst r. Proof. reflexivity. Qed.
Lemma emit_snd e r : snd (emit e r) = snd r. Proof. reflexivity. Qed.

(** ** Arguments *)
Lemma to_i32_small n : 0 <= n < 2 ^ 31 -> to_i32 n = n.
Proof.
  intros H. unfold to_i32. rewrite Z.mod_small by lia.
  destruct (Z.ltb_spec n (2 ^ 31)); lia.
Qed.

Lemma i32_usize a n : 0 <= n < 2 ^ 31 -> i32_to_usize a n = n.
Proof. intros H. apply Z.mod_small. pose proof (mod_pos a). lia. Qed.

Lemma kernel_tail a m sp args env aux : kernel_stack a m sp args env aux ->
  stack_at a m (envp_of a sp args) env aux.
Proof.
  intros (Hw & Hn & He & Ha & Hs). split; [|split; assumption].
  apply words_mod.
  replace ([Z.of_nat (length args)] ++ args ++ [0] ++ env ++ [0] ++ pairs aux ++ [0])
    with (([Z.of_nat (length args)] ++ args ++ [0]) ++ env ++ [0] ++ pairs aux ++ [0]) in Hw
    by (rewrite <- !app_assoc; reflexivity).
  apply words_tail in Hw. rewrite !app_length in Hw. cbn [length] in Hw.
  replace (sp + Z.of_nat (1 + (length args + 1)) * wsz a) with (sp + wsz a + (Z.of_nat (length args) + 1) * wsz a) in Hw by lia.
  exact Hw.
Qed.

Lemma kernel_argv a m sp args env aux : kernel_stack a m sp args env aux ->
  words_at a m (argv_of a sp) (args ++ [0]).
Proof.
  intros (Hw & _). apply words_mod. apply words_cons in Hw. destruct Hw as [_ Hw].
  intros i x Hi. apply Hw. change (args ++ [0] ++ env ++ [0] ++ pairs aux ++ [0]) with (args ++ [0] ++ (env ++ [0] ++ pairs aux ++ [0])).
  rewrite app_assoc. rewrite nth_error_app1; [exact Hi|]. apply nth_error_Some. congruence.
Qed.

Lemma kernel_argc a m sp args env aux : kernel_stack a m sp args env aux ->
  ldw a m sp = Z.of_nat (length args).
Proof.
  intros (Hw & _ & _ & _ & Hs). apply words_cons in Hw. destruct Hw as [Hw _].
  rewrite Z.mod_small in Hw by lia. exact Hw.
Qed.

Lemma compute_args_spec ck a m sp args env aux : kernel_stack a m sp args env aux ->
  compute_args ck a m sp = Some (Z.of_nat (length args), argv_of a sp, envp_of a sp args).
Proof.
  intros H. pose proof (kernel_argc _ _ _ _ _ _ H) as Hc. pose proof (kernel_argv _ _ _ _ _ _ H) as Hv.
  destruct H as (_ & Hn & _ & _ & Hs).
  unfold compute_args. rewrite Hc. rewrite to_i32_small, i32_usize by lia.
  unfold to_u32. rewrite (Z.mod_small (Z.of_nat (length args))) by lia.
  pose proof (mod_pos a) as HM.
  unfold uadd. rewrite (proj2 (Z.ltb_lt _ _)) by lia. cbn [bind].
  fold (argv_of a sp). change (padd a sp (wsz a)) with (argv_of a sp).
  assert (Hz : ldw a m (padd a (argv_of a sp) (Z.of_nat (length args) * wsz a)) = 0).
  { apply (Hv (length args) 0). rewrite nth_error_app2 by lia. rewrite Nat.sub_diag. reflexivity. }
  rewrite Hz, Z.eqb_refl, Z.eqb_refl, (proj2 (Z.leb_le 0 _)) by lia. cbn [andb negb]. rewrite andb_false_r.
  f_equal. f_equal. unfold argv_of, envp_of. rewrite padd_mod. reflexivity.
Qed.

(** ** rustix::param *)
Lemma aux_list_spec a m : forall aux fuel p rest,
  (length aux < fuel)%nat -> Forall (fun r => 0 < fst r < 2 ^ 32) aux ->
  words_at a m p (pairs aux ++ 0 :: rest) ->
  aux_list fuel a m (p mod modulus (wsz a)) = Some aux.
Proof.
  induction aux as [|[t v] aux IH]; intros fuel p rest Hf Hn Hw; (destruct fuel as [|fuel]; [cbn in Hf; lia|]).
  - cbn [pairs flat_map app] in Hw. apply words_cons in Hw. destruct Hw as [Hw1 _].
    cbn [aux_list]. rewrite Hw1. reflexivity.
  - cbn [pairs flat_map app fst snd] in Hw. apply words_cons in Hw. destruct Hw as [Hw1 Hw].
    apply words_cons in Hw. destruct Hw as [Hw2 Hw].
    pose proof (Forall_inv Hn) as Ht. cbn [fst] in Ht.
    cbn [aux_list]. rewrite Hw1, !padd_mod, Hw2.
    rewrite (proj2 (Z.eqb_neq t AT_NULL)) by (unfold AT_NULL; lia).
    replace (p + 2 * wsz a) with (p + wsz a + wsz a) by lia.
    apply Forall_inv_tail in Hn. rewrite (IH fuel _ rest); auto. cbn in Hf; lia.
Qed.

Lemma param_init_spec a m p env aux fuel :
  (length env < fuel)%nat -> (length aux < fuel)%nat ->
  0 <= p < modulus (wsz a) -> stack_at a m p env aux ->
  param_init fuel a m p = Some aux.
Proof.
  intros H1 H2 Hp (Hw & He & Ha). unfold param_init.
  pose proof (skip_env_spec a m env fuel p (pairs aux ++ [0]) H1 He Hw) as E.
  rewrite (Z.mod_small p) in E by lia. rewrite E.
  replace (env ++ [0] ++ pairs aux ++ [0]) with ((env ++ [0]) ++ pairs aux ++ [0]) in Hw by (rewrite <- app_assoc; reflexivity).
  apply words_tail in Hw. rewrite app_length in Hw. cbn [length] in Hw.
  replace (S (length env)) with (length env + 1)%nat by lia.
  apply (aux_list_spec a m aux fuel _ []); auto.
Qed.

Lemma aux_list_mono a m : forall n n' p x, (n <= n')%nat -> aux_list n a m p = Some x -> aux_list n' a m p = Some x.
Proof.
  induction n as [|n IH]; intros n' p x L H; [discriminate|]. destruct n' as [|n']; [lia|].
  cbn [aux_list] in *. destruct (ldw a m p =? AT_NULL); auto.
  destruct (aux_list n a m _) as [l|] eqn:E; [|discriminate]. rewrite (IH n' _ l); auto. lia.
Qed.
Lemma param_init_mono a m n n' p x : (n <= n')%nat -> param_init n a m p = Some x -> param_init n' a m p = Some x.
Proof.
  intros L. unfold param_init. destruct (skip_env n a m p) as [q|] eqn:E; [|discriminate].
  rewrite (skip_env_mono a m n n' p q L E). apply aux_list_mono. exact L.
Qed.

(** ** Program headers *)
Lemma scan_info_mono a m first phent dynv pend : forall n n' p s x, (n <= n')%nat ->
  scan_info n a m first phent dynv p pend s = Some x -> scan_info n' a m first phent dynv p pend s = Some x.
Proof.
  induction n as [|n IH]; intros n' p s x L H; [discriminate|]. destruct n' as [|n']; [lia|].
  cbn [scan_info] in *. destruct (p =? pend); auto.
  repeat destruct (_ =? _); (eapply IH; [|exact H]; lia).
Qed.

(** One pass over the headers. *)
Definition scan1 (a : arch) (first dynv p : Z) (s : phscan) (h : phdr) : phscan :=
  if p_type h =? PT_PHDR then PS (ph_tls s) (ph_stack s) (wrapping_sub (wsz a) first (p_vaddr h))
  else if p_type h =? PT_DYNAMIC then PS (ph_tls s) (ph_stack s) (wrapping_sub (wsz a) dynv (p_vaddr h))
  else if p_type h =? PT_TLS then PS p (ph_stack s) (ph_off s)
  else if p_type h =? PT_GNU_STACK then PS (ph_tls s) (p_memsz h) (ph_off s)
  else s.

Fixpoint scan_list (a : arch) (first ent dynv p : Z) (s : phscan) (hs : list phdr) : phscan :=
  match hs with
  | [] => s
  | h :: hs => scan_list a first ent dynv (p + ent) (scan1 a first dynv p s h) hs
  end.

Lemma scan_info_spec a m first ent dynv : forall hs fuel p s,
  (length hs < fuel)%nat -> 0 <= p -> 0 < ent -> p + Z.of_nat (length hs) * ent < modulus (wsz a) ->
  (forall i h, nth_error hs i = Some h -> phdr_in a m (p + Z.of_nat i * ent) h) ->
  scan_info fuel a m first ent dynv p (p + Z.of_nat (length hs) * ent) s = Some (scan_list a first ent dynv p s hs).
Proof.
  induction hs as [|h hs IH]; intros fuel p s Hf Hp He HM Hl; (destruct fuel as [|fuel]; [cbn in Hf; lia|]).
  - cbn. rewrite Z.add_0_r, Z.eqb_refl. reflexivity.
  - destruct (Hl 0%nat _ eq_refl) as (H1 & H2 & _ & H4 & _). rewrite Z.mul_0_l, Z.add_0_r in H1, H2, H4.
    cbn [scan_info length scan_list] in *. unfold ldw. rewrite H1, H2, H4.
    rewrite (proj2 (Z.eqb_neq _ _)) by lia.
    assert (Ep : padd a p ent = p + ent) by (unfold padd, wrapping_add; apply Z.mod_small; lia).
    rewrite Ep. replace (p + Z.of_nat (S (length hs)) * ent) with (p + ent + Z.of_nat (length hs) * ent) by lia.
    assert (Hl' : forall i x, nth_error hs i = Some x -> phdr_in a m (p + ent + Z.of_nat i * ent) x).
    { intros i x Hi. specialize (Hl (S i) x Hi). replace (p + ent + Z.of_nat i * ent) with (p + Z.of_nat (S i) * ent) by lia. exact Hl. }
    assert (IH' : forall s, scan_info fuel a m first ent dynv (p + ent) (p + ent + Z.of_nat (length hs) * ent) s =
       Some (scan_list a first ent dynv (p + ent) s hs)) by (intros; apply IH; auto; lia).
    unfold scan1.
    destruct (p_type h =? PT_PHDR); [apply IH'|]. destruct (p_type h =? PT_DYNAMIC); [apply IH'|].
    destruct (p_type h =? PT_TLS); [apply IH'|]. destruct (p_type h =? PT_GNU_STACK); apply IH'.
Qed.

Lemma find_rev_cons {A} (f : A -> bool) x l :
  find f (rev (x :: l)) = match find f (rev l) with Some y => Some y | None => if f x then Some x else None end.
Proof.
  cbn [rev]. generalize (rev l). induction l0 as [|y l0 IH]; cbn; [reflexivity|]. destruct (f y); auto.
Qed.

(** What the pass computes. *)
Lemma scan_list_stack a first ent dynv : forall hs p s,
  ph_stack (scan_list a first ent dynv p s hs) =
  match last_of PT_GNU_STACK hs with Some h => p_memsz h | None => ph_stack s end.
Proof.
  induction hs as [|h hs IH]; intros p s; [reflexivity|].
  cbn [scan_list]. rewrite IH. unfold last_of. rewrite find_rev_cons.
  destruct (find _ (rev hs)); auto. unfold scan1.
  destruct (Z.eqb_spec (p_type h) PT_GNU_STACK) as [->|N]; [reflexivity|].
  repeat destruct (_ =? _); reflexivity.
Qed.

Lemma scan_list_off a base first ent dynv : forall hs p s,
  Forall (fun h => (p_type h = 6 -> (base + p_vaddr h) mod modulus (wsz a) = first) /\
                   (p_type h = 2 -> (base + p_vaddr h) mod modulus (wsz a) = dynv)) hs ->
  ph_off (scan_list a first ent dynv p s hs) =
  if existsb (fun h => (p_type h =? 6) || (p_type h =? 2)) hs then base mod modulus (wsz a) else ph_off s.
Proof.
  assert (K : forall v x, (base + v) mod modulus (wsz a) = x -> wrapping_sub (wsz a) x v = base mod modulus (wsz a)).
  { intros v x <-. unfold wrapping_sub. rewrite Zminus_mod_idemp_l. f_equal. lia. }
  induction hs as [|h hs IH]; intros p s F; [reflexivity|].
  pose proof (Forall_inv F) as [F1 F2]. apply Forall_inv_tail in F.
  cbn [scan_list existsb]. rewrite IH by exact F. unfold scan1, PT_PHDR, PT_DYNAMIC.
  destruct (Z.eqb_spec (p_type h) 6) as [E|N]; [cbn [orb ph_off]; rewrite (K _ _ (F1 E)); destruct (existsb _ hs); reflexivity|].
  destruct (Z.eqb_spec (p_type h) 2) as [E|N2]; [cbn [orb ph_off]; rewrite (K _ _ (F2 E)); destruct (existsb _ hs); reflexivity|].
  cbn [orb]. destruct (existsb _ hs); [reflexivity|].
  repeat destruct (_ =? _); reflexivity.
Qed.

Lemma scan_list_tls a first ent dynv m : forall hs p s,
  0 < p -> 0 < ent -> (forall i h, nth_error hs i = Some h -> phdr_in a m (p + Z.of_nat i * ent) h) ->
  match last_of PT_TLS hs with
  | Some h => ph_tls (scan_list a first ent dynv p s hs) <> 0 /\ phdr_in a m (ph_tls (scan_list a first ent dynv p s hs)) h
  | None => ph_tls (scan_list a first ent dynv p s hs) = ph_tls s
  end.
Proof.
  induction hs as [|h hs IH]; intros p s Hp He Hl; [reflexivity|].
  cbn [scan_list].
  assert (Hl' : forall i x, nth_error hs i = Some x -> phdr_in a m (p + ent + Z.of_nat i * ent) x).
  { intros i x Hi. specialize (Hl (S i) x Hi). replace (p + ent + Z.of_nat i * ent) with (p + Z.of_nat (S i) * ent) by lia. exact Hl. }
  specialize (IH (p + ent) (scan1 a first dynv p s h) ltac:(lia) He Hl').
  unfold last_of in *. rewrite find_rev_cons. destruct (find _ (rev hs)) as [x|]; [exact IH|].
  rewrite IH. unfold scan1. destruct (Z.eqb_spec (p_type h) PT_TLS) as [E|N].
  - rewrite E. cbn [ph_tls Z.eqb Pos.eqb PT_TLS PT_PHDR PT_DYNAMIC]. split; [lia|].
    specialize (Hl 0%nat h eq_refl). rewrite Z.mul_0_l, Z.add_0_r in Hl. exact Hl.
  - repeat destruct (_ =? _); reflexivity.
Qed.

Lemma startup_info_spec fuel ck a m aux hs dynv base :
  (length hs < fuel)%nat -> headers a m aux hs -> loaded_at a base (value_of AT_PHDR aux) dynv hs ->
  exists t, initialize_startup_info fuel ck a aux dynv m = SOk (t, stack_request hs) /\ template_is a base hs t.
Proof.
  intros Hf (Hn & H0 & He & HM & Hl) (HF & HE).
  unfold initialize_startup_info, exe_phdrs. rewrite Hn.
  pose proof (mod_pos a) as MP.
  rewrite (proj2 (Z.leb_gt _ _)) by nia. rewrite andb_false_r.
  rewrite (Z.mod_small (_ * _)) by nia.
  unfold padd, wrapping_add. rewrite (Z.mod_small (_ + _)) by nia.
  rewrite scan_info_spec by (auto; lia).
  set (s := scan_list _ _ _ _ _ _ _).
  assert (E1 : ph_stack s = stack_request hs).
  { unfold s. rewrite scan_list_stack. reflexivity. }
  pose proof (scan_list_tls a (value_of AT_PHDR aux) (value_of AT_PHENT aux) dynv m hs (value_of AT_PHDR aux) (PS 0 0 0) H0 He Hl) as E2.
  fold s in E2.
  assert (E3 : ph_off s = base mod modulus (wsz a)).
  { unfold s. rewrite (scan_list_off a base) by exact HF. cbn [ph_off].
    destruct (existsb _ hs) eqn:X; auto.
    destruct HE as [HE| ->]; [|rewrite Z.mod_0_l; lia].
    assert (existsb (fun h => (p_type h =? 6) || (p_type h =? 2)) hs = true); [|congruence].
    apply Exists_exists in HE. destruct HE as (h & Hi & Ht). apply existsb_exists. exists h. split; auto.
    destruct Ht as [-> | ->]; reflexivity. }
  unfold startup_values. rewrite E1. eexists. split; [reflexivity|].
  unfold template_is. change 7 with PT_TLS. destruct (last_of PT_TLS hs) as [h|] in E2 |- *.
  - destruct E2 as (N & H1 & H2 & H3 & H4 & H5). rewrite (proj2 (Z.eqb_neq _ 0) N).
    unfold ldw, wrapping_add. rewrite H2, H3, H4, H5, E3, Zplus_mod_idemp_l. reflexivity.
  - rewrite E2. cbn. repeat split; auto; lia.
Qed.

(** ** The .init_array loop *)
Section loop.
Context (a : arch) (w : world) (argc argv envp : Z) (k : mem -> run).
Notation calls fns := (map (fun f => InitFn f argc argv envp) fns).

(** [rest] is what is left of the array, if it is kept. *)
Lemma init_loop_cases l tot (Hkeep : inits_keep a l w tot) :
  forall fuel n (done rest : list Z) m,
  (length done + length rest = tot)%nat ->
  Z.of_nat (length rest) * wsz a < modulus (wsz a) ->
  words_at a m (l_init_start l + Z.of_nat (length done) * wsz a) rest ->
  let init := (l_init_start l + Z.of_nat (length done) * wsz a) mod modulus (wsz a) in
  let r := init_loop fuel a w (argc, argv, envp) n init
             ((l_init_start l + Z.of_nat tot * wsz a) mod modulus (wsz a)) m k in
  (exists m', r = (calls rest ++ fst (k m'), snd (k m')) /\ (rest = [] -> m' = m)) \/
  (exists pre post, rest = pre ++ post /\ pre <> [] /\ r = (calls pre, UserStopped)) \/
  (exists pre post, rest = pre ++ post /\ r = (calls pre, More)).
Proof.
  induction fuel as [|fuel IH]; intros n done rest m Ht HM Hw.
  - cbn. right. right. exists [], rest. auto.
  - intros init. cbn [init_loop]. destruct rest as [|f rest].
    + assert (E : tot = length done) by (cbn in Ht; lia). rewrite E. fold init. rewrite Z.eqb_refl.
      left. exists m. cbn. split; auto. destruct (k m); reflexivity.
    + assert (E : init =? (l_init_start l + Z.of_nat tot * wsz a) mod modulus (wsz a) = false).
      { unfold init. replace (l_init_start l + Z.of_nat tot * wsz a) with
          (l_init_start l + Z.of_nat (length done) * wsz a + Z.of_nat (length (f :: rest)) * wsz a) by (cbn [length] in *; nia).
        apply ptr_neq. pose proof (wsz_pos a). cbn [length] in *. nia. }
      rewrite E. apply words_cons in Hw. destruct Hw as [Hw1 Hw2]. fold init in Hw1. rewrite Hw1.
      destruct (w_init w n f argc argv envp m) as [m'|] eqn:Ei.
      * assert (En : padd a init (wsz a) = (l_init_start l + Z.of_nat (length (done ++ [f])) * wsz a) mod modulus (wsz a)).
        { unfold init. rewrite padd_mod, app_length. cbn [length]. f_equal. lia. }
        rewrite En.
        specialize (IH (S n) (done ++ [f]) rest m'). cbv zeta in IH.
        destruct IH as [(m2 & E2 & _)|[(pre & post & E1 & E2 & E3)|(pre & post & E1 & E2)]].
        -- rewrite app_length. cbn [length] in *. lia.
        -- cbn [length] in *. pose proof (wsz_pos a). nia.
        -- intros i x Hi. specialize (Hw2 i x Hi).
           assert (Li : (i < length rest)%nat) by (apply nth_error_Some; congruence).
           rewrite <- Hw2. rewrite app_length. cbn [length].
           replace (l_init_start l + Z.of_nat (length done) * wsz a + wsz a + Z.of_nat i * wsz a)
             with (l_init_start l + Z.of_nat (length done + 1 + i) * wsz a) by lia.
           replace (l_init_start l + Z.of_nat (length done + 1) * wsz a + Z.of_nat i * wsz a)
             with (l_init_start l + Z.of_nat (length done + 1 + i) * wsz a) by lia.
           apply (Hkeep _ _ _ _ _ _ _ Ei). cbn [length] in Ht. lia.
        -- left. exists m2. rewrite E2. split; [reflexivity|discriminate].
        -- right. left. exists (f :: pre), post. rewrite E3, E1. split; [reflexivity|]. split; [discriminate|reflexivity].
        -- right. right. exists (f :: pre), post. rewrite E2, E1. repeat split; auto.
      * right. left. exists [f], rest. repeat split. discriminate.
Qed.

(** Without any assumption on the array's contents. *)
Lemma init_loop_any : forall fuel n init pend m,
  let r := init_loop fuel a w (argc, argv, envp) n init pend m k in
  (exists fns m', r = (calls fns ++ fst (k m'), snd (k m')) /\ (0 <= init < modulus (wsz a) -> (init + Z.of_nat (length fns) * wsz a) mod modulus (wsz a) = pend)) \/
  (exists fns, fns <> [] /\ r = (calls fns, UserStopped)) \/
  (exists fns, r = (calls fns, More)).
Proof.
  induction fuel as [|fuel IH]; intros n init pend m.
  - right. right. exists []. reflexivity.
  - cbn [init_loop]. destruct (Z.eqb_spec init pend) as [E|E].
    + left. exists [], m. split; [destruct (k m); reflexivity|]. intros R. subst pend. cbn. rewrite Z.add_0_r. apply Z.mod_small. exact R.
    + set (f := ldw a m init). destruct (w_init w n f argc argv envp m) as [m'|].
      * destruct (IH (S n) (padd a init (wsz a)) pend m') as [(fns & m2 & E2 & E3)|[(fns & E2 & E3)|(fns & E2)]].
        -- left. exists (f :: fns), m2. rewrite E2. split; [reflexivity|]. intros _.
           rewrite <- E3 by (apply Z.mod_pos_bound; pose proof (mod_pos a); lia).
           cbn [length]. unfold padd, wrapping_add. rewrite Zplus_mod_idemp_l. f_equal. lia.
        -- right. left. exists (f :: fns). rewrite E3. split; [discriminate|reflexivity].
        -- right. right. exists (f :: fns). rewrite E2. reflexivity.
      * right. left. exists [f]. split; [discriminate|reflexivity].
Qed.
End loop.

Definition le_run (r r' : run) : Prop := snd r = More \/ r = r'.

Lemma le_emit e r r' : le_run r r' -> le_run (emit e r) (emit e r').
Proof. intros [H| ->]; [left; exact H|right; reflexivity]. Qed.

Lemma init_loop_mono a w args k : forall n n' i init pend m, (n <= n')%nat ->
  le_run (init_loop n a w args i init pend m k) (init_loop n' a w args i init pend m k).
Proof.
  induction n as [|n IH]; intros n' i init pend m L; [left; reflexivity|]. destruct n' as [|n']; [lia|].
  cbn [init_loop]. destruct (init =? pend); [right; reflexivity|]. destruct args as [[argc argv] envp].
  apply le_emit. destruct (w_init _ _ _ _ _ _ _); [apply IH; lia|right; reflexivity].
Qed.

Lemma cstr_end_mono m : forall n n' p x, (n <= n')%nat -> cstr_end n m p = Some x -> cstr_end n' m p = Some x.
Proof.
  induction n as [|n IH]; intros n' p x L H; [discriminate|]. destruct n' as [|n']; [lia|].
  cbn [cstr_end] in *. destruct (m p =? 0); auto. eapply IH; [|exact H]. lia.
Qed.

Lemma startup_info_mono ck a aux dynv m n n' : (n <= n')%nat ->
  initialize_startup_info n ck a aux dynv m = SMore \/
  initialize_startup_info n ck a aux dynv m = initialize_startup_info n' ck a aux dynv m.
Proof.
  intros L. unfold initialize_startup_info. destruct (exe_phdrs aux) as [[f e] num]. destruct (_ && _); [right; reflexivity|].
  destruct (scan_info n _ _ _ _ _ _ _ _) as [s|] eqn:E; [|left; reflexivity].
  rewrite (scan_info_mono _ _ _ _ _ _ n n' _ _ _ L E). right. reflexivity.
Qed.

Lemma init_runtime_mono n n' c l w sp envp m k k' : (n <= n')%nat -> (forall m, le_run (k m) (k' m)) ->
  le_run (init_runtime n c l w sp envp m k) (init_runtime n' c l w sp envp m k').
Proof.
  intros L K. unfold init_runtime. destruct (has_param c); [|apply K].
  destruct (param_init n _ _ _) as [aux|] eqn:E; [|left; reflexivity].
  rewrite (param_init_mono _ _ n n' _ _ L E). apply le_emit. destruct (f_thread c); [|apply K].
  destruct (startup_info_mono (f_debug c) (f_arch c) aux (l_dynv l) m n n' L) as [->| ->]; [left; reflexivity|].
  destruct (initialize_startup_info n' _ _ _ _ _) as [[t st]| |]; [|right; reflexivity|left; reflexivity].
  apply le_emit. destruct (cstr_end n m _) as [x|] eqn:E2; [|left; reflexivity].
  rewrite (cstr_end_mono _ n n' _ _ L E2). apply le_emit. destruct (initialize_main _ _ _ _ _ _ _ _ _ _ _ _); [apply K|right; reflexivity].
Qed.

Lemma entry_mono n n' c l w sp m : (n <= n')%nat -> le_run (entry n c l w sp m) (entry n' c l w sp m).
Proof.
  intros L. unfold entry. destruct (negb _); [right; reflexivity|]. destruct (compute_args _ _ _ _) as [args|]; [|right; reflexivity].
  assert (A : forall m, le_run (after_relocate n c l w sp args m) (after_relocate n' c l w sp args m)).
  { intros m'. unfold after_relocate. apply init_runtime_mono; auto. intros m2. destruct (f_init_array c); [|right; reflexivity].
    apply init_loop_mono. exact L. }
  destruct (_ && _); [|apply A]. apply le_emit.
  destruct (relocate_mono (reloc_env c l w (snd args)) (RelocSpec.start m) n n' L) as [->| ->]; [left; reflexivity|].
  destruct (relocate n' _ _); [apply A|right; reflexivity|right; reflexivity|left; reflexivity].
Qed.

Lemma ends_unique c l w sp m r r' : ends c l w sp m r -> ends c l w sp m r' -> r = r'.
Proof.
  intros [N1 [n1 H1]] [N2 [n2 H2]].
  destruct (entry_mono n1 (Nat.max n1 n2) c l w sp m ltac:(lia)) as [E1|E1]; [congruence|].
  destruct (entry_mono n2 (Nat.max n1 n2) c l w sp m ltac:(lia)) as [E2|E2]; [congruence|]. congruence.
Qed.
