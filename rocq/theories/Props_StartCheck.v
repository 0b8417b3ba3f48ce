(** C81: what startup does with a stack that no kernel made.  Debug builds stop
    before anything else happens, exactly for the stacks described here; other
    builds go on and hand out what the words say. *)
From Coq Require Import ZArith List Bool Lia.
From Verif Require Import Machine MachineFacts LayoutModel RelocModel RelocSpec StartModel StartSpec StartProofs.
Import ListNotations.
Local Open Scope Z_scope.

(** The first word of the stack and what is expected of it: a count below 2^31
    (so also, as a signed number, not negative), and a null pointer after that
    many argument pointers. *)
Definition first_word (a : arch) (m : mem) (sp : Z) : Z := load_le m sp (word a).
Definition well_formed (a : arch) (m : mem) (sp : Z) : Prop :=
  let n := first_word a m sp in
  n < 2 ^ 31 /\ load_le m ((sp + (n + 1) * wsz a) mod modulus (wsz a)) (word a) = 0.
(** With `origin-start`, what assembly passes is also checked. *)
Definition well_placed (sp : Z) : Prop := sp <> 0 /\ (16 | sp).

Lemma load_range a m p : wf_mem m -> 0 <= load_le m p (word a) < modulus (wsz a).
Proof. intros M. pose proof (load_le_range (word a) m p M) as H. destruct a; exact H. Qed.

Lemma land15 sp : 0 <= sp -> (Z.land sp 0xf =? 0) = true <-> (16 | sp).
Proof.
  intros S. rewrite Z.eqb_eq. change 0xf with (Z.ones 4). rewrite Z.land_ones by lia. change (2 ^ 4) with 16.
  rewrite Z.mod_divide by lia. tauto.
Qed.

Lemma mem_checks_ok c sp : 0 <= sp -> mem_checks c sp = true <-> (f_debug c = true -> f_origin_start c = true -> well_placed sp).
Proof.
  intros S. unfold mem_checks, well_placed. destruct (f_debug c), (f_origin_start c); cbn [andb]; try (split; [intros _; intros; discriminate|reflexivity]).
  rewrite andb_true_iff, negb_true_iff, Z.eqb_neq, land15 by auto. tauto.
Qed.

Lemma i32_word a m sp : wf_mem m -> let n := first_word a m sp in
  ((0 <=? to_i32 n) && (n =? i32_to_usize a (to_i32 n)) = true <-> n < 2 ^ 31) /\
  (n < 2 ^ 31 -> to_i32 n = n).
Proof.
  intros MM. cbv zeta. unfold first_word. pose proof (load_range a m sp MM) as R. set (n := load_le m sp (word a)) in *.
  assert (T : n < 2 ^ 31 -> to_i32 n = n).
  { intros L. unfold to_i32. rewrite Z.mod_small by lia. destruct (Z.ltb_spec n (2 ^ 31)); lia. }
  split; [|exact T]. rewrite andb_true_iff, Z.leb_le, Z.eqb_eq. split.
  - intros [P E]. unfold i32_to_usize in E.
    assert (to_i32 n < 2 ^ 31). { unfold to_i32. pose proof (Z.mod_pos_bound n (2 ^ 32) ltac:(lia)). destruct (Z.ltb_spec (n mod 2 ^ 32) (2 ^ 31)); lia. }
    rewrite Z.mod_small in E; [lia|]. split; [lia|]. assert (2 ^ 31 < modulus (wsz a)) by (destruct a; reflexivity). lia.
  - intros L. rewrite (T L). split; [lia|]. unfold i32_to_usize. rewrite Z.mod_small; lia.
Qed.

Lemma compute_args_none ck a m sp : wf_mem m -> compute_args ck a m sp = None <-> ck = true /\ ~ well_formed a m sp.
Proof.
  intros MM. unfold compute_args, well_formed. cbv zeta. change (ldw a m sp) with (first_word a m sp).
  destruct (i32_word a m sp MM) as [I1 I2]. cbv zeta in I1, I2. pose proof (load_range a m sp MM) as R0. change (load_le m sp (word a)) with (first_word a m sp) in R0.
  set (n := first_word a m sp) in *.
  assert (PA : n < 2 ^ 31 -> padd a (padd a sp (wsz a)) (i32_to_usize a (to_i32 n) * wsz a) = (sp + (n + 1) * wsz a) mod modulus (wsz a)).
  { intros L. rewrite (I2 L). unfold padd, wrapping_add, i32_to_usize.
    assert (2 ^ 31 < modulus (wsz a)) by (destruct a; reflexivity). rewrite (Z.mod_small n) by lia.
    rewrite Z.add_mod_idemp_l by lia. f_equal. lia. }
  assert (UA : n < 2 ^ 31 -> uadd ck a (to_u32 (to_i32 n)) 1 = Some (n + 1)).
  { intros L. rewrite (I2 L). unfold uadd, to_u32. rewrite Z.mod_small by lia.
    assert (2 ^ 31 < modulus (wsz a)) by (destruct a; reflexivity). destruct (Z.ltb_spec (n + 1) (modulus (wsz a))); [reflexivity|lia]. }
  destruct (Z_lt_dec n (2 ^ 31)) as [L|L].
  - rewrite (UA L). rewrite (PA L). apply I1 in L as L1. rewrite L1. cbn [andb]. unfold ldw.
    set (v := load_le m ((sp + (n + 1) * wsz a) mod modulus (wsz a)) (word a)) in *. destruct ck; cbn [andb].
    + destruct (Z.eqb_spec v 0); cbn [negb]; split; intros H; try discriminate; [exfalso; apply (proj2 H); auto|split; [auto|intros [_ Q]; contradiction]|reflexivity].
    + split; [discriminate|intros [Q _]; discriminate].
  - assert (E1 : (0 <=? to_i32 n) && (n =? i32_to_usize a (to_i32 n)) = false).
    { apply not_true_iff_false. intros E. apply L, I1, E. }
    unfold uadd. rewrite E1. cbn [andb negb]. destruct ck; cbn [andb].
    + split; [intros _; split; [reflexivity|intros [Q _]; contradiction]|]. intros _. destruct (_ <? _); reflexivity.
    + split; [|intros [Q _]; discriminate]. destruct (_ <? _); discriminate.
Qed.

Lemma init_loop_nonempty fuel a w args n i e m k : (forall m', k m' <> ([], PanicEnd)) -> init_loop fuel a w args n i e m k <> ([], PanicEnd).
Proof.
  intros K. destruct fuel as [|f]; cbn; [discriminate|]. destruct (i =? e); [apply K|]. destruct args as [[x y] z]. unfold emit. discriminate.
Qed.
Lemma call_main_nonempty a w args m : call_main a w args m <> ([], PanicEnd).
Proof. destruct args as [[x y] z]. unfold call_main, emit. discriminate. Qed.
Lemma after_nonempty fuel c l w sp args m : after_relocate fuel c l w sp args m <> ([], PanicEnd).
Proof.
  unfold after_relocate, init_runtime. cbv zeta. destruct (has_param c).
  - destruct (param_init _ _ _ _); [unfold emit; discriminate|discriminate].
  - destruct (f_init_array c); [apply init_loop_nonempty; intros m'|]; apply call_main_nonempty.
Qed.

(** Startup panics before it has done anything at all (no relocation, no
    runtime initialisation, no user code) exactly if this is a debug build and
    the stack is not as expected.  For every target, memory, stack pointer,
    configuration, program, and any number of steps. *)
Theorem C81_checks fuel c l w sp m : wf_mem m -> 0 <= sp ->
  entry fuel c l w sp m = ([], PanicEnd) <->
  f_debug c = true /\ (well_formed (f_arch c) m sp -> f_origin_start c = true /\ ~ well_placed sp).
Proof.
  intros MM S. unfold entry. pose proof (mem_checks_ok c sp S) as M.
  pose proof (compute_args_none (f_debug c) (f_arch c) m sp MM) as A.
  destruct (mem_checks c sp) eqn:E; cbn [negb].
  - assert (P : f_debug c = true -> f_origin_start c = true -> well_placed sp) by (apply M; reflexivity).
    destruct (compute_args _ _ _ _) as [args|].
    + assert (W : f_debug c = true -> ~ ~ well_formed (f_arch c) m sp).
      { intros D N. pose proof (proj2 A (conj D N)) as Q. discriminate Q. }
      split.
      * intros Q. exfalso. destruct (f_relocate c && f_origin_start c); [unfold emit in Q; discriminate|exact (after_nonempty _ _ _ _ _ _ _ Q)].
      * intros [D Q]. exfalso. apply (W D). intros F. destruct (Q F) as [O N]. apply N. auto.
    + destruct (proj1 A eq_refl) as [D N]. split; [|reflexivity]. intros _. split; [exact D|]. intros F. contradiction.
  - split; [|reflexivity]. intros _. destruct (f_debug c) eqn:D, (f_origin_start c) eqn:O.
    + split; [reflexivity|]. intros _. split; [reflexivity|]. intros P. assert (false = true) by (apply M; auto). discriminate.
    + exfalso. assert (false = true) by (apply M; intros; discriminate). discriminate.
    + exfalso. assert (false = true) by (apply M; intros; discriminate). discriminate.
    + exfalso. assert (false = true) by (apply M; intros; discriminate). discriminate.
Qed.
Print Assumptions C81_checks.

(** ** Builds that check nothing *)
Lemma init_loop_in a w args e : forall fuel n i en m k, In e (fst (init_loop fuel a w args n i en m k)) ->
  (exists f, e = InitFn f (fst (fst args)) (snd (fst args)) (snd args)) \/ exists m', In e (fst (k m')).
Proof.
  induction fuel as [|f IH]; cbn; intros n i en m k H; [contradiction|].
  destruct (i =? en); [eauto|]. destruct args as [[x y] z]. cbn in *. destruct H as [<-|H]; [left; eauto|].
  destruct (w_init w n _ x y z m); [|contradiction]. apply IH in H. exact H.
Qed.
Lemma call_main_in a w args m e : In e (fst (call_main a w args m)) ->
  e = OriginMain (i32_to_usize a (fst (fst args))) (snd (fst args)) (snd args) \/ exists st, e = Exit st.
Proof.
  destruct args as [[x y] z]. unfold call_main, emit. cbn. intros [<-|H]; [auto|].
  destruct (w_main _ _ _ _ _) as [[m' st]|]; cbn in H; [|contradiction]. destruct H as [<-|[]]. eauto.
Qed.
Lemma after_in fuel c l w sp args m e : In e (fst (after_relocate fuel c l w sp args m)) ->
  match e with
  | Relocate _ => False
  | ParamInit p => p = snd args
  | InitFn _ argc argv envp => argc = fst (fst args) /\ argv = snd (fst args) /\ envp = snd args
  | OriginMain argc argv envp => argc = i32_to_usize (f_arch c) (fst (fst args)) /\ argv = snd (fst args) /\ envp = snd args
  | _ => True
  end.
Proof.
  assert (K : forall m', In e (fst (if f_init_array c
    then init_loop fuel (f_arch c) w args 0 (l_init_start l) (l_init_end l) m' (call_main (f_arch c) w args)
    else call_main (f_arch c) w args m')) -> match e with
  | Relocate _ => False
  | ParamInit p => p = snd args
  | InitFn _ argc argv envp => argc = fst (fst args) /\ argv = snd (fst args) /\ envp = snd args
  | OriginMain argc argv envp => argc = i32_to_usize (f_arch c) (fst (fst args)) /\ argv = snd (fst args) /\ envp = snd args
  | _ => True
  end).
  { intros m' H. assert (Q : (exists f, e = InitFn f (fst (fst args)) (snd (fst args)) (snd args)) \/ exists m'', In e (fst (call_main (f_arch c) w args m''))).
    { destruct (f_init_array c); [apply init_loop_in in H; exact H|eauto]. }
    destruct Q as [(f & ->)|(m'' & Q)]; [auto|]. apply call_main_in in Q. destruct Q as [->|(st & ->)]; auto. }
  unfold after_relocate, init_runtime. cbv zeta. destruct (has_param c); [|apply K].
  destruct (param_init _ _ _ _) as [aux|]; [|contradiction]. unfold emit at 1. cbn [fst]. intros [<-|H]; [reflexivity|]. revert H.
  destruct (f_thread c); [|apply K].
  destruct (initialize_startup_info _ _ _ _ _ _) as [[tls st]| |]; try contradiction. unfold emit at 1. cbn [fst]. intros [<-|H]; [exact Logic.I|]. revert H.
  destruct (cstr_end _ _ _); [|contradiction]. unfold emit. cbn [fst]. intros [<-|H]; [exact Logic.I|]. revert H.
  destruct (initialize_main _ _ _ _ _ _ _ _ _ _ _ _); [apply K|contradiction].
Qed.

(** Whatever the stack holds, in every build: what init functions, origin_main
    and the runtime are given is the first word cut to a signed 32-bit number
    (widened again to a word for origin_main), the address of the second word,
    and the address after as many words as the cut number says, read as
    unsigned, and one more. *)
Definition cut (n x : Z) : Prop := - 2 ^ 31 <= x < 2 ^ 31 /\ exists k, n = x + k * 2 ^ 32.
Theorem C81_given fuel c l w sp m e :
  In e (fst (entry fuel c l w sp m)) ->
  let a := f_arch c in
  let W := modulus (wsz a) in
  exists n, cut (first_word a m sp) n /\
  let argv0 := (sp + wsz a) mod W in
  let envp0 := (sp + (2 + n mod 2 ^ 32) * wsz a) mod W in
  match e with
  | Relocate p | ParamInit p => p = envp0
  | InitFn _ argc argv envp => argc = n /\ argv = argv0 /\ envp = envp0
  | OriginMain argc argv envp => argc = n mod W /\ argv = argv0 /\ envp = envp0
  | _ => True
  end.
Proof.
  cbv zeta. intros H. exists (to_i32 (first_word (f_arch c) m sp)). set (a := f_arch c) in *. set (n := first_word a m sp).
  split.
  { unfold cut, to_i32. pose proof (Z.mod_pos_bound n (2 ^ 32) ltac:(lia)). pose proof (Z.div_mod n (2 ^ 32) ltac:(lia)).
    destruct (Z.ltb_spec (n mod 2 ^ 32) (2 ^ 31)).
    - split; [lia|]. exists (n / 2 ^ 32). lia.
    - split; [lia|]. exists (n / 2 ^ 32 + 1). lia. }
  unfold entry in H. destruct (negb (mem_checks c sp)); [contradiction|].
  destruct (compute_args _ _ _ _) as [args|] eqn:E; [|contradiction].
  assert (X : args = (to_i32 n, (sp + wsz a) mod modulus (wsz a), (sp + (2 + to_i32 n mod 2 ^ 32) * wsz a) mod modulus (wsz a))).
  { unfold compute_args in E. cbv zeta in E. change (ldw (f_arch c) m sp) with n in E. fold a in E.
    assert (MP : 0 < modulus (wsz a)) by (destruct a; reflexivity).
    destruct (uadd _ _ _ _) as [q|] eqn:U; [|discriminate]. destruct (_ && negb _) in E; [discriminate|]. injection E as <-.
    f_equal. unfold padd, wrapping_add. rewrite Z.add_mod_idemp_l by lia.
    assert (QQ : q mod modulus (wsz a) = (to_i32 n mod 2 ^ 32 + 1) mod modulus (wsz a)).
    { unfold uadd in U. destruct (_ <? _); [injection U as <-; reflexivity|]. destruct (f_debug c); [discriminate|]. injection U as <-.
      unfold to_u32. rewrite Z.mod_mod by lia. reflexivity. }
    rewrite <- Z.add_mod_idemp_r by lia. rewrite <- Z.mul_mod_idemp_l by lia. rewrite QQ. rewrite Z.mul_mod_idemp_l by lia.
    rewrite Z.add_mod_idemp_r by lia. f_equal. ring. }
  assert (F : match e with Relocate p => p = snd args | _ => True end ->
     forall r s, In e (fst (after_relocate r c l w sp args s)) \/ (exists p, e = Relocate p) -> match e with
  | Relocate p | ParamInit p => p = snd args
  | InitFn _ argc argv envp => argc = fst (fst args) /\ argv = snd (fst args) /\ envp = snd args
  | OriginMain argc argv envp => argc = i32_to_usize (f_arch c) (fst (fst args)) /\ argv = snd (fst args) /\ envp = snd args
  | _ => True
  end).
  { intros Re r s [K|[p ->]]; [|exact Re]. apply after_in in K. destruct e; auto. }
  assert (G : exists r s, (match e with Relocate p => p = snd args | _ => True end) /\ (In e (fst (after_relocate r c l w sp args s)) \/ exists p, e = Relocate p)).
  { assert (NR : forall s, In e (fst (after_relocate fuel c l w sp args s)) -> match e with Relocate p => p = snd args | _ => True end).
    { intros s K. apply after_in in K. destruct e; auto. contradiction. }
    destruct (f_relocate c && f_origin_start c); [|exists fuel, m; split; [apply (NR m H)|left; exact H]].
    unfold emit in H. cbn [fst] in H. destruct H as [<-|H]; [exists fuel, m; split; eauto|].
    destruct (relocate _ _ _) as [s| | |]; cbn in H; try contradiction. exists fuel, (rm s). split; [apply (NR (rm s) H)|auto]. }
  destruct G as (r & s & G1 & G2). pose proof (F G1 r s G2) as R. subst args. cbn [fst snd] in R.
  destruct e; try exact R.
Qed.
Print Assumptions C81_given.

(** ** Examples *)
(** An x86-64 program without runtime features; its main returns 7. *)
Definition sc_cfg (dbg : bool) : cfg := Cfg X86_64 dbg true false false false false.
Definition sc_world : world := World 4096 0 None None 1 (fun _ _ _ _ _ m => Some m) (fun _ _ _ m => Some (m, 7)).
(** Every byte 0: no arguments, null pointers follow.  Every byte 255: a count
    of 2^64 - 1. *)
Theorem C81_ex l :
  wf_mem (fun _ => 0) /\ wf_mem (fun _ => 255) /\
  (well_formed X86_64 (fun _ => 0) 0x1000 /\ well_placed 0x1000 /\ ~ well_placed 0x1008 /\ ~ well_formed X86_64 (fun _ => 255) 0x1000) /\
  entry 1 (sc_cfg true) l sc_world 0x1000 (fun _ => 0) = ([OriginMain 0 0x1008 0x1010; Exit 7], Exited 7) /\
  entry 1 (sc_cfg true) l sc_world 0x1008 (fun _ => 0) = ([], PanicEnd) /\
  entry 1 (sc_cfg true) l sc_world 0x1000 (fun _ => 255) = ([], PanicEnd) /\
  entry 1 (sc_cfg false) l sc_world 0x1000 (fun _ => 255) = ([OriginMain (2 ^ 64 - 1) 0x1008 (0x1008 + 2 ^ 32 * 8); Exit 7], Exited 7).
Proof.
  split; [intros x; lia|]. split; [intros x; lia|].
  split.
  { split; [split; vm_compute; reflexivity|]. split; [split; [discriminate|exists 256; reflexivity]|].
    split; [intros [_ [k K]]; lia|]. intros [K _]. vm_compute in K. discriminate. }
  repeat split; vm_compute; reflexivity.
Qed.
Print Assumptions C81_ex.
