(** C56: the thread life cycle on the real bytes.

    A [brun e tr b] is any interleaving, from process start, of threads that
    create, join, detach and exit threads, query ids and write arbitrary memory
    outside the fields of live thread records.  The records are the bytes
    written by `create` and `initialize_main`; the crate finds them again
    through the handle or through the thread-pointer register.  ByteModel.v has
    the model, ByteSpec.v and ThreadSpec.v the vocabulary. *)
From Coq Require Import ZArith List Bool Lia Arith ZifyBool.
From Verif Require Import Machine LayoutModel LayoutSpec ThreadModel ThreadSpec ThreadInv ThreadPres4 ThreadTop ThreadTop2 ByteModel ByteSpec ByteProofs ByteSim Props_Layout.
Import ListNotations.
Open Scope Z_scope.

Section props.
  Variable e : benv.
  Notation a := (be_arch e).
  Notation td := (be_td e).
  Notation c := (be_cfg e).
  Definition good_env : Prop := wf_env a td (be_tls e) (c_page c) /\ c_reuse c = false.

  Lemma page_pos : good_env -> 0 < c_page c.
  Proof. intros [W _]. destruct (wf_env_page _ _ _ _ W) as (k & Hk & ->). apply Z.pow_pos_nonneg; lia. Qed.

  (** Every byte of a thread record that the crate or the kernel accesses lies
      in the mapping of a thread, and that mapping has not been unmapped. *)
  Theorem C56_access_partial : forall tr b acc l b' x, good_env -> brun e tr b ->
    bstep e b acc l b' -> In x acc -> in_mapping b x.
  Proof.
    intros tr b acc l b' x G Rn St Hin. pose proof (page_pos G) as Hp. destruct G as [W Hr].
    destruct (brun_sim e W Hr _ _ Rn) as (s & Rs & Rl). pose proof (run_inv _ _ _ Hp Hr Rs) as Iv.
    destruct (bsim e W Hr _ _ _ _ _ Rl Iv St) as [A _]. auto.
  Qed.

  (** join returns exactly the value the thread's function returned. *)
  Theorem C56_join_partial : forall tr i acc j rv b, good_env ->
    brun e (tr ++ [(i, acc, EJoin j rv)]) b ->
    (forall v, did tr j (EReturn v) <-> v = rv) /\ bfinished b j.
  Proof.
    intros tr i acc j rv b G Rn. pose proof (page_pos G) as Hp. destruct G as [W Hr].
    destruct (brun_sim e W Hr _ _ Rn) as (s & Rs & Rl).
    destruct (join_value _ _ _ _ _ _ _ Hp Hr Rs) as (A & B & _). split; [exact A|].
    unfold bfinished. rewrite <- (rl_T _ _ _ Rl j). exact B.
  Qed.

  (** The successful munmap calls are, in order and each once, exactly the
      (address, length) of the mapping `create` obtained for a thread, one for
      every thread whose mapping is gone; the main thread's never. *)
  Theorem C56_unmap_partial : forall tr b, good_env -> brun e tr b ->
    exists js, NoDup js /\ map (fun j => (i_base (bI b j), i_len (bI b j))) js = munmaps tr /\
      (forall j, In j js <-> ((j < bn b)%nat /\ ~ bmapped b j)) /\ ~ In 0%nat js.
  Proof.
    intros tr b G Rn. pose proof (page_pos G) as Hp. destruct G as [W Hr].
    destruct (brun_sim e W Hr _ _ Rn) as (s & Rs & Rl). pose proof (run_inv _ _ _ Hp Hr Rs) as Iv.
    destruct (freed_once _ _ _ Hp Hr Rs) as (js & N & E & I2). exists js. split; [exact N|]. split; [|split].
    - rewrite <- E. apply map_ext. intros j. destruct (rl_geo _ _ _ Rl j) as (-> & -> & _). reflexivity.
    - intros j. rewrite I2. unfold bmapped, mapped. rewrite (rl_n _ _ _ Rl). destruct (rl_geo _ _ _ Rl j) as (_ & _ & ->). tauto.
    - intros H. apply I2 in H. destruct H as [_ H]. apply H. apply (mapped_main e s Iv).
  Qed.

  (** While its mapping exists, a thread's thread-pointer register leads to its
      handle, and the id in the record is its tid, or 0 once it has finished. *)
  Theorem C56_record_partial : forall tr b j, good_env -> brun e tr b -> bmapped b j ->
    current a td (bmem b) (i_tp (bI b j)) = i_t (bI b j) /\
    (~ bfinished b j -> id_of td (bmem b) (i_t (bI b j)) = t_tid (bT b j) /\ 0 < t_tid (bT b j)) /\
    (bfinished b j -> bguards_ok e b -> id_of td (bmem b) (i_t (bI b j)) = 0).
  Proof.
    intros tr b j G Rn [L M]. pose proof (page_pos G) as Hp. destruct G as [W Hr].
    destruct (brun_sim e W Hr _ _ Rn) as (s & Rs & Rl). pose proof (run_inv _ _ _ Hp Hr Rs) as Iv.
    destruct (rl_geo _ _ _ Rl j) as (_ & _ & E). rewrite <- E in M. rewrite <- (rl_n _ _ _ Rl) in L.
    pose proof (rl_enc _ _ _ Rl j L M) as [E1 _ _ _ _ _ E7]. unfold ld_tid in E1. unfold id_of, bfinished.
    rewrite <- (rl_T _ _ _ Rl j). rewrite E1. split; [exact E7|]. split.
    - intros NF. destruct (running_tid _ _ _ _ Hp Hr Rs L NF) as [-> ?]. auto.
    - intros F C. apply (i_tid0 _ _ Iv j L); [|destruct F as [F|[? F]]; rewrite F; reflexivity].
      destruct (jn (T s j)) eqn:J; [reflexivity|]. exfalso.
      assert (S : self (T s j) = true /\ sfreed (P s j) = true).
      { unfold jn, self in *. destruct F as [F|[x F]]; rewrite F in *; [rewrite J; auto|discriminate]. }
      assert (J0 : (0 < j)%nat) by (eapply self_not_main; eauto; destruct F as [F|[? F]]; rewrite F; reflexivity).
      assert (MO : munmap_ok c (R s j) = true).
      { apply guard_munmap_ok; auto. rewrite (rl_guard _ _ _ Rl j) by lia. apply C. rewrite <- (rl_n _ _ _ Rl). lia. }
      pose proof (i_freed _ _ Iv j L (proj1 S) (proj2 S) MO). congruence.
  Qed.

  Lemma guards_of b s : rel e b s -> bguards_ok e b -> guards_ok c s.
  Proof. intros Rl G j Hj. rewrite (rl_guard _ _ _ Rl j Hj). apply G. rewrite <- (rl_n _ _ _ Rl). exact Hj. Qed.

  (** With page-multiple guard sizes nothing leaks and nothing panics: after
      join returned, or detach returned and the thread exited, the mapping is
      gone; no unwrap or assertion in join, detach or exit fails. *)
  Theorem C56_no_leak_partial : forall tr b j, good_env -> brun e tr b -> bguards_ok e b ->
    (join_returned tr j -> ~ bmapped b j) /\
    (detach_returned tr j -> bexited b j -> ~ bmapped b j) /\
    t_pc (bT b j) <> Panicked.
  Proof.
    intros tr b j G Rn Gd. pose proof (page_pos G) as Hp. destruct G as [W Hr].
    destruct (brun_sim e W Hr _ _ Rn) as (s & Rs & Rl). pose proof (guards_of _ _ Rl Gd) as Gs.
    destruct (no_leak _ _ _ j Hp Hr Rs Gs) as [A B]. unfold bmapped, bexited, exited, mapped in *.
    destruct (rl_geo _ _ _ Rl j) as (_ & _ & E). rewrite E in *. rewrite <- (rl_T _ _ _ Rl j).
    split; [|split]; [tauto|tauto|]. exact (no_panic _ _ _ Hp Hr Rs Gs j).
  Qed.

  (** Nothing is unmapped that nobody joined or detached, and the bytes of
      distinct mapped threads are distinct. *)
  Theorem C56_undisturbed_partial : forall tr b j, good_env -> brun e tr b -> (j < bn b)%nat ->
    ~ join_called tr j -> ~ detach_called tr j -> bmapped b j.
  Proof.
    intros tr b j G Rn L NJ ND. pose proof (page_pos G) as Hp. destruct G as [W Hr].
    destruct (brun_sim e W Hr _ _ Rn) as (s & Rs & Rl). rewrite <- (rl_n _ _ _ Rl) in L.
    pose proof (unclaimed_mapped _ _ _ _ Hp Hr Rs L NJ ND) as M. unfold mapped in M.
    destruct (rl_geo _ _ _ Rl j) as (_ & _ & E). split; [rewrite <- (rl_n _ _ _ Rl); exact L|congruence].
  Qed.

  Theorem C56_distinct_partial : forall tr b i j, good_env -> brun e tr b -> bmapped b i -> bmapped b j -> i <> j ->
    apart (i_base (bI b i)) (i_len (bI b i)) (i_base (bI b j)) (i_len (bI b j)) /\
    (i_base (bI b i) <= i_t (bI b i) /\ i_t (bI b i) + td_size td <= i_base (bI b i) + i_len (bI b i)).
  Proof.
    intros tr b i j G Rn [Li Mi] [Lj Mj] D. pose proof (page_pos G) as Hp. destruct G as [W Hr].
    destruct (brun_sim e W Hr _ _ Rn) as (s & Rs & Rl). pose proof (run_inv _ _ _ Hp Hr Rs) as Iv.
    rewrite <- (rl_n _ _ _ Rl) in Li, Lj.
    destruct (rl_geo _ _ _ Rl i) as (A1 & A2 & A3), (rl_geo _ _ _ Rl j) as (B1 & B2 & B3).
    pose proof (i_disj _ _ Iv i j Li Lj D ltac:(congruence) ltac:(congruence)) as O. unfold overlaps in O.
    destruct (rl_place _ _ _ Rl i Li) as [[P1 P2 _ _] _]. rewrite <- A1, <- A2, <- B1, <- B2 in *. unfold apart. lia.
  Qed.

  (** id(j) and current_id() return 0 exactly when j has finished, else j's tid. *)
  Theorem C56_id_partial : forall tr b acc i acc' j v b', good_env -> brun e tr b ->
    bstep e b acc (Some (i, acc', EId j v)) b' ->
    (v = 0 <-> bfinished b j) /\ (~ bfinished b j -> v = t_tid (bT b j) /\ 0 < v).
  Proof.
    intros tr b acc i acc' j v b' G Rn St. pose proof (page_pos G) as Hp. destruct G as [W Hr].
    destruct (brun_sim e W Hr _ _ Rn) as (s & Rs & Rl). pose proof (run_inv _ _ _ Hp Hr Rs) as Iv.
    destruct (bsim e W Hr _ _ _ _ _ Rl Iv St) as [_ (s' & Ss & _)]. unfold bfinished. rewrite <- (rl_T _ _ _ Rl j).
    exact (id_value _ _ _ _ _ _ _ _ Hp Hr Rs Ss).
  Qed.

  (** A call on an exited thread never sleeps. *)
  Theorem C56_no_sleeper_partial : forall tr b i k j, good_env -> brun e tr b ->
    t_pc (bT b i) = JSleep k j -> ~ bexited b j.
  Proof.
    intros tr b i k j G Rn Hs. pose proof (page_pos G) as Hp. destruct G as [W Hr].
    destruct (brun_sim e W Hr _ _ Rn) as (s & Rs & Rl). unfold bexited. rewrite <- (rl_T _ _ _ Rl) in *.
    exact (no_sleeper _ _ _ _ _ _ Hp Hr Rs Hs).
  Qed.
End props.

(** * A concrete run *)
(** x86-64: thread 1 is created, user code writes its stack, it returns 77, and
    main joins it and gets 77. *)
Definition ex_e : benv := BEnv true X86_64 td8 tls_ex (Cfg 4096 true true true false).
Lemma ex_env : good_env ex_e.
Proof. split; [apply env_ex|reflexivity]. Qed.

Definition ex_main : main_res :=
  match initialize_main true X86_64 td8 tls_ex 4096 mem0 0x7ff000 0x7fffe8 (Some 0x10000) 0x7ff800 (Some 0x900000) 42 with
  | Some r => r | None => MainRes mem0 0 0 0 [] end.
Definition ex_b0 : bst :=
  BSt 1 (fun i => match i with O => Task Run 42 true false None | _ => Task Dead 1 true false None end)
    (fun i => match i with
       | O => Inst (mr_thread ex_main) (mr_tp ex_main) (mr_thread ex_main + o_tid td8) 0x900000 120 true (0, 0) 4096
       | _ => Inst 0 0 0 0 0 false (0, 0) 0 end)
    (fun _ => None) (mr_mem ex_main).

Definition ex_ans : answers := Answers (Some 0x700000) true 77.
Definition ex_create := create true X86_64 td8 tls_ex 4096 (bmem ex_b0) (i_tp (bI ex_b0 0%nat)) ex_ans 0x4000 [11; 22; 33] 100000 8192.
Definition ex_t : Z := match fst (fst ex_create) with COk t => t | _ => 0 end.
Definition ex_tp : Z := match snd (fst ex_create) with [_; _; SClone _ _ _ tp _ _ _] => tp | _ => 0 end.

Lemma ex_start : bstarts ex_e ex_b0.
Proof.
  destruct (initialize_main true X86_64 td8 tls_ex 4096 mem0 0x7ff000 0x7fffe8 (Some 0x10000) 0x7ff800 (Some 0x900000) 42) as [R|] eqn:E.
  2: { exfalso. pose proof (f_equal (fun o => match o with Some _ => true | None => false end) E) as H. vm_compute in H. discriminate. }
  assert (ER : ex_main = R) by (unfold ex_main; rewrite E; reflexivity).
  assert (EL : mr_log R = [SMmapRW 120 (Some 0x900000)]).
  { rewrite <- ER. vm_compute. reflexivity. }
  exists mem0, 0x7ff000, 0x7fffe8, (Some 0x10000), 0x7ff800, (Some 0x900000), 42, R, 120, 0x900000.
  split; [|split; [lia|split; [rewrite EL; left; reflexivity|unfold ex_b0; rewrite ER; reflexivity]]].
  constructor; [apply env_ex|left; reflexivity|exact E| |].
  - intros len map [H|H]; rewrite EL in H; cbn [In] in H; repeat destruct H as [H|H]; try discriminate; try contradiction.
    inversion H; subst. repeat split; try lia. exists 0x900; reflexivity. vm_compute. discriminate.
  - intros len map [H|H]; rewrite EL in H; cbn [In] in H; repeat destruct H as [H|H]; try discriminate; try contradiction.
    inversion H; subst. left. vm_compute. discriminate.
Qed.

Definition ex_b1 : bst :=
  BSt 2 (fupd (bT ex_b0) 1 (Task Run 77 true false None))
    (fupd (bI ex_b0) 1 (Inst ex_t ex_tp (ex_t + 0) 0x700000 108312 true (0, 0) 8192))
    (fupd (bclaim ex_b0) 1 None) (snd ex_create).
Lemma ex_step1 : bstep ex_e ex_b0 [] (Some (0%nat, [0%nat], ECreate 1)) ex_b1.
Proof.
  assert (EL : snd (fst ex_create) = [SMmap 108312 (Some 0x700000); SMprotectRW (0x700000 + 8192) (108312 - 8192) true;
      SClone (0x700000 + 108192 - 32) (ex_t + 0) (ex_t + 0) ex_tp 0x4000 3 77]) by (vm_compute; reflexivity).
  apply (b_create ex_e ex_b0 0 ex_ans 0x4000 [11; 22; 33] 100000 8192 ex_t (snd (fst ex_create)) (snd ex_create)
    (0x700000 + 108192 - 32) (ex_t + 0) (ex_t + 0) ex_tp 3 77 108312 0x700000).
  - cbn. lia.
  - reflexivity.
  - unfold usize. cbn. lia.
  - unfold usize. cbn. lia.
  - left. reflexivity.
  - cbn. lia.
  - change (ex_create = (COk ex_t, snd (fst ex_create), snd ex_create)).
    assert (ET : fst (fst ex_create) = COk ex_t) by (vm_compute; reflexivity). rewrite <- ET.
    rewrite <- surjective_pairing. rewrite <- surjective_pairing. reflexivity.
  - rewrite EL. intros len map [H|H]; cbn [In] in H; repeat destruct H as [H|H]; try discriminate; try contradiction.
    inversion H; subst. repeat split; try lia. exists 0x700; reflexivity. vm_compute. discriminate.
  - rewrite EL. intros len map [H|H]; cbn [In] in H; repeat destruct H as [H|H]; try discriminate; try contradiction.
    inversion H; subst. left. vm_compute. discriminate.
  - rewrite EL. left. reflexivity.
  - rewrite EL. right. right. left. reflexivity.
  - lia.
  - intros k Hk _. cbn in Hk. destruct k; [cbn; lia|lia].
  - intros k Hk _. cbn in Hk. destruct k; [|lia]. left. vm_compute. discriminate.
  - intros _ k ad Hk. cbn in Hk. destruct k; [discriminate|lia].
Qed.

(** user code writes a byte of thread 1's stack *)
Definition ex_b2 : bst := bset_mem ex_b1 (upd (bmem ex_b1) 0x702100 5).
Lemma ex_step2 : bstep ex_e ex_b1 [] None ex_b2.
Proof.
  apply b_write. intros j Hj _.
  assert (T1 : i_t (bI ex_b1 1%nat) = ltac:(let v := eval vm_compute in (i_t (bI ex_b1 1%nat)) in exact v)) by (vm_compute; reflexivity).
  assert (T0 : i_t (bI ex_b1 0%nat) = ltac:(let v := eval vm_compute in (i_t (bI ex_b1 0%nat)) in exact v)) by (vm_compute; reflexivity).
  assert (Q1 : i_tp (bI ex_b1 1%nat) = ltac:(let v := eval vm_compute in (i_tp (bI ex_b1 1%nat)) in exact v)) by (vm_compute; reflexivity).
  assert (Q0 : i_tp (bI ex_b1 0%nat) = ltac:(let v := eval vm_compute in (i_tp (bI ex_b1 0%nat)) in exact v)) by (vm_compute; reflexivity).
  assert (F : forall f, In f (td_fields (be_arch ex_e) (be_td ex_e)) -> 0 <= fst f /\ fst f + snd f <= 48)
    by (apply Forall_forall; exact (wf_td_in _ _ (wf_env_td _ _ _ _ env_ex))).
  change (bn ex_b1) with 2%nat in Hj. split.
  - intros f Hf x Hx. specialize (F f Hf). unfold upd. destruct (Z.eqb_spec x 0x702100) as [->|]; [exfalso|reflexivity].
    destruct j as [|[|j]]; [rewrite T0 in Hx|rewrite T1 in Hx|lia]; lia.
  - intros _ x Hx. unfold upd. destruct (Z.eqb_spec x 0x702100) as [->|]; [exfalso|reflexivity].
    change (wsz (be_arch ex_e)) with 8 in Hx. destruct j as [|[|j]]; [rewrite Q0 in Hx|rewrite Q1 in Hx|lia]; lia.
Qed.

(** thread 1 returns 77 and gets as far as the exit system call *)
Definition ex_b3 := btask ex_b2 1 (set_fin (bT ex_b2 1%nat) (XCas 77) 77).
Definition ex_b4 := bgoto (bset_mem ex_b3 (st_det ex_e (bmem ex_b3) (own ex_e ex_b3 1) ABANDONED)) 1 (XStore 77).
Definition ex_b5 := bgoto (bset_mem ex_b4 (st_ret ex_e (bmem ex_b4) (own ex_e ex_b4 1) 77)) 1 XExit.
Definition ex_b6 := bgoto ex_b5 1 KClear.
(** main joins it and goes to sleep *)
Definition ex_b7 := bgoto (bset_claim ex_b6 1 (KJoin, 0%nat)) 0 (JLoad KJoin 1).
Definition ex_b8 := bgoto ex_b7 0 (JFutex KJoin 1 (ld_tid ex_e (bmem ex_b7) (i_t (bI ex_b7 1%nat)))).
Definition ex_b9 := bgoto ex_b8 0 (JSleep KJoin 1).
(** the kernel finishes thread 1 and wakes main *)
Definition ex_b10 := bgoto (bset_mem ex_b9 (store_le (bmem ex_b9) (i_ctid (bI ex_b9 1%nat)) 4 0)) 1 (KWake (i_ctid (bI ex_b9 1%nat))).
Definition ex_b11 := bgoto (bgoto ex_b10 1 Dead) 0 (JDone KJoin 1).
Definition ex_b12 := bgoto ex_b11 0 (JFree KJoin 1 (ld_ret ex_e (bmem ex_b11) (i_t (bI ex_b11 1%nat)))).
Definition ex_b13 := bgoto (bmunmap ex_b12 (unmap_request ex_e (bmem ex_b12) (i_t (bI ex_b12 1%nat)))) 0 (JRet KJoin 1 77).
Definition ex_b14 := bgoto ex_b13 0 Run.
Definition ex_tr : list label := [
  (0%nat, [0%nat], ECreate 1); (0%nat, [0%nat; 1%nat], EId 1 77); (1%nat, [1%nat], EReturn 77); (1%nat, [1%nat], ENone);
  (1%nat, [1%nat], ENone); (1%nat, [1%nat], EExit); (0%nat, [0%nat], ECallJoin 1); (0%nat, [0%nat; 1%nat], ENone); (0%nat, [0%nat; 1%nat], ENone);
  (1%nat, [1%nat], EKernelClear); (1%nat, [], ENone); (0%nat, [0%nat; 1%nat], ENone); (0%nat, [0%nat; 1%nat], EMunmap 0x700000 108312);
  (0%nat, [0%nat], EJoin 1 77)].

Ltac vr := vm_compute; reflexivity.
Ltac ex_last := match goal with |- bexec _ _ ?tr _ => let t := eval vm_compute in tr in change tr with t end.
Lemma bexec_to e b tr b1 acc l b2 tr' : bexec e b tr b1 -> bstep e b1 acc l b2 -> tr' = tr ++ olist l -> bexec e b tr' b2.
Proof. intros H1 H2 ->. econstructor; eauto. Qed.

Lemma ex_run : brun ex_e ex_tr ex_b14.
Proof.
  exists ex_b0. split; [apply ex_start|].
  pose proof (bexec_nil ex_e ex_b0) as H.
  pose proof (bexec_snoc _ _ _ _ _ _ _ H ex_step1) as H1.
  pose proof (bexec_snoc _ _ _ _ _ _ _ H1 ex_step2) as H2.
  pose proof (bexec_snoc _ _ _ _ _ _ _ H2 (b_id ex_e ex_b2 0 1 ltac:(cbn; lia) ltac:(vr) ltac:(cbn; lia) ltac:(vr))) as H2'.
  pose proof (bexec_snoc _ _ _ _ _ _ ex_b3 H2' (b_return ex_e ex_b2 1 77 ltac:(lia) ltac:(cbn; lia) ltac:(vr) ltac:(unfold usize; cbn; lia))) as H3.
  pose proof (bexec_snoc _ _ _ _ _ _ ex_b4 H3 (b_cas ex_e ex_b3 1 77 ltac:(vr) ltac:(vr))) as H4.
  pose proof (bexec_snoc _ _ _ _ _ _ ex_b5 H4 (b_store ex_e ex_b4 1 77 ltac:(vr))) as H5.
  pose proof (bexec_snoc _ _ _ _ _ _ ex_b6 H5 (b_exit ex_e ex_b5 1 ltac:(vr))) as H6.
  pose proof (bexec_snoc _ _ _ _ _ _ ex_b7 H6 (b_join ex_e ex_b6 0 1 ltac:(cbn; lia) ltac:(vr) ltac:(cbn; lia) ltac:(vr))) as H7.
  pose proof (bexec_snoc _ _ _ _ _ _ ex_b8 H7 (b_load ex_e ex_b7 0 KJoin 1 ltac:(vr) ltac:(vm_compute; discriminate))) as H8.
  pose proof (bexec_snoc _ _ _ _ _ _ ex_b9 H8 (b_futex_sleep ex_e ex_b8 0 KJoin 1 77 ltac:(vr) ltac:(vr))) as H9.
  pose proof (bexec_snoc _ _ _ _ _ _ ex_b10 H9 (b_kclear ex_e ex_b9 1 ltac:(vr) ltac:(vr))) as H10.
  pose proof (bexec_snoc _ _ _ _ _ _ ex_b11 H10 (b_kwake ex_e ex_b10 1 0 KJoin 1 (i_ctid (bI ex_b9 1%nat)) ltac:(vr) ltac:(vr) ltac:(vr))) as H11.
  pose proof (bexec_snoc _ _ _ _ _ _ ex_b12 H11 (b_join_load ex_e ex_b11 0 1 ltac:(vr) ltac:(left; vr))) as H12.
  pose proof (bexec_snoc _ _ _ _ _ _ ex_b13 H12 (b_free ex_e ex_b12 0 KJoin 1 77 _ ltac:(vr) eq_refl ltac:(vm_compute; discriminate) ltac:(vr))) as H13.
  pose proof (bexec_snoc _ _ _ _ _ _ ex_b14 H13 (b_ret_join ex_e ex_b13 0 1 77 ltac:(vr))) as H14.
  clear - H14.
  match type of H14 with bexec _ _ ?tr _ => assert (E : tr = ex_tr) by vr end. rewrite <- E. exact H14.
Qed.

Theorem C56_ex : exists tr b, brun ex_e tr b /\ good_env ex_e /\ bguards_ok ex_e b /\ bn b = 2%nat /\
  did tr 1 (EReturn 77) /\ did tr 0 (EJoin 1 77) /\ did tr 0 (EId 1 77) /\
  munmaps tr = [(0x700000, 108312)] /\ ~ bmapped b 1 /\ bmapped b 0.
Proof.
  exists ex_tr, ex_b14. split; [apply ex_run|]. split; [apply ex_env|]. split; [|split; [reflexivity|]].
  { intros j Hj. assert (j = 1%nat) by (change (bn ex_b14) with 2%nat in Hj; lia). subst j. vr. }
  unfold did, ex_tr. repeat split; try (eexists; cbn [In]; tauto).
  - intros [_ X]. revert X. vm_compute. discriminate.
  - cbn. lia.
Qed.
