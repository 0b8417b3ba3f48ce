(** C56, C57, C58 and C62 without any assumption on how the kernel reuses
    addresses, for programs that create no thread after one thread reclaimed the
    memory of another ([creates_first], ThreadPhase.v; Props_Phase.v has the
    same for C28-C33). *)
From Coq Require Import ZArith List Bool Lia Arith.
From Verif Require Import Machine LayoutModel LayoutSpec ThreadModel ThreadSpec ThreadPhase ByteModel ByteSpec BytePhase Props_Layout Props_Byte CurrentModel Props_Current.
From Verif Require Import DtorsModel ProcModel Props_Proc.
Import ListNotations.
Open Scope Z_scope.

(** The program's configuration is sound; nothing about the kernel. *)
Definition any_env (e : benv) : Prop := wf_env (be_arch e) (be_td e) (be_tls e) (c_page (be_cfg e)).
Lemma any_good e : any_env e -> good_env (bcareful e).
Proof. intros W. split; [exact W|reflexivity]. Qed.

Lemma bcareful_exec e tr b tr2 b2 : any_env e -> brun e tr b -> bexec e b tr2 b2 -> creates_first (tr ++ tr2) ->
  bexec (bcareful e) b tr2 b2.
Proof.
  intros W Rn Ex. induction Ex as [b|b t b1 acc l b2 Ex IH St]; intros Cf; [constructor|].
  rewrite app_assoc in Cf.
  assert (C0 : creates_first (tr ++ t)) by (destruct l; cbn [olist] in Cf; [eapply creates_first_pre; eauto|now rewrite app_nil_r in Cf]).
  econstructor; [apply IH; auto|]. eapply (bcareful_next e (tr ++ t)); eauto. eapply brun_app; eauto.
Qed.

Theorem C56_any_kernel : forall e tr b, any_env e -> brun e tr b -> creates_first tr ->
  (* every byte of a record that is accessed is mapped *)
  (forall acc l b' x, bstep e b acc l b' -> creates_first (tr ++ olist l) -> In x acc -> in_mapping b x) /\
  (* the munmap calls are exactly the mappings of the threads that are gone, each once *)
  (exists js, NoDup js /\ map (fun j => (i_base (bI b j), i_len (bI b j))) js = munmaps tr /\
     (forall j, In j js <-> ((j < bn b)%nat /\ ~ bmapped b j)) /\ ~ In 0%nat js) /\
  (* a mapped thread's register leads to its record, which holds its id *)
  (forall j, bmapped b j ->
     current (be_arch e) (be_td e) (bmem b) (i_tp (bI b j)) = i_t (bI b j) /\
     (~ bfinished b j -> id_of (be_td e) (bmem b) (i_t (bI b j)) = t_tid (bT b j) /\ 0 < t_tid (bT b j))) /\
  (* nothing leaks, panics or sleeps for ever *)
  (bguards_ok e b -> forall j,
     (join_returned tr j -> ~ bmapped b j) /\
     (detach_returned tr j -> bexited b j -> ~ bmapped b j) /\
     t_pc (bT b j) <> Panicked) /\
  (forall i k j, t_pc (bT b i) = JSleep k j -> ~ bexited b j) /\
  (* nothing is unmapped that nobody joined or detached *)
  (forall j, (j < bn b)%nat -> ~ join_called tr j -> ~ detach_called tr j -> bmapped b j).
Proof.
  intros e tr b W Rn Cf. pose proof (bcareful_run e tr b W Rn Cf) as R1. pose proof (any_good e W) as G.
  split; [|split; [|split; [|split; [|split]]]].
  - intros acc l b' x St Cf' Hin. eapply (C56_access_partial (bcareful e)); eauto. eapply bcareful_next; eauto.
  - exact (C56_unmap_partial (bcareful e) tr b G R1).
  - intros j M. destruct (C56_record_partial (bcareful e) tr b j G R1 M) as (A & B & _). auto.
  - intros Gd j. exact (C56_no_leak_partial (bcareful e) tr b j G R1 Gd).
  - intros i k j. exact (C56_no_sleeper_partial (bcareful e) tr b i k j G R1).
  - intros j. exact (C56_undisturbed_partial (bcareful e) tr b j G R1).
Qed.

(** join on bytes returns the value the thread's function returned. *)
Theorem C56_join_any_kernel : forall e tr i acc j rv b, any_env e ->
  brun e (tr ++ [(i, acc, EJoin j rv)]) b -> creates_first tr ->
  (forall v, did tr j (EReturn v) <-> v = rv) /\ bfinished b j.
Proof.
  intros e tr i acc j rv b W Rn Cf. eapply (C56_join_partial (bcareful e)); [apply any_good; auto|].
  apply (bcareful_run e _ _ W Rn). intros tr1 l tr2 i0 acc0 j0 E Rl Hin.
  destruct tr2 as [|y tr2 _] using rev_ind; [destruct Hin|].
  rewrite !app_assoc in E. apply app_inj_tail in E as (E & <-). apply in_app_iff in Hin as [Hin|[Hin|[]]]; [|discriminate].
  rewrite <- app_assoc in E. exact (Cf tr1 l tr2 i0 acc0 j0 E Rl Hin).
Qed.

Theorem C57_any_kernel : forall e ck tr b i tid, any_env e -> brun e tr b -> creates_first tr ->
  bmapped b i -> ~ bfinished b i -> 0 < tid < 2 ^ 31 -> tid <> t_tid (bT b i) ->
  exists m', set_current_id_after_a_fork ck (be_arch e) (be_td e) (bmem b) (i_tp (bI b i)) tid tid = Some m' /\
    current (be_arch e) (be_td e) m' (i_tp (bI b i)) = i_t (bI b i) /\
    id_of (be_td e) m' (i_t (bI b i)) = tid /\
    stack_of (be_arch e) (be_td e) m' (i_t (bI b i)) = stack_of (be_arch e) (be_td e) (bmem b) (i_t (bI b i)) /\
    (forall x, ~ inside (i_t (bI b i) + o_tid (be_td e)) 4 x -> m' x = bmem b x).
Proof.
  intros e ck tr b i tid W Rn Cf. exact (C57_after_fork_partial (bcareful e) ck tr b i tid (any_good e W) (bcareful_run e tr b W Rn Cf)).
Qed.

Theorem C58_any_kernel : forall e o tr b tr2 b2 j, any_env e -> o_errno (be_td e) = Some o ->
  brun e tr b -> bexec e b tr2 b2 -> creates_first (tr ++ tr2) -> bmapped b j -> bmapped b2 j ->
  let loc b k := errno_location (be_arch e) (be_td e) o (bmem b) (i_tp (bI b k)) in
  loc b2 j = loc b j /\
  in_mapping b (loc b j, 4) /\
  (forall f, In f (td_fields (be_arch e) (be_td e)) -> apart (loc b j) 4 (i_t (bI b j) + fst f) (snd f)) /\
  (forall k, bmapped b2 k -> k <> j -> apart (loc b2 j) 4 (i_t (bI b2 k)) (td_size (be_td e)) /\ apart (loc b2 j) 4 (loc b2 k) 4).
Proof.
  intros e o tr b tr2 b2 j W Wo Rn Ex Cf.
  exact (C58_errno_partial (bcareful e) o tr b tr2 b2 j (any_good e W) Wo (bcareful_run e tr b W Rn (creates_first_app _ _ Cf)) (bcareful_exec e _ _ _ _ W Rn Ex Cf)).
Qed.

Theorem C58_values_any_kernel : forall e o tr b acc l b', any_env e -> o_errno (be_td e) = Some o ->
  brun e tr b -> bstep e b acc (Some l) b' -> creates_first (tr ++ [l]) ->
  let loc b k := errno_location (be_arch e) (be_td e) o (bmem b) (i_tp (bI b k)) in
  (forall i acc' j, l = (i, acc', ECreate j) -> load_le (bmem b') (loc b' j) 4 = 0) /\
  (forall j, bmapped b j -> load_le (bmem b') (loc b j) 4 = load_le (bmem b) (loc b j) 4).
Proof.
  intros e o tr b acc l b' W Oe Rn St Cf loc.
  pose proof (bcareful_run e tr b W Rn (creates_first_app _ _ Cf)) as Rn'. pose proof (bcareful_next e _ _ _ (Some l) _ W Rn St Cf) as St'.
  split.
  - intros i acc' j ->. exact (C58_initial_partial (bcareful e) o tr b acc i acc' j b' (any_good e W) Oe Rn' St').
  - intros j M. exact (C58_kept_partial (bcareful e) o tr b acc l b' j (any_good e W) Oe Rn' St' M).
Qed.

(** ** Whole programs *)
Lemma pcareful_step e c tr s x s' : any_env e -> prun e c tr s -> pstep e c s x s' -> creates_first (lifes (tr ++ [x])) ->
  pstep (bcareful e) c s x s'.
Proof.
  intros W R St C. destruct (proj _ _ _ _ R) as [RB _]. rewrite lifes_snoc in C.
  destruct St; cbn [life_of] in C.
  - eapply p_user; eauto. eapply (bcareful_next e (lifes tr)); eauto.
  - eapply p_life; eauto. eapply (bcareful_next e (lifes tr)); eauto.
  - eapply p_fns; eauto.
  - eapply p_returns; eauto.
  - eapply p_create; eauto. eapply (bcareful_next e (lifes tr)); eauto.
  - eapply p_done; eauto. eapply (bcareful_next e (lifes tr)); eauto.
Qed.
Lemma pcareful_run e c tr s : any_env e -> prun e c tr s -> creates_first (lifes tr) -> prun (bcareful e) c tr s.
Proof.
  intros W R. induction R as [b Hb|tr s x s' R IH St]; intros C; [constructor; exact Hb|].
  pose proof C as C'. rewrite lifes_snoc in C'. econstructor; [apply IH; eapply creates_first_app; eauto|].
  eapply pcareful_step; eauto.
Qed.

Theorem C62_any_kernel : forall e c tr s, any_env e -> prun e c tr s -> creates_first (lifes tr) ->
  (* join returns the function's value after all the thread's exit functions returned *)
  (forall tr0 i acc j rv, tr = tr0 ++ [PLife (i, acc, EJoin j rv)] ->
     (forall v, In (PReturns j v) tr0 <-> v = rv) /\
     (forall f, In (PFns j (RegT f)) tr0 -> In (PFns j (CallT f)) tr0 /\ In (PFns j (Ret (WT f))) tr0) /\
     frames (fns s) j = []) /\
  (* a thread running user code is mapped and finds its own record *)
  (forall t, frames (fns s) t <> [] ->
     bmapped (life s) t /\ ~ bfinished (life s) t /\
     current (be_arch e) (be_td e) (bmem (life s)) (i_tp (bI (life s) t)) = i_t (bI (life s) t)) /\
  (* a thread whose memory is gone has returned and run all its exit functions *)
  (forall j, (j < bn (life s))%nat -> ~ bmapped (life s) j ->
     (exists v, In (PReturns j v) tr) /\
     (forall f, In (PFns j (RegT f)) tr -> In (PFns j (CallT f)) tr /\ In (PFns j (Ret (WT f))) tr) /\
     frames (fns s) j = []).
Proof.
  intros e c tr s W R C. pose proof (pcareful_run e c tr s W R C) as R1. pose proof (any_good e W) as G.
  split; [|split].
  - intros tr0 i acc j rv ->. destruct (C62_join_partial (bcareful e) c tr0 i acc j rv s G R1) as (A & B & _ & D). auto.
  - intros t F. destruct (C62_alive_partial (bcareful e) c tr s t G R1 F) as (A & B & D & _). auto.
  - exact (fun j => C62_unmapped_partial (bcareful e) c tr s j G R1).
Qed.

(** The hypotheses are met: the concrete run of C56 (a thread is created, joined
    and its memory freed), on a kernel that may reuse addresses early. *)
Definition early (e : benv) : benv :=
  BEnv (be_ck e) (be_arch e) (be_td e) (be_tls e)
    (Cfg (c_page (be_cfg e)) (c_sig (be_cfg e)) (c_handlers (be_cfg e)) (c_debug (be_cfg e)) true).
Ltac to_early e := repeat first
  [ progress change (a_tid e) with (a_tid (early e)) in * | progress change (a_det e) with (a_det (early e)) in *
  | progress change (a_ret e) with (a_ret (early e)) in * | progress change (a_req e) with (a_req (early e)) in *
  | progress change (own e) with (own (early e)) in * | progress change (ld_tid e) with (ld_tid (early e)) in *
  | progress change (ld_det e) with (ld_det (early e)) in * | progress change (ld_ret e) with (ld_ret (early e)) in *
  | progress change (st_det e) with (st_det (early e)) in * | progress change (st_ret e) with (st_ret (early e)) in *
  | progress change (unmap_request e) with (unmap_request (early e)) in * ].
Lemma bstep_early e b acc l b' : bstep e b acc l b' -> bstep (early e) b acc l b'.
Proof.
  intros St. destruct St; to_early e; try solve [econstructor; eauto].
  eapply (b_create (early e) b i ans fn args s g t log m'); eauto. discriminate.
Qed.
Lemma brun_early e tr b : brun e tr b -> brun (early e) tr b.
Proof.
  intros (b0 & H & E). exists b0. split; [exact H|]. clear H. induction E; econstructor; eauto using bstep_early.
Qed.

Theorem C56_any_kernel_ex : exists e tr b, any_env e /\ c_reuse (be_cfg e) = true /\ brun e tr b /\ creates_first tr /\
  bguards_ok e b /\ did tr 0 (EJoin 1 77) /\ ~ bmapped b 1 /\ bmapped b 0.
Proof.
  exists (early ex_e), ex_tr, ex_b14. split; [apply ex_env|]. split; [reflexivity|]. split; [apply brun_early, ex_run|].
  split; [apply (cf_sound _ false); vm_compute; reflexivity|]. split; [|split; [eexists; unfold ex_tr; cbn [In]; tauto|split]].
  - intros j Hj. change (bn ex_b14) with 2%nat in Hj. assert (j = 1)%nat as -> by lia. vm_compute. reflexivity.
  - intros [_ X]. revert X. vm_compute. discriminate.
  - split; [change (bn ex_b14) with 2%nat; lia|vm_compute; reflexivity].
Qed.

Print Assumptions C56_any_kernel.
Print Assumptions C62_any_kernel.
