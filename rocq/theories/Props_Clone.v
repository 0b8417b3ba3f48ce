(** Property C61: the kernel objects behind a created thread, and its exit
    notification.  Code: CloneModel.v (flags), LayoutModel.v (create); kernel:
    CloneSpec.v. *)
From Verif Require Import Machine MachineFacts LayoutModel LayoutSpec LayoutFacts LayoutProofs LayoutTop LayoutTop2 LayoutTop3 LayoutTop4 LayoutTop5 Props_Layout.
From Verif Require Import CloneModel CloneSpec.

Lemma flag_bits b : has create_flags b =
  (b =? 8) || (b =? 9) || (b =? 10) || (b =? 11) || (b =? 16) || (b =? 18) || (b =? 19) || (b =? 20) || (b =? 21) || (b =? 24).
Proof.
  unfold has, create_flags, create_flag_list. cbn [fold_left]. rewrite Z.lor_0_l, !Z.lor_spec.
  change CLONE_VM with (2 ^ 8). change CLONE_FS with (2 ^ 9). change CLONE_FILES with (2 ^ 10). change CLONE_SIGHAND with (2 ^ 11).
  change CLONE_THREAD with (2 ^ 16). change CLONE_SYSVSEM with (2 ^ 18). change CLONE_SETTLS with (2 ^ 19).
  change CLONE_PARENT_SETTID with (2 ^ 20). change CLONE_CHILD_CLEARTID with (2 ^ 21). change CLONE_CHILD_SETTID with (2 ^ 24).
  rewrite !Z.pow2_bits_eqb by lia. 
  rewrite (Z.eqb_sym b 8), (Z.eqb_sym b 9), (Z.eqb_sym b 10), (Z.eqb_sym b 11), (Z.eqb_sym b 16), (Z.eqb_sym b 18), (Z.eqb_sym b 19), (Z.eqb_sym b 20), (Z.eqb_sym b 21), (Z.eqb_sym b 24).
  destruct (8 =? b), (9 =? b), (10 =? b), (11 =? b), (16 =? b), (18 =? b), (19 =? b), (20 =? b), (21 =? b), (24 =? b); reflexivity.
Qed.

(** ** The clone call: for all arguments, parents and memories. *)
Theorem C61_clone stack ptid ctid tls fresh tid p ms : stack <> 0 ->
  exists c ms', k_clone create_flags stack ptid ctid tls fresh tid p ms = Some (c, ms', false) /\
    is_thread stack ctid tls p c /\ k_tid c = tid /\
    (forall mm, mm <> k_mm p -> ms' mm = ms mm) /\
    ms' (k_mm p) = store_le (ms (k_mm p)) ptid 4 tid /\
    k_settid c = Some ctid.
Proof.
  intros Hs. unfold k_clone.
  unfold b_NEWNS, b_FS, b_NEWUSER, b_THREAD, b_SIGHAND, b_VM, b_NEWPID, b_NEWIPC, b_SYSVSEM, b_FILES, b_SETTLS, b_CHILD_SETTID, b_CHILD_CLEARTID, b_PTRACE, b_PARENT_SETTID, b_VFORK.
  rewrite !flag_bits. cbn [andb orb negb Z.eqb Pos.eqb].
  assert (EN : forall ns, new_ns create_flags fresh ns_bits ns = ns).
  { intros ns. unfold ns_bits, b_NEWNS, b_NEWUTS, b_NEWIPC, b_NEWPID, b_NEWNET, b_NEWCGROUP, b_NEWUSER.
    do 8 (destruct ns as [|? ns]; [reflexivity|]). cbn [new_ns]. rewrite !flag_bits. reflexivity. }
  rewrite EN. replace (stack =? 0) with false by (symmetry; apply Z.eqb_neq; exact Hs).
  eexists _, _. split; [reflexivity|]. split; [constructor; reflexivity|]. split; [reflexivity|].
  split; [|split; [|reflexivity]].
  - intros mm Hm. unfold upd_space. replace (mm =? k_mm p) with false by (symmetry; apply Z.eqb_neq; exact Hm). reflexivity.
  - unfold upd_space. rewrite Z.eqb_refl. reflexivity.
Qed.
Print Assumptions C61_clone.

(** Every flag but one is needed: without it the kernel refuses, or the child is
    not such a thread, or the tid is not in place when clone returns. *)
Theorem C61_each_flag_needed f : In f create_flag_list -> f <> CLONE_CHILD_SETTID ->
  exists p ms, forall c ms' v,
    k_clone (Z.ldiff create_flags f) 0x8000 0x9000 0x9000 0x9100 99 7 p ms = Some (c, ms', v) ->
    is_thread 0x8000 0x9000 0x9100 p c -> load_le (ms' (k_mm p)) 0x9000 4 = 7 -> False.
Proof.
  intros Hf Hn. exists (KT 1 1 2 3 4 5 6 [] 0x5000 0 None None None false), (fun _ _ => 0). intros c ms' v E T S1.
  cbn [create_flag_list In] in Hf.
  repeat (destruct Hf as [<-|Hf]; [try (exfalso; apply Hn; reflexivity); vm_compute in E; try discriminate; injection E as <- <- <-; destruct T; cbn in *; try discriminate; vm_compute in S1; discriminate|]).
  destruct Hf.
Qed.

(** CLONE_CHILD_SETTID is the one flag that could be dropped: CLONE_PARENT_SETTID
    has already stored the same number at the same address. *)
Lemma store_back m p n x : wf_mem m -> store_le m p n (load_le m p n) x = m x.
Proof.
  intros W. rewrite store_le_spec. destruct ((p <=? x) && (x <? p + Z.of_nat n)) eqn:E; [|reflexivity].
  apply andb_prop in E. destruct E as [E1 E2]. apply Z.leb_le in E1. apply Z.ltb_lt in E2.
  rewrite load_le_byte by (auto; lia). f_equal. lia.
Qed.

(** ** create, end to end *)

(** After a successful `create`, with [m_call] the memory at the clone call (what
    the same call of `create` leaves behind if clone fails): Linux's clone gives
    the memory `create` returns with, so the tid is in the record before the
    creator or the child runs; the child is a thread of the process, on the new
    stack, with the new thread pointer, whose exit will clear the id in the
    record `create` returned; and the child's own store of its id when it first
    runs, which may come arbitrarily later, changes nothing if the id is still
    there. *)
Theorem C61_create ck a td tls page m tpreg ans fn args stack_size guard_size t log m' sp p c tp f n r m_call log_call :
  successful_create ck a td tls page m tpreg ans fn args stack_size guard_size t log m' ->
  create ck a td tls page m tpreg (Answers (ans_mmap ans) (ans_mprotect ans) (-1)) fn args stack_size guard_size = (CErr, log_call, m_call) ->
  In (SClone sp p c tp f n r) log -> 0 < r < 2 ^ 31 ->
  forall parent fresh ms, ms (k_mm parent) = m_call ->
   exists child ms', k_clone create_flags sp p c tp fresh r parent ms = Some (child, ms', false) /\
    ms' (k_mm parent) = m' /\ (forall mm, mm <> k_mm parent -> ms' mm = ms mm) /\
    is_thread sp (t + o_tid td) tp parent child /\ k_tid child = r /\
    id_of td m' t = r /\
    forall later, id_of td (later (k_mm parent)) t = r -> wf_mem (later (k_mm parent)) ->
      forall mm x, k_first_run child later mm x = later mm x.
Proof.
  intros SC EC Hin Hr parent fresh ms Hms.
  pose proof (created_current _ _ _ _ _ _ _ _ _ _ _ _ _ _ _ _ _ _ _ _ _ _ SC Hin) as (_ & _ & ID & _).
  rewrite Z.mod_small in ID by lia.
  destruct (sc_created _ _ _ _ _ _ _ _ _ _ _ _ _ _ _ SC) as (map & sp' & C).
  pose proof (sc_bounds _ _ _ _ _ _ _ _ _ _ _ _ _ _ _ SC _ _ C) as B.
  pose proof (sc_good _ _ _ _ _ _ _ _ _ _ _ _ _ _ _ SC) as G.
  destruct C. rewrite cr_log in Hin.
  destruct Hin as [E|[E|[E|[]]]]; try discriminate E. injection E as <- <- <- <- <- <- <-.
  assert (Hsp : sp' <> 0) by (destruct G; lia).
  destruct (C61_clone sp' (t + o_tid td) (t + o_tid td) (abi_at a td (map + l_header (ideal a td tls page stack_size guard_size)) ThreadPointee) fresh (ans_clone ans) parent ms Hsp)
    as (ch & ms' & E1 & T & E2 & Fr & M & ST).
  exists ch, ms'. split; [exact E1|]. split.
  - rewrite M, Hms.
    pose proof (sc_call _ _ _ _ _ _ _ _ _ _ _ _ _ _ _ SC) as E. unfold create in E, EC. cbn [ans_mmap ans_mprotect ans_clone] in EC.
    rewrite cr_layout, cr_ans in E, EC.
    destruct (negb (ans_mprotect ans)); [discriminate E|].
    destruct (initialize_tls _ _ _ _ _ _ _ _ _ _ _) as [[[m1 nt] tidp]|]; [|discriminate E].
    replace (0 <=? ans_clone ans) with true in E by (symmetry; apply Z.leb_le; exact cr_clone).
    change (0 <=? -1) with false in EC. cbn iota in EC.
    injection E as Et El Em. injection EC as Ecl Ecm. rewrite <- Em, <- Ecm. rewrite cr_log in El. assert (EQ : tidp = t + o_tid td) by congruence. rewrite EQ. reflexivity.
  - split; [exact Fr|]. split; [exact T|]. split; [exact E2|]. split; [exact ID|].
    intros later HL W mm x. unfold k_first_run. rewrite ST, (it_mm _ _ _ _ _ T), E2. unfold upd_space.
    destruct (Z.eqb_spec mm (k_mm parent)) as [->|]; [|reflexivity].
    unfold id_of in HL. rewrite <- HL. apply store_back, W.
Qed.
Print Assumptions C61_create.

(** ** The process *)

(** The tasks of a program that makes threads only through `create`: the first,
    and every task cloned with [create_flags] by one of them. *)
Inductive task_of (main : ktask) : ktask -> Prop :=
| to_main : task_of main main
| to_child p stack ptid ctid tls fresh tid ms c ms' v : task_of main p -> stack <> 0 ->
    k_clone create_flags stack ptid ctid tls fresh tid p ms = Some (c, ms', v) -> task_of main c
| to_tid p addr : task_of main p -> task_of main (k_set_tid_address p addr).

(** All have one address space, one process id, one file table, one set of
    signal actions, one working directory and umask, one set of namespaces. *)
Theorem C61_same_process main c : task_of main c ->
  k_mm c = k_mm main /\ k_tgid c = k_tgid main /\ k_files c = k_files main /\ k_sighand c = k_sighand main /\
  k_fs c = k_fs main /\ k_sysvsem c = k_sysvsem main /\ k_ns c = k_ns main.
Proof.
  induction 1 as [|p stack ptid ctid tls fresh tid ms c ms' v _ IH Hs E|p addr _ IH].
  - repeat split.
  - destruct (C61_clone stack ptid ctid tls fresh tid p ms Hs) as (c' & ms1 & E' & T & _).
    rewrite E' in E. injection E as <- _ _. destruct T. destruct IH as (I1 & I2 & I3 & I4 & I5 & I6 & I7).
    repeat split; congruence.
  - exact IH.
Qed.
Print Assumptions C61_same_process.

(** ** Exit notification *)

(** A joiner — any task of the process — waiting with the operation code
    `wait_for_exit` passes, at the address of the id of thread [t], is woken by
    the kernel when the thread cloned with that address as child_tid exits; the
    id then reads 0 and no other byte of any address space has changed.  If the
    word is already 0 (the thread has exited), waiting for any id does not sleep. *)
Theorem C61_exit_wakes main parent joiner sp ptid idaddr tls fresh r ms child ms1 v :
  task_of main parent -> task_of main joiner -> sp <> 0 ->
  k_clone create_flags sp ptid idaddr tls fresh r parent ms = Some (child, ms1, v) ->
  futex_cmd wait_op = k_FUTEX_WAIT /\
  (forall now id key, k_futex_wait wait_op idaddr id joiner now = Some key ->
     forall later, snd (k_exit child later) = Some key) /\
  (forall later, load_le (fst (k_exit child later) (k_mm joiner)) idaddr 4 = 0 /\
     (forall mm x, mm <> k_mm joiner \/ ~ idaddr <= x < idaddr + 4 -> fst (k_exit child later) mm x = later mm x) /\
     forall id, id <> 0 -> k_futex_wait wait_op idaddr id joiner (fst (k_exit child later)) = None).
Proof.
  intros TP TJ Hs E.
  destruct (C61_clone sp ptid idaddr tls fresh r parent ms Hs) as (c' & ms' & E' & T & _).
  rewrite E' in E. injection E as -> _ _.
  pose proof (C61_same_process _ _ TP) as (MP & _). pose proof (C61_same_process _ _ TJ) as (MJ & _).
  assert (MC : k_mm child = k_mm joiner) by (destruct T; congruence).
  split; [reflexivity|]. split.
  - intros now id key HW later. unfold k_futex_wait in HW. destruct (_ =? _); [|discriminate].
    injection HW as <-. unfold k_exit. rewrite (it_clear _ _ _ _ _ T), MC. reflexivity.
  - intros later.
    assert (Z0 : load_le (fst (k_exit child later) (k_mm joiner)) idaddr 4 = 0).
    { unfold k_exit. rewrite (it_clear _ _ _ _ _ T), MC. cbn [fst]. unfold upd_space. rewrite Z.eqb_refl.
      cbn [load_le]. rewrite !store_le_spec. 
      replace (idaddr <=? idaddr) with true by (symmetry; apply Z.leb_le; lia).
      replace (idaddr <? idaddr + Z.of_nat 4) with true by (symmetry; apply Z.ltb_lt; lia).
      replace (idaddr <=? idaddr + 1) with true by (symmetry; apply Z.leb_le; lia).
      replace (idaddr + 1 <? idaddr + Z.of_nat 4) with true by (symmetry; apply Z.ltb_lt; lia).
      replace (idaddr <=? idaddr + 1 + 1) with true by (symmetry; apply Z.leb_le; lia).
      replace (idaddr + 1 + 1 <? idaddr + Z.of_nat 4) with true by (symmetry; apply Z.ltb_lt; lia).
      replace (idaddr <=? idaddr + 1 + 1 + 1) with true by (symmetry; apply Z.leb_le; lia).
      replace (idaddr + 1 + 1 + 1 <? idaddr + Z.of_nat 4) with true by (symmetry; apply Z.ltb_lt; lia).
      unfold byte. cbn [andb]. rewrite !Z.div_0_l by (apply Z.pow_nonzero; lia). reflexivity. }
    split; [exact Z0|]. split.
    + intros mm x Hx. unfold k_exit. rewrite (it_clear _ _ _ _ _ T), MC. cbn [fst]. unfold upd_space.
      destruct (Z.eqb_spec mm (k_mm joiner)) as [->|]; [|reflexivity]. rewrite store_le_spec.
      destruct (Z.leb_spec idaddr x), (Z.ltb_spec x (idaddr + Z.of_nat 4)); cbn; try reflexivity. lia.
    + intros id Hid. unfold k_futex_wait. rewrite Z0. destruct (Z.eqb_spec 0 id); [lia|reflexivity].
Qed.
Print Assumptions C61_exit_wakes.

(** With FUTEX_PRIVATE_FLAG (128) the joiner would never be woken: the kernel's
    wake at thread exit is not a private one. *)
Theorem C61_private_refuted : exists child joiner now key, forall later,
  k_futex_wait (Z.lor wait_op 128) 0x9000 7 joiner now = Some key /\
  k_mm child = k_mm joiner /\ k_clear child = Some 0x9000 /\ snd (k_exit child later) <> Some key.
Proof.
  exists (KT 7 1 2 3 4 5 6 [] 0x9100 0x8000 None (Some 0x9000) None false), (KT 1 1 2 3 4 5 6 [] 0x5000 0 None None None false),
    (fun _ => store_le (fun _ => 0) 0x9000 4 7), (true, 2, 0x9000). intros later.
  split; [vm_compute; reflexivity|]. split; [reflexivity|]. split; [reflexivity|]. cbn. discriminate.
Qed.

(** A thread that has called set_tid_address(null), as a detached thread does
    before freeing its own memory (linux_raw.rs:781), exits without touching any
    memory or waking anyone. *)
Theorem C61_detached_exit c ms : k_exit (k_set_tid_address c 0) ms = (ms, None).
Proof. reflexivity. Qed.
Theorem C61_no_clear_refuted : exists c ms, fst (k_exit c ms) (k_mm c) 0x9000 <> ms (k_mm c) 0x9000.
Proof. exists (KT 7 1 2 3 4 5 6 [] 0x9100 0x8000 None (Some 0x9000) None false), (fun _ _ => 1). vm_compute. discriminate. Qed.

(** ** Non-vacuity *)
Example C61_ex : exists t log m' sp p c tp f n m_call log_call,
  successful_create true X86_64 td8 tls_ex 4096 mem0 0 ans_ex 0x4000 [11; 22; 33] 100000 5000 t log m' /\
  create true X86_64 td8 tls_ex 4096 mem0 0 (Answers (ans_mmap ans_ex) (ans_mprotect ans_ex) (-1)) 0x4000 [11; 22; 33] 100000 5000 = (CErr, log_call, m_call) /\
  In (SClone sp p c tp f n 77) log /\ 0 < 77 < 2 ^ 31.
Proof.
  destruct create_ex as (t & log & m' & SC).
  destruct (create true X86_64 td8 tls_ex 4096 mem0 0 (Answers (ans_mmap ans_ex) (ans_mprotect ans_ex) (-1)) 0x4000 [11; 22; 33] 100000 5000) as [[r lc] mc] eqn:E.
  assert (R : r = fst (fst (create true X86_64 td8 tls_ex 4096 mem0 0 (Answers (ans_mmap ans_ex) (ans_mprotect ans_ex) (-1)) 0x4000 [11; 22; 33] 100000 5000))) by (rewrite E; reflexivity).
  vm_compute in R. subst r.
  destruct (sc_created _ _ _ _ _ _ _ _ _ _ _ _ _ _ _ SC) as (map & sp & []).
  eexists t, log, m', sp, _, _, _, _, _, mc, lc. split; [exact SC|]. split; [reflexivity|]. split; [|lia].
  rewrite cr_log. right. right. left. reflexivity.
Qed.
(** A joiner that does go to sleep, in a process of three threads. *)
Example C61_wait_ex : exists main parent joiner child ms ms1 key,
  task_of main parent /\ task_of main joiner /\ joiner <> main /\
  k_clone create_flags 0x8000 0x9000 0x9000 0x9100 0 7 parent ms = Some (child, ms1, false) /\
  k_futex_wait wait_op 0x9000 7 joiner ms1 = Some key.
Proof.
  set (main := KT 1 1 2 3 4 5 6 [] 0x5000 0 None None None false).
  exists main, main. eexists _, _, (fun _ _ => 0), _, _. split; [constructor|].
  split; [eapply (to_child main main 0x18000 0x19000 0x19000 0x19100 0 6 (fun _ _ => 0)); [constructor|lia|reflexivity]|].
  split; [discriminate|]. split; reflexivity.
Qed.
