(** Properties C55, C57, C58: default sizes; the calling thread's record. *)
From Coq Require Import ZArith List Bool Lia Arith ZifyBool.
From Verif Require Import Machine MachineFacts LayoutModel LayoutSpec LayoutFacts LayoutProofs LayoutTop LayoutTop2 LayoutTop3 LayoutTop4 LayoutTop5 ThreadModel ThreadSpec ThreadInv ThreadPres4 ThreadTop
  ByteModel ByteSpec ByteProofs ByteSim Props_Layout Props_Byte CurrentModel.
Import ListNotations.
Open Scope Z_scope.

(** * C55 the default guard size is four pages and never the panicking kind *)
(** On every page size it is exactly four pages, in checked and unchecked
    builds alike; so a thread created with it meets the condition under which
    join and detach free its memory exactly (C31, C56). *)
Theorem C55_default_guard : forall ck a page, wf_page page ->
  default_guard_size ck a page = Some (4 * page) /\ 4 * page < modulus (wsz a) /\ (4 * page) mod page = 0.
Proof.
  intros ck a page P. pose proof (wf_page_bounds _ P) as [B _].
  assert (M : 2 ^ 32 <= modulus (wsz a)) by (destruct a; vm_compute; discriminate).
  unfold default_guard_size. destruct (Z.ltb_spec (page * 4) (modulus (wsz a))); [|lia].
  repeat split; [f_equal; lia|lia|]. apply Z.mod_mul. lia.
Qed.
Theorem C55_default_stack : forall startup,
  0x20000 <= default_stack_size startup /\ startup <= default_stack_size startup /\
  (default_stack_size startup = 0x20000 \/ default_stack_size startup = startup).
Proof. intros. unfold default_stack_size. lia. Qed.
(** A request with both defaults is never refused by the layout computation
    when the address space can hold it. *)
Theorem C55_defaults_usable : forall ck a td tls page startup, wf_env a td tls page -> 0 <= startup ->
  Z.max 0x20000 startup + tls_memsz tls + td_size td + 12 * page < modulus (wsz a) ->
  exists g L, default_guard_size ck a page = Some g /\
    create_layout ck a td tls page (default_stack_size startup) g = Some L /\
    l_stack_bottom L = 4 * page /\ 0x20000 <= l_stack_top L - l_stack_bottom L.
Proof.
  intros ck a td tls page startup W S F.
  destruct (C55_default_guard ck a page (wf_env_page _ _ _ _ W)) as (E & Lt & Md).
  pose proof (wf_page_bounds _ (wf_env_page _ _ _ _ W)) as [B _].
  pose proof (wf_td_pos _ _ (wf_env_td _ _ _ _ W)). pose proof (wf_tls_file _ _ (wf_env_tls _ _ _ _ W)).
  assert (Us : usize a (default_stack_size startup)) by (unfold usize, default_stack_size; lia).
  assert (Ug : usize a (4 * page)) by (unfold usize; lia).
  assert (Ft : fits a td tls page (default_stack_size startup) (4 * page)) by (unfold fits, default_stack_size; lia).
  destruct (thread_layout_exists ck a td tls page _ _ W Us Ug Ft) as [L HL].
  exists (4 * page), L. split; [exact E|]. split; [exact HL|].
  pose proof (thread_layout_good ck a td tls page _ _ _ W Us Ug (or_intror Ft) HL) as [].
  split; [|unfold default_stack_size in *; lia].
  rewrite (layout_ideal a td tls page W _ _ Us Ug ck L (or_intror Ft) HL) in *.
  destruct (LayoutTop.ideal_top a td tls page (default_stack_size startup) (4 * page)) as [-> _].
  apply align_to_id; [lia|]. apply Z.mod_divide; [lia|exact Md].
Qed.
Example C55_ex : default_guard_size true X86_64 4096 = Some 16384 /\ default_stack_size 0 = 0x20000 /\ default_stack_size 0x800000 = 0x800000.
Proof. repeat split. Qed.

(** * What a thread's own view of itself depends on *)
Lemma bstep_handle e b acc l b' j : bstep e b acc l b' -> (j < bn b)%nat ->
  i_t (bI b' j) = i_t (bI b j) /\ i_tp (bI b' j) = i_tp (bI b j) /\ (bn b <= bn b')%nat.
Proof.
  intros St Hj. destruct St; cbn; auto; try (rewrite ?fu_other by lia; auto);
    try (destruct (boverlaps _ _); cbn; auto);
    unfold fupd; try (destruct (Nat.eqb_spec j i); cbn; subst; auto).
  all: destruct (Nat.eqb_spec j (bn b)); [lia|auto].
Qed.
Lemma bexec_handle e b tr b' j : bexec e b tr b' -> (j < bn b)%nat ->
  i_t (bI b' j) = i_t (bI b j) /\ i_tp (bI b' j) = i_tp (bI b j) /\ (bn b <= bn b')%nat.
Proof.
  intros H Hj. induction H as [|b tr b1 acc l b2 H IH St]; [auto|].
  destruct (IH Hj) as (A & B & C). destruct (bstep_handle _ _ _ _ _ j St) as (A' & B' & C'); [lia|]. repeat split; congruence || lia.
Qed.
Lemma brun_app e tr b tr2 b2 : brun e tr b -> bexec e b tr2 b2 -> brun e (tr ++ tr2) b2.
Proof.
  intros (b0 & S & H) H2. exists b0. split; [exact S|]. induction H2 as [|b tr2 b1 acc l b2 H2 IH St]; [rewrite app_nil_r; auto|].
  rewrite app_assoc. econstructor; eauto.
Qed.

(** ** current() *)
(** From the moment a thread exists, current() evaluated on it gives one and
    the same handle, different from every other mapped thread's, whatever the
    threads do. *)
Theorem C56_current_constant_partial : forall e tr b tr2 b2 j, good_env e -> brun e tr b -> bexec e b tr2 b2 ->
  bmapped b j -> bmapped b2 j ->
  own e b2 j = own e b j /\ own e b j = i_t (bI b j) /\
  (forall k, bmapped b2 k -> k <> j -> own e b2 k <> own e b2 j).
Proof.
  intros e tr b tr2 b2 j G Rn Ex M1 M2. pose proof (brun_app _ _ _ _ _ Rn Ex) as Rn2.
  destruct (C56_record_partial e tr b j G Rn M1) as [C1 _]. destruct (C56_record_partial e _ b2 j G Rn2 M2) as [C2 _].
  destruct (bexec_handle _ _ _ _ j Ex (proj1 M1)) as (A & _ & _). unfold own.
  split; [congruence|]. split; [exact C1|]. intros k Mk D.
  destruct (C56_record_partial e _ b2 k G Rn2 Mk) as [C3 _]. rewrite C3, C2.
  destruct (C56_distinct_partial e _ b2 k j G Rn2 Mk M2 D) as [Ap [P1 P2]].
  destruct (C56_distinct_partial e _ b2 j k G Rn2 M2 Mk ltac:(auto)) as [_ [Q1 Q2]].
  pose proof (wf_td_pos _ _ (wf_env_td _ _ _ _ (proj1 G))). unfold apart in Ap. lia.
Qed.

(** * C57 set_current_id_after_a_fork *)
(** A thread i of any reachable process state forks; the child is a copy of the
    memory with a new tid.  The call stores exactly the id: afterwards
    current_id() and id(current()) are [tid], current() and stack() are as
    before, and every other byte of memory is unchanged.  No assertion fires
    provided the child's tid differs from the parent's. *)
Theorem C57_after_fork_partial : forall e ck tr b i tid, good_env e -> brun e tr b -> bmapped b i -> ~ bfinished b i ->
  0 < tid < 2 ^ 31 -> tid <> t_tid (bT b i) ->
  exists m', set_current_id_after_a_fork ck (be_arch e) (be_td e) (bmem b) (i_tp (bI b i)) tid tid = Some m' /\
    current (be_arch e) (be_td e) m' (i_tp (bI b i)) = i_t (bI b i) /\
    id_of (be_td e) m' (i_t (bI b i)) = tid /\
    stack_of (be_arch e) (be_td e) m' (i_t (bI b i)) = stack_of (be_arch e) (be_td e) (bmem b) (i_t (bI b i)) /\
    (forall x, ~ inside (i_t (bI b i) + o_tid (be_td e)) 4 x -> m' x = bmem b x).
Proof.
  intros e ck tr b i tid G Rn M NF Ht Ne. pose proof (page_pos e G) as Hp. pose proof G as [W Hr].
  destruct (C56_record_partial e tr b i G Rn M) as (C & ID & _). destruct (ID NF) as [E _].
  destruct (brun_sim e W Hr _ _ Rn) as (s & Rs & Rl). destruct M as [L Mm].
  destruct (rl_place _ _ _ Rl i) as [Pl _]; [rewrite (rl_n _ _ _ Rl); exact L|].
  unfold set_current_id_after_a_fork. rewrite C, E. rewrite (proj2 (Z.eqb_neq (t_tid (bT b i)) tid)) by congruence. rewrite Z.eqb_refl.
  cbn [negb]. rewrite !andb_false_r. eexists. split; [reflexivity|].
  pose proof (in_fields e (o_tid (be_td e)) 4 ltac:(cbn; tauto)) as F0.
  split; [|split; [|split]].
  - rewrite (store_cur e W _ _ _ _ _ Pl F0). exact C.
  - unfold id_of. rewrite load_store_same. apply Z.mod_small. cbn. lia.
  - unfold stack_of. pose proof (offs_ne e W) as N.
    repeat match goal with H : NoDup (_ :: _) |- _ => inversion H; clear H; subst end. cbn [In] in *.
    rewrite !(store_own e W) by first [exact Pl|exact F0|apply in_fields; cbn; tauto|intros X; inversion X; intuition congruence].
    reflexivity.
  - intros x Hx. apply store_apart. exact Hx.
Qed.

(** Refuted in full: a child in a new PID namespace can have the same tid
    number as its parent thread; the (debug) assertion then fails although the
    documented contract, `tid` = gettid(), is met. *)
Theorem C57_same_tid_refuted : exists tr b i tid, good_env ex_e /\ brun ex_e tr b /\ bmapped b i /\ ~ bfinished b i /\
  0 < tid < 2 ^ 31 /\
  set_current_id_after_a_fork true (be_arch ex_e) (be_td ex_e) (bmem b) (i_tp (bI b i)) tid tid = None.
Proof.
  exists [], ex_b0, 0%nat, 42. split; [apply ex_env|]. split; [exists ex_b0; split; [apply ex_start|constructor]|].
  split; [split; [cbn; lia|reflexivity]|]. split; [intros [X|[? X]]; discriminate X|]. split; [lia|]. vm_compute. reflexivity.
Qed.
Theorem C57_ex : exists tr b i, good_env ex_e /\ brun ex_e tr b /\ bmapped b i /\ ~ bfinished b i /\ 4242 <> t_tid (bT b i) /\
  (exists m', set_current_id_after_a_fork true (be_arch ex_e) (be_td ex_e) (bmem b) (i_tp (bI b i)) 4242 4242 = Some m' /\
     id_of (be_td ex_e) m' (i_t (bI b i)) = 4242).
Proof.
  exists [], ex_b0, 0%nat. split; [apply ex_env|]. split; [exists ex_b0; split; [apply ex_start|constructor]|].
  split; [split; [cbn; lia|reflexivity]|]. split; [intros [X|[? X]]; discriminate X|]. split; [discriminate|].
  unfold set_current_id_after_a_fork.
  assert (E : id_of (be_td ex_e) (bmem ex_b0) (current (be_arch ex_e) (be_td ex_e) (bmem ex_b0) (i_tp (bI ex_b0 0%nat))) =? 4242 = false) by (vm_compute; reflexivity).
  rewrite E. eexists. split; [reflexivity|]. vm_compute. reflexivity.
Qed.

(** * C58 errno_location *)
(** The crate's own stores between steps: one field of one mapped record, or
    the inside of the new thread's mapping. *)
Lemma bstep_stores e tr b acc l b' : good_env e -> brun e tr b -> bstep e b acc (Some l) b' ->
  bmem b' = bmem b \/
  (exists j o n v, bmapped b j /\ In (o, Z.of_nat n) (td_fields (be_arch e) (be_td e)) /\
     bmem b' = store_le (bmem b) (i_t (bI b j) + o) n v) \/
  (exists map len, (forall k, bmapped b k -> apart map len (i_base (bI b k)) (i_len (bI b k))) /\
     forall x, ~ inside map len x -> bmem b' x = bmem b x).
Proof.
  intros G Rn St. pose proof (page_pos e G) as Hp. destruct G as [W Hr].
  destruct (brun_sim e W Hr _ _ Rn) as (s & Rs & Rl). pose proof (run_inv _ _ _ Hp Hr Rs) as Iv.
  assert (MP : forall j, (j < n s)%nat -> r_mapped (R s j) = true -> bmapped b j).
  { intros j L M. destruct (rl_geo _ _ _ Rl j) as (_ & _ & E). split; [rewrite <- (rl_n _ _ _ Rl); exact L|congruence]. }
  assert (OWN : forall i, P s i <> Dead -> gone (P s i) = false -> sfreed (P s i) && self (T s i) = false ->
     bmapped b i /\ own e b i = i_t (bI b i)).
  { intros i D Gn Sf. destruct (own_m e s i Iv D Gn Sf) as [L M]. split; [apply MP; auto|].
    apply (own_of e b s i Rl L M). }
  inversion St; subst; try (left; reflexivity); right.
  - (* create *) right.
    assert (SC : successful_create (be_ck e) (be_arch e) (be_td e) (be_tls e) (c_page (be_cfg e)) (bmem b) (i_tp (bI b i)) ans fn args s0 g t log m')
        by (constructor; auto).
    match goal with Hm : In (SMmap _ _) log |- _ => rename Hm into HM end.
    destruct (sc_created _ _ _ _ _ _ _ _ _ _ _ _ _ _ _ SC) as (map' & sp' & C).
    pose proof (sc_good _ _ _ _ _ _ _ _ _ _ _ _ _ _ _ SC) as Gd.
    destruct C. rewrite cr_log in HM. destruct HM as [E|[E|[E|[]]]]; inversion E; subst map' len. clear E.
    set (L := ideal (be_arch e) (be_td e) (be_tls e) (c_page (be_cfg e)) s0 g) in *.
    exists map, (page_ceil (c_page (be_cfg e)) (l_map_size L)). split; [intros k [Lk Mk]; auto|].
    destruct Gd as [G1 G2 G3 G4 G5 G6 G7 G8 G9 G10].
    pose proof (sc_guard _ _ _ _ _ _ _ _ _ _ _ _ _ _ _ SC) as Ug. pose proof (sc_stack _ _ _ _ _ _ _ _ _ _ _ _ _ _ _ SC) as Us.
    pose proof (wf_tls_file _ _ (wf_env_tls _ _ _ _ W)) as F.
    assert (l_map_size L <= page_ceil (c_page (be_cfg e)) (l_map_size L)) by (rewrite page_ceil_align; apply align_to_bounds; lia).
    pose proof (meta_size_bounds _ _ (wf_env_td _ _ _ _ W)) as MS.
    intros x Hx. unfold usize, inside in *. apply cr_frame; unfold inside; lia.
  - (* swap *) left. match goal with X : t_pc (bT b i) = DSwap _ |- _ => rename X into HP end. rewrite <- (rl_T _ _ _ Rl) in HP.
    destruct (swap_m e s _ _ Iv HP) as [L M]. exists j, (o_detached (be_td e)), 1%nat, DETACHED. repeat split; [apply MP; auto..|cbn; tauto].
  - left. match goal with X : t_pc (bT b i) = DSwap _ |- _ => rename X into HP end. rewrite <- (rl_T _ _ _ Rl) in HP.
    destruct (swap_m e s _ _ Iv HP) as [L M]. exists j, (o_detached (be_td e)), 1%nat, DETACHED. repeat split; [apply MP; auto..|cbn; tauto].
  - left. match goal with X : t_pc (bT b i) = XCas _ |- _ => rename X into HP end. rewrite <- (rl_T _ _ _ Rl) in HP. destruct (OWN i) as [M E]; [rewrite HP; try reflexivity; discriminate..|].
    exists i, (o_detached (be_td e)), 1%nat, ABANDONED. rewrite <- E. repeat split; [apply M..|cbn; tauto].
  - left. match goal with X : t_pc (bT b i) = XStore _ |- _ => rename X into HP end. rewrite <- (rl_T _ _ _ Rl) in HP. destruct (OWN i) as [M E]; [rewrite HP; try reflexivity; discriminate..|].
    exists i, (o_retval (be_td e)), (word (be_arch e)), rv. rewrite <- E. repeat split; [apply M..|rewrite wsz_word; cbn; tauto].
  - left. match goal with X : t_pc (bT b i) = KClear |- _ => rename X into HP end. rewrite <- (rl_T _ _ _ Rl) in HP.
    assert (Cl : t_clear (T s i) = true) by (rewrite (rl_T _ _ _ Rl); auto).
    destruct (own_m e s i Iv) as [L M]; [rewrite HP; discriminate|rewrite HP; reflexivity|rewrite HP; unfold self; rewrite HP, Cl; reflexivity|].
    destruct (rl_place _ _ _ Rl i L) as [Pl _]. rewrite (pl_ctid _ _ Pl).
    exists i, (o_tid (be_td e)), 4%nat, 0. repeat split; [apply MP; auto..|cbn; tauto].
Qed.

(** It is an int inside the calling thread's own record, the same for the
    whole life of the thread; it overlaps no field the crate uses and no
    other thread's errno or record. *)
Theorem C58_errno_partial : forall e o tr b tr2 b2 j, good_env e -> o_errno (be_td e) = Some o ->
  brun e tr b -> bexec e b tr2 b2 -> bmapped b j -> bmapped b2 j ->
  let loc b k := errno_location (be_arch e) (be_td e) o (bmem b) (i_tp (bI b k)) in
  loc b2 j = loc b j /\
  in_mapping b (loc b j, 4) /\
  (forall f, In f (td_fields (be_arch e) (be_td e)) -> apart (loc b j) 4 (i_t (bI b j) + fst f) (snd f)) /\
  (forall k, bmapped b2 k -> k <> j -> apart (loc b2 j) 4 (i_t (bI b2 k)) (td_size (be_td e)) /\ apart (loc b2 j) 4 (loc b2 k) 4).
Proof.
  intros e o tr b tr2 b2 j G Oe Rn Ex M1 M2 loc. pose proof (brun_app _ _ _ _ _ Rn Ex) as Rn2.
  destruct (wf_td_errno _ _ (wf_env_td _ _ _ _ (proj1 G)) _ Oe) as (O1 & O2 & O3). rewrite Forall_forall in O3.
  assert (LOC : forall b k, loc b k = own e b k + o) by reflexivity.
  destruct (C56_current_constant_partial e tr b tr2 b2 j G Rn Ex M1 M2) as (C1 & C2 & _).
  destruct (C56_current_constant_partial e tr b [] b j G Rn (bexec_nil _ _) M1 M1) as (_ & _ & _).
  rewrite !LOC, C1, C2. split; [reflexivity|].
  assert (IN : forall tr b k, brun e tr b -> bmapped b k -> i_base (bI b k) <= i_t (bI b k) /\ i_t (bI b k) + td_size (be_td e) <= i_base (bI b k) + i_len (bI b k)).
  { intros tr' b' k R' [Lk _]. destruct G as [W Hr]. destruct (brun_sim e W Hr _ _ R') as (s & Rs & Rl).
    destruct (rl_place _ _ _ Rl k) as [[P1 P2 _ _] _]; [rewrite (rl_n _ _ _ Rl); exact Lk|]. auto. }
  split; [|split].
  - exists j. split; [exact M1|]. cbn [fst snd]. pose proof (IN _ _ _ Rn M1). lia.
  - intros f Hf. specialize (O3 f Hf). unfold apart in *. lia.
  - intros k Mk D. destruct (bexec_handle _ _ _ _ j Ex (proj1 M1)) as (A & _ & _). rewrite <- A.
    destruct (C56_distinct_partial e _ b2 j k G Rn2 M2 Mk ltac:(auto)) as [Ap [P1 P2]].
    pose proof (IN _ _ _ Rn2 Mk).
    destruct (C56_record_partial e _ b2 k G Rn2 Mk) as [Ck _]. unfold loc, errno_location. 
    change (thread_at (be_arch e) (be_td e) (current_metadata (be_arch e) (be_td e) (bmem b2) (i_tp (bI b2 k)))) with (current (be_arch e) (be_td e) (bmem b2) (i_tp (bI b2 k))).
    rewrite Ck. unfold apart in *. lia.
Qed.

(** It is 0 when a thread starts: the main thread's at process start, and a new
    thread's when create returns. *)
Lemma errno_in_flds a td h canary sb s g ms o : o_errno td = Some o -> In (thread_at a td h + o, 4%nat, 0) (flds a td h canary sb s g ms).
Proof. intros E. unfold flds. apply in_or_app. right. unfold thread_flds. apply in_or_app. right. rewrite E. left. reflexivity. Qed.
Lemma errno_not_tid a td o : wf_td a td -> o_errno td = Some o -> o <> o_tid td.
Proof. intros Wt E X. destruct (wf_td_errno _ _ Wt _ E) as (_ & _ & A). rewrite Forall_forall in A. specialize (A (o_tid td, 4) ltac:(cbn; tauto)). unfold apart in A. cbn in A. lia. Qed.

Theorem C58_initial_main : forall e o b, good_env e -> o_errno (be_td e) = Some o -> bstarts e b ->
  load_le (bmem b) (errno_location (be_arch e) (be_td e) o (bmem b) (i_tp (bI b 0%nat))) 4 = 0.
Proof.
  intros e o b G Oe S. pose proof (errno_not_tid _ _ _ (wf_env_td _ _ _ _ (proj1 G)) Oe) as NT.
  assert (M : bmapped b 0%nat) by (destruct S as (? & ? & ? & ? & ? & ? & ? & ? & ? & ? & _ & _ & _ & ->); split; [cbn; lia|reflexivity]).
  destruct (C56_record_partial e [] b 0%nat G) as [C _]; [exists b; split; [exact S|constructor]|exact M|].
  unfold errno_location, current in *. rewrite C. clear M C.
  destruct S as (m0 & sp & ee & rl & random & ans & tid & Rr & len & map & SM & _ & _ & ->). cbn [bI bmem i_t].
  destruct SM as [E C M Gd Tm]. destruct (main_ok _ _ _ _ E _ _ _ _ _ _ _ _ _ C M Gd Tm) as (new & k & tb & h & X). destruct X.
  destruct mn_fields as (sb & lim & _ & _ & FL).
  rewrite (FL (mr_thread Rr + o) 4%nat 0); [reflexivity|rewrite mn_thread; apply errno_in_flds; exact Oe|lia].
Qed.

Theorem C58_initial_partial : forall e o tr b acc i acc' j b', good_env e -> o_errno (be_td e) = Some o -> brun e tr b ->
  bstep e b acc (Some (i, acc', ECreate j)) b' ->
  load_le (bmem b') (errno_location (be_arch e) (be_td e) o (bmem b') (i_tp (bI b' j))) 4 = 0.
Proof.
  intros e o tr b acc i acc' j b' G Oe Rn St. pose proof (errno_not_tid _ _ _ (wf_env_td _ _ _ _ (proj1 G)) Oe) as NT.
  assert (Rn' : brun e (tr ++ [(i, acc', ECreate j)]) b') by (destruct Rn as (b0 & S0 & Ex); exists b0; split; [exact S0|exact (bexec_snoc e b0 tr b acc _ b' Ex St)]).
  assert (M : bmapped b' j) by (inversion St; subst; split; cbn; [lia|rewrite fu_same; reflexivity]).
  destruct (C56_record_partial e _ b' j G Rn' M) as [C _]. unfold errno_location, current in *. rewrite C. clear M C Rn'.
  inversion St; subst. cbn [bI bmem]. rewrite fu_same. cbn [i_t].
  assert (SC : successful_create (be_ck e) (be_arch e) (be_td e) (be_tls e) (c_page (be_cfg e)) (bmem b) (i_tp (bI b i)) ans fn args s g t log m')
    by (constructor; auto; apply G).
  destruct (sc_created _ _ _ _ _ _ _ _ _ _ _ _ _ _ _ SC) as (map' & sp' & C). destruct C.
  rewrite (cr_fields (t + o) 4%nat 0); [reflexivity|rewrite cr_thread; apply errno_in_flds; exact Oe|lia].
Qed.

(** And the crate never changes it: of all steps only user code's own writes
    can change a mapped thread's errno. *)
Theorem C58_kept_partial : forall e o tr b acc l b' j, good_env e -> o_errno (be_td e) = Some o -> brun e tr b ->
  bstep e b acc (Some l) b' -> bmapped b j ->
  let loc := errno_location (be_arch e) (be_td e) o (bmem b) (i_tp (bI b j)) in
  load_le (bmem b') loc 4 = load_le (bmem b) loc 4.
Proof.
  intros e o tr b acc l b' j G Oe Rn St M loc.
  destruct (wf_td_errno _ _ (wf_env_td _ _ _ _ (proj1 G)) _ Oe) as (O1 & O2 & O3). rewrite Forall_forall in O3.
  destruct (C56_record_partial e _ b j G Rn M) as [C _].
  assert (EL : loc = i_t (bI b j) + o) by (unfold loc, errno_location, current in *; rewrite C; reflexivity). rewrite EL.
  assert (PL : i_base (bI b j) <= i_t (bI b j) /\ i_t (bI b j) + td_size (be_td e) <= i_base (bI b j) + i_len (bI b j)).
  { destruct G as [W Hr]. destruct (brun_sim e W Hr _ _ Rn) as (s & Rs & Rl). destruct M as [Lj _].
    destruct (rl_place _ _ _ Rl j) as [[P1 P2 _ _] _]; [rewrite (rl_n _ _ _ Rl); exact Lj|]. auto. }
  destruct (bstep_stores e tr b acc l b' G Rn St) as [E|[(k & f & n & v & Mk & Hf & E)|(map & len & Ap & E)]].
  - rewrite E. reflexivity.
  - rewrite E. apply load_store_apart. destruct (Nat.eq_dec k j) as [->|D].
    + specialize (O3 _ Hf). unfold apart in *. cbn [fst snd] in *. lia.
    + destruct (C56_distinct_partial e _ b k j G Rn Mk M D) as [A [B1 B2]].
      pose proof (field_in e (proj1 G) _ _ Hf). unfold apart in *. lia.
  - specialize (Ap _ M). unfold apart in Ap. apply load_le_ext. intros x Hx. apply E. unfold inside. lia.
Qed.

(** a record layout with errno at offset 48 *)
Definition td_errno : td_layout := TD 56 8 0 4 8 16 24 32 40 (Some 48).
Definition e_errno : benv := BEnv true X86_64 td_errno tls_ex (Cfg 4096 true true true false).
Example C58_ex : good_env e_errno /\ o_errno (be_td e_errno) = Some 48.
Proof.
  split; [|reflexivity]. split; [|reflexivity]. destruct env_ex as [W1 W2 W3]. constructor; auto.
  constructor; cbn; try lia; try (exists 7; lia); try (repeat constructor; cbn; unfold apart; cbn; lia).
  intros o E. inversion E; subst. split; [lia|]. split; [lia|]. repeat constructor; unfold apart; cbn; lia.
Qed.

(** The main thread creates thread 1, which sets its errno to 11. *)
Definition er_main : main_res :=
  match initialize_main true X86_64 td_errno tls_ex 4096 mem0 0x7ff000 0x7fffe8 (Some 0x10000) 0x7ff800 (Some 0x900000) 42 with
  | Some r => r | None => MainRes mem0 0 0 0 [] end.
Definition er_b0 : bst :=
  BSt 1 (fun i => match i with O => Task Run 42 true false None | _ => Task Dead 1 true false None end)
    (fun i => match i with
       | O => Inst (mr_thread er_main) (mr_tp er_main) (mr_thread er_main + o_tid td_errno) 0x900000 128 true (0, 0) 4096
       | _ => Inst 0 0 0 0 0 false (0, 0) 0 end)
    (fun _ => None) (mr_mem er_main).
Lemma er_start : bstarts e_errno er_b0.
Proof.
  destruct (initialize_main true X86_64 td_errno tls_ex 4096 mem0 0x7ff000 0x7fffe8 (Some 0x10000) 0x7ff800 (Some 0x900000) 42) as [R|] eqn:E.
  2: { exfalso. pose proof (f_equal (fun o => match o with Some _ => true | None => false end) E) as H. vm_compute in H. discriminate. }
  assert (ER : er_main = R) by (unfold er_main; rewrite E; reflexivity).
  assert (EL : mr_log R = [SMmapRW 128 (Some 0x900000)]).
  { rewrite <- ER. vm_compute. reflexivity. }
  exists mem0, 0x7ff000, 0x7fffe8, (Some 0x10000), 0x7ff800, (Some 0x900000), 42, R, 128, 0x900000.
  split; [|split; [lia|split; [rewrite EL; left; reflexivity|unfold er_b0; rewrite ER; reflexivity]]].
  constructor; [apply C58_ex|left; reflexivity|exact E| |].
  - intros len map [H|H]; rewrite EL in H; cbn [In] in H; repeat destruct H as [H|H]; try discriminate; try contradiction.
    inversion H; subst. repeat split; try lia. exists 0x900; reflexivity. vm_compute. discriminate.
  - intros len map [H|H]; rewrite EL in H; cbn [In] in H; repeat destruct H as [H|H]; try discriminate; try contradiction.
    inversion H; subst. left. vm_compute. discriminate.
Qed.
Definition er_create := create true X86_64 td_errno tls_ex 4096 (bmem er_b0) (i_tp (bI er_b0 0%nat)) ex_ans 0x4000 [11; 22; 33] 100000 8192.
Definition er_t : Z := match fst (fst er_create) with COk t => t | _ => 0 end.
Definition er_tp : Z := match snd (fst er_create) with [_; _; SClone _ _ _ tp _ _ _] => tp | _ => 0 end.
Definition er_b1 : bst :=
  BSt 2 (fupd (bT er_b0) 1 (Task Run 77 true false None))
    (fupd (bI er_b0) 1 (Inst er_t er_tp (er_t + 0) 0x700000 108320 true (0, 0) 8192))
    (fupd (bclaim er_b0) 1 None) (snd er_create).
Lemma er_step1 : bstep e_errno er_b0 [] (Some (0%nat, [0%nat], ECreate 1)) er_b1.
Proof.
  assert (EL : snd (fst er_create) = [SMmap 108320 (Some 0x700000); SMprotectRW (0x700000 + 8192) (108320 - 8192) true;
      SClone (0x700000 + 108192 - 32) (er_t + 0) (er_t + 0) er_tp 0x4000 3 77]) by (vm_compute; reflexivity).
  apply (b_create e_errno er_b0 0 ex_ans 0x4000 [11; 22; 33] 100000 8192 er_t (snd (fst er_create)) (snd er_create)
    (0x700000 + 108192 - 32) (er_t + 0) (er_t + 0) er_tp 3 77 108320 0x700000).
  - cbn. lia.
  - reflexivity.
  - unfold usize. cbn. lia.
  - unfold usize. cbn. lia.
  - left. reflexivity.
  - cbn. lia.
  - change (er_create = (COk er_t, snd (fst er_create), snd er_create)).
    assert (ET : fst (fst er_create) = COk er_t) by (vm_compute; reflexivity). rewrite <- ET.
    rewrite <- surjective_pairing. rewrite <- surjective_pairing. reflexivity.
  - rewrite EL. intros len map [H|H]; cbn [In] in H; repeat destruct H as [H|H]; try discriminate; try contradiction.
    inversion H; subst. repeat split; try lia. exists 0x700; reflexivity. vm_compute. discriminate.
  - rewrite EL. intros len map [H|H]; cbn [In] in H; repeat destruct H as [H|H]; try discriminate; try contradiction.
    inversion H; subst. left. vm_compute. discriminate.
  - rewrite EL. left. reflexivity.
  - rewrite EL. right. right. left. reflexivity.
  - lia.
  - intros k Hk _. cbn in Hk. destruct k; [cbn; lia|lia].
  - intros k Hk _. cbn in Hk. destruct k; [|lia]. left. vm_compute. discriminate.
  - intros _ k ad Hk. cbn in Hk. destruct k; [discriminate|lia].
Qed.
Definition er_loc (b : bst) (j : nat) : Z := errno_location X86_64 td_errno 48 (bmem b) (i_tp (bI b j)).
Definition er_b2 : bst := bset_mem er_b1 (store_le (bmem er_b1) (er_t + 48) 4 11).
Lemma er_step2 : bstep e_errno er_b1 [] None er_b2.
Proof.
  apply b_write. intros j Hj _.
  assert (K : forall x n, (x + n <= er_t + 48 \/ er_t + 52 <= x) -> agree (bmem er_b1) (store_le (bmem er_b1) (er_t + 48) 4 11) x n).
  { intros x n Hx y Hy. apply store_apart. unfold inside. lia. }
  assert (ET : er_t = 0x700000 + 108264) by (vm_compute; reflexivity).
  assert (EM : i_t (bI er_b1 0%nat) = 0x900000 + 72 /\ i_tp (bI er_b1 0%nat) = 0x900000 + 24 /\ i_tp (bI er_b1 1%nat) = 0x700000 + 108216) by (repeat split; vm_compute; reflexivity).
  assert (E1 : i_t (bI er_b1 1%nat) = er_t) by reflexivity.
  destruct EM as (M1 & M2 & M3). change (bn er_b1) with 2%nat in Hj.
  split.
  - intros [o k] Hin. apply K. cbn [fst snd].
    assert (B : 0 <= o /\ o + k <= 48) by (cbn in Hin; repeat destruct Hin as [Hin|Hin]; try contradiction; inversion Hin; subst; lia).
    destruct j as [|[|]]; [rewrite M1|rewrite E1|]; lia.
  - intros _. apply K. change (wsz (be_arch e_errno)) with 8. destruct j as [|[|]]; [rewrite M2|rewrite M3|]; lia.
Qed.
Theorem C58_initial_ex : exists tr b, brun e_errno tr b /\ bmapped b 0 /\ bmapped b 1 /\
  load_le (bmem b) (er_loc b 0) 4 = 0 /\ load_le (bmem b) (er_loc b 1) 4 = 11 /\ er_loc b 0 <> er_loc b 1.
Proof.
  exists [(0%nat, [0%nat], ECreate 1)], er_b2. split; [|split; [|split; [|split; [|split]]]].
  - exists er_b0. split; [apply er_start|]. exact (bexec_snoc _ _ _ _ _ _ _ (bexec_snoc _ _ [] _ _ _ _ (bexec_nil _ _) er_step1) er_step2).
  - split; [cbn; lia|reflexivity].
  - split; [cbn; lia|reflexivity].
  - vm_compute. reflexivity.
  - vm_compute. reflexivity.
  - vm_compute. discriminate.
Qed.
