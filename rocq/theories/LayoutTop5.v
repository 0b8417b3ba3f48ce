(** TLS addressing, alignment, failures, main stack. *)
From Coq Require Import ZifyBool ZifyNat.
From Verif Require Import Machine MachineFacts LayoutModel LayoutSpec LayoutFacts LayoutProofs LayoutTop LayoutTop2 LayoutTop3 LayoutTop4.

Section tlsaddr.
  Variables (a : arch) (td : td_layout) (tls : tls_info) (page : Z).
  Hypothesis Hwf : wf_env a td tls page.
  Let Htd := wf_env_td _ _ _ _ Hwf.
  Let al := tls_align tls.

  (** [tb], [h]: offsets of block and record; [map]: a page-aligned base. *)
  Definition placed (tb h : Z) : Prop :=
    (Z.max al (meta_align a td) | if tls_below a then tb else h) /\
    if tls_below a then h = tb + align_to (tls_memsz tls) al
    else tb = align_to (h + meta_size a td) al.

  Lemma ideal_placed s g : placed (l_tls (ideal a td tls page s g)) (l_header (ideal a td tls page s g)).
  Proof. unfold placed, ideal. destruct (tls_below a); cbn; split; auto; apply align_to_div. Qed.
  Lemma ideal_tls_placed n tb h : ideal_tls a td tls 0 = (n, tb, h) -> placed tb h.
  Proof. unfold placed, ideal_tls. destruct (tls_below a); intros E; inversion E; subst; split; auto; apply align_to_div. Qed.

  Lemma abi_end : tls_below a = false -> meta_off a td FAbi + abi_size a = meta_size a td.
  Proof. intros H. rewrite off_abi_val, meta_size_val by auto. rewrite H. lia. Qed.
  Lemma tp_below map h : tls_below a = true -> abi_at a td (map + h) ThreadPointee = map + h.
  Proof. intros H. rewrite tp_val, off_abi_val by auto. rewrite H. destruct a; try discriminate; lia. Qed.
  Lemma tp_above map h : tls_below a = false ->
    abi_at a td (map + h) ThreadPointee + (abi_size a - abi_off a ThreadPointee) = map + h + meta_size a td.
  Proof. intros H. unfold abi_at. rewrite <- abi_end by auto. lia. Qed.

  Definition tls_cond : Prop :=
    if tls_below a then (al | tls_memsz tls) else (al | meta_size a td).

  Lemma al_pos : 0 < al.
  Proof. destruct (al_facts a td tls page Hwf) as (_ & H & _). unfold al. lia. Qed.
  Lemma al_ma : (al | Z.max al (meta_align a td)).
  Proof. apply (ma_facts a td tls page Hwf). Qed.
  Lemma al_page : (al | page).
  Proof. destruct (al_facts a td tls page Hwf) as (A & B & C & D). apply pow2_le_div; auto; lia. Qed.

  Lemma block_at tb h : tls_cond -> placed tb h ->
    if tls_below a then h - tls_memsz tls = tb else h + meta_size a td = tb.
  Proof.
    unfold tls_cond, placed. intros C [D P]. pose proof al_pos. destruct (tls_below a).
    - rewrite P, align_to_id by auto. lia.
    - rewrite P. symmetry. apply align_to_id; [auto|]. apply Z.divide_add_r; [|auto].
      eapply Z.divide_trans; [apply al_ma|exact D].
  Qed.

  Lemma cta tb h map i : tls_cond -> placed tb h ->
    0 <= map + tb -> map + tb + tls_memsz tls <= modulus (wsz a) -> 0 <= i < tls_memsz tls ->
    current_tls_addr a tls (abi_at a td (map + h) ThreadPointee) 1 (wrapping_sub (wsz a) i (abi_dtp_bias a)) = Some (map + tb + i).
  Proof.
    intros C P H1 H2 Hi. pose proof (block_at tb h C P) as BA. unfold current_tls_addr.
    change (negb (1 =? 1)) with false. cbv iota.
    assert (TO : TLS_OFFSET a = abi_dtp_bias a) by (destruct a; reflexivity).
    assert (MM : 0 < modulus (wsz a)) by (pose proof (modulus_big a); lia).
    unfold wrapping_add, wrapping_sub. destruct (tls_below a) eqn:TB.
    - rewrite tp_below by auto. f_equal. rewrite TO.
      rewrite Zplus_mod_idemp_l, Zplus_mod_idemp_r, (Zplus_comm _ (abi_dtp_bias a)), <- Zplus_assoc.
      rewrite <- (Zplus_mod_idemp_r (_ mod _ + _)), Zplus_mod_idemp_l.
      rewrite Zplus_mod_idemp_r.
      replace (abi_dtp_bias a + (map + h - tls_memsz tls + (i - abi_dtp_bias a))) with (map + tb + i) by lia.
      apply Z.mod_small. lia.
    - rewrite tp_above by auto. f_equal. rewrite TO.
      replace (map + h + meta_size a td) with (map + tb) by lia.
      rewrite Zplus_mod_idemp_l, Zplus_mod_idemp_r, (Zplus_comm _ (abi_dtp_bias a)), <- Zplus_assoc.
      rewrite <- (Zplus_mod_idemp_r (_ mod _ + _)), Zplus_mod_idemp_l.
      rewrite Zplus_mod_idemp_r.
      replace (abi_dtp_bias a + (map + tb + (i - abi_dtp_bias a))) with (map + tb + i) by lia.
      apply Z.mod_small. lia.
  Qed.

  Lemma le_addr tb h map i :
    match a with
    | X86_64 | X86 => True
    | Aarch64 => (al | meta_size a td) /\ al <= 16
    | Riscv64 => (al | meta_size a td)
    | Arm => False
    end -> placed tb h ->
    abi_tls_addr a tls (abi_at a td (map + h) ThreadPointee) i = map + tb + i.
  Proof.
    intros C P. pose proof al_pos. unfold abi_tls_addr. fold al. fold (align_to (tls_memsz tls) al).
    destruct (tls_below a) eqn:TB.
    - rewrite tp_below by auto. unfold placed in P. rewrite TB in P. destruct P as [_ P]. destruct a; try discriminate; lia.
    - pose proof (tp_above map h TB) as TA.
      assert (TC : tls_cond) by (unfold tls_cond; rewrite TB; destruct a; try discriminate; intuition).
      pose proof (block_at tb h TC P) as BA. rewrite TB in BA.
      destruct a; try discriminate; try contradiction.
      + change (abi_size Aarch64 - abi_off Aarch64 ThreadPointee) with 16 in TA.
        fold (align_to 16 al). rewrite align_to_id; [lia|auto|].
        destruct (al_facts _ _ _ _ Hwf) as (A1 & _). apply pow2_le_div; auto using p16. apply C.
      + change (abi_size Riscv64 - abi_off Riscv64 ThreadPointee) with 0 in TA. lia.
  Qed.

  Lemma le_addr_arm tb h map i : a = Arm -> (al | 8) -> placed tb h ->
    abi_tls_addr a tls (abi_at a td (map + h) ThreadPointee) i = map + tb + i - 4.
  Proof.
    intros EA D P. pose proof al_pos. unfold abi_tls_addr. fold al.
    assert (TB : tls_below a = false) by (rewrite EA; reflexivity).
    assert (MD : (8 | meta_size a td)).
    { rewrite meta_size_val by auto. rewrite TB, EA. apply Z.divide_add_r; [exists 2; reflexivity|apply align_to_div]. }
    assert (TC : tls_cond) by (unfold tls_cond; rewrite TB; eapply Z.divide_trans; eauto).
    pose proof (block_at tb h TC P) as BA. rewrite TB in BA.
    pose proof (tp_above map h TB) as TA.
    replace (abi_size a - abi_off a ThreadPointee) with 12 in TA by (rewrite EA; reflexivity).
    rewrite EA at 1. fold (align_to 8 al). rewrite align_to_id by auto. lia.
  Qed.

  Definition rec_cond : Prop :=
    tls_below a = false \/ (meta_align a td | al) \/ (meta_align a td | align_to (tls_memsz tls) al).
  Lemma rec_aligned tb h map : rec_cond -> placed tb h -> (page | map) -> (meta_align a td | map + h).
  Proof.
    intros C [D P] DM.
    destruct (ma_facts a td tls page Hwf) as (M1 & M2 & M3 & M4).
    destruct (al_facts a td tls page Hwf) as (A1 & A2 & A3 & A4).
    apply Z.divide_add_r.
    - eapply Z.divide_trans; [exact M4|]. eapply Z.divide_trans; [|exact DM]. apply pow2_le_div; auto. lia.
    - unfold rec_cond in C. destruct (tls_below a) eqn:TB.
      + destruct C as [C|C]; [discriminate|]. rewrite P. apply Z.divide_add_r; [eapply Z.divide_trans; eauto|].
        destruct C as [C|C]; [|exact C]. eapply Z.divide_trans; [exact C|apply align_to_div].
      + eapply Z.divide_trans; eauto.
  Qed.
End tlsaddr.

(** C21, C22, C47 for created threads and the main thread *)
Section both.
  Variables (ck : bool) (a : arch) (td : td_layout) (tls : tls_info) (page : Z).

  (** (tp, block, record) of a created thread / of the main thread *)
  Lemma created_placed m tpreg ans fn args s g t log m' sp p c tp f n r L len map :
    successful_create ck a td tls page m tpreg ans fn args s g t log m' ->
    In (SClone sp p c tp f n r) log -> In (SMmap len (Some map)) log ->
    create_layout ck a td tls page s g = Some L ->
    placed a td tls (l_tls L) (l_header L) /\ tp = abi_at a td (map + l_header L) ThreadPointee /\
    0 <= map + l_tls L /\ map + l_tls L + tls_memsz tls <= modulus (wsz a) /\ (page | map) /\
    thread_pointer a m' tp = tp.
  Proof.
    intros SC H1 H2 EL. pose proof (created_tp _ _ _ _ _ _ _ _ _ _ _ _ _ _ _ _ _ _ _ _ _ _ SC H1) as (_ & TP & _).
    destruct (sc_created _ _ _ _ _ _ _ _ _ _ _ _ _ _ _ SC) as (map' & sp' & C).
    pose proof (sc_bounds _ _ _ _ _ _ _ _ _ _ _ _ _ _ _ SC _ _ C) as B.
    pose proof (sc_good _ _ _ _ _ _ _ _ _ _ _ _ _ _ _ SC) as [].
    destruct C. assert (L = ideal a td tls page s g) by congruence. subst L.
    rewrite cr_log in H1, H2. destruct H2 as [E|[E|[E|[]]]]; inversion E; subst map' len.
    destruct H1 as [E'|[E'|[E'|[]]]]; inversion E'; subst.
    split; [apply ideal_placed|]. repeat split; try tauto; lia.
  Qed.

  Lemma main_placed m sp ee rl random ans tid R :
    successful_main ck a td tls page m sp ee rl random ans tid R ->
    exists new n tb h, mr_log R = [SMmapRW n (Some new)] /\ placed a td tls tb h /\
      mr_tp R = abi_at a td (new + h) ThreadPointee /\
      0 <= new + tb /\ new + tb + tls_memsz tls <= modulus (wsz a) /\ (page | new) /\
      thread_pointer a (mr_mem R) (mr_tp R) = mr_tp R /\ mr_thread R = thread_at a td (new + h) /\
      fresh_tls tls m (mr_mem R) (new + tb).
  Proof.
    intros SM. pose proof (main_tp _ _ _ _ _ _ _ _ _ _ _ _ _ SM) as (_ & TP & _). destruct SM as [E C M G T].
    destruct (main_ok a td tls page E ck m sp ee rl random ans tid R C M G T) as (new & n & tb & h & X).
    destruct X. destruct mn_map as (P1 & P2 & P3).
    pose proof (wf_page_bounds _ (wf_env_page _ _ _ _ E)) as [PB _].
    pose proof (align_to_bounds n page ltac:(lia)) as AB. rewrite page_ceil_align in *.
    exists new, n, tb, h. split; [auto|]. split; [apply (ideal_tls_placed _ _ _ n); auto|].
    repeat split; auto; try lia; apply mn_fresh.
  Qed.
End both.

(** C25 *)
Lemma failed_no_clone ck a td tls page m tpreg ans fn args s g log m' :
  create ck a td tls page m tpreg ans fn args s g = (CErr, log, m') ->
  forall sp p c tp f n r, In (SClone sp p c tp f n r) log -> r < 0.
Proof.
  unfold create. intros H.
  destruct (create_layout ck a td tls page s g) as [L|]; [|discriminate].
  destruct (ans_mmap ans) as [map|].
  - destruct (ans_mprotect ans); cbn [negb] in H.
    + destruct (initialize_tls _ _ _ _ _ _ _ _ _ _ _) as [[[m1 nt] tp]|]; [|discriminate].
      destruct (Z.leb_spec 0 (ans_clone ans)); [discriminate|].
      pose proof (f_equal (fun r => snd (fst r)) H) as HL. cbn [fst snd] in HL. rewrite <- HL.
      intros sp p c tp0 f n r [E|[E|[E|[]]]]; inversion E. subst. auto.
    + inversion H. intros sp p c tp f n r [E|[E|[]]]; inversion E.
  - inversion H. intros sp p c tp f n r [E|[]]; inversion E.
Qed.
Lemma mmap_failed ck a td tls page m tpreg ans fn args s g log m' p0 :
  ans_mmap ans = None -> create ck a td tls page m tpreg ans fn args s g = (CErr, log, m') ->
  (forall x, prot_after page p0 log x = p0 x) /\ (forall x, m' x = m x).
Proof.
  unfold create. intros Ha H. rewrite Ha in H.
  destruct (create_layout ck a td tls page s g) as [L|]; [|discriminate]. inversion H. split; reflexivity.
Qed.

(** C26 *)
Lemma main_stack ck a td tls page m sp ee lim random ans tid R :
  successful_main ck a td tls page m sp ee (Some lim) random ans tid R ->
  0 <= ee -> ee + page <= modulus (wsz a) -> 0 <= lim <= page_ceil page ee ->
  stack_of a td (mr_mem R) (mr_thread R) =
    (page_ceil page ee - lim, (page_ceil page ee - lim - sp) mod modulus (wsz a), page).
Proof.
  intros [E C M G T] H1 H2 H3.
  destruct (main_ok a td tls page E ck m sp ee (Some lim) random ans tid R C M G T) as (new & n & tb & h & X).
  pose proof (wf_env_td _ _ _ _ E) as Htd. destruct X.
  pose proof (wf_page_bounds _ (wf_env_page _ _ _ _ E)) as [PB PP].
  pose proof (align_to_bounds ee page ltac:(lia)) as AB. rewrite page_ceil_align in *.
  destruct mn_fields as (sb & lim' & F1 & F2 & FL). inversion F2; subst lim'. clear F2.
  rewrite round_up_fits in F1 by (auto; lia). inversion F1; subst sb.
  pose proof (modulus_big a) as MB.
  unfold stack_of.
  assert (W : forall o v, In (o, v) [(o_stack_addr td, align_to ee page - lim); (o_stack_size td, (align_to ee page - lim - sp) mod modulus (wsz a)); (o_guard_size td, page)] ->
     load_le (mr_mem R) (mr_thread R + o) (word a) = v mod modulus (wsz a)).
  { intros o v Hin. rewrite <- pow_word. apply FL.
    - unfold flds. apply in_or_app. right. rewrite <- mn_thread. unfold thread_flds.
      cbn in Hin. repeat destruct Hin as [Hin|Hin]; try contradiction; inversion Hin; subst; cbn; tauto.
    - intros EQ. eapply (td_ne_tid a td Htd) with (o := o); [|lia].
      cbn in Hin |- *. repeat destruct Hin as [Hin|Hin]; try contradiction; inversion Hin; subst; tauto. }
  rewrite (W _ (align_to ee page - lim)) by (cbn; tauto).
  rewrite (W _ ((align_to ee page - lim - sp) mod modulus (wsz a))) by (cbn; tauto).
  rewrite (W _ page) by (cbn; tauto).
  rewrite Zmod_mod.
  rewrite (Z.mod_small page) by lia. rewrite (Z.mod_small (align_to ee page - lim)) by lia. reflexivity.
Qed.
