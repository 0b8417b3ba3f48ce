(** Per-property lemmas for thread memory. *)
From Coq Require Import ZifyBool ZifyNat.
From Verif Require Import Machine MachineFacts LayoutModel LayoutSpec LayoutFacts LayoutProofs LayoutTop.

(** ** The thread pointer *)
Lemma tp_val a td md : abi_at a td md ThreadPointee = md + meta_off a td FAbi + match a with X86_64 | X86 => 0 | Aarch64 => 8 | Arm => 4 | Riscv64 => 16 end.
Proof. unfold abi_at. f_equal. destruct a; reflexivity. Qed.
Lemma canary_at a td md : abi_at a td md Canary = canary_addr a (abi_at a td md ThreadPointee).
Proof. unfold canary_addr, abi_at. cbv [abi_off]. destruct a; cbn [c_offset abi_eqb abi_fields wsz align_to]; cbn; lia. Qed.
Lemma this_at a td md : tls_below a = true -> abi_at a td md This = abi_at a td md ThreadPointee.
Proof. intros H. unfold abi_at. f_equal. destruct a; try discriminate; reflexivity. Qed.


Section tp.
  Variables (a : arch) (td : td_layout).
  Hypothesis Htd : wf_td a td.
  Variables (m : mem) (md canary : Z).
  Hypothesis Hmd : 0 < md.
  Hypothesis Hend : md + meta_size a td <= modulus (wsz a).
  Let tp := abi_at a td md ThreadPointee.

  Lemma tp_range : md <= tp <= md + meta_size a td.
  Proof.
    pose proof (parts_in a td Htd md) as (_ & _ & P1 & P2 & _). unfold tp; rewrite tp_val.
    rewrite abi_size_val in *. destruct a; lia.
  Qed.

  Lemma tp_small : tls_below a = true -> tp < modulus (wsz a).
  Proof.
    intros. pose proof (parts_in a td Htd md) as (_ & _ & P1 & P2 & _). unfold tp; rewrite tp_val.
    rewrite abi_size_val in *. destruct a; try discriminate; lia.
  Qed.
  Hypothesis Hthis : tls_below a = true -> load_le m tp (word a) = tp mod modulus (wsz a).

  Lemma tp_read : thread_pointer a m tp = tp.
  Proof.
    unfold thread_pointer. destruct (tls_below a) eqn:E; [|reflexivity].
    rewrite Hthis by auto. apply Z.mod_small. pose proof tp_range. pose proof (tp_small E). lia.
  Qed.
  Lemma current_md : current_metadata a td m tp = md.
  Proof.
    unfold current_metadata. rewrite tp_read. unfold wrapping_sub.
    replace (tp - (meta_off a td FAbi + abi_off a ThreadPointee)) with md by (unfold tp, abi_at; lia).
    apply Z.mod_small. pose proof (meta_size_bounds a td Htd). pose proof (td_size_pos a td Htd). lia.
  Qed.
  Lemma current_val : current a td m tp = thread_at a td md.
  Proof. unfold current. rewrite current_md. reflexivity. Qed.
End tp.

Lemma flds_canary a td md canary sa ss gs ms :
  In (abi_at a td md Canary, word a, canary) (flds a td md canary sa ss gs ms).
Proof. apply in_or_app. left. left. reflexivity. Qed.
Lemma flds_dtv a td md canary sa ss gs ms :
  In (abi_at a td md Dtv, word a, 0) (flds a td md canary sa ss gs ms).
Proof. apply in_or_app. left. right. left. reflexivity. Qed.
Lemma flds_this a td md canary sa ss gs ms : tls_below a = true ->
  In (abi_at a td md This, word a, abi_at a td md ThreadPointee) (flds a td md canary sa ss gs ms).
Proof. intros H. apply in_or_app. left. right. right. rewrite H. left. reflexivity. Qed.

Lemma pow_word a : 2 ^ (8 * Z.of_nat (word a)) = modulus (wsz a).
Proof. rewrite wsz_word. reflexivity. Qed.

(** abi words are not the tid word *)
Lemma abi_ne_tid a td (Htd : wf_td a td) md canary p n v :
  In (p, n, v) (abi_flds a td md canary) -> p <> thread_at a td md + o_tid td.
Proof.
  intros Hin. pose proof (proj1 (Forall_forall _ _) (abi_in a td Htd md canary) _ Hin) as A.
  pose proof (parts_in a td Htd md) as P.
  pose proof (thread_in a td Htd md 0 0 0 0) as T. apply Forall_cons_iff in T. destruct T as [T _].
  unfold f_addr, f_len, apart in *. cbn [fst snd] in *.
  assert (n = word a) by (unfold abi_flds in Hin; destruct (tls_below a); cbn in Hin;
    repeat destruct Hin as [Hin|Hin]; congruence || contradiction).
  assert (0 < Z.of_nat n) by (subst n; destruct a; cbn; lia).
  lia.
Qed.
Lemma td_ne_tid a td (Htd : wf_td a td) o : In o [o_stack_addr td; o_stack_size td; o_guard_size td; o_map_size td; o_retval td] ->
  o <> o_tid td.
Proof.
  intros Hin. pose proof (wf_td_apart _ _ Htd) as H. unfold td_fields in H.
  inversion H as [|f l H1 _]. subst.
  repeat (apply Forall_cons_iff in H1; destruct H1 as [? H1]). unfold apart in *. cbn [fst snd] in *.
  assert (0 < wsz a) by (destruct (wsz_cases a); lia).
  cbn in Hin. intuition lia.
Qed.

Section facts.
  Variables (a : arch) (td : td_layout) (tls : tls_info) (page : Z).
  Hypothesis Hwf : wf_env a td tls page.
  Let Htd := wf_env_td _ _ _ _ Hwf.

  (** ** main *)
  Section main.
    Variables (ck : bool) (m : mem) (sp execfn_end : Z) (rlim : option Z) (random : Z) (ans : option Z) (tid : Z) (R : main_res).
    Hypothesis Hck : checked_or_fits ck a td tls page 0 0.
    Hypothesis Hm : initialize_main ck a td tls page m sp execfn_end rlim random ans tid = Some R.
    Hypothesis Hmap : good_answer a page (mr_log R).
    Hypothesis Htmpl : template_apart page tls (mr_log R).

    Record main_created (new n tb h : Z) : Prop := {
      mn_calc : ideal_tls a td tls 0 = (n, tb, h);
      mn_log : mr_log R = [SMmapRW n (Some new)];
      mn_map : good_map a page n new;
      mn_tp : mr_tp R = abi_at a td (new + h) ThreadPointee;
      mn_thread : mr_thread R = thread_at a td (new + h);
      mn_guard : mr_guard R = load_le m random (word a);
      mn_tb : 0 <= tb /\ tb + tls_memsz tls <= n;
      mn_h : 0 <= h /\ h + meta_size a td <= n;
      mn_apart : apart tb (tls_memsz tls) h (meta_size a td);
      mn_al : (tls_align tls | tb);
      mn_fresh : fresh_tls tls m (mr_mem R) (new + tb);
      mn_frame : forall x, ~ inside (new + tb) (tls_memsz tls) x ->
          ~ inside (new + h) (meta_size a td) x -> mr_mem R x = m x;
      mn_fields : exists sb lim,
          round_up ck a execfn_end page = Some sb /\ rlim = Some lim /\
          forall p k v, In (p, k, v) (flds a td (new + h) (mr_guard R) (sb - lim)
              ((sb - lim - sp) mod modulus (wsz a)) page 0) ->
          p <> mr_thread R + o_tid td -> load_le (mr_mem R) p k = v mod 2 ^ (8 * Z.of_nat k);
      mn_tid : load_le (mr_mem R) (mr_thread R + o_tid td) 4 = tid mod 2 ^ 32 }.

    Lemma ideal_tls_good : forall n tb h, ideal_tls a td tls 0 = (n, tb, h) ->
      0 <= tb /\ tb + tls_memsz tls <= n /\ 0 <= h /\ h + meta_size a td <= n /\
      apart tb (tls_memsz tls) h (meta_size a td) /\ (tls_align tls | tb).
    Proof.
      intros n tb h E. unfold ideal_tls in E.
      destruct (al_facts a td tls page Hwf) as (A1 & A2 & A3 & A4).
      destruct (ma_facts a td tls page Hwf) as (M1 & M2 & M3 & M4).
      pose proof (meta_size_bounds a td Htd) as MS. pose proof (td_size_pos a td Htd) as TS.
      pose proof (wf_tls_file _ _ (wf_env_tls _ _ _ _ Hwf)) as F.
      set (ma := Z.max (tls_align tls) (meta_align a td)) in *.
      pose proof (align_to_bounds 0 ma). pose proof (align_to_bounds (tls_memsz tls) (tls_align tls)).
      pose proof (align_to_bounds (align_to 0 ma + meta_size a td) (tls_align tls)).
      assert (DT : (tls_align tls | align_to 0 ma)) by (eapply Z.divide_trans; [exact M3|apply align_to_div]).
      unfold apart. destruct (tls_below a); inversion E; subst; repeat split; auto; try lia; apply align_to_div.
    Qed.

    Lemma main_ok : exists new n tb h, main_created new n tb h.
    Proof.
      pose proof Hm as H. unfold initialize_main in H.
      destruct (round_up ck a execfn_end page) as [sb|] eqn:E1; [|discriminate]. cbn [bind] in H.
      destruct rlim as [lim|] eqn:E2; [|discriminate]. cbn [bind] in H.
      destruct (calculate_tls_size ck a td tls page 0) as [[[n tb] h]|] eqn:E3; [|discriminate]. cbn [bind] in H.
      destruct ans as [new|] eqn:E4; [|discriminate]. cbn [bind] in H.
      destruct (ck && negb (new mod Z.max (tls_align tls) (meta_align a td) =? 0)); [discriminate|].
      assert (EI : ideal_tls a td tls 0 = (n, tb, h)).
      { destruct Hck as [-> | Hfit].
        - apply (calc_ck a td tls page Hwf) in E3; [congruence|lia].
        - rewrite (calc_fits a td tls page Hwf) in E3; [congruence|lia|unfold fits in Hfit].
          pose proof (al_facts a td tls page Hwf) as (_ & _ & P & _). lia. }
      pose proof (ideal_tls_good _ _ _ EI) as (G1 & G2 & G3 & G4 & G5 & G6).
      pose proof (wf_tls_file _ _ (wf_env_tls _ _ _ _ Hwf)) as F.
      set (canary := load_le m random (word a)) in *.
      assert (ILOG : In (SMmapRW n (Some new)) (mr_log R)).
      { destruct (initialize_tls a td tls m (new + tb) (new + h) canary (sb - lim)
           ((sb - lim - sp) mod modulus (wsz a)) page 0) as [[[? ?] ?]|]; [|discriminate].
        inversion H. left. reflexivity. }
      pose proof (Hmap _ _ (or_intror ILOG)) as (GM1 & GM2 & GM3). pose proof (Htmpl _ _ (or_intror ILOG)) as TA.
      pose proof (al_facts a td tls page Hwf) as (A1 & A2 & A3 & A4).
      pose proof (align_to_bounds n page ltac:(lia)) as AB. rewrite page_ceil_align in *.
      pose proof (meta_size_bounds a td Htd) as MS. pose proof (td_size_pos a td Htd) as TS.
      destruct (init_tls_spec a td tls Htd F m (new + tb) (new + h) canary (sb - lim)
           ((sb - lim - sp) mod modulus (wsz a)) page 0) as (m1 & EQ & I1 & I2 & I3).
      { clear - G5. unfold apart in *. lia. }
      { unfold apart in *. clear - TA G3 G4 AB. lia. }
      rewrite EQ in H. cbn [bind] in H.
      assert (HR : R = MainRes (store_le m1 (thread_at a td (new + h) + o_tid td) 4 tid)
        (abi_at a td (new + h) ThreadPointee) canary (thread_at a td (new + h)) [SMmapRW n (Some new)]) by congruence.
      clear H. 
      assert (TIN : new + h <= thread_at a td (new + h) + o_tid td /\ thread_at a td (new + h) + o_tid td + 4 <= new + h + meta_size a td).
      { pose proof (thread_in a td Htd (new + h) 0 0 0 0) as TI.
        apply Forall_cons_iff in TI. destruct TI as [TI _]. unfold f_addr, f_len in TI. cbn [fst snd] in TI.
        pose proof (parts_in a td Htd (new + h)) as PI. lia. }
      exists new, n, tb, h. constructor; rewrite ?HR; cbn [mr_mem mr_tp mr_guard mr_thread mr_log]; auto.
      - destruct I1 as [J1 J2]. unfold apart in *. split; intros i Hi.
        + rewrite store_apart by (unfold inside; lia). auto.
        + rewrite store_apart by (unfold inside; lia). auto.
      - intros x X1 X2. rewrite store_apart by (unfold inside in *; lia). auto.
      - exists sb, lim. split; [auto|split; [auto|]]. intros p k v Hin Hp.
        rewrite <- (I3 p k v Hin).
        assert (AP : apart (thread_at a td (new + h) + o_tid td) 4 p (Z.of_nat k)).
        { pose proof (flds_apart a td Htd (new + h) canary (sb - lim) ((sb - lim - sp) mod modulus (wsz a)) page 0) as FA.
          assert (IT : In (thread_at a td (new + h) + o_tid td, 4%nat, 0) (flds a td (new + h) canary (sb - lim) ((sb - lim - sp) mod modulus (wsz a)) page 0)).
          { unfold flds. apply in_or_app. right. left. reflexivity. }
          pose proof (ForallOrdPairs_In FA _ _ IT Hin) as [E | [E | E]].
          - inversion E; congruence.
          - exact E.
          - apply apart_sym. exact E. }
        apply load_store_apart. exact AP.
      - rewrite load_store_same. reflexivity.
    Qed.
  End main.

  (** ** create writes only inside its mapping, whatever its outcome *)
  Lemma create_frame ck m tpreg ans fn args s g res log m' :
    usize a s -> usize a g -> checked_or_fits ck a td tls page s g ->
    Z.of_nat (length args) * wsz a <= s ->
    create ck a td tls page m tpreg ans fn args s g = (res, log, m') ->
    good_answer a page log -> template_apart page tls log ->
    (forall x, m' x = m x) \/
    exists len map, In (SMmap len (Some map)) log /\ 0 < len /\
      forall x, ~ inside map len x -> m' x = m x.
  Proof.
    intros Hs Hg Hck Hargs H Hmap Htmpl. pose proof H as H0. unfold create in H0.
    destruct (create_layout ck a td tls page s g) as [L0|] eqn:EL; [|left; intros; congruence].
    pose proof (layout_ideal a td tls page Hwf s g Hs Hg ck L0 Hck EL) as E. subst L0.
    set (L := ideal a td tls page s g) in *.
    destruct (ans_mmap ans) as [map|] eqn:EA; [|left; intros; congruence].
    destruct (ans_mprotect ans) eqn:EP; cbn [negb] in H0; [|left; intros; congruence].
    set (canary := load_le m (abi_at a td (current_metadata a td m tpreg) Canary) (word a)) in *.
    destruct (initialize_tls a td tls m (map + l_tls L) (map + l_header L) canary
                  (map + l_stack_bottom L) s g (l_map_size L)) as [[[m1 nt] tidp]|] eqn:EI; [|left; intros; congruence].
    assert (ET : tidp = thread_at a td (map + l_header L) + o_tid td).
    { unfold initialize_tls in EI. destruct (tls_filesz tls <=? tls_memsz tls); congruence. }
    (* the same call with a clone that succeeds *)
    set (ans0 := Answers (ans_mmap ans) true 0).
    set (sp := child_sp a (map + l_stack_top L) (Z.of_nat (length args))) in *.
    set (m2 := store_words m1 sp (word a) args) in *.
    set (log0 := [SMmap (l_map_size L) (Some map);
                  SMprotectRW (map + l_stack_bottom L) (l_map_size L - l_stack_bottom L) true;
                  SClone sp tidp tidp nt fn (Z.of_nat (length args)) 0]).
    assert (C0 : create ck a td tls page m tpreg ans0 fn args s g =
       (COk (thread_at a td (map + l_header L)), log0, store_le m2 tidp 4 0)).
    { unfold create. rewrite EL. unfold ans0. cbn [ans_mmap ans_mprotect ans_clone]. rewrite EA. cbn [negb].
      fold canary. rewrite EI. reflexivity. }
    assert (ILOG : In (SMmap (l_map_size L) (Some map)) log).
    { destruct (0 <=? ans_clone ans).
      - pose proof (f_equal (fun r => snd (fst r)) H0) as HL. cbn [fst snd] in HL. rewrite <- HL. left; reflexivity.
      - pose proof (f_equal (fun r => snd (fst r)) H0) as HL. cbn [fst snd] in HL. rewrite <- HL. left; reflexivity. }
    assert (GA : good_answer a page log0).
    { intros len b Hin. apply Hmap. cbn in Hin. left.
      destruct Hin as [[E|[E|[E|[]]]]|[E|[E|[E|[]]]]]; inversion E; subst; exact ILOG. }
    assert (TA : template_apart page tls log0).
    { intros len b Hin. apply Htmpl. cbn in Hin. left.
      destruct Hin as [[E|[E|[E|[]]]]|[E|[E|[E|[]]]]]; inversion E; subst; exact ILOG. }
    destruct (created_ok a td tls page Hwf ck m tpreg ans0 fn args s g _ _ _ Hs Hg Hck C0 GA TA Hargs) as (map0 & sp0 & C).
    assert (map0 = map). { pose proof (cr_ans _ _ _ _ _ _ _ _ _ _ _ _ _ _ _ _ _ C) as E. unfold ans0 in E. cbn in E. congruence. }
    subst map0. fold L in C.
    right. exists (l_map_size L), map. split; [exact ILOG|].
    pose proof (ideal_good a td tls page Hwf s g Hs Hg) as G. fold L in G. destruct G.
    pose proof (meta_size_bounds a td Htd) as MS. pose proof (td_size_pos a td Htd) as TS.
    pose proof (wf_tls_file _ _ (wf_env_tls _ _ _ _ Hwf)) as F.
    destruct C. fold L in cr_sp_lo, cr_sp_hi, cr_frame. unfold usize in *.
    assert (TIN : map + l_header L <= tidp /\ tidp + 4 <= map + l_header L + meta_size a td).
    { pose proof (thread_in a td Htd (map + l_header L) 0 0 0 0) as TI.
      apply Forall_cons_iff in TI. destruct TI as [TI _]. unfold f_addr, f_len in TI. cbn [fst snd] in TI.
      pose proof (parts_in a td Htd (map + l_header L)) as PI. subst tidp. lia. }
    split; [lia|].
    intros x Hx. assert (X0 : store_le m2 tidp 4 0 x = m x).
    { apply cr_frame; unfold inside in *; lia. }
    rewrite store_apart in X0 by (unfold inside in *; lia).
    destruct (0 <=? ans_clone ans).
    - pose proof (f_equal snd H0) as HM. cbn [fst snd] in HM. rewrite <- HM.
      rewrite store_apart by (unfold inside in *; lia). exact X0.
    - pose proof (f_equal snd H0) as HM. cbn [fst snd] in HM. rewrite <- HM. exact X0.
  Qed.
End facts.
