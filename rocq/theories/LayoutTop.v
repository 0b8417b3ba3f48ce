(** The facts behind Props_Layout.v. *)
From Coq Require Import ZifyBool ZifyNat.
From Verif Require Import Machine MachineFacts LayoutModel LayoutSpec LayoutFacts LayoutProofs.

Lemma sa_facts a : pow2 (STACK_ALIGNMENT a) /\ STACK_ALIGNMENT a <= 16 /\ 0 < STACK_ALIGNMENT a /\ (STACK_ALIGNMENT a | 16).
Proof.
  assert (P : pow2 (STACK_ALIGNMENT a) /\ STACK_ALIGNMENT a <= 16).
  { destruct a; split; try (cbn; lia); try apply p16. exists 2. split; [lia|reflexivity]. }
  destruct P as [P1 P2]. repeat split; auto; [apply pow2_pos; auto|].
  apply pow2_le_div; auto using p16.
Qed.


Section top.
  Variables (a : arch) (td : td_layout) (tls : tls_info) (page : Z).
  Hypothesis Hwf : wf_env a td tls page.
  Let Htd := wf_env_td _ _ _ _ Hwf.
  Let Hfile := wf_tls_file _ _ (wf_env_tls _ _ _ _ Hwf).

  (** ** The layout *)
  Lemma div_trans_align x b c : (b | c) -> (b | align_to x c).
  Proof. intros. eapply Z.divide_trans; [eassumption|apply align_to_div]. Qed.

  Lemma ideal_good s g : usize a s -> usize a g -> good_layout tls page s g (meta_size a td) (ideal a td tls page s g).
  Proof.
    intros Hs Hg. unfold usize in *.
    destruct (al_facts a td tls page Hwf) as (A1 & A2 & A3 & A4).
    destruct (ma_facts a td tls page Hwf) as (M1 & M2 & M3 & M4).
    pose proof (meta_size_bounds a td Htd) as MS. pose proof (td_size_pos a td Htd) as TS.
    pose proof (align_to_bounds g page). pose proof (align_to_bounds s 16).
    unfold ideal.
    set (ma := Z.max (tls_align tls) (meta_align a td)) in *.
    set (st := align_to g page + align_to s 16).
    pose proof (align_to_bounds st ma). pose proof (align_to_bounds (tls_memsz tls) (tls_align tls)).
    pose proof (align_to_bounds (align_to st ma + meta_size a td) (tls_align tls)).
    assert (D16 : (16 | st)).
    { apply Z.divide_add_r; [|apply align_to_div].
      apply div_trans_align. apply pow2_le_div; [apply p16|auto|lia]. }
    assert (DT : (tls_align tls | align_to st ma)) by (apply div_trans_align; auto).
    destruct (tls_below a); constructor; cbn [l_stack_bottom l_stack_top l_tls l_header l_map_size];
      unfold apart; try lia; try apply align_to_div; auto.
  Qed.

  Lemma layout_good ck s g L : usize a s -> usize a g -> checked_or_fits ck a td tls page s g ->
    create_layout ck a td tls page s g = Some L -> good_layout tls page s g (meta_size a td) L.
  Proof.
    intros Hs Hg Hc H. apply (layout_ideal a td tls page Hwf s g Hs Hg) in H; auto.
    subst L. apply ideal_good; auto.
  Qed.

  Lemma ideal_top s g : l_stack_bottom (ideal a td tls page s g) = align_to g page /\
    l_stack_top (ideal a td tls page s g) = align_to g page + align_to s 16.
  Proof. unfold ideal. destruct (tls_below a); auto. Qed.

  (** ** create *)
  Section create.
    Variables (ck : bool) (m : mem) (tpreg : Z) (ans : answers) (fn : Z) (args : list Z) (s g : Z).
    Variables (t : Z) (log : list sysev) (m' : mem).
    Hypothesis Hs : usize a s.
    Hypothesis Hg : usize a g.
    Hypothesis Hck : checked_or_fits ck a td tls page s g.
    Hypothesis Hcreate : create ck a td tls page m tpreg ans fn args s g = (COk t, log, m').
    Hypothesis Hmap : good_answer a page log.
    Hypothesis Htmpl : template_apart page tls log.
    Hypothesis Hargs : Z.of_nat (length args) * wsz a <= s.

    Let L := ideal a td tls page s g.
    Let canary := load_le m (abi_at a td (current_metadata a td m tpreg) Canary) (word a).
    Let nargs := Z.of_nat (length args).

    Record created (map sp : Z) : Prop := {
      cr_layout : create_layout ck a td tls page s g = Some L;
      cr_ans : ans_mmap ans = Some map;
      cr_map : good_map a page (l_map_size L) map;
      cr_thread : t = thread_at a td (map + l_header L);
      cr_log : log = [SMmap (l_map_size L) (Some map);
                      SMprotectRW (map + l_stack_bottom L) (l_map_size L - l_stack_bottom L) true;
                      SClone sp (t + o_tid td) (t + o_tid td) (abi_at a td (map + l_header L) ThreadPointee) fn nargs (ans_clone ans)];
      cr_clone : 0 <= ans_clone ans;
      cr_sp : sp = map + l_stack_top L - align_to (nargs * wsz a) (STACK_ALIGNMENT a);
      cr_sp_lo : map + l_stack_bottom L <= sp;
      cr_sp_hi : sp + nargs * wsz a <= map + l_stack_top L;
      cr_fresh : fresh_tls tls m m' (map + l_tls L);
      cr_frame : forall x, ~ inside (map + l_tls L) (tls_memsz tls) x ->
                  ~ inside (map + l_header L) (meta_size a td) x ->
                  ~ inside sp (nargs * wsz a) x -> m' x = m x;
      cr_fields : forall p n v, In (p, n, v) (flds a td (map + l_header L) canary (map + l_stack_bottom L) s g (l_map_size L)) ->
                  p <> t + o_tid td -> load_le m' p n = v mod 2 ^ (8 * Z.of_nat n);
      cr_tid : load_le m' (t + o_tid td) 4 = ans_clone ans mod 2 ^ 32;
      cr_args : forall i v, nth_error args i = Some v ->
                  load_le m' (sp + Z.of_nat i * wsz a) (word a) = v mod modulus (wsz a) }.

    Lemma created_ok : exists map sp, created map sp.
    Proof.
      pose proof Hcreate as H. unfold create in H.
      destruct (create_layout ck a td tls page s g) as [L0|] eqn:EL; [|discriminate].
      pose proof (layout_ideal a td tls page Hwf s g Hs Hg ck L0 Hck EL) as E. subst L0. fold L in H, EL.
      destruct (ans_mmap ans) as [map|] eqn:EA; [|discriminate].
      destruct (ans_mprotect ans) eqn:EP; cbn [negb] in H; [|discriminate].
      fold canary in H.
      pose proof (ideal_good s g Hs Hg) as G. fold L in G.
      (* the mmap event is in the log whatever the rest *)
      set (LHS := initialize_tls a td tls m (map + l_tls L) (map + l_header L) canary
                  (map + l_stack_bottom L) s g (l_map_size L)) in H.
      assert (ILOG : In (SMmap (l_map_size L) (Some map)) log).
      { destruct LHS as [[[? ?] ?]|]; [|discriminate].
        destruct (0 <=? ans_clone ans); inversion H; left; reflexivity. }
      pose proof (Hmap _ _ (or_introl ILOG)) as GM. pose proof (Htmpl _ _ (or_introl ILOG)) as TA.
      destruct GM as (GM1 & GM2 & GM3). unfold page_ceil in *. fold (align_to (l_map_size L) page) in *.
      destruct (al_facts a td tls page Hwf) as (A1 & A2 & A3 & A4).
      pose proof (align_to_bounds (l_map_size L) page ltac:(lia)) as AB.
      pose proof (meta_size_bounds a td Htd) as MS. pose proof (td_size_pos a td Htd) as TS.
      destruct G as [G1 G2 G3 G4 G5 G6 G7 G8 G9 G10].
      destruct (init_tls_spec a td tls Htd Hfile m (map + l_tls L) (map + l_header L) canary
                  (map + l_stack_bottom L) s g (l_map_size L)) as (m1 & EI & I1 & I2 & I3).
      { clear - G7. unfold apart in *. lia. }
      { unfold usize in *. unfold apart in *. clear - TA G9 G6 G3 G1 AB Hg Hs. lia. }
      subst LHS. rewrite EI in H.
      destruct (Z.leb_spec 0 (ans_clone ans)) as [EC|]; [|discriminate].
      pose proof (f_equal (fun r => fst (fst r)) H) as HT. pose proof (f_equal (fun r => snd (fst r)) H) as HL.
      pose proof (f_equal snd H) as HM. cbn [fst snd] in HT, HL, HM. clear H.
      assert (HT' : thread_at a td (map + l_header L) = t) by congruence. clear HT. rename HT' into HT.
      fold nargs in HM, HL |- *.
      set (sp := child_sp a (map + l_stack_top L) nargs) in *.
      destruct (ideal_top s g) as [IT1 IT2]. fold L in IT1, IT2.
      destruct (sa_facts a) as (S1 & S2 & S3 & S4).
      assert (NN : 0 <= nargs * wsz a) by (destruct (wsz_cases a) as [-> | ->]; unfold nargs; lia).
      assert (HA : align_to (nargs * wsz a) (STACK_ALIGNMENT a) <= align_to s 16).
      { transitivity (align_to (nargs * wsz a) 16).
        - pose proof (align_to_bounds (nargs * wsz a) 16 ltac:(lia)) as B.
          pose proof (align_to_mono (nargs * wsz a) (align_to (nargs * wsz a) 16) (STACK_ALIGNMENT a) S3 ltac:(lia)).
          rewrite (align_to_id (align_to (nargs * wsz a) 16)) in H; [exact H|lia|].
          eapply Z.divide_trans; [exact S4|apply align_to_div].
        - apply align_to_mono; [lia|]. unfold nargs. lia. }
      pose proof (align_to_bounds (nargs * wsz a) (STACK_ALIGNMENT a) S3) as B1.
      unfold usize in *.
      assert (HSP : sp = map + l_stack_top L - align_to (nargs * wsz a) (STACK_ALIGNMENT a)).
      { unfold sp, child_sp. destruct S1 as (k & Hk & ES). 
        assert (k < 8 * wsz a).
        { assert (k <= 4). { destruct (Z_le_gt_dec k 4); [lia|]. assert (2 ^ 4 < 2 ^ k) by (apply Z.pow_lt_mono_r; lia). lia. }
          destruct (wsz_cases a); lia. }
        rewrite ES at 1. rewrite land_mask by lia. rewrite <- ES.
        set (A := STACK_ALIGNMENT a) in *.
        assert (DT : (A | map + l_stack_top L)).
        { apply Z.divide_add_r; [|eapply Z.divide_trans; eauto].
          eapply Z.divide_trans; [|exact GM2]. apply pow2_le_div; [exists k; split; [lia|exact ES]|auto|lia]. }
        destruct DT as [q Hq]. rewrite Hq.
        unfold align_to. pose proof (Z.div_mod (q * A - nargs * wsz a) A ltac:(lia)) as D1.
        pose proof (Z.mod_pos_bound (q * A - nargs * wsz a) A ltac:(lia)) as D2.
        set (r := (q * A - nargs * wsz a) mod A) in *. set (d := (q * A - nargs * wsz a) / A) in *.
        assert (E : (nargs * wsz a + A - 1) / A = q - d).
        { symmetry. apply Z.div_unique with (A - 1 - r); [lia|].
          replace (nargs * wsz a) with (q * A - (A * d + r)) by lia. ring. }
        rewrite E. lia. }
      assert (SPlo : map + l_stack_bottom L <= sp) by lia.
      assert (SPhi : sp + nargs * wsz a <= map + l_stack_top L) by lia.
      assert (WP : (0 < word a)%nat) by (destruct a; cbn; lia).
      assert (TIN : map + l_header L <= t + o_tid td /\ t + o_tid td + 4 <= map + l_header L + meta_size a td).
      { pose proof (thread_in a td Htd (map + l_header L) (map + l_stack_bottom L) s g (l_map_size L)) as TI.
        apply Forall_cons_iff in TI. destruct TI as [TI _]. unfold f_addr, f_len in TI. cbn [fst snd] in TI.
        rewrite HT in TI. pose proof (parts_in a td Htd (map + l_header L)) as PI. rewrite HT in PI. lia. }
      rewrite HT in HM, HL.
      assert (WORDS : forall x, ~ inside sp (nargs * wsz a) x ->
                 store_words m1 sp (word a) args x = m1 x).
      { intros x Hx. apply store_words_spec; [auto|]. rewrite wsz_word. exact Hx. }
      exists map, sp. constructor; auto.
      - (* fresh *) rewrite <- HM.
        destruct I1 as [J1 J2]. unfold apart in *.
        split; intros i Hi.
        + rewrite <- J1 by auto. rewrite store_apart by (unfold inside; lia). apply WORDS. unfold inside. lia.
        + rewrite <- J2 with (i := i) by auto. rewrite store_apart by (unfold inside; lia). apply WORDS. unfold inside. lia.
      - intros x X1 X2 X3. rewrite <- HM. rewrite store_apart by (unfold inside in *; lia).
        rewrite WORDS by auto. apply I2; auto.
      - intros p n v Hin Hp. rewrite <- (I3 p n v Hin).
        pose proof (proj1 (Forall_forall _ _) (flds_in a td Htd (map + l_header L) canary (map + l_stack_bottom L) s g (l_map_size L)) _ Hin) as FI.
        cbn beta in FI. unfold f_addr, f_len in FI. cbn [fst snd] in FI.
        assert (AP : apart (t + o_tid td) 4 p (Z.of_nat n)).
        { pose proof (flds_apart a td Htd (map + l_header L) canary (map + l_stack_bottom L) s g (l_map_size L)) as FA.
          assert (IT : In (t + o_tid td, 4%nat, 0) (flds a td (map + l_header L) canary (map + l_stack_bottom L) s g (l_map_size L))).
          { unfold flds. apply in_or_app. right. left. rewrite HT. reflexivity. }
          pose proof (ForallOrdPairs_In FA _ _ IT Hin) as [E | [E | E]].
          - inversion E; congruence.
          - exact E.
          - apply apart_sym. exact E. }
        rewrite <- HM. rewrite load_store_apart by exact AP. apply load_le_ext. intros i Hi. apply WORDS. unfold inside. lia.
      - rewrite <- HM. rewrite load_store_same. reflexivity.
      - intros i v Hi.
        assert (Z.of_nat i < nargs) by (pose proof (nth_error_Some args i) as NS; unfold nargs; rewrite Hi in NS; assert (Some v <> None) by discriminate; intuition lia).
        rewrite <- HM. rewrite load_store_apart.
        + rewrite <- wsz_word, store_words_get with (v := v); auto.
        + rewrite wsz_word. unfold apart.
          assert ((Z.of_nat i + 1) * wsz a <= nargs * wsz a)
            by (apply Z.mul_le_mono_nonneg_r; [destruct (wsz_cases a); lia|lia]).
          lia.
    Qed.
  End create.
End top.
