(** Histories of thread creation; protections; refutation witnesses. *)
From Coq Require Import ZifyBool ZifyNat.
From Verif Require Import Machine MachineFacts LayoutModel LayoutSpec LayoutFacts LayoutProofs LayoutTop LayoutTop2.

Section hist.
  Variables (ck : bool) (a : arch) (td : td_layout) (tls : tls_info) (page : Z).
  Hypothesis Hwf : wf_env a td tls page.
  Let Htd := wf_env_td _ _ _ _ Hwf.
  Variables (m0 : mem) (random : Z).
  Hypothesis Hm0 : wf_mem m0.
  Let c := load_le m0 random (word a).

  Record good_thr (m : mem) (u : thr) (md : Z) : Prop := {
    gt_pos : 0 < th_map u;
    gt_lo : th_map u <= md;
    gt_hi : md + meta_size a td <= th_map u + page_ceil page (th_len u);
    gt_end : th_map u + page_ceil page (th_len u) <= modulus (wsz a);
    gt_tp : th_tp u = abi_at a td md ThreadPointee;
    gt_raw : th_raw u = thread_at a td md;
    gt_canary : load_le m (canary_addr a (th_tp u)) (word a) = c;
    gt_this : tls_below a = true -> load_le m (th_tp u) (word a) = th_tp u mod modulus (wsz a) }.
  Definition inv (w : world) : Prop :=
    (forall u, In u (w_live w) -> exists md, good_thr (w_mem w) u md) /\
    ForallOrdPairs (fun u v => apart (th_map u) (page_ceil page (th_len u)) (th_map v) (page_ceil page (th_len v))) (w_live w) /\
    w_guard w = c.

  Lemma c_range : 0 <= c < modulus (wsz a).
  Proof. unfold c. rewrite <- pow_word. apply load_le_range. exact Hm0. Qed.

  Lemma canary_in md : md <= canary_addr a (abi_at a td md ThreadPointee) /\
    canary_addr a (abi_at a td md ThreadPointee) + wsz a <= md + meta_size a td.
  Proof.
    rewrite <- canary_at. pose proof (flds_in a td Htd md 0 0 0 0 0) as F.
    pose proof (proj1 (Forall_forall _ _) F _ (flds_canary a td md 0 0 0 0 0)) as B. cbn beta in B.
    unfold f_addr, f_len in B. cbn [fst snd] in B. rewrite wsz_word in B. exact B.
  Qed.
  Lemma this_in md : tls_below a = true -> md <= abi_at a td md ThreadPointee /\
    abi_at a td md ThreadPointee + wsz a <= md + meta_size a td.
  Proof.
    intros H. pose proof (flds_in a td Htd md 0 0 0 0 0) as F.
    pose proof (proj1 (Forall_forall _ _) F _ (flds_this a td md 0 0 0 0 0 H)) as B. cbn beta in B.
    unfold f_addr, f_len in B. cbn [fst snd] in B. rewrite wsz_word, this_at in B by auto. exact B.
  Qed.

  Lemma good_thr_frame m m' u md : good_thr m u md ->
    (forall x, inside (th_map u) (page_ceil page (th_len u)) x -> m' x = m x) -> good_thr m' u md.
  Proof.
    intros G H. destruct G. pose proof (canary_in md) as CI. rewrite <- gt_tp0 in CI.
    constructor; auto.
    - rewrite <- gt_canary0. apply load_le_ext. intros i Hi. rewrite wsz_word in Hi. apply H. unfold inside. lia.
    - intros B. rewrite <- gt_this0 by auto. apply load_le_ext. intros i Hi. rewrite wsz_word in Hi.
      pose proof (this_in md B) as TI. rewrite <- gt_tp0 in TI. apply H. unfold inside. lia.
  Qed.

  Lemma good_thr_metadata m u md : good_thr m u md -> current_metadata a td m (th_tp u) = md.
  Proof.
    intros []. rewrite gt_tp0. apply current_md; auto; try lia.
    intros B. rewrite <- gt_tp0. auto.
  Qed.

  Lemma inv_start w : starts ck a td tls page m0 random w -> inv w.
  Proof.
    intros (sp & ee & rl & ans & tid & R & len & map & H & Hck & Hga & Hta & Hin & ->).
    destruct (main_ok a td tls page Hwf ck m0 sp ee rl random ans tid R Hck H Hga Hta) as (new & n & tb & h & M).
    destruct M. rewrite mn_log in Hin. destruct Hin as [E|[]]. inversion E; subst len map.
    destruct mn_map as (P1 & P2 & P3).
    pose proof (al_facts a td tls page Hwf) as (_ & _ & PG & _).
    pose proof (align_to_bounds n page ltac:(lia)) as AB. rewrite ?page_ceil_align in *.
    destruct mn_fields as (sb & lim & _ & _ & FL).
    split; [|split; [repeat constructor|exact mn_guard]].
    intros u [<-|[]]. exists (new + h). constructor; cbn [th_map th_len th_tp th_raw w_mem]; rewrite ?page_ceil_align; auto; try lia.
    - rewrite mn_tp, <- canary_at. rewrite (FL _ _ _ (flds_canary _ _ _ _ _ _ _ _)).
      + rewrite mn_guard, pow_word. apply Z.mod_small. apply c_range.
      + rewrite mn_thread. eapply (abi_ne_tid a td Htd) with (canary := 0). left. reflexivity.
    - intros B. rewrite mn_tp at 1. rewrite <- this_at at 1 by auto.
      rewrite (FL _ _ _ (flds_this _ _ _ _ _ _ _ _ B)).
      + rewrite mn_tp, pow_word. reflexivity.
      + rewrite mn_thread. eapply (abi_ne_tid a td Htd) with (canary := 0). right. right. rewrite B. left. reflexivity.
  Qed.

  Lemma inv_step w w' : inv w -> wstep ck a td tls page w w' -> inv w'.
  Proof.
    intros (I1 & I2 & I3) Hst. pose proof (al_facts a td tls page Hwf) as (_ & _ & PG & _).
    destruct Hst as [u ans fn args s g t log m' sp ptid ctid tp n r len map Hu Hs Hg Hck Hargs Hcr Hga Hta Hfr Hmm Hcl
                    |u ans fn args s g res log m' Hu Hs Hg Hck Hargs Hcr Hres Hga Hta Hfr
                    |l1 u l2 E|m' Hr].
    - destruct (created_ok a td tls page Hwf ck _ _ ans fn args s g t log m' Hs Hg Hck Hcr Hga Hta Hargs) as (map0 & sp0 & C).
      destruct (I1 u Hu) as (mdu & Gu). pose proof (good_thr_metadata _ _ _ Gu) as EM.
      pose proof (create_frame a td tls page Hwf ck _ _ ans fn args s g _ log m' Hs Hg Hck Hargs Hcr Hga Hta) as FR.
      destruct C. pose proof (ideal_good a td tls page Hwf s g Hs Hg) as GL.
      set (L := ideal a td tls page s g) in *. destruct GL.
      rewrite EM in cr_fields.
      assert (Emap : len = l_map_size L /\ map = map0).
      { rewrite cr_log in Hmm. destruct Hmm as [E|[E|[E|[]]]]; inversion E; auto. }
      destruct Emap as [-> ->].
      assert (Etp : tp = abi_at a td (map0 + l_header L) ThreadPointee).
      { rewrite cr_log in Hcl. destruct Hcl as [E|[E|[E|[]]]]; inversion E; auto. }
      destruct cr_map as (P1 & P2 & P3).
      pose proof (align_to_bounds (l_map_size L) page ltac:(lia)) as AB.
      pose proof (meta_size_bounds a td Htd) as MS. pose proof (td_size_pos a td Htd) as TS.
      unfold usize in *.
      set (md := map0 + l_header L) in *.
      assert (CM : load_le (w_mem w) (abi_at a td mdu Canary) (word a) = c).
      { rewrite canary_at. rewrite <- (gt_tp _ _ _ Gu). apply (gt_canary _ _ _ Gu). }
      split; [|split; [|exact I3]]; cbn [w_live w_mem].
      + intros v [<-|Hv].
        * exists md. constructor; cbn [th_map th_len th_tp th_raw]; rewrite ?page_ceil_align in *; auto; try (subst md; lia).
          -- rewrite Etp, <- canary_at.
             rewrite (cr_fields _ _ _ (flds_canary _ _ _ _ _ _ _ _)).
             ++ rewrite CM, pow_word. apply Z.mod_small. apply c_range.
             ++ rewrite cr_thread. eapply (abi_ne_tid a td Htd) with (canary := 0). left. reflexivity.
          -- intros B. rewrite Etp at 1. rewrite <- this_at at 1 by auto.
             rewrite (cr_fields _ _ _ (flds_this _ _ _ _ _ _ _ _ B)).
             ++ rewrite Etp, pow_word. reflexivity.
             ++ rewrite cr_thread. eapply (abi_ne_tid a td Htd) with (canary := 0). right. right. rewrite B. left. reflexivity.
        * destruct (I1 v Hv) as (mdv & Gv). exists mdv. apply (good_thr_frame (w_mem w)); [exact Gv|].
          intros x Hx. pose proof (Hfr _ _ v Hmm Hv) as AP. unfold inside, apart in *. rewrite ?page_ceil_align in *.
          apply cr_frame; lia.
      + constructor; [|exact I2]. apply Forall_forall. intros v Hv. cbn [th_map th_len]. apply (Hfr _ _ v Hmm Hv).
    - pose proof (create_frame a td tls page Hwf ck _ _ ans fn args s g _ log m' Hs Hg Hck Hargs Hcr Hga Hta) as FR.
      split; [|split; [exact I2|exact I3]]; cbn [w_live w_mem].
      intros v Hv. destruct (I1 v Hv) as (mdv & Gv). exists mdv. apply (good_thr_frame (w_mem w)); [exact Gv|].
      intros x Hx. destruct FR as [FR|(len & map & Hmm & Hlen & FR)]; [apply FR|].
      apply FR. pose proof (Hfr _ _ v Hmm Hv) as AP. unfold inside, apart in *. rewrite ?page_ceil_align in *.
      pose proof (align_to_bounds len page ltac:(lia)). lia.
    - assert (SUB : forall v, In v (l1 ++ l2) -> In v (w_live w)).
      { intros v Hv. rewrite E. apply in_app_iff in Hv. apply in_app_iff. cbn. tauto. }
      split; [|split; [|exact I3]]; cbn [w_live w_mem].
      + intros v Hv. apply I1. auto.
      + rewrite E in I2. clear - I2. induction l1 as [|y l1 IH]; cbn in *.
        * inversion I2; auto.
        * inversion I2 as [|? ? F1 F2]; subst. constructor; [|auto].
          apply Forall_forall. intros z Hz. apply (proj1 (Forall_forall _ _) F1).
          apply in_app_iff in Hz. apply in_app_iff. cbn. tauto.
    - split; [|split; [exact I2|exact I3]]; cbn [w_live w_mem].
      intros v Hv. destruct (I1 v Hv) as (md & []). exists md. destruct (Hr v Hv) as [R1 R2].
      constructor; auto; [congruence|]. intros B. rewrite R2 by auto. auto.
  Qed.

  Lemma inv_reach w : reachable ck a td tls page m0 random w -> inv w.
  Proof. induction 1 as [w H|w w' _ IH H]; [apply inv_start; auto|eapply inv_step; eauto]. Qed.

  Lemma raw_in m u md : good_thr m u md -> inside (th_map u) (page_ceil page (th_len u)) (th_raw u) /\ 0 < th_raw u.
  Proof.
    intros []. pose proof (parts_in a td Htd md) as (P1 & P2 & _). pose proof (td_size_pos a td Htd).
    unfold inside. rewrite gt_raw0. lia.
  Qed.

  Lemma inv_nodup w : inv w -> NoDup (map th_raw (w_live w)).
  Proof.
    intros (I1 & I2 & _). induction (w_live w) as [|u l IH]; cbn; [constructor|].
    inversion I2 as [|? ? F1 F2]; subst. constructor.
    - intros Hin. apply in_map_iff in Hin. destruct Hin as (v & E & Hv).
      destruct (I1 u) as (mu & Gu); [left; auto|]. destruct (I1 v) as (mv & Gv); [right; auto|].
      pose proof (proj1 (Forall_forall _ _) F1 v Hv) as AP. cbn beta in AP.
      pose proof (raw_in _ _ _ Gu) as [R1 _]. pose proof (raw_in _ _ _ Gv) as [R2 _]. unfold inside, apart in *. lia.
    - apply IH; [|auto]. intros v Hv. apply I1. right. auto.
  Qed.
End hist.
