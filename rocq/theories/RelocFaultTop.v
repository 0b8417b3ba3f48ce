(** No access of relocation leaves the bytes it is entitled to. *)
From Verif Require Import Machine MachineFacts LayoutModel RelocModel RelocSpec RelocFacts RelocProofs RelocTop RelocMono
  RelocFault RelocFaultSpec RelocFaultProofs.

Section F.
Context (ac : access).

Lemma can_read p n : can (ac_r ac) p (Z.of_nat n) -> may_read ac p n = true.
Proof.
  intros H. unfold may_read. apply forallb_forall. intros i Hi. apply in_seq in Hi. apply H. lia.
Qed.
Lemma can_write s p n : can (ac_w ac) p (Z.of_nat n) -> (forall x, ro s x = false) -> may_write ac s p n = true.
Proof.
  intros H R. unfold may_write. apply forallb_forall. intros i Hi. apply in_seq in Hi.
  rewrite R, H by lia. reflexivity.
Qed.
Lemma can_sub P p n q k : can P p n -> p <= q -> q + k <= p + n -> can P q k.
Proof. intros H H1 H2 x Hx. apply H. lia. Qed.
Lemma can_words_S a P p n : can_words a P p (S n) -> can P (p mod modulus (wsz a)) (wsz a) /\ can_words a P (p + wsz a) n.
Proof.
  intros H. split.
  - specialize (H 0%nat ltac:(lia)). rewrite Z.mul_0_l, Z.add_0_r in H. exact H.
  - intros i Hi. specialize (H (S i) ltac:(lia)).
    replace (p + wsz a + Z.of_nat i * wsz a) with (p + Z.of_nat (S i) * wsz a) by lia. exact H.
Qed.
Lemma can_words_add a P p k n : can_words a P p (k + n) -> can_words a P (p + Z.of_nat k * wsz a) n.
Proof.
  intros H i Hi. specialize (H (k + i)%nat ltac:(lia)).
  replace (p + Z.of_nat k * wsz a + Z.of_nat i * wsz a) with (p + Z.of_nat (k + i) * wsz a) by lia. exact H.
Qed.
Lemma can_word a p : can (ac_r ac) p (wsz a) -> may_read ac p (word a) = true.
Proof. intros H. apply can_read. rewrite wsz_word. exact H. Qed.
Lemma can_wword a s p : can (ac_w ac) p (wsz a) -> (forall x, ro s x = false) -> may_write ac s p (word a) = true.
Proof. intros H. apply can_write. rewrite wsz_word. exact H. Qed.

Ltac nonone := intros; discriminate.

Lemma fskip_ok a m : forall env fuel p rest n,
  Forall (fun w => w <> 0) env -> words_at a m p (env ++ 0 :: rest) ->
  can_words a (ac_r ac) p (length env + 1 + n) ->
  fskip_env ac fuel a m (p mod modulus (wsz a)) <> None.
Proof.
  induction env as [|w env IH]; intros fuel p rest n Hn Hw Hc; (destruct fuel as [|fuel]; [nonone|]);
    cbn [app] in Hw; apply words_cons in Hw; destruct Hw as [Hw1 Hw2]; cbn [length] in Hc;
    apply can_words_S in Hc; destruct Hc as [Hc1 Hc2]; cbn [fskip_env]; rewrite (can_word a _ Hc1), Hw1.
  - rewrite Z.eqb_refl. nonone.
  - rewrite (proj2 (Z.eqb_neq _ 0)) by exact (Forall_inv Hn). rewrite padd_mod.
    apply (IH fuel _ rest n); auto. exact (Forall_inv_tail Hn).
Qed.

Lemma fskip_val a m n p x : fskip_env ac n a m p = Some (Some x) -> skip_env n a m p = Some x.
Proof. intros H. destruct (skip_below ac a m n p) as [E|E]; congruence. Qed.

Lemma fscan_ok a m : forall aux fuel p rest i,
  Forall (fun r => 0 < fst r < 2 ^ 32) aux -> words_at a m p (pairs aux ++ 0 :: rest) ->
  can_words a (ac_r ac) p (2 * (length aux + 1)) ->
  fscan_aux ac fuel a m (p mod modulus (wsz a)) i <> None.
Proof.
  induction aux as [|[t v] aux IH]; intros fuel p rest i Hn Hw Hc; (destruct fuel as [|fuel]; [nonone|]).
  - cbn [pairs flat_map app] in Hw. apply words_cons in Hw. destruct Hw as [Hw1 Hw2].
    cbn [length] in Hc. replace (2 * (0 + 1))%nat with 2%nat in Hc by lia.
    apply can_words_S in Hc. destruct Hc as [Hc1 Hc2]. apply can_words_S in Hc2. destruct Hc2 as [Hc2 _].
    cbn [fscan_aux]. rewrite padd_mod, (can_word a _ Hc1), (can_word a _ Hc2). cbn [andb]. rewrite Hw1.
    rewrite Z.mod_0_l by lia. nonone.
  - cbn [pairs flat_map app fst snd] in Hw. apply words_cons in Hw. destruct Hw as [Hw1 Hw].
    apply words_cons in Hw. destruct Hw as [Hw2 Hw].
    cbn [length] in Hc. replace (2 * (S (length aux) + 1))%nat with (S (S (2 * (length aux + 1)))) in Hc by lia.
    apply can_words_S in Hc. destruct Hc as [Hc1 Hc]. apply can_words_S in Hc. destruct Hc as [Hc2 Hc].
    pose proof (Forall_inv Hn) as Ht. pose proof (Forall_inv_tail Hn) as Hn'. cbn [fst] in Ht.
    cbn [fscan_aux]. rewrite !padd_mod, (can_word a _ Hc1), (can_word a _ Hc2). cbn [andb]. rewrite Hw1.
    replace (p + 2 * wsz a) with (p + wsz a + wsz a) by lia.
    specialize (fun i => IH fuel (p + wsz a + wsz a) rest i Hn' Hw Hc).
    repeat match goal with |- (if ?b then _ else _) <> None => destruct b; auto end. nonone.
Qed.

Lemma fread_ok a m p env aux fuel :
  0 <= p < modulus (wsz a) -> stack_at a m p env aux ->
  can_words a (ac_r ac) p (length env + 1 + 2 * (length aux + 1)) ->
  fread_aux ac fuel a m p <> None.
Proof.
  intros Hp (Hw & He & Ha) Hc. unfold fread_aux. cbn [app] in Hw.
  destruct (fskip_env ac fuel a m p) as [[x|]|] eqn:E; [|nonone|].
  - assert (Hw' : words_at a m (p + Z.of_nat (length env + 1) * wsz a) (pairs aux ++ [0])).
    { change (env ++ 0 :: pairs aux ++ [0]) with (env ++ [0] ++ pairs aux ++ [0]) in Hw. rewrite app_assoc in Hw.
      apply words_tail in Hw. rewrite app_length in Hw. exact Hw. }
    apply fskip_val in E.
    assert (X : x = (p + Z.of_nat (length env + 1) * wsz a) mod modulus (wsz a)).
    { pose proof (skip_env_mono a m fuel (fuel + S (length env)) _ _ ltac:(lia) E) as E'.
      rewrite <- (Z.mod_small p (modulus (wsz a))) in E' by lia.
      rewrite (skip_env_spec a m env _ p (pairs aux ++ [0])) in E' by (auto; lia).
      injection E' as <-. replace (length env + 1)%nat with (S (length env)) by lia. reflexivity. }
    subst x. apply (fscan_ok a m aux fuel _ []); auto. apply can_words_add in Hc. exact Hc.
  - exfalso. revert E. rewrite <- (Z.mod_small p (modulus (wsz a))) by lia.
    apply (fskip_ok a m env fuel p (pairs aux ++ [0]) (2 * (length aux + 1))); auto.
Qed.

Lemma fdyn_ok e s base : forall dyn fuel p rest d,
  let a := e_arch e in
  words_at a (rm s) p (pairs dyn ++ 0 :: rest) ->
  can_words a (ac_r ac) p (2 * (length dyn + 1)) ->
  fscan_dyn ac fuel e s base (p mod modulus (wsz a)) d <> None.
Proof.
  induction dyn as [|[t v] dyn IH]; intros fuel p rest d a Hw Hc; (destruct fuel as [|fuel]; [nonone|]).
  - cbn [pairs flat_map app] in Hw. apply words_cons in Hw. destruct Hw as [Hw1 Hw2].
    cbn [length] in Hc. replace (2 * (0 + 1))%nat with 2%nat in Hc by lia.
    apply can_words_S in Hc. destruct Hc as [Hc1 _].
    cbn [fscan_dyn]. fold a. rewrite (can_word a _ Hc1), Hw1. cbn. rewrite !andb_false_r. nonone.
  - cbn [pairs flat_map app fst snd] in Hw. apply words_cons in Hw. destruct Hw as [Hw1 Hw].
    apply words_cons in Hw. destruct Hw as [Hw2 Hw].
    cbn [length] in Hc. replace (2 * (S (length dyn) + 1))%nat with (S (S (2 * (length dyn + 1)))) in Hc by lia.
    apply can_words_S in Hc. destruct Hc as [Hc1 Hc]. apply can_words_S in Hc. destruct Hc as [Hc2 Hc].
    cbn [fscan_dyn]. fold a. rewrite !padd_mod, (can_word a _ Hc1), (can_word a _ Hc2).
    replace (p + 2 * wsz a) with (p + wsz a + wsz a) by lia.
    specialize (fun d => IH fuel (p + wsz a + wsz a) rest d Hw Hc). fold a in IH.
    repeat match goal with |- (if ?b then _ else _) <> None => destruct b; auto end; nonone.
Qed.

Lemma frela_ok a base : forall l fuel p s n,
  n = length (triples l) ->
  words_at a (rm s) p (triples l) -> Z.of_nat n * wsz a < modulus (wsz a) ->
  clear_words a (rela_ops a base l) p n ->
  can_words a (ac_r ac) p n ->
  (forall o, In o (rela_ops a base l) -> can (ac_w ac) (fst o) (wsz a)) -> (forall x, ro s x = false) ->
  fdo_rela ac fuel a base (p mod modulus (wsz a)) ((p + Z.of_nat n * wsz a) mod modulus (wsz a)) s <> None.
Proof.
  induction l as [|[[o i] ad] l IH]; intros fuel p s n Hn Hw Hz Hc Hr Hwr Hro; (destruct fuel as [|fuel]; [nonone|]).
  - cbn in Hn. subst n. cbn. rewrite Z.add_0_r, Z.eqb_refl. nonone.
  - pose proof (wsz_pos a) as Hws.
    change (triples ((o, i, ad) :: l)) with ([o; i; ad] ++ triples l) in Hw, Hn.
    rewrite app_length in Hn. cbn [length] in Hn.
    assert (Hw0 : words_at a (rm s) p [o; i; ad]).
    { intros j w Hj. apply Hw. rewrite nth_error_app1; auto. apply nth_error_Some. congruence. }
    apply words_tail in Hw. cbn [length] in Hw.
    apply words_cons in Hw0. destruct Hw0 as [W1 Hw0]. apply words_cons in Hw0. destruct Hw0 as [W2 Hw0].
    apply words_cons in Hw0. destruct Hw0 as [W3 _].
    set (n' := length (triples l)) in *. subst n.
    pose proof (can_words_add a _ p 3 n' Hr) as Hr'.
    change (3 + n')%nat with (S (S (S n'))) in Hr.
    apply can_words_S in Hr. destruct Hr as [R1 Hr]. apply can_words_S in Hr. destruct Hr as [R2 Hr].
    apply can_words_S in Hr. destruct Hr as [R3 _].
    cbn [fdo_rela]. rewrite !padd_mod. replace (p + 2 * wsz a) with (p + wsz a + wsz a) by lia.
    rewrite (can_word a _ R1), (can_word a _ R2), (can_word a _ R3), W1, W2, W3. cbn [andb].
    rewrite ptr_neq by lia. rewrite <- relative_type.
    destruct (relative a i) eqn:R; [|nonone].
    assert (E : rela_ops a base ((o, i, ad) :: l) =
        ((base + o) mod modulus (wsz a), Some ((base + ad) mod modulus (wsz a))) :: rela_ops a base l).
    { unfold rela_ops, rela_fixups. cbn [filter fst snd]. rewrite R. reflexivity. }
    rewrite E in Hc, Hwr. unfold wrapping_add. rewrite (Z.add_comm o), (Z.add_comm ad).
    pose proof (Hwr _ (or_introl eq_refl)) as Q1. cbn [fst] in Q1. rewrite (can_wword a s _ Q1 Hro).
    set (o1 := ((base + o) mod modulus (wsz a), Some ((base + ad) mod modulus (wsz a)))) in *.
    apply clear_words_add in Hc.
    replace (p + Z.of_nat (3 + n') * wsz a) with (p + Z.of_nat 3 * wsz a + Z.of_nat n' * wsz a) by lia.
    unfold sizeof_rela. change (p + 3 * wsz a) with (p + Z.of_nat 3 * wsz a).
    apply (IH fuel (p + Z.of_nat 3 * wsz a) (apply_op a base s o1) n' eq_refl).
    * apply words_op; auto. intros j Hj. apply (Hc j Hj). now left.
    * lia.
    * eapply clear_words_incl; [|exact Hc]. intros x Hx. now right.
    * exact Hr'.
    * intros x Hx. apply Hwr. now right.
    * exact Hro.
Qed.

Lemma frel_ok a base : forall l fuel p s n,
  n = length (pairs l) ->
  words_at a (rm s) p (pairs l) -> Z.of_nat n * wsz a < modulus (wsz a) ->
  clear_words a (rel_ops a base l) p n ->
  can_words a (ac_r ac) p n ->
  (forall o, In o (rel_ops a base l) -> can (ac_r ac) (fst o) (wsz a) /\ can (ac_w ac) (fst o) (wsz a)) ->
  (forall x, ro s x = false) ->
  fdo_rel ac fuel a base (p mod modulus (wsz a)) ((p + Z.of_nat n * wsz a) mod modulus (wsz a)) s <> None.
Proof.
  induction l as [|[o i] l IH]; intros fuel p s n Hn Hw Hz Hc Hr Hwr Hro; (destruct fuel as [|fuel]; [nonone|]).
  - cbn in Hn. subst n. cbn. rewrite Z.add_0_r, Z.eqb_refl. nonone.
  - pose proof (wsz_pos a) as Hws.
    change (pairs ((o, i) :: l)) with ([o; i] ++ pairs l) in Hw, Hn.
    rewrite app_length in Hn. cbn [length] in Hn.
    assert (Hw0 : words_at a (rm s) p [o; i]).
    { intros j w Hj. apply Hw. rewrite nth_error_app1; auto. apply nth_error_Some. congruence. }
    apply words_tail in Hw. cbn [length] in Hw.
    apply words_cons in Hw0. destruct Hw0 as [W1 Hw0]. apply words_cons in Hw0. destruct Hw0 as [W2 _].
    set (n' := length (pairs l)) in *. subst n.
    pose proof (can_words_add a _ p 2 n' Hr) as Hr'.
    change (2 + n')%nat with (S (S n')) in Hr.
    apply can_words_S in Hr. destruct Hr as [R1 Hr]. apply can_words_S in Hr. destruct Hr as [R2 _].
    cbn [fdo_rel]. rewrite !padd_mod.
    rewrite (can_word a _ R1), (can_word a _ R2), W1, W2. cbn [andb].
    rewrite ptr_neq by lia. rewrite <- relative_type.
    destruct (relative a i) eqn:R; [|nonone].
    assert (E : rel_ops a base ((o, i) :: l) = ((base + o) mod modulus (wsz a), None) :: rel_ops a base l).
    { unfold rel_ops. cbn [filter fst snd]. rewrite R. reflexivity. }
    rewrite E in Hc, Hwr. change (wrapping_add (wsz a) o base) with ((o + base) mod modulus (wsz a)). rewrite (Z.add_comm o).
    destruct (Hwr _ (or_introl eq_refl)) as [Q1 Q2]. cbn [fst] in Q1, Q2.
    rewrite (can_word a _ Q1), (can_wword a s _ Q2 Hro).
    set (o1 := ((base + o) mod modulus (wsz a), @None Z)) in *.
    apply clear_words_add in Hc.
    replace (p + Z.of_nat (2 + n') * wsz a) with (p + Z.of_nat 2 * wsz a + Z.of_nat n' * wsz a) by lia.
    unfold sizeof_rel. change (p + 2 * wsz a) with (p + Z.of_nat 2 * wsz a).
    apply (IH fuel (p + Z.of_nat 2 * wsz a) (apply_op a base s o1) n' eq_refl).
    * apply words_op; auto. intros j Hj. apply (Hc j Hj). now left.
    * lia.
    * eapply clear_words_incl; [|exact Hc]. intros x Hx. now right.
    * exact Hr'.
    * intros x Hx. apply Hwr. now right.
    * exact Hro.
Qed.

Lemma foff_ok a b p s : can (ac_r ac) p (wsz a) -> can (ac_w ac) p (wsz a) -> (forall x, ro s x = false) ->
  fadd_offset ac a b p s = Some (Ok (add_offset a b p s)).
Proof. intros H1 H2 H3. unfold fadd_offset. rewrite (can_word a _ H1), (can_wword a s _ H2 H3). reflexivity. Qed.

Lemma radd_ok e s x y v : 0 <= x -> 0 <= y -> radd e s x y = Ok v -> v = (x + y) mod modulus (wsz (e_arch e)).
Proof.
  intros Hx Hy E. destruct (radd_spec e s x y) as [E'|[(_ & _ & E')|N]]; [congruence|congruence|lia].
Qed.

Lemma fbits_ok e base next w : forall n k fuel s,
  let a := e_arch e in
  0 <= w < 2 ^ (Z.of_nat (k + n) + 1) -> 0 <= base + next ->
  (forall o, In o (bit_ops a base next w k n) -> can (ac_r ac) (fst o) (wsz a) /\ can (ac_w ac) (fst o) (wsz a)) ->
  (forall x, ro s x = false) ->
  fdo_bits ac fuel e base ((base + next) mod modulus (wsz a)) (Z.shiftr w (Z.of_nat k)) (Z.of_nat k) s <> None.
Proof.
  induction n as [|n IH]; intros k fuel s a Hw Hbn Hp Hro; (destruct fuel as [|fuel]; [nonone|]).
  - cbn [fdo_bits]. unfold shr_usize. rewrite Z.shiftr_shiftr by lia.
    rewrite Z.shiftr_div_pow2 by lia. rewrite Z.div_small; [nonone|]. rewrite Nat.add_0_r in Hw. exact Hw.
  - cbn [fdo_bits]. fold a. unfold shr_usize. rewrite Z.shiftr_shiftr by lia.
    assert (Hb : bit_ops a base next w k (S n) =
      (if Z.testbit w (Z.of_nat k + 1) then [((base + (next + Z.of_nat k * wsz a)) mod modulus (wsz a), @None Z)] else [])
      ++ bit_ops a base next w (S k) n).
    { unfold bit_ops. cbn [seq filter]. destruct (Z.testbit w (Z.of_nat k + 1)); reflexivity. }
    rewrite Hb in Hp.
    specialize (IH (S k) fuel). cbv zeta in IH. fold a in IH.
    replace (S k + n)%nat with (k + S n)%nat in IH by lia.
    replace (Z.of_nat (S k)) with (Z.of_nat k + 1) in IH by lia.
    destruct (Z.eqb_spec (Z.shiftr w (Z.of_nat k + 1)) 0) as [E0|E0]; [nonone|].
    assert (T : Z.land (Z.shiftr w (Z.of_nat k + 1)) 1 = if Z.testbit w (Z.of_nat k + 1) then 1 else 0).
    { change 1 with (2 ^ 1 - 1) at 2. rewrite land_low by lia. change (2 ^ 1) with 2.
      rewrite Zmod_odd, <- Z.bit0_odd, Z.shiftr_spec by lia. cbn [Z.add]. reflexivity. }
    rewrite T. clear T.
    assert (Hp' : forall o, In o (bit_ops a base next w (S k) n) -> can (ac_r ac) (fst o) (wsz a) /\ can (ac_w ac) (fst o) (wsz a)).
    { intros o Ho. apply Hp. apply in_or_app. now right. }
    destruct (Z.testbit w (Z.of_nat k + 1)); cbn [Z.eqb negb].
    + destruct (radd _ _ _ _) as [v|x|x|] eqn:E; cbn [fbind]; [|nonone..].
      pose proof (wsz_pos a) as Hws. pose proof (mod_pos a) as HM.
      pose proof (Z.mod_pos_bound (base + next) (modulus (wsz a)) ltac:(lia)) as HB.
      apply radd_ok in E; [|lia|nia]. fold a in E. rewrite Zplus_mod_idemp_l in E.
      replace (base + next + Z.of_nat k * wsz a) with (base + (next + Z.of_nat k * wsz a)) in E by lia. subst v.
      destruct (Hp _ (or_introl eq_refl)) as [Q1 Q2]. cbn [fst] in Q1, Q2.
      rewrite (foff_ok a _ _ _ Q1 Q2 Hro). cbn [fbind]. apply IH; auto.
    + apply IH; auto.
Qed.

Lemma frelr_ok e base : forall l fuel p next s,
  let a := e_arch e in
  wf_mem (rm s) -> 0 <= base -> 0 <= next ->
  words_at a (rm s) p l ->
  Z.of_nat (length l) * wsz a < modulus (wsz a) ->
  clear_words a (offs_ops a base (relr_offsets (wsz a) next l)) p (length l) ->
  can_words a (ac_r ac) p (length l) ->
  (forall o, In o (offs_ops a base (relr_offsets (wsz a) next l)) -> can (ac_r ac) (fst o) (wsz a) /\ can (ac_w ac) (fst o) (wsz a)) ->
  (forall x, ro s x = false) ->
  (forall cur, cur = (base + next) mod modulus (wsz a) \/ match l with w :: _ => Z.even w = true | [] => True end ->
  fdo_relr ac fuel e base (p mod modulus (wsz a)) ((p + Z.of_nat (length l) * wsz a) mod modulus (wsz a)) cur s <> None).
Proof.
  induction l as [|w l IH]; intros fuel p next s a W Hb Hnx Hw Hz Hc Hr Hp Hro cur Hcur; (destruct fuel as [|fuel]; [nonone|]).
  - cbn [fdo_relr length]. rewrite Z.mul_0_l, Z.add_0_r, Z.eqb_refl. nonone.
  - pose proof (wsz_pos a) as Hws. pose proof (mod_pos a) as HM.
    assert (Rw : 0 <= w < modulus (wsz a)).
    { apply words_cons in Hw. destruct Hw as [<- _]. apply ldw_range; auto. }
    cbn [length] in Hz, Hc, Hr |- *.
    set (n := length l) in *.
    assert (Hz' : Z.of_nat n * wsz a < modulus (wsz a)) by lia.
    apply words_cons in Hw. destruct Hw as [Hw1 Hw].
    apply can_words_S in Hr. destruct Hr as [R1 Hr].
    cbn [fdo_relr]. fold a. rewrite !padd_mod, (can_word a _ R1), Hw1. unfold sizeof_relr.
    rewrite ptr_neq by lia. rewrite even_land.
    replace (p + Z.of_nat (S n) * wsz a) with (p + wsz a + Z.of_nat n * wsz a) by lia.
    cbn [relr_offsets] in Hc, Hp.
    destruct (Z.even w) eqn:Ew.
    + set (o1 := ((base + w) mod modulus (wsz a), @None Z)).
      change (offs_ops a base (w :: relr_offsets (wsz a) (w + wsz a) l)) with (o1 :: offs_ops a base (relr_offsets (wsz a) (w + wsz a) l)) in Hc, Hp.
      destruct (radd e s base w) as [v|x|x|] eqn:E; cbn [fbind]; [|nonone..].
      apply radd_ok in E; [|lia|lia]. fold a in E. subst v.
      destruct (Hp _ (or_introl eq_refl)) as [Q1 Q2]. cbn [fst o1] in Q1, Q2.
      rewrite (foff_ok a _ _ _ Q1 Q2 Hro). cbn [fbind].
      set (s1 := add_offset a base ((base + w) mod modulus (wsz a)) s).
      destruct (radd e s1 _ _) as [v|x|x|] eqn:E; cbn [fbind]; [|nonone..].
      apply radd_ok in E; [|apply Z.mod_pos_bound; lia|lia]. fold a in E. rewrite Zplus_mod_idemp_l in E.
      replace (base + w + wsz a) with (base + (w + wsz a)) in E by lia. subst v.
      apply clear_words_S in Hc. destruct Hc as [_ Hc].
      apply (IH fuel (p + wsz a) (w + wsz a) s1); fold a n; auto.
      * apply (op_wf a base s o1); auto.
      * lia.
      * change s1 with (apply_ops a base s [o1]). apply words_ops; auto.
        eapply clear_words_incl; [|exact Hc]. intros x [<-|[]]. now left.
      * eapply clear_words_incl; [|exact Hc]. intros x Hx. now right.
      * intros o Ho. apply Hp. now right.
    + destruct Hcur as [->|Hcur]; [|congruence].
      rewrite offs_app in Hc, Hp.
      set (ops1 := offs_ops a base (map _ _)) in Hc, Hp.
      set (K := Z.to_nat (8 * wsz a - 1)) in *.
      assert (RK : 0 <= w < 2 ^ (Z.of_nat (0 + K) + 1)).
      { unfold modulus in Rw. replace (Z.of_nat (0 + K) + 1) with (8 * wsz a) by (unfold K; lia). exact Rw. }
      pose proof (fbits_ok e base next w K 0 (S fuel) s) as B. cbv zeta in B. fold a in B.
      change (Z.of_nat 0) with 0 in B. rewrite Z.shiftr_0_r in B.
      specialize (B RK ltac:(lia) ltac:(intros o Ho; apply Hp; apply in_or_app; now left) Hro).
      pose proof (bits_below ac e base ((base + next) mod modulus (wsz a)) (S fuel) w 0 s) as BB.
      destruct (fdo_bits ac (S fuel) e base ((base + next) mod modulus (wsz a)) w 0 s) as [[s1|x|x|]|] eqn:E; cbn [fbind]; [|nonone..|congruence].
      destruct BB as [BB|BB]; [discriminate|].
      apply (f_equal (fun o => match o with Some x => x | None => Running end)) in BB. symmetry in BB. cbv beta iota in BB.
      assert (S1 : s1 = apply_ops a base s ops1).
      { destruct (do_bits_mono e base ((base + next) mod modulus (wsz a)) (S fuel) (S fuel + S K) w 0 s ltac:(lia)) as [D|D]; [congruence|].
        pose proof (do_bits_spec e base next w K 0 (S fuel + S K) s) as S0. cbv zeta in S0. fold a in S0.
        change (Z.of_nat 0) with 0 in S0. rewrite Z.shiftr_0_r in S0.
        destruct (S0 ltac:(lia) RK ltac:(lia)) as [S1|(_ & _ & s' & S1)]; [|congruence].
        rewrite <- D, BB in S1. injection S1 as ->. reflexivity. }
      subst s1. set (s1 := apply_ops a base s ops1) in *. clear E BB B.
      pose proof (Z.mod_pos_bound (base + next) (modulus (wsz a)) ltac:(lia)) as HB.
      destruct (radd e s1 _ _) as [v|x|x|] eqn:E; cbn [fbind]; [|nonone..].
      apply radd_ok in E; [|lia|nia]. fold a in E. rewrite Zplus_mod_idemp_l in E.
      replace (base + next + (wsz a * 8 - 1) * wsz a) with (base + (next + (8 * wsz a - 1) * wsz a)) in E by lia. subst v.
      apply clear_words_S in Hc. destruct Hc as [_ Hc].
      apply (IH fuel (p + wsz a) (next + (8 * wsz a - 1) * wsz a) s1); fold a n; auto.
      * apply ops_wf; auto.
      * nia.
      * apply words_ops; auto. eapply clear_words_incl; [|exact Hc]. intros x Hx. apply in_or_app. now left.
      * eapply clear_words_incl; [|exact Hc]. intros x Hx. apply in_or_app. now right.
      * intros o Ho. apply Hp. apply in_or_app. now right.
      * intros x. unfold s1. rewrite (proj2 (ops_rest a base ops1 s)). apply Hro.
Qed.

Lemma fphdrs_ok e base sz s : forall l fuel p r,
  let a := e_arch e in
  0 < sz -> Z.of_nat l * sz < modulus (wsz a) ->
  (forall i, (i < l)%nat -> can (ac_r ac) ((p + Z.of_nat i * sz) mod modulus (wsz a)) (sizeof_phdr a)) ->
  fscan_phdrs ac fuel e base sz (p mod modulus (wsz a)) ((p + Z.of_nat l * sz) mod modulus (wsz a)) s r <> None.
Proof.
  induction l as [|l IH]; intros fuel p r a Hz HM Hl; (destruct fuel as [|fuel]; [nonone|]).
  - cbn. rewrite Z.add_0_r, Z.eqb_refl. nonone.
  - pose proof (Hl 0%nat ltac:(lia)) as H0. rewrite Z.mul_0_l, Z.add_0_r in H0.
    cbn [fscan_phdrs]. fold a. rewrite padd_mod. rewrite ptr_neq by lia.
    assert (Q1 : may_read ac (p mod modulus (wsz a)) 4 = true).
    { apply can_read. eapply can_sub; [exact H0|lia|]. destruct a; cbn; lia. }
    assert (Q2 : may_read ac (p mod modulus (wsz a) + o_p_vaddr a) (word a) = true).
    { apply can_word. eapply can_sub; [exact H0| |]; destruct a; cbn; lia. }
    assert (Q3 : may_read ac (p mod modulus (wsz a) + o_p_memsz a) (word a) = true).
    { apply can_word. eapply can_sub; [exact H0| |]; destruct a; cbn; lia. }
    rewrite Q1, Q2, Q3. cbn [andb].
    replace (p + Z.of_nat (S l) * sz) with (p + sz + Z.of_nat l * sz) by lia.
    assert (Hl' : forall i, (i < l)%nat -> can (ac_r ac) ((p + sz + Z.of_nat i * sz) mod modulus (wsz a)) (sizeof_phdr a)).
    { intros i Hi. specialize (Hl (S i) ltac:(lia)). replace (p + sz + Z.of_nat i * sz) with (p + Z.of_nat (S i) * sz) by lia. exact Hl. }
    assert (HM' : Z.of_nat l * sz < modulus (wsz a)) by lia.
    specialize (fun r => IH fuel (p + sz) r Hz HM' Hl'). fold a in IH.
    repeat match goal with |- (if ?b then _ else _) <> None => destruct b; auto end; nonone.
Qed.
End F.
