(** The loops of [relocate], each against the decoded table it walks. *)
From Verif Require Import Machine MachineFacts LayoutModel RelocModel RelocSpec RelocFacts.

Notation op := (Z * option Z)%type (only parsing).

(** ** Stack *)
Lemma skip_env_spec a m : forall env fuel p rest,
  (length env < fuel)%nat -> Forall (fun w => w <> 0) env ->
  words_at a m p (env ++ 0 :: rest) ->
  skip_env fuel a m (p mod modulus (wsz a)) =
    Some ((p + Z.of_nat (S (length env)) * wsz a) mod modulus (wsz a)).
Proof.
  induction env as [|w env IH]; intros fuel p rest Hf Hn Hw; (destruct fuel as [|fuel]; [cbn in Hf; lia|]);
    cbn [app] in Hw; apply words_cons in Hw; destruct Hw as [Hw1 Hw2]; cbn [skip_env]; rewrite Hw1.
  - rewrite Z.eqb_refl, padd_mod. f_equal. f_equal. cbn [length]. lia.
  - pose proof (Forall_inv Hn) as Ht. pose proof (Forall_inv_tail Hn) as Hn'. cbn beta in Ht. rewrite (proj2 (Z.eqb_neq _ 0)) by assumption.
    rewrite padd_mod. rewrite (IH fuel _ rest); auto; [|cbn in Hf; lia].
    f_equal. f_equal. cbn [length]. lia.
Qed.

Lemma value_of_app t l r : value_of t (l ++ [r]) = if fst r =? t then snd r else value_of t l.
Proof. unfold value_of. rewrite rev_app_distr. cbn. destruct (fst r =? t); reflexivity. Qed.

(** Value under an accumulator: scanning [l] starting from [d]. *)
Definition value_from (d t : Z) (l : list (Z * Z)) : Z :=
  match find (fun r => fst r =? t) (rev l) with Some r => snd r | None => d end.

Lemma value_from_cons d t r l :
  value_from d t (r :: l) = value_from (if fst r =? t then snd r else d) t l.
Proof.
  unfold value_from. cbn [rev].
  assert (F : forall l0, find (fun r0 : Z * Z => fst r0 =? t) (l0 ++ [r]) =
     match find (fun r0 => fst r0 =? t) l0 with Some x => Some x | None => if fst r =? t then Some r else None end).
  { induction l0 as [|x l0 IH]; cbn; [reflexivity|]. destruct (fst x =? t); auto. }
  rewrite F. destruct (find _ (rev l)); auto. destruct (fst r =? t); auto.
Qed.

Lemma scan_aux_spec a m : forall aux fuel p rest i,
  (length aux < fuel)%nat -> Forall (fun r => 0 < fst r < 2 ^ 32) aux ->
  words_at a m p (pairs aux ++ 0 :: rest) ->
  scan_aux fuel a m (p mod modulus (wsz a)) i =
    Some (AI (value_from (auxv_base i) AT_BASE aux)
             (value_from (auxv_page_size i) AT_PAGESZ aux)
             (value_from (auxv_entry i) AT_ENTRY aux)).
Proof.
  induction aux as [|[t v] aux IH]; intros fuel p rest i Hf Hn Hw; (destruct fuel as [|fuel]; [cbn in Hf; lia|]).
  - cbn [pairs flat_map app] in Hw. apply words_cons in Hw. destruct Hw as [Hw1 Hw2].
    cbn [scan_aux]. rewrite Hw1. rewrite Z.mod_0_l by lia. cbn. destruct i; reflexivity.
  - cbn [pairs flat_map app fst snd] in Hw. apply words_cons in Hw. destruct Hw as [Hw1 Hw].
    apply words_cons in Hw. destruct Hw as [Hw2 Hw].
    pose proof (Forall_inv Hn) as Ht. pose proof (Forall_inv_tail Hn) as Hn'. cbn [fst] in Ht.
    cbn [scan_aux]. rewrite Hw1, !padd_mod, Hw2. rewrite Z.mod_small by (cbn; lia).
    replace (p + 2 * wsz a) with (p + wsz a + wsz a) by lia.
    rewrite !value_from_cons. cbn [fst snd].
    assert (L : (length aux < fuel)%nat) by (cbn in Hf; lia).
    clear Hw1. unfold AT_BASE, AT_PAGESZ, AT_ENTRY, AT_NULL in *.
    destruct (t =? 7) eqn:E1.
    { apply Z.eqb_eq in E1. subst t. cbn [Z.eqb Pos.eqb]. apply (IH fuel _ rest (AI _ _ _)); auto. }
    destruct (t =? 6) eqn:E2.
    { apply Z.eqb_eq in E2. subst t. cbn [Z.eqb Pos.eqb]. apply (IH fuel _ rest (AI _ _ _)); auto. }
    destruct (t =? 9) eqn:E3.
    { apply Z.eqb_eq in E3. subst t. cbn [Z.eqb Pos.eqb]. apply (IH fuel _ rest (AI _ _ _)); auto. }
    rewrite (proj2 (Z.eqb_neq t 0)) by lia.
    apply (IH fuel _ rest i); auto.
Qed.

Lemma read_aux_spec a m p env aux fuel :
  (length env < fuel)%nat -> (length aux < fuel)%nat ->
  0 <= p < modulus (wsz a) -> stack_at a m p env aux ->
  read_aux fuel a m p =
    Some (AI (value_of AT_BASE aux) (value_of AT_PAGESZ aux) (value_of AT_ENTRY aux)).
Proof.
  intros H1 H2 Hp (Hw & He & Ha). unfold read_aux.
  cbn [app] in Hw.
  assert (Hw' : words_at a m (p + Z.of_nat (S (length env)) * wsz a) (pairs aux ++ [0])).
  { intros i w Hi. specialize (Hw (S (length env) + i)%nat w).
    replace (p + Z.of_nat (S (length env)) * wsz a + Z.of_nat i * wsz a)
      with (p + Z.of_nat (S (length env) + i) * wsz a) by lia.
    apply Hw. rewrite nth_error_app2 by lia.
    replace (S (length env) + i - length env)%nat with (S i) by lia. exact Hi. }
  rewrite <- (Z.mod_small p (modulus (wsz a))) by lia.
  rewrite (skip_env_spec a m env fuel p (pairs aux ++ [0])); auto.
  rewrite (scan_aux_spec a m aux fuel _ []); auto.
Qed.

(** ** Dynamic section *)
Definition ptr_from (a : arch) (base d t : Z) (l : list (Z * Z)) : Z :=
  match find (fun r => fst r =? t) (rev l) with Some r => (base + snd r) mod modulus (wsz a) | None => d end.

Lemma ptr_from_cons a base d t r l :
  ptr_from a base d t (r :: l) = ptr_from a base (if fst r =? t then (base + snd r) mod modulus (wsz a) else d) t l.
Proof.
  unfold ptr_from. cbn [rev].
  assert (F : forall l0, find (fun r0 : Z * Z => fst r0 =? t) (l0 ++ [r]) =
     match find (fun r0 => fst r0 =? t) l0 with Some x => Some x | None => if fst r =? t then Some r else None end).
  { induction l0 as [|x l0 IH]; cbn; [reflexivity|]. destruct (fst x =? t); auto. }
  rewrite F. destruct (find _ (rev l)); auto. destruct (fst r =? t); auto.
Qed.

Lemma scan_dyn_spec e s base : forall dyn fuel p rest d,
  let a := e_arch e in
  (length dyn < fuel)%nat -> Forall (fun r => fst r <> 0) dyn ->
  words_at a (rm s) p (pairs dyn ++ 0 :: rest) ->
  scan_dyn fuel e s base (p mod modulus (wsz a)) d =
    Ok (DI (ptr_from a base (rela_ptr d) DT_RELA dyn) (value_from (rela_sz d) DT_RELASZ dyn)
           (ptr_from a base (rel_ptr d) DT_REL dyn) (value_from (rel_sz d) DT_RELSZ dyn)
           (ptr_from a base (relr_ptr d) DT_RELR dyn) (value_from (relr_sz d) DT_RELRSZ dyn)) \/
  e_debug e = true /\ ~ entry_sizes a dyn /\ scan_dyn fuel e s base (p mod modulus (wsz a)) d = Trapped s.
Proof.
  induction dyn as [|[t v] dyn IH]; intros fuel p rest d a Hf Hn Hw; (destruct fuel as [|fuel]; [cbn in Hf; lia|]).
  - cbn [pairs flat_map app] in Hw. apply words_cons in Hw. destruct Hw as [Hw1 Hw2].
    left. cbn [scan_dyn]. fold a. rewrite Hw1. cbn. rewrite !andb_false_r. destruct d; reflexivity.
  - cbn [pairs flat_map app fst snd] in Hw. apply words_cons in Hw. destruct Hw as [Hw1 Hw].
    apply words_cons in Hw. destruct Hw as [Hw2 Hw].
    pose proof (Forall_inv Hn) as Ht. pose proof (Forall_inv_tail Hn) as Hn'. cbn [fst] in Ht.
    assert (L : (length dyn < fuel)%nat) by (cbn in Hf; lia).
    cbn [scan_dyn]. fold a. rewrite Hw1, !padd_mod, Hw2.
    replace (p + 2 * wsz a) with (p + wsz a + wsz a) by lia.
    rewrite !value_from_cons, !ptr_from_cons. cbn [fst snd].
    unfold padd, wrapping_add.
    specialize (fun d => IH fuel (p + wsz a + wsz a) rest d L Hn' Hw). cbv zeta in IH. fold a in IH.
    assert (NE : ~ entry_sizes a dyn -> ~ entry_sizes a ((t, v) :: dyn)) by (intros N Q; apply N; inversion Q; assumption).
    assert (IH' : forall d, _ \/ e_debug e = true /\ ~ entry_sizes a ((t, v) :: dyn) /\ _) by
      (intros d0; destruct (IH d0) as [Q|(Q1 & Q2 & Q3)]; [left; exact Q|right; split; [exact Q1|split; [exact (NE Q2)|exact Q3]]]).
    clear IH. rename IH' into IH.
    clear Hw1. unfold DT_RELA, DT_RELASZ, DT_REL, DT_RELSZ, DT_RELR, DT_RELRSZ, DT_RELAENT, DT_RELENT, DT_RELRENT, DT_NULL in *.
    destruct (t =? 7) eqn:E1; [apply Z.eqb_eq in E1; subst t; cbn [Z.eqb Pos.eqb]; apply (IH (DI _ _ _ _ _ _))|].
    destruct (t =? 8) eqn:E2; [apply Z.eqb_eq in E2; subst t; cbn [Z.eqb Pos.eqb]; apply (IH (DI _ _ _ _ _ _))|].
    destruct (t =? 17) eqn:E3.
    { apply Z.eqb_eq in E3; subst t; cbn [Z.eqb Pos.eqb]; rewrite ?andb_false_r; apply (IH (DI _ _ _ _ _ _)). }
    destruct (t =? 18) eqn:E4.
    { apply Z.eqb_eq in E4; subst t; cbn [Z.eqb Pos.eqb]; rewrite ?andb_false_r; apply (IH (DI _ _ _ _ _ _)). }
    destruct (t =? 36) eqn:E5.
    { apply Z.eqb_eq in E5; subst t; cbn [Z.eqb Pos.eqb]; rewrite ?andb_false_r; apply (IH (DI _ _ _ _ _ _)). }
    destruct (t =? 35) eqn:E6.
    { apply Z.eqb_eq in E6; subst t; cbn [Z.eqb Pos.eqb]; rewrite ?andb_false_r; apply (IH (DI _ _ _ _ _ _)). }
    rewrite (proj2 (Z.eqb_neq t 0)) by assumption.
    destruct (e_debug e) eqn:D; cbn [andb].
    + assert (BAD : (t = 9 /\ v <> 3 * wsz a \/ t = 19 /\ v <> 2 * wsz a \/ t = 37 /\ v <> wsz a) ->
        ~ entry_sizes a ((t, v) :: dyn)).
      { intros B Q. apply Forall_inv in Q. cbn [fst snd] in Q. unfold DT_RELAENT, DT_RELENT, DT_RELRENT in Q.
        destruct Q as (Q1 & Q2 & Q3). intuition. }
      destruct (Z.eqb_spec t 9); [destruct (Z.eqb_spec v (sizeof_rela a)); [apply IH|right; auto 10]|].
      destruct (Z.eqb_spec t 19); [destruct (Z.eqb_spec v (sizeof_rel a)); [apply IH|right; auto 10]|].
      destruct (Z.eqb_spec t 37); [destruct (Z.eqb_spec v (sizeof_relr a)); [apply IH|right; auto 10]|].
      apply IH.
    + apply IH.
Qed.

(** ** RELA *)
Definition rela_ops (a : arch) (base : Z) (l : list (Z * Z * Z)) : list op :=
  map (fun f => (fst f, Some (snd f))) (rela_fixups a base l).

Lemma clear_words_add a l p k n : clear_words a l p (k + n) -> clear_words a l (p + Z.of_nat k * wsz a) n.
Proof.
  intros H i Hi. specialize (H (k + i)%nat ltac:(lia)).
  replace (p + Z.of_nat k * wsz a + Z.of_nat i * wsz a) with (p + Z.of_nat (k + i) * wsz a) by lia. exact H.
Qed.

Lemma words_tail a m p l1 l2 : words_at a m p (l1 ++ l2) -> words_at a m (p + Z.of_nat (length l1) * wsz a) l2.
Proof.
  intros H i w Hi. specialize (H (length l1 + i)%nat w).
  replace (p + Z.of_nat (length l1) * wsz a + Z.of_nat i * wsz a) with (p + Z.of_nat (length l1 + i) * wsz a) by lia.
  apply H. rewrite nth_error_app2 by lia. replace (length l1 + i - length l1)%nat with i by lia. exact Hi.
Qed.

Lemma apply_cons a off s o l : apply_ops a off s (o :: l) = apply_ops a off (apply_op a off s o) l.
Proof. reflexivity. Qed.

Lemma words_op a off o s p ws' : (forall i, (i < length ws')%nat -> apart (fst o) (wsz a) ((p + Z.of_nat i * wsz a) mod modulus (wsz a)) (wsz a)) ->
  words_at a (rm s) p ws' -> words_at a (rm (apply_op a off s o)) p ws'.
Proof.
  intros C H. change (apply_op a off s o) with (apply_ops a off s [o]). apply words_ops; auto.
  intros i Hi x [<-|[]]. apply C; auto.
Qed.

Lemma do_rela_step fuel a base p k o i ad s :
  0 < k < modulus (wsz a) ->
  words_at a (rm s) p [o; i; ad] ->
  do_rela (S fuel) a base (p mod modulus (wsz a)) ((p + k) mod modulus (wsz a)) s =
  if relative a i then
    do_rela fuel a base ((p + 3 * wsz a) mod modulus (wsz a)) ((p + k) mod modulus (wsz a))
      (apply_op a base s ((base + o) mod modulus (wsz a), Some ((base + ad) mod modulus (wsz a))))
  else Trapped s.
Proof.
  intros Hk Hw.
  apply words_cons in Hw. destruct Hw as [Hw1 Hw].
  apply words_cons in Hw. destruct Hw as [Hw2 Hw].
  apply words_cons in Hw. destruct Hw as [Hw3 Hw].
  cbn [do_rela]. rewrite !padd_mod.
  replace (p + 2 * wsz a) with (p + wsz a + wsz a) by lia.
  rewrite Hw1, Hw2, Hw3. unfold sizeof_rela. rewrite ptr_neq by lia.
  rewrite <- relative_type. destruct (relative a i); [|reflexivity].
  unfold wrapping_add, apply_op. cbn [fst snd]. rewrite (Z.add_comm o), (Z.add_comm ad). reflexivity.
Qed.

Lemma do_rela_spec a base : forall l fuel p s n,
  n = length (triples l) ->
  (length l < fuel)%nat -> wf_mem (rm s) ->
  words_at a (rm s) p (triples l) ->
  Z.of_nat n * wsz a < modulus (wsz a) ->
  clear_words a (rela_ops a base l) p n ->
  let r := do_rela fuel a base (p mod modulus (wsz a)) ((p + Z.of_nat n * wsz a) mod modulus (wsz a)) s in
  if forallb (fun r => relative a (snd (fst r))) l
  then r = Ok (apply_ops a base s (rela_ops a base l))
  else exists s', r = Trapped s'.
Proof.
  induction l as [|[[o i] ad] l IH]; intros fuel p s n Hn Hf W Hw Hz Hc r; (destruct fuel as [|fuel]; [cbn in Hf; lia|]).
  - cbn in Hn. subst n. cbn. rewrite Z.add_0_r, Z.eqb_refl. reflexivity.
  - pose proof (wsz_pos a) as Hws.
    change (triples ((o, i, ad) :: l)) with ([o; i; ad] ++ triples l) in Hw, Hn.
    rewrite app_length in Hn. cbn [length] in Hn.
    assert (Hw0 : words_at a (rm s) p [o; i; ad]).
    { intros j w Hj. apply Hw. rewrite nth_error_app1; auto. apply nth_error_Some. congruence. }
    apply words_tail in Hw. cbn [length] in Hw, Hf.
    subst r. rewrite (do_rela_step _ _ _ _ _ o i ad) by (auto; lia).
    cbn [forallb fst snd].
    destruct (relative a i) eqn:R; cbn [andb]; [|eauto].
    assert (E : rela_ops a base ((o, i, ad) :: l) =
        ((base + o) mod modulus (wsz a), Some ((base + ad) mod modulus (wsz a))) :: rela_ops a base l).
    { unfold rela_ops, rela_fixups. cbn [filter fst snd]. rewrite R. reflexivity. }
    rewrite E in Hc |- *. rewrite apply_cons.
    set (o1 := ((base + o) mod modulus (wsz a), Some ((base + ad) mod modulus (wsz a)))) in *.
    set (n' := length (triples l)) in *.
    subst n. apply clear_words_add in Hc.
    replace (p + Z.of_nat (3 + n') * wsz a) with (p + Z.of_nat 3 * wsz a + Z.of_nat n' * wsz a) by lia.
    change (p + 3 * wsz a) with (p + Z.of_nat 3 * wsz a).
    apply (IH fuel (p + Z.of_nat 3 * wsz a) (apply_op a base s o1) n' eq_refl).
    * lia.
    * apply op_wf; auto.
    * apply words_op; auto. intros j Hj. apply (Hc j Hj). now left.
    * lia.
    * eapply clear_words_incl; [|exact Hc]. intros x Hx. now right.
Qed.

(** ** REL *)
Definition rel_ops (a : arch) (base : Z) (l : list (Z * Z)) : list op :=
  map (fun r => ((base + fst r) mod modulus (wsz a), None)) (filter (fun r => relative a (snd r)) l).

Lemma do_rel_step fuel a base p k o i s :
  0 < k < modulus (wsz a) ->
  words_at a (rm s) p [o; i] ->
  do_rel (S fuel) a base (p mod modulus (wsz a)) ((p + k) mod modulus (wsz a)) s =
  if relative a i then
    do_rel fuel a base ((p + 2 * wsz a) mod modulus (wsz a)) ((p + k) mod modulus (wsz a))
      (apply_op a base s ((base + o) mod modulus (wsz a), None))
  else Trapped s.
Proof.
  intros Hk Hw.
  apply words_cons in Hw. destruct Hw as [Hw1 Hw].
  apply words_cons in Hw. destruct Hw as [Hw2 Hw].
  cbn [do_rel]. rewrite !padd_mod.
  rewrite Hw1, Hw2. unfold sizeof_rel. rewrite ptr_neq by lia.
  rewrite <- relative_type. destruct (relative a i); [|reflexivity].
  unfold wrapping_add, apply_op, add_offset. cbn [fst snd]. rewrite (Z.add_comm o). reflexivity.
Qed.

Lemma do_rel_spec a base : forall l fuel p s n,
  n = length (pairs l) ->
  (length l < fuel)%nat -> wf_mem (rm s) ->
  words_at a (rm s) p (pairs l) ->
  Z.of_nat n * wsz a < modulus (wsz a) ->
  clear_words a (rel_ops a base l) p n ->
  let r := do_rel fuel a base (p mod modulus (wsz a)) ((p + Z.of_nat n * wsz a) mod modulus (wsz a)) s in
  if forallb (fun r => relative a (snd r)) l
  then r = Ok (apply_ops a base s (rel_ops a base l))
  else exists s', r = Trapped s'.
Proof.
  induction l as [|[o i] l IH]; intros fuel p s n Hn Hf W Hw Hz Hc r; (destruct fuel as [|fuel]; [cbn in Hf; lia|]).
  - cbn in Hn. subst n. cbn. rewrite Z.add_0_r, Z.eqb_refl. reflexivity.
  - pose proof (wsz_pos a) as Hws.
    change (pairs ((o, i) :: l)) with ([o; i] ++ pairs l) in Hw, Hn.
    rewrite app_length in Hn. cbn [length] in Hn.
    assert (Hw0 : words_at a (rm s) p [o; i]).
    { intros j w Hj. apply Hw. rewrite nth_error_app1; auto. apply nth_error_Some. congruence. }
    apply words_tail in Hw. cbn [length] in Hw, Hf.
    subst r. rewrite (do_rel_step _ _ _ _ _ o i) by (auto; lia).
    cbn [forallb fst snd].
    destruct (relative a i) eqn:R; cbn [andb]; [|eauto].
    assert (E : rel_ops a base ((o, i) :: l) = ((base + o) mod modulus (wsz a), None) :: rel_ops a base l).
    { unfold rel_ops. cbn [filter fst snd]. rewrite R. reflexivity. }
    rewrite E in Hc |- *. rewrite apply_cons.
    set (o1 := ((base + o) mod modulus (wsz a), @None Z)) in *.
    set (n' := length (pairs l)) in *.
    subst n. apply clear_words_add in Hc.
    replace (p + Z.of_nat (2 + n') * wsz a) with (p + Z.of_nat 2 * wsz a + Z.of_nat n' * wsz a) by lia.
    change (p + 2 * wsz a) with (p + Z.of_nat 2 * wsz a).
    apply (IH fuel (p + Z.of_nat 2 * wsz a) (apply_op a base s o1) n' eq_refl).
    * lia.
    * apply op_wf; auto.
    * apply words_op; auto. intros j Hj. apply (Hc j Hj). now left.
    * lia.
    * eapply clear_words_incl; [|exact Hc]. intros x Hx. now right.
Qed.

(** ** RELR *)
Definition offs_ops (a : arch) (base : Z) (l : list Z) : list op :=
  map (fun o => ((base + o) mod modulus (wsz a), None)) l.

Lemma radd_spec e s x y : radd e s x y = Ok ((x + y) mod modulus (wsz (e_arch e))) \/
  e_debug e = true /\ modulus (wsz (e_arch e)) <= x + y /\ radd e s x y = Panicked s \/ (x + y < 0)%Z.
Proof.
  unfold radd. destruct (x + y <? modulus _) eqn:E.
  - apply Z.ltb_lt in E. destruct (Z.ltb_spec (x + y) 0); auto.
    left. rewrite Z.mod_small; auto; lia.
  - apply Z.ltb_ge in E. destruct (e_debug e); auto.
Qed.

Lemma mod_le_self x y : 0 <= x -> 0 < y -> x mod y <= x.
Proof. intros. apply Z.mod_le; lia. Qed.

Definition bit_ops (a : arch) (base next w : Z) (k n : nat) : list op :=
  offs_ops a base (map (fun i => next + Z.of_nat i * wsz a) (filter (fun i => Z.testbit w (Z.of_nat i + 1)) (seq k n))).

Lemma shr0_bits w k : 0 <= w -> 0 <= k -> Z.shiftr w k = 0 -> forall j, k <= j -> Z.testbit w j = false.
Proof.
  intros Hw Hk E j Hj. replace j with ((j - k) + k) by lia. rewrite <- Z.shiftr_spec by lia.
  rewrite E. apply Z.bits_0.
Qed.

Lemma filter_false {A} (f : A -> bool) l : (forall x, In x l -> f x = false) -> filter f l = [].
Proof.
  induction l as [|x l IH]; intros H; cbn; auto. rewrite H by now left.
  apply IH. intros y Hy. apply H. now right.
Qed.

Lemma do_bits_spec e base next w : forall n k fuel s,
  let a := e_arch e in
  (n < fuel)%nat -> 0 <= w < 2 ^ (Z.of_nat (k + n) + 1) -> 0 <= base + next ->
  let r := do_bits fuel e base ((base + next) mod modulus (wsz a)) (Z.shiftr w (Z.of_nat k)) (Z.of_nat k) s in
  r = Ok (apply_ops a base s (bit_ops a base next w k n)) \/
  e_debug e = true /\ modulus (wsz a) <= base + next + Z.of_nat (k + n) * wsz a /\ exists s', r = Panicked s'.
Proof.
  induction n as [|n IH]; intros k fuel s a Hf Hw Hbn r; (destruct fuel as [|fuel]; [lia|]).
  - subst r. left. cbn [do_bits]. unfold shr_usize. rewrite Z.shiftr_shiftr by lia.
    rewrite Z.shiftr_div_pow2 by lia. rewrite Z.div_small.
    + reflexivity.
    + rewrite Nat.add_0_r in Hw. exact Hw.
  - subst r. cbn [do_bits]. fold a. unfold shr_usize. rewrite Z.shiftr_shiftr by lia.
    assert (Hb : forall s1, bit_ops a base next w k (S n) =
      (if Z.testbit w (Z.of_nat k + 1) then [((base + (next + Z.of_nat k * wsz a)) mod modulus (wsz a), @None Z)] else [])
      ++ bit_ops a base next w (S k) n /\ apply_ops a base s1 [] = s1).
    { intros s1. split; [|reflexivity]. unfold bit_ops. cbn [seq filter].
      destruct (Z.testbit w (Z.of_nat k + 1)); reflexivity. }
    specialize (IH (S k) fuel). cbv zeta in IH. fold a in IH.
    replace (S k + n)%nat with (k + S n)%nat in IH by lia.
    replace (Z.of_nat (S k)) with (Z.of_nat k + 1) in IH by lia.
    destruct (Z.eqb_spec (Z.shiftr w (Z.of_nat k + 1)) 0) as [E0|E0].
    { left. f_equal. rewrite (proj1 (Hb s)).
      rewrite (shr0_bits w (Z.of_nat k + 1)) by lia. cbn [app].
      unfold bit_ops. rewrite filter_false; [reflexivity|].
      intros j Hj. apply in_seq in Hj. apply (shr0_bits w (Z.of_nat k + 1)); lia. }
    assert (T : Z.land (Z.shiftr w (Z.of_nat k + 1)) 1 = if Z.testbit w (Z.of_nat k + 1) then 1 else 0).
    { change 1 with (2 ^ 1 - 1) at 2. rewrite land_low by lia. change (2 ^ 1) with 2.
      rewrite Zmod_odd, <- Z.bit0_odd, Z.shiftr_spec by lia. cbn [Z.add]. reflexivity. }
    rewrite T. rewrite (proj1 (Hb s)). clear T.
    destruct (Z.testbit w (Z.of_nat k + 1)); cbn [Z.eqb negb].
    + destruct (radd_spec e s ((base + next) mod modulus (wsz a)) (Z.of_nat k * wsz a)) as [E|[(D & G & E)|N]].
      * rewrite E. cbn [rbind]. fold a. rewrite Zplus_mod_idemp_l.
        rewrite apply_app. change (apply_ops a base s [((base + (next + Z.of_nat k * wsz a)) mod modulus (wsz a), None)])
          with (add_offset a base ((base + (next + Z.of_nat k * wsz a)) mod modulus (wsz a)) s).
        replace (base + next + Z.of_nat k * wsz a) with (base + (next + Z.of_nat k * wsz a)) by lia.
        apply IH; auto. lia.
      * right. rewrite E. cbn [rbind]. split; [exact D|]. split; [|eauto]. fold a in G.
        pose proof (mod_le_self (base + next) (modulus (wsz a)) Hbn ltac:(pose proof (mod_pos a); lia)).
        pose proof (wsz_pos a). nia.
      * exfalso. pose proof (Z.mod_pos_bound (base + next) (modulus (wsz a)) ltac:(pose proof (mod_pos a); lia)).
        pose proof (wsz_pos a). nia.
    + cbn [app]. apply IH; auto. lia.
Qed.

Lemma even_land w : (Z.land w 1 =? 0) = Z.even w.
Proof.
  change 1 with (2 ^ 1 - 1). rewrite land_low by lia. change (2 ^ 1) with 2. rewrite Zmod_even.
  destruct (Z.even w); reflexivity.
Qed.

Lemma offs_app a base l1 l2 : offs_ops a base (l1 ++ l2) = offs_ops a base l1 ++ offs_ops a base l2.
Proof. apply map_app. Qed.

Lemma do_relr_spec e base : forall l fuel p next s,
  let a := e_arch e in
  (length l + 64 < fuel)%nat -> wf_mem (rm s) -> 0 <= base -> 0 <= next ->
  words_at a (rm s) p l ->
  Z.of_nat (length l) * wsz a < modulus (wsz a) ->
  clear_words a (offs_ops a base (relr_offsets (wsz a) next l)) p (length l) ->
  (forall cur, cur = (base + next) mod modulus (wsz a) \/ match l with w :: _ => Z.even w = true | [] => True end ->
  let r := do_relr fuel e base (p mod modulus (wsz a))
             ((p + Z.of_nat (length l) * wsz a) mod modulus (wsz a)) cur s in
  r = Ok (apply_ops a base s (offs_ops a base (relr_offsets (wsz a) next l))) \/
  e_debug e = true /\ ~ relr_fits (modulus (wsz a)) (wsz a) base next l /\ exists s', r = Panicked s').
Proof.
  induction l as [|w l IH]; intros fuel p next s a Hf W Hb Hnx Hw Hz Hc cur Hcur; (destruct fuel as [|fuel]; [cbn in Hf; lia|]).
  - left. cbn [do_relr length]. rewrite Z.mul_0_l, Z.add_0_r, Z.eqb_refl. reflexivity.
  - pose proof (wsz_pos a) as Hws. pose proof (mod_pos a) as HM.
    assert (Rw : 0 <= w < modulus (wsz a)).
    { apply words_cons in Hw. destruct Hw as [<- _]. apply ldw_range; auto. }
    cbn [length] in Hz, Hc |- *.
    set (n := length l) in *.
    assert (Hz' : Z.of_nat n * wsz a < modulus (wsz a)) by lia.
    apply words_cons in Hw. destruct Hw as [Hw1 Hw].
    cbn [do_relr]. fold a. rewrite !padd_mod, Hw1. unfold sizeof_relr.
    rewrite ptr_neq by lia. rewrite even_land.
    replace (p + Z.of_nat (S n) * wsz a) with (p + wsz a + Z.of_nat n * wsz a) by lia.
    cbn [relr_offsets] in Hc |- *.
    assert (FT : ~ relr_fits (modulus (wsz a)) (wsz a) base (if Z.even w then w + wsz a else next + (8 * wsz a - 1) * wsz a) l ->
                 ~ relr_fits (modulus (wsz a)) (wsz a) base next (w :: l)).
    { intros N Q. apply N. cbn [relr_fits] in Q. destruct (Z.even w); apply Q. }
    destruct (Z.even w) eqn:Ew.
    + assert (FB : modulus (wsz a) <= base + w + wsz a -> ~ relr_fits (modulus (wsz a)) (wsz a) base next (w :: l)).
      { intros N Q. cbn [relr_fits] in Q. rewrite Ew in Q. lia. }
      set (o1 := ((base + w) mod modulus (wsz a), @None Z)).
      change (offs_ops a base (w :: relr_offsets (wsz a) (w + wsz a) l)) with (o1 :: offs_ops a base (relr_offsets (wsz a) (w + wsz a) l)) in Hc |- *.
      destruct (radd_spec e s base w) as [E|[(D & G & E)|N]];
        [| right; rewrite E; cbn [rbind]; split; [exact D|]; split; [apply FB; fold a in G; lia|eauto] | lia].
      rewrite E. cbn [rbind]. fold a.
      set (s1 := add_offset a base ((base + w) mod modulus (wsz a)) s).
      destruct (radd_spec e s1 ((base + w) mod modulus (wsz a)) (wsz a)) as [E1|[(D & G & E1)|N]];
        [| right; rewrite E1; cbn [rbind]; split; [exact D|]; split; [apply FB; fold a in G;
             pose proof (mod_le_self (base + w) (modulus (wsz a)) ltac:(lia) ltac:(lia)); lia|eauto]
         | pose proof (Z.mod_pos_bound (base + w) (modulus (wsz a)) ltac:(lia)); lia ].
      rewrite E1. cbn [rbind]. fold a. rewrite Zplus_mod_idemp_l.
      replace (base + w + wsz a) with (base + (w + wsz a)) by lia.
      change (apply_ops a base s (o1 :: offs_ops a base (relr_offsets (wsz a) (w + wsz a) l)))
        with (apply_ops a base s1 (offs_ops a base (relr_offsets (wsz a) (w + wsz a) l))).
      apply clear_words_S in Hc. destruct Hc as [_ Hc].
      assert (Q1 : (length l + 64 < fuel)%nat) by (cbn in Hf; lia).
      assert (Q2 : wf_mem (rm s1)) by (apply (op_wf a base s o1); auto).
      assert (Q3 : words_at a (rm s1) (p + wsz a) l).
      { change s1 with (apply_ops a base s [o1]). apply words_ops; auto.
        eapply clear_words_incl; [|exact Hc]. intros x [<-|[]]. now left. }
      assert (Q4 : clear_words a (offs_ops a base (relr_offsets (wsz a) (w + wsz a) l)) (p + wsz a) n).
      { eapply clear_words_incl; [|exact Hc]. intros x Hx. now right. }
      assert (Q5 : 0 <= w + wsz a) by lia.
      pose proof (IH fuel (p + wsz a) (w + wsz a) s1 Q1 Q2 Hb Q5 Q3 Hz' Q4 _ (or_introl eq_refl)) as [R|(R1 & R2 & R3)].
      * left. exact R.
      * right. split; [exact R1|]. split; [apply FT; exact R2|exact R3].
    + assert (FB : modulus (wsz a) <= base + next + (8 * wsz a - 1) * wsz a -> ~ relr_fits (modulus (wsz a)) (wsz a) base next (w :: l)).
      { intros N Q. cbn [relr_fits] in Q. rewrite Ew in Q. lia. }
      destruct Hcur as [->|Hcur]; [|congruence].
      rewrite offs_app in Hc |- *.
      set (ops1 := offs_ops a base (map _ _)) in Hc |- *.
      set (K := Z.to_nat (8 * wsz a - 1)) in *.
      pose proof (do_bits_spec e base next w K 0 (S fuel) s) as B. cbv zeta in B. fold a in B.
      change (Z.of_nat 0) with 0 in B. rewrite Z.shiftr_0_r in B.
      destruct B as [B|(D & G & [s' B])].
      * unfold K. cbn in Hf. lia.
      * unfold modulus in Rw. replace (Z.of_nat (0 + K) + 1) with (8 * wsz a) by (unfold K; lia). exact Rw.
      * lia.
      * rewrite B. cbn [rbind]. fold a.
        change (bit_ops a base next w 0 K) with ops1.
        set (s1 := apply_ops a base s ops1).
        destruct (radd_spec e s1 ((base + next) mod modulus (wsz a)) ((wsz a * 8 - 1) * wsz a)) as [E1|[(D & G & E1)|N]];
          [| right; rewrite E1; cbn [rbind]; split; [exact D|]; split; [apply FB; fold a in G;
               pose proof (mod_le_self (base + next) (modulus (wsz a)) ltac:(lia) ltac:(lia)); nia|eauto]
           | pose proof (Z.mod_pos_bound (base + next) (modulus (wsz a)) ltac:(lia)); nia ].
        rewrite E1. cbn [rbind]. fold a. rewrite Zplus_mod_idemp_l.
        replace (base + next + (wsz a * 8 - 1) * wsz a) with (base + (next + (8 * wsz a - 1) * wsz a)) by lia.
        rewrite apply_app. fold s1.
        apply clear_words_S in Hc. destruct Hc as [_ Hc].
        assert (Q1 : (length l + 64 < fuel)%nat) by (cbn in Hf; lia).
        assert (Q2 : wf_mem (rm s1)) by (apply ops_wf; auto).
        assert (Q3 : words_at a (rm s1) (p + wsz a) l).
        { apply words_ops; auto. eapply clear_words_incl; [|exact Hc]. intros x Hx. apply in_or_app. now left. }
        assert (Q4 : clear_words a (offs_ops a base (relr_offsets (wsz a) (next + (8 * wsz a - 1) * wsz a) l)) (p + wsz a) n).
        { eapply clear_words_incl; [|exact Hc]. intros x Hx. apply in_or_app. now right. }
        assert (Q5 : 0 <= next + (8 * wsz a - 1) * wsz a) by nia.
        pose proof (IH fuel (p + wsz a) _ s1 Q1 Q2 Hb Q5 Q3 Hz' Q4 _ (or_introl eq_refl)) as [R|(R1 & R2 & R3)].
        -- left. exact R.
        -- right. split; [exact R1|]. split; [apply FT; exact R2|exact R3].
      * right. rewrite B. cbn [rbind]. split; [exact D|]. split; [|eauto]. apply FB.
        replace (Z.of_nat (0 + K)) with (8 * wsz a - 1) in G by (unfold K; lia). exact G.
Qed.

(** ** Program headers *)
Lemma scan_phdrs_spec e base sz : forall l fuel p s r,
  let a := e_arch e in
  (length l < fuel)%nat -> 0 < sz -> Z.of_nat (length l) * sz < modulus (wsz a) ->
  (forall i h, nth_error l i = Some h -> phdr_at a (rm s) ((p + Z.of_nat i * sz) mod modulus (wsz a)) h) ->
  let x := scan_phdrs fuel e base sz (p mod modulus (wsz a)) ((p + Z.of_nat (length l) * sz) mod modulus (wsz a)) s r in
  x = Ok (match find (fun h => fst (fst h) =? PT_GNU_RELRO) (rev l) with
          | Some (_, v, z) => (v, z) | None => r end) \/
  e_debug e = true /\ ~ dynamic_described e base l /\ x = Panicked s.
Proof.
  induction l as [|[[t v] z] l IH]; intros fuel p s r a Hf Hz HM Hl; (destruct fuel as [|fuel]; [cbn in Hf; lia|]).
  - cbn. rewrite Z.add_0_r, Z.eqb_refl. now left.
  - destruct (Hl 0%nat _ eq_refl) as (H1 & H2 & H3). cbn [fst snd] in *.
    rewrite Z.mul_0_l, Z.add_0_r in H1, H2, H3.
    cbn [scan_phdrs length] in *. fold a. unfold ldw. rewrite H1, H2, H3, padd_mod. clear H1 H2 H3.
    rewrite ptr_neq by lia.
    assert (F : match find (fun h : Z * Z * Z => fst (fst h) =? PT_GNU_RELRO) (rev ((t, v, z) :: l)) with
       | Some (_, v0, z0) => (v0, z0) | None => r end =
      match find (fun h => fst (fst h) =? PT_GNU_RELRO) (rev l) with
       | Some (_, v0, z0) => (v0, z0) | None => if t =? PT_GNU_RELRO then (v, z) else r end).
    { cbn [rev]. generalize (rev l). induction l0 as [|x l0 IH0]; cbn.
      - destruct (t =? PT_GNU_RELRO); reflexivity.
      - destruct (fst (fst x) =? PT_GNU_RELRO); auto. }
    rewrite F. clear F.
    replace (p + Z.of_nat (S (length l)) * sz) with (p + sz + Z.of_nat (length l) * sz) by lia.
    assert (Hl' : forall i h, nth_error l i = Some h -> phdr_at a (rm s) ((p + sz + Z.of_nat i * sz) mod modulus (wsz a)) h).
    { intros i h Hi. specialize (Hl (S i) h Hi). replace (p + sz + Z.of_nat i * sz) with (p + Z.of_nat (S i) * sz) by lia. exact Hl. }
    assert (HM' : Z.of_nat (length l) * sz < modulus (wsz a)) by lia.
    specialize (fun r => IH fuel (p + sz) s r ltac:(lia) Hz HM' Hl'). cbv zeta in IH. fold a in IH.
    assert (IH' : forall r, _ \/ e_debug e = true /\ ~ dynamic_described e base ((t, v, z) :: l) /\ _) by
      (intros r0; destruct (IH r0) as [Q|(Q1 & Q2 & Q3)]; [left; exact Q|right; split; [exact Q1|split; [intros Q; apply Q2; inversion Q; assumption|exact Q3]]]).
    clear IH. rename IH' into IH.
    destruct (e_debug e && (t =? PT_DYNAMIC)) eqn:D.
    + apply andb_prop in D. destruct D as [D E]. apply Z.eqb_eq in E. subst t.
      change (PT_DYNAMIC =? PT_GNU_RELRO) with false. cbn iota.
      destruct (Z.eqb_spec (e_dynv e) (padd a base v)) as [Ed|Ed]; [apply IH|right].
      split; [exact D|]. split; [|reflexivity]. intros Q. apply Forall_inv in Q. cbn [fst snd] in Q.
      specialize (Q eq_refl). apply Ed. symmetry. exact Q.
    + destruct (t =? PT_GNU_RELRO); apply IH.
Qed.
