(** [relocate] as a whole. *)
From Verif Require Import Machine MachineFacts LayoutModel RelocModel RelocSpec RelocFacts RelocProofs.

Notation op := (Z * option Z)%type (only parsing).

Definition all_ops (a : arch) (g : image) : list op :=
  rela_ops a (bias a g) (g_rela g) ++ rel_ops a (bias a g) (g_rel g) ++
  offs_ops a (bias a g) (relr_offsets (wsz a) 0 (g_relr g)).

Lemma fixups_ops a m g :
  fixups a m g = map (fun o => (fst o, op_val a (bias a g) m o)) (all_ops a g).
Proof.
  unfold fixups, all_ops. rewrite !map_app. f_equal; [|f_equal].
  - unfold rela_ops. rewrite map_map. rewrite <- map_id at 1. apply map_ext. intros [p v]. reflexivity.
  - unfold rel_ops, rel_fixups. rewrite map_map. apply map_ext. intros [o i]. unfold moved, op_val, ldw. cbn [fst snd].
    f_equal. f_equal. lia.
  - unfold relr_fixups, offs_ops. rewrite map_map. apply map_ext. intros o. unfold moved, op_val, ldw. cbn [fst snd].
    f_equal. f_equal. lia.
Qed.

Lemma keeps_clear a m g p n : keeps a (fixups a m g) p n <-> clear_of a (all_ops a g) p n.
Proof.
  rewrite fixups_ops. unfold keeps, clear_of. split.
  - intros H o Ho. apply (H (fst o, op_val a (bias a g) m o)). apply in_map_iff. eauto.
  - intros H f Hf. apply in_map_iff in Hf. destruct Hf as (o & <- & Ho). apply H; auto.
Qed.

Lemma keeps_words_clear a m g p n : keeps_words a (fixups a m g) p n -> clear_words a (all_ops a g) p n.
Proof. intros H i Hi. apply (keeps_clear a m g). apply H; auto. Qed.

Lemma clear_words_mod a l p n : clear_words a l p n -> clear_words a l (p mod modulus (wsz a)) n.
Proof. intros H i Hi. rewrite Zplus_mod_idemp_l. apply H; auto. Qed.

Lemma value_of_in t l : value_of t l = 0 \/ In (value_of t l) (pairs l).
Proof.
  unfold value_of. destruct (find _ (rev l)) as [[x y]|] eqn:F; auto. right.
  apply find_some in F. destruct F as [F _]. apply in_rev in F.
  unfold pairs. apply in_flat_map. exists (x, y). split; auto. cbn. auto.
Qed.

Lemma words_range a m p l w : wf_mem m -> words_at a m p l -> In w l -> 0 <= w < modulus (wsz a).
Proof.
  intros W H I. apply In_nth_error in I. destruct I as [i I]. specialize (H i w I). rewrite <- H.
  apply (ldw_range a); auto.
Qed.

Lemma value_of_range a m p t l l1 l2 : wf_mem m -> words_at a m p (l1 ++ pairs l ++ l2) ->
  0 <= value_of t l < modulus (wsz a).
Proof.
  intros W H. destruct (value_of_in t l) as [->|I]; [pose proof (mod_pos a); lia|].
  eapply words_range; eauto. apply in_or_app. right. apply in_or_app. now left.
Qed.

Lemma bias_range e m g : loaded e m g -> 0 <= bias (e_arch e) g < modulus (wsz (e_arch e)).
Proof.
  intros (W & (S1 & _) & _). set (a := e_arch e) in *. unfold bias.
  destruct (_ =? 0); [apply Z.mod_pos_bound; pose proof (mod_pos a); lia|].
  change (words_at a m (e_envp e) (g_env g ++ [0] ++ pairs (g_aux g) ++ [0])) in S1.
  rewrite app_assoc in S1. eapply value_of_range; eauto.
Qed.

Lemma find_in_some t (l : list (Z * Z)) : In t (map fst l) -> exists r, find (fun r => fst r =? t) (rev l) = Some r.
Proof.
  intros H. apply in_map_iff in H. destruct H as (r & E & I).
  destruct (find (fun r0 : Z * Z => fst r0 =? t) (rev l)) eqn:F; eauto.
  apply in_rev in I. apply (find_none _ _ F r) in I. cbn beta in I. rewrite E, Z.eqb_refl in I. discriminate.
Qed.

Lemma table_ptr a m base dyn tp ts l :
  table_at a m base dyn tp ts l ->
  exists p, ptr_from a base 0 tp dyn = p mod modulus (wsz a) /\ words_at a m p l /\
            (l <> [] -> p = base + value_of tp dyn).
Proof.
  intros (_ & _ & [->|[I Hw]]).
  - exists (ptr_from a base 0 tp dyn). split; [|split].
    + unfold ptr_from. destruct (find _ _); [rewrite Z.mod_mod; auto; pose proof (mod_pos a); lia|].
      rewrite Z.mod_0_l; auto. pose proof (mod_pos a); lia.
    + intros i w Hi. destruct i; discriminate.
    + congruence.
  - exists (base + value_of tp dyn). split; [|split]; auto.
    unfold ptr_from, value_of. destruct (find_in_some tp dyn I) as [r ->]. reflexivity.
Qed.

Definition stopped {A} (r : res A) : Prop := exists s, r = Trapped s \/ r = Panicked s.

Definition enough (g : image) : nat :=
  length (g_env g) + length (g_aux g) + length (g_dyn g) + length (g_rela g) + length (g_rel g) +
  length (g_relr g) + length (g_phdrs g) + 70.

(** What happens to the relro segment. *)
Definition relro_step (e : renv) (g : image) (s : rst) : res rst :=
  match relro_of g with
  | None => Ok s
  | Some (v, z) =>
    relocation_mprotect_readonly e
      (Z.land ((bias (e_arch e) g + v) mod modulus (wsz (e_arch e)))
              (wrapping_neg (wsz (e_arch e)) (value_of AT_PAGESZ (g_aux g)))) z s
  end.

Section Top.
Context (e : renv) (m : mem) (g : image).
Let a := e_arch e.
Let M := modulus (wsz a).
Context (Hl : loaded e m g) (Ha : addresses_ok e).

Lemma aux_read n : (enough g <= n)%nat ->
  read_aux n a m (e_envp e) =
    Some (AI (value_of AT_BASE (g_aux g)) (value_of AT_PAGESZ (g_aux g)) (value_of AT_ENTRY (g_aux g))).
Proof.
  intros Hn. destruct Hl as (_ & S1 & _). destruct Ha as [Ha1 _].
  apply (read_aux_spec a m (e_envp e) (g_env g)); auto; unfold enough in Hn; lia.
Qed.

Lemma base_read : compute_base e (AI (value_of AT_BASE (g_aux g)) (value_of AT_PAGESZ (g_aux g)) (value_of AT_ENTRY (g_aux g))) (start m)
  = bias a g.
Proof.
  destruct Hl as (_ & _ & _ & _ & _ & _ & _ & E & _). unfold compute_base, bias. cbn [auxv_base auxv_entry rm start].
  unfold ldw. rewrite E. reflexivity.
Qed.

Context (Hk : tables_kept e m g).

(** Up to and including the rel loop. *)
Lemma front n : (enough g <= n)%nat ->
  let r :=
      do d <- scan_dyn n e (start m) (bias a g) (e_dynv e) (DI 0 0 0 0 0 0) in
      do s <- do_rela n a (bias a g) (rela_ptr d) (padd a (rela_ptr d) (rela_sz d)) (start m) in
      do s <- do_rel n a (bias a g) (rel_ptr d) (padd a (rel_ptr d) (rel_sz d)) s in
      Ok (d, s) in
  if forallb (fun r => relative a (snd (fst r))) (g_rela g) && forallb (fun r => relative a (snd r)) (g_rel g)
  then r = Ok (DI (ptr_from a (bias a g) 0 DT_RELA (g_dyn g)) (value_of DT_RELASZ (g_dyn g))
                  (ptr_from a (bias a g) 0 DT_REL (g_dyn g)) (value_of DT_RELSZ (g_dyn g))
                  (ptr_from a (bias a g) 0 DT_RELR (g_dyn g)) (value_of DT_RELRSZ (g_dyn g)),
               apply_ops a (bias a g) (start m) (rela_ops a (bias a g) (g_rela g) ++ rel_ops a (bias a g) (g_rel g)))
       \/ e_debug e = true /\ ~ entry_sizes a (g_dyn g) /\ exists s, r = Trapped s
  else exists s, r = Trapped s.
Proof.
  intros Hn r.
  destruct Hl as (W & _ & (Wd & Nd) & T1 & T2 & _). fold a in Wd, T1, T2.
  destruct Hk as (K1 & K2 & _). fold a in K1, K2.
  apply keeps_words_clear in K1. apply keeps_words_clear in K2.
  destruct Ha as [_ Ha2]. fold a M in Ha2.
  unfold enough in Hn.
  pose proof (scan_dyn_spec e (start m) (bias a g) (g_dyn g) n (e_dynv e) [] (DI 0 0 0 0 0 0)) as SD.
  cbv zeta in SD. fold a in SD. rewrite (Z.mod_small (e_dynv e)) in SD by exact Ha2.
  specialize (SD ltac:(lia) Nd Wd).
  cbn [rela_ptr rela_sz rel_ptr rel_sz relr_ptr relr_sz] in SD.
  match type of SD with _ = Ok ?d \/ _ => set (D := d) in SD end.
  destruct SD as [SD|(Db & NE & SD)].
  2:{ assert (R : r = Trapped (start m)) by (subst r; rewrite SD; reflexivity).
      destruct (_ && _); eauto. }
  assert (R1 : r = do s <- do_rela n a (bias a g) (rela_ptr D) (padd a (rela_ptr D) (rela_sz D)) (start m) in
      do s <- do_rel n a (bias a g) (rel_ptr D) (padd a (rel_ptr D) (rel_sz D)) s in Ok (D, s)).
  { subst r. rewrite SD. reflexivity. }
  clearbody r.
  destruct (table_ptr _ _ _ _ _ _ _ T1) as (p1 & P1 & W1 & V1).
  destruct (table_ptr _ _ _ _ _ _ _ T2) as (p2 & P2 & W2 & V2).
  destruct T1 as (Z1 & L1 & _). destruct T2 as (Z2 & L2 & _).
  pose proof (do_rela_spec a (bias a g) (g_rela g) n p1 (start m) _ eq_refl) as DR. cbv zeta in DR.
  assert (Eq1 : padd a (rela_ptr D) (rela_sz D) = (p1 + Z.of_nat (length (triples (g_rela g))) * wsz a) mod M).
  { unfold D. cbn [rela_ptr rela_sz]. rewrite P1, padd_mod. do 2 f_equal. exact Z1. }
  assert (Eq1' : rela_ptr D = p1 mod M) by exact P1.
  rewrite Eq1, Eq1' in R1.
  assert (C1 : clear_words a (rela_ops a (bias a g) (g_rela g)) p1 (length (triples (g_rela g)))).
  { destruct (g_rela g) as [|x l] eqn:G; [intros i Hi; cbn in Hi; lia|].
    rewrite V1 by (destruct x as [[? ?] ?]; discriminate).
    eapply clear_words_incl; [|exact K1]. intros o Ho. unfold all_ops. rewrite G. apply in_or_app. now left. }
  assert (Lz1 : Z.of_nat (length (triples (g_rela g))) * wsz a < modulus (wsz a)) by (rewrite <- Z1; exact L1).
  assert (Lz2 : Z.of_nat (length (pairs (g_rel g))) * wsz a < modulus (wsz a)) by (rewrite <- Z2; exact L2).
  assert (Ln1 : (length (g_rela g) < n)%nat) by (clear - Hn; lia).
  assert (Ln2 : (length (g_rel g) < n)%nat) by (clear - Hn; lia).
  specialize (DR Ln1 W W1 Lz1 C1). fold M in DR.
  destruct (forallb (fun r => relative a (snd (fst r))) (g_rela g)) eqn:F1; cbn [andb].
  2:{ destruct DR as [s' DR]. exists s'. rewrite R1, DR. reflexivity. }
  rewrite DR in R1. cbn [rbind] in R1. clear DR.
  set (s1 := apply_ops a (bias a g) (start m) (rela_ops a (bias a g) (g_rela g))) in *.
  assert (Ws1 : wf_mem (rm s1)) by (apply ops_wf; exact W).
  assert (CC : forall l, clear_words a (all_ops a g) (bias a g + value_of DT_REL (g_dyn g)) (length (pairs (g_rel g))) ->
      incl l (all_ops a g) -> clear_words a l p2 (length (pairs (g_rel g)))).
  { intros l _ I. destruct (g_rel g) as [|x l'] eqn:G; [intros i Hi; cbn in Hi; lia|].
    rewrite V2 by (destruct x as [? ?]; discriminate).
    eapply clear_words_incl; [exact I|exact K2]. }
  assert (W2' : words_at a (rm s1) p2 (pairs (g_rel g))).
  { apply words_ops; auto. apply CC; auto. intros o Ho. unfold all_ops. apply in_or_app. now left. }
  assert (C2 : clear_words a (rel_ops a (bias a g) (g_rel g)) p2 (length (pairs (g_rel g)))).
  { apply CC; auto. intros o Ho. unfold all_ops. apply in_or_app. right. apply in_or_app. now left. }
  pose proof (do_rel_spec a (bias a g) (g_rel g) n p2 s1 _ eq_refl Ln2 Ws1 W2' Lz2 C2) as DR.
  cbv zeta in DR. fold M in DR.
  assert (Eq2 : padd a (rel_ptr D) (rel_sz D) = (p2 + Z.of_nat (length (pairs (g_rel g))) * wsz a) mod M).
  { unfold D. cbn [rel_ptr rel_sz]. rewrite P2, padd_mod. do 2 f_equal. exact Z2. }
  assert (Eq2' : rel_ptr D = p2 mod M) by exact P2.
  rewrite Eq2, Eq2' in R1.
  destruct (forallb (fun r => relative a (snd r)) (g_rel g)) eqn:F2.
  - left. rewrite R1, DR. cbn [rbind]. rewrite apply_app. reflexivity.
  - destruct DR as [s' DR]. exists s'. rewrite R1, DR. reflexivity.
Qed.

Context (Hu : unrelocated e m g).

Lemma relocate_unfold n : (enough g <= n)%nat ->
  relocate n e (start m) =
  do ds <- (do d <- scan_dyn n e (start m) (bias a g) (e_dynv e) (DI 0 0 0 0 0 0) in
      do s <- do_rela n a (bias a g) (rela_ptr d) (padd a (rela_ptr d) (rela_sz d)) (start m) in
      do s <- do_rel n a (bias a g) (rel_ptr d) (padd a (rel_ptr d) (rel_sz d)) s in
      Ok (d, s)) in
  do s <- do_relr n e (bias a g) (relr_ptr (fst ds)) (padd a (relr_ptr (fst ds)) (relr_sz (fst ds))) 0 (snd ds) in
  finish n e (AI (value_of AT_BASE (g_aux g)) (value_of AT_PAGESZ (g_aux g)) (value_of AT_ENTRY (g_aux g))) (bias a g) s.
Proof.
  intros Hn. unfold relocate. fold a. change (rm (start m)) with m. rewrite aux_read by auto.
  rewrite (proj2 (Z.eqb_neq (load_static_start e (start m)) _)) by exact Hu.
  rewrite base_read.
  destruct (scan_dyn _ _ _ _ _ _); cbn [rbind]; auto.
  destruct (do_rela _ _ _ _ _ _); cbn [rbind]; auto.
  destruct (do_rel _ _ _ _ _ _); cbn [rbind]; auto.
Qed.

Lemma bad_traps n : (enough g <= n)%nat ->
  (Exists (fun r => relative a (snd (fst r)) = false) (g_rela g) \/
   Exists (fun r => relative a (snd r) = false) (g_rel g)) ->
  exists s, relocate n e (start m) = Trapped s.
Proof.
  intros Hn HB. pose proof (front n Hn) as F. cbv zeta in F.
  destruct (forallb _ (g_rela g) && forallb _ (g_rel g)) eqn:B.
  - apply andb_prop in B. destruct B as [B1 B2]. rewrite forallb_forall in B1, B2.
    exfalso. destruct HB as [HB|HB]; apply Exists_exists in HB; destruct HB as (x & I & HB).
    + rewrite B1 in HB; [discriminate|auto].
    + rewrite B2 in HB; [discriminate|auto].
  - destruct F as [s F]. exists s. rewrite relocate_unfold by auto. rewrite F. reflexivity.
Qed.

Context (Hr : all_relative a g).

Definition final : rst := apply_ops a (bias a g) (start m) (all_ops a g).

(** The final memory, in terms of the fixups. *)
Lemma final_fixed i f : nth_error (fixups a m g) i = Some f ->
  (forall j f', j <> i -> nth_error (fixups a m g) j = Some f' -> apart (fst f) (wsz a) (fst f') (wsz a)) ->
  load_le (rm final) (fst f) (word a) = snd f.
Proof.
  intros Hi Hd. rewrite fixups_ops in Hi, Hd. rewrite nth_error_map in Hi.
  destruct (nth_error (all_ops a g) i) as [o|] eqn:Ho; [|discriminate]. injection Hi as <-. cbn [fst snd].
  destruct Hl as (W & _).
  apply (ops_at a (bias a g) (all_ops a g) (start m) i o); auto.
  - intros o' v I E. unfold all_ops in I. apply in_app_or in I. destruct I as [I|I].
    + unfold rela_ops, rela_fixups in I. rewrite map_map in I. apply in_map_iff in I. destruct I as (r & <- & _).
      cbn in E. injection E as <-. apply Z.mod_pos_bound. pose proof (mod_pos a). lia.
    + exfalso. apply in_app_or in I. destruct I as [I|I]; apply in_map_iff in I; destruct I as (r & <- & _); discriminate.
  - intros j o' Hj Hn. apply (Hd j (fst o', op_val a (bias a g) m o')); auto.
    rewrite nth_error_map, Hn. reflexivity.
Qed.

Lemma checks_cases i s :
  match debug_checks e i (bias a g) s with
  | Ok _ => True
  | Trapped _ | Panicked _ => e_debug e = true /\
      ~ ((exists k, 0 <= k < 8 * wsz a /\ auxv_page_size i = 2 ^ k /\ bias a g mod 2 ^ k = 0) /\
         (auxv_base i = 0 -> load_le (rm s) (e_static e) (word a) = auxv_entry i))
  | Running => False
  end.
Proof.
  unfold debug_checks. destruct (e_debug e); [|exact I].
  destruct (negb (is_power_of_two _)) eqn:E1.
  { split; auto. intros [(k & Rk & Ek & _) _]. rewrite Ek in E1. unfold is_power_of_two in E1.
    assert (P : 0 < 2 ^ k) by (apply Z.pow_pos_nonneg; lia).
    rewrite (proj2 (Z.eqb_neq (2 ^ k) 0)) in E1 by lia. cbn [negb andb] in E1.
    rewrite land_low, Z.mod_same in E1 by lia. discriminate. }
  destruct (negb (Z.land _ _ =? 0)) eqn:E2.
  { split; auto. intros [(k & Rk & Ek & Eb) _]. rewrite Ek in E2. rewrite land_low in E2 by lia. rewrite Eb in E2. discriminate. }
  destruct (_ && _) eqn:E3; [|exact I].
  split; auto. intros [_ Q]. apply andb_prop in E3. destruct E3 as [E3 E4]. apply Z.eqb_eq in E3.
  apply negb_true_iff, Z.eqb_neq in E4. apply E4. exact (Q E3).
Qed.

Lemma relocate_core n : (enough g <= n)%nat ->
  relocate n e (start m) = relro_step e g final \/
  e_debug e = true /\ ~ consistent e m g /\ stopped (relocate n e (start m)).
Proof.
  intros Hn. pose proof (front n Hn) as F. cbv zeta in F. rewrite relocate_unfold by auto.
  destruct Hr as [Hr1 Hr2]. rewrite Forall_forall in Hr1, Hr2.
  rewrite (proj2 (forallb_forall _ _) Hr1), (proj2 (forallb_forall _ _) Hr2) in F. cbn [andb] in F.
  destruct F as [F|(Db & NE & [s F])]; rewrite F; cbn [rbind].
  2:{ right. split; auto. split; [intros (Q & _); exact (NE Q)|]. exists s. auto. }
  clear F. cbn [fst snd relr_ptr relr_sz].
  pose proof (bias_range e m g Hl) as BR. fold a M in BR.
  destruct Hl as (W & _ & _ & _ & _ & T3 & Ev & _ & E2 & E3 & E4 & Hsz & Hph). fold a in T3, E2, E3, E4, Hph.
  destruct Hk as (_ & _ & K3 & K4 & K5). fold a in K3, K4, K5.
  apply keeps_words_clear in K3. apply keeps_clear in K4.
  destruct (table_ptr _ _ _ _ _ _ _ T3) as (p3 & P3 & W3 & V3).
  destruct T3 as (Z3 & L3 & _). rewrite P3, padd_mod, Z3.
  set (s2 := apply_ops _ _ (start m) _).
  assert (Ws2 : wf_mem (rm s2)) by (apply ops_wf; exact W).
  set (o3 := offs_ops a (bias a g) (relr_offsets (wsz a) 0 (g_relr g))).
  assert (CC : forall l, incl l (all_ops a g) -> clear_words a l p3 (length (g_relr g))).
  { intros l I. destruct (g_relr g) as [|x l'] eqn:G; [intros i Hi; cbn in Hi; lia|].
    rewrite V3 by discriminate. eapply clear_words_incl; [exact I|exact K3]. }
  assert (I12 : incl (rela_ops a (bias a g) (g_rela g) ++ rel_ops a (bias a g) (g_rel g)) (all_ops a g)).
  { intros o Ho. unfold all_ops. rewrite app_assoc. apply in_or_app. now left. }
  assert (I3 : incl o3 (all_ops a g)).
  { intros o Ho. unfold all_ops. rewrite app_assoc. apply in_or_app. now right. }
  pose proof (do_relr_spec e (bias a g) (g_relr g) n p3 0 s2) as DR. cbv zeta in DR. fold a in DR. fold M in DR.
  specialize (DR ltac:(unfold enough in Hn; lia) Ws2 (proj1 BR) (Z.le_refl 0)).
  specialize (DR (words_ops a (bias a g) _ (start m) _ _ (CC _ I12) W3)).
  assert (L3' : Z.of_nat (length (g_relr g)) * wsz a < M) by (rewrite <- Z3; exact L3).
  specialize (DR L3' (CC _ I3) 0 (or_intror Ev)).
  fold M.
  destruct DR as [DR|(Db & NE & [s DR])]; rewrite DR; cbn [rbind].
  2:{ right. split; auto. split; [intros (_ & Q & _); exact (NE Q)|]. exists s. auto. }
  clear DR.
  assert (Ef : apply_ops a (bias a g) s2 (offs_ops a (bias a g) (relr_offsets (wsz a) 0 (g_relr g))) = final).
  { unfold final, all_ops, s2. rewrite app_assoc, !apply_app. reflexivity. }
  rewrite Ef. clear Ef.
  unfold finish. fold a.
  pose proof (checks_cases (AI (value_of AT_BASE (g_aux g)) (value_of AT_PAGESZ (g_aux g)) (value_of AT_ENTRY (g_aux g))) final) as CK.
  destruct (debug_checks e _ (bias a g) final) as [sf|sf|sf|] eqn:DC; cbn [rbind];
    [|right; destruct CK as [D NC]; split; [exact D|]; split; [|exists sf; auto];
      intros Q; apply NC; destruct Q as (_ & _ & Q3 & Q4 & _); split; [exact Q3|]; intros B0; destruct (Q4 B0) as (i & Q5 & Q6);
      apply (final_fixed i (e_static e, value_of AT_ENTRY (g_aux g)) Q5); intros j f' Hj Hf'; apply (Q6 j); auto
     |right; destruct CK as [D NC]; split; [exact D|]; split; [|exists sf; auto];
      intros Q; apply NC; destruct Q as (_ & _ & Q3 & Q4 & _); split; [exact Q3|]; intros B0; destruct (Q4 B0) as (i & Q5 & Q6);
      apply (final_fixed i (e_static e, value_of AT_ENTRY (g_aux g)) Q5); intros j f' Hj Hf'; apply (Q6 j); auto
     |destruct CK ].
  assert (sf = final).
  { unfold debug_checks in DC. destruct (e_debug e); [|congruence].
    repeat match type of DC with (if ?b then _ else _) = _ => destruct b end; congruence. }
  subst sf.
  assert (Lh : forall o k, 0 <= o -> o + Z.of_nat k <= 64 ->
     load_le (rm final) (e_ehdr e + o) k = load_le m (e_ehdr e + o) k).
  { intros o k H1 H2. apply ops_load. intros o' Ho'. specialize (K4 o' Ho'). unfold apart in *. lia. }
  unfold ldw.
  assert (O1 : 0 <= o_e_phentsize a /\ o_e_phentsize a + 2 <= 64 /\ 0 <= o_e_phnum a /\ o_e_phnum a + 2 <= 64 /\
               0 <= o_e_phoff a /\ o_e_phoff a + wsz a <= 64) by (clear; destruct a; cbn; lia).
  rewrite !Lh by (rewrite ?wsz_word; cbn; lia).
  rewrite E2, E3, E4.
  change (padd a (bias a g) (g_phoff g)) with ((bias a g + g_phoff g) mod modulus (wsz a)).
  rewrite !padd_mod. fold M.
  assert (HM : Z.of_nat (length (g_phdrs g)) * g_phentsize g < M).
  { pose proof (load_le_range 2 m (e_ehdr e + o_e_phentsize a) W) as R1.
    pose proof (load_le_range 2 m (e_ehdr e + o_e_phnum a) W) as R2.
    rewrite E3 in R1. rewrite E4 in R2. cbn in R1, R2. pose proof (mod_pos a). fold M in H. nia. }
  pose proof (scan_phdrs_spec e (bias a g) (g_phentsize g) (g_phdrs g) n (bias a g + g_phoff g) final (0, 0)) as SP.
  cbv zeta in SP. fold a in SP. fold M in SP.
  destruct SP as [SP|(Db & NE & SP)].
  - unfold enough in Hn. lia.
  - exact Hsz.
  - exact HM.
  - intros i h Hi. specialize (Hph i h Hi). unfold phdr_addr in Hph. fold M in Hph.
    assert (Li : (i < length (g_phdrs g))%nat) by (apply nth_error_Some; congruence).
    specialize (K5 i Li). apply keeps_clear in K5. unfold phdr_addr in K5. fold M in K5.
    assert (Lq : forall o k, 0 <= o -> o + Z.of_nat k <= sizeof_phdr a ->
      load_le (rm final) ((bias a g + g_phoff g + Z.of_nat i * g_phentsize g) mod M + o) k =
      load_le m ((bias a g + g_phoff g + Z.of_nat i * g_phentsize g) mod M + o) k).
    { intros o k H1 H2. apply ops_load. intros o' Ho'. specialize (K5 o' Ho'). unfold apart in *. lia. }
    assert (O2 : 0 <= o_p_vaddr a /\ o_p_vaddr a + wsz a <= sizeof_phdr a /\ 0 <= o_p_memsz a /\
       o_p_memsz a + wsz a <= sizeof_phdr a /\ 4 <= sizeof_phdr a) by (clear; destruct a; cbn; lia).
    destruct Hph as (H1 & H2 & H3). split; [|split].
    + rewrite <- H1. specialize (Lq 0 4%nat ltac:(lia) ltac:(cbn; lia)). rewrite Z.add_0_r in Lq. exact Lq.
    + rewrite <- H2. apply Lq; rewrite ?wsz_word; lia.
    + rewrite <- H3. apply Lq; rewrite ?wsz_word; lia.
  - rewrite SP. cbn [rbind]. left. unfold relro_step, relro_of. fold a.
    destruct (find _ (rev (g_phdrs g))) as [[[t v] z]|].
    + destruct (z =? 0) eqn:Ez; cbn [negb]; [reflexivity|].
      cbn [auxv_page_size]. unfold wrapping_add. fold M. rewrite (Z.add_comm v). reflexivity.
    + reflexivity.
  - rewrite SP. right. split; [exact Db|]. split; [intros (_ & _ & _ & _ & Q); exact (NE Q)|]. exists final. right. reflexivity.
Qed.

Lemma final_outside x : outside a (fixups a m g) x -> rm final x = m x.
Proof.
  intros H. apply (ops_byte a (bias a g) (all_ops a g) x (start m)). intros o Ho.
  apply (H (fst o, op_val a (bias a g) m o)). rewrite fixups_ops. apply in_map_iff. eauto.
Qed.

Lemma final_rest : prots final = [] /\ ro final = (fun _ => false).
Proof. apply (ops_rest a (bias a g) (all_ops a g) (start m)). Qed.

Lemma final_stores : map fst (stores final) = rev (map fst (fixups a m g)).
Proof.
  unfold final. rewrite ops_stores. cbn [stores start map]. rewrite app_nil_r, fixups_ops, map_map. reflexivity.
Qed.
End Top.
