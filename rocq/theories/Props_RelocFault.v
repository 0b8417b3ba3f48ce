(** C76: startup relocation touches only what it is entitled to.

    RelocFault.v is relocate.rs with page faults; RelocFaultSpec.v says which
    bytes the process must be able to read and write ([accessible]). *)
From Verif Require Import Machine MachineFacts LayoutModel RelocModel RelocSpec RelocFacts RelocProofs RelocTop RelocMono RelocEx
  Props_Reloc RelocFault RelocFaultSpec RelocFaultProofs RelocFaultTop.

Lemma fbind_some {A B} (x : fres A) (f : A -> fres B) :
  x <> None -> (forall v, x = Some (Ok v) -> f v <> None) -> fbind x f <> None.
Proof. intros H1 H2. destruct x as [[v|s|s|]|]; cbn [fbind]; try discriminate; [apply H2; reflexivity|congruence]. Qed.

Lemma below_ok {A} (x : fres A) y v : below x y -> x = Some (Ok v) -> y = Ok v.
Proof. intros [H|H] E; congruence. Qed.

Lemma skip_ok ac e m env aux n st :
  0 <= e_envp e < modulus (wsz (e_arch e)) -> stack_at (e_arch e) m (e_envp e) env aux ->
  start_readable ac e env aux ->
  st = value_of AT_ENTRY aux -> load_le m (e_static e) (word (e_arch e)) = st ->
  frelocate ac n e (start m) <> None.
Proof.
  intros He Hs [R1 R2] -> Hst. unfold frelocate. change (rm (start m)) with m.
  pose proof (fread_ok ac (e_arch e) m (e_envp e) env aux n He Hs R1) as F.
  pose proof (read_below ac n (e_arch e) m (e_envp e)) as Bl.
  destruct (fread_aux ac n (e_arch e) m (e_envp e)) as [[i|]|]; [|discriminate|congruence].
  destruct Bl as [Bl|Bl]; [discriminate|]. injection Bl as Bl. symmetry in Bl.
  unfold fload_static_start. rewrite (can_word ac _ _ R2). cbn [fbind].
  assert (Ei : auxv_entry i = value_of AT_ENTRY aux).
  { unfold read_aux in Bl. destruct (skip_env n (e_arch e) m (e_envp e)) as [p|] eqn:E1; [|discriminate].
    pose proof (skip_env_mono _ _ n (n + S (length env + length aux)) _ _ ltac:(lia) E1) as E1'.
    pose proof (scan_aux_mono _ _ n (n + S (length env + length aux)) _ _ _ ltac:(lia) Bl) as E2'.
    pose proof (read_aux_spec (e_arch e) m (e_envp e) env aux (n + S (length env + length aux)) ltac:(lia) ltac:(lia) He Hs) as E3.
    unfold read_aux in E3. rewrite E1', E2' in E3. injection E3 as ->. reflexivity. }
  rewrite Ei. unfold load_static_start, relocation_load, ldw. change (rm (start m)) with m.
  rewrite Hst, Z.eqb_refl. discriminate.
Qed.

Section Main.
Context (ac : access) (e : renv) (m : mem) (g : image).
Let a := e_arch e.
Let M := modulus (wsz a).
Context (Hl : loaded e m g) (Ha : addresses_ok e) (Hk : tables_kept e m g) (Hc : accessible ac e m g).

Lemma triples_length (l : list (Z * Z * Z)) : length (triples l) = (3 * length l)%nat.
Proof. unfold triples. induction l; cbn [flat_map length app] in *; lia. Qed.
Lemma pairs_length (l : list (Z * Z)) : length (pairs l) = (2 * length l)%nat.
Proof. unfold pairs. induction l; cbn [flat_map length app] in *; lia. Qed.

Lemma ops_w o : In o (all_ops a g) -> can (ac_w ac) (fst o) (wsz a).
Proof.
  intros H. destruct Hc as (_ & _ & [P _]). apply (P (fst o, op_val a (bias a g) m o)).
  fold a. rewrite fixups_ops. apply in_map_iff. eauto.
Qed.
Lemma ops_rw o : In o (rel_ops a (bias a g) (g_rel g) ++ offs_ops a (bias a g) (relr_offsets (wsz a) 0 (g_relr g))) ->
  can (ac_r ac) (fst o) (wsz a) /\ can (ac_w ac) (fst o) (wsz a).
Proof.
  intros H. split; [|apply ops_w; unfold all_ops; apply in_or_app; now right].
  destruct Hc as (_ & _ & [_ P]). fold a in P. apply in_app_or in H. destruct H as [H|H].
  - unfold rel_ops in H. apply in_map_iff in H. destruct H as (r & <- & I).
    apply (P (moved a m (bias a g) (fst r))). apply in_or_app. left. unfold rel_fixups. apply in_map_iff. eauto.
  - unfold offs_ops in H. apply in_map_iff in H. destruct H as (r & <- & I).
    apply (P (moved a m (bias a g) r)). apply in_or_app. right. unfold relr_fixups. apply in_map_iff. eauto.
Qed.

Lemma no_fault n : (enough g <= n)%nat -> frelocate ac n e (start m) <> None.
Proof.
  intros Hn. unfold frelocate. change (rm (start m)) with m. fold a.
  pose proof Hc as (SR & TR & _). destruct SR as [SR1 SR2]. fold a in SR1, SR2.
  destruct TR as (TE & TD & T1r & T2r & T3r & TP). fold a in TE, TD, T1r, T2r, T3r, TP.
  pose proof Hl as (W & HS & (Wd & Nd) & T1 & T2 & T3 & Ev & E1 & E2 & E3 & E4 & Hsz & Hph).
  fold a in HS, Wd, T1, T2, T3, E1, E2, E3, E4.
  pose proof Ha as [Ha1 Ha2]. fold a in Ha1, Ha2.
  pose proof (fread_ok ac a m (e_envp e) _ _ n Ha1 HS SR1) as F.
  pose proof (read_below ac n a m (e_envp e)) as Bl. pose proof (aux_read e m g Hl Ha n Hn) as AR. fold a in AR. rewrite AR in Bl.
  destruct Bl as [Bl|Bl]; [congruence|]. rewrite Bl. clear F Bl.
  unfold fload_static_start. fold a. rewrite (can_word ac _ _ SR2). cbn [fbind auxv_entry].
  destruct (_ =? _); [discriminate|].
  set (i := AI _ _ _). set (base := bias a g).
  assert (CB : fcompute_base ac e i (start m) = Some (Ok base)).
  { pose proof (base_read e m g Hl) as B. unfold fcompute_base. fold a i in B |- *. 
    destruct (auxv_base i =? 0) eqn:Z0.
    - assert (Q : may_read ac (e_ehdr e + o_e_entry) (word a) = true).
      { apply can_word. eapply can_sub; [exact TE|unfold o_e_entry; lia|]. unfold o_e_entry. destruct a; cbn; lia. }
      rewrite Q, B. reflexivity.
    - unfold compute_base in B. rewrite Z0 in B. rewrite B. reflexivity. }
  rewrite CB. cbn [fbind]. clear CB.
  (* dynamic section *)
  apply fbind_some.
  { pose proof (fdyn_ok ac e (start m) base (g_dyn g) n (e_dynv e) [] (DI 0 0 0 0 0 0)) as Q. cbv zeta in Q. fold a in Q.
    rewrite (Z.mod_small (e_dynv e)) in Q by exact Ha2. apply Q; auto. }
  intros d Hd. apply (below_ok _ _ _ (dyn_below ac e (start m) base n (e_dynv e) _)) in Hd.
  pose proof (scan_dyn_spec e (start m) base (g_dyn g) n (e_dynv e) [] (DI 0 0 0 0 0 0)) as SD.
  cbv zeta in SD. fold a in SD. rewrite (Z.mod_small (e_dynv e)) in SD by exact Ha2.
  unfold enough in Hn.
  destruct (SD ltac:(lia) Nd Wd) as [SD'|(_ & _ & SD')]; [|congruence]. clear SD.
  rewrite Hd in SD'. injection SD' as ->. cbn [rela_ptr rela_sz rel_ptr rel_sz relr_ptr relr_sz].
  change (value_from 0 DT_RELASZ (g_dyn g)) with (value_of DT_RELASZ (g_dyn g)).
  change (value_from 0 DT_RELSZ (g_dyn g)) with (value_of DT_RELSZ (g_dyn g)).
  change (value_from 0 DT_RELRSZ (g_dyn g)) with (value_of DT_RELRSZ (g_dyn g)). clear Hd.
  destruct (table_ptr _ _ _ _ _ _ _ T1) as (p1 & P1 & W1 & V1). fold base in P1, V1.
  destruct (table_ptr _ _ _ _ _ _ _ T2) as (p2 & P2 & W2 & V2). fold base in P2, V2.
  destruct (table_ptr _ _ _ _ _ _ _ T3) as (p3 & P3 & W3 & V3). fold base in P3, V3.
  destruct T1 as (Z1 & L1 & _). destruct T2 as (Z2 & L2 & _). destruct T3 as (Z3 & L3 & _).
  rewrite P1, P2, P3, !padd_mod, Z1, Z2, Z3.
  pose proof Hk as (K1 & K2 & K3 & K4 & K5). fold a in K1, K2, K3, K4, K5.
  apply keeps_words_clear in K1. apply keeps_words_clear in K2. apply keeps_words_clear in K3. apply keeps_clear in K4.
  fold base in K1, K2, K3, T1r, T2r, T3r.
  assert (C1 : forall l, incl l (all_ops a g) -> clear_words a l p1 (length (triples (g_rela g)))).
  { intros l I. destruct (g_rela g) as [|x l'] eqn:G; [intros j Hj; cbn in Hj; lia|].
    rewrite V1 by (destruct x as [[? ?] ?]; discriminate). eapply clear_words_incl; [exact I|exact K1]. }
  assert (C2 : forall l, incl l (all_ops a g) -> clear_words a l p2 (length (pairs (g_rel g)))).
  { intros l I. destruct (g_rel g) as [|x l'] eqn:G; [intros j Hj; cbn in Hj; lia|].
    rewrite V2 by (destruct x as [? ?]; discriminate). eapply clear_words_incl; [exact I|exact K2]. }
  assert (C3 : forall l, incl l (all_ops a g) -> clear_words a l p3 (length (g_relr g))).
  { intros l I. destruct (g_relr g) as [|x l'] eqn:G; [intros j Hj; cbn in Hj; lia|].
    rewrite V3 by discriminate. eapply clear_words_incl; [exact I|exact K3]. }
  assert (A1 : can_words a (ac_r ac) p1 (length (triples (g_rela g)))).
  { rewrite triples_length. destruct (g_rela g) as [|x l'] eqn:G; [intros j Hj; cbn in Hj; lia|].
    rewrite V1 by (destruct x as [[? ?] ?]; discriminate). exact T1r. }
  assert (A2 : can_words a (ac_r ac) p2 (length (pairs (g_rel g)))).
  { rewrite pairs_length. destruct (g_rel g) as [|x l'] eqn:G; [intros j Hj; cbn in Hj; lia|].
    rewrite V2 by (destruct x as [? ?]; discriminate). exact T2r. }
  assert (A3 : can_words a (ac_r ac) p3 (length (g_relr g))).
  { destruct (g_relr g) as [|x l'] eqn:G; [intros j Hj; cbn in Hj; lia|]. rewrite V3 by discriminate. exact T3r. }
  set (o1 := rela_ops a base (g_rela g)). set (o2 := rel_ops a base (g_rel g)).
  set (o3 := offs_ops a base (relr_offsets (wsz a) 0 (g_relr g))).
  assert (I1 : incl o1 (all_ops a g)) by (intros o Ho; unfold all_ops; apply in_or_app; now left).
  assert (I2 : incl o2 (all_ops a g)) by (intros o Ho; unfold all_ops; apply in_or_app; right; apply in_or_app; now left).
  assert (I3 : incl o3 (all_ops a g)) by (intros o Ho; unfold all_ops; apply in_or_app; right; apply in_or_app; now right).
  assert (Lz1 : Z.of_nat (length (triples (g_rela g))) * wsz a < modulus (wsz a)) by (rewrite <- Z1; exact L1).
  assert (Lz2 : Z.of_nat (length (pairs (g_rel g))) * wsz a < modulus (wsz a)) by (rewrite <- Z2; exact L2).
  assert (Lz3 : Z.of_nat (length (g_relr g)) * wsz a < modulus (wsz a)) by (rewrite <- Z3; exact L3).
  (* rela *)
  apply fbind_some.
  { apply (frela_ok ac a base (g_rela g) n p1 (start m) _ eq_refl); auto.
    intros o Ho. apply ops_w. apply I1; exact Ho. }
  intros s1 Hs1. apply (below_ok _ _ _ (rela_below ac a base _ n _ _)) in Hs1.
  pose proof (do_rela_spec a base (g_rela g) n p1 (start m) _ eq_refl ltac:(lia) W W1 Lz1 (C1 _ I1)) as DR. cbv zeta in DR.
  destruct (forallb _ (g_rela g)); [|destruct DR as [s' DR]; congruence].
  rewrite Hs1 in DR. injection DR as ->. fold o1. clear Hs1.
  set (s1 := apply_ops a base (start m) o1).
  assert (Ws1 : wf_mem (rm s1)) by (apply ops_wf; exact W).
  assert (R1 : forall x, ro s1 x = false) by (intros x; unfold s1; rewrite (proj2 (ops_rest a base o1 (start m))); reflexivity).
  assert (W2' : words_at a (rm s1) p2 (pairs (g_rel g))) by (apply words_ops; auto).
  (* rel *)
  apply fbind_some.
  { apply (frel_ok ac a base (g_rel g) n p2 s1 _ eq_refl); auto.
    intros o Ho. apply ops_rw. apply in_or_app. left. exact Ho. }
  intros s2 Hs2. apply (below_ok _ _ _ (rel_below ac a base _ n _ _)) in Hs2.
  pose proof (do_rel_spec a base (g_rel g) n p2 s1 _ eq_refl ltac:(lia) Ws1 W2' Lz2 (C2 _ I2)) as DR. cbv zeta in DR.
  destruct (forallb _ (g_rel g)); [|destruct DR as [s' DR]; congruence].
  rewrite Hs2 in DR. injection DR as ->. fold o2. clear Hs2.
  set (s2 := apply_ops a base s1 o2).
  assert (Ws2 : wf_mem (rm s2)) by (apply ops_wf; exact Ws1).
  assert (R2 : forall x, ro s2 x = false) by (intros x; unfold s2; rewrite (proj2 (ops_rest a base o2 s1)); apply R1).
  assert (W3' : words_at a (rm s2) p3 (g_relr g)) by (apply words_ops; auto; apply words_ops; auto).
  pose proof (bias_range e m g Hl) as BR. fold a base in BR.
  (* relr *)
  apply fbind_some.
  { apply (frelr_ok ac e base (g_relr g) n p3 0 s2 Ws2 (proj1 BR) (Z.le_refl 0)); fold a; auto.
    intros o Ho. apply ops_rw. apply in_or_app. right. exact Ho. }
  intros s3 Hs3. apply (below_ok _ _ _ (relr_below ac e base _ n _ _ _)) in Hs3.
  pose proof (do_relr_spec e base (g_relr g) n p3 0 s2 ltac:(lia) Ws2 (proj1 BR) (Z.le_refl 0) W3' Lz3 (C3 _ I3) 0 (or_intror Ev)) as DR.
  cbv zeta in DR. fold a in DR.
  destruct DR as [DR|(_ & _ & s' & DR)]; [|congruence].
  rewrite Hs3 in DR. injection DR as ->. fold o3. clear Hs3.
  set (s3 := apply_ops a base s2 o3).
  (* the rest *)
  unfold ffinish. fold a. apply fbind_some.
  { unfold fdebug_checks, fload_static_start. fold a. rewrite (can_word ac _ _ SR2). cbn [fbind].
    repeat match goal with |- (if ?b then _ else _) <> None => destruct b end; discriminate. }
  intros s4 Hs4.
  assert (s4 = s3).
  { unfold fdebug_checks, fload_static_start in Hs4. fold a in Hs4. rewrite (can_word ac _ _ SR2) in Hs4. cbn [fbind] in Hs4.
    repeat match type of Hs4 with (if ?b then _ else _) = _ => destruct b end; congruence. }
  subst s4. clear Hs4.
  assert (Q1 : may_read ac (e_ehdr e + o_e_phentsize a) 2 = true).
  { apply can_read. eapply can_sub; [exact TE| |]; destruct a; cbn; lia. }
  assert (Q2 : may_read ac (e_ehdr e + o_e_phoff a) (word a) = true).
  { apply can_word. eapply can_sub; [exact TE| |]; destruct a; cbn; lia. }
  assert (Q3 : may_read ac (e_ehdr e + o_e_phnum a) 2 = true).
  { apply can_read. eapply can_sub; [exact TE| |]; destruct a; cbn; lia. }
  rewrite Q1, Q2, Q3. cbn [andb].
  assert (Ef : s3 = apply_ops a base (start m) (all_ops a g)).
  { unfold all_ops. fold base. fold o1 o2 o3. rewrite !apply_app. reflexivity. }
  assert (Lh : forall o k, 0 <= o -> o + Z.of_nat k <= 64 ->
     load_le (rm s3) (e_ehdr e + o) k = load_le m (e_ehdr e + o) k).
  { intros o k H1 H2. rewrite Ef. apply (ops_load a base (all_ops a g) (start m)). intros o' Ho'. specialize (K4 o' Ho'). unfold apart in *. lia. }
  assert (O1 : 0 <= o_e_phentsize a /\ o_e_phentsize a + 2 <= 64 /\ 0 <= o_e_phnum a /\ o_e_phnum a + 2 <= 64 /\
               0 <= o_e_phoff a /\ o_e_phoff a + wsz a <= 64) by (clear; destruct a; cbn; lia).
  unfold ldw. rewrite !Lh by (rewrite ?wsz_word; cbn; lia). rewrite E2, E3, E4.
  change (padd a base (g_phoff g)) with ((base + g_phoff g) mod modulus (wsz a)).
  rewrite !padd_mod.
  assert (HM : Z.of_nat (length (g_phdrs g)) * g_phentsize g < modulus (wsz a)).
  { pose proof (load_le_range 2 m (e_ehdr e + o_e_phentsize a) W) as Q4.
    pose proof (load_le_range 2 m (e_ehdr e + o_e_phnum a) W) as Q5.
    rewrite E3 in Q4. rewrite E4 in Q5. cbn in Q4, Q5. pose proof (mod_pos a). nia. }
  apply fbind_some.
  { apply (fphdrs_ok ac e base (g_phentsize g) s3 (length (g_phdrs g)) n (base + g_phoff g) (0, 0) Hsz HM). exact TP. }
  intros [v z] _. destruct (negb _); discriminate.
Qed.
End Main.

(** A machine with page faults does exactly what RelocModel.v says, until it
    faults. *)
Theorem C76_agrees ac e m r : foutcome ac e m r -> outcome e m r.
Proof.
  intros [H [n Hn]]. split; [exact H|]. exists n.
  destruct (frelocate_below ac n e (start m)) as [E|E]; congruence.
Qed.

(** It does not both fault and come to an end. *)
Theorem C76_either ac e m r : foutcome ac e m r -> ~ faults ac e m.
Proof.
  intros [H [n Hn]] [k Hk].
  destruct (frelocate_mono ac e (start m) n (n + k) ltac:(lia)) as [E|E]; [congruence|].
  destruct (frelocate_mono ac e (start m) k (n + k) ltac:(lia)) as [E'|E']; congruence.
Qed.

(** If the process can read its initial stack, the image's headers and tables
    and the words to be relocated, and write those words, relocation does not
    fault, whatever else is unmapped, and comes to the end that C12-C16 are
    about. *)
Theorem C76_no_fault ac e m g :
  loaded e m g -> addresses_ok e -> tables_kept e m g -> accessible ac e m g ->
  ~ faults ac e m /\ forall r, outcome e m r -> foutcome ac e m r.
Proof.
  intros H1 H2 H3 H4. pose proof (no_fault ac e m g H1 H2 H3 H4) as N. split.
  - intros [n Hn]. destruct (frelocate_mono ac e (start m) n (n + enough g) ltac:(lia)) as [E|E]; [congruence|].
    apply (N (n + enough g)%nat); [lia|congruence].
  - intros r [Hr [n Hn]]. split; [exact Hr|]. exists (Nat.max n (enough g)).
    pose proof (relocate_any e (start m) n (enough g) r Hn Hr) as E.
    destruct (frelocate_below ac (Nat.max n (enough g)) e (start m)) as [F|F]; [|congruence].
    exfalso. apply (N (Nat.max n (enough g))); [lia|exact F].
Qed.

(** If nothing is to be done, only the initial stack and STATIC_START are
    read. *)
Theorem C76_skip ac e m env aux :
  0 <= e_envp e < modulus (wsz (e_arch e)) -> stack_at (e_arch e) m (e_envp e) env aux ->
  load_le m (e_static e) (word (e_arch e)) = value_of AT_ENTRY aux ->
  start_readable ac e env aux ->
  ~ faults ac e m /\ foutcome ac e m (Ok (RS m [] [] (fun _ => false))).
Proof.
  intros H1 H2 H3 H4.
  assert (N : ~ faults ac e m) by (intros [n Hn]; revert Hn; eapply skip_ok; eauto).
  split; [exact N|]. destruct (proj2 (C15_skip e m env aux (Ok (RS m [] [] (fun _ => false))) H1 H2 H3) eq_refl) as [Q [n Hn]].
  split; [exact Q|]. exists n. destruct (frelocate_below ac n e (start m)) as [F|F]; [|congruence].
  exfalso. apply N. exists n. exact F.
Qed.

(** Whatever the image and however relocation ends: every byte stored to was
    writable. *)
Theorem C76_stores_permitted ac e m r s p v x :
  foutcome ac e m r -> r = Ok s \/ r = Trapped s \/ r = Panicked s ->
  In (p, v) (stores s) -> p <= x < p + wsz (e_arch e) -> ac_w ac x = true.
Proof.
  intros [_ [n Hn]] Hr I Hx.
  pose proof (frelocate_allowed ac n e (start m) ltac:(intros ? ? [])) as H. rewrite Hn in H.
  assert (A : allowed ac (e_arch e) s) by (destruct Hr as [ -> | [ -> | -> ]]; exact H).
  apply (A p v I). exact Hx.
Qed.

(** An image that asks for a relocation in memory the process may not write
    (text relocations) is not started as if relocated: relocation ends in a
    page fault, or stops before (debug builds, inconsistent images). *)
Theorem C76_unwritable ac e m g f x :
  static_pie e m g -> In f (fixups (e_arch e) m g) ->
  fst f <= x < fst f + wsz (e_arch e) -> ac_w ac x = false ->
  (forall s, ~ foutcome ac e m (Ok s)) /\
  (e_debug e = false \/ consistent e m g -> faults ac e m).
Proof.
  intros Hp Hf Hx Hw.
  assert (I : In (fst f) (map fst (stores (final e m g)))).
  { rewrite final_stores. apply -> in_rev. apply in_map. exact Hf. }
  apply in_map_iff in I. destruct I as ([p v] & E & I). cbn in E. subst p. split.
  - intros s Ho. pose proof (C76_agrees _ _ _ _ Ho) as Ho'.
    destruct (pie_ok _ _ _ _ Hp Ho') as (_ & _ & Es).
    rewrite (C76_stores_permitted ac e m _ s (fst f) v x Ho (or_introl eq_refl)) in Hw; [discriminate|rewrite Es; exact I|exact Hx].
  - intros HD. exists (enough g).
    destruct (frelocate_below ac (enough g) e (start m)) as [F|F]; [exact F|exfalso].
    destruct Hp as (H1 & H2 & H3 & H4 & H5).
    destruct (relocate_core e m g H1 H2 H4 H3 H5 (enough g) (le_n _)) as [Q|(D & N & _)];
      [|destruct HD as [HD|HD]; [congruence|exact (N HD)]].
    rewrite Q in F. unfold relro_step in F.
    assert (X : forall r s, frelocate ac (enough g) e (start m) = Some r -> r = Ok s \/ r = Trapped s \/ r = Panicked s -> stores s = stores (final e m g) -> False).
    { intros r s Hr Hs Es.
      rewrite (C76_stores_permitted ac e m r s (fst f) v x) in Hw; [discriminate| |exact Hs|rewrite Es; exact I|exact Hx].
      split; [intros ->; destruct Hs as [Hs|[Hs|Hs]]; discriminate|eauto]. }
    destruct (relro_of g) as [[vv z]|]; [|eapply X; [exact F|left; reflexivity|reflexivity]].
    unfold relocation_mprotect_readonly in F. cbv zeta in F.
    destruct (negb _); (eapply X; [exact F| |]); [right; left; reflexivity|reflexivity|left; reflexivity|reflexivity].
Qed.

(** ** A concrete case: the image of C12_ex in a process where nothing is
    mapped but its stack, headers and tables (read-only) and its data page. *)
Definition within (l : list (Z * Z)) (x : Z) : bool := existsb (fun r => (fst r <=? x) && (x <? fst r + snd r)) l.
Definition ex_access : access := Acc
  (within [(0x1000, 11 * 8); (0x10000, 64 + 2 * 56); (0x12000, 16 * 8); (0x13000, 48); (0x13100, 16); (0x13200, 16); (0x14000, 64)])
  (within [(0x14000, 16); (0x14010, 8); (0x14020, 16); (0x14038, 8)]).

Fixpoint canb (P : Z -> bool) (p : Z) (n : nat) : bool :=
  match n with O => true | S n => P p && canb P (p + 1) n end.
Lemma canb_ok P : forall n p, canb P p n = true -> can P p (Z.of_nat n).
Proof.
  induction n as [|n IH]; intros p H x Hx; [lia|]. cbn in H. apply andb_prop in H. destruct H as [H1 H2].
  destruct (Z.eq_dec x p) as [->|N]; [exact H1|]. apply (IH _ H2). lia.
Qed.

Theorem C76_ex : let e := ex_env 0x10000 false in
  static_pie e (ex_mem 0x10000) (ex_image 0x10000) /\
  accessible ex_access e (ex_mem 0x10000) (ex_image 0x10000) /\
  (exists s, foutcome ex_access e (ex_mem 0x10000) (Ok s)) /\
  faults (Acc (ac_r ex_access) (fun x => ac_w ex_access x && negb (x =? 0x1403f))) e (ex_mem 0x10000).
Proof.
  intros e. pose proof (C12_ex false) as (SP & _ & (s & Ho & _) & FX & _).
  assert (AC : accessible ex_access e (ex_mem 0x10000) (ex_image 0x10000)).
  { split; [|split].
    - split.
      + intros i Hi. change (wsz (e_arch e)) with (Z.of_nat 8). apply canb_ok.
        change (length (g_env (ex_image 0x10000)) + 1 + 2 * (length (g_aux (ex_image 0x10000)) + 1))%nat with 11%nat in Hi.
        do 11 (destruct i as [|i]; [vm_compute; reflexivity|]). lia.
      + change (wsz (e_arch e)) with (Z.of_nat 8). apply canb_ok. vm_compute. reflexivity.
    - split; [|split; [|split; [|split; [|split]]]].
      + apply (canb_ok _ 64). vm_compute. reflexivity.
      + intros i Hi. change (wsz (e_arch e)) with (Z.of_nat 8). apply canb_ok.
        change (2 * (length (g_dyn (ex_image 0x10000)) + 1))%nat with 16%nat in Hi.
        do 16 (destruct i as [|i]; [vm_compute; reflexivity|]). lia.
      + intros i Hi. change (wsz (e_arch e)) with (Z.of_nat 8). apply canb_ok. cbn in Hi.
        do 6 (destruct i as [|i]; [vm_compute; reflexivity|]). lia.
      + intros i Hi. change (wsz (e_arch e)) with (Z.of_nat 8). apply canb_ok. cbn in Hi.
        do 2 (destruct i as [|i]; [vm_compute; reflexivity|]). lia.
      + intros i Hi. change (wsz (e_arch e)) with (Z.of_nat 8). apply canb_ok. cbn in Hi.
        do 2 (destruct i as [|i]; [vm_compute; reflexivity|]). lia.
      + intros i Hi. cbn in Hi. apply (canb_ok _ 56).
        do 2 (destruct i as [|i]; [vm_compute; reflexivity|]). lia.
    - split.
      + intros f Hf. change (e_arch e) with X86_64 in Hf. rewrite FX in Hf.
        repeat (destruct Hf as [<-|Hf]; [apply (canb_ok _ 8); vm_compute; reflexivity|]). destruct Hf.
      + intros f Hf. change (e_arch e) with X86_64 in Hf.
        assert (I : In f (fixups X86_64 (ex_mem 0x10000) (ex_image 0x10000))).
        { unfold fixups. apply in_or_app. right. exact Hf. }
        rewrite FX in I.
        repeat (destruct I as [<-|I]; [apply (canb_ok _ 8); vm_compute; reflexivity|]). destruct I. }
  split; [exact SP|]. split; [exact AC|]. split.
  - exists s. destruct SP as (H1 & H2 & _ & H4 & _). apply (proj2 (C76_no_fault _ _ _ _ H1 H2 H4 AC)). exact Ho.
  - exists 80%nat. vm_compute. reflexivity.
Qed.
