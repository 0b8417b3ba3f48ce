(** Properties C09, C12-C16: startup relocation.  Model: RelocModel.v;
    vocabulary: RelocSpec.v.  All theorems are for all five targets and, unless
    they say otherwise, for debug and release builds. *)
From Verif Require Import Machine MachineFacts LayoutModel RelocModel RelocSpec RelocFacts RelocProofs RelocTop RelocMono RelocEx.

Lemma mod_mod_pos a : 0 < modulus (wsz a).
Proof. pose proof (mod_pos a). lia. Qed.

Lemma filter_rev_ex {A} (f : A -> bool) l : filter f (rev l) = rev (filter f l).
Proof.
  induction l as [|x l IH]; cbn; auto. rewrite filter_app, IH. cbn. destruct (f x); cbn; auto using app_nil_r.
Qed.

(** ** C09: the auxiliary vector *)

(** For every environment and auxv in memory at envp, relocation's view of
    AT_BASE, AT_PAGESZ and AT_ENTRY is the value of the record of that type (the
    last one if repeated), 0 if there is none.  [stack_at] asks that record
    types be nonzero and fit in 32 bits, as all those of Linux do. *)
Theorem C09_auxv a m envp env aux :
  0 <= envp < modulus (wsz a) -> stack_at a m envp env aux ->
  exists N, forall n, (N <= n)%nat ->
    read_aux n a m envp =
      Some {| auxv_base := value_of AT_BASE aux;
              auxv_page_size := value_of AT_PAGESZ aux;
              auxv_entry := value_of AT_ENTRY aux |}.
Proof.
  intros He Hs. exists (S (length env + length aux)). intros n Hn. apply (read_aux_spec a m envp env aux); auto; lia.
Qed.

(** Records before, between and after do not matter: only the records of the
    three types do. *)
Theorem C09_only_these a m m' envp envp' env env' aux aux' :
  0 <= envp < modulus (wsz a) -> 0 <= envp' < modulus (wsz a) ->
  stack_at a m envp env aux -> stack_at a m' envp' env' aux' ->
  filter (fun r => (fst r =? 6) || (fst r =? 7) || (fst r =? 9)) aux =
  filter (fun r => (fst r =? 6) || (fst r =? 7) || (fst r =? 9)) aux' ->
  exists N, forall n, (N <= n)%nat -> read_aux n a m envp = read_aux n a m' envp'.
Proof.
  intros He He' Hs Hs' Hf.
  destruct (C09_auxv _ _ _ _ _ He Hs) as [N H]. destruct (C09_auxv _ _ _ _ _ He' Hs') as [N' H'].
  exists (N + N')%nat. intros n Hn. rewrite H, H' by lia. 
  assert (V : forall t l, (t = 6 \/ t = 7 \/ t = 9) ->
     value_of t l = value_of t (filter (fun r => (fst r =? 6) || (fst r =? 7) || (fst r =? 9)) l)).
  { intros t l Ht. unfold value_of.
    assert (F : forall l0, find (fun r : Z * Z => fst r =? t) l0 = find (fun r => fst r =? t) (filter (fun r => (fst r =? 6) || (fst r =? 7) || (fst r =? 9)) l0)).
    { induction l0 as [|r l0 IH]; cbn; auto. destruct (Z.eqb_spec (fst r) t) as [E|E].
      - assert (K : (fst r =? 6) || (fst r =? 7) || (fst r =? 9) = true) by (rewrite E; destruct Ht as [->|[->| ->]]; reflexivity).
        rewrite K. cbn. rewrite (proj2 (Z.eqb_eq (fst r) t) E). reflexivity.
      - destruct (_ || _); auto. cbn. rewrite (proj2 (Z.eqb_neq (fst r) t) E). auto. }
    rewrite F, filter_rev_ex. reflexivity. }
  unfold AT_BASE, AT_PAGESZ, AT_ENTRY. rewrite !(V _ aux), !(V _ aux'), Hf by auto. reflexivity.
Qed.

(** ** Outcomes exist and are unique *)
Theorem C12_outcome_unique e m r r' : outcome e m r -> outcome e m r' -> r = r'.
Proof.
  intros [N1 [n1 H1]] [N2 [n2 H2]].
  pose proof (relocate_any e (start m) n1 n2 r H1 N1) as E1.
  pose proof (relocate_any e (start m) n2 n1 r' H2 N2) as E2. rewrite Nat.max_comm in E2. congruence.
Qed.

Lemma relro_step_cases e g s :
  (exists s', relro_step e g s = Ok s' /\ rm s' = rm s /\ stores s' = stores s) \/
  (exists s', relro_step e g s = Trapped s' /\ prots s' <> []).
Proof.
  unfold relro_step. destruct (relro_of g) as [[v z]|]; [|left; eauto].
  unfold relocation_mprotect_readonly. destruct (negb _); [right|left]; eexists; split; try reflexivity; cbn; auto; discriminate.
Qed.

Lemma pie_outcome e m g r : static_pie e m g -> outcome e m r ->
  r = relro_step e g (final e m g) \/ e_debug e = true /\ ~ consistent e m g /\ stopped r.
Proof.
  intros (H1 & H2 & H3 & H4 & H5) [Hr [n Hn]].
  pose proof (relocate_any e (start m) n (enough g) r Hn Hr) as E. rewrite <- E.
  apply relocate_core; auto. lia.
Qed.

Lemma pie_ok e m g s : static_pie e m g -> outcome e m (Ok s) ->
  relro_step e g (final e m g) = Ok s /\ rm s = rm (final e m g) /\ stores s = stores (final e m g).
Proof.
  intros Hp Ho. destruct (pie_outcome _ _ _ _ Hp Ho) as [E|(_ & _ & [s' [E|E]])]; try discriminate.
  split; auto. destruct (relro_step_cases e g (final e m g)) as [(s' & E' & H1 & H2)|(s' & E' & H1)];
    rewrite E' in E; inversion E; subst; auto.
Qed.

(** Relocation always ends.  The only ways not to complete are an mprotect call
    that fails and, in a debug build, an inconsistent image. *)
Theorem C12_completes e m g : static_pie e m g ->
  exists r, outcome e m r /\
    match r with
    | Ok _ => True
    | Trapped s => e_debug e = true /\ ~ consistent e m g \/ prots s <> []
    | Panicked _ => e_debug e = true /\ ~ consistent e m g
    | Running => False
    end.
Proof.
  intros (H1 & H2 & H3 & H4 & H5).
  destruct (relocate_core e m g H1 H2 H4 H3 H5 (enough g) (le_n _)) as [E|(D & NC & [s [E|E]])].
  - destruct (relro_step_cases e g (final e m g)) as [(s' & E' & _)|(s' & E' & Hp)]; rewrite E' in E.
    + exists (Ok s'). split; auto. split; [discriminate|eauto].
    + exists (Trapped s'). split; auto. split; [discriminate|eauto].
  - exists (Trapped s). split; auto. split; [discriminate|eauto].
  - exists (Panicked s). split; auto. split; [discriminate|eauto].
Qed.

(** ** C12: RELA *)

Lemma filter_all {A} (f : A -> bool) l : Forall (fun x => f x = true) l -> filter f l = l.
Proof. induction 1; cbn; auto. rewrite H. f_equal; auto. Qed.

(** Every word targeted by a RELA entry that no other relocation overlaps holds
    base + addend, modulo the word size. *)
Theorem C12_rela e m g s i o info ad :
  static_pie e m g -> outcome e m (Ok s) ->
  nth_error (g_rela g) i = Some (o, info, ad) ->
  alone (e_arch e) (fixups (e_arch e) m g) i ->
  load_le (rm s) ((bias (e_arch e) g + o) mod modulus (wsz (e_arch e))) (word (e_arch e)) =
  (bias (e_arch e) g + ad) mod modulus (wsz (e_arch e)).
Proof.
  intros Hp Ho Hi Hal. destruct (pie_ok _ _ _ _ Hp Ho) as (_ & Em & _). rewrite Em.
  destruct Hp as (H1 & _ & _ & _ & [H5 _]).
  assert (Hf : nth_error (fixups (e_arch e) m g) i = Some
     ((bias (e_arch e) g + o) mod modulus (wsz (e_arch e)), (bias (e_arch e) g + ad) mod modulus (wsz (e_arch e)))).
  { unfold fixups. rewrite nth_error_app1.
    - unfold rela_fixups. rewrite filter_all by exact H5. rewrite nth_error_map, Hi. reflexivity.
    - unfold rela_fixups. rewrite filter_all by exact H5. rewrite map_length. apply nth_error_Some. congruence. }
  apply (final_fixed e m g H1 i _ Hf). intros j f' Hj Hf'. apply (Hal j); auto.
Qed.

(** Every byte outside the relocated words keeps its value. *)
Theorem C12_frame e m g s x :
  static_pie e m g -> outcome e m (Ok s) ->
  outside (e_arch e) (fixups (e_arch e) m g) x -> rm s x = m x.
Proof.
  intros Hp Ho Hx. destruct (pie_ok _ _ _ _ Hp Ho) as (_ & Em & _). rewrite Em.
  apply final_outside; auto.
Qed.

(** ** C13: REL and RELR *)

Theorem C13_rel e m g s i o info :
  let a := e_arch e in
  let p := (bias a g + o) mod modulus (wsz a) in
  static_pie e m g -> outcome e m (Ok s) ->
  nth_error (g_rel g) i = Some (o, info) ->
  alone a (fixups a m g) (length (g_rela g) + i) ->
  load_le (rm s) p (word a) = (bias a g + load_le m p (word a)) mod modulus (wsz a).
Proof.
  intros a p Hp Ho Hi Hal. destruct (pie_ok _ _ _ _ Hp Ho) as (_ & Em & _). rewrite Em.
  destruct Hp as (H1 & _ & _ & _ & [H5 H6]). fold a in H5, H6.
  assert (L : length (rela_fixups a (bias a g) (g_rela g)) = length (g_rela g)).
  { unfold rela_fixups. rewrite filter_all by exact H5. apply map_length. }
  assert (Hf : nth_error (fixups a m g) (length (g_rela g) + i) = Some (moved a m (bias a g) o)).
  { unfold fixups. rewrite nth_error_app2 by lia. rewrite L.
    replace (length (g_rela g) + i - length (g_rela g))%nat with i by lia.
    unfold rel_fixups. rewrite filter_all by exact H6. rewrite nth_error_app1.
    - rewrite nth_error_map, Hi. reflexivity.
    - rewrite map_length. apply nth_error_Some. congruence. }
  apply (final_fixed e m g H1 _ _ Hf). intros j f' Hj Hf'. apply (Hal j); auto.
Qed.

Theorem C13_relr e m g s i o :
  let a := e_arch e in
  let p := (bias a g + o) mod modulus (wsz a) in
  static_pie e m g -> outcome e m (Ok s) ->
  nth_error (relr_offsets (wsz a) 0 (g_relr g)) i = Some o ->
  alone a (fixups a m g) (length (g_rela g) + length (g_rel g) + i) ->
  load_le (rm s) p (word a) = (bias a g + load_le m p (word a)) mod modulus (wsz a).
Proof.
  intros a p Hp Ho Hi Hal. destruct (pie_ok _ _ _ _ Hp Ho) as (_ & Em & _). rewrite Em.
  destruct Hp as (H1 & _ & _ & _ & [H5 H6]). fold a in H5, H6.
  assert (L : length (rela_fixups a (bias a g) (g_rela g)) = length (g_rela g)).
  { unfold rela_fixups. rewrite filter_all by exact H5. apply map_length. }
  assert (L' : length (rel_fixups a m (bias a g) (g_rel g)) = length (g_rel g)).
  { unfold rel_fixups. rewrite filter_all by exact H6. apply map_length. }
  assert (Hf : nth_error (fixups a m g) (length (g_rela g) + length (g_rel g) + i) = Some (moved a m (bias a g) o)).
  { unfold fixups. rewrite nth_error_app2 by lia. rewrite nth_error_app2 by lia. rewrite L, L'.
    replace (length (g_rela g) + length (g_rel g) + i - length (g_rela g) - length (g_rel g))%nat with i by lia.
    unfold relr_fixups. rewrite nth_error_map, Hi. reflexivity. }
  apply (final_fixed e m g H1 _ _ Hf). intros j f' Hj Hf'. apply (Hal j); auto.
Qed.

(** ... exactly once each: the stores made are one per relocation, in table
    order, and nothing else is stored. *)
Theorem C13_stores_once e m g s :
  let a := e_arch e in
  static_pie e m g -> outcome e m (Ok s) ->
  rev (map fst (stores s)) =
  map (fun o => (bias a g + o) mod modulus (wsz a))
    (map (fun r => fst (fst r)) (g_rela g) ++ map fst (g_rel g) ++ relr_offsets (wsz a) 0 (g_relr g)).
Proof.
  intros a Hp Ho. destruct (pie_ok _ _ _ _ Hp Ho) as (_ & _ & Es). rewrite Es.
  destruct Hp as (_ & _ & _ & _ & [H5 H6]). fold a in H5, H6.
  rewrite final_stores, rev_involutive. fold a. unfold fixups, rela_fixups, rel_fixups, relr_fixups.
  rewrite !filter_all by assumption. rewrite !map_app, !map_map. reflexivity.
Qed.

(** ** C14: any other relocation type traps *)
Theorem C14_traps e m g r :
  let a := e_arch e in
  loaded e m g -> addresses_ok e -> unrelocated e m g -> tables_kept e m g ->
  (Exists (fun x => relative a (snd (fst x)) = false) (g_rela g) \/
   Exists (fun x => relative a (snd x) = false) (g_rel g)) ->
  (exists r, outcome e m r) /\
  (outcome e m r -> exists s, r = Trapped s).
Proof.
  intros a H1 H2 H3 H4 Hb.
  assert (T : forall n, (enough g <= n)%nat -> exists s, relocate n e (start m) = Trapped s).
  { intros n Hn. apply bad_traps with g; auto. }
  split.
  - destruct (T _ (le_n _)) as [s Hs]. exists (Trapped s). split; [discriminate|eauto].
  - intros [Hr [n Hn]]. destruct (T (Nat.max n (enough g)) ltac:(lia)) as [s Hs].
    exists s. rewrite <- Hs. symmetry. apply relocate_any; auto.
Qed.

(** ** C15: when to relocate, and by how much *)

(** The stored address of _start already is the entry address: nothing is
    written, nothing is mprotected. *)
Theorem C15_skip e m env aux r :
  0 <= e_envp e < modulus (wsz (e_arch e)) ->
  stack_at (e_arch e) m (e_envp e) env aux ->
  load_le m (e_static e) (word (e_arch e)) = value_of AT_ENTRY aux ->
  outcome e m r <-> r = Ok (RS m [] [] (fun _ => false)).
Proof.
  intros He Hs Hst.
  assert (T : forall n, (S (length env + length aux) <= n)%nat -> relocate n e (start m) = Ok (start m)).
  { intros n Hn. unfold relocate. change (rm (start m)) with m.
    rewrite (read_aux_spec (e_arch e) m (e_envp e) env aux) by (auto; lia).
    cbn [auxv_entry]. unfold load_static_start, relocation_load, ldw. cbn [rm start]. rewrite Hst, Z.eqb_refl. reflexivity. }
  split.
  - intros [Hr [n Hn]]. pose proof (relocate_any e (start m) n (S (length env + length aux)) r Hn Hr) as E.
    rewrite T in E by lia. symmetry. exact E.
  - intros ->. split; [discriminate|]. exists (S (length env + length aux)). apply T. lia.
Qed.

(** Otherwise the base added is AT_BASE when that is nonzero... *)
Theorem C15_base_interpreter e m g s :
  let a := e_arch e in
  static_pie e m g -> outcome e m (Ok s) -> value_of AT_BASE (g_aux g) <> 0 ->
  rev (map fst (stores s)) =
  map (fun o => (value_of AT_BASE (g_aux g) + o) mod modulus (wsz a))
    (map (fun r => fst (fst r)) (g_rela g) ++ map fst (g_rel g) ++ relr_offsets (wsz a) 0 (g_relr g)).
Proof.
  intros a Hp Ho Hb. pose proof (C13_stores_once _ _ _ _ Hp Ho) as E. cbv zeta in E. fold a in E.
  unfold bias in E. rewrite (proj2 (Z.eqb_neq _ 0) Hb) in E. exact E.
Qed.

(** ... and AT_ENTRY - e_entry when AT_BASE is zero or absent. *)
Theorem C15_base_static_pie e m g s :
  let a := e_arch e in
  static_pie e m g -> outcome e m (Ok s) -> value_of AT_BASE (g_aux g) = 0 ->
  rev (map fst (stores s)) =
  map (fun o => (value_of AT_ENTRY (g_aux g) - g_entry g + o) mod modulus (wsz a))
    (map (fun r => fst (fst r)) (g_rela g) ++ map fst (g_rel g) ++ relr_offsets (wsz a) 0 (g_relr g)).
Proof.
  intros a Hp Ho Hb. pose proof (C13_stores_once _ _ _ _ Hp Ho) as E. cbv zeta in E. fold a in E.
  rewrite E. apply map_ext. intros o. unfold bias. rewrite Hb. cbn [Z.eqb]. apply Zplus_mod_idemp_l.
Qed.

(** ** C16: relro *)

Lemma page_floor a k A : 0 <= k < 8 * wsz a -> 0 <= A < modulus (wsz a) ->
  Z.land A (wrapping_neg (wsz a) (2 ^ k)) = A - A mod 2 ^ k.
Proof.
  intros Hk HA. unfold wrapping_neg.
  assert (P : 0 < 2 ^ k < modulus (wsz a)).
  { split; [apply Z.pow_pos_nonneg; lia|]. unfold modulus. apply Z.pow_lt_mono_r; lia. }
  replace ((- 2 ^ k) mod modulus (wsz a)) with (modulus (wsz a) - 2 ^ k).
  - unfold modulus in *. apply land_high; lia.
  - rewrite <- (Z.mod_small (modulus (wsz a) - 2 ^ k) (modulus (wsz a))) by lia.
    replace (modulus (wsz a) - 2 ^ k) with (- 2 ^ k + 1 * modulus (wsz a)) by lia. apply Z_mod_plus_full.
Qed.

(** No PT_GNU_RELRO header, or an empty one: no mprotect call, nothing
    read-only. *)
Theorem C16_none e m g s :
  static_pie e m g -> outcome e m (Ok s) -> relro_of g = None ->
  prots s = [] /\ forall x, ro s x = false.
Proof.
  intros Hp Ho Hn. destruct (pie_ok _ _ _ _ Hp Ho) as (E & _ & _). unfold relro_step in E. rewrite Hn in E.
  injection E as <-. destruct (final_rest e m g) as [H1 H2]. rewrite H2. auto.
Qed.

(** With one, exactly the pages that meet it become read-only, if the segment
    starts or ends on a page boundary (link editors end it on one).  Missing
    for the full property: segments with neither, see C16_refuted. *)
Theorem C16_pages_partial e m g s v z k :
  let a := e_arch e in
  let lo := (bias a g + v) mod modulus (wsz a) in
  let page := 2 ^ k in
  static_pie e m g -> outcome e m (Ok s) ->
  relro_of g = Some (v, z) -> 0 < z ->
  0 <= k < 8 * wsz a -> value_of AT_PAGESZ (g_aux g) = page -> e_kpage e = page ->
  (lo mod page = 0 \/ (lo + z) mod page = 0) ->
  forall x, ro s x = true <-> in_pages page lo z x.
Proof.
  intros a lo page Hp Ho Hr Hz Hk Hpg Hkp Hal x.
  destruct (pie_ok _ _ _ _ Hp Ho) as (E & _ & _). unfold relro_step in E. rewrite Hr, Hpg in E. fold a in E. fold lo in E.
  assert (HP : 0 < page) by (apply Z.pow_pos_nonneg; lia).
  assert (Hlo : 0 <= lo < modulus (wsz a)) by (apply Z.mod_pos_bound; apply mod_mod_pos).
  unfold page in E. rewrite page_floor in E by auto. fold page in E.
  unfold relocation_mprotect_readonly in E. destruct (negb _); [discriminate|].
  injection E as <-. cbn [ro].
  destruct (final_rest e m g) as [_ Hro]. rewrite Hro, orb_false_r, Hkp. clear Hro.
  rewrite andb_true_iff, Z.leb_le, Z.ltb_lt. unfold in_pages, page_ceil.
  set (q := lo / page). set (r := lo mod page) in *.
  assert (Dl : lo = page * q + r) by (apply Z.div_mod; lia).
  assert (Rr : 0 <= r < page) by (apply Z.mod_pos_bound; lia).
  set (c := (z + page - 1) / page).
  assert (Dc : page * c <= z + page - 1 < page * c + page).
  { unfold c. pose proof (Z.div_mod (z + page - 1) page ltac:(lia)).
    pose proof (Z.mod_pos_bound (z + page - 1) page HP). lia. }
  set (X := x / page).
  assert (Dx : page * X <= x < page * X + page).
  { unfold X. pose proof (Z.div_mod x page ltac:(lia)). pose proof (Z.mod_pos_bound x page HP). lia. }
  (* (lo + z - 1) / page = q + c - 1 *)
  assert (Top : page * (q + c - 1) <= lo + z - 1 < page * (q + c)).
  { destruct Hal as [H|H].
    - nia.
    - set (t := (lo + z) / page). assert (Dt : lo + z = page * t).
      { unfold t. pose proof (Z.div_mod (lo + z) page ltac:(lia)). lia. }
      assert (t - q = c) by nia. nia. }
  split.
  - intros [Hx1 Hx2].
    assert (q <= X < q + c) by nia.
    destruct (Z.le_gt_cases lo x) as [G|G].
    + destruct (Z.lt_ge_cases x (lo + z)) as [G2|G2]; [exists x; split; [lia|reflexivity]|].
      exists (lo + z - 1). split; [lia|]. fold X.
      assert (EX : X = q + c - 1) by nia. rewrite EX. apply Z.div_unique with ((lo + z - 1) - page * (q + c - 1)); lia.
    + exists lo. split; [lia|]. fold X q. nia.
  - intros (y & Hy & Hxy). fold X in Hxy.
    assert (Dy : page * X <= y < page * X + page).
    { rewrite Hxy. pose proof (Z.div_mod y page ltac:(lia)). pose proof (Z.mod_pos_bound y page HP). lia. }
    assert (q <= X < q + c) by nia. nia.
Qed.

(** An mprotect call that fails: the process traps. *)
Theorem C16_fail_traps e m g v z :
  let a := e_arch e in
  static_pie e m g -> relro_of g = Some (v, z) -> e_debug e = false ->
  e_kerr e <> 0 ->
  (forall r, outcome e m r -> exists s, r = Trapped s) /\ exists r, outcome e m r.
Proof.
  intros a Hp Hr Hd He.
    assert (K : forall p, (k_mprotect e p z =? 0) = false).
    { intros p. unfold k_mprotect. destruct (negb (p mod e_kpage e =? 0)); [reflexivity|]. destruct (_ <=? _); [reflexivity|]. apply Z.eqb_neq. auto. }
  split.
  - intros r Ho. destruct (pie_outcome _ _ _ _ Hp Ho) as [E|(D & _)]; [|congruence].
    unfold relro_step, relocation_mprotect_readonly in E. rewrite Hr in E.
    rewrite K in E. cbn in E. eauto.
  - destruct (C12_completes e m g Hp) as (r & Ho & _). eauto.
Qed.

(** At most one mprotect call is ever made, and none before the last store. *)
Theorem C16_one_call e m g s :
  static_pie e m g -> outcome e m (Ok s) -> (length (prots s) <= 1)%nat.
Proof.
  intros Hp Ho. destruct (pie_ok _ _ _ _ Hp Ho) as (E & _ & _). destruct (final_rest e m g) as [H1 _].
  unfold relro_step in E. destruct (relro_of g) as [[v z]|].
  - unfold relocation_mprotect_readonly in E. destruct (negb _); [discriminate|]. injection E as <-. cbn [prots length].
    rewrite H1. cbn. lia.
  - injection E as <-. rewrite H1. cbn. lia.
Qed.

(** ** A concrete image meets the hypotheses *)

Lemma pie_loaded l b i rv rz dbg :
  ex_ok (ex_env b dbg) (pie_mem l b i rv rz) (pie l b i rv rz) = true ->
  tablesb (ex_env b dbg) (pie_mem l b i rv rz) (pie l b i rv rz) = true ->
  loaded (ex_env b dbg) (pie_mem l b i rv rz) (pie l b i rv rz) /\
  tables_kept (ex_env b dbg) (pie_mem l b i rv rz) (pie l b i rv rz).
Proof. intros H1 H2. apply tablesb_spec; auto. apply wf_mem_of. Qed.

Lemma pie_static l b i rv rz dbg :
  (0 <=? b + 0x2000) && (b + 0x2000 <? modulus 8) && (i =? 8) = true ->
  ex_ok (ex_env b dbg) (pie_mem l b i rv rz) (pie l b i rv rz) = true ->
  tablesb (ex_env b dbg) (pie_mem l b i rv rz) (pie l b i rv rz) = true ->
  unrelocated (ex_env b dbg) (pie_mem l b i rv rz) (pie l b i rv rz) ->
  static_pie (ex_env b dbg) (pie_mem l b i rv rz) (pie l b i rv rz).
Proof.
  intros H0 H1 H2 H3. destruct (pie_loaded l b i rv rz dbg H1 H2) as [L T].
  apply andb_prop in H0. destruct H0 as [H0 Hi]. apply andb_prop in H0. destruct H0 as [H0 H0'].
  apply Z.leb_le in H0. apply Z.ltb_lt in H0'. apply Z.eqb_eq in Hi. subst i.
  split; [exact L|]. split; [split; [cbn; split; [lia|reflexivity]|split; assumption]|].
  split; [exact H3|]. split; [exact T|]. split; repeat constructor.
Qed.

Lemma run_ok e m (P : rst -> bool) :
  match relocate 80 e (start m) with Ok s => P s | _ => false end = true -> exists s, outcome e m (Ok s) /\ P s = true.
Proof.
  destruct (relocate 80 e (start m)) as [s|s|s|] eqn:E; try discriminate. intros H. exists s. split; auto.
  split; [discriminate|eauto].
Qed.
Lemma run_trap e m :
  match relocate 80 e (start m) with Trapped _ => true | _ => false end = true -> exists s, outcome e m (Trapped s).
Proof.
  destruct (relocate 80 e (start m)) as [s|s|s|] eqn:E; try discriminate. intros _. exists s.
  split; [discriminate|eauto].
Qed.
Lemma run_panic e m :
  match relocate 80 e (start m) with Panicked _ => true | _ => false end = true -> exists s, outcome e m (Panicked s).
Proof.
  destruct (relocate 80 e (start m)) as [s|s|s|] eqn:E; try discriminate. intros _. exists s.
  split; [discriminate|eauto].
Qed.
Definition zlist_eqb (l l' : list Z) : bool := if list_eq_dec Z.eq_dec l l' then true else false.
Lemma zlist_eqb_ok l l' : zlist_eqb l l' = true -> l = l'.
Proof. unfold zlist_eqb. destruct (list_eq_dec Z.eq_dec l l'); [auto|discriminate]. Qed.

(** Two RELA entries, one REL entry, an address word and a bitmap; relro. *)
Theorem C12_ex dbg : static_pie (ex_env 0x10000 dbg) (ex_mem 0x10000) (ex_image 0x10000) /\
  consistent (ex_env 0x10000 dbg) (ex_mem 0x10000) (ex_image 0x10000) /\
  (exists s, outcome (ex_env 0x10000 dbg) (ex_mem 0x10000) (Ok s) /\
     map (fun p => load_le (rm s) p 8) [0x14000; 0x14008; 0x14010; 0x14018; 0x14020; 0x14028; 0x14030; 0x14038] =
     [0x11100; 0x10007; 0x10005; 0; 0x10006; 0x10030; 0x31; 0x10032] /\
     prots s = [(0x14000, 0x1000)]) /\
  fixups X86_64 (ex_mem 0x10000) (ex_image 0x10000) =
    [(0x14000, 0x11100); (0x14008, 0x10007); (0x14010, 0x10005); (0x14020, 0x10006); (0x14028, 0x10030); (0x14038, 0x10032)] /\
  (forall i, (i < 6)%nat -> alone X86_64 (fixups X86_64 (ex_mem 0x10000) (ex_image 0x10000)) i).
Proof.
  assert (FX : fixups X86_64 (ex_mem 0x10000) (ex_image 0x10000) =
    [(0x14000, 0x11100); (0x14008, 0x10007); (0x14010, 0x10005); (0x14020, 0x10006); (0x14028, 0x10030); (0x14038, 0x10032)])
    by (vm_compute; reflexivity).
  assert (AL : forall i, (i < 6)%nat -> alone X86_64 (fixups X86_64 (ex_mem 0x10000) (ex_image 0x10000)) i).
  { intros i Hi. rewrite FX. apply aloneb_ok. do 6 (destruct i as [|i]; [reflexivity|]). lia. }
  split; [|split; [|split; [|split]]]; auto.
  - unfold ex_mem, ex_image. apply (pie_static 0 0x10000 8 0x4000 0x1000 dbg); [reflexivity|destruct dbg; vm_compute; reflexivity|destruct dbg; vm_compute; reflexivity|vm_compute; discriminate].
  - split; [|split; [|split; [|split]]].
    + unfold entry_sizes. repeat constructor; cbn; intros; try discriminate; reflexivity.
    + vm_compute. auto.
    + exists 12. vm_compute. repeat split; try discriminate; reflexivity.
    + intros _. exists 0%nat. split; [|apply AL; lia]. change (e_arch (ex_env 0x10000 dbg)) with X86_64. rewrite FX. reflexivity.
    + unfold dynamic_described. repeat constructor; cbn; intros; try discriminate; reflexivity.
  - destruct (run_ok (ex_env 0x10000 dbg) (ex_mem 0x10000) (fun s =>
      zlist_eqb (map (fun p => load_le (rm s) p 8) [0x14000; 0x14008; 0x14010; 0x14018; 0x14020; 0x14028; 0x14030; 0x14038])
        [0x11100; 0x10007; 0x10005; 0; 0x10006; 0x10030; 0x31; 0x10032] &&
      match prots s with [(p, l)] => (p =? 0x14000) && (l =? 0x1000) | _ => false end)) as (s & Ho & Hs).
    { destruct dbg; vm_compute; reflexivity. }
    apply andb_prop in Hs. destruct Hs as [Hs1 Hs2]. exists s. split; [exact Ho|].
    split; [apply zlist_eqb_ok; exact Hs1|].
    destruct (prots s) as [|[p l] [|]]; try discriminate. apply andb_prop in Hs2. destruct Hs2 as [A B].
    apply Z.eqb_eq in A, B. subst. reflexivity.
Qed.

(** ... and so does an image with a GLOB_DAT (type 6) entry: it traps. *)
Theorem C14_ex :
  loaded (ex_env 0x10000 false) (pie_mem 0 0x10000 6 0 0) (pie 0 0x10000 6 0 0) /\
  tables_kept (ex_env 0x10000 false) (pie_mem 0 0x10000 6 0 0) (pie 0 0x10000 6 0 0) /\
  Exists (fun x => relative X86_64 (snd x) = false) (g_rel (pie 0 0x10000 6 0 0)) /\
  exists s, outcome (ex_env 0x10000 false) (pie_mem 0 0x10000 6 0 0) (Trapped s).
Proof.
  destruct (pie_loaded 0 0x10000 6 0 0 false) as [L T]; [vm_compute; reflexivity|vm_compute; reflexivity|].
  split; [exact L|]. split; [exact T|]. split; [constructor; reflexivity|].
  apply run_trap. vm_compute. reflexivity.
Qed.

(** Already relocated: loaded at its link address. *)
Theorem C15_skip_ex :
  stack_at X86_64 (pie_mem 0x10000 0x10000 8 0 0) 0x1000 (g_env (pie 0x10000 0x10000 8 0 0)) (g_aux (pie 0x10000 0x10000 8 0 0)) /\
  load_le (pie_mem 0x10000 0x10000 8 0 0) 0x14000 8 = value_of AT_ENTRY (g_aux (pie 0x10000 0x10000 8 0 0)).
Proof.
  split; [|vm_compute; reflexivity].
  destruct (pie_loaded 0x10000 0x10000 8 0 0 false) as [L T]; [vm_compute; reflexivity|vm_compute; reflexivity|].
  apply L.
Qed.

(** ** What does not hold *)

(** A relro segment [base+0x4f00, base+0x5100): it meets two pages, but only
    the first is protected, because the start is rounded down to a page and the
    length is not adjusted. *)
Theorem C16_refuted : exists e m g s v z,
  static_pie e m g /\ outcome e m (Ok s) /\ relro_of g = Some (v, z) /\
  in_pages 4096 (bias (e_arch e) g + v) z (bias (e_arch e) g + 0x5000) /\
  ro s (bias (e_arch e) g + 0x5000) = false.
Proof.
  exists (ex_env 0x10000 false), (pie_mem 0 0x10000 8 0x4f00 0x200), (pie 0 0x10000 8 0x4f00 0x200).
  destruct (run_ok (ex_env 0x10000 false) (pie_mem 0 0x10000 8 0x4f00 0x200)
    (fun s => negb (ro s (bias X86_64 (pie 0 0x10000 8 0x4f00 0x200) + 0x5000)))) as (s & Ho & Hs); [vm_compute; reflexivity|].
  exists s, 0x4f00, 0x200.
  split; [apply (pie_static 0 0x10000 8 0x4f00 0x200 false); [reflexivity|vm_compute; reflexivity|vm_compute; reflexivity|vm_compute; discriminate]|].
  split; [exact Ho|].
  split; [reflexivity|]. split; [|apply negb_true_iff; exact Hs].
  exists (0x10000 + 0x5000). vm_compute. repeat split; try discriminate; reflexivity.
Qed.

(** An image linked at 0x100000 and loaded lower, at 0x10000: a release build
    relocates it, a debug build panics, because the RELR loop computes
    `offset + entry` with an overflow-checked addition (RELA and REL wrap). *)
Theorem C13_debug_refuted : exists m g,
  static_pie (ex_env 0x10000 false) m g /\ static_pie (ex_env 0x10000 true) m g /\
  (exists s, outcome (ex_env 0x10000 false) m (Ok s)) /\
  (exists s, outcome (ex_env 0x10000 true) m (Panicked s)).
Proof.
  exists (pie_mem 0x100000 0x10000 8 0 0), (pie 0x100000 0x10000 8 0 0).
  split; [apply (pie_static 0x100000 0x10000 8 0 0 false); [reflexivity|vm_compute; reflexivity|vm_compute; reflexivity|vm_compute; discriminate]|].
  split; [apply (pie_static 0x100000 0x10000 8 0 0 true); [reflexivity|vm_compute; reflexivity|vm_compute; reflexivity|vm_compute; discriminate]|].
  split.
  - destruct (run_ok (ex_env 0x10000 false) (pie_mem 0x100000 0x10000 8 0 0) (fun _ => true)) as (s & Ho & _); [vm_compute; reflexivity|eauto].
  - apply run_panic. vm_compute. reflexivity.
Qed.

(** Record types are compared modulo 2^32: a record of type 2^32 + 7 is taken
    for AT_BASE, although there is no record of type 7. *)
Theorem C09_wide_type_refuted : exists m envp env aux,
  words_at X86_64 m envp (env ++ [0] ++ pairs aux ++ [0]) /\ Forall (fun w => w <> 0) env /\
  Forall (fun r => fst r <> 0) aux /\ value_of AT_BASE aux = 0 /\
  exists i, read_aux 20 X86_64 m envp = Some i /\ auxv_base i = 0x1234.
Proof.
  exists (mem_of (row 0x1000 [0x5000; 0; 2 ^ 32 + 7; 0x1234; 0])), 0x1000, [0x5000], [(2 ^ 32 + 7, 0x1234)].
  split; [apply words_atb_ok; vm_compute; reflexivity|].
  split; [repeat constructor; discriminate|]. split; [repeat constructor; discriminate|].
  split; [vm_compute; reflexivity|]. eexists. split; [vm_compute; reflexivity|reflexivity].
Qed.
