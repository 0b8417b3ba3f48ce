(** Arithmetic facts about the thread layout. *)
From Coq Require Import ZifyBool ZifyNat.
From Verif Require Import Machine MachineFacts LayoutModel LayoutSpec.

(** ** align_to *)
Lemma align_to_bounds x b : 0 < b -> x <= align_to x b < x + b.
Proof.
  intros Hb. unfold align_to.
  pose proof (Z.div_mod (x + b - 1) b). pose proof (Z.mod_pos_bound (x + b - 1) b). nia.
Qed.
Lemma align_to_div x b : (b | align_to x b).
Proof. unfold align_to. apply Z.divide_factor_r. Qed.
Lemma align_to_id x b : 0 < b -> (b | x) -> align_to x b = x.
Proof.
  intros Hb [q ->]. unfold align_to. f_equal.
  symmetry. apply Z.div_unique with (b - 1); lia.
Qed.
Lemma align_to_mono x y b : 0 < b -> x <= y -> align_to x b <= align_to y b.
Proof.
  intros. unfold align_to. apply Z.mul_le_mono_nonneg_r; [lia|].
  apply Z.div_le_mono; lia.
Qed.
Lemma align_to_1 x : align_to x 1 = x.
Proof. unfold align_to. rewrite Z.div_1_r. lia. Qed.

Lemma align_to_add x y b : 0 < b -> (b | x) -> align_to (x + y) b = x + align_to y b.
Proof.
  intros Hb [q ->]. unfold align_to.
  replace (q * b + y + b - 1) with (q * b + (y + b - 1)) by lia.
  rewrite Z.div_add_l by lia. lia.
Qed.

Lemma page_ceil_align page n : page_ceil page n = align_to n page.
Proof. reflexivity. Qed.

(** ** Words *)
Lemma wsz_cases a : wsz a = 8 \/ wsz a = 4.
Proof. destruct a; auto. Qed.
Lemma wsz_word a : Z.of_nat (word a) = wsz a.
Proof. destruct a; reflexivity. Qed.
Lemma modulus_cases a : modulus (wsz a) = 2 ^ 64 \/ modulus (wsz a) = 2 ^ 32.
Proof. destruct a; auto. Qed.
Lemma modulus_pow a : modulus (wsz a) = 2 ^ (8 * wsz a).
Proof. reflexivity. Qed.
Lemma modulus_big a : 2 ^ 32 <= modulus (wsz a).
Proof. destruct (modulus_cases a) as [-> | ->]; lia. Qed.

Lemma pow2_pos n : pow2 n -> 0 < n.
Proof. intros (k & Hk & ->). apply Z.pow_pos_nonneg; lia. Qed.

Lemma pow2_le_div x y : pow2 x -> pow2 y -> x <= y -> (x | y).
Proof.
  intros (i & Hi & ->) (j & Hj & ->) H.
  assert (i <= j) by (destruct (Z_le_gt_dec i j); [lia|];
    exfalso; assert (2 ^ j < 2 ^ i) by (apply Z.pow_lt_mono_r; lia); lia).
  exists (2 ^ (j - i)). rewrite <- Z.pow_add_r by lia. f_equal. lia.
Qed.
Lemma pow2_max x y : pow2 x -> pow2 y -> pow2 (Z.max x y).
Proof. intros Hx Hy. destruct (Z.max_spec x y) as [[_ ->] | [_ ->]]; auto. Qed.
Lemma pow2_wsz a : pow2 (wsz a).
Proof. destruct a; [exists 3|exists 2|exists 3|exists 2|exists 3]; split; try lia; reflexivity. Qed.

Lemma wf_page_bounds page : wf_page page -> 4096 <= page <= 65536 /\ pow2 page.
Proof.
  intros (k & Hk & ->). split; [|exists k; lia].
  split; [change 4096 with (2 ^ 12)|change 65536 with (2 ^ 16)]; apply Z.pow_le_mono_r; lia.
Qed.

(** ** round_up *)
Lemma land_mask a x k : 0 <= k < 8 * wsz a -> 0 <= x < modulus (wsz a) ->
  Z.land x (wrapping_neg (wsz a) (2 ^ k)) = x - x mod 2 ^ k.
Proof.
  intros Hk Hx. unfold wrapping_neg, modulus in *.
  assert (0 < 2 ^ k) by (apply Z.pow_pos_nonneg; lia).
  assert (2 ^ k < 2 ^ (8 * wsz a)) by (apply Z.pow_lt_mono_r; lia).
  replace ((- 2 ^ k) mod 2 ^ (8 * wsz a)) with (2 ^ (8 * wsz a) - 2 ^ k).
  - apply land_high; lia.
  - apply Z.mod_unique with (-1); lia.
Qed.

Lemma align_to_sub x b : 0 < b -> (x + b - 1) - (x + b - 1) mod b = align_to x b.
Proof. intros. unfold align_to. pose proof (Z.div_mod (x + b - 1) b). nia. Qed.

Lemma round_up_fits ck a x b : pow2 b -> b <= 65536 -> 0 <= x -> x + b <= modulus (wsz a) ->
  round_up ck a x b = Some (align_to x b).
Proof.
  intros Hp Hb Hx Hf. pose proof (pow2_pos b Hp) as Hpos. pose proof (modulus_big a).
  destruct Hp as (k & Hk & ->).
  assert (k < 8 * wsz a).
  { destruct (Z_lt_ge_dec k (8 * wsz a)); [lia|exfalso].
    assert (2 ^ (8 * wsz a) <= 2 ^ k) by (apply Z.pow_le_mono_r; lia).
    fold (modulus (wsz a)) in *. lia. }
  unfold round_up, usub, uadd, bind.
  destruct (Z.leb_spec 1 (2 ^ k)); [|lia].
  destruct (Z.ltb_spec (x + (2 ^ k - 1)) (modulus (wsz a))); [|lia].
  rewrite land_mask by lia. f_equal.
  rewrite <- align_to_sub by lia. replace (x + 2 ^ k - 1) with (x + (2 ^ k - 1)) by lia. reflexivity.
Qed.

Lemma round_up_ck a x b r : pow2 b -> b <= 65536 -> 0 <= x ->
  round_up true a x b = Some r -> r = align_to x b /\ x + b <= modulus (wsz a).
Proof.
  intros Hp Hb Hx H.
  assert (x + b <= modulus (wsz a)).
  { pose proof (pow2_pos b Hp). revert H. unfold round_up, usub, uadd, bind.
    destruct (Z.leb_spec 1 b); [|lia].
    destruct (Z.ltb_spec (x + (b - 1)) (modulus (wsz a))); [lia|discriminate]. }
  rewrite round_up_fits in H by lia || auto. inversion H. auto.
Qed.

Lemma uadd_fits ck a x y : x + y < modulus (wsz a) -> uadd ck a x y = Some (x + y).
Proof. intros. unfold uadd. destruct (Z.ltb_spec (x + y) (modulus (wsz a))); [reflexivity|lia]. Qed.
Lemma uadd_ck a x y r : uadd true a x y = Some r -> r = x + y /\ x + y < modulus (wsz a).
Proof. unfold uadd. destruct (Z.ltb_spec (x + y) (modulus (wsz a))); intros E; inversion E; auto. Qed.

(** ** Struct sizes and offsets *)
Lemma abi_size_val a : abi_size a = match a with X86_64 => 48 | X86 => 24 | Aarch64 => 24 | Arm => 16 | Riscv64 => 16 end.
Proof. destruct a; reflexivity. Qed.
Lemma abi_align_val a : abi_align a = 8 \/ abi_align a = 4.
Proof. destruct a; auto. Qed.
Lemma abi_align_eq a : abi_align a = match a with X86 => 4 | _ => 8 end.
Proof. destruct a; reflexivity. Qed.

Section td.
  Variables (a : arch) (td : td_layout).
  Hypothesis Htd : wf_td a td.

  Lemma meta_align_val : meta_align a td = abi_align a.
  Proof.
    destruct Htd as [E _ _ _ _]. unfold meta_align, meta_fields. rewrite abi_align_eq.
    destruct a; cbn -[Z.max]; rewrite E; reflexivity.
  Qed.

  Lemma td_size_pos : 0 < td_size td.
  Proof. apply Htd. Qed.

  (** Offset of the thread record proper and of the ABI part. *)
  Lemma off_thread_val : meta_off a td FThread = if tls_below a then abi_size a else 0.
  Proof.
    destruct Htd as [E _ _ _ _]. unfold meta_off, meta_fields.
    destruct a; cbn; rewrite ?E; reflexivity.
  Qed.
  Lemma off_abi_val : meta_off a td FAbi = if tls_below a then 0 else align_to (td_size td) (abi_align a).
  Proof.
    destruct Htd as [E _ _ _ _]. unfold meta_off, meta_fields.
    destruct a; cbn [tls_below c_offset meta_eqb]; try reflexivity; rewrite E;
      unfold align_to at 2; cbn [wsz]; (replace ((0 + _ - 1) / _ * _) with 0 by reflexivity); reflexivity.
  Qed.
  Lemma meta_size_val : meta_size a td = abi_size a + (if tls_below a then td_size td else align_to (td_size td) (abi_align a)).
  Proof.
    destruct Htd as [E D P _ _]. unfold meta_size. rewrite meta_align_val. unfold meta_fields.
    assert (A0 : forall b, 0 < b -> align_to 0 b = 0)
      by (intros; unfold align_to; replace (0 + b - 1) with (b - 1) by lia; rewrite Z.div_small by lia; lia).
    destruct a; cbn [tls_below c_end]; rewrite ?E, ?abi_align_eq, ?abi_size_val; cbn [wsz] in *;
      rewrite ?A0 by lia; rewrite ?Z.add_0_l.
    - change (align_to 48 8) with 48. apply align_to_id; [lia|]. apply Z.divide_add_r; [exists 6; lia|assumption].
    - change (align_to 24 4) with 24. apply align_to_id; [lia|]. apply Z.divide_add_r; [exists 6; lia|assumption].
    - rewrite align_to_id; [lia|lia|]. apply Z.divide_add_r; [apply align_to_div|exists 3; lia].
    - rewrite align_to_id; [lia|lia|]. apply Z.divide_add_r; [apply align_to_div|exists 2; lia].
    - rewrite align_to_id; [lia|lia|]. apply Z.divide_add_r; [apply align_to_div|exists 2; lia].
  Qed.
  Lemma meta_size_bounds : td_size td < meta_size a td <= td_size td + 56.
  Proof.
    rewrite meta_size_val, abi_size_val. pose proof td_size_pos.
    pose proof (align_to_bounds (td_size td) (abi_align a)). rewrite abi_align_eq in *.
    destruct a; cbn [tls_below]; lia.
  Qed.
End td.

(** ** The ideal layout *)
Definition ideal (a : arch) (td : td_layout) (tls : tls_info) (page s g : Z) : layout :=
  let sb := align_to g page in
  let st := sb + align_to s 16 in
  let base := align_to st (Z.max (tls_align tls) (meta_align a td)) in
  if tls_below a then
    let h := base + align_to (tls_memsz tls) (tls_align tls) in
    Layout sb st base h (h + meta_size a td)
  else
    let t := align_to (base + meta_size a td) (tls_align tls) in
    Layout sb st t base (t + align_to (tls_memsz tls) (tls_align tls)).

Definition ideal_tls (a : arch) (td : td_layout) (tls : tls_info) (n : Z) : Z * Z * Z :=
  let base := align_to n (Z.max (tls_align tls) (meta_align a td)) in
  if tls_below a then
    let h := base + align_to (tls_memsz tls) (tls_align tls) in
    (h + meta_size a td, base, h)
  else
    let t := align_to (base + meta_size a td) (tls_align tls) in
    (t + align_to (tls_memsz tls) (tls_align tls), t, base).

Lemma p16 : pow2 16.
Proof. exists 4. split; [lia|reflexivity]. Qed.

Section calc.
  Variables (a : arch) (td : td_layout) (tls : tls_info) (page : Z).
  Hypothesis Hwf : wf_env a td tls page.

  Let al := tls_align tls.
  Let ma := Z.max al (meta_align a td).

  Lemma al_facts : pow2 al /\ 0 < al <= page /\ 4096 <= page <= 65536 /\ pow2 page.
  Proof.
    destruct Hwf as [_ [A B C] P]. apply wf_page_bounds in P. subst al.
    pose proof (pow2_pos _ A). repeat split; try lia; try apply P; auto.
  Qed.
  Lemma ma_facts : pow2 ma /\ al <= ma <= page /\ (al | ma) /\ (meta_align a td | ma).
  Proof.
    destruct al_facts as (A & B & C & D). pose proof (meta_align_val a td (wf_env_td _ _ _ _ Hwf)) as E.
    assert (P : pow2 (meta_align a td)).
    { rewrite E. destruct (abi_align_val a) as [-> | ->]; [exists 3|exists 2]; split; auto; lia. }
    assert (M : pow2 ma) by (apply pow2_max; auto).
    assert (meta_align a td <= 8) by (rewrite E; destruct (abi_align_val a); lia).
    subst ma. repeat split; auto; try lia; apply pow2_le_div; auto; lia.
  Qed.

  (** The checked computation agrees with the ideal one or panics. *)
  Lemma calc_ck n r : 0 <= n ->
    calculate_tls_size true a td tls page n = Some r -> r = ideal_tls a td tls n.
  Proof.
    intros Hn. destruct al_facts as (A1 & A2 & A3 & A4). destruct ma_facts as (M1 & M2 & M3 & M4).
    pose proof (wf_tls_file _ _ (wf_env_tls _ _ _ _ Hwf)) as F.
    pose proof (meta_size_bounds a td (wf_env_td _ _ _ _ Hwf)) as MS.
    pose proof (td_size_pos a td (wf_env_td _ _ _ _ Hwf)) as TS.
    unfold calculate_tls_size, ideal_tls. fold al. fold ma. cbn [andb].
    destruct (Z.leb_spec ma page); [cbn [negb]|lia].
    destruct (round_up true a n ma) as [b|] eqn:E1; [|discriminate]. cbn [bind].
    apply round_up_ck in E1; [|auto|lia|lia]. destruct E1 as [-> E1].
    pose proof (align_to_bounds n ma). 
    destruct (tls_below a); cbn [negb].
    - destruct (round_up true a (tls_memsz tls) al) as [r1|] eqn:E2; [|discriminate]. cbn [bind].
      apply round_up_ck in E2; [|auto|lia|lia]. destruct E2 as [-> E2].
      destruct (uadd true a (align_to n ma) (align_to (tls_memsz tls) al)) as [h|] eqn:E3; [|discriminate]. cbn [bind].
      apply uadd_ck in E3. destruct E3 as [-> E3].
      destruct (uadd true a _ (meta_size a td)) as [z|] eqn:E4; [|discriminate]. cbn [bind].
      apply uadd_ck in E4. destruct E4 as [-> E4]. intros E; inversion E. reflexivity.
    - destruct (uadd true a _ (meta_size a td)) as [z|] eqn:E4; [|discriminate]. cbn [bind].
      apply uadd_ck in E4. destruct E4 as [-> E4].
      destruct (round_up true a (align_to n ma + meta_size a td) al) as [t|] eqn:E5; [|discriminate]. cbn [bind].
      apply round_up_ck in E5; [|auto|lia|lia]. destruct E5 as [-> E5].
      destruct (round_up true a (tls_memsz tls) al) as [r1|] eqn:E2; [|discriminate]. cbn [bind].
      apply round_up_ck in E2; [|auto|lia|lia]. destruct E2 as [-> E2].
      destruct (uadd true a _ (align_to (tls_memsz tls) al)) as [h|] eqn:E3; [|discriminate]. cbn [bind].
      apply uadd_ck in E3. destruct E3 as [-> E3]. intros E; inversion E. reflexivity.
  Qed.

  Lemma calc_fits ck n : 0 <= n -> n + tls_memsz tls + td_size td + 5 * page < modulus (wsz a) ->
    calculate_tls_size ck a td tls page n = Some (ideal_tls a td tls n).
  Proof.
    intros Hn Hfit. destruct al_facts as (A1 & A2 & A3 & A4). destruct ma_facts as (M1 & M2 & M3 & M4).
    pose proof (wf_tls_file _ _ (wf_env_tls _ _ _ _ Hwf)) as F.
    pose proof (meta_size_bounds a td (wf_env_td _ _ _ _ Hwf)) as MS.
    pose proof (td_size_pos a td (wf_env_td _ _ _ _ Hwf)) as TS.
    unfold calculate_tls_size, ideal_tls. fold al. fold ma.
    destruct (Z.leb_spec ma page); [|lia]. rewrite andb_false_r.
    pose proof (align_to_bounds n ma). pose proof (align_to_bounds (tls_memsz tls) al).
    pose proof (align_to_bounds (align_to n ma + meta_size a td) al).
    rewrite round_up_fits by (auto; lia). cbn [bind].
    destruct (tls_below a).
    - rewrite round_up_fits by (auto; lia). cbn [bind].
      rewrite uadd_fits by lia. cbn [bind]. rewrite uadd_fits by lia. reflexivity.
    - rewrite uadd_fits by lia. cbn [bind].
      rewrite round_up_fits by (auto; lia). cbn [bind].
      rewrite round_up_fits by (auto; lia). cbn [bind].
      rewrite uadd_fits by lia. reflexivity.
  Qed.

  Variables (s g : Z).
  Hypothesis Hs : usize a s.
  Hypothesis Hg : usize a g.

  Lemma layout_fits ck : fits a td tls page s g -> create_layout ck a td tls page s g = Some (ideal a td tls page s g).
  Proof.
    intros Hfit. unfold fits, usize in *. destruct al_facts as (A1 & A2 & A3 & A4).
    pose proof (wf_tls_file _ _ (wf_env_tls _ _ _ _ Hwf)) as F.
    pose proof (td_size_pos a td (wf_env_td _ _ _ _ Hwf)) as TS.
    pose proof (align_to_bounds g page). pose proof (align_to_bounds s 16).
    unfold create_layout, ideal.
    rewrite round_up_fits by (auto; lia). cbn [bind].
    rewrite uadd_fits by lia. cbn [bind].
    rewrite round_up_fits by (auto using p16; lia). cbn [bind].
    rewrite uadd_fits by lia. cbn [bind].
    rewrite calc_fits by lia. cbn [bind]. unfold ideal_tls. rewrite Z.add_0_l.
    destruct (tls_below a); reflexivity.
  Qed.

  Lemma layout_ideal ck L : checked_or_fits ck a td tls page s g ->
    create_layout ck a td tls page s g = Some L -> L = ideal a td tls page s g.
  Proof.
    intros [-> | Hfit] H; [|rewrite layout_fits in H by auto; congruence].
    unfold usize in *. destruct al_facts as (A1 & A2 & A3 & A4).
    pose proof (align_to_bounds g page). pose proof (align_to_bounds s 16).
    revert H. unfold create_layout, ideal.
    destruct (round_up true a g page) as [x1|] eqn:E1; [|discriminate]. cbn [bind].
    apply round_up_ck in E1; [|auto|lia|lia]. destruct E1 as [-> E1].
    destruct (uadd true a 0 _) as [x2|] eqn:E2; [|discriminate]. cbn [bind].
    apply uadd_ck in E2. destruct E2 as [-> E2].
    destruct (round_up true a s 16) as [x3|] eqn:E3; [|discriminate]. cbn [bind].
    apply round_up_ck in E3; [|apply p16|lia|lia]. destruct E3 as [-> E3].
    destruct (uadd true a _ _) as [x4|] eqn:E4; [|discriminate]. cbn [bind].
    apply uadd_ck in E4. destruct E4 as [-> E4].
    destruct (calculate_tls_size true a td tls page _) as [[[x5 x6] x7]|] eqn:E5; [|discriminate]. cbn [bind].
    apply calc_ck in E5; [|lia]. unfold ideal_tls in E5. rewrite Z.add_0_l in *.
    intros E; inversion E. destruct (tls_below a); inversion E5; subst; reflexivity.
  Qed.
End calc.
