(** Layout computation in builds without overflow checks: every offset is the
    true one modulo the word size. *)
From Coq Require Import ZArith List Bool Lia.
From Verif Require Import Machine LayoutModel LayoutSpec LayoutFacts.
Import ListNotations.
Local Open Scope Z_scope.

Section rel.
Variable a : arch.
Let W := modulus (wsz a).
Lemma W_pos : 0 < W. Proof. unfold W. destruct a; reflexivity. Qed.

Lemma uadd_rel x y x0 y0 : 0 <= x < W -> 0 <= y < W -> x = x0 mod W -> y = y0 mod W ->
  uadd false a x y = Some ((x0 + y0) mod W) /\ 0 <= (x0 + y0) mod W < W.
Proof.
  pose proof W_pos. intros X Y EX EY. split; [|apply Z.mod_pos_bound; lia].
  replace ((x0 + y0) mod W) with ((x + y) mod W) by (rewrite EX, EY, <- Z.add_mod by lia; reflexivity). unfold uadd. fold W.
  destruct (Z.ltb_spec (x + y) W); [|reflexivity]. rewrite Z.mod_small by lia. reflexivity.
Qed.

Lemma round_rel x x0 b : pow2 b -> b <= 65536 -> 0 <= x < W -> x = x0 mod W ->
  round_up false a x b = Some (align_to x0 b mod W) /\ 0 <= align_to x0 b mod W < W.
Proof.
  pose proof W_pos as WP. intros P B X EX. split; [|apply Z.mod_pos_bound; lia].
  pose proof (pow2_pos b P) as BP. assert (BW : b < W) by (pose proof (modulus_big a); unfold W; lia).
  unfold round_up, usub, bind. destruct (Z.leb_spec 1 b); [|lia].
  destruct (uadd_rel x (b - 1) x0 (b - 1)) as [-> R]; auto; [lia|rewrite Z.mod_small; lia|].
  destruct P as (k & Hk & ->).
  assert (K : k < 8 * wsz a).
  { destruct (Z_lt_ge_dec k (8 * wsz a)); [lia|exfalso]. assert (2 ^ (8 * wsz a) <= 2 ^ k) by (apply Z.pow_le_mono_r; lia).
    unfold W, modulus in BW. lia. }
  rewrite land_mask by (auto; lia). f_equal.
  rewrite <- align_to_sub by lia. replace (x0 + 2 ^ k - 1) with (x0 + (2 ^ k - 1)) by lia.
  set (y := x0 + (2 ^ k - 1)) in *.
  assert (D : W = 2 ^ k * 2 ^ (8 * wsz a - k)) by (rewrite <- Z.pow_add_r by lia; unfold W, modulus; f_equal; lia).
  assert (E : (y mod W) mod 2 ^ k = y mod 2 ^ k).
  { rewrite (Z.div_mod y W) at 2 by lia. rewrite D at 2. rewrite <- Z.mul_assoc, Z.add_comm, (Z.mul_comm (2 ^ k)), Z.mod_add by lia. reflexivity. }
  rewrite E. symmetry. pose proof (Z.mod_pos_bound y (2 ^ k) ltac:(lia)) as Q. pose proof (Z.div_mod y W ltac:(lia)) as DM.
  symmetry. apply Z.mod_unique with (y / W); [|lia]. left. split; [|lia].
  assert (y mod W >= y mod 2 ^ k). { rewrite <- E. pose proof (Z.mod_le (y mod W) (2 ^ k) ltac:(lia) ltac:(lia)). lia. } lia.
Qed.

Lemma pow2_div b : pow2 b -> b <= 65536 -> (b | W).
Proof.
  intros (k & Hk & ->) B. assert (K : k < 8 * wsz a).
  { destruct (Z_lt_ge_dec k (8 * wsz a)); [lia|exfalso]. assert (2 ^ (8 * wsz a) <= 2 ^ k) by (apply Z.pow_le_mono_r; lia).
    pose proof (modulus_big a) as Q. unfold modulus in Q. lia. }
  exists (2 ^ (8 * wsz a - k)). rewrite <- Z.pow_add_r by lia. unfold W, modulus. f_equal. lia.
Qed.

Lemma round_exact ck x b : pow2 b -> b <= 65536 -> 0 <= x -> align_to x b < W -> round_up ck a x b = Some (align_to x b).
Proof.
  intros P B X L. pose proof (pow2_pos b P) as BP. apply round_up_fits; auto. fold W.
  destruct (pow2_div b P B) as [q Q]. pose proof (align_to_bounds x b BP) as R.
  unfold align_to in *. set (z := (x + b - 1) / b) in *. assert (z < q) by nia. nia.
Qed.
End rel.

Section lay.
Variables (a : arch) (td : td_layout) (tls : tls_info) (page s g : Z).
Hypothesis Hwf : wf_env a td tls page.
Hypothesis Hs : usize a s.
Hypothesis Hg : usize a g.
Hypothesis Own : fits a td tls page 0 0.
Let W := modulus (wsz a).

Definition modlay (l : layout) : layout :=
  Layout (l_stack_bottom l mod W) (l_stack_top l mod W) (l_tls l mod W) (l_header l mod W) (l_map_size l mod W).

Lemma sm x : usize a x -> x = x mod W.
Proof. intros. rewrite Z.mod_small; auto. Qed.

Lemma layout_rel : create_layout false a td tls page s g = Some (modlay (ideal a td tls page s g)).
Proof.
  destruct (al_facts a td tls page Hwf) as (A1 & A2 & A3 & A4). destruct (ma_facts a td tls page Hwf) as (M1 & M2 & M3 & M4).
  pose proof (wf_tls_file _ _ (wf_env_tls _ _ _ _ Hwf)) as F.
  pose proof (meta_size_bounds a td (wf_env_td _ _ _ _ Hwf)) as MS.
  pose proof (td_size_pos a td (wf_env_td _ _ _ _ Hwf)) as TS.
  assert (UM : usize a (meta_size a td)) by (unfold usize, fits in *; lia).
  assert (UT : usize a (tls_memsz tls)) by (unfold usize, fits in *; lia).
  unfold create_layout, ideal, calculate_tls_size.
  destruct (round_rel a g g page A4 ltac:(lia) Hg (sm _ Hg)) as [-> R1]. cbn [bind].
  destruct (uadd_rel a 0 _ 0 (align_to g page) ltac:(pose proof (W_pos a); lia) R1 eq_refl eq_refl) as [-> R2]. cbn [bind]. rewrite Z.add_0_l in *.
  destruct (round_rel a s s 16 p16 ltac:(lia) Hs (sm _ Hs)) as [-> R3]. cbn [bind].
  destruct (uadd_rel a _ _ _ _ R2 R3 eq_refl eq_refl) as [-> R4]. cbn [bind andb].
  destruct (round_rel a _ _ _ M1 ltac:(lia) R4 eq_refl) as [-> R5]. cbn [bind].
  destruct (round_rel a _ _ _ A1 ltac:(lia) UT (sm _ UT)) as [-> R6]. cbn [bind].
  destruct (tls_below a).
  - destruct (uadd_rel a _ _ _ _ R5 R6 eq_refl eq_refl) as [-> R7]. cbn [bind].
    destruct (uadd_rel a _ _ _ _ R7 UM eq_refl (sm _ UM)) as [-> R8]. cbn [bind]. reflexivity.
  - destruct (uadd_rel a _ _ _ _ R5 UM eq_refl (sm _ UM)) as [-> R7]. cbn [bind].
    destruct (round_rel a _ _ _ A1 ltac:(lia) R7 eq_refl) as [-> R8]. cbn [bind].
    destruct (uadd_rel a _ _ _ _ R8 R6 eq_refl eq_refl) as [-> R9]. cbn [bind]. reflexivity.
Qed.

(** What the true layout is bounded by. *)
Lemma ideal_bounds : let i := ideal a td tls page s g in
  g + s + tls_memsz tls + td_size td <= l_map_size i <= g + s + tls_memsz tls + td_size td + 8 * page /\
  0 <= l_stack_bottom i <= l_stack_top i /\ l_stack_top i <= l_tls i <= l_map_size i /\ l_stack_top i <= l_header i <= l_map_size i.
Proof.
  destruct (al_facts a td tls page Hwf) as (A1 & A2 & A3 & A4). destruct (ma_facts a td tls page Hwf) as (M1 & M2 & M3 & M4).
  pose proof (wf_tls_file _ _ (wf_env_tls _ _ _ _ Hwf)) as F.
  pose proof (meta_size_bounds a td (wf_env_td _ _ _ _ Hwf)) as MS.
  pose proof (td_size_pos a td (wf_env_td _ _ _ _ Hwf)) as TS. unfold usize in *.
  cbv zeta. unfold ideal. pose proof (align_to_bounds g page ltac:(lia)). pose proof (align_to_bounds s 16 ltac:(lia)).
  set (st := align_to g page + align_to s 16) in *. set (ma := Z.max (tls_align tls) (meta_align a td)) in *.
  pose proof (align_to_bounds st ma ltac:(lia)). pose proof (align_to_bounds (tls_memsz tls) (tls_align tls) ltac:(lia)).
  pose proof (align_to_bounds (align_to st ma + meta_size a td) (tls_align tls) ltac:(lia)).
  destruct (tls_below a); cbn [l_map_size l_stack_bottom l_stack_top l_tls l_header]; lia.
Qed.

Lemma layout_exact ck : l_map_size (ideal a td tls page s g) < W -> create_layout ck a td tls page s g = Some (ideal a td tls page s g).
Proof.
  intros L. destruct (al_facts a td tls page Hwf) as (A1 & A2 & A3 & A4). destruct (ma_facts a td tls page Hwf) as (M1 & M2 & M3 & M4).
  pose proof (wf_tls_file _ _ (wf_env_tls _ _ _ _ Hwf)) as F.
  pose proof (meta_size_bounds a td (wf_env_td _ _ _ _ Hwf)) as MS.
  pose proof (td_size_pos a td (wf_env_td _ _ _ _ Hwf)) as TS. unfold usize in *.
  revert L. unfold create_layout, ideal, calculate_tls_size. pose proof (align_to_bounds g page ltac:(lia)). pose proof (align_to_bounds s 16 ltac:(lia)).
  set (st := align_to g page + align_to s 16) in *. set (ma := Z.max (tls_align tls) (meta_align a td)) in *.
  pose proof (align_to_bounds st ma ltac:(lia)). pose proof (align_to_bounds (tls_memsz tls) (tls_align tls) ltac:(lia)).
  pose proof (align_to_bounds (align_to st ma + meta_size a td) (tls_align tls) ltac:(lia)).
  destruct (Z.leb_spec ma page); [|lia]. cbn [negb]. rewrite andb_false_r.
  intros L. assert (L1 : align_to st ma + meta_size a td < W) by (destruct (tls_below a); cbn [l_map_size] in L; lia).
  assert (L2 : align_to (tls_memsz tls) (tls_align tls) < W) by (destruct (tls_below a); cbn [l_map_size] in L; lia).
  rewrite round_exact by (auto; fold W; lia). cbn [bind]. rewrite uadd_fits by (fold W; lia). cbn [bind]. rewrite Z.add_0_l.
  rewrite round_exact by (auto using p16; fold W; lia). cbn [bind]. rewrite uadd_fits by (fold W; lia). cbn [bind]. fold st.
  rewrite (round_exact a ck st) by (auto; fold W; lia). cbn [bind].
  rewrite (round_exact a ck (tls_memsz tls)) by (auto; fold W; lia). cbn [bind].
  destruct (tls_below a); cbn [l_map_size] in L.
  - rewrite uadd_fits by (fold W; lia). cbn [bind]. rewrite uadd_fits by (fold W; lia). reflexivity.
  - rewrite uadd_fits by (fold W; lia). cbn [bind]. rewrite round_exact by (auto; fold W; lia). cbn [bind].
    rewrite uadd_fits by (fold W; lia). reflexivity.
Qed.

(** A build with checks computes the true layout if it fits and panics if not. *)
Lemma layout_checked : W <= l_map_size (ideal a td tls page s g) -> create_layout true a td tls page s g = None.
Proof.
  intros L. destruct (create_layout true a td tls page s g) as [l|] eqn:E; [exfalso|reflexivity].
  assert (T : l = ideal a td tls page s g) by (eapply (layout_ideal a td tls page Hwf s g Hs Hg true l); [left; reflexivity|exact E]). subst l.
  revert E L. unfold create_layout, calculate_tls_size, ideal, bind.
  destruct (round_up true a g page); [|discriminate]. destruct (uadd true a 0 z); [|discriminate].
  destruct (round_up true a s 16); [|discriminate]. destruct (uadd true a z0 z1); [|discriminate].
  destruct (_ && _); [discriminate|]. destruct (round_up true a z2 _); [|discriminate].
  destruct (round_up true a (tls_memsz tls) _); [|destruct (tls_below a); [discriminate|]; destruct (uadd _ _ _ _); [|discriminate]; destruct (round_up _ _ _ _); discriminate].
  destruct (tls_below a).
  - destruct (uadd true a z3 z4); [|discriminate]. destruct (uadd true a z5 _) eqn:U; [|discriminate]. apply uadd_ck in U. destruct U as [-> U].
    intros E. injection E as _ _ _ _ E. cbn [l_map_size]. fold W in U. lia.
  - destruct (uadd true a z3 _); [|discriminate]. destruct (round_up true a z5 _); [|discriminate]. destruct (uadd true a z6 z4) eqn:U; [|discriminate].
    apply uadd_ck in U. destruct U as [-> U]. intros E. injection E as _ _ _ _ E. cbn [l_map_size]. fold W in U. lia.
Qed.

Lemma release_or : exists L, create_layout false a td tls page s g = Some L /\
  (create_layout true a td tls page s g = Some L \/
   create_layout true a td tls page s g = None /\ l_map_size L < s + g).
Proof.
  destruct (Z_lt_dec (l_map_size (ideal a td tls page s g)) W) as [L|L].
  - exists (ideal a td tls page s g). rewrite !layout_exact by exact L. auto.
  - exists (modlay (ideal a td tls page s g)). split; [apply layout_rel|]. right. split; [apply layout_checked; lia|].
    destruct ideal_bounds as (B & _). cbn [modlay l_map_size]. set (i := l_map_size _) in *. pose proof (W_pos a) as WP.
    fold W in WP. unfold fits, usize in *. fold W in Own, Hs, Hg.
    pose proof (Z.mod_pos_bound i W WP). destruct (Z_lt_dec (s + g) W); [|lia].
    assert (i mod W = i - W) by (symmetry; apply Z.mod_unique with 1; lia). lia.
Qed.
End lay.
