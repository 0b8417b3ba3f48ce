(** Lemmas about [Machine.v]: bytes of words, loads, stores, masks. *)
From Coq Require Import ZifyBool ZifyNat.
From Verif Require Export Machine.

Ltac zdm := Z.div_mod_to_equations; nia.

(** ** Bytes of a word *)
Definition byte (x k : Z) : Z := (x / 2 ^ (8 * k)) mod 256.

Lemma byte_range x k : 0 <= byte x k < 256.
Proof. unfold byte. apply Z.mod_pos_bound. lia. Qed.

Lemma byte_testbit x k j : 0 <= k -> 0 <= j ->
  Z.testbit (byte x k) j = (j <? 8) && Z.testbit x (j + 8 * k).
Proof.
  intros Hk Hj. unfold byte. change 256 with (2 ^ 8).
  destruct (Z.ltb_spec j 8); cbn [andb].
  - rewrite Z.mod_pow2_bits_low by lia. rewrite Z.div_pow2_bits by lia. reflexivity.
  - rewrite Z.mod_pow2_bits_high by lia. reflexivity.
Qed.

Lemma byte_ext x y : (forall j, 0 <= j -> Z.testbit x j = Z.testbit y j) -> x = y.
Proof. intros H. apply Z.bits_inj'. intros. apply H; lia. Qed.

Lemma byte_lor x y k : 0 <= k -> byte (Z.lor x y) k = Z.lor (byte x k) (byte y k).
Proof.
  intros Hk. apply byte_ext. intros j Hj.
  rewrite Z.lor_spec, !byte_testbit by lia. rewrite Z.lor_spec.
  destruct (j <? 8); reflexivity.
Qed.

Lemma byte_0 k : byte 0 k = 0.
Proof. unfold byte. rewrite Zdiv_0_l. reflexivity. Qed.

Lemma byte_high x k n : 0 <= n <= k -> 0 <= x < 2 ^ (8 * n) -> byte x k = 0.
Proof.
  intros Hn Hx. unfold byte. rewrite Z.div_small; [reflexivity|].
  split; [lia|]. apply Z.lt_le_trans with (2 ^ (8 * n)); [lia|].
  apply Z.pow_le_mono_r; lia.
Qed.

Lemma byte_shr x k o : 0 <= k -> 0 <= o -> byte (shr_usize x (8 * o)) k = byte x (k + o).
Proof.
  intros Hk Ho. unfold shr_usize. apply byte_ext. intros j Hj.
  rewrite !byte_testbit by lia. rewrite Z.shiftr_spec by lia.
  replace (j + 8 * k + 8 * o) with (j + 8 * (k + o)) by lia. reflexivity.
Qed.

Lemma byte_shl ws x k o : 0 <= k -> 0 <= o -> 0 <= ws ->
  byte (shl_usize ws x (8 * o)) k = if (k <? ws) && (o <=? k) then byte x (k - o) else 0.
Proof.
  intros Hk Ho Hw. unfold shl_usize, modulus. apply byte_ext. intros j Hj.
  rewrite byte_testbit by lia.
  destruct (Z.ltb_spec j 8); cbn [andb].
  - destruct (Z.ltb_spec k ws); cbn [andb].
    + rewrite Z.mod_pow2_bits_low by lia.
      destruct (Z.leb_spec o k).
      * rewrite Z.shiftl_spec by lia. rewrite byte_testbit by lia.
        destruct (Z.ltb_spec j 8); [|lia]. cbn [andb].
        replace (j + 8 * k - 8 * o) with (j + 8 * (k - o)) by lia. reflexivity.
      * rewrite Z.bits_0. rewrite Z.shiftl_spec by lia. apply Z.testbit_neg_r. lia.
    + rewrite Z.mod_pow2_bits_high by lia. symmetry; apply Z.bits_0.
  - destruct (_ && _) eqn:Eb.
    + rewrite byte_testbit by lia. destruct (Z.ltb_spec j 8); [lia|reflexivity].
    + symmetry; apply Z.bits_0.
Qed.

(** Byte [i] in memory order of an [n]-byte word. *)
Definition wbyte (be : bool) (n i v : Z) : Z := byte v (if be then n - 1 - i else i).

Lemma wbyte_range be n i v : 0 <= wbyte be n i v < 256.
Proof. apply byte_range. Qed.

Lemma byte_head v k : 0 < k -> byte (v / 256) (k - 1) = byte v k.
Proof.
  intros. unfold byte. rewrite Z.div_div by lia.
  replace (256 * 2 ^ (8 * (k - 1))) with (2 ^ (8 * k)); [reflexivity|].
  change 256 with (2 ^ 8). rewrite <- Z.pow_add_r by lia. f_equal. lia.
Qed.
Lemma byte_zero v : byte v 0 = v mod 256.
Proof. unfold byte. simpl. rewrite Z.div_1_r. reflexivity. Qed.

(** ** Loads and stores, byte by byte *)
Lemma store_le_spec n : forall m a v x,
  store_le m a n v x = if (a <=? x) && (x <? a + Z.of_nat n) then byte v (x - a) else m x.
Proof.
  induction n as [|n IH]; intros m a v x.
  - cbn [store_le]. destruct (Z.leb_spec a x), (Z.ltb_spec x (a + Z.of_nat 0)); cbn; try reflexivity; lia.
  - cbn [store_le]. unfold upd. rewrite IH.
    destruct (Z.eqb_spec x a) as [->|Hne].
    + replace (a - a) with 0 by lia. rewrite byte_zero.
      destruct (Z.leb_spec a a), (Z.ltb_spec a (a + Z.of_nat (S n))); cbn; try reflexivity; lia.
    + destruct (Z.leb_spec (a + 1) x), (Z.ltb_spec x (a + 1 + Z.of_nat n)),
        (Z.leb_spec a x), (Z.ltb_spec x (a + Z.of_nat (S n))); cbn; try reflexivity; try lia.
      rewrite <- (byte_head v (x - a)) by lia. f_equal. lia.
Qed.

Lemma store_be_spec n : forall m a v x,
  store_be m a n v x =
  if (a <=? x) && (x <? a + Z.of_nat n) then byte v (Z.of_nat n - 1 - (x - a)) else m x.
Proof.
  induction n as [|n IH]; intros m a v x.
  - cbn [store_be]. destruct (Z.leb_spec a x), (Z.ltb_spec x (a + Z.of_nat 0)); cbn; try reflexivity; lia.
  - cbn [store_be]. unfold upd. rewrite IH.
    destruct (Z.eqb_spec x (a + Z.of_nat n)) as [->|Hne].
    + replace (Z.of_nat (S n) - 1 - (a + Z.of_nat n - a)) with 0 by lia. rewrite byte_zero.
      destruct (Z.leb_spec a (a + Z.of_nat n)), (Z.ltb_spec (a + Z.of_nat n) (a + Z.of_nat (S n))); cbn [andb]; try reflexivity; lia.
    + destruct (Z.leb_spec a x), (Z.ltb_spec x (a + Z.of_nat n)),
        (Z.ltb_spec x (a + Z.of_nat (S n))); cbn [andb]; try reflexivity; try lia.
      transitivity (byte (v / 256) (Z.of_nat (S n) - 1 - (x - a) - 1)); [f_equal; lia|].
      rewrite byte_head by lia. f_equal; lia.
Qed.

Lemma store_en_spec be n m a v x :
  store_en be m a n v x =
  if (a <=? x) && (x <? a + Z.of_nat n) then wbyte be (Z.of_nat n) (x - a) v else m x.
Proof.
  unfold store_en, wbyte. destruct be; [apply store_be_spec|apply store_le_spec].
Qed.

Lemma load_le_range n : forall m a, wf_mem m -> 0 <= load_le m a n < 2 ^ (8 * Z.of_nat n).
Proof.
  induction n as [|n IH]; intros m a H; cbn [load_le].
  - simpl. lia.
  - specialize (IH m (a + 1) H). specialize (H a).
    replace (8 * Z.of_nat (S n)) with (8 + 8 * Z.of_nat n) by lia.
    rewrite Z.pow_add_r by lia. change (2 ^ 8) with 256. lia.
Qed.
Lemma load_be_range n : forall m a, wf_mem m -> 0 <= load_be m a n < 2 ^ (8 * Z.of_nat n).
Proof.
  induction n as [|n IH]; intros m a H; cbn [load_be].
  - simpl. lia.
  - specialize (IH m a H). specialize (H (a + Z.of_nat n)).
    replace (8 * Z.of_nat (S n)) with (8 + 8 * Z.of_nat n) by lia.
    rewrite Z.pow_add_r by lia. change (2 ^ 8) with 256. lia.
Qed.
Lemma load_en_range be n m a : wf_mem m -> 0 <= load_en be m a n < 2 ^ (8 * Z.of_nat n).
Proof. destruct be; [apply load_be_range|apply load_le_range]. Qed.

Lemma load_le_byte n : forall m a i, wf_mem m -> 0 <= i < Z.of_nat n ->
  byte (load_le m a n) i = m (a + i).
Proof.
  induction n as [|n IH]; intros m a i H Hi; [lia|].
  cbn [load_le]. pose proof (H a) as Ha.
  destruct (Z.eq_dec i 0) as [->|Hne].
  - rewrite byte_zero, Z.add_0_r.
    rewrite (Z.mul_comm 256), Z.mod_add by lia. apply Z.mod_small. lia.
  - rewrite <- byte_head by lia.
    rewrite (Z.mul_comm 256), Z.div_add, (Z.div_small (m a)), Z.add_0_l by lia.
    rewrite IH by (auto; lia). f_equal. lia.
Qed.
Lemma load_be_byte n : forall m a i, wf_mem m -> 0 <= i < Z.of_nat n ->
  byte (load_be m a n) (Z.of_nat n - 1 - i) = m (a + i).
Proof.
  induction n as [|n IH]; intros m a i H Hi; [lia|].
  cbn [load_be]. pose proof (H (a + Z.of_nat n)) as Ha.
  destruct (Z.eq_dec i (Z.of_nat n)) as [->|Hne].
  - replace (Z.of_nat (S n) - 1 - Z.of_nat n) with 0 by lia. rewrite byte_zero.
    rewrite Z.add_comm, Z.mod_add by lia. apply Z.mod_small. lia.
  - rewrite <- byte_head by lia.
    rewrite Z.div_add_l, (Z.div_small (m _)), Z.add_0_r by lia.
    rewrite <- IH by (auto; lia). f_equal. lia.
Qed.
Lemma load_en_byte be n m a i : wf_mem m -> 0 <= i < Z.of_nat n ->
  wbyte be (Z.of_nat n) i (load_en be m a n) = m (a + i).
Proof.
  intros H Hi. unfold wbyte, load_en. destruct be;
    [apply load_be_byte|apply load_le_byte]; auto.
Qed.

(** Two words with the same bytes are equal. *)
Lemma byte_inj n x y : 0 <= n ->
  0 <= x < 2 ^ (8 * n) -> 0 <= y < 2 ^ (8 * n) ->
  (forall k, 0 <= k < n -> byte x k = byte y k) -> x = y.
Proof.
  intros Hn Hx Hy H. apply byte_ext. intros j Hj.
  assert (D : j = j mod 8 + 8 * (j / 8)) by (rewrite Z.add_comm; apply Z.div_mod; lia).
  pose proof (Z.mod_pos_bound j 8 ltac:(lia)).
  destruct (Z_lt_le_dec (j / 8) n).
  - specialize (H (j / 8) ltac:(split; [apply Z.div_pos; lia|lia])).
    apply (f_equal (fun z => Z.testbit z (j mod 8))) in H.
    rewrite !byte_testbit in H by (try apply Z.div_pos; lia).
    destruct (Z.ltb_spec (j mod 8) 8); [|lia]. cbn [andb] in H. rewrite <- D in H. exact H.
  - assert (B : forall z, 0 <= z < 2 ^ (8 * n) -> Z.testbit z j = false).
    { intros z Hz. destruct (Z.eq_dec z 0) as [->|]; [apply Z.bits_0|].
      apply Z.bits_above_log2; [lia|]. apply Z.log2_lt_pow2; [lia|].
      apply Z.lt_le_trans with (2 ^ (8 * n)); [lia|]. apply Z.pow_le_mono_r; lia. }
    rewrite !B; auto.
Qed.

Lemma load_le_ext m m' n : forall a,
  (forall i, 0 <= i < Z.of_nat n -> m (a + i) = m' (a + i)) -> load_le m a n = load_le m' a n.
Proof.
  induction n as [|n IH]; intros a H; [reflexivity|].
  cbn [load_le]. rewrite (IH (a + 1)).
  - specialize (H 0 ltac:(lia)). rewrite !Z.add_0_r in H. rewrite H. reflexivity.
  - intros i Hi. specialize (H (1 + i) ltac:(lia)). rewrite !Z.add_assoc in H. exact H.
Qed.

Lemma load_store_le m a n v : 0 <= v < 2 ^ (8 * Z.of_nat n) -> wf_mem m ->
  load_le (store_le m a n v) a n = v.
Proof.
  intros Hv Hm.
  assert (W : wf_mem (store_le m a n v)).
  { intros x. rewrite store_le_spec. destruct (_ && _); [apply byte_range|apply Hm]. }
  apply (byte_inj (Z.of_nat n)); [lia|apply load_le_range; auto|auto|].
  intros k Hk. rewrite load_le_byte by (auto; lia). rewrite store_le_spec.
  destruct (Z.leb_spec a (a + k)), (Z.ltb_spec (a + k) (a + Z.of_nat n)); try lia. cbn [andb].
  f_equal. lia.
Qed.

(** ** Masks *)
Lemma land_low x k : 0 <= k -> Z.land x (2 ^ k - 1) = x mod 2 ^ k.
Proof. intros. rewrite <- Z.land_ones by lia. rewrite Z.ones_equiv. reflexivity. Qed.

Lemma land_high x k W : 0 <= k <= W -> 0 <= x < 2 ^ W ->
  Z.land x (2 ^ W - 2 ^ k) = x - x mod 2 ^ k.
Proof.
  intros Hk Hx.
  assert (E : 2 ^ W - 2 ^ k = Z.ldiff (Z.ones W) (Z.ones k)).
  { rewrite <- Z.sub_nocarry_ldiff.
    - rewrite !Z.ones_equiv. lia.
    - apply byte_ext. intros j Hj. rewrite Z.ldiff_spec, Z.bits_0.
      destruct (Z_lt_le_dec j k).
      + rewrite (Z.ones_spec_low W) by lia. apply andb_false_r.
      + rewrite (Z.ones_spec_high k) by lia. reflexivity. }
  rewrite E. replace (x - x mod 2 ^ k) with (Z.ldiff x (Z.ones k)).
  - apply byte_ext. intros j Hj. rewrite Z.land_spec, !Z.ldiff_spec.
    destruct (Z_lt_le_dec j W).
    + rewrite (Z.ones_spec_low W) by lia. reflexivity.
    + assert (Z.testbit x j = false) as ->; [|reflexivity].
      destruct (Z.eq_dec x 0) as [->|]; [apply Z.bits_0|].
      apply Z.bits_above_log2; [lia|]. apply Z.log2_lt_pow2; [lia|].
      apply Z.lt_le_trans with (2 ^ W); [lia|]. apply Z.pow_le_mono_r; lia.
  - rewrite Z.ldiff_ones_r by lia. rewrite Z.shiftl_mul_pow2, Z.shiftr_div_pow2 by lia.
    pose proof (Z.div_mod x (2 ^ k) ltac:(lia)). lia.
Qed.

(** ** Access-log extension *)
Definition ext (R W : Z * Z -> Prop) (s s' : mst) : Prop :=
  exists lr lw, rlog s' = lr ++ rlog s /\ Forall R lr /\ wlog s' = lw ++ wlog s /\ Forall W lw.

Lemma ext_refl R W s : ext R W s s.
Proof. exists [], []. auto. Qed.
Lemma ext_trans R W s1 s2 s3 : ext R W s1 s2 -> ext R W s2 s3 -> ext R W s1 s3.
Proof.
  intros (r1 & w1 & A1 & B1 & C1 & D1) (r2 & w2 & A2 & B2 & C2 & D2).
  exists (r2 ++ r1), (w2 ++ w1). rewrite A2, A1, C2, C1, !app_assoc.
  repeat split; auto; apply Forall_app; auto.
Qed.
Lemma ext_weaken (R W R' W' : Z * Z -> Prop) s s' :
  (forall a w, R (a, w) -> R' (a, w)) -> (forall a w, W (a, w) -> W' (a, w)) ->
  ext R W s s' -> ext R' W' s s'.
Proof.
  intros HR HW (lr & lw & A & B & C & D). exists lr, lw. repeat split; auto.
  - eapply Forall_impl; [|exact B]. intros [? ?]; auto.
  - eapply Forall_impl; [|exact D]. intros [? ?]; auto.
Qed.
Lemma ext_load (R W : Z * Z -> Prop) be n a s : R (a, Z.of_nat n) -> ext R W s (snd (load_n be n a s)).
Proof. intros. exists [(a, Z.of_nat n)], []. cbn. auto. Qed.
Lemma ext_store (R W : Z * Z -> Prop) be n a v s : W (a, Z.of_nat n) -> ext R W s (store_n be n a v s).
Proof. intros. exists [], [(a, Z.of_nat n)]. cbn. auto. Qed.
Lemma ext_load1 (R W : Z * Z -> Prop) a s : R (a, 1) -> ext R W s (snd (load1 a s)).
Proof. intros. exists [(a, 1)], []. cbn. auto. Qed.
Lemma ext_store1 (R W : Z * Z -> Prop) a v s : W (a, 1) -> ext R W s (store1 a v s).
Proof. intros. exists [], [(a, 1)]. cbn. auto. Qed.
