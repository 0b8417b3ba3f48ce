(** The memory-function lemmas in the vocabulary of [MemSpec.v]. *)
From Coq Require Import ZifyBool ZifyNat.
From Verif Require Import MachineFacts MemModel MemSpec MemProofs MemProofs2.

Lemma cp_copied m d sr n m' : cp m (sr - d) d (d + n) m' -> copied m d sr n m'.
Proof.
  intros H. split.
  - intros i Hi. rewrite H. replace (d + i + (sr - d)) with (sr + i) by lia. bd.
  - intros x Hx. rewrite H. unfold inside in Hx. bd.
Qed.
Lemma fl_filled m p c n m' : fl m c p (p + n) m' -> filled m p c n m'.
Proof.
  intros H. split.
  - intros i Hi. rewrite H. bd.
  - intros x Hx. rewrite H. unfold inside in Hx. bd.
Qed.

Lemma disjoint_cases d sr n : 0 < n -> disjoint d sr n -> d + n <= sr \/ sr + n <= d.
Proof.
  intros Hn H. specialize (H (Z.max d sr)). unfold inside in H. lia.
Qed.

Lemma rd_ioa sr n s' (R W : Z * Z -> Prop) m : (forall x w, R (x, w) -> rd sr (sr + n) (x, w)) ->
  ext R W (start m) s' -> inside_or_aligned sr n (rlog s').
Proof.
  intros HR (lr & lw & A & B & _) x w Hin. cbn in A. rewrite A, app_nil_r in Hin.
  rewrite Forall_forall in B. specialize (HR _ _ (B _ Hin)). cbn in HR.
  destruct HR as (Hw & [HR|(H16 & Hd & H0 & H1 & H2)]); split; auto.
  right. split; [|split].
  - assert (1 <= w <= 16) by (apply Z.divide_pos_le in H16; lia). destruct H16 as (q & Hq).
    assert (C : w = 1 \/ w = 2 \/ w = 4 \/ w = 8 \/ w = 16 \/ w = 3 \/ w = 5 \/ w = 6 \/ w = 7 \/ w = 9 \/ w = 10 \/
      w = 11 \/ w = 12 \/ w = 13 \/ w = 14 \/ w = 15) by lia.
    cbn [In]. repeat (destruct C as [C|C]; [try (rewrite C in Hq; exfalso; lia); auto 10|]). rewrite C in Hq. exfalso. lia.
  - apply Z.mod_divide; [lia|exact Hd].
  - exists (Z.max x sr). unfold inside. lia.
Qed.

Lemma wr_inside d n s' (R : Z * Z -> Prop) m : ext R (wr d (d + n)) (start m) s' -> only_inside d n (wlog s').
Proof.
  intros (lr & lw & _ & _ & A & B) x w Hin. cbn in A. rewrite A, app_nil_r in Hin.
  rewrite Forall_forall in B. specialize (B _ Hin). cbn in B. lia.
Qed.
Lemma none_nil (R : Z * Z -> Prop) s' m : ext R none (start m) s' -> wlog s' = [].
Proof.
  intros (lr & lw & _ & _ & A & B). cbn in A. rewrite app_nil_r in A. rewrite A.
  destruct lw as [|x l]; [reflexivity|]. inversion B; contradiction.
Qed.
Lemma rnone_nil (W : Z * Z -> Prop) s' m : ext none W (start m) s' -> rlog s' = [].
Proof.
  intros (lr & lw & A & B & _). cbn in A. rewrite app_nil_r in A. rewrite A.
  destruct lr as [|x l]; [reflexivity|]. inversion B; contradiction.
Qed.

(** ** memcpy / memmove *)
Definition copy_post (m : mem) (d sr n : Z) (r : option (Z * mst)) : Prop :=
  exists s', r = Some (d, s') /\ copied m d sr n (bytes s') /\
    only_inside d n (wlog s') /\ inside_or_aligned sr n (rlog s').

Lemma post_of m d sr n s' : cp m (sr - d) d (d + n) (bytes s') ->
  ext (rd sr (sr + n)) (wr d (d + n)) (start m) s' -> copy_post m d sr n (Some (d, s')).
Proof.
  intros C X. exists s'. split; [reflexivity|]. split; [apply cp_copied; exact C|].
  split; [eapply wr_inside; exact X|]. eapply rd_ioa; [|exact X]. auto.
Qed.

Lemma memcpy_all v m d sr n : variant_ok v -> wf_mem m ->
  object (variant_ws v) d n -> object (variant_ws v) sr n -> disjoint d sr n ->
  copy_post m d sr n (memcpy v d sr n (start m)).
Proof.
  intros Hv W Hd Hs Hdis.
  assert (Hn : 0 <= n) by (destruct Hd; lia).
  assert (Hc : d <= sr \/ sr + n <= d).
  { destruct (Z.eq_dec n 0) as [->|]; [lia|]. destruct (disjoint_cases d sr n); auto; lia. }
  destruct v as [ws|ws be unal|ermsb sse2]; cbn [memcpy variant_ws] in *.
  - unfold small_memcpy.
    destruct (small_fwd_ok (S (Z.to_nat n)) d sr (d + n) (start m) m (sr - d) d) as (s' & E & C & X);
      try apply cp_init; try lia.
    rewrite E. apply post_of; auto.
    replace (d + (sr - d)) with sr in X by lia. replace (d + n + (sr - d)) with (sr + n) in X by lia. exact X.
  - destruct (copy_forward_ok unal be ws d sr n (start m)) as (s' & E & C & X); auto.
    rewrite E. apply post_of; auto.
  - destruct (x64_fwd_ok ermsb d sr n (start m)) as (s' & E & C & X); auto.
    rewrite E. apply post_of; auto.
Qed.

Lemma delta_fwd ws d sr n : object ws d n -> object ws sr n -> n <= wrapping_sub ws d sr -> d <= sr \/ sr + n <= d.
Proof.
  intros (Hd0 & Hn & Hd1) (Hs0 & _ & Hs1) H. unfold wrapping_sub, modulus in H.
  destruct (Z_le_gt_dec d sr); [lia|]. right. destruct (Z.eq_dec n 0); [lia|].
  rewrite Z.mod_small in H by lia. lia.
Qed.
Lemma delta_bwd ws d sr n : object ws d n -> object ws sr n -> wrapping_sub ws d sr < n -> sr <= d.
Proof.
  intros (Hd0 & Hn & Hd1) (Hs0 & _ & Hs1) H. unfold wrapping_sub, modulus in H.
  destruct (Z_le_gt_dec sr d); [lia|]. exfalso.
  rewrite <- (Z.mod_add _ 1) in H by lia. rewrite Z.mod_small in H by lia. lia.
Qed.

Lemma memmove_all v m d sr n : variant_ok v -> wf_mem m ->
  object (variant_ws v) d n -> object (variant_ws v) sr n ->
  copy_post m d sr n (memmove v d sr n (start m)).
Proof.
  intros Hv W Hd Hs.
  assert (Hn : 0 <= n) by (destruct Hd; lia).
  destruct v as [ws|ws be unal|ermsb sse2]; cbn [memmove variant_ws] in *.
  - unfold small_memmove. destruct (Z.leb_spec n (wrapping_sub ws d sr)) as [Hle|Hlt].
    + pose proof (delta_fwd ws d sr n Hd Hs Hle) as Hc.
      destruct (small_fwd_ok (S (Z.to_nat n)) d sr (d + n) (start m) m (sr - d) d) as (s' & E & C & X);
        try apply cp_init; try lia.
      rewrite E. apply post_of; auto.
      replace (d + (sr - d)) with sr in X by lia. replace (d + n + (sr - d)) with (sr + n) in X by lia. exact X.
    + pose proof (delta_bwd ws d sr n Hd Hs Hlt) as Hc.
      destruct (small_bwd_ok (S (Z.to_nat n)) (d + n) (sr + n) d (start m) m (sr - d) (d + n)) as (s' & E & C & X);
        try apply cp_init; try lia.
      rewrite E. apply post_of; auto.
      replace (d + (sr - d)) with sr in X by lia. replace (d + n + (sr - d)) with (sr + n) in X by lia. exact X.
  - destruct (Z.leb_spec n (wrapping_sub ws d sr)) as [Hle|Hlt].
    + destruct (copy_forward_ok unal be ws d sr n (start m)) as (s' & E & C & X); eauto using delta_fwd.
      rewrite E. apply post_of; auto.
    + destruct (copy_backward_ok unal be ws d sr n (start m)) as (s' & E & C & X); eauto using delta_bwd.
      rewrite E. apply post_of; auto.
  - destruct (Z.leb_spec n (wrapping_sub 8 d sr)) as [Hle|Hlt].
    + destruct (x64_fwd_ok ermsb d sr n (start m)) as (s' & E & C & X); eauto using delta_fwd.
      rewrite E. apply post_of; auto.
    + destruct (x64_bwd_ok d sr n (start m)) as (s' & E & C & X); eauto using delta_bwd.
      rewrite E. apply post_of; auto.
Qed.

(** ** memset *)
Definition fill_post (m : mem) (p c n : Z) (r : option (Z * mst)) : Prop :=
  exists s', r = Some (p, s') /\ filled m p (c mod 256) n (bytes s') /\
    only_inside p n (wlog s') /\ rlog s' = [].

Lemma memset_all v m p c n : variant_ok v -> object (variant_ws v) p n ->
  fill_post m p c n (memset v p c n (start m)).
Proof.
  intros Hv Hp. assert (Hn : 0 <= n) by (destruct Hp; lia).
  pose proof (Z.mod_pos_bound c 256 ltac:(lia)) as Hc.
  assert (G : forall s', fl m (c mod 256) p (p + n) (bytes s') -> ext none (wr p (p + n)) (start m) s' ->
    fill_post m p c n (Some (p, s'))).
  { intros s' C X. exists s'. split; [reflexivity|]. split; [apply fl_filled; exact C|].
    split; [eapply wr_inside; exact X|eapply rnone_nil; exact X]. }
  destruct v as [ws|ws be unal|ermsb sse2]; cbn [memset variant_ws] in *.
  - unfold small_memset.
    destruct (small_fill_ok (S (Z.to_nat n)) p (c mod 256) (p + n) (start m) m p) as (s' & E & C & X);
      try apply fl_init; try lia.
    rewrite E. apply G; auto.
  - destruct (set_bytes_ok be ws p (c mod 256) n (start m)) as (s' & E & C & X); auto.
    rewrite E. apply G; auto.
  - destruct (x64_set_ok ermsb p (c mod 256) n (start m)) as (s' & E & C & X); auto.
    rewrite E. apply G; auto.
Qed.

(** ** memcmp *)
Definition cmp_post (m : mem) (a b n : Z) (r : option (Z * mst)) : Prop :=
  exists z s', r = Some (z, s') /\ compared m a b n z /\ unchanged m (bytes s') /\
    wlog s' = [] /\ only_inside2 a b n (rlog s').

Lemma memcmp_all v m a b n : wf_mem m -> 0 <= n -> cmp_post m a b n (memcmp v a b n (start m)).
Proof.
  intros W Hn.
  assert (G : forall z s', compared m a b n z -> bytes s' = m -> ext (rd2 a b n) none (start m) s' ->
    cmp_post m a b n (Some (z, s'))).
  { intros z s' C B X. exists z, s'. split; [reflexivity|]. split; [exact C|].
    split; [intros x; rewrite B; reflexivity|]. split; [eapply none_nil; exact X|].
    destruct X as (lr & lw & A & F & _). intros x w Hin. cbn in A. rewrite A, app_nil_r in Hin.
    rewrite Forall_forall in F. exact (F _ Hin). }
  assert (L : exists z s', cmp_loop (S (Z.to_nat n)) 0 n a b (start m) = Some (z, s') /\
    compared m a b n z /\ bytes s' = m /\ ext (rd2 a b n) none (start m) s').
  { destruct (cmp_loop_ok (S (Z.to_nat n)) 0 n a b (start m)) as (z & s' & E & B & C & X); try lia.
    rewrite !Z.add_0_r, Z.sub_0_r in C. exists z, s'. auto. }
  destruct v as [ws|ws be unal|ermsb sse2]; cbn [memcmp].
  - destruct L as (z & s' & E & C & B & X). unfold small_memcmp. rewrite E. apply G; auto.
  - destruct L as (z & s' & E & C & B & X). unfold compare_bytes. rewrite E. apply G; auto.
  - destruct (x64_compare_ok a b n (start m) Hn W) as (C & B & X).
    destruct (x64_compare_bytes a b n (start m)) as [z s']. apply G; auto.
Qed.

(** ** strlen *)
Definition strlen_post (m : mem) (p len : Z) (r : option (Z * mst)) : Prop :=
  exists s', r = Some (len, s') /\ unchanged m (bytes s') /\
    wlog s' = [] /\ inside_or_aligned p (len + 1) (rlog s').

Lemma strlen_all v m p len fuel : wf_mem m -> c_string m p len -> (Z.to_nat len < fuel)%nat ->
  strlen_post m p len (strlen v fuel p (start m)).
Proof.
  intros W Hs Hf.
  assert (G : forall s', bytes s' = m -> ext (rds p len) none (start m) s' ->
    strlen_post m p len (Some (len, s'))).
  { intros s' B X. exists s'. split; [reflexivity|].
    split; [intros x; rewrite B; reflexivity|]. split; [eapply none_nil; exact X|].
    eapply rd_ioa; [|exact X]. unfold rds. rewrite Z.add_assoc. auto. }
  assert (L : exists s', strlen_loop fuel p 0 (start m) = Some (len, s') /\ bytes s' = m /\ ext (rds p len) none (start m) s').
  { destruct (strlen_loop_ok fuel p p 0 len (start m)) as (s' & E & B & X); auto; try lia.
    - destruct Hs; lia.
    - exists s'; auto. }
  destruct v as [ws|ws be unal|ermsb [|]]; cbn [strlen].
  - destruct L as (s' & E & B & X). unfold small_strlen. rewrite E. apply G; auto.
  - destruct L as (s' & E & B & X). unfold c_string_length. rewrite E. apply G; auto.
  - destruct (x64_strlen_sse2_ok fuel p len (start m) Hf Hs) as (s' & E & B & X). rewrite E. apply G; auto.
  - destruct (x64_strlen_bt_ok fuel p len (start m) Hf W Hs) as (s' & E & B & X). rewrite E. apply G; auto.
Qed.


(** ** pages *)
Lemma pages_of P a n log : (16 | P) -> 0 < P -> inside_or_aligned a n log -> only_pages_of P a n log.
Proof.
  intros HP Hp H x w k Hin Hk. destruct (H x w Hin) as (Hw & [Hi|(Hm & Ha & b & Hb1 & Hb2)]).
  - exists (x + k). unfold inside. split; [lia|reflexivity].
  - exists b. split; [exact Hb1|].
    assert (Hd : (w | P)).
    { apply Z.divide_trans with 16; [|exact HP]. cbn [In] in Hm.
      destruct Hm as [<-|[<-|[<-|[<-|[<-|[]]]]]]; [exists 16|exists 8|exists 4|exists 2|exists 1]; reflexivity. }
    destruct Hd as (q & Hq). apply Z.mod_divide in Ha; [|lia]. destruct Ha as (t & Ht).
    assert (G : forall y, inside x w y -> y / P = t / q).
    { intros y Hy. unfold inside in Hy. subst P. rewrite (Z.mul_comm q w).
      rewrite <- Z.div_div by nia. f_equal. symmetry. apply (Z.div_unique _ _ _ (y - x)); lia. }
    rewrite (G b Hb2). symmetry. apply G. unfold inside. lia.
Qed.

Lemma compared_fun m a b n r r' : compared m a b n r -> compared m a b n r' -> r = r'.
Proof.
  intros [[-> H]|(i & Hi & H1 & H2 & ->)] [[-> H']|(j & Hj & H1' & H2' & ->)]; auto.
  - exfalso. apply H2'. apply H. lia.
  - exfalso. apply H2. apply H'. lia.
  - destruct (Z.lt_trichotomy i j) as [L|[->|L]]; auto.
    + exfalso. apply H2. apply H1'. lia.
    + exfalso. apply H2'. apply H1. lia.
Qed.
Lemma copied_fun m d sr n m1 m2 : copied m d sr n m1 -> copied m d sr n m2 -> unchanged m1 m2.
Proof.
  intros [A1 B1] [A2 B2] x. destruct (Z_le_dec d x), (Z_lt_dec x (d + n)).
  - specialize (A1 (x - d) ltac:(lia)). specialize (A2 (x - d) ltac:(lia)).
    replace (d + (x - d)) with x in * by lia. congruence.
  - rewrite B1, B2; unfold inside; auto; lia.
  - rewrite B1, B2; unfold inside; auto; lia.
  - rewrite B1, B2; unfold inside; auto; lia.
Qed.
Lemma filled_fun m p c n m1 m2 : filled m p c n m1 -> filled m p c n m2 -> unchanged m1 m2.
Proof.
  intros [A1 B1] [A2 B2] x. destruct (Z_le_dec p x), (Z_lt_dec x (p + n)).
  - specialize (A1 (x - p) ltac:(lia)). specialize (A2 (x - p) ltac:(lia)).
    replace (p + (x - p)) with x in * by lia. congruence.
  - rewrite B1, B2; unfold inside; auto; lia.
  - rewrite B1, B2; unfold inside; auto; lia.
  - rewrite B1, B2; unfold inside; auto; lia.
Qed.

(** ** Corollaries used by the property file *)
Lemma memcpy_footprint_l v m d sr n P :
  variant_ok v -> wf_mem m -> object (variant_ws v) d n -> object (variant_ws v) sr n ->
  disjoint d sr n -> 0 < P -> (16 | P) ->
  exists s', memcpy v d sr n (start m) = Some (d, s') /\
    only_inside d n (wlog s') /\ inside_or_aligned sr n (rlog s') /\ only_pages_of P sr n (rlog s').
Proof.
  intros Hv W Hd Hs Hdis HP1 HP2. destruct (memcpy_all v m d sr n Hv W Hd Hs Hdis) as (s' & E & _ & A & B).
  exists s'. auto using pages_of.
Qed.
Lemma memmove_footprint_l v m d sr n P :
  variant_ok v -> wf_mem m -> object (variant_ws v) d n -> object (variant_ws v) sr n ->
  0 < P -> (16 | P) ->
  exists s', memmove v d sr n (start m) = Some (d, s') /\
    only_inside d n (wlog s') /\ inside_or_aligned sr n (rlog s') /\ only_pages_of P sr n (rlog s').
Proof.
  intros Hv W Hd Hs HP1 HP2. destruct (memmove_all v m d sr n Hv W Hd Hs) as (s' & E & _ & A & B).
  exists s'. auto using pages_of.
Qed.
Lemma strlen_footprint_l v m p len fuel P :
  wf_mem m -> c_string m p len -> (Z.to_nat len < fuel)%nat -> 0 < P -> (16 | P) ->
  exists s', strlen v fuel p (start m) = Some (len, s') /\
    wlog s' = [] /\ inside_or_aligned p (len + 1) (rlog s') /\ only_pages_of P p (len + 1) (rlog s').
Proof.
  intros W Hs Hf HP1 HP2. destruct (strlen_all v m p len fuel W Hs Hf) as (s' & E & _ & A & B).
  exists s'. auto using pages_of.
Qed.
Lemma df_clear d sr n s : fst (x64_copy_backward d sr n s) = false.
Proof.
  unfold x64_copy_backward. destruct (rep_param d n) as [[pre qw] post].
  destruct (rep_movs _ _ _ _ _ _) as [[? ?] ?]. destruct (rep_movs _ _ _ _ _ _) as [[? ?] ?].
  destruct (rep_movs _ _ _ _ _ _) as [[? ?] ?]. reflexivity.
Qed.

Lemma memcpy_agree_l v1 v2 m d sr n :
  variant_ok v1 -> variant_ok v2 -> wf_mem m ->
  object (variant_ws v1) d n -> object (variant_ws v1) sr n ->
  object (variant_ws v2) d n -> object (variant_ws v2) sr n -> disjoint d sr n ->
  exists r1 r2, memcpy v1 d sr n (start m) = Some r1 /\ memcpy v2 d sr n (start m) = Some r2 /\
    fst r1 = fst r2 /\ unchanged (bytes (snd r1)) (bytes (snd r2)).
Proof.
  intros V1 V2 W A1 A2 B1 B2 D.
  destruct (memcpy_all v1 m d sr n V1 W A1 A2 D) as (s1 & E1 & C1 & _).
  destruct (memcpy_all v2 m d sr n V2 W B1 B2 D) as (s2 & E2 & C2 & _).
  exists (d, s1), (d, s2). repeat split; auto. cbn. eapply copied_fun; eauto.
Qed.
Lemma memmove_agree_l v1 v2 m d sr n :
  variant_ok v1 -> variant_ok v2 -> wf_mem m ->
  object (variant_ws v1) d n -> object (variant_ws v1) sr n ->
  object (variant_ws v2) d n -> object (variant_ws v2) sr n ->
  exists r1 r2, memmove v1 d sr n (start m) = Some r1 /\ memmove v2 d sr n (start m) = Some r2 /\
    fst r1 = fst r2 /\ unchanged (bytes (snd r1)) (bytes (snd r2)).
Proof.
  intros V1 V2 W A1 A2 B1 B2.
  destruct (memmove_all v1 m d sr n V1 W A1 A2) as (s1 & E1 & C1 & _).
  destruct (memmove_all v2 m d sr n V2 W B1 B2) as (s2 & E2 & C2 & _).
  exists (d, s1), (d, s2). repeat split; auto. cbn. eapply copied_fun; eauto.
Qed.
Lemma memset_agree_l v1 v2 m p c n :
  variant_ok v1 -> variant_ok v2 -> object (variant_ws v1) p n -> object (variant_ws v2) p n ->
  exists r1 r2, memset v1 p c n (start m) = Some r1 /\ memset v2 p c n (start m) = Some r2 /\
    fst r1 = fst r2 /\ unchanged (bytes (snd r1)) (bytes (snd r2)).
Proof.
  intros V1 V2 A B.
  destruct (memset_all v1 m p c n V1 A) as (s1 & E1 & C1 & _).
  destruct (memset_all v2 m p c n V2 B) as (s2 & E2 & C2 & _).
  exists (p, s1), (p, s2). repeat split; auto. cbn. eapply filled_fun; eauto.
Qed.
Lemma memcmp_agree_l v1 v2 m a b n : wf_mem m -> 0 <= n ->
  exists r1 r2, memcmp v1 a b n (start m) = Some r1 /\ memcmp v2 a b n (start m) = Some r2 /\
    fst r1 = fst r2 /\ unchanged (bytes (snd r1)) (bytes (snd r2)).
Proof.
  intros W Hn.
  destruct (memcmp_all v1 m a b n W Hn) as (z1 & s1 & E1 & C1 & U1 & _).
  destruct (memcmp_all v2 m a b n W Hn) as (z2 & s2 & E2 & C2 & U2 & _).
  exists (z1, s1), (z2, s2). repeat split; auto; cbn.
  - eapply compared_fun; eauto.
  - intros x. rewrite U1, U2. reflexivity.
Qed.
Lemma strlen_agree_l v1 v2 m p len fuel : wf_mem m -> c_string m p len -> (Z.to_nat len < fuel)%nat ->
  exists r1 r2, strlen v1 fuel p (start m) = Some r1 /\ strlen v2 fuel p (start m) = Some r2 /\
    fst r1 = fst r2 /\ unchanged (bytes (snd r1)) (bytes (snd r2)).
Proof.
  intros W Hs Hf.
  destruct (strlen_all v1 m p len fuel W Hs Hf) as (s1 & E1 & U1 & _).
  destruct (strlen_all v2 m p len fuel W Hs Hf) as (s2 & E2 & U2 & _).
  exists (len, s1), (len, s2). repeat split; auto; cbn. intros x. rewrite U1, U2. reflexivity.
Qed.
