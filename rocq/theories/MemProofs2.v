(** Proofs about the x86_64 copy functions, memset, memcmp and strlen. *)
From Coq Require Import ZifyBool ZifyNat.
From Verif Require Import MachineFacts MemModel MemSpec MemProofs.

(** ** rep movs *)
Lemma rep_movs_fwd k : forall w rdi rsi s m0 dl x,
  0 < w -> wf_mem m0 -> dl = rsi - rdi -> cp m0 dl x rdi (bytes s) -> x <= rdi ->
  (rdi <= rsi \/ rsi + Z.of_nat k * w <= x) ->
  exists s', rep_movs k w false rdi rsi s = (rdi + Z.of_nat k * w, rsi + Z.of_nat k * w, s') /\
    cp m0 dl x (rdi + Z.of_nat k * w) (bytes s') /\
    ext (rd rsi (rsi + Z.of_nat k * w)) (wr rdi (rdi + Z.of_nat k * w)) s s'.
Proof.
  induction k as [|k IH]; intros w rdi rsi s m0 dl x Hw W Hd H Hx Hc.
  - exists s. cbn [rep_movs]. replace (Z.of_nat 0 * w) with 0 by lia. rewrite !Z.add_0_r.
    split; [reflexivity|split; [exact H|apply ext_refl]].
  - cbn [rep_movs load_n]. set (s2 := store_n _ _ _ _ _).
    assert (Hn : Z.of_nat (Z.to_nat w) = w) by lia.
    assert (E1 : Z.of_nat (S k) * w = w + Z.of_nat k * w) by nia.
    assert (0 <= Z.of_nat k * w) by nia.
    set (kw := Z.of_nat k * w) in *.
    assert (Hcp2 : cp m0 dl x (rdi + w) (bytes s2)).
    { subst s2; cbn [store_n bytes]. rewrite <- Hn at 1. apply step_fwd; auto; lia. }
    destruct (IH w (rdi + w) (rsi + w) s2 m0 dl x) as (s' & E & C & X); auto; try lia.
    exists s'. rewrite E1. fold kw in E, C, X. rewrite !Z.add_assoc.
    split; [exact E|split; [exact C|]].
    eapply ext_trans; [|eapply ext_weaken; [| |exact X]].
    + subst s2. eapply ext_trans with (s2 := snd (load_n false (Z.to_nat w) rsi s)).
      * apply ext_load. cbn. lia.
      * apply ext_store. cbn. lia.
    + apply rd_mono; lia.
    + apply wr_mono; lia.
Qed.

Lemma rep_movs_bwd k : forall w rdi rsi s m0 dl y,
  0 < w -> wf_mem m0 -> dl = rsi - rdi -> cp m0 dl (rdi + w) y (bytes s) -> rdi + w <= y ->
  dl <= 0 ->
  exists s', rep_movs k w true rdi rsi s = (rdi - Z.of_nat k * w, rsi - Z.of_nat k * w, s') /\
    cp m0 dl (rdi + w - Z.of_nat k * w) y (bytes s') /\
    ext (rd (rsi + w - Z.of_nat k * w) (rsi + w)) (wr (rdi + w - Z.of_nat k * w) (rdi + w)) s s'.
Proof.
  induction k as [|k IH]; intros w rdi rsi s m0 dl y Hw W Hd H Hx Hc.
  - exists s. cbn [rep_movs]. replace (Z.of_nat 0 * w) with 0 by lia. rewrite !Z.sub_0_r.
    split; [reflexivity|split; [exact H|apply ext_refl]].
  - cbn [rep_movs load_n]. set (s2 := store_n _ _ _ _ _).
    assert (Hn : Z.of_nat (Z.to_nat w) = w) by lia.
    assert (E1 : Z.of_nat (S k) * w = w + Z.of_nat k * w) by nia.
    assert (0 <= Z.of_nat k * w) by nia.
    set (kw := Z.of_nat k * w) in *.
    assert (Hcp2 : cp m0 dl (rdi + - w + w) y (bytes s2)).
    { subst s2; cbn [store_n bytes]. replace (rdi + - w + w) with rdi by lia.
      apply step_bwd; auto; try lia. rewrite Hn. exact H. }
    destruct (IH w (rdi + - w) (rsi + - w) s2 m0 dl y) as (s' & E & C & X); auto; try lia.
    exists s'. rewrite E1. fold kw in E, C, X.
    replace (rdi + - w + w - kw) with (rdi + w - (w + kw)) in C, X by lia.
    split; [|split].
    + rewrite E. f_equal. f_equal; lia.
    + exact C.
    + eapply ext_trans; [|eapply ext_weaken; [| |exact X]].
      * subst s2. eapply ext_trans with (s2 := snd (load_n false (Z.to_nat w) rsi s)).
        -- apply ext_load. cbn. lia.
        -- apply ext_store. cbn. lia.
      * apply rd_mono; lia.
      * apply wr_mono; lia.
Qed.

Lemma rep_param_spec d n pre qw post : 0 <= n -> rep_param d n = (pre, qw, post) ->
  n = pre + qw * 8 + post /\ 0 <= pre < 8 /\ 0 <= qw /\ 0 <= post < 8.
Proof.
  unfold rep_param. intros Hn E. injection E as E1 E2 E3.
  change 7 with (2 ^ 3 - 1) in *. rewrite land_low in * by lia. rewrite Z.shiftr_div_pow2 in * by lia.
  change (2 ^ 3) with 8 in *.
  rewrite (land_low _ 3) in * by lia. change (2 ^ 3) with 8 in *.
  pose proof (Z.mod_pos_bound d 8 ltac:(lia)).
  pose proof (Z.mod_pos_bound (8 - d mod 8) 8 ltac:(lia)).
  set (q := (8 - d mod 8) mod 8) in *.
  assert (Hp : 0 <= pre < 8 /\ pre <= n) by lia. rewrite E1 in *.
  pose proof (Z.div_mod (n - pre) 8 ltac:(lia)).
  pose proof (Z.mod_pos_bound (n - pre) 8 ltac:(lia)).
  assert (0 <= (n - pre) / 8) by (apply Z.div_pos; lia).
  lia.
Qed.

Lemma x64_fwd_ok ermsb d sr n s :
  wf_mem (bytes s) -> 0 <= n -> (d <= sr \/ sr + n <= d) ->
  exists s', x64_copy_forward ermsb d sr n s = s' /\
    cp (bytes s) (sr - d) d (d + n) (bytes s') /\
    ext (rd sr (sr + n)) (wr d (d + n)) s s'.
Proof.
  intros W Hn Hc. unfold x64_copy_forward. destruct ermsb.
  - destruct (rep_movs_fwd (Z.to_nat n) 1 d sr s (bytes s) (sr - d) d) as (s' & E & C & X);
      auto using cp_init; try lia.
    rewrite E. exists s'. replace (Z.of_nat (Z.to_nat n) * 1) with n in * by lia. auto.
  - destruct (rep_param d n) as [[pre qw] post] eqn:Ep.
    apply rep_param_spec in Ep; [|lia]. destruct Ep as (En & Hpre & Hqw & Hpost).
    destruct (rep_movs_fwd (Z.to_nat pre) 1 d sr s (bytes s) (sr - d) d) as (s1 & E1 & C1 & X1);
      auto using cp_init; try lia.
    rewrite E1. replace (Z.of_nat (Z.to_nat pre) * 1) with pre in * by lia.
    destruct (rep_movs_fwd (Z.to_nat qw) 8 (d + pre) (sr + pre) s1 (bytes s) (sr - d) d) as (s2 & E2 & C2 & X2);
      auto; try lia.
    rewrite E2. replace (Z.of_nat (Z.to_nat qw) * 8) with (qw * 8) in * by lia.
    destruct (rep_movs_fwd (Z.to_nat post) 1 (d + pre + qw * 8) (sr + pre + qw * 8) s2 (bytes s) (sr - d) d)
      as (s3 & E3 & C3 & X3); auto; try lia.
    rewrite E3. replace (Z.of_nat (Z.to_nat post) * 1) with post in * by lia.
    exists s3. replace (d + pre + qw * 8 + post) with (d + n) in * by lia.
    split; [reflexivity|split; [exact C3|]].
    eapply ext_chain3; [exact X1|exact X2|exact X3| |].
    + intros a w [Hr|[Hr|Hr]]; (eapply rd_mono; [| |exact Hr]; lia).
    + intros a w [Hr|[Hr|Hr]]; (eapply wr_mono; [| |exact Hr]; lia).
Qed.

Lemma x64_bwd_ok d sr n s :
  wf_mem (bytes s) -> 0 <= n -> sr <= d ->
  exists s', x64_copy_backward d sr n s = (false, s') /\
    cp (bytes s) (sr - d) d (d + n) (bytes s') /\
    ext (rd sr (sr + n)) (wr d (d + n)) s s'.
Proof.
  intros W Hn Hc. unfold x64_copy_backward.
  destruct (rep_param d n) as [[pre qw] post] eqn:Ep.
  apply rep_param_spec in Ep; [|lia]. destruct Ep as (En & Hpre & Hqw & Hpost).
  destruct (rep_movs_bwd (Z.to_nat post) 1 (d + (n - 1)) (sr + (n - 1)) s (bytes s) (sr - d) (d + n)) as (s1 & E1 & C1 & X1);
    auto; try lia.
  { replace (d + (n - 1) + 1) with (d + n) by lia. apply cp_init. }
  rewrite E1. replace (Z.of_nat (Z.to_nat post) * 1) with post in * by lia.
  destruct (rep_movs_bwd (Z.to_nat qw) 8 (d + (n - 1) - post - 7) (sr + (n - 1) - post - 7) s1 (bytes s) (sr - d) (d + n))
    as (s2 & E2 & C2 & X2); auto; try lia.
  { replace (d + (n - 1) - post - 7 + 8) with (d + (n - 1) + 1 - post) by lia. exact C1. }
  rewrite E2. replace (Z.of_nat (Z.to_nat qw) * 8) with (qw * 8) in * by lia.
  destruct (rep_movs_bwd (Z.to_nat pre) 1 (d + (n - 1) - post - 7 - qw * 8 + 7) (sr + (n - 1) - post - 7 - qw * 8 + 7) s2 (bytes s) (sr - d) (d + n))
    as (s3 & E3 & C3 & X3); auto; try lia.
  { replace (d + (n - 1) - post - 7 - qw * 8 + 7 + 1) with (d + (n - 1) - post - 7 + 8 - qw * 8) by lia. exact C2. }
  rewrite E3. replace (Z.of_nat (Z.to_nat pre) * 1) with pre in * by lia.
  exists s3. split; [reflexivity|].
  replace (d + (n - 1) - post - 7 - qw * 8 + 7 + 1 - pre) with d in C3 by lia.
  split; [exact C3|].
  eapply ext_chain3; [exact X1|exact X2|exact X3| |].
  - intros a w [Hr|[Hr|Hr]]; (eapply rd_mono; [| |exact Hr]; lia).
  - intros a w [Hr|[Hr|Hr]]; (eapply wr_mono; [| |exact Hr]; lia).
Qed.

(** ** memset *)
Definition fl (m0 : mem) (c x y : Z) (m : mem) : Prop :=
  forall a, m a = if (x <=? a) && (a <? y) then c else m0 a.
Lemma fl_init m0 c x : fl m0 c x x m0.
Proof. intros a. bd. Qed.
Definition none (acc : Z * Z) : Prop := False.

Lemma small_fill_ok fuel : forall p c e s m0 x,
  (Z.to_nat (e - p) < fuel)%nat -> p <= e -> fl m0 c x p (bytes s) -> x <= p ->
  exists s', small_fill fuel p c e s = Some s' /\ fl m0 c x e (bytes s') /\ ext none (wr p e) s s'.
Proof.
  induction fuel as [|f IH]; intros p c e s m0 x Hf He H Hx; [lia|].
  cbn [small_fill]. destruct (Z.ltb_spec p e).
  - destruct (IH (p + 1) c e (store1 p c s) m0 x) as (s' & E & C & X); try lia.
    { intros a. cbn. unfold upd. destruct (Z.eqb_spec a p) as [->|]; [bd|]. rewrite H. bd. }
    exists s'. split; [exact E|split; [exact C|]].
    eapply ext_trans; [apply ext_store1|eapply ext_weaken; [| |exact X]]; auto.
    + cbn. lia.
    + apply wr_mono; lia.
  - assert (p = e) by lia. subst e. exists s. split; [reflexivity|split; [exact H|apply ext_refl]].
Qed.

Lemma fill_words_ok be ws w c : forall fuel p e s m0 x k,
  0 < ws -> 0 <= k -> e = p + ws * k -> (Z.to_nat (e - p) < fuel)%nat ->
  (forall i, 0 <= i < ws -> wbyte be ws i w = c) ->
  fl m0 c x p (bytes s) -> x <= p ->
  exists s', fill_words fuel be ws p e w s = Some s' /\ fl m0 c x e (bytes s') /\ ext none (wr p e) s s'.
Proof.
  induction fuel as [|f IH]; intros p e s m0 x k Hws Hk He Hf Hb H Hx; [lia|].
  cbn [fill_words]. destruct (Z.ltb_spec p e).
  - assert (1 <= k) by nia. assert (p + ws <= e) by nia.
    assert (Hn : Z.of_nat (Z.to_nat ws) = ws) by lia.
    destruct (IH (p + ws) e (store_n be (Z.to_nat ws) p w s) m0 x (k - 1)) as (s' & E & C & X); auto; try lia.
    { intros a. cbn [store_n bytes]. rewrite store_en_spec, Hn.
      destruct (Z.leb_spec p a), (Z.ltb_spec a (p + ws)); cbn [andb]; try (rewrite H; bd).
      rewrite Hb by lia. bd. }
    exists s'. split; [exact E|split; [exact C|]].
    eapply ext_trans; [apply ext_store|eapply ext_weaken; [| |exact X]]; auto.
    + cbn. lia.
    + apply wr_mono; lia.
  - assert (E : p = e) by nia. rewrite <- E. exists s. split; [reflexivity|split; [exact H|apply ext_refl]].
Qed.

Fixpoint upto (n : nat) : list Z := match n with O => [] | S k => upto k ++ [Z.of_nat k] end.
Lemma in_upto n x : 0 <= x < Z.of_nat n -> In x (upto n).
Proof.
  induction n as [|n IH]; intros H; [lia|]. cbn. apply in_or_app.
  destruct (Z.eq_dec x (Z.of_nat n)) as [->|]; [right; left; reflexivity|left; apply IH; lia].
Qed.

Lemma broadcast_ok be ws c : ws = 4 \/ ws = 8 -> 0 <= c < 256 ->
  exists w, broadcast_loop 5 ws c 8 = Some w /\ forall i, 0 <= i < ws -> wbyte be ws i w = c.
Proof.
  intros Hws Hc.
  assert (S : forall v, (v = 4 \/ v = 8) -> forallb (fun c => match broadcast_loop 5 v c 8 with
     | Some w => forallb (fun i => byte w i =? c) (upto (Z.to_nat v)) | None => false end) (upto 256) = true).
  { intros v [-> | ->]; vm_compute; reflexivity. }
  specialize (S ws Hws). rewrite forallb_forall in S. specialize (S c (in_upto 256 c ltac:(lia))).
  destruct (broadcast_loop 5 ws c 8) as [w|]; [|discriminate].
  exists w. split; [reflexivity|]. intros i Hi. rewrite forallb_forall in S.
  unfold wbyte. apply Z.eqb_eq. apply S. apply in_upto. destruct be; lia.
Qed.

Lemma ext_chain3w s0 s1 s2 s3 (W1 W2 W3 W : Z * Z -> Prop) :
  ext none W1 s0 s1 -> ext none W2 s1 s2 -> ext none W3 s2 s3 ->
  (forall a w, W1 (a, w) \/ W2 (a, w) \/ W3 (a, w) -> W (a, w)) ->
  ext none W s0 s3.
Proof.
  intros X1 X2 X3 HW.
  eapply ext_trans; [eapply ext_weaken; [| |exact X1]|
    eapply ext_trans; [eapply ext_weaken; [| |exact X2]|eapply ext_weaken; [| |exact X3]]];
  intros a w Hh; try exact Hh; apply HW; tauto.
Qed.

Lemma set_bytes_ok be ws p c n s : ws = 4 \/ ws = 8 -> 0 <= c < 256 -> object ws p n ->
  exists s', set_bytes be ws p c n s = Some s' /\ fl (bytes s) c p (p + n) (bytes s') /\
    ext none (wr p (p + n)) s s'.
Proof.
  intros Hws Hc (Hp0 & Hn & Hp1). unfold set_bytes. rewrite thr by auto.
  destruct (Z.leb_spec 16 n).
  - rewrite wm_mod, neg_mod by auto.
    assert (Hp : 0 < ws) by lia.
    set (mis := (- p) mod ws).
    assert (Hm : 0 <= mis < ws) by (apply Z.mod_pos_bound; lia).
    unfold set_bytes_bytes.
    destruct (small_fill_ok (S (Z.to_nat mis)) p c (p + mis) s (bytes s) p) as (s1 & E1 & C1 & X1);
      auto using fl_init; try lia.
    rewrite E1. rewrite wm_clear by (auto; lia).
    set (nw := n - mis - (n - mis) mod ws).
    pose proof (Z.mod_pos_bound (n - mis) ws Hp) as Hrem.
    assert (Hk : exists k, nw = ws * k /\ 0 < k).
    { exists ((n - mis) / ws). pose proof (Z.div_mod (n - mis) ws ltac:(lia)). subst nw.
      split; [lia|]. apply Z.div_str_pos. lia. }
    destruct Hk as (k & Hnw & Hk). rewrite Hnw.
    assert (Hrange : ws * k <= n - mis) by (subst nw; lia).
    unfold set_bytes_words. destruct (broadcast_ok be ws c Hws Hc) as (w & Ew & Hw). rewrite Ew.
    destruct (fill_words_ok be ws w c (S (Z.to_nat (ws * k))) (p + mis) (p + mis + ws * k) s1 (bytes s) p k)
      as (s2 & E2 & C2 & X2); auto; try lia.
    rewrite E2.
    destruct (small_fill_ok (S (Z.to_nat (n - mis - ws * k))) (p + mis + ws * k) c (p + mis + ws * k + (n - mis - ws * k)) s2 (bytes s) p)
      as (s3 & E3 & C3 & X3); auto; try lia.
    exists s3. split; [exact E3|].
    replace (p + mis + ws * k + (n - mis - ws * k)) with (p + n) in * by lia.
    split; [exact C3|].
    eapply ext_chain3w; [exact X1|exact X2|exact X3|].
    intros a v [Hr|[Hr|Hr]]; (eapply wr_mono; [| |exact Hr]; lia).
  - unfold set_bytes_bytes. apply small_fill_ok; auto using fl_init; lia.
Qed.

Lemma rep_stos_ok k : forall w c rax rdi s m0 x,
  0 < w -> (forall i, 0 <= i < w -> byte rax i = c) -> fl m0 c x rdi (bytes s) -> x <= rdi ->
  exists s', rep_stos k w rax rdi s = (rdi + Z.of_nat k * w, s') /\
    fl m0 c x (rdi + Z.of_nat k * w) (bytes s') /\ ext none (wr rdi (rdi + Z.of_nat k * w)) s s'.
Proof.
  induction k as [|k IH]; intros w c rax rdi s m0 x Hw Hb H Hx.
  - exists s. cbn [rep_stos]. replace (Z.of_nat 0 * w) with 0 by lia. rewrite Z.add_0_r.
    split; [reflexivity|split; [exact H|apply ext_refl]].
  - cbn [rep_stos].
    assert (Hn : Z.of_nat (Z.to_nat w) = w) by lia.
    assert (E1 : Z.of_nat (S k) * w = w + Z.of_nat k * w) by nia.
    assert (0 <= Z.of_nat k * w) by nia.
    set (s2 := store_n _ _ _ _ _).
    destruct (IH w c rax (rdi + w) s2 m0 x) as (s' & E & C & X); auto; try lia.
    { intros a. subst s2. cbn [store_n bytes]. rewrite store_en_spec, Hn.
      destruct (Z.leb_spec rdi a), (Z.ltb_spec a (rdi + w)); cbn [andb]; try (rewrite H; bd).
      unfold wbyte. assert (B : byte (rax mod 2 ^ (8 * w)) (a - rdi) = c).
      { rewrite <- (Hb (a - rdi)) by lia. apply byte_ext. intros j Hj. rewrite !byte_testbit by lia.
        destruct (Z.ltb_spec j 8); [|reflexivity]. rewrite Z.mod_pow2_bits_low by lia. reflexivity. }
      rewrite B. bd. }
    exists s'. rewrite E1, Z.add_assoc. split; [exact E|split; [exact C|]].
    eapply ext_trans; [apply ext_store|eapply ext_weaken; [| |exact X]]; auto.
    + cbn. lia.
    + apply wr_mono; lia.
Qed.

Lemma bcast_mul c i : 0 <= c < 256 -> 0 <= i < 8 -> byte (c * 0x0101010101010101) i = c.
Proof.
  intros Hc Hi.
  assert (S : forallb (fun c => forallb (fun i => byte (c * 0x0101010101010101) i =? c) (upto 8)) (upto 256) = true)
    by (vm_compute; reflexivity).
  rewrite forallb_forall in S. specialize (S c (in_upto 256 c ltac:(lia))).
  rewrite forallb_forall in S. apply Z.eqb_eq. apply S. apply in_upto. lia.
Qed.

Lemma x64_set_ok ermsb p c n s : 0 <= c < 256 -> 0 <= n ->
  exists s', x64_set_bytes ermsb p c n s = s' /\ fl (bytes s) c p (p + n) (bytes s') /\
    ext none (wr p (p + n)) s s'.
Proof.
  intros Hc Hn. unfold x64_set_bytes. destruct ermsb.
  - destruct (rep_stos_ok (Z.to_nat n) 1 c c p s (bytes s) p) as (s' & E & C & X); auto using fl_init; try lia.
    { intros i Hi. replace i with 0 by lia. rewrite byte_zero. apply Z.mod_small. lia. }
    rewrite E. exists s'. replace (Z.of_nat (Z.to_nat n) * 1) with n in * by lia. auto.
  - destruct (rep_param p n) as [[pre qw] post] eqn:Ep.
    apply rep_param_spec in Ep; [|lia]. destruct Ep as (En & Hpre & Hqw & Hpost).
    assert (B : forall i, 0 <= i < 8 -> byte (c * 0x0101010101010101) i = c) by (intros; apply bcast_mul; lia).
    set (rax := c * 0x0101010101010101) in *.
    destruct (rep_stos_ok (Z.to_nat pre) 1 c rax p s (bytes s) p) as (s1 & E1 & C1 & X1); auto using fl_init; try lia.
    all: try (intros; apply B; lia).
    rewrite E1. replace (Z.of_nat (Z.to_nat pre) * 1) with pre in * by lia.
    destruct (rep_stos_ok (Z.to_nat qw) 8 c rax (p + pre) s1 (bytes s) p) as (s2 & E2 & C2 & X2); auto; try lia.
    rewrite E2. replace (Z.of_nat (Z.to_nat qw) * 8) with (qw * 8) in * by lia.
    destruct (rep_stos_ok (Z.to_nat post) 1 c rax (p + pre + qw * 8) s2 (bytes s) p) as (s3 & E3 & C3 & X3); auto; try lia.
    all: try (intros; apply B; lia).
    rewrite E3. replace (Z.of_nat (Z.to_nat post) * 1) with post in * by lia.
    exists s3. replace (p + pre + qw * 8 + post) with (p + n) in * by lia.
    split; [reflexivity|split; [exact C3|]].
    eapply ext_chain3w; [exact X1|exact X2|exact X3|].
    intros a v [Hr|[Hr|Hr]]; (eapply wr_mono; [| |exact Hr]; lia).
Qed.

(** ** memcmp *)
Definition rd2 (a b n : Z) (acc : Z * Z) : Prop :=
  let '(x, w) := acc in 0 < w /\ ((a <= x /\ x + w <= a + n) \/ (b <= x /\ x + w <= b + n)).
Lemma rd2_mono a b n a' b' n' : a' <= a -> b' <= b -> a + n <= a' + n' -> b + n <= b' + n' ->
  forall x w, rd2 a b n (x, w) -> rd2 a' b' n' (x, w).
Proof. unfold rd2. intros. lia. Qed.

Lemma compared_shift m a b n r i : 0 <= i <= n ->
  (forall j, 0 <= j < i -> m (a + j) = m (b + j)) ->
  compared m (a + i) (b + i) (n - i) r -> compared m a b n r.
Proof.
  intros Hi Heq [[-> H]|(k & Hk & H1 & H2 & ->)].
  - left. split; [reflexivity|]. intros j Hj. destruct (Z_lt_le_dec j i); [apply Heq; lia|].
    specialize (H (j - i) ltac:(lia)). replace (a + i + (j - i)) with (a + j) in H by lia.
    replace (b + i + (j - i)) with (b + j) in H by lia. exact H.
  - right. exists (i + k). rewrite !Z.add_assoc. repeat split; auto; try lia.
    intros j Hj. destruct (Z_lt_le_dec j i); [apply Heq; lia|].
    specialize (H1 (j - i) ltac:(lia)). replace (a + i + (j - i)) with (a + j) in H1 by lia.
    replace (b + i + (j - i)) with (b + j) in H1 by lia. exact H1.
Qed.

Lemma cmp_loop_ok fuel : forall i n a b s, (Z.to_nat (n - i) < fuel)%nat -> 0 <= i <= n ->
  exists r s', cmp_loop fuel i n a b s = Some (r, s') /\ bytes s' = bytes s /\
    compared (bytes s) (a + i) (b + i) (n - i) r /\ ext (rd2 a b n) none s s'.
Proof.
  induction fuel as [|f IH]; intros i n a b s Hf Hi; [lia|].
  cbn [cmp_loop]. destruct (Z.ltb_spec i n).
  - cbn [load1 bytes].
    set (s2 := MSt _ _ _).
    assert (X2 : ext (rd2 a b n) none s s2).
    { subst s2. eapply ext_trans; [apply (ext_load1 _ _ (a + i)); cbn; lia|apply (ext_load1 _ _ (b + i)); cbn; lia]. }
    destruct (Z.eqb_spec (bytes s (a + i)) (bytes s (b + i))); cbn [negb].
    + destruct (IH (i + 1) n a b s2) as (r & s' & E & B & C & X); try lia.
      exists r, s'. split; [exact E|split; [exact B|split]].
      * apply (compared_shift _ _ _ _ _ 1); [lia| |].
        { intros j Hj. replace j with 0 by lia. rewrite !Z.add_0_r. assumption. }
        { replace (n - i - 1) with (n - (i + 1)) by lia. rewrite <- !Z.add_assoc. exact C. }
      * eapply ext_trans; [exact X2|exact X].
    + eexists _, s2. split; [reflexivity|split; [reflexivity|split; [|exact X2]]].
      right. exists 0. rewrite !Z.add_0_r. repeat split; auto; try lia.
  - assert (i = n) by lia. subst i. exists 0, s. split; [reflexivity|split; [reflexivity|split; [|apply ext_refl]]].
    left. split; [reflexivity|]. intros; lia.
Qed.

Lemma load_le_eq n : forall m a b, (forall i, 0 <= i < Z.of_nat n -> m (a + i) = m (b + i)) ->
  load_le m a n = load_le m b n.
Proof.
  induction n as [|n IH]; intros m a b H; [reflexivity|]. cbn [load_le].
  rewrite (IH m (a + 1) (b + 1)).
  - specialize (H 0 ltac:(lia)). rewrite !Z.add_0_r in H. rewrite H. reflexivity.
  - intros i Hi. specialize (H (1 + i) ltac:(lia)). rewrite !Z.add_assoc in H. exact H.
Qed.

Definition cmp_fn_ok (f : Z -> Z -> Z -> mst -> Z * mst) : Prop :=
  forall a b n s, 0 <= n -> wf_mem (bytes s) ->
    compared (bytes s) a b n (fst (f a b n s)) /\ bytes (snd (f a b n s)) = bytes s /\
    ext (rd2 a b n) none s (snd (f a b n s)).

Lemma x64_c1_ok n : forall a b s,
  compared (bytes s) a b (Z.of_nat n) (fst (x64_c1 n a b s)) /\
  bytes (snd (x64_c1 n a b s)) = bytes s /\
  ext (rd2 a b (Z.of_nat n)) none s (snd (x64_c1 n a b s)).
Proof.
  induction n as [|n IH]; intros a b s; cbn [x64_c1].
  - cbn. split; [left; split; [reflexivity|intros; lia]|split; [reflexivity|apply ext_refl]].
  - cbn [load1 bytes].
    set (s2 := MSt _ ((b, 1) :: rlog (MSt _ ((a, 1) :: rlog s) _)) _).
    assert (X2 : ext (rd2 a b (Z.of_nat (S n))) none s s2).
    { subst s2. eapply ext_trans; [apply (ext_load1 _ _ a); cbn; lia|apply (ext_load1 _ _ b); cbn; lia]. }
    destruct (Z.eqb_spec (bytes s a) (bytes s b)); cbn [negb].
    + destruct (IH (a + 1) (b + 1) s2) as (C & B & X). split; [|split].
      * apply (compared_shift _ _ _ _ _ 1); [lia| |].
        { intros j Hj. replace j with 0 by lia. rewrite !Z.add_0_r. assumption. }
        { replace (Z.of_nat (S n) - 1) with (Z.of_nat n) by lia. exact C. }
      * rewrite B. reflexivity.
      * eapply ext_trans; [exact X2|eapply ext_weaken; [| |exact X]]; auto.
        apply rd2_mono; lia.
    + cbn [fst snd]. split; [|split; [reflexivity|]].
      * right. exists 0. rewrite !Z.add_0_r. repeat split; auto; try lia.
      * eapply ext_trans; [exact X2|].
        eapply ext_trans; [apply (ext_load1 _ _ a); cbn; lia|apply (ext_load1 _ _ b); cbn; lia].
Qed.

Lemma x64_k1_ok : cmp_fn_ok x64_k1.
Proof.
  intros a b n s Hn _. unfold x64_k1. pose proof (x64_c1_ok (Z.to_nat n) a b s) as H.
  replace (Z.of_nat (Z.to_nat n)) with n in H by lia. exact H.
Qed.

Lemma x64_cmp_ok w f k : forall rem a b s, 0 < w -> cmp_fn_ok f -> 0 <= rem -> wf_mem (bytes s) ->
  let n := w * Z.of_nat k + rem in
  compared (bytes s) a b n (fst (x64_cmp k w f rem a b s)) /\
  bytes (snd (x64_cmp k w f rem a b s)) = bytes s /\
  ext (rd2 a b n) none s (snd (x64_cmp k w f rem a b s)).
Proof.
  induction k as [|k IH]; intros rem a b s Hw Hf Hr Hm n; subst n; cbn [x64_cmp].
  - replace (w * Z.of_nat 0 + rem) with rem by lia. apply Hf; [lia|exact Hm].
  - assert (Hwn : Z.of_nat (Z.to_nat w) = w) by lia.
    assert (Ek : w * Z.of_nat (S k) + rem = w + (w * Z.of_nat k + rem)) by lia.
    assert (Hk0 : 0 <= w * Z.of_nat k) by nia.
    rewrite Ek. set (rest := w * Z.of_nat k + rem) in *. assert (0 <= rest) by (subst rest; lia).
    cbn [load_n bytes].
    set (s2 := MSt _ ((b, _) :: rlog (MSt _ ((a, _) :: rlog s) _)) _).
    assert (X2 : ext (rd2 a b (w + rest)) none s s2).
    { subst s2. eapply ext_trans; [apply (ext_load _ _ false (Z.to_nat w) a); cbn; lia|apply (ext_load _ _ false (Z.to_nat w) b); cbn; lia]. }
    destruct (Z.eqb_spec (load_en false (bytes s) a (Z.to_nat w)) (load_en false (bytes s) b (Z.to_nat w))) as [He|He]; cbn [negb].
    + destruct (IH rem (a + w) (b + w) s2 Hw Hf Hr Hm) as (C & B & X). fold rest in C, X. cbn [bytes s2] in C, B.
      split; [|split].
      * apply (compared_shift _ _ _ _ _ w); [lia| |].
        { intros j Hj.
          pose proof (load_en_byte false (Z.to_nat w) (bytes s) a j Hm ltac:(lia)) as L1.
          pose proof (load_en_byte false (Z.to_nat w) (bytes s) b j Hm ltac:(lia)) as L2.
          rewrite <- L1, <- L2, He. reflexivity. }
        { replace (w + rest - w) with rest by lia. exact C. }
      * exact B.
      * eapply ext_trans; [exact X2|eapply ext_weaken; [| |exact X]]; auto. apply rd2_mono; lia.
    + destruct (Hf a b w s2 ltac:(lia) Hm) as (C & B & X). cbn [bytes s2] in C, B.
      split; [|split].
      * destruct C as [[_ C]|(i & Hi & C1 & C2 & C3)].
        { exfalso. apply He. apply load_le_eq. intros i Hi. apply C. lia. }
        { right. exists i. repeat split; auto; lia. }
      * exact B.
      * eapply ext_trans; [exact X2|eapply ext_weaken; [| |exact X]]; auto. apply rd2_mono; lia.
Qed.

Lemma x64_cmp_fn w f : 0 < w -> cmp_fn_ok f ->
  cmp_fn_ok (fun a b n s => x64_cmp (Z.to_nat (n / w)) w f (n mod w) a b s).
Proof.
  intros Hw Hf a b n s Hn Hm.
  pose proof (Z.mod_pos_bound n w Hw). assert (0 <= n / w) by (apply Z.div_pos; lia).
  pose proof (x64_cmp_ok w f (Z.to_nat (n / w)) (n mod w) a b s Hw Hf ltac:(lia) Hm) as P.
  cbn zeta in P. rewrite Z2Nat.id in P by lia. rewrite <- Z.div_mod in P by lia. exact P.
Qed.

Lemma x64_compare_ok : cmp_fn_ok x64_compare_bytes.
Proof.
  pose proof (x64_cmp_fn 2 _ ltac:(lia) x64_k1_ok) as K2.
  pose proof (x64_cmp_fn 4 x64_k2 ltac:(lia) K2) as K4.
  pose proof (x64_cmp_fn 8 x64_k4 ltac:(lia) K4) as K8.
  exact (x64_cmp_fn 16 x64_k8 ltac:(lia) K8).
Qed.

(** ** strlen *)
Definition rds (p len : Z) : Z * Z -> Prop := rd p (p + len + 1).

Lemma strlen_loop_ok fuel : forall p0 p n len s,
  (Z.to_nat (len - n) < fuel)%nat -> c_string (bytes s) p0 len -> p = p0 + n -> 0 <= n <= len ->
  exists s', strlen_loop fuel p n s = Some (len, s') /\ bytes s' = bytes s /\ ext (rds p0 len) none s s'.
Proof.
  induction fuel as [|f IH]; intros p0 p n len s Hf Hs -> Hn; [lia|].
  cbn [strlen_loop load1]. destruct Hs as (Hl & Hnz & Hz).
  set (s1 := MSt _ _ _).
  assert (X : ext (rds p0 len) none s s1) by (apply ext_load1; cbn; lia).
  destruct (Z.eqb_spec (bytes s (p0 + n)) 0) as [E|E]; cbn [negb].
  - destruct (Z.eq_dec n len) as [->|]; [|exfalso; apply (Hnz n); [lia|exact E]].
    exists s1. split; [reflexivity|split; [reflexivity|exact X]].
  - assert (n <> len) by (intros ->; contradiction).
    destruct (IH p0 (p0 + n + 1) (n + 1) len s1) as (s' & E' & B & X'); try lia.
    { repeat split; auto. }
    exists s'. split; [exact E'|split; [exact B|]]. eapply ext_trans; [exact X|exact X'].
Qed.

Lemma movemask_bit m n : forall a i, 0 <= i ->
  Z.testbit (movemask_zero m a n) i = (i <? Z.of_nat n) && (m (a + i) =? 0).
Proof.
  induction n as [|n IH]; intros a i Hi; cbn [movemask_zero].
  - rewrite Z.bits_0. destruct (Z.ltb_spec i (Z.of_nat 0)); [lia|reflexivity].
  - set (t := movemask_zero m (a + 1) n) in *.
    assert (E : (if m a =? 0 then 1 else 0) + 2 * t = 2 * t + Z.b2z (m a =? 0)).
    { destruct (m a =? 0); cbn [Z.b2z]; lia. }
    rewrite E. destruct (Z.eq_dec i 0) as [->|].
    + rewrite Z.testbit_0_r, Z.add_0_r. destruct (Z.ltb_spec 0 (Z.of_nat (S n))); [reflexivity|lia].
    + replace i with (Z.succ (i - 1)) at 1 by lia. rewrite Z.testbit_succ_r by lia.
      subst t. rewrite IH by lia. replace (a + 1 + (i - 1)) with (a + i) by lia.
      destruct (Z.ltb_spec (i - 1) (Z.of_nat n)), (Z.ltb_spec i (Z.of_nat (S n))); try lia; reflexivity.
Qed.

Lemma tz_ok n : forall x t, 0 <= t < Z.of_nat n -> Z.testbit x t = true ->
  (forall j, 0 <= j < t -> Z.testbit x j = false) -> trailing_zeros n x = t.
Proof.
  induction n as [|n IH]; intros x t Ht H1 H0; [lia|].
  cbn [trailing_zeros]. rewrite <- Z.bit0_odd.
  destruct (Z.eq_dec t 0) as [->|].
  - rewrite H1. reflexivity.
  - rewrite H0 by lia. rewrite (IH (x / 2) (t - 1)); [lia|lia| |].
    + rewrite <- Z.div2_div, Z.div2_spec, Z.shiftr_spec by lia. replace (t - 1 + 1) with t by lia. exact H1.
    + intros j Hj. rewrite <- Z.div2_div, Z.div2_spec, Z.shiftr_spec by lia. apply H0. lia.
Qed.

Lemma testbit_nonzero x t : Z.testbit x t = true -> x <> 0.
Proof. intros H ->. rewrite Z.bits_0 in H. discriminate. Qed.

Lemma zero_if_bits x : 0 <= x -> (forall j, 0 <= j -> Z.testbit x j = false) -> x = 0.
Proof. intros _ H. apply byte_ext. intros j Hj. rewrite Z.bits_0. auto. Qed.

Lemma sse_loop_ok fuel : forall p0 p n len s,
  (Z.to_nat (len - n) < fuel)%nat -> c_string (bytes s) p0 len -> p = p0 + n -> 0 <= n <= len ->
  p mod 16 = 0 ->
  exists s', sse_loop fuel p n s = Some (len, s') /\ bytes s' = bytes s /\ ext (rds p0 len) none s s'.
Proof.
  induction fuel as [|f IH]; intros p0 p n len s Hf Hs -> Hn Ha; [lia|].
  cbn [sse_loop]. pose proof Hs as (Hl & Hnz & Hz).
  assert (X : ext (rds p0 len) none s (load_chunk (p0 + n) s)).
  { exists [(p0 + n, 16)], []. cbn [load_chunk rlog wlog app]. repeat split; auto.
    constructor; auto. cbn. split; [lia|right].
    split; [exists 1; reflexivity|]. split; [apply Z.mod_divide; [lia|exact Ha]|lia]. }
  pose proof (movemask_bit (bytes s) 16 (p0 + n)) as MB.
  change (Z.of_nat 16) with 16 in MB.
  set (cmp := movemask_zero (bytes s) (p0 + n) 16) in *.
  destruct (Z_lt_le_dec (len - n) 16) as [Hin|Hout].
  - assert (T : Z.testbit cmp (len - n) = true).
    { rewrite MB by lia. replace (p0 + n + (len - n)) with (p0 + len) by lia. rewrite Hz.
      destruct (Z.ltb_spec (len - n) 16); [reflexivity|lia]. }
    pose proof (testbit_nonzero _ _ T) as Nz.
    destruct (Z.eqb_spec cmp 0) as [->|_]; [contradiction|].
    rewrite (tz_ok 32 cmp (len - n)); [|lia|exact T|].
    + exists (load_chunk (p0 + n) s). replace (n + (len - n)) with len by lia.
      split; [reflexivity|split; [reflexivity|exact X]].
    + intros j Hj. rewrite MB by lia. replace (p0 + n + j) with (p0 + (n + j)) by lia.
      destruct (Z.eqb_spec (bytes s (p0 + (n + j))) 0) as [E|]; [|apply andb_false_r].
      exfalso; apply (Hnz (n + j)); [lia|exact E].
  - assert (Zc : cmp = 0).
    { apply byte_ext. intros j Hj. rewrite MB, Z.bits_0 by lia.
      destruct (Z.ltb_spec j 16); [|reflexivity]. cbn [andb].
      replace (p0 + n + j) with (p0 + (n + j)) by lia.
      destruct (Z.eqb_spec (bytes s (p0 + (n + j))) 0) as [E|]; [|reflexivity].
      exfalso; apply (Hnz (n + j)); [lia|exact E]. }
    rewrite Zc. cbn [Z.eqb].
    destruct (IH p0 (p0 + n + 16) (n + 16) len (load_chunk (p0 + n) s)) as (s' & E' & B & X'); try lia; auto.
    exists s'. split; [exact E'|split; [exact B|]]. eapply ext_trans; [exact X|exact X'].
Qed.

Lemma sse_head_ok k : forall p0 n len s, c_string (bytes s) p0 len -> 0 <= n <= len ->
  exists s', bytes s' = bytes s /\ ext (rds p0 len) none s s' /\
    (sse_head k (p0 + n) n s = (inl len, s') \/
     (sse_head k (p0 + n) n s = (inr (p0 + (n + Z.of_nat k), n + Z.of_nat k), s') /\ n + Z.of_nat k <= len)).
Proof.
  induction k as [|k IH]; intros p0 n len s Hs Hn; cbn [sse_head].
  - exists s. split; [reflexivity|split; [apply ext_refl|right]]. change (Z.of_nat 0) with 0.
    rewrite !Z.add_0_r. split; [reflexivity|lia].
  - cbn [load1]. pose proof Hs as (Hl & Hnz & Hz). set (s1 := MSt _ _ _).
    assert (X : ext (rds p0 len) none s s1) by (apply ext_load1; cbn; lia).
    destruct (Z.eqb_spec (bytes s (p0 + n)) 0) as [E|E].
    + destruct (Z.eq_dec n len) as [->|]; [|exfalso; apply (Hnz n); [lia|exact E]].
      exists s1. split; [reflexivity|split; [exact X|left; reflexivity]].
    + assert (n <> len) by (intros ->; contradiction).
      destruct (IH p0 (n + 1) len s1) as (s' & B & X' & R); auto; try lia.
      exists s'. split; [exact B|split; [eapply ext_trans; [exact X|exact X']|]].
      rewrite <- Z.add_assoc. destruct R as [R|[R Hle]]; [left; exact R|right].
      rewrite R. replace (n + 1 + Z.of_nat k) with (n + Z.of_nat (S k)) in * by lia. split; [reflexivity|lia].
Qed.

Lemma x64_strlen_sse2_ok fuel p len s :
  (Z.to_nat len < fuel)%nat -> c_string (bytes s) p len ->
  exists s', x64_strlen_sse2 fuel p s = Some (len, s') /\ bytes s' = bytes s /\ ext (rds p len) none s s'.
Proof.
  intros Hf Hs. unfold x64_strlen_sse2.
  destruct (sse_head_ok 4 p 0 len s Hs) as (s1 & B1 & X1 & R); [destruct Hs; lia|].
  rewrite Z.add_0_r in R. destruct R as [R|[R Hle]]; rewrite R.
  - exists s1. auto.
  - change (0 + Z.of_nat 4) with 4 in *.
    change 15 with (2 ^ 4 - 1). rewrite land_low by lia. change (2 ^ 4) with 16.
    set (al := (p + 4) mod 16). pose proof (Z.mod_pos_bound (p + 4) 16 ltac:(lia)) as Hal. fold al in Hal.
    rewrite B1. pose proof Hs as (Hl & Hnz & Hz).
    assert (Hq : (p + 4 - al) mod 16 = 0).
    { subst al. rewrite Zminus_mod, Zmod_mod, Z.sub_diag. reflexivity. }
    pose proof (movemask_bit (bytes s) 16 (p + 4 - al)) as MB. change (Z.of_nat 16) with 16 in MB.
    set (mm := movemask_zero (bytes s) (p + 4 - al) 16) in *.
    assert (SB : forall j, 0 <= j -> Z.testbit (Z.shiftr mm al) j = (j + al <? 16) && (bytes s (p + (4 + j)) =? 0)).
    { intros j Hj. rewrite Z.shiftr_spec by lia. rewrite MB by lia.
      replace (p + 4 - al + (j + al)) with (p + (4 + j)) by lia. reflexivity. }
    set (cmp := Z.shiftr mm al) in *.
    assert (X2 : ext (rds p len) none s1 (load_chunk (p + 4 - al) s1)).
    { exists [(p + 4 - al, 16)], []. cbn [load_chunk rlog wlog app]. repeat split; auto.
      constructor; auto. cbn. split; [lia|right]. split; [exists 1; reflexivity|]. split; [apply Z.mod_divide; [lia|exact Hq]|lia]. }
    assert (X12 : ext (rds p len) none s (load_chunk (p + 4 - al) s1)) by (eapply ext_trans; eauto).
    destruct (Z_lt_le_dec (len - 4 + al) 16) as [Hin|Hout].
    + assert (T : Z.testbit cmp (len - 4) = true).
      { rewrite SB by lia. replace (p + (4 + (len - 4))) with (p + len) by lia. rewrite Hz.
        destruct (Z.ltb_spec (len - 4 + al) 16); [reflexivity|lia]. }
      pose proof (testbit_nonzero _ _ T) as Nz.
      destruct (Z.eqb_spec cmp 0) as [->|_]; [contradiction|]. cbn [negb].
      rewrite (tz_ok 32 cmp (len - 4)); [|lia|exact T|].
      * exists (load_chunk (p + 4 - al) s1). replace (4 + (len - 4)) with len by lia.
        split; [reflexivity|split; [exact B1|exact X12]].
      * intros j Hj. rewrite SB by lia.
        destruct (Z.eqb_spec (bytes s (p + (4 + j))) 0) as [E|]; [|apply andb_false_r].
        exfalso; apply (Hnz (4 + j)); [lia|exact E].
    + assert (Zc : cmp = 0).
      { apply byte_ext. intros j Hj. rewrite SB, Z.bits_0 by lia.
        destruct (Z.ltb_spec (j + al) 16); [|reflexivity]. cbn [andb].
        destruct (Z.eqb_spec (bytes s (p + (4 + j))) 0) as [E|]; [|reflexivity].
        exfalso; apply (Hnz (4 + j)); [lia|exact E]. }
      rewrite Zc. cbn [Z.eqb negb].
      destruct (sse_loop_ok fuel p (p + 4 - al + 16) (4 + (16 - al)) len (load_chunk (p + 4 - al) s1))
        as (s' & E' & B & X'); try lia.
      { cbn [load_chunk bytes]. rewrite B1. exact Hs. }
      exists s'. split; [exact E'|split; [rewrite B; exact B1|]]. eapply ext_trans; [exact X12|exact X'].
Qed.

(** *** The zero-byte bit trick *)
Fixpoint ones256 (n : nat) : Z := match n with O => 0 | S k => 1 + 256 * ones256 k end.

Lemma byte_succ x k : 0 <= k -> byte x (k + 1) = byte (x / 256) k.
Proof. intros. rewrite <- byte_head by lia. f_equal. lia. Qed.

Lemma nz_bytes n : forall x, 0 <= x < 2 ^ (8 * Z.of_nat n) ->
  (forall k, 0 <= k < Z.of_nat n -> byte x k <> 0) ->
  0 <= x - ones256 n /\ forall k, 0 <= k < Z.of_nat n -> byte (x - ones256 n) k = byte x k - 1.
Proof.
  induction n as [|n IH]; intros x Hx Hb; cbn [ones256].
  - split; [lia|intros; lia].
  - assert (Hb0 := Hb 0 ltac:(lia)). rewrite byte_zero in Hb0.
    pose proof (Z.div_mod x 256 ltac:(lia)) as D. pose proof (Z.mod_pos_bound x 256 ltac:(lia)) as M.
    destruct (IH (x / 256)) as (P & Q).
    { split; [apply Z.div_pos; lia|]. apply Z.div_lt_upper_bound; [lia|].
      replace (8 * Z.of_nat (S n)) with (8 + 8 * Z.of_nat n) in Hx by lia.
      rewrite Z.pow_add_r in Hx by lia. exact (proj2 Hx). }
    { intros k Hk. rewrite <- byte_succ by lia. apply Hb. lia. }
    assert (E : x - (1 + 256 * ones256 n) = (x mod 256 - 1) + (x / 256 - ones256 n) * 256) by lia.
    split; [lia|]. intros k Hk. rewrite E. destruct (Z.eq_dec k 0) as [->|].
    + rewrite !byte_zero, Z.mod_add by lia. rewrite Z.mod_small by lia. reflexivity.
    + replace k with (k - 1 + 1) by lia. rewrite !byte_succ by lia.
      rewrite Z.div_add, (Z.div_small (_ - 1)), Z.add_0_l by lia. apply Q. lia.
Qed.

Lemma first_zero_bit n : forall x j, 0 <= j < Z.of_nat n -> byte x j = 0 ->
  (forall k, 0 <= k < j -> byte x k <> 0) -> Z.testbit (x - ones256 n) (8 * j + 7) = true.
Proof.
  induction n as [|n IH]; intros x j Hj Hz Hnz; [lia|]. cbn [ones256].
  pose proof (Z.div_mod x 256 ltac:(lia)) as D. pose proof (Z.mod_pos_bound x 256 ltac:(lia)) as M.
  destruct (Z.eq_dec j 0) as [->|].
  - rewrite byte_zero in Hz.
    replace (x - (1 + 256 * ones256 n)) with (255 + (x / 256 - ones256 n - 1) * 2 ^ 8) by (change (2 ^ 8) with 256; lia).
    replace (8 * 0 + 7) with 7 by lia.
    rewrite <- (Z.mod_pow2_bits_low _ 8) by lia. rewrite Z.mod_add by lia. reflexivity.
  - assert (Hb0 := Hnz 0 ltac:(lia)). rewrite byte_zero in Hb0.
    replace (8 * j + 7) with (8 * (j - 1) + 7 + 8) by lia.
    rewrite <- Z.div_pow2_bits by lia. change (2 ^ 8) with 256.
    replace (x - (1 + 256 * ones256 n)) with ((x mod 256 - 1) + (x / 256 - ones256 n) * 256) by lia.
    rewrite Z.div_add, (Z.div_small (_ - 1)), Z.add_0_l by lia.
    apply IH; [lia| |].
    + rewrite <- byte_succ by lia. replace (j - 1 + 1) with j by lia. exact Hz.
    + intros k Hk. rewrite <- byte_succ by lia. apply Hnz. lia.
Qed.

Lemma testbit_7 b : 0 <= b < 256 -> Z.testbit b 7 = (128 <=? b).
Proof.
  intros Hb. rewrite Z.testbit_spec' || idtac.
  destruct (Z.leb_spec 128 b).
  - apply Z.testbit_true; [lia|]. change (2 ^ 7) with 128. zdm.
  - apply Z.testbit_false; [lia|]. change (2 ^ 7) with 128. rewrite Z.div_small by lia. reflexivity.
Qed.

Lemma mask80 j : 0 <= j -> Z.testbit 0x8080808080808080 j = (j <? 64) && (j mod 8 =? 7).
Proof.
  intros Hj. destruct (Z_lt_le_dec j 64).
  - assert (S : forallb (fun j => Bool.eqb (Z.testbit 0x8080808080808080 j) ((j <? 64) && (j mod 8 =? 7))) (upto 64) = true)
      by (vm_compute; reflexivity).
    rewrite forallb_forall in S. apply Bool.eqb_prop. apply S. apply in_upto. lia.
  - destruct (Z.ltb_spec j 64); [lia|]. cbn [andb]. apply Z.bits_above_log2; [lia|]. cbn. lia.
Qed.

Lemma not_bit x j : 0 <= x < 2 ^ 64 -> 0 <= j < 64 -> Z.testbit (not_usize 8 x) j = negb (Z.testbit x j).
Proof.
  intros Hx Hj. unfold not_usize, modulus. change (8 * 8) with 64.
  replace (2 ^ 64 - 1 - x) with (Z.lnot x + 1 * 2 ^ 64) by (unfold Z.lnot; lia).
  rewrite <- (Z.mod_pow2_bits_low _ 64) by lia. rewrite Z.mod_add by lia.
  rewrite Z.mod_pow2_bits_low by lia. apply Z.lnot_spec. lia.
Qed.

Lemma haszero_true cs : 0 <= cs < 2 ^ 64 -> forall j, 0 <= j < 8 -> byte cs j = 0 ->
  (forall k, 0 <= k < j -> byte cs k <> 0) -> haszero cs = true.
Proof.
  intros Hc j Hj Hz Hnz. unfold haszero. apply negb_true_iff. apply Z.eqb_neq.
  apply testbit_nonzero with (t := 8 * j + 7).
  rewrite !Z.land_spec, not_bit, mask80 by lia.
  assert (E1 : Z.testbit (wrapping_sub 8 cs 0x0101010101010101) (8 * j + 7) = true).
  { unfold wrapping_sub, modulus. change (8 * 8) with 64. rewrite Z.mod_pow2_bits_low by lia.
    change 0x0101010101010101 with (ones256 8). apply first_zero_bit; auto. }
  assert (E2 : Z.testbit cs (8 * j + 7) = false).
  { pose proof (byte_testbit cs j 7 ltac:(lia) ltac:(lia)) as T. rewrite Hz, Z.bits_0 in T.
    replace (7 + 8 * j) with (8 * j + 7) in T by lia. change (7 <? 8) with true in T. cbn [andb] in T. symmetry. exact T. }
  rewrite E1, E2. destruct (Z.ltb_spec (8 * j + 7) 64); [|lia].
  replace (8 * j + 7) with (7 + j * 8) by lia. rewrite Z.mod_add by lia. reflexivity.
Qed.

Lemma haszero_false cs : 0 <= cs < 2 ^ 64 -> (forall k, 0 <= k < 8 -> byte cs k <> 0) -> haszero cs = false.
Proof.
  intros Hc Hnz. unfold haszero. apply negb_false_iff. apply Z.eqb_eq.
  apply byte_ext. intros j Hj. rewrite Z.bits_0. rewrite !Z.land_spec, mask80 by lia.
  destruct (Z.ltb_spec j 64); [|apply andb_false_r].
  destruct (Z.eqb_spec (j mod 8) 7) as [E|]; [|apply andb_false_r].
  rewrite not_bit by lia. cbn [andb]. rewrite andb_true_r.
  destruct (nz_bytes 8 cs Hc Hnz) as (P & Q).
  assert (Ej : j = 7 + 8 * (j / 8)) by (pose proof (Z.div_mod j 8 ltac:(lia)); lia).
  assert (Hq : 0 <= j / 8 < 8) by (split; [apply Z.div_pos; lia|apply Z.div_lt_upper_bound; lia]).
  specialize (Q (j / 8) Hq).
  assert (T1 : Z.testbit (wrapping_sub 8 cs 0x0101010101010101) j = (128 <=? byte cs (j / 8) - 1)).
  { unfold wrapping_sub, modulus. change (8 * 8) with 64. rewrite Z.mod_pow2_bits_low by lia.
    change 0x0101010101010101 with (ones256 8).
    pose proof (byte_testbit (cs - ones256 8) (j / 8) 7 ltac:(lia) ltac:(lia)) as T.
    rewrite <- Ej in T. change (7 <? 8) with true in T. cbn [andb] in T. rewrite <- T. rewrite Q. apply testbit_7.
    pose proof (byte_range cs (j / 8)). pose proof (Hnz (j / 8) Hq). lia. }
  assert (T2 : Z.testbit cs j = (128 <=? byte cs (j / 8))).
  { pose proof (byte_testbit cs (j / 8) 7 ltac:(lia) ltac:(lia)) as T.
    rewrite <- Ej in T. change (7 <? 8) with true in T. cbn [andb] in T. rewrite <- T. apply testbit_7. apply byte_range. }
  rewrite T1, T2. destruct (Z.leb_spec 128 (byte cs (j / 8) - 1)), (Z.leb_spec 128 (byte cs (j / 8))); try reflexivity; lia.
Qed.

Lemma bt_find_ok fuel : forall cs n j, 0 <= j < Z.of_nat fuel -> byte cs j = 0 ->
  (forall k, 0 <= k < j -> byte cs k <> 0) -> bt_find fuel cs n = Some (n + j).
Proof.
  induction fuel as [|f IH]; intros cs n j Hj Hz Hnz; [lia|]. cbn [bt_find].
  change 255 with (2 ^ 8 - 1). rewrite land_low by lia. change (2 ^ 8) with 256.
  rewrite <- byte_zero. destruct (Z.eq_dec j 0) as [->|].
  - rewrite Hz. rewrite Z.add_0_r. reflexivity.
  - destruct (Z.eqb_spec (byte cs 0) 0) as [E|_]; [exfalso; apply (Hnz 0); [lia|exact E]|].
    rewrite (IH _ (n + 1) (j - 1)); [f_equal; lia|lia| |].
    + rewrite Z.shiftr_div_pow2 by lia. change (2 ^ 8) with 256. rewrite <- byte_succ by lia.
      replace (j - 1 + 1) with j by lia. exact Hz.
    + intros k Hk. rewrite Z.shiftr_div_pow2 by lia. change (2 ^ 8) with 256. rewrite <- byte_succ by lia.
      apply Hnz. lia.
Qed.

Lemma bt_loop_ok fuel : forall p0 p n len s,
  (Z.to_nat (len - n) < fuel)%nat -> wf_mem (bytes s) -> c_string (bytes s) p0 len -> p = p0 + n -> 0 <= n <= len ->
  p mod 8 = 0 ->
  exists s', bt_loop fuel p n s = Some (len, s') /\ bytes s' = bytes s /\ ext (rds p0 len) none s s'.
Proof.
  induction fuel as [|f IH]; intros p0 p n len s Hf Hm Hs -> Hn Ha; [lia|].
  cbn [bt_loop load_n]. pose proof Hs as (Hl & Hnz & Hz). set (s1 := MSt _ _ _).
  assert (X : ext (rds p0 len) none s s1).
  { apply (ext_load _ _ false). cbn. split; [lia|right].
    split; [exists 2; reflexivity|]. split; [apply Z.mod_divide; [lia|exact Ha]|lia]. }
  pose proof (load_en_range false 8 (bytes s) (p0 + n) Hm) as Rc.
  change (8 * Z.of_nat 8) with 64 in Rc.
  assert (Bc : forall i, 0 <= i < 8 -> byte (load_en false (bytes s) (p0 + n) 8) i = bytes s (p0 + (n + i))).
  { intros i Hi. pose proof (load_en_byte false 8 (bytes s) (p0 + n) i Hm ltac:(lia)) as L.
    rewrite <- Z.add_assoc in L. exact L. }
  set (cs := load_en _ _ _ _) in *.
  destruct (Z_lt_le_dec (len - n) 8) as [Hin|Hout].
  - assert (B0 : byte cs (len - n) = 0).
    { rewrite Bc by lia. replace (n + (len - n)) with len by lia. exact Hz. }
    assert (B1 : forall k, 0 <= k < len - n -> byte cs k <> 0).
    { intros k Hk. rewrite Bc by lia. apply Hnz. lia. }
    rewrite (haszero_true cs Rc (len - n)) by (auto; lia).
    rewrite (bt_find_ok 9 cs n (len - n)) by (auto; lia).
    exists s1. replace (n + (len - n)) with len by lia. split; [reflexivity|split; [reflexivity|exact X]].
  - rewrite haszero_false; [|exact Rc|].
    + destruct (IH p0 (p0 + n + 8) (n + 8) len s1) as (s' & E' & B & X'); try lia; auto.
      exists s'. split; [exact E'|split; [exact B|]]. eapply ext_trans; [exact X|exact X'].
    + intros k Hk. rewrite Bc by lia. apply Hnz. lia.
Qed.

Lemma bt_head_ok fuel : forall p0 n len s, c_string (bytes s) p0 len -> 0 <= n <= len ->
  ((- (p0 + n)) mod 8 < Z.of_nat fuel) ->
  exists s', bytes s' = bytes s /\ ext (rds p0 len) none s s' /\
    (bt_head fuel (p0 + n) n s = Some (inl len, s') \/
     exists n', bt_head fuel (p0 + n) n s = Some (inr (p0 + n', n'), s') /\ n <= n' <= len /\ (p0 + n') mod 8 = 0).
Proof.
  induction fuel as [|f IH]; intros p0 n len s Hs Hn Hf.
  { pose proof (Z.mod_pos_bound (- (p0 + n)) 8 ltac:(lia)). lia. }
  cbn [bt_head]. change 7 with (2 ^ 3 - 1). rewrite land_low by lia. change (2 ^ 3) with 8.
  destruct (Z.eqb_spec ((p0 + n) mod 8) 0) as [Ea|Ea]; cbn [negb].
  - exists s. split; [reflexivity|split; [apply ext_refl|right]]. exists n. repeat split; auto; lia.
  - cbn [load1]. pose proof Hs as (Hl & Hnz & Hz). set (s1 := MSt _ _ _).
    assert (X : ext (rds p0 len) none s s1) by (apply ext_load1; cbn; lia).
    destruct (Z.eqb_spec (bytes s (p0 + n)) 0) as [E|E].
    + destruct (Z.eq_dec n len) as [->|]; [|exfalso; apply (Hnz n); [lia|exact E]].
      exists s1. split; [reflexivity|split; [exact X|left; reflexivity]].
    + assert (n <> len) by (intros ->; contradiction).
      destruct (IH p0 (n + 1) len s1) as (s' & B & X' & R); auto; try lia.
      exists s'. split; [exact B|split; [eapply ext_trans; [exact X|exact X']|]].
      rewrite <- Z.add_assoc. destruct R as [R|(n' & R & Hle & Ha)]; [left; exact R|right].
      exists n'. repeat split; auto; lia.
Qed.

Lemma x64_strlen_bt_ok fuel p len s :
  (Z.to_nat len < fuel)%nat -> wf_mem (bytes s) -> c_string (bytes s) p len ->
  exists s', x64_strlen_bt fuel p s = Some (len, s') /\ bytes s' = bytes s /\ ext (rds p len) none s s'.
Proof.
  intros Hf Hm Hs. unfold x64_strlen_bt.
  destruct (bt_head_ok 8 p 0 len s Hs) as (s1 & B1 & X1 & R).
  { destruct Hs; lia. }
  { apply Z.mod_pos_bound. lia. }
  rewrite Z.add_0_r in R. destruct R as [R|(n' & R & Hle & Ha)]; rewrite R.
  - exists s1. auto.
  - destruct (bt_loop_ok fuel p (p + n') n' len s1) as (s' & E' & B & X'); try lia; try (rewrite B1; auto); auto.
    exists s'. split; [exact E'|split; [rewrite B; exact B1|]]. eapply ext_trans; [exact X1|exact X'].
Qed.
