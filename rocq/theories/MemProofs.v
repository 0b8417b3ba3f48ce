(** Proofs about the copying functions of [MemModel.v]. *)
From Coq Require Import ZifyBool ZifyNat Znumtheory.
From Verif Require Import MachineFacts MemModel MemSpec.

(** [cp m0 dl x y m]: [m] is [m0] with the bytes [x,y) replaced by those at
    the same addresses plus [dl]. *)
Definition cp (m0 : mem) (dl x y : Z) (m : mem) : Prop :=
  forall a, m a = if (x <=? a) && (a <? y) then m0 (a + dl) else m0 a.

Definition rd (lo hi : Z) (acc : Z * Z) : Prop :=
  let '(a, w) := acc in
  0 < w /\ ((lo <= a /\ a + w <= hi) \/ ((w | 16) /\ (w | a) /\ lo < hi /\ a < hi /\ lo < a + w)).
Definition wr (lo hi : Z) (acc : Z * Z) : Prop :=
  let '(a, w) := acc in 0 < w /\ lo <= a /\ a + w <= hi.

Lemma cp_init m0 dl x : cp m0 dl x x m0.
Proof. intros a. destruct (Z.leb_spec x a), (Z.ltb_spec a x); try lia; reflexivity. Qed.

Lemma cp_wf m0 dl x y m : wf_mem m0 -> cp m0 dl x y m -> wf_mem m.
Proof. intros W H a. rewrite H. destruct (_ && _); apply W. Qed.

Lemma rd_mono lo hi lo' hi' : lo' <= lo -> hi <= hi' -> forall a w, rd lo hi (a, w) -> rd lo' hi' (a, w).
Proof. unfold rd. intros. intuition lia. Qed.
Lemma wr_mono lo hi lo' hi' : lo' <= lo -> hi <= hi' -> forall a w, wr lo hi (a, w) -> wr lo' hi' (a, w).
Proof. unfold wr. intros. lia. Qed.

Ltac bd :=
  repeat match goal with
  | |- context [Z.leb ?a ?b] => destruct (Z.leb_spec a b)
  | |- context [Z.ltb ?a ?b] => destruct (Z.ltb_spec a b)
  | |- context [Z.eqb ?a ?b] => destruct (Z.eqb_spec a b)
  end; cbn [andb orb negb]; try reflexivity; try lia.

(** One word copied upwards. *)
Lemma step_fwd be n m0 dl x src dst m :
  wf_mem m0 -> dl = src - dst -> (0 < n)%nat -> cp m0 dl x dst m -> x <= dst ->
  (dst <= src \/ src + Z.of_nat n <= x) ->
  cp m0 dl x (dst + Z.of_nat n) (store_en be m dst n (load_en be m src n)).
Proof.
  intros W -> Hn H Hx Hc a. pose proof (cp_wf _ _ _ _ _ W H) as Wm.
  rewrite store_en_spec.
  destruct (Z.leb_spec dst a), (Z.ltb_spec a (dst + Z.of_nat n)); cbn [andb].
  - rewrite load_en_byte by (auto; lia). rewrite H.
    replace (src + (a - dst)) with (a + (src - dst)) by lia. bd.
  - rewrite H. bd.
  - rewrite H. bd.
  - rewrite H. bd.
Qed.

Lemma step_bwd be n m0 dl src dst y m :
  wf_mem m0 -> dl = src - dst -> (0 < n)%nat -> cp m0 dl (dst + Z.of_nat n) y m ->
  dst + Z.of_nat n <= y -> dl <= 0 ->
  cp m0 dl dst y (store_en be m dst n (load_en be m src n)).
Proof.
  intros W -> Hn H Hx Hc a. pose proof (cp_wf _ _ _ _ _ W H) as Wm.
  rewrite store_en_spec.
  destruct (Z.leb_spec dst a), (Z.ltb_spec a (dst + Z.of_nat n)); cbn [andb].
  - rewrite load_en_byte by (auto; lia). rewrite H.
    replace (src + (a - dst)) with (a + (src - dst)) by lia. bd.
  - rewrite H. bd.
  - rewrite H. bd.
  - rewrite H. bd.
Qed.

Lemma step1_fwd m0 dl x src dst m :
  dl = src - dst -> cp m0 dl x dst m -> x <= dst -> (dst <= src \/ src + 1 <= x) ->
  cp m0 dl x (dst + 1) (upd m dst (m src)).
Proof.
  intros -> H Hx Hc a. unfold upd. destruct (Z.eqb_spec a dst) as [->|].
  - rewrite H. replace (dst + (src - dst)) with src by lia. bd.
  - rewrite H. bd.
Qed.
Lemma step1_bwd m0 dl src dst y m :
  dl = src - dst -> cp m0 dl (dst + 1) y m -> dst + 1 <= y -> dl <= 0 ->
  cp m0 dl dst y (upd m dst (m src)).
Proof.
  intros -> H Hx Hc a. unfold upd. destruct (Z.eqb_spec a dst) as [->|].
  - rewrite H. replace (dst + (src - dst)) with src by lia. bd.
  - rewrite H. bd.
Qed.

(** ** Byte loops *)
Lemma small_fwd_ok fuel : forall dst src e s m0 dl x,
  (Z.to_nat (e - dst) < fuel)%nat -> dst <= e -> dl = src - dst ->
  cp m0 dl x dst (bytes s) -> x <= dst -> (dst <= src \/ e + dl <= x) ->
  exists s', small_fwd fuel dst src e s = Some s' /\ cp m0 dl x e (bytes s') /\
    ext (rd (dst + dl) (e + dl)) (wr dst e) s s'.
Proof.
  induction fuel as [|f IH]; intros dst src e s m0 dl x Hf He Hd H Hx Hc; [lia|].
  cbn [small_fwd]. destruct (Z.ltb_spec dst e).
  - cbn [load1]. set (s2 := store1 _ _ _).
    assert (Hcp2 : cp m0 dl x (dst + 1) (bytes s2)) by (subst s2; cbn; apply step1_fwd; auto; lia).
    destruct (IH (dst + 1) (src + 1) e s2 m0 dl x) as (s' & E & C & X); auto; try lia.
    exists s'. split; [exact E|split; [exact C|]].
    eapply ext_trans; [|eapply ext_weaken; [| |exact X]].
    + subst s2. eapply ext_trans with (s2 := snd (load1 src s)).
      * apply ext_load1. cbn. lia.
      * apply ext_store1. cbn. lia.
    + apply rd_mono; lia.
    + apply wr_mono; lia.
  - assert (dst = e) by lia. subst e. exists s. split; [reflexivity|split; [exact H|apply ext_refl]].
Qed.

Lemma small_bwd_ok fuel : forall dst src b s m0 dl y,
  (Z.to_nat (dst - b) < fuel)%nat -> b <= dst -> dl = src - dst ->
  cp m0 dl dst y (bytes s) -> dst <= y -> dl <= 0 ->
  exists s', small_bwd fuel dst src b s = Some s' /\ cp m0 dl b y (bytes s') /\
    ext (rd (b + dl) (dst + dl)) (wr b dst) s s'.
Proof.
  induction fuel as [|f IH]; intros dst src b s m0 dl y Hf He Hd H Hx Hc; [lia|].
  cbn [small_bwd]. destruct (Z.ltb_spec b dst).
  - cbn [load1]. set (s2 := store1 _ _ _).
    assert (Hcp2 : cp m0 dl (dst - 1) y (bytes s2)).
    { subst s2; cbn; apply step1_bwd; auto; try lia.
      replace (dst - 1 + 1) with dst by lia. exact H. }
    destruct (IH (dst - 1) (src - 1) b s2 m0 dl y) as (s' & E & C & X); auto; try lia.
    exists s'. split; [exact E|split; [exact C|]].
    eapply ext_trans; [|eapply ext_weaken; [| |exact X]].
    + subst s2. eapply ext_trans with (s2 := snd (load1 (src - 1) s)).
      * apply ext_load1. cbn. lia.
      * apply ext_store1. cbn. lia.
    + apply rd_mono; lia.
    + apply wr_mono; lia.
  - assert (dst = b) by lia. subst b. exists s. split; [reflexivity|split; [exact H|apply ext_refl]].
Qed.

(** ** Word loops *)
Lemma words_fwd_ok be ws fuel : forall dst src e s m0 dl x k,
  wf_mem m0 -> 0 < ws -> 0 <= k -> e = dst + ws * k ->
  (Z.to_nat (e - dst) < fuel)%nat -> dl = src - dst ->
  cp m0 dl x dst (bytes s) -> x <= dst -> (dst <= src \/ e + dl <= x) ->
  exists s', words_fwd fuel be ws dst src e s = Some s' /\ cp m0 dl x e (bytes s') /\
    ext (rd (dst + dl) (e + dl)) (wr dst e) s s'.
Proof.
  induction fuel as [|f IH]; intros dst src e s m0 dl x k W Hws Hk He Hf Hd H Hx Hc; [lia|].
  cbn [words_fwd]. destruct (Z.ltb_spec dst e).
  - assert (1 <= k) by nia.
    cbn [load_n]. set (s2 := store_n _ _ _ _ _).
    assert (Hw : Z.of_nat (Z.to_nat ws) = ws) by lia.
    assert (dst + ws <= e) by nia.
    assert (Hcp2 : cp m0 dl x (dst + ws) (bytes s2)).
    { subst s2; cbn [store_n bytes]. rewrite <- Hw at 1. apply step_fwd; auto; lia. }
    destruct (IH (dst + ws) (src + ws) e s2 m0 dl x (k - 1)) as (s' & E & C & X); auto; try lia.
    exists s'. split; [exact E|split; [exact C|]].
    eapply ext_trans; [|eapply ext_weaken; [| |exact X]].
    + subst s2. eapply ext_trans with (s2 := snd (load_n be (Z.to_nat ws) src s)).
      * apply ext_load. cbn. lia.
      * apply ext_store. cbn. lia.
    + apply rd_mono; lia.
    + apply wr_mono; lia.
  - assert (dst = e) by nia. subst e. match goal with E : dst = _ |- _ => rewrite <- E end. exists s. split; [reflexivity|split; [exact H|apply ext_refl]].
Qed.

Lemma words_bwd_ok be ws fuel : forall dst src b s m0 dl y k,
  wf_mem m0 -> 0 < ws -> 0 <= k -> b = dst - ws * k ->
  (Z.to_nat (dst - b) < fuel)%nat -> dl = src - dst ->
  cp m0 dl dst y (bytes s) -> dst <= y -> dl <= 0 ->
  exists s', words_bwd fuel be ws dst src b s = Some s' /\ cp m0 dl b y (bytes s') /\
    ext (rd (b + dl) (dst + dl)) (wr b dst) s s'.
Proof.
  induction fuel as [|f IH]; intros dst src b s m0 dl y k W Hws Hk He Hf Hd H Hx Hc; [lia|].
  cbn [words_bwd]. destruct (Z.ltb_spec b dst).
  - assert (1 <= k) by nia.
    cbn [load_n]. set (s2 := store_n _ _ _ _ _).
    assert (Hw : Z.of_nat (Z.to_nat ws) = ws) by lia.
    assert (b <= dst - ws) by nia.
    assert (Hcp2 : cp m0 dl (dst - ws) y (bytes s2)).
    { subst s2; cbn [store_n bytes]. apply step_bwd; auto; try lia.
      rewrite Hw. replace (dst - ws + ws) with dst by lia. exact H. }
    destruct (IH (dst - ws) (src - ws) b s2 m0 dl y (k - 1)) as (s' & E & C & X); auto; try lia.
    exists s'. split; [exact E|split; [exact C|]].
    eapply ext_trans; [|eapply ext_weaken; [| |exact X]].
    + subst s2. eapply ext_trans with (s2 := snd (load_n be (Z.to_nat ws) (src - ws) s)).
      * apply ext_load. cbn. lia.
      * apply ext_store. cbn. lia.
    + apply rd_mono; lia.
    + apply wr_mono; lia.
  - assert (dst = b) by nia. subst b. match goal with E : dst = _ |- _ => rewrite <- E end. exists s. split; [reflexivity|split; [exact H|apply ext_refl]].
Qed.

(** ** Shift-and-merge loops *)
Lemma merge_fwd_byte be ws prev cur off i : 0 < off < ws -> 0 <= i < ws ->
  0 <= prev < 2 ^ (8 * ws) -> 0 <= cur < 2 ^ (8 * ws) ->
  wbyte be ws i (merge_fwd be ws prev cur (off * 8)) =
  if i + off <? ws then wbyte be ws (i + off) prev else wbyte be ws (i + off - ws) cur.
Proof.
  intros Ho Hi Hp Hc. unfold wbyte, merge_fwd.
  replace (off * 8) with (8 * off) by lia.
  replace (ws * 8 - 8 * off) with (8 * (ws - off)) by lia.
  destruct be.
  - rewrite byte_lor, byte_shl, byte_shr by lia.
    destruct (Z.ltb_spec (ws - 1 - i) ws); [|lia]. cbn [andb].
    destruct (Z.leb_spec off (ws - 1 - i)), (Z.ltb_spec (i + off) ws); try lia.
    + rewrite (byte_high cur _ ws) by lia. rewrite Z.lor_0_r. f_equal. lia.
    + rewrite Z.lor_0_l. f_equal. lia.
  - rewrite byte_lor, byte_shl, byte_shr by lia.
    destruct (Z.ltb_spec i ws); [|lia]. cbn [andb].
    destruct (Z.leb_spec (ws - off) i), (Z.ltb_spec (i + off) ws); try lia.
    + rewrite (byte_high prev _ ws) by lia. rewrite Z.lor_0_l. f_equal. lia.
    + rewrite Z.lor_0_r. f_equal.
Qed.

Lemma merge_bwd_byte be ws prev cur off i : 0 < off < ws -> 0 <= i < ws ->
  0 <= prev < 2 ^ (8 * ws) -> 0 <= cur < 2 ^ (8 * ws) ->
  wbyte be ws i (merge_bwd be ws prev cur (off * 8)) =
  if i + off <? ws then wbyte be ws (i + off) cur else wbyte be ws (i + off - ws) prev.
Proof.
  intros Ho Hi Hp Hc.
  transitivity (wbyte be ws i (merge_fwd be ws cur prev (off * 8))).
  - f_equal. unfold merge_fwd, merge_bwd. destruct be; apply Z.lor_comm.
  - apply merge_fwd_byte; auto.
Qed.

(** [sa] is the aligned address of the word [prev] was loaded from; the source
    of [dst] is [sa + off].  [prev]'s bytes at and after the source equal the
    original memory. *)
Lemma shift_fwd_ok be ws off fuel : forall dst e sa prev s m0 dl x k,
  wf_mem m0 -> (ws | 16) -> 0 < off < ws -> 0 <= k -> e = dst + ws * k ->
  (Z.to_nat (e - dst) < fuel)%nat -> dl = sa + off - dst ->
  (ws | sa) -> (dst <= sa \/ e + dl <= x) ->
  cp m0 dl x dst (bytes s) -> x <= dst -> 0 <= prev < 2 ^ (8 * ws) ->
  (forall i, off <= i < ws -> sa + i < e + dl -> wbyte be ws i prev = m0 (sa + i)) ->
  exists s', shift_fwd fuel be ws dst e sa prev (off * 8) s = Some s' /\ cp m0 dl x e (bytes s') /\
    ext (rd (dst + dl) (e + dl)) (wr dst e) s s'.
Proof.
  induction fuel as [|f IH]; intros dst e sa prev s m0 dl x k W H16 Ho Hk He Hf Hd Ha Hc H Hx Hp Hb; [lia|].
  cbn [shift_fwd]. destruct (Z.ltb_spec dst e) as [Hlt|Hge].
  - assert (Hk1 : 1 <= k) by nia.
    assert (Hw : Z.of_nat (Z.to_nat ws) = ws) by lia.
    assert (Hle : dst + ws <= e) by nia.
    pose proof (cp_wf _ _ _ _ _ W H) as Wm.
    cbn [load_n]. set (s2 := store_n _ _ _ _ _).
    pose proof (load_en_range be (Z.to_nat ws) (bytes s) (sa + ws) Wm) as Rc. rewrite Hw in Rc.
    set (cur := load_en be (bytes s) (sa + ws) (Z.to_nat ws)) in *.
    assert (Bc : forall i, 0 <= i < ws -> sa + ws + i < e + dl -> wbyte be ws i cur = m0 (sa + ws + i)).
    { intros i Hi Hin. subst cur. pose proof (load_en_byte be (Z.to_nat ws) (bytes s) (sa + ws) i Wm) as L.
      rewrite Hw in L. rewrite L by lia. rewrite H. bd. }
    assert (Hcp2 : cp m0 dl x (dst + ws) (bytes s2)).
    { intros a. subst s2. cbn [store_n bytes]. rewrite store_en_spec, Hw.
      destruct (Z.leb_spec dst a), (Z.ltb_spec a (dst + ws)); cbn [andb]; try (rewrite H; bd).
      rewrite merge_fwd_byte by (auto; lia).
      destruct (Z.leb_spec x a); [|lia]. cbn [andb].
      destruct (Z.ltb_spec (a - dst + off) ws).
      - rewrite Hb by lia. f_equal. lia.
      - rewrite Bc by lia. f_equal. lia. }
    destruct (IH (dst + ws) e (sa + ws) cur s2 m0 dl x (k - 1)) as (s' & E & C & X); auto; try lia.
    { apply Z.divide_add_r; [exact Ha|apply Z.divide_refl]. }
    { intros i Hi Hin. apply Bc; lia. }
    exists s'. split; [exact E|split; [exact C|]].
    eapply ext_trans; [|eapply ext_weaken; [| |exact X]].
    + subst s2. eapply ext_trans with (s2 := snd (load_n be (Z.to_nat ws) (sa + ws) s)).
      * apply ext_load. cbn. rewrite Hw. split; [lia|right]. split; [exact H16|].
        split; [|lia]. apply Z.divide_add_r; [exact Ha|apply Z.divide_refl].
      * apply ext_store. cbn. lia.
    + apply rd_mono; lia.
    + apply wr_mono; lia.
  - assert (E : dst = e) by nia. rewrite <- E in *. exists s. split; [reflexivity|split; [exact H|apply ext_refl]].
Qed.

Lemma shift_bwd_ok be ws off fuel : forall dst b sa prev s m0 dl y k,
  wf_mem m0 -> (ws | 16) -> 0 < off < ws -> 0 <= k -> b = dst - ws * k ->
  (Z.to_nat (dst - b) < fuel)%nat -> dl = sa + off - dst ->
  (ws | sa) -> sa <= dst ->
  cp m0 dl dst y (bytes s) -> dst <= y -> 0 <= prev < 2 ^ (8 * ws) ->
  (forall i, 0 <= i < off -> wbyte be ws i prev = m0 (sa + i)) ->
  exists s', shift_bwd fuel be ws dst b sa prev (off * 8) s = Some s' /\ cp m0 dl b y (bytes s') /\
    ext (rd (b + dl) (dst + dl)) (wr b dst) s s'.
Proof.
  induction fuel as [|f IH]; intros dst b sa prev s m0 dl y k W H16 Ho Hk He Hf Hd Ha Hc H Hx Hp Hb; [lia|].
  cbn [shift_bwd]. destruct (Z.ltb_spec b dst) as [Hlt|Hge].
  - assert (Hk1 : 1 <= k) by nia.
    assert (Hw : Z.of_nat (Z.to_nat ws) = ws) by lia.
    assert (Hle : b <= dst - ws) by nia.
    pose proof (cp_wf _ _ _ _ _ W H) as Wm.
    assert (Ha' : (ws | sa - ws)).
    { apply Z.divide_sub_r; [exact Ha|apply Z.divide_refl]. }
    cbn [load_n]. set (s2 := store_n _ _ _ _ _).
    pose proof (load_en_range be (Z.to_nat ws) (bytes s) (sa - ws) Wm) as Rc. rewrite Hw in Rc.
    set (cur := load_en be (bytes s) (sa - ws) (Z.to_nat ws)) in *.
    assert (Bc : forall i, 0 <= i < ws -> wbyte be ws i cur = m0 (sa - ws + i)).
    { intros i Hi. subst cur. pose proof (load_en_byte be (Z.to_nat ws) (bytes s) (sa - ws) i Wm) as L.
      rewrite Hw in L. rewrite L by lia. rewrite H. bd. }
    assert (Hcp2 : cp m0 dl (dst - ws) y (bytes s2)).
    { intros a. subst s2. cbn [store_n bytes]. rewrite store_en_spec, Hw.
      destruct (Z.leb_spec (dst - ws) a), (Z.ltb_spec a (dst - ws + ws)); cbn [andb]; try (rewrite H; bd).
      rewrite merge_bwd_byte by (auto; lia).
      destruct (Z.ltb_spec a y); [|lia]. cbn [andb].
      destruct (Z.ltb_spec (a - (dst - ws) + off) ws).
      - rewrite Bc by lia. f_equal. lia.
      - rewrite Hb by lia. f_equal. lia. }
    destruct (IH (dst - ws) b (sa - ws) cur s2 m0 dl y (k - 1)) as (s' & E & C & X); auto; try lia.
    { intros i Hi. apply Bc; lia. }
    exists s'. split; [exact E|split; [exact C|]].
    eapply ext_trans; [|eapply ext_weaken; [| |exact X]].
    + subst s2. eapply ext_trans with (s2 := snd (load_n be (Z.to_nat ws) (sa - ws) s)).
      * apply ext_load. cbn. rewrite Hw. split; [lia|right]. split; [exact H16|]. split; [exact Ha'|lia].
      * apply ext_store. cbn. lia.
    + apply rd_mono; lia.
    + apply wr_mono; lia.
  - assert (E : dst = b) by nia. rewrite <- E in *. exists s. split; [reflexivity|split; [exact H|apply ext_refl]].
Qed.

(** ** Portable copy_forward / copy_backward *)
Lemma wm_mod ws x : ws = 4 \/ ws = 8 -> Z.land x (word_mask ws) = x mod ws.
Proof.
  intros [-> | ->]; unfold word_mask.
  - apply (land_low x 2). lia.
  - apply (land_low x 3). lia.
Qed.
Lemma wm_clear ws x : ws = 4 \/ ws = 8 -> 0 <= x < 2 ^ (8 * ws) ->
  Z.land x (not_usize ws (word_mask ws)) = x - x mod ws.
Proof.
  intros [-> | ->] Hx; unfold not_usize, word_mask, modulus.
  - apply (land_high x 2 (8 * 4)); [lia|exact Hx].
  - apply (land_high x 3 (8 * 8)); [lia|exact Hx].
Qed.
Lemma neg_mod ws d : ws = 4 \/ ws = 8 -> wrapping_neg ws d mod ws = (- d) mod ws.
Proof.
  intros [-> | ->]; unfold wrapping_neg, modulus.
  - replace (2 ^ (8 * 4)) with (4 * 2 ^ 30) by reflexivity. symmetry. apply Znumtheory.Zmod_div_mod; try lia. exists (2 ^ 30). lia.
  - replace (2 ^ (8 * 8)) with (8 * 2 ^ 61) by reflexivity. symmetry. apply Znumtheory.Zmod_div_mod; try lia. exists (2 ^ 61). lia.
Qed.

Lemma pow_ws ws : ws = 4 \/ ws = 8 -> exists q, 2 ^ (8 * ws) = ws * q.
Proof. intros [-> | ->]; [exists (2 ^ 30)|exists (2 ^ 61)]; reflexivity. Qed.

Lemma small_fwd_bytes n dst src s m0 dl x :
  0 <= n -> dl = src - dst -> cp m0 dl x dst (bytes s) -> x <= dst ->
  (dst <= src \/ dst + n + dl <= x) ->
  exists s', copy_forward_bytes dst src n s = Some s' /\ cp m0 dl x (dst + n) (bytes s') /\
    ext (rd (dst + dl) (dst + n + dl)) (wr dst (dst + n)) s s'.
Proof. intros. unfold copy_forward_bytes. apply small_fwd_ok; auto; lia. Qed.

Lemma small_bwd_bytes n dst src s m0 dl y :
  0 <= n -> dl = src - dst -> cp m0 dl dst y (bytes s) -> dst <= y -> dl <= 0 ->
  exists s', copy_backward_bytes dst src n s = Some s' /\ cp m0 dl (dst - n) y (bytes s') /\
    ext (rd (dst - n + dl) (dst + dl)) (wr (dst - n) dst) s s'.
Proof. intros. unfold copy_backward_bytes. apply small_bwd_ok; auto; lia. Qed.

Lemma misaligned_fwd_ok unal be ws dst src k s m0 dl x :
  ws = 4 \/ ws = 8 -> wf_mem m0 -> 0 < k -> dl = src - dst -> dst mod ws = 0 ->
  src mod ws <> 0 -> 0 <= src < 2 ^ (8 * ws) ->
  cp m0 dl x dst (bytes s) -> x <= dst ->
  (dst <= src \/ dst + ws * k + dl <= x) ->
  exists s', copy_forward_misaligned_words unal be ws dst src (ws * k) s = Some s' /\
    cp m0 dl x (dst + ws * k) (bytes s') /\
    ext (rd (dst + dl) (dst + ws * k + dl)) (wr dst (dst + ws * k)) s s'.
Proof.
  intros Hws W Hk Hd Ha Hs Hr H Hx Hc. unfold copy_forward_misaligned_words.
  assert (Hp : 0 < ws) by lia.
  assert (H16 : (ws | 16)) by (destruct Hws as [-> | ->]; [exists 4|exists 2]; reflexivity).
  destruct unal.
  - apply words_fwd_ok with (k := k); auto; nia.
  - rewrite wm_mod, wm_clear by auto.
    pose proof (cp_wf _ _ _ _ _ W H) as Wm.
    set (off := src mod ws) in *.
    assert (Hoff : 0 < off < ws) by (subst off; pose proof (Z.mod_pos_bound src ws Hp); lia).
    assert (Hsa : (ws | src - off)).
    { apply Z.mod_divide; [lia|]. subst off. rewrite Zminus_mod, Zmod_mod, Z.sub_diag. apply Z.mod_0_l. lia. }
    assert (Hw : Z.of_nat (Z.to_nat ws) = ws) by lia.
    cbn [load_n]. set (s1 := MSt _ _ _).
    pose proof (load_en_range be (Z.to_nat ws) (bytes s) (src - off) Wm) as Rp. rewrite Hw in Rp.
    set (prev := load_en _ _ _ _) in *.
    assert (Hds : dst <= src -> dst <= src - off).
    { intros Hle. pose proof (Z.div_le_mono dst src ws Hp Hle) as Hq.
      pose proof (Z.div_mod dst ws ltac:(lia)) as D1. pose proof (Z.div_mod src ws ltac:(lia)) as D2.
      apply (Z.mul_le_mono_nonneg_l _ _ ws) in Hq; [|lia]. subst off. lia. }
    destruct (shift_fwd_ok be ws off (S (Z.to_nat (ws * k))) dst (dst + ws * k) (src - off) prev s1 m0 dl x k)
      as (s' & E & C & X); auto; try lia.
    + intros i Hi Hin. subst prev.
      pose proof (load_en_byte be (Z.to_nat ws) (bytes s) (src - off) i Wm) as L.
      rewrite Hw in L. rewrite L by lia. rewrite H. bd.
    + exists s'. split; [exact E|split; [exact C|]].
      eapply ext_trans with (s2 := s1); [|exact X].
      apply (ext_load _ _ be). cbn. rewrite Hw. split; [lia|right]. split; [exact H16|]. split; [exact Hsa|nia].
Qed.

Lemma misaligned_bwd_ok unal be ws dst src k s m0 dl y :
  ws = 4 \/ ws = 8 -> wf_mem m0 -> 0 < k -> dl = src - dst ->
  src mod ws <> 0 -> 0 <= src < 2 ^ (8 * ws) ->
  cp m0 dl dst y (bytes s) -> dst <= y -> dl <= 0 ->
  exists s', copy_backward_misaligned_words unal be ws dst src (ws * k) s = Some s' /\
    cp m0 dl (dst - ws * k) y (bytes s') /\
    ext (rd (dst - ws * k + dl) (dst + dl)) (wr (dst - ws * k) dst) s s'.
Proof.
  intros Hws W Hk Hd Hs Hr H Hx Hc. unfold copy_backward_misaligned_words.
  assert (Hp : 0 < ws) by lia.
  assert (H16 : (ws | 16)) by (destruct Hws as [-> | ->]; [exists 4|exists 2]; reflexivity).
  destruct unal.
  - apply words_bwd_ok with (k := k); auto; nia.
  - rewrite wm_mod, wm_clear by auto.
    pose proof (cp_wf _ _ _ _ _ W H) as Wm.
    set (off := src mod ws) in *.
    assert (Hoff : 0 < off < ws) by (subst off; pose proof (Z.mod_pos_bound src ws Hp); lia).
    assert (Hsa : (ws | src - off)).
    { apply Z.mod_divide; [lia|]. subst off. rewrite Zminus_mod, Zmod_mod, Z.sub_diag. apply Z.mod_0_l. lia. }
    assert (Hw : Z.of_nat (Z.to_nat ws) = ws) by lia.
    cbn [load_n]. set (s1 := MSt _ _ _).
    pose proof (load_en_range be (Z.to_nat ws) (bytes s) (src - off) Wm) as Rp. rewrite Hw in Rp.
    set (prev := load_en _ _ _ _) in *.
    destruct (shift_bwd_ok be ws off (S (Z.to_nat (ws * k))) dst (dst - ws * k) (src - off) prev s1 m0 dl y k)
      as (s' & E & C & X); auto; try lia.
    + intros i Hi. subst prev.
      pose proof (load_en_byte be (Z.to_nat ws) (bytes s) (src - off) i Wm) as L.
      rewrite Hw in L. rewrite L by lia. rewrite H. bd.
    + exists s'. split; [exact E|split; [exact C|]].
      eapply ext_trans with (s2 := s1); [|exact X].
      apply (ext_load _ _ be). cbn. rewrite Hw. split; [lia|right]. split; [exact H16|]. split; [exact Hsa|nia].
Qed.

Lemma thr ws : ws = 4 \/ ws = 8 -> word_copy_threshold ws = 16.
Proof. intros [-> | ->]; reflexivity. Qed.

Lemma ext_chain3 lo hi lo' hi' s0 s1 s2 s3 (R1 R2 R3 W1 W2 W3 : Z * Z -> Prop) :
  ext R1 W1 s0 s1 -> ext R2 W2 s1 s2 -> ext R3 W3 s2 s3 ->
  (forall a w, R1 (a, w) \/ R2 (a, w) \/ R3 (a, w) -> rd lo hi (a, w)) ->
  (forall a w, W1 (a, w) \/ W2 (a, w) \/ W3 (a, w) -> wr lo' hi' (a, w)) ->
  ext (rd lo hi) (wr lo' hi') s0 s3.
Proof.
  intros X1 X2 X3 HR HW.
  eapply ext_trans; [eapply ext_weaken; [| |exact X1]|
    eapply ext_trans; [eapply ext_weaken; [| |exact X2]|eapply ext_weaken; [| |exact X3]]];
  intros a w Hh; (apply HR || apply HW); tauto.
Qed.

Lemma copy_forward_ok unal be ws d sr n s :
  ws = 4 \/ ws = 8 -> wf_mem (bytes s) -> object ws d n -> object ws sr n ->
  (d <= sr \/ sr + n <= d) ->
  exists s', copy_forward unal be ws d sr n s = Some s' /\
    cp (bytes s) (sr - d) d (d + n) (bytes s') /\
    ext (rd sr (sr + n)) (wr d (d + n)) s s'.
Proof.
  intros Hws W (Hd0 & Hn & Hd1) (Hs0 & _ & Hs1) Hc. unfold copy_forward.
  rewrite thr by auto. destruct (Z.leb_spec 16 n) as [Hbig|Hsmall].
  - rewrite wm_mod, neg_mod by auto.
    assert (Hp : 0 < ws) by lia.
    set (mis := (- d) mod ws).
    assert (Hm : 0 <= mis < ws) by (apply Z.mod_pos_bound; lia).
    assert (Had : (d + mis) mod ws = 0).
    { subst mis. rewrite Zplus_mod, Zmod_mod, <- Zplus_mod. replace (d + - d) with 0 by lia. apply Z.mod_0_l. lia. }
    destruct (small_fwd_bytes mis d sr s (bytes s) (sr - d) d) as (s1 & E1 & C1 & X1);
      try apply cp_init; try lia.
    rewrite E1.
    rewrite wm_mod by auto. rewrite wm_clear by (auto; lia).
    set (nw := n - mis - (n - mis) mod ws).
    pose proof (Z.mod_pos_bound (n - mis) ws Hp) as Hrem.
    assert (Hk : exists k, nw = ws * k /\ 0 < k).
    { exists ((n - mis) / ws). pose proof (Z.div_mod (n - mis) ws ltac:(lia)). subst nw.
      split; [lia|]. apply Z.div_str_pos. lia. }
    destruct Hk as (k & Hnw & Hk). rewrite Hnw.
    assert (Hrange : ws * k <= n - mis) by (subst nw; lia).
    assert (Hmid : exists s2,
      (if (sr + mis) mod ws =? 0
       then copy_forward_aligned_words be ws (d + mis) (sr + mis) (ws * k) s1
       else copy_forward_misaligned_words unal be ws (d + mis) (sr + mis) (ws * k) s1) = Some s2 /\
      cp (bytes s) (sr - d) d (d + mis + ws * k) (bytes s2) /\
      ext (rd (d + mis + (sr - d)) (d + mis + ws * k + (sr - d))) (wr (d + mis) (d + mis + ws * k)) s1 s2).
    { destruct (Z.eqb_spec ((sr + mis) mod ws) 0).
      - unfold copy_forward_aligned_words. apply words_fwd_ok with (k := k); auto; lia.
      - apply misaligned_fwd_ok; auto; lia. }
    destruct Hmid as (s2 & E2 & C2 & X2). rewrite E2.
    destruct (small_fwd_bytes (n - mis - ws * k) (d + mis + ws * k) (sr + mis + ws * k) s2 (bytes s) (sr - d) d)
      as (s3 & E3 & C3 & X3); try lia; auto.
    exists s3. split; [exact E3|].
    replace (d + mis + ws * k + (n - mis - ws * k)) with (d + n) in * by lia.
    split; [exact C3|].
    eapply ext_chain3; [exact X1|exact X2|exact X3| |].
    + intros a w [Hr|[Hr|Hr]]; (eapply rd_mono; [| |exact Hr]; lia).
    + intros a w [Hr|[Hr|Hr]]; (eapply wr_mono; [| |exact Hr]; lia).
  - destruct (small_fwd_bytes n d sr s (bytes s) (sr - d) d) as (s1 & E1 & C1 & X1);
      try apply cp_init; try lia.
    exists s1. split; [exact E1|split; [exact C1|]].
    replace (d + (sr - d)) with sr in X1 by lia.
    replace (d + n + (sr - d)) with (sr + n) in X1 by lia. exact X1.
Qed.

Lemma copy_backward_ok unal be ws d sr n s :
  ws = 4 \/ ws = 8 -> wf_mem (bytes s) -> object ws d n -> object ws sr n -> sr <= d ->
  exists s', copy_backward unal be ws d sr n s = Some s' /\
    cp (bytes s) (sr - d) d (d + n) (bytes s') /\
    ext (rd sr (sr + n)) (wr d (d + n)) s s'.
Proof.
  intros Hws W (Hd0 & Hn & Hd1) (Hs0 & _ & Hs1) Hc. unfold copy_backward.
  rewrite thr by auto. destruct (Z.leb_spec 16 n) as [Hbig|Hsmall].
  - rewrite wm_mod by auto.
    assert (Hp : 0 < ws) by lia.
    set (mis := (d + n) mod ws).
    assert (Hm : 0 <= mis < ws) by (apply Z.mod_pos_bound; lia).
    destruct (small_bwd_bytes mis (d + n) (sr + n) s (bytes s) (sr - d) (d + n)) as (s1 & E1 & C1 & X1);
      try apply cp_init; try lia.
    rewrite E1.
    rewrite wm_mod by auto. rewrite wm_clear by (auto; lia).
    set (nw := n - mis - (n - mis) mod ws).
    pose proof (Z.mod_pos_bound (n - mis) ws Hp) as Hrem.
    assert (Hk : exists k, nw = ws * k /\ 0 < k).
    { exists ((n - mis) / ws). pose proof (Z.div_mod (n - mis) ws ltac:(lia)). subst nw.
      split; [lia|]. apply Z.div_str_pos. lia. }
    destruct Hk as (k & Hnw & Hk). rewrite Hnw.
    assert (Hrange : ws * k <= n - mis) by (subst nw; lia).
    assert (Hmid : exists s2,
      (if (sr + n - mis) mod ws =? 0
       then copy_backward_aligned_words be ws (d + n - mis) (sr + n - mis) (ws * k) s1
       else copy_backward_misaligned_words unal be ws (d + n - mis) (sr + n - mis) (ws * k) s1) = Some s2 /\
      cp (bytes s) (sr - d) (d + n - mis - ws * k) (d + n) (bytes s2) /\
      ext (rd (d + n - mis - ws * k + (sr - d)) (d + n - mis + (sr - d))) (wr (d + n - mis - ws * k) (d + n - mis)) s1 s2).
    { destruct (Z.eqb_spec ((sr + n - mis) mod ws) 0) as [Hz|Hz].
      - unfold copy_backward_aligned_words. apply words_bwd_ok with (k := k); auto; lia.
      - assert (Hlt : sr + n - mis < 2 ^ (8 * ws)).
        { destruct (Z.eq_dec (sr + n - mis) (2 ^ (8 * ws))) as [He|]; [|lia].
          exfalso. apply Hz. rewrite He. destruct (pow_ws ws Hws) as (q & ->).
          rewrite Z.mul_comm. apply Z.mod_mul. lia. }
        apply misaligned_bwd_ok; auto; lia. }
    destruct Hmid as (s2 & E2 & C2 & X2). rewrite E2.
    destruct (small_bwd_bytes (n - mis - ws * k) (d + n - mis - ws * k) (sr + n - mis - ws * k) s2 (bytes s) (sr - d) (d + n))
      as (s3 & E3 & C3 & X3); try lia; auto.
    exists s3. split; [exact E3|].
    replace (d + n - mis - ws * k - (n - mis - ws * k)) with d in * by lia.
    split; [exact C3|].
    eapply ext_chain3; [exact X1|exact X2|exact X3| |].
    + intros a w [Hr|[Hr|Hr]]; (eapply rd_mono; [| |exact Hr]; lia).
    + intros a w [Hr|[Hr|Hr]]; (eapply wr_mono; [| |exact Hr]; lia).
  - destruct (small_bwd_bytes n (d + n) (sr + n) s (bytes s) (sr - d) (d + n)) as (s1 & E1 & C1 & X1);
      try apply cp_init; try lia.
    exists s1. split; [exact E1|].
    replace (d + n - n) with d in * by lia. split; [exact C1|].
    replace (d + (sr - d)) with sr in X1 by lia.
    replace (d + n + (sr - d)) with (sr + n) in X1 by lia. exact X1.
Qed.
