(** Proofs about LibcModel. *)
From Verif Require Import Machine MachineFacts LayoutModel LayoutSpec LayoutProofs LibcModel LibcSpec.

Lemma wsz_pos a : 0 < wsz a. Proof. destruct a; cbn; lia. Qed.
Lemma word_wsz a : Z.of_nat (word a) = wsz a. Proof. destruct a; reflexivity. Qed.
Lemma mod_word a : modulus (wsz a) = 2 ^ (8 * Z.of_nat (word a)). Proof. destruct a; reflexivity. Qed.

Lemma own_cons i j l tr : own i ((j, l) :: tr) = own i tr ++ (if Nat.eqb j i && own_label l then [l] else []).
Proof.
  unfold own. cbn [filter fst snd]. destruct (Nat.eqb j i && own_label l); cbn [map rev]; [reflexivity|now rewrite app_nil_r].
Qed.

Lemma pack_length q : length (pack q) = (length (q_args q) + 2)%nat.
Proof. cbn. lia. Qed.
Lemma pack_size_eq a q : pack_size a q = Z.of_nat (length (pack q)) * wsz a.
Proof. rewrite pack_length. unfold pack_size. lia. Qed.

Lemma stores_snoc w vs : forall p v, stores w p (vs ++ [v]) = stores w p vs ++ [LStore (p + Z.of_nat (length vs) * w) v].
Proof.
  induction vs as [|x vs IH]; intros p v; cbn [app stores length].
  - do 3 f_equal. lia.
  - rewrite IH. do 4 f_equal. lia.
Qed.
Lemma firstn_snoc {A} (l : list A) k v : nth_error l k = Some v -> firstn (S k) l = firstn k l ++ [v].
Proof.
  revert k. induction l as [|x l IH]; intros [|k] H; cbn in *; try discriminate; [congruence|]. rewrite (IH k H). reflexivity.
Qed.
Lemma firstn_len {A} (l : list A) k v : nth_error l k = Some v -> length (firstn k l) = k.
Proof. intros H. apply firstn_length_le. assert (k < length l)%nat by (apply nth_error_Some; congruence). lia. Qed.

(** ** Invariant *)
Section Inv.
Variable a : arch.

Definition setup (q : creq) (p : Z) : list llabel :=
  [LCreate q; LAttrInit 0; LSetStack (q_stack q) 0; LSetGuard (q_guard q) 0; LMalloc (pack_size a q) p].
Definition begun (q : creq) (p : Z) (t : tpc) : option (list llabel) :=
  let n := Z.of_nat (length (q_args q)) in
  let l0 := LLoad (slot_at a p 0) in let l1 := LLoad (slot_at a p 1) in let c := LCall (q_fn q) (slot_at a p 2) n in
  match t with
  | TNone => None
  | TStart => Some []
  | TCount k => if k =? n then Some [l0] else None
  | TFn k f => if (k =? n) && (f =? q_fn q) then Some [l0; l1] else None
  | TRun => Some [l0; l1; c]
  | TRet v => Some [l0; l1; c; LRet v]
  | TFreed v => Some [l0; l1; c; LRet v; LFree p]
  | TExit v => Some [l0; l1; c; LRet v; LFree p; LReturn v]
  end.

(** How much of the pack is still as create wrote it. *)
Definition intact (r : crec) : nat :=
  match k_pc r with
  | KPack k => k
  | KOk => match k_t r with TStart | TCount _ | TFn _ _ | TNone => length (pack (k_req r)) | _ => 2 end
  | _ => 0
  end.

Definition story_ok (r : crec) (ls : list llabel) : Prop :=
  let q := k_req r in let p := k_arg r in
  match k_pc r with
  | KInit => ls = [LCreate q] /\ k_t r = TNone /\ k_live r = false
  | KStack => ls = [LCreate q; LAttrInit 0] /\ k_t r = TNone /\ k_live r = false
  | KGuard => ls = [LCreate q; LAttrInit 0; LSetStack (q_stack q) 0] /\ k_t r = TNone /\ k_live r = false
  | KMalloc => ls = [LCreate q; LAttrInit 0; LSetStack (q_stack q) 0; LSetGuard (q_guard q) 0] /\ k_t r = TNone /\ k_live r = false
  | KPack k => (k <= length (pack q))%nat /\ ls = setup q p ++ stores (wsz a) p (firstn k (pack q)) /\ k_t r = TNone /\ k_live r = true
  | KOk => exists t, begun q p (k_t r) = Some t /\ ls = setup q p ++ stores (wsz a) p (pack q) ++ LSpawn p 0 :: t /\
                     k_live r = match k_t r with TFreed _ | TExit _ => false | _ => true end
  | KErr e => k_t r = TNone /\
      ((e <> 0 /\ ls = [LCreate q; LAttrInit e]) \/ (e <> 0 /\ ls = [LCreate q; LAttrInit 0; LSetStack (q_stack q) e]) \/
       (e <> 0 /\ ls = [LCreate q; LAttrInit 0; LSetStack (q_stack q) 0; LSetGuard (q_guard q) e]) \/
       (e = 12 /\ ls = setup q 0) \/ (e <> 0 /\ ls = setup q p ++ stores (wsz a) p (pack q) ++ [LSpawn p e] /\ k_live r = true))
  end.

Definition rec_ok (s : lst) (r : crec) (ls : list llabel) : Prop :=
  wf_req a (k_req r) /\ story_ok r ls /\
  (k_live r = true -> forall k v, (k < intact r)%nat -> nth_error (pack (k_req r)) k = Some v ->
     load_le (lmem s) (slot_at a (k_arg r) k) (word a) = v).

Definition inv (tr : list (nat * llabel)) (s : lst) : Prop :=
  (forall i, match rec s i with Some r => rec_ok s r (own i tr) | None => own i tr = [] end) /\
  (forall i j r r', i <> j -> rec s i = Some r -> rec s j = Some r' -> k_live r = true -> k_live r' = true ->
     k_arg r + pack_size a (k_req r) <= k_arg r' \/ k_arg r' + pack_size a (k_req r') <= k_arg r).

Lemma intact_le r ls : story_ok r ls -> (intact r <= length (pack (k_req r)))%nat.
Proof.
  unfold story_ok, intact. pose proof (pack_length (k_req r)). destruct (k_pc r); intros S; try (cbn in *; lia).
  destruct (k_t r); lia.
Qed.

(** Changing memory outside the intact part of a live pack. *)
Lemma rec_ok_mem s m r ls : rec_ok s r ls ->
  (k_live r = true -> forall x, k_arg r <= x < slot_at a (k_arg r) (intact r) -> m x = lmem s x) -> rec_ok (setmem s m) r ls.
Proof.
  intros (W & H1 & H2) Hm. split; [exact W|]. split; [exact H1|]. intros L k v Hk Hv. cbn [setmem lmem].
  rewrite <- (H2 L k v Hk Hv). apply load_le_ext. intros i Hi. apply Hm; [exact L|].
  rewrite word_wsz in Hi. unfold slot_at in *. pose proof (wsz_pos a). nia.
Qed.

Lemma pack_word q k v : wf_req a q -> nth_error (pack q) k = Some v -> 0 <= v < modulus (wsz a).
Proof.
  intros (F & A & L) H. pose proof (wsz_pos a).
  assert (0 < modulus (wsz a)) by (destruct a; reflexivity).
  assert (modulus (wsz a) / 2 <= modulus (wsz a)) by (apply Z.div_le_upper_bound; lia).
  destruct k as [|[|k]]; cbn in H.
  - injection H as <-. nia.
  - injection H as <-. exact F.
  - apply A. eapply nth_error_In; eauto.
Qed.

(** The generic step: only record [i] changes, by adding label [l]. *)
Lemma inv_set tr s i r r' l :
  inv tr s -> rec s i = Some r -> k_req r' = k_req r ->
  (k_live r' = true -> k_live r = true /\ k_arg r' = k_arg r) ->
  (rec_ok s r (own i tr) -> rec_ok s r' (own i tr ++ (if own_label l then [l] else []))) ->
  inv ((i, l) :: tr) (setrec s i r').
Proof.
  intros [I1 I2] E Hq Hl Hok. split.
  - intros j. cbn [setrec rec]. rewrite own_cons. rewrite (Nat.eqb_sym i j). destruct (Nat.eqb_spec j i) as [->|N]; cbn [andb].
    + specialize (I1 i). rewrite E in I1. exact (Hok I1).
    + rewrite app_nil_r. specialize (I1 j). destruct (rec s j) as [rj|]; exact I1.
  - intros x y rx ry N. cbn [setrec rec].
    destruct (Nat.eqb_spec x i) as [Ex|Nx], (Nat.eqb_spec y i) as [Ey|Ny]; try congruence; intros Ex' Ey' Lx Ly.
    + injection Ex' as <-. destruct (Hl Lx) as [L A]. rewrite Hq, A. subst x. exact (I2 i y r ry N E Ey' L Ly).
    + injection Ey' as <-. destruct (Hl Ly) as [L A]. rewrite Hq, A. subst y. exact (I2 x i rx r N Ex' E Lx L).
    + exact (I2 x y rx ry N Ex' Ey' Lx Ly).
Qed.

(** Memory changes that respect the intact parts. *)
Lemma inv_mem tr s m : inv tr s ->
  (forall j r, rec s j = Some r -> k_live r = true -> forall x, k_arg r <= x < slot_at a (k_arg r) (intact r) -> m x = lmem s x) ->
  inv tr (setmem s m).
Proof.
  intros [I1 I2] H. split; [|exact I2]. intros j. cbn [setmem rec]. specialize (I1 j).
  destruct (rec s j) as [r|] eqn:E; [|exact I1]. apply rec_ok_mem; [exact I1|]. intros L. exact (H j r E L).
Qed.

Ltac story H := destruct H as (W & S & M); split; [exact W|]; unfold story_ok in S; unfold story_ok, intact in *; cbn [at_pc at_t k_pc k_req k_arg k_live k_t k_attr k_join] in *;
  repeat match goal with E : k_pc ?r = _ |- _ => rewrite E in * | E : k_t ?r = _ |- _ => rewrite E in * end.

Lemma t_ok r ls : story_ok r ls -> k_t r <> TNone -> k_pc r = KOk.
Proof. unfold story_ok. destruct (k_pc r); intros H N; try reflexivity; destruct H; tauto. Qed.

Lemma lstep_inv tr s i l s' : inv tr s -> lstep a s i l s' -> inv ((i, l) :: tr) s'.
Proof.
  intros I St. pose proof I as [I1 I2]. pose proof (wsz_pos a) as Wp. pose proof (word_wsz a) as Wd.
  assert (IR : forall r, rec s i = Some r -> rec_ok s r (own i tr)).
  { intros r E. specialize (I1 i). rewrite E in I1. exact I1. }
  assert (TK : forall r, rec s i = Some r -> k_t r <> TNone -> k_pc r = KOk).
  { intros r E. destruct (IR r E) as (_ & S & _). exact (t_ok _ _ S). }
  inversion St; subst; clear St.
  - (* create *) split.
    + intros j. cbn [setrec rec]. rewrite own_cons, (Nat.eqb_sym i j). destruct (Nat.eqb_spec j i) as [->|N]; cbn [andb own_label].
      * specialize (I1 i). rewrite H in I1. rewrite I1. split; [exact H0|]. split; [cbn; auto|]. cbn. discriminate.
      * rewrite app_nil_r. apply I1.
    + intros x y rx ry N. cbn [setrec rec]. destruct (Nat.eqb_spec x i), (Nat.eqb_spec y i); intros Ex Ey Lx Ly; subst; try congruence;
        try (injection Ex as <-; discriminate); try (injection Ey as <-; discriminate).
      exact (I2 _ _ _ _ N Ex Ey Lx Ly).
  - (* init *) apply inv_set with r; auto.
    + destruct (err =? 0); reflexivity.
    + destruct (err =? 0); cbn; auto.
    + intros H1. cbn [own_label]. destruct (Z.eqb_spec err 0) as [->|N]; story H1; destruct S as (-> & T & L);
      (split; [|rewrite L; discriminate]); rewrite ?T, ?L; cbn; auto.
  - (* stack *) apply inv_set with r; auto.
    intros H1. cbn [own_label]. destruct (Z.eqb_spec err 0) as [->|N]; story H1; destruct S as (-> & T & L);
      (split; [|rewrite L; discriminate]); rewrite ?T, ?L; cbn; auto.
  - (* guard *) apply inv_set with r; auto.
    intros H1. cbn [own_label]. destruct (Z.eqb_spec err 0) as [->|N]; story H1; destruct S as (-> & T & L);
      (split; [|rewrite L; discriminate]); rewrite ?T, ?L; cbn; auto.
    split; [reflexivity|]. right; right; left; auto.
  - (* malloc null *) apply inv_set with r; auto.
    intros H1. story H1. destruct S as (-> & T & L). split; [|rewrite L; discriminate].
    rewrite T. split; [reflexivity|]. right; right; right; left. split; reflexivity.
  - (* malloc *) split.
    + intros j. cbn [setrec rec]. rewrite own_cons, (Nat.eqb_sym i j). destruct (Nat.eqb_spec j i) as [->|N]; cbn [andb own_label].
      * pose proof (IR _ H) as H4. story H4. destruct S as (-> & T & L).
        split; [|intros; lia]. rewrite T. split; [lia|]. split; [reflexivity|auto].
      * rewrite app_nil_r. apply I1.
    + intros x y rx ry N. cbn [setrec rec]. destruct (Nat.eqb_spec x i), (Nat.eqb_spec y i); intros Ex Ey Lx Ly; subst; try congruence.
      * injection Ex as <-. cbn [k_arg k_req]. eapply H3; eauto.
      * injection Ey as <-. cbn [k_arg k_req]. destruct (H3 _ _ Ex Lx); [right|left]; assumption.
      * exact (I2 _ _ _ _ N Ex Ey Lx Ly).
  - (* store *)
    assert (Hk : (k < length (pack (k_req r)))%nat) by (apply nth_error_Some; congruence).
    pose proof (IR _ H) as IRr. destruct IRr as (Wr & Sr & Mr). pose proof Sr as Sr'. unfold story_ok in Sr'. rewrite H0 in Sr'. destruct Sr' as (_ & _ & _ & Lr).
    set (m := store_le (lmem s) (slot_at a (k_arg r) k) (word a) v).
    assert (J : inv tr (setmem s m)).
    { apply inv_mem; [exact I|]. intros j rj Ej L x Hx. unfold m. apply store_apart. rewrite Wd. unfold inside.
      destruct (Nat.eq_dec j i) as [->|N].
      - rewrite H in Ej. injection Ej as <-. unfold intact in Hx. rewrite H0 in Hx. unfold slot_at in *. lia.
      - destruct (I2 i j r rj) as [A|A]; auto; specialize (I1 j); rewrite Ej in I1; destruct I1 as (_ & Sj & _); pose proof (intact_le _ _ Sj);
          rewrite !pack_size_eq in A; unfold slot_at in *; nia. }
    apply inv_set with r; auto.
    intros (W & S & M). split; [exact W|]. unfold story_ok in S |- *. unfold intact in *. cbn [at_pc k_pc k_req k_arg k_live k_t own_label setmem lmem] in *. rewrite H0 in *.
    destruct S as (S1 & S2 & S3 & S4). split.
    + split; [lia|]. split; [|auto]. rewrite S2, <- app_assoc, (firstn_snoc _ _ _ H1), stores_snoc, (firstn_len _ _ _ H1). reflexivity.
    + intros _ k' v' Hk' Hv'. destruct (Nat.eq_dec k' k) as [->|N].
      * rewrite H1 in Hv'. injection Hv' as <-. unfold m. rewrite load_store_same, <- mod_word. apply Z.mod_small. eapply pack_word; eauto.
      * apply M; [exact Lr|lia|exact Hv'].
  - (* spawn *)
    apply inv_set with r; auto.
    + destruct (err =? 0); reflexivity.
    + destruct (err =? 0); cbn; auto.
    + intros H2. cbn [own_label]. apply nth_error_None in H1.
      destruct (Z.eqb_spec err 0) as [->|N]; story H2; destruct S as (S1 & S2 & S3 & S4); assert (k = length (pack (k_req r))) as -> by lia;
        rewrite firstn_all in S2.
      * split; [|intros; apply M; auto]. exists []. split; [reflexivity|]. split; [rewrite S2, <- app_assoc; reflexivity|exact S4].
      * split; [|intros; lia]. split; [exact S3|]. right; right; right; right. split; [exact N|]. split; [rewrite S2, <- app_assoc; reflexivity|exact S4].
  - (* count *)
    pose proof (TK _ H ltac:(congruence)) as Pc. apply inv_set with r; auto.
    intros H1. story H1. destruct S as (t & B & -> & L). cbn [own_label]. cbn [begun] in B. injection B as <-.
    assert (E : load_le (lmem s) (slot_at a (k_arg r) 0) (word a) = Z.of_nat (length (q_args (k_req r)))).
    { apply M; [exact L|rewrite pack_length; lia|reflexivity]. }
    split; [|intros; apply M; auto]. cbn [begun]. rewrite E, Z.eqb_refl. eexists. split; [reflexivity|]. split; [|exact L].
    rewrite <- !app_assoc. reflexivity.
  - (* fn *)
    pose proof (TK _ H ltac:(congruence)) as Pc. apply inv_set with r; auto.
    intros H1. story H1. destruct S as (t & B & -> & L). cbn [own_label]. cbn [begun] in B.
    destruct (n =? Z.of_nat (length (q_args (k_req r)))) eqn:En; [|discriminate]. injection B as <-.
    assert (E : load_le (lmem s) (slot_at a (k_arg r) 1) (word a) = q_fn (k_req r)).
    { apply M; [exact L|rewrite pack_length; lia|reflexivity]. }
    split; [|intros; apply M; auto]. cbn [begun]. rewrite E, Z.eqb_refl, En. eexists. split; [reflexivity|]. split; [|exact L].
    rewrite <- !app_assoc. reflexivity.
  - (* call *)
    pose proof (TK _ H ltac:(congruence)) as Pc. apply inv_set with r; auto.
    intros H1. story H1. destruct S as (t & B & -> & L). cbn [own_label]. cbn [begun] in B.
    destruct ((n =? _) && _) eqn:En; [|discriminate]. injection B as <-. apply andb_true_iff in En. destruct En as [En Ef].
    apply Z.eqb_eq in En, Ef. subst n f.
    split; [|intros; apply M; auto; rewrite pack_length; lia]. cbn [begun]. eexists. split; [reflexivity|]. split; [|exact L].
    rewrite <- !app_assoc. cbn [app]. do 8 f_equal. lia.
  - (* ret *)
    pose proof (TK _ H ltac:(congruence)) as Pc. apply inv_set with r; auto.
    intros H1. story H1. destruct S as (t & B & -> & L). cbn [own_label]. injection B as <-.
    split; [|intros; apply M; auto]. cbn [begun]. eexists. split; [reflexivity|]. split; [|exact L]. rewrite <- !app_assoc. reflexivity.
  - (* free *)
    pose proof (TK _ H ltac:(congruence)) as Pc. apply inv_set with r; auto; [cbn; discriminate|].
    intros H1. story H1. destruct S as (t & B & -> & L). cbn [own_label]. injection B as <-.
    split; [|intros; discriminate]. cbn [begun]. eexists. split; [reflexivity|]. split; [|reflexivity]. rewrite <- !app_assoc. reflexivity.
  - (* return *)
    pose proof (TK _ H ltac:(congruence)) as Pc. apply inv_set with r; auto.
    intros H1. story H1. destruct S as (t & B & -> & L). cbn [own_label]. injection B as <-.
    split; [|rewrite L; intros; discriminate]. cbn [begun]. eexists. split; [reflexivity|]. split; [|exact L]. rewrite <- !app_assoc. reflexivity.
  - (* join *)
    apply inv_set with r; auto. cbn [own_label]. rewrite app_nil_r. intros H2. exact H2.
  - (* detach *)
    apply inv_set with r; auto. cbn [own_label]. rewrite app_nil_r. intros H2. exact H2.
  - (* user *)
    assert (J : inv tr (setmem s (upd (lmem s) x b))).
    { apply inv_mem; [exact I|]. intros j r Ej L y Hy. unfold upd. destruct (Z.eqb_spec y x) as [->|N]; [|reflexivity]. exfalso.
      pose proof (I1 j) as Ij. rewrite Ej in Ij. destruct Ij as (_ & Sj & _). pose proof (intact_le _ _ Sj) as IL.
      destruct (H j r Ej L) as [T Hx].
      - rewrite pack_size_eq. unfold slot_at in Hy. nia.
      - unfold intact in Hy. rewrite (t_ok _ _ Sj) in Hy by congruence. rewrite T in Hy. lia. }
    destruct J as [J1 J2]. split; [|exact J2]. intros j. specialize (J1 j). rewrite own_cons. cbn [own_label]. rewrite andb_false_r, app_nil_r. exact J1.
Qed.

Lemma lrun_inv m0 tr s : lrun a m0 tr s -> inv tr s.
Proof.
  induction 1; [|eapply lstep_inv; eauto]. split; [intros i; reflexivity|]. intros i j r r' _ E. discriminate.
Qed.
End Inv.

(** ** Exit functions *)
Lemma same_list_spec l k : same_list l k = true <-> l = k.
Proof.
  destruct l as [x|], k as [y|]; cbn; try (split; [discriminate|congruence]); [|tauto].
  rewrite Nat.eqb_eq. split; congruence.
Qed.
Lemma setl_spec f l v k : setl f l v k = if same_list k l then v else f k.
Proof. destruct k, l; reflexivity. Qed.

Definition einv (tr : list elabel) (s : est) : Prop :=
  (forall l x, In x (regs_of s l) -> boxes s x <> None) /\
  (forall l, NoDup (regs_of s l)) /\
  (forall l k x, In x (regs_of s l) -> In x (regs_of s k) -> l = k) /\
  (forall l, exists fs, waiting l tr = Some fs /\ map (boxes s) (regs_of s l) = map Some fs).

Lemma setbox_other b x v xs : ~ In x xs -> map (setbox b x v) xs = map b xs.
Proof.
  intros H. apply map_ext_in. intros y Hy. unfold setbox. destruct (Z.eqb_spec y x); [subst; contradiction|reflexivity].
Qed.

Lemma erun_einv tr s : erun tr s -> einv tr s.
Proof.
  induction 1 as [|tr s l s' R (I1 & I2 & I3 & I4) St].
  - repeat split; cbn; try tauto; try (intros; constructor). intros l. exists []. auto.
  - inversion St; subst; clear St.
    + assert (F : forall l, ~ In x (regs_of s l)) by (intros l' Hx; apply (I1 l' x Hx); exact H).
      repeat split.
      * intros k y. cbn. rewrite setl_spec. unfold setbox. destruct (Z.eqb_spec y x); [discriminate|].
        destruct (same_list k l0) eqn:E; [intros [Hy|Hy]; [congruence|eapply I1; eauto]|apply I1].
      * intros k. cbn. rewrite setl_spec. destruct (same_list k l0); [constructor; [apply F|apply I2]|apply I2].
      * intros k k' y. cbn. rewrite !setl_spec. 
        destruct (same_list k l0) eqn:E; destruct (same_list k' l0) eqn:E'; try apply same_list_spec in E; try apply same_list_spec in E'; subst; cbn [In]; auto.
        -- intros [<-|Hy] Hz; [destruct (F _ Hz)|eauto].
        -- intros Hz [<-|Hy]; [destruct (F _ Hz)|eauto].
        -- eauto.
      * intros k. cbn [regs_of boxes waiting]. rewrite setl_spec. destruct (I4 k) as (fs & W & M). rewrite W.
        destruct (same_list k l0) eqn:E; cbn [option_map].
        -- apply same_list_spec in E. subst. exists (f :: fs). split; [reflexivity|]. cbn [map]. rewrite setbox_other by apply F. rewrite M.
           unfold setbox. rewrite Z.eqb_refl. reflexivity.
        -- exists fs. split; [reflexivity|]. rewrite setbox_other by apply F. exact M.
    + pose proof (I2 l0) as N. rewrite H in N. apply NoDup_cons_iff in N. destruct N as [N1 N2].
      assert (F : forall k, same_list k l0 = false -> ~ In x (regs_of s k)).
      { intros k E Hx. rewrite (I3 k l0 x Hx ltac:(rewrite H; left; reflexivity)) in E.
        assert (same_list l0 l0 = true) by (apply same_list_spec; reflexivity). congruence. }
      repeat split.
      * intros k y. cbn. rewrite setl_spec. unfold setbox. destruct (same_list k l0) eqn:E.
        -- intros Hy. destruct (Z.eqb_spec y x) as [->|]; [contradiction|]. apply same_list_spec in E. subst. apply (I1 l0 y). rewrite H. right. exact Hy.
        -- intros Hy. destruct (Z.eqb_spec y x) as [->|]; [destruct (F k E Hy)|]. eapply I1; eauto.
      * intros k. cbn. rewrite setl_spec. destruct (same_list k l0); [exact N2|apply I2].
      * intros k k' y. cbn. rewrite !setl_spec. intros Hy Hz. apply (I3 k k' y).
        -- destruct (same_list k l0) eqn:E; [apply same_list_spec in E; subst; rewrite H; right|]; exact Hy.
        -- destruct (same_list k' l0) eqn:E; [apply same_list_spec in E; subst; rewrite H; right|]; exact Hz.
      * intros k. cbn [regs_of boxes waiting]. rewrite setl_spec. destruct (I4 k) as (fs & W & M). rewrite W.
        destruct (same_list k l0) eqn:E.
        -- apply same_list_spec in E. subst. rewrite H in M. destruct fs as [|g fs]; [discriminate|]. cbn [map] in M.
           injection M as M1 M2. rewrite H0 in M1. injection M1 as ->. rewrite Nat.eqb_refl. exists fs. split; [reflexivity|].
           rewrite setbox_other by exact N1. exact M2.
        -- exists fs. split; [reflexivity|]. rewrite setbox_other by (apply F; exact E). exact M.
    + destruct (I1 l0 x); [rewrite H; left; reflexivity|exact H0].
Qed.

Lemma trap_libc_spec d k : forall n,
  (forall m, (n <= m < n + k)%nat -> d m = false) -> trap_libc d n k = ((n + k)%nat, false).
Proof.
  induction k as [|k IH]; intros n H; cbn [trap_libc]; [f_equal; lia|].
  rewrite H by lia. rewrite IH; [f_equal; lia|]. intros m Hm. apply H. lia.
Qed.
