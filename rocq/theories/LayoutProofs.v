(** Proofs about thread memory: layout, initialisation, `create`. *)
From Coq Require Import ZifyBool ZifyNat.
From Verif Require Import Machine MachineFacts LayoutModel LayoutSpec LayoutFacts.

(** ** Loads after stores *)
Lemma load_store_same n : forall m a v, load_le (store_le m a n v) a n = v mod 2 ^ (8 * Z.of_nat n).
Proof.
  induction n as [|n IH]; intros m a v.
  - cbn. rewrite Z.mod_1_r. reflexivity.
  - cbn [load_le store_le]. unfold upd at 1. rewrite Z.eqb_refl.
    rewrite (load_le_ext _ (store_le m (a + 1) n (v / 256))).
    + rewrite IH. replace (8 * Z.of_nat (S n)) with (8 + 8 * Z.of_nat n) by lia.
      rewrite Z.pow_add_r by lia. change (2 ^ 8) with 256.
      assert (0 < 2 ^ (8 * Z.of_nat n)) by (apply Z.pow_pos_nonneg; lia).
      rewrite Z.rem_mul_r by lia. reflexivity.
    + intros i Hi. unfold upd. destruct (Z.eqb_spec (a + 1 + i) a); [lia|reflexivity].
Qed.

Lemma load_store_apart m a n v b k : apart a (Z.of_nat n) b (Z.of_nat k) ->
  load_le (store_le m a n v) b k = load_le m b k.
Proof.
  intros H. apply load_le_ext. intros i Hi. rewrite store_le_spec.
  unfold apart in H.
  destruct (Z.leb_spec a (b + i)), (Z.ltb_spec (b + i) (a + Z.of_nat n)); cbn; try reflexivity; lia.
Qed.

Lemma store_apart m a n v x : ~ inside a (Z.of_nat n) x -> store_le m a n v x = m x.
Proof.
  unfold inside. intros H. rewrite store_le_spec.
  destruct (Z.leb_spec a x), (Z.ltb_spec x (a + Z.of_nat n)); cbn; try reflexivity; lia.
Qed.

Lemma copy_in m d s n x : inside d n x -> copy_bytes m d s n x = m (s + (x - d)).
Proof.
  unfold inside, copy_bytes. intros.
  destruct (Z.leb_spec d x), (Z.ltb_spec x (d + n)); cbn; try reflexivity; lia.
Qed.
Lemma copy_out m d s n x : ~ inside d n x -> copy_bytes m d s n x = m x.
Proof.
  unfold inside, copy_bytes. intros.
  destruct (Z.leb_spec d x), (Z.ltb_spec x (d + n)); cbn; try reflexivity; lia.
Qed.
Lemma zero_in m d n x : inside d n x -> zero_bytes m d n x = 0.
Proof.
  unfold inside, zero_bytes. intros.
  destruct (Z.leb_spec d x), (Z.ltb_spec x (d + n)); cbn; try reflexivity; lia.
Qed.
Lemma zero_out m d n x : ~ inside d n x -> zero_bytes m d n x = m x.
Proof.
  unfold inside, zero_bytes. intros.
  destruct (Z.leb_spec d x), (Z.ltb_spec x (d + n)); cbn; try reflexivity; lia.
Qed.

(** ** Writing a list of fields *)
Definition fld := (Z * nat * Z)%type.
Definition f_addr (f : fld) := fst (fst f).
Definition f_len (f : fld) := Z.of_nat (snd (fst f)).
Fixpoint store_fields (m : mem) (fs : list fld) : mem :=
  match fs with
  | [] => m
  | (p, n, v) :: rest => store_fields (store_le m p n v) rest
  end.

Lemma store_fields_apart fs : forall m b k,
  Forall (fun f => apart (f_addr f) (f_len f) b (Z.of_nat k)) fs ->
  load_le (store_fields m fs) b k = load_le m b k.
Proof.
  induction fs as [|[[p n] v] fs IH]; intros m b k H; [reflexivity|].
  apply Forall_cons_iff in H. destruct H as [H1 H2]. cbn [store_fields].
  rewrite IH by auto. apply load_store_apart. exact H1.
Qed.

Lemma store_fields_out fs : forall m x,
  Forall (fun f => ~ inside (f_addr f) (f_len f) x) fs -> store_fields m fs x = m x.
Proof.
  induction fs as [|[[p n] v] fs IH]; intros m x H; [reflexivity|].
  apply Forall_cons_iff in H. destruct H as [H1 H2]. cbn [store_fields].
  rewrite IH by auto. apply store_apart. exact H1.
Qed.

Definition apart_f (f g : fld) : Prop := apart (f_addr f) (f_len f) (f_addr g) (f_len g).
Lemma apart_sym a n b k : apart a n b k -> apart b k a n.
Proof. unfold apart. lia. Qed.

Lemma store_fields_get fs : forall m p n v,
  ForallOrdPairs apart_f fs -> In (p, n, v) fs ->
  load_le (store_fields m fs) p n = v mod 2 ^ (8 * Z.of_nat n).
Proof.
  induction fs as [|[[q k] u] fs IH]; intros m p n v H Hin; [destruct Hin|].
  inversion H as [|f l H1 H2]; subst. cbn [store_fields].
  destruct Hin as [E | Hin].
  - inversion E; subst. rewrite store_fields_apart.
    + apply load_store_same.
    + eapply Forall_impl; [|exact H1]. intros f Hf. apply apart_sym. exact Hf.
  - apply IH; auto.
Qed.

Lemma store_words_spec w vs : forall m p x, (0 < w)%nat ->
  ~ inside p (Z.of_nat (length vs) * Z.of_nat w) x -> store_words m p w vs x = m x.
Proof.
  induction vs as [|v vs IH]; intros m p x Hw Hx; [reflexivity|].
  cbn [store_words]. unfold inside in *. cbn [length] in Hx. rewrite IH; [|lia|unfold inside; nia].
  apply store_apart. unfold inside. nia.
Qed.
Lemma store_words_get w vs : forall m p i v, (0 < w)%nat ->
  nth_error vs i = Some v ->
  load_le (store_words m p w vs) (p + Z.of_nat i * Z.of_nat w) w = v mod 2 ^ (8 * Z.of_nat w).
Proof.
  induction vs as [|u vs IH]; intros m p i v Hw Hi; [destruct i; discriminate|].
  cbn [store_words]. destruct i as [|i]; cbn [nth_error] in Hi.
  - inversion Hi; subst. rewrite Z.mul_0_l, Z.add_0_r.
    rewrite (load_le_ext _ (store_le m p w v)); [apply load_store_same|].
    intros j Hj. apply store_words_spec; [auto|]. unfold inside. lia.
  - replace (p + Z.of_nat (S i) * Z.of_nat w) with (p + Z.of_nat w + Z.of_nat i * Z.of_nat w) by lia.
    apply IH; auto.
Qed.

(** ** The record *)
Definition abi_flds (a : arch) (td : td_layout) (md canary : Z) : list fld :=
  let w := word a in
  (abi_at a td md Canary, w, canary) :: (abi_at a td md Dtv, w, 0) ::
  (if tls_below a then [(abi_at a td md This, w, abi_at a td md ThreadPointee)] else []).
Definition thread_flds (a : arch) (td : td_layout) (t sa ss gs ms : Z) : list fld :=
  let w := word a in
  [(t + o_tid td, 4%nat, 0); (t + o_detached td, 1%nat, 0); (t + o_stack_addr td, w, sa);
   (t + o_stack_size td, w, ss); (t + o_guard_size td, w, gs); (t + o_map_size td, w, ms);
   (t + o_retval td, w, 0)] ++ match o_errno td with Some o => [(t + o, 4%nat, 0)] | None => [] end.
Definition flds a td md canary sa ss gs ms :=
  abi_flds a td md canary ++ thread_flds a td (thread_at a td md) sa ss gs ms.

Lemma write_metadata_flds a td m md canary sa ss gs ms :
  write_metadata a td m md (abi_at a td md ThreadPointee) canary sa ss gs ms =
  store_fields m (flds a td md canary sa ss gs ms).
Proof. unfold write_metadata, write_thread_data, flds, abi_flds, thread_flds. destruct (tls_below a), (o_errno td); reflexivity. Qed.

Ltac fop := repeat match goal with
  | |- ForallOrdPairs _ [] => apply FOP_nil
  | |- ForallOrdPairs _ (_ :: _) => apply FOP_cons
  | |- Forall _ [] => apply Forall_nil
  | |- Forall _ (_ :: _) => apply Forall_cons
  end.

Section record.
  Variables (a : arch) (td : td_layout) (Htd : wf_td a td).
  Variables (md canary sa ss gs ms : Z).
  Let t := thread_at a td md.

  Lemma abi_in : Forall (fun f => md + meta_off a td FAbi <= f_addr f /\
     f_addr f + f_len f <= md + meta_off a td FAbi + abi_size a) (abi_flds a td md canary).
  Proof.
    rewrite abi_size_val. unfold abi_flds, abi_at.
    destruct a; cbn [tls_below]; repeat apply Forall_cons; try apply Forall_nil;
      unfold f_addr, f_len; cbn [fst snd word]; cbv [abi_off]; cbn; lia.
  Qed.
  Lemma thread_in : Forall (fun f => t <= f_addr f /\ f_addr f + f_len f <= t + td_size td)
    (thread_flds a td t sa ss gs ms).
  Proof.
    pose proof (wf_td_in _ _ Htd) as H. unfold td_fields in H.
    repeat (apply Forall_cons_iff in H; destruct H as [? H]). cbn [fst snd] in *.
    unfold thread_flds, f_addr, f_len. apply Forall_app. split.
    - repeat apply Forall_cons; try apply Forall_nil; cbn [fst snd]; rewrite ?wsz_word; lia.
    - pose proof (wf_td_errno _ _ Htd) as HE. destruct (o_errno td) as [o|]; [|constructor].
      destruct (HE o eq_refl) as (E1 & E2 & _). constructor; [cbn [fst snd]; lia|constructor].
  Qed.
  Lemma parts_in : md <= t /\ t + td_size td <= md + meta_size a td /\
    md <= md + meta_off a td FAbi /\ md + meta_off a td FAbi + abi_size a <= md + meta_size a td /\
    apart (md + meta_off a td FAbi) (abi_size a) t (td_size td).
  Proof.
    pose proof (wf_td_pos _ _ Htd). unfold t, thread_at, apart.
    rewrite off_thread_val, off_abi_val, meta_size_val, abi_size_val by auto.
    pose proof (align_to_bounds (td_size td) (abi_align a)). rewrite abi_align_eq in *.
    destruct a; cbn [tls_below]; lia.
  Qed.
  Lemma flds_in : Forall (fun f => md <= f_addr f /\ f_addr f + f_len f <= md + meta_size a td)
    (flds a td md canary sa ss gs ms).
  Proof.
    pose proof parts_in as P. unfold flds. apply Forall_app. split.
    - eapply Forall_impl; [|apply abi_in]. cbn beta. intros. lia.
    - eapply Forall_impl; [|apply thread_in]. cbn beta. intros. lia.
  Qed.

  Lemma fop_app {A} (R : A -> A -> Prop) l1 l2 : ForallOrdPairs R l1 -> ForallOrdPairs R l2 ->
    (forall x y, In x l1 -> In y l2 -> R x y) -> ForallOrdPairs R (l1 ++ l2).
  Proof.
    intros H1 H2 H. induction H1 as [|x l Hx Hl IH]; [exact H2|].
    cbn. constructor.
    - apply Forall_app. split; [exact Hx|]. apply Forall_forall. intros y Hy. apply H; [left; auto|auto].
    - apply IH. intros. apply H; auto. right. auto.
  Qed.

  Lemma flds_apart : ForallOrdPairs apart_f (flds a td md canary sa ss gs ms).
  Proof.
    pose proof parts_in as P. unfold flds. apply fop_app.
    - unfold abi_flds, abi_at. generalize (md + meta_off a td FAbi). intros q. clear.
      destruct a; cbn [tls_below]; fop;
        unfold apart_f, apart, f_addr, f_len; cbn [fst snd word]; cbv [abi_off]; cbn; lia.
    - pose proof (wf_td_apart _ _ Htd) as H. unfold td_fields in H.
      unfold thread_flds. apply fop_app.
      2: { destruct (o_errno td); fop. }
      2: { intros x y Hx Hy. pose proof (wf_td_errno _ _ Htd) as HE. destruct (o_errno td) as [o|]; [|destruct Hy].
           destruct Hy as [<-|[]]. destruct (HE o eq_refl) as (_ & _ & HE'). unfold td_fields in HE'.
           repeat (apply Forall_cons_iff in HE'; destruct HE' as [? HE']). unfold apart_f, apart, f_addr, f_len in *. cbn [fst snd In] in *.
           repeat (destruct Hx as [<-|Hx]); try contradiction; cbn [fst snd]; rewrite ?wsz_word; change (Z.of_nat 4) with 4; change (Z.of_nat 1) with 1; lia. }
      repeat match goal with H : ForallOrdPairs _ (_ :: _) |- _ => inversion H; clear H; subst end.
      repeat match goal with H : Forall _ (_ :: _) |- _ => apply Forall_cons_iff in H; destruct H end.
      fop; unfold apart_f, apart, f_addr, f_len in *; cbn [fst snd] in *; rewrite ?wsz_word;
        change (Z.of_nat 4) with 4; change (Z.of_nat 1) with 1;
        match goal with H : _ \/ _ |- _ => clear - H; lia end.
    - intros x y Hx Hy.
      pose proof (proj1 (Forall_forall _ _) abi_in x Hx) as Bx.
      pose proof (proj1 (Forall_forall _ _) thread_in y Hy) as By. cbn beta in *.
      unfold apart_f, apart in *. lia.
  Qed.
End record.

(** ** initialize_tls *)
Section inittls.
  Variables (a : arch) (td : td_layout) (tls : tls_info).
  Hypothesis Htd : wf_td a td.
  Hypothesis Hfile : 0 <= tls_filesz tls <= tls_memsz tls.
  Variables (m : mem) (tb md canary sa ss gs ms : Z).
  Hypothesis Hap : apart tb (tls_memsz tls) md (meta_size a td).
  (** the template is not overwritten by the record or the block *)
  Hypothesis Htmpl_md : apart (tls_addr tls) (tls_filesz tls) md (meta_size a td).

  Let F := flds a td md canary sa ss gs ms.

  Lemma init_tls_spec :
    exists m', initialize_tls a td tls m tb md canary sa ss gs ms
      = Some (m', abi_at a td md ThreadPointee, thread_at a td md + o_tid td) /\
      fresh_tls tls m m' tb /\
      (forall x, ~ inside tb (tls_memsz tls) x -> ~ inside md (meta_size a td) x -> m' x = m x) /\
      (forall p n v, In (p, n, v) F -> load_le m' p n = v mod 2 ^ (8 * Z.of_nat n)).
  Proof.
    unfold initialize_tls. destruct (Z.leb_spec (tls_filesz tls) (tls_memsz tls)); [|lia].
    rewrite write_metadata_flds. eexists. split; [reflexivity|].
    assert (OUT : forall x, ~ inside md (meta_size a td) x -> store_fields m F x = m x).
    { intros x Hx. apply store_fields_out. eapply Forall_impl; [|apply flds_in; exact Htd].
      cbn beta. unfold inside in *. intros. lia. }
    fold F. unfold apart in *. split; [split|split].
    - intros i Hi. rewrite zero_out by (unfold inside; lia).
      rewrite copy_in by (unfold inside; lia). rewrite OUT by (unfold inside; lia). f_equal. lia.
    - intros i Hi. rewrite zero_in by (unfold inside; lia). reflexivity.
    - intros x Hx1 Hx2. unfold inside in Hx1. rewrite zero_out by (unfold inside; lia).
      rewrite copy_out by (unfold inside; lia). apply OUT. exact Hx2.
    - intros p n v Hin.
      rewrite <- (store_fields_get F m p n v); [|apply flds_apart; exact Htd|exact Hin].
      pose proof (proj1 (Forall_forall _ _) (flds_in a td Htd md canary sa ss gs ms) _ Hin) as B.
      cbn beta in B. unfold f_addr, f_len in B. cbn [fst snd] in B.
      apply load_le_ext. intros i Hi.
      rewrite zero_out by (unfold inside; lia). rewrite copy_out by (unfold inside; lia). reflexivity.
  Qed.
End inittls.
