(** Proof infrastructure for the relocation model. *)
From Verif Require Import Machine MachineFacts LayoutModel RelocModel RelocSpec.

Lemma wsz_pos a : 4 <= wsz a <= 8.
Proof. destruct a; simpl; lia. Qed.
Lemma wsz_word a : Z.of_nat (word a) = wsz a.
Proof. destruct a; reflexivity. Qed.
Lemma mod_pos a : 2 ^ 32 <= modulus (wsz a).
Proof. destruct a; vm_compute; discriminate. Qed.
Lemma mod_word a : modulus (wsz a) = 2 ^ (8 * Z.of_nat (word a)).
Proof. destruct a; reflexivity. Qed.

Lemma padd_mod a p k : padd a (p mod modulus (wsz a)) k = (p + k) mod modulus (wsz a).
Proof. unfold padd, wrapping_add. apply Zplus_mod_idemp_l. Qed.

Lemma wf_store_le n : forall m p v, wf_mem m -> wf_mem (store_le m p n v).
Proof.
  induction n as [|n IH]; intros m p v W; cbn [store_le]; auto.
  intros x. unfold upd. destruct (x =? p); [|apply IH; auto].
  apply Z.mod_pos_bound. lia.
Qed.

(** ** Words *)
Section A.
Context (a : arch).
Notation M := (modulus (wsz a)).
Notation ws := (wsz a).

Lemma words_cons m p w l :
  words_at a m p (w :: l) <-> ldw a m (p mod M) = w /\ words_at a m (p + ws) l.
Proof.
  split.
  - intros H. split.
    + specialize (H 0%nat w eq_refl). rewrite Z.mul_0_l, Z.add_0_r in H. exact H.
    + intros i x Hx. specialize (H (S i) x Hx).
      replace (p + ws + Z.of_nat i * ws) with (p + Z.of_nat (S i) * ws) by lia. exact H.
  - intros [H1 H2] [|i] x Hx.
    + cbn in Hx. injection Hx as <-. rewrite Z.mul_0_l, Z.add_0_r. exact H1.
    + cbn in Hx. specialize (H2 i x Hx).
      replace (p + Z.of_nat (S i) * ws) with (p + ws + Z.of_nat i * ws) by lia. exact H2.
Qed.

Lemma words_mod m p l : words_at a m (p mod M) l <-> words_at a m p l.
Proof.
  split; intros H i w Hw; specialize (H i w Hw).
  - rewrite Zplus_mod_idemp_l in H. exact H.
  - rewrite Zplus_mod_idemp_l. exact H.
Qed.

Lemma ldw_range m p : wf_mem m -> 0 <= ldw a m p < M.
Proof. intros W. unfold ldw. rewrite mod_word. apply load_le_range; auto. Qed.

(** ** Operations: a store of a value ([Some]) or of the old value plus [off]. *)
Notation op := (Z * option Z)%type (only parsing).
Definition apply_op (off : Z) (s : rst) (o : op) : rst :=
  match snd o with
  | Some v => relocation_store a (fst o) v s
  | None => add_offset a off (fst o) s
  end.
Definition apply_ops (off : Z) (s : rst) (l : list op) : rst := fold_left (apply_op off) l s.

Lemma apply_app off s l1 l2 : apply_ops off s (l1 ++ l2) = apply_ops off (apply_ops off s l1) l2.
Proof. apply fold_left_app. Qed.

Definition clear_of (l : list op) (p n : Z) : Prop := forall o, In o l -> apart (fst o) ws p n.

Lemma op_byte off s o x : ~ (fst o <= x < fst o + ws) -> rm (apply_op off s o) x = rm s x.
Proof.
  intros H. unfold apply_op, add_offset, relocation_store. destruct o as [p [v|]]; cbn [fst snd rm] in *;
  rewrite store_le_spec, wsz_word; destruct ((p <=? x) && (x <? p + ws)) eqn:E; auto;
  apply andb_prop in E; destruct E; lia.
Qed.

Lemma op_wf off s o : wf_mem (rm s) -> wf_mem (rm (apply_op off s o)).
Proof. intros W. unfold apply_op, add_offset, relocation_store. destruct (snd o); cbn [rm]; apply wf_store_le; auto. Qed.

Lemma ops_wf off l : forall s, wf_mem (rm s) -> wf_mem (rm (apply_ops off s l)).
Proof. induction l; intros s W; [exact W|]. apply IHl. apply op_wf; auto. Qed.

Lemma ops_byte off l x : forall s, (forall o, In o l -> ~ (fst o <= x < fst o + ws)) ->
  rm (apply_ops off s l) x = rm s x.
Proof.
  induction l as [|o l IH]; intros s H; [reflexivity|].
  change (rm (apply_ops off (apply_op off s o) l) x = rm s x).
  rewrite IH; [apply op_byte; apply H; now left|]. intros o' Ho'. apply H. now right.
Qed.

Lemma op_load off s o p n : apart (fst o) ws p (Z.of_nat n) ->
  load_le (rm (apply_op off s o)) p n = load_le (rm s) p n.
Proof. intros H. apply load_le_ext. intros x Hx. apply op_byte. unfold apart in H. lia. Qed.

Lemma ops_load off l s p n : clear_of l p (Z.of_nat n) ->
  load_le (rm (apply_ops off s l)) p n = load_le (rm s) p n.
Proof.
  intros H. apply load_le_ext. intros x Hx. apply ops_byte. intros o Ho. specialize (H o Ho).
  unfold apart in H. lia.
Qed.

Lemma ops_word off l s p : clear_of l p ws -> ldw a (rm (apply_ops off s l)) p = ldw a (rm s) p.
Proof. intros H. unfold ldw. apply ops_load. rewrite wsz_word. exact H. Qed.

(** The value an operation gives its word. *)
Definition op_val (off : Z) (m : mem) (o : op) : Z :=
  match snd o with Some v => v | None => (ldw a m (fst o) + off) mod M end.

Lemma op_self off s o : wf_mem (rm s) -> (forall v, snd o = Some v -> 0 <= v < M) ->
  ldw a (rm (apply_op off s o)) (fst o) = op_val off (rm s) o.
Proof.
  intros W Hv. unfold apply_op, op_val, add_offset, relocation_store, ldw.
  destruct (snd o) as [v|] eqn:E; cbn [rm].
  - apply load_store_le; auto. rewrite <- mod_word. auto.
  - rewrite load_store_le; auto. rewrite <- mod_word. apply Z.mod_pos_bound.
    pose proof (mod_pos a). lia.
Qed.

Lemma ops_at off l s i o : wf_mem (rm s) ->
  (forall o' v, In o' l -> snd o' = Some v -> 0 <= v < M) ->
  nth_error l i = Some o ->
  (forall j o', j <> i -> nth_error l j = Some o' -> apart (fst o) ws (fst o') ws) ->
  ldw a (rm (apply_ops off s l)) (fst o) = op_val off (rm s) o.
Proof.
  intros W Hv Hi Hd.
  destruct (nth_error_split l i Hi) as (l1 & l2 & -> & Hl).
  rewrite apply_app. cbn [apply_ops fold_left].
  set (s1 := apply_ops off s l1).
  assert (W1 : wf_mem (rm s1)) by (apply ops_wf; auto).
  change (fold_left (apply_op off) l2 (apply_op off s1 o)) with (apply_ops off (apply_op off s1 o) l2).
  rewrite ops_word.
  - rewrite op_self; auto.
    + unfold op_val. destruct (snd o); auto. unfold s1. rewrite ops_word; auto.
      intros o' Ho'. apply In_nth_error in Ho'. destruct Ho' as [j Hj].
      assert (Lj : (j < length l1)%nat) by (apply nth_error_Some; rewrite Hj; discriminate).
      assert (D : apart (fst o) ws (fst o') ws).
      { apply (Hd j); [lia|]. rewrite nth_error_app1; auto. }
      unfold apart in *. lia.
    + intros v Hv'. apply (Hv o v); auto. apply in_or_app. right. now left.
  - intros o' Ho'. apply In_nth_error in Ho'. destruct Ho' as [j Hj].
    assert (D : apart (fst o) ws (fst o') ws).
    { apply (Hd (length l1 + S j)%nat); [lia|]. rewrite nth_error_app2 by lia.
      replace (length l1 + S j - length l1)%nat with (S j) by lia. exact Hj. }
    unfold apart in *. lia.
Qed.

(** ** Everything but memory and the store log is left alone. *)
Lemma ops_rest off l : forall s, prots (apply_ops off s l) = prots s /\ ro (apply_ops off s l) = ro s.
Proof.
  induction l as [|o l IH]; intros s; [split; reflexivity|].
  change (apply_ops off s (o :: l)) with (apply_ops off (apply_op off s o) l).
  destruct (IH (apply_op off s o)) as [H1 H2]. rewrite H1, H2. unfold apply_op, add_offset.
  destruct (snd o); split; reflexivity.
Qed.

Lemma ops_stores off l : forall s, map fst (stores (apply_ops off s l)) = rev (map fst l) ++ map fst (stores s).
Proof.
  induction l as [|o l IH]; intros s; [reflexivity|].
  change (apply_ops off s (o :: l)) with (apply_ops off (apply_op off s o) l).
  rewrite IH. unfold apply_op, add_offset. destruct (snd o); cbn; rewrite <- app_assoc; reflexivity.
Qed.

Definition clear_words (l : list op) (p : Z) (n : nat) : Prop :=
  forall i, (i < n)%nat -> clear_of l ((p + Z.of_nat i * ws) mod M) ws.

Lemma clear_words_S l p n : clear_words l p (S n) -> clear_of l (p mod M) ws /\ clear_words l (p + ws) n.
Proof.
  intros H. split.
  - specialize (H 0%nat ltac:(lia)). rewrite Z.mul_0_l, Z.add_0_r in H. exact H.
  - intros i Hi. specialize (H (S i) ltac:(lia)).
    replace (p + ws + Z.of_nat i * ws) with (p + Z.of_nat (S i) * ws) by lia. exact H.
Qed.
Lemma clear_words_incl l l' p n : incl l' l -> clear_words l p n -> clear_words l' p n.
Proof. intros I H i Hi o Ho. apply H; auto. Qed.
Lemma clear_of_incl l l' p n : incl l' l -> clear_of l p n -> clear_of l' p n.
Proof. intros I H o Ho. apply H; auto. Qed.

Lemma words_ops off l s p ws' : clear_words l p (length ws') ->
  words_at a (rm s) p ws' -> words_at a (rm (apply_ops off s l)) p ws'.
Proof.
  intros C H i w Hw. specialize (H i w Hw). rewrite <- H.
  apply ops_word. apply C. apply nth_error_Some. congruence.
Qed.

(** A pointer that has not reached the end differs from it. *)
Lemma ptr_neq p k : 0 < k < M -> (p mod M =? (p + k) mod M) = false.
Proof.
  intros H. apply Z.eqb_neq. intros E.
  assert (D : ((p + k) - p) mod M = 0).
  { rewrite Zminus_mod, E, Z.sub_diag. apply Z.mod_0_l. lia. }
  replace (p + k - p) with k in D by lia. rewrite Z.mod_small in D; lia.
Qed.
End A.

Lemma relative_type a info : relative a info = (r_type a info =? R_RELATIVE a).
Proof.
  unfold relative, r_type.
  destruct a; cbn -[Z.land Z.modulo Z.pow];
  [ change 0xffffffff with (2 ^ 32 - 1) | change 0xff with (2 ^ 8 - 1) | change 0xffffffff with (2 ^ 32 - 1)
  | change 0xff with (2 ^ 8 - 1) | change 0xffffffff with (2 ^ 32 - 1) ]; rewrite land_low by lia; reflexivity.
Qed.
