(** Theorems about whole histories. *)
From Coq Require Import ZArith List Bool Lia Arith.
From Verif Require Import ThreadModel ThreadInv ThreadPres ThreadPres4 ThreadSpec ThreadTop SyncModel SyncFacts SyncInv.
Import ListNotations.
Open Scope nat_scope.

(** Continuations of a history. *)
Inductive hext (c : cfg) (s1 : st) : list entry -> st -> Prop :=
| x_nil : hext c s1 [] s1
| x_step h s i a e s' o : hext c s1 h s -> step c s (i, a, e) s' -> syncs s i e s' o -> hext c s1 (h ++ [En i a (Some e) o]) s'
| x_user h s i : hext c s1 h s -> i < n s -> P s i = Run -> hext c s1 (h ++ [En i [i] None []]) s.

Lemma hist_split c h s : hist c h s -> forall h1 ext, h = h1 ++ ext -> exists s1, hist c h1 s1 /\ hext c s1 ext s.
Proof.
  induction 1 as [s Hi|h s i a e s' o H IH St Sy|h s i H IH L E]; intros h1 ext X.
  - symmetry in X. apply app_eq_nil in X as (-> & ->). exists s. split; constructor; auto.
  - destruct ext as [|x0 ext] using rev_ind.
    + rewrite app_nil_r in X. subst h1. exists s'. split; [econstructor; eauto|constructor].
    + clear IHext. rewrite app_assoc in X. apply app_inj_tail in X as (X & <-). destruct (IH _ _ X) as (s1 & A & B).
      exists s1. split; auto. econstructor; eauto.
  - destruct ext as [|x0 ext] using rev_ind.
    + rewrite app_nil_r in X. subst h1. exists s. split; [econstructor; eauto|constructor].
    + clear IHext. rewrite app_assoc in X. apply app_inj_tail in X as (X & <-). destruct (IH _ _ X) as (s1 & A & B).
      exists s1. split; auto. econstructor; eauto.
Qed.
Lemma hist_hext c h1 s1 ext s : hist c h1 s1 -> hext c s1 ext s -> hist c (h1 ++ ext) s.
Proof. intros H E. induction E; rewrite ?app_nil_r, ?app_assoc; auto; econstructor; eauto. Qed.
Lemma hext_exec c s1 tr s : (0 < c_page c)%Z -> c_reuse c = false -> inv c s1 -> exec c s1 tr s -> exists ext, hext c s1 ext s /\ labels ext = tr /\ inv c s.
Proof.
  intros Hp Hr I E. revert I. induction E as [s1|s1 tr s [[i a] e] s' E IH St]; intros I.
  - exists []. split; [constructor|]. split; [reflexivity|exact I].
  - destruct IH as (ext & X & L & I2); auto. destruct (sync_total _ _ _ _ _ _ I2 St) as (o & Sy).
    exists (ext ++ [En i a (Some e) o]). split; [eapply x_step; eauto|]. split; [rewrite labels_app, L; reflexivity|eapply (step_inv c s (i, a, e) s'); eauto].
Qed.
Lemma last_split {A} (h : list A) q b : nth_error h q = Some b -> exists h1 h2, h = (h1 ++ [b]) ++ h2 /\ length h1 = q.
Proof. intros N. apply nth_error_split in N as (h1 & h2 & -> & <-). exists h1, h2. rewrite <- app_assoc. auto. Qed.
Lemma hist_last c h x s : hist c (h ++ [x]) s -> exists s1, hist c h s1 /\
  ((exists e, what x = Some e /\ step c s1 (by_ x, acc x, e) s /\ syncs s1 (by_ x) e s (ops x)) \/
   (what x = None /\ s = s1 /\ by_ x < n s1 /\ P s1 (by_ x) = Run /\ acc x = [by_ x] /\ ops x = [])).
Proof.
  intros H. remember (h ++ [x]) as hx eqn:E. destruct H as [s Hi|h' s1 i a e s' o H St Sy|h' s i H L Ei].
  - now destruct h.
  - apply app_inj_tail in E as (-> & <-). exists s1. split; auto. left. exists e. cbn. auto.
  - apply app_inj_tail in E as (-> & <-). exists s. split; auto. right. cbn. auto 8.
Qed.

(** threads that do not exist yet do nothing (no assumption on the kernel) *)
Lemma hist_out c h s : hist c h s -> (forall i, n s <= i -> P s i = Dead) /\ (forall p a, nth_error h p = Some a -> by_ a < n s).
Proof.
  induction 1 as [s Hi|h s i a e s' o H (D & B) St Sy|h s i H (D & B) L E].
  - split; [|intros [|p]; discriminate]. destruct Hi as (tid & sk & g & ta & b & len & _ & _ & ->). cbn. intros [|i]; auto; lia.
  - assert (Li : i < n s).
    { destruct (le_lt_dec (n s) i) as [L|]; auto. specialize (D i L).
      inversion St; subst; try congruence; auto. }
    pose proof (step_le _ _ _ _ _ _ St) as LE. split.
    + intros x. inversion St; subst; unf; unfold munmap; cbn [n T]; unfold fupd; intros Lx;
      repeat match goal with |- context [Nat.eqb ?a ?b] => destruct (Nat.eqb_spec a b); try subst a end; try lia; try (apply D; lia).
      exfalso. match goal with H : P s ?w = JSleep _ _ |- _ => rewrite D in H by lia; discriminate end.
    + intros p b N. apply nth_snoc in N as [(N & _)|(-> & ->)]; cbn; [apply B in N|]; lia.
  - split; auto. intros p b N. apply nth_snoc in N as [(N & _)|(-> & ->)]; cbn; eauto.
Qed.

Lemma create_hb c h s m p q a b d j : hist c h s ->
  nth_error h m = Some d -> what d = Some (ECreate j) ->
  nth_error h p = Some a -> p <= m -> by_ a = by_ d ->
  nth_error h q = Some b -> by_ b = j -> hb false h p q.
Proof.
  intros H Nm Wd Np Lp Ea Nq Eb.
  destruct (last_split _ _ _ Nm) as (h1 & h2 & -> & Lm).
  destruct (hist_split _ _ _ H _ _ eq_refl) as (s2 & H2 & X). destruct (hist_last _ _ _ _ H2) as (s1 & H1 & [(e & W & St & Sy)|(W & _)]); [|congruence].
  rewrite Wd in W. injection W as <-. destruct (step_create _ _ _ _ _ _ St) as (-> & Er & En2 & _).
  destruct (hist_out _ _ _ H1) as (D1 & B1).
  assert (Lq : m < q).
  { destruct (le_lt_dec q m) as [L|L]; auto. exfalso. destruct (Nat.eq_dec q m) as [->|Dq].
    - rewrite Nm in Nq. injection Nq as ->. rewrite <- Eb in D1. specialize (D1 (by_ b) ltac:(rewrite Eb; lia)). congruence.
    - rewrite <- app_assoc in Nq. rewrite nth_error_app1 in Nq by lia. apply B1 in Nq. lia. }
  assert (F : hb false ((h1 ++ [d]) ++ h2) m q).
  { eapply hb_fork; eauto. rewrite (syncs_ops _ _ _ _ _ Sy); [cbn; auto|intros; congruence]. }
  destruct (Nat.eq_dec p m) as [->|Dp]; auto.
  eapply hb_trans; [|exact F]. eapply hb_po; eauto. lia.
Qed.

Section Top.
Variable c : cfg.
Hypothesis Hp : (0 < c_page c)%Z.
Hypothesis Hr : c_reuse c = false.

Lemma hist_inv h s : hist c h s -> inv c s.
Proof. intros H. eapply run_inv; eauto. eapply hist_run; eauto. Qed.

(** a finished thread makes no further entry that touches memory *)
Lemma hext_gone s1 ext s j : inv c s1 -> hext c s1 ext s -> j < n s1 -> finished s1 j ->
  inv c s /\ n s1 <= n s /\ finished s j /\ (forall x, In x ext -> (by_ x = j -> acc x = [] /\ what x <> None /\ forall v, what x <> Some (EReturn v)) /\ what x <> Some (ECreate j)).
Proof.
  intros I E L F. induction E as [|ext s i a e s' o E IH St Sy|ext s i E IH Li Ei].
  - split; auto. split; auto. split; auto. intros x [].
  - destruct IH as (I1 & N1 & F1 & A1).
    destruct (step_gone c s i a e s' j I1 St ltac:(lia) F1) as (F2 & A2).
    pose proof (step_le _ _ _ _ _ _ St).
    split; [apply (step_inv c s (i, a, e) s'); auto|]. split; [lia|split; auto].
    intros x Hx. apply in_app_iff in Hx as [Hx|[<-|[]]]; auto. cbn. split.
    + intros ->. split; auto. split; [discriminate|]. intros v X. injection X as ->. apply step_return in St.
      destruct F1 as [F1|(w & F1)]; congruence.
    + intros X. injection X as ->. destruct (step_create _ _ _ _ _ _ St) as (-> & _). lia.
  - destruct IH as (I1 & N1 & F1 & A1). split; auto. split; auto. split; auto.
    intros x Hx. apply in_app_iff in Hx as [Hx|[<-|[]]]; auto. cbn. split; [|discriminate].
    intros ->. exfalso. destruct F1 as [F1|(w & F1)]; congruence.
Qed.

Lemma own_old h1 s1 ext s j p : hist c h1 s1 -> hext c s1 ext s -> j < n s1 -> finished s1 j -> own (h1 ++ ext) j p -> own h1 j p.
Proof.
  intros H E L F (a & N & W). destruct (lt_dec p (length h1)) as [Lp|Lp].
  - exists a. rewrite nth_error_app1 in N by auto. auto.
  - exfalso. rewrite nth_error_app2 in N by lia. apply nth_error_In in N.
    destruct (hext_gone _ _ _ _ (hist_inv _ _ H) E L F) as (_ & _ & _ & A). destruct (A a N) as (A1 & A2).
    destruct W as [(W1 & W2)|W]; [destruct (A1 W1); auto|auto].
Qed.
Lemma user_old h1 s1 ext s j p : hist c h1 s1 -> hext c s1 ext s -> j < n s1 -> finished s1 j -> user (h1 ++ ext) j p -> user h1 j p.
Proof.
  intros H E L F (a & N & W). destruct (lt_dec p (length h1)) as [Lp|Lp].
  - exists a. rewrite nth_error_app1 in N by auto. auto.
  - exfalso. rewrite nth_error_app2 in N by lia. apply nth_error_In in N.
    destruct (hext_gone _ _ _ _ (hist_inv _ _ H) E L F) as (_ & _ & _ & A). destruct (A a N) as (A1 & A2).
    destruct W as [(W1 & [W2|(v & W2)])|W]; [destruct (A1 W1) as (_ & X & _); auto|destruct (A1 W1) as (_ & _ & X); eapply X; eauto|auto].
Qed.

Lemma join_hb h s q b j rv : hist c h s -> nth_error h q = Some b -> what b = Some (EJoin j rv) ->
  (forall p, user h j p -> hb false h p q) /\ (forall p, own h j p -> hb true h p q).
Proof.
  intros H Nq Wb. destruct (last_split _ _ _ Nq) as (h1 & h2 & -> & Lq).
  destruct (hist_split _ _ _ H _ _ eq_refl) as (s2 & H2 & X). destruct (hist_last _ _ _ _ H2) as (s1 & H1 & [(e & W & St & Sy)|(W & _)]); [|congruence].
  rewrite Wb in W. injection W as <-. pose proof (hist_inv _ _ H1) as I1.
  rewrite <- app_assoc in H |- *.
  destruct (hist_split _ _ _ H _ _ eq_refl) as (s1' & H1' & X').
  assert (E : exists w, by_ b = w /\ P s1 w = JRet KJoin j rv) by (inversion St; subst; eauto).
  destruct E as (w & Ew & E). 
  assert (C0 : claim s1 j = Some (KJoin, w)) by (apply (i_jret _ _ I1 _ _ _ _ E)).
  destruct (i_claim_lt _ _ I1 _ _ _ C0) as (L & _).
  assert (Wk : woken (P s1 w) j) by (rewrite E; cbn; auto).
  destruct (i_woken _ _ I1 _ _ Wk) as (_ & G).
  assert (F : finished s1 j) by (unfold finished; destruct (P s1 j); cbn in G; try discriminate; eauto).
  assert (EX : hext c s1 ([b] ++ h2) s).
  { clear -St Sy X Wb. change ([b] ++ h2) with (b :: h2). induction X.
    - change [b] with ([] ++ [b]). destruct b as [w0 a0 [e0|] o0]; cbn in *; [|discriminate]. injection Wb as ->.
      apply (x_step c s1 [] s1); auto. constructor.
    - rewrite app_comm_cons. eapply x_step; eauto.
    - rewrite app_comm_cons. eapply x_user; eauto. }
  rewrite <- app_assoc in Nq.
  split; intros p U.
  - apply (user_old _ _ _ _ _ _ H1 EX L F) in U.
    eapply (wait_before c Hp Hr false h1 s1 H1 w KJoin j p); eauto; [cbn; eauto|lia].
  - apply (own_old _ _ _ _ _ _ H1 EX L F) in U.
    eapply (woken_before c Hp Hr true h1 s1 eq_refl H1 w j p); eauto. lia.
Qed.

Lemma reclaim_actor s i a e s' j : inv c s -> step c s (i, a, e) s' -> j < n s -> mapped s j -> ~ mapped s' j ->
  (exists k v, P s i = JFree k j v) \/ (i = j /\ P s i = DxMunmap).
Proof.
  intros I St L M N. unfold mapped in *.
  assert (Li := actor_n _ _ _ _ _ _ I St).
  inversion St; subst; unf; unfold munmap in N; cbn [R] in N; unfold fupd in N;
    try contradiction;
    try (match type of N with context [Nat.eqb ?a ?b] => destruct (Nat.eqb_spec a b); [subst a|contradiction] end; cbn in N; try contradiction; try congruence; lia).
  - left. match goal with X : P s i = JFree ?k ?j0 ?v |- _ => rename j0 into x; rename X into E end.
    destruct (waits_of c s i k x I) as (_ & WB & _ & Lx); [rewrite E; cbn; auto|].
    assert (K : jn (T s x) = true /\ gone (P s x) = true) by (apply (i_woken _ _ I i); rewrite E; cbn; auto).
    assert (J0 : 0 < x /\ (0 < r_map (R s x))%Z).
    { apply (map_pos c s x I); auto. left. destruct K as (_ & K). destruct (P s x); cbn in *; congruence. }
    destruct (munmap_same c s x Hp I ltac:(lia) ltac:(assumption) WB) as (_ & _ & SR & _).
    specialize (SR j). unfold with_rec, munmap in SR; cbn [R] in SR. unfold fupd in SR. rewrite <- SR in N.
    destruct (Nat.eqb_spec j x) as [->|]; [eauto|contradiction].
  - right. match goal with X : P s i = DxMunmap |- _ => rename X into E end.
    assert (J0 : 0 < i /\ (0 < r_map (R s i))%Z) by (apply (map_pos c s i I); auto; left; rewrite E; reflexivity).
    assert (WB : r_mapped (R s i) = true) by (eapply user_mapped; eauto; rewrite E; reflexivity).
    destruct (munmap_same c s i Hp I ltac:(lia) ltac:(assumption) WB) as (_ & _ & SR & _).
    specialize (SR j). unfold with_rec, munmap in SR; cbn [R] in SR. unfold fupd in SR. rewrite <- SR in N.
    destruct (Nat.eqb_spec j i) as [->|]; [auto|contradiction].
Qed.

Lemma before_last kw h x i p : before kw h i p -> by_ x = i -> hb kw (h ++ [x]) p (length h).
Proof. intros B E. eapply B; eauto. pose proof (nth_mid h x []) as M. now rewrite app_nil_r in M. Qed.

Lemma reclaim_hb h s i a e s' o j : hist c h s -> step c s (i, a, e) s' -> syncs s i e s' o ->
  j < n s -> mapped s j -> ~ mapped s' j ->
  let h' := h ++ [En i a (Some e) o] in
  (forall p, user h j p -> hb false h' p (length h)) /\
  (forall p, own h j p -> hb true h' p (length h)) /\
  (forall w p, other h j w p -> hb false h' p (length h)).
Proof.
  intros H St Sy L M N h'. pose proof (hist_inv _ _ H) as I.
  destruct (reclaim_actor _ _ _ _ _ _ I St L M N) as [(k & v & E)|(-> & E)].
  - destruct (waits_of c s i k j I) as (C & _ & _ & _); [rewrite E; cbn; auto|].
    repeat split.
    + intros p U. eapply before_last; [|reflexivity]. cbn.
      eapply (wait_before c Hp Hr false h s H i k j p); auto. rewrite E. destruct k; cbn; eauto.
    + intros p U. eapply before_last; [|reflexivity]. cbn.
      eapply (woken_before c Hp Hr true h s eq_refl H i j p); auto. rewrite E. cbn. auto.
    + intros w p O. destruct (other_claim c Hp Hr _ _ H _ _ _ O) as (k' & C'). rewrite C in C'. injection C' as <- <-.
      eapply before_last; [|reflexivity]. cbn. destruct O as (b & Nb & Eb & _). eapply before_own; eauto.
  - repeat split.
    + intros p U. eapply before_last; [|reflexivity]. eapply (user_before c Hp Hr); eauto.
    + intros p U. eapply before_last; [|reflexivity]. eapply (own_before c Hp Hr); eauto.
    + intros w p O. eapply before_last; [|reflexivity]. cbn. eapply (other_self c Hp Hr); eauto. unfold self. rewrite E. reflexivity.
Qed.
End Top.
