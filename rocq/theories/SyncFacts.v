(** Lemmas about histories and happens-before. *)
From Coq Require Import ZArith List Bool Lia Arith.
From Verif Require Import ThreadModel ThreadInv ThreadPres ThreadPres4 ThreadSpec ThreadTop SyncModel.
Import ListNotations.
Open Scope nat_scope.

Lemma nth_snoc {A} (h : list A) a p b : nth_error (h ++ [a]) p = Some b ->
  (nth_error h p = Some b /\ p < length h) \/ (p = length h /\ b = a).
Proof.
  intros H. destruct (lt_dec p (length h)) as [L|L].
  - rewrite nth_error_app1 in H by auto. auto.
  - rewrite nth_error_app2 in H by lia. destruct (p - length h) as [|m] eqn:E; cbn in H.
    + right. split; [lia|congruence].
    + destruct m; discriminate.
Qed.
Lemma nth_mid {A} (h : list A) a ext : nth_error ((h ++ [a]) ++ ext) (length h) = Some a.
Proof. rewrite <- app_assoc. rewrite nth_error_app2 by lia. now rewrite Nat.sub_diag. Qed.
Lemma nth_old {A} (h : list A) ext p b : nth_error h p = Some b -> nth_error (h ++ ext) p = Some b.
Proof. intros H. rewrite nth_error_app1; auto. apply nth_error_Some. congruence. Qed.
Lemma nth_lt {A} (h : list A) p b : nth_error h p = Some b -> p < length h.
Proof. intros H. apply nth_error_Some. congruence. Qed.

Section KW.
Variable kw : bool.

Definition before (h : list entry) (i p : nat) : Prop := forall ext q b, length h <= q ->
  nth_error (h ++ ext) q = Some b -> by_ b = i -> hb kw (h ++ ext) p q.
Definition bloc (h : list entry) (x : loc) (p : nat) : Prop := forall ext q b, length h <= q ->
  nth_error (h ++ ext) q = Some b -> In (Acq x) (ops b) \/ In (Rmw x) (ops b) ->
  (forall m d, length h <= m < q -> nth_error (h ++ ext) m = Some d -> ~ In (Rel x) (ops d)) ->
  hb kw (h ++ ext) p q.

Lemma before_ext h a i p : before h i p -> before (h ++ [a]) i p.
Proof.
  intros B ext q b L N E. rewrite <- app_assoc in *. rewrite app_length in L. cbn in L. eapply B; eauto. lia.
Qed.
Lemma before_own h i p a : nth_error h p = Some a -> by_ a = i -> before h i p.
Proof. intros N E ext q b L Nq Eq. eapply hb_po; eauto using nth_old; [apply nth_lt in N; lia|congruence]. Qed.
Lemma before_new h a : before (h ++ [a]) (by_ a) (length h).
Proof. eapply before_own; eauto. pose proof (nth_mid h a []). now rewrite app_nil_r in H. Qed.

(** what is before the actor of the new entry, or is that entry *)
Definition upto (h : list entry) (a : entry) (p : nat) : Prop := before h (by_ a) p \/ p = length h.

Lemma upto_hb h a p ext : before h (by_ a) p -> hb kw ((h ++ [a]) ++ ext) p (length h).
Proof. intros B. pose proof (nth_mid h a ext). rewrite <- app_assoc in *. eapply B; eauto. Qed.

Lemma upto_step h a p q ext : upto h a p -> hb kw ((h ++ [a]) ++ ext) (length h) q -> hb kw ((h ++ [a]) ++ ext) p q.
Proof. intros [B| ->] H; auto. eapply hb_trans; [apply upto_hb; eauto|exact H]. Qed.

Lemma before_fork h a p j : In (Fork j) (ops a) -> upto h a p -> before (h ++ [a]) j p.
Proof.
  intros F U ext q b L N E. eapply upto_step; eauto.
  eapply hb_fork; eauto using nth_mid. rewrite app_length in L; cbn in L; lia.
Qed.
Lemma before_wake h a p w : kw = true -> In (Wakes w) (ops a) -> upto h a p -> before (h ++ [a]) w p.
Proof.
  intros K F U ext q b L N E. eapply upto_step; eauto.
  eapply hb_wake; eauto using nth_mid. rewrite app_length in L; cbn in L; lia.
Qed.
Lemma bloc_rel h a x p : In (Rel x) (ops a) \/ In (Rmw x) (ops a) -> upto h a p -> bloc (h ++ [a]) x p.
Proof.
  intros F U ext q b L N E NR. eapply upto_step; eauto.
  rewrite app_length in L, NR; cbn in L, NR.
  eapply hb_sw; eauto using nth_mid; [lia|]. intros m d Hm. apply NR. lia.
Qed.
Lemma bloc_keep h a x p : ~ In (Rel x) (ops a) -> bloc h x p -> bloc (h ++ [a]) x p.
Proof.
  intros F B ext q b L N E NR. pose proof (nth_mid h a ext) as M.
  rewrite app_length in L, NR; cbn in L, NR. rewrite <- app_assoc in *.
  eapply B; eauto; [lia|]. intros m d Hm Nm. destruct (Nat.eq_dec m (length h)) as [->|D].
  - rewrite M in Nm. injection Nm as <-. exact F.
  - apply NR with m; auto. lia.
Qed.
Lemma bloc_acq h a x p : In (Acq x) (ops a) \/ In (Rmw x) (ops a) -> bloc h x p -> before (h ++ [a]) (by_ a) p.
Proof.
  intros F B ext q b L N E. eapply hb_trans with (length h).
  - pose proof (nth_mid h a ext) as M. rewrite <- app_assoc in *. eapply B; eauto. intros; lia.
  - eapply hb_po; eauto using nth_mid. rewrite app_length in L; cbn in L; lia.
Qed.
End KW.

Lemma hb_lt kw h p q : hb kw h p q -> p < q.
Proof. induction 1; lia. Qed.
Lemma hb_bound kw h p q : hb kw h p q -> q < length h.
Proof. induction 1; eauto using nth_lt. Qed.
Lemma hb_app kw h ext p q : hb kw h p q -> hb kw (h ++ ext) p q.
Proof.
  induction 1; eauto using hb_po, hb_fork, hb_wake, hb_trans, nth_old.
  eapply hb_sw; eauto using nth_old. intros m d Hm Nm.
  rewrite nth_error_app1 in Nm by (apply nth_lt in H1; lia). eauto.
Qed.
Lemma hb_weaken h p q : hb false h p q -> hb true h p q.
Proof. induction 1; eauto using hb_po, hb_fork, hb_sw, hb_trans; discriminate. Qed.

(** Forgetting accesses and synchronisation gives back a run. *)
Fixpoint labels (h : list entry) : list label :=
  match h with
  | [] => []
  | En i a (Some e) _ :: h' => (i, a, e) :: labels h'
  | En _ _ None _ :: h' => labels h'
  end.
Lemma labels_app h h' : labels (h ++ h') = labels h ++ labels h'.
Proof. induction h as [|[i a [e|] o] h IH]; cbn; auto. now rewrite IH. Qed.
Lemma hist_run c h s : hist c h s -> run c (labels h) s.
Proof.
  induction 1.
  - exists s. split; auto. constructor.
  - rewrite labels_app. cbn. eapply run_snoc; eauto.
  - rewrite labels_app. cbn. now rewrite app_nil_r.
Qed.

(** Every step has a synchronisation. *)
Lemma sync_total c s i a e s' : inv c s -> step c s (i, a, e) s' -> exists o, syncs s i e s' o.
Proof.
  intros I St. inversion St; subst;
    try (eexists; apply sy_nowake; intros w' Hw; unf; unfold munmap; cbn [T]; unfold fupd;
         destruct (Nat.eqb_spec w' i); [contradiction|]; auto; fail).
  - eexists. apply sy_nowake. intros w Hw. cbn [T]. unfold fupd. destruct (Nat.eqb_spec w (n s)); [right; lia|auto].
  - eexists. eapply sy_wake; eauto. unf. unfold fupd.
    rewrite Nat.eqb_refl. reflexivity.
Qed.
Lemma run_hist c tr s : (0 < c_page c)%Z -> c_reuse c = false -> run c tr s -> exists h, hist c h s /\ labels h = tr.
Proof.
  intros Hp Hr. revert tr s. apply (run_ind' c (fun tr s => exists h, hist c h s /\ labels h = tr)); auto.
  - intros s H. exists []. split; auto. constructor; auto.
  - intros tr s [[i a] e] s' _ I _ (h & H & E) St. destruct (sync_total _ _ _ _ _ _ I St) as (o & So).
    exists (h ++ [En i a (Some e) o]). split; [econstructor; eauto|]. rewrite labels_app, E. reflexivity.
Qed.

Lemma hist_ind' c (Q : list entry -> st -> Prop) : (0 < c_page c)%Z -> c_reuse c = false ->
  (forall s, initial s -> Q [] s) ->
  (forall h s i a e s' o, hist c h s -> inv c s -> inv c s' -> Q h s -> step c s (i, a, e) s' -> syncs s i e s' o ->
     Q (h ++ [En i a (Some e) o]) s') ->
  (forall h s i, hist c h s -> inv c s -> Q h s -> i < n s -> P s i = Run -> Q (h ++ [En i [i] None []]) s) ->
  forall h s, hist c h s -> Q h s.
Proof.
  intros Hp Hr H0 HS HU h s H. induction H; auto.
  - eapply HS; eauto; eapply run_inv; eauto; [eapply hist_run; eauto|]. eapply run_snoc; eauto. eapply hist_run; eauto.
  - eapply HU; eauto. eapply run_inv; eauto. eapply hist_run; eauto.
Qed.

(** ** where releases come from *)
Lemma sync_rel c s i a e s' o x : inv c s -> step c s (i, a, e) s' -> syncs s i e s' o -> In (Rel x) o ->
  (x = Tid i /\ P s i = KClear) \/ (x = Ret i /\ exists v, P s i = XStore v).
Proof.
  intros I St Sy H. destruct Sy; [destruct H as [H|[]]; discriminate|].
  unfold ops_of in H. destruct e; cbn [In] in H; try (destruct H as [H|[]]; discriminate); try contradiction;
  (destruct (t_pc (T s i)) eqn:Ep; try destruct k; try destruct (r_det (R s i)); try destruct (t_clear (T s i)); cbn [In] in H; try contradiction;
   destruct H as [H|[]]; try discriminate; injection H as <-; eauto).
Qed.
