(** What happens before what, along a history. *)
From Coq Require Import ZArith List Bool Lia Arith.
From Verif Require Import ThreadModel ThreadInv ThreadPres ThreadPres4 ThreadSpec ThreadTop SyncModel SyncFacts.
Import ListNotations.
Open Scope nat_scope.

(** ** transitions *)
Ltac tr St := inversion St; subst; unf; unfold munmap; cbn [T R n]; fu1; cbn [gone jn self pre woken waits stored] in *;
  try congruence; try lia.

Lemma clear_false c s i : inv c s -> P s i = DxExit \/ P s i = DxBlock \/ P s i = DxMunmap -> t_clear (T s i) = false \/ P s i = DxSetTid.
Proof.
  intros I H. pose proof (i_clear _ _ I i) as C. destruct H as [H|[H|H]]; rewrite H in C; cbn in C; left; now destruct (t_clear (T s i)).
Qed.

Lemma into_gone c s i a e s' j : inv c s -> step c s (i, a, e) s' -> j < n s -> gone (P s' j) = true -> jn (T s' j) = true ->
  (gone (P s j) = true /\ jn (T s j) = true) \/ (i = j /\ P s j = KClear /\ t_clear (T s j) = true /\ e = EKernelClear).
Proof.
  intros I St L. unfold jn. intros G J. 
  destruct (gone (P s j)) eqn:Gj.
  - left. split; auto. revert G J. tr St; intros; auto;
    repeat match goal with H : P s _ = _ |- _ => rewrite H in * end; cbn in *; auto; try congruence.
  - right. revert G J. tr St; intros; 
    repeat match goal with H : P s _ = _ |- _ => rewrite H in * end; cbn in *; auto; try congruence.
Qed.

Ltac rp := repeat match goal with H : t_pc (T ?s _) = _ |- _ => rewrite H in * end; cbn in *.
Ltac rp' s := repeat match goal with H : t_pc (T s _) = _ |- _ => progress rewrite H in * |- end; cbn in *.

Lemma into_woken c s i a e s' x j : inv c s -> step c s (i, a, e) s' -> woken (P s' x) j ->
  woken (P s x) j \/
  (x = i /\ exists k, P s x = JLoad k j /\ r_tid (R s j) = 0%Z /\ e = ENone) \/
  (exists k b, P s x = JSleep k j /\ P s i = KWake b /\ r_taddr (R s j) = b /\ P s' x = JDone k j).
Proof.
  intros I St. destruct (le_lt_dec (n s) x) as [L|L].
  - destruct (i_out _ _ I x L) as (O & _). rewrite O.
    tr St; rewrite ?O; cbn; try contradiction; try congruence.
  - tr St; intros W; auto; try contradiction; try subst; rp; eauto 6; first [right; left; split; [reflexivity|]; exists k; repeat split; auto; fail | right; right; exists k; eexists; repeat split; eauto; fail].
Qed.

Lemma into_jn c s i a e s' j : inv c s -> step c s (i, a, e) s' -> j < n s -> jn (T s' j) = true ->
  jn (T s j) = true \/ (i = j /\ exists v, P s j = XCas v /\ r_det (R s j) = Initial /\ e = ENone).
Proof.
  intros I St L. unfold jn. pose proof (i_clear _ _ I j) as C.
  tr St; intros J; auto; try (rp; eauto; fail); try (left; rp; congruence).
  - right. split; auto. eauto.
  - (* nomap *) match goal with H : t_pc (T s ?x) = XCas _ |- _ => destruct (map_pos c s x I ltac:(assumption)) as (_ & M); [right; rp; discriminate|lia] end.
  - left. rp. match goal with |- context [t_clear (T s ?x)] => destruct (t_clear (T s x)) | H : context [t_clear (T s ?x)] |- _ => destruct (t_clear (T s x)) end; cbn in *; congruence.
Qed.

Lemma into_stored c s i a e s' j : inv c s -> step c s (i, a, e) s' -> j < n s -> jn (T s' j) = true -> stored (P s' j) = true ->
  (jn (T s j) = true /\ stored (P s j) = true) \/ (i = j /\ exists v, P s j = XStore v /\ e = ENone).
Proof.
  intros I St L. unfold jn. pose proof (i_clear _ _ I j) as C.
  tr St; intros J K; auto; try (rp; eauto; fail); try (left; rp; split; congruence); try (rp; discriminate).
  - match goal with H : t_pc (T s ?x) = XCas _ |- _ => destruct (map_pos c s x I ltac:(assumption)) as (_ & M); [right; rp; discriminate|lia] end.
  - rp. match goal with |- context [t_clear (T s ?x)] => destruct (t_clear (T s x)) | H : context [t_clear (T s ?x)] |- _ => destruct (t_clear (T s x)) end; cbn in *; congruence.
Qed.

Lemma into_wait c s i a e s' x j : inv c s -> step c s (i, a, e) s' -> (waits (P s' x) KDetach j \/ exists v, P s' x = JRet KDetach j v) ->
  (waits (P s x) KDetach j \/ exists v, P s x = JRet KDetach j v) \/
  (x = i /\ P s x = DSwap j /\ r_det (R s j) = Abandoned /\ e = ENone).
Proof.
  intros I St. destruct (le_lt_dec (n s) x) as [L|L].
  - destruct (i_out _ _ I x L) as (O & _). rewrite O.
    tr St; rewrite ?O; cbn; intros [W|(vv & W)]; try contradiction; try congruence.
  - tr St; intros [W|(vv & W)]; try contradiction; try discriminate; try (left; left; rp; tauto); try (left; right; rp; eauto; fail); eauto 6;
      try (destruct W; discriminate).
    + left. left. rp. injection W as -> -> ->. auto.
    + left. left. rp. injection W as -> -> ->. auto.
    + right. rp. destruct W as (_ & ->). auto.
Qed.

Lemma into_jfree c s i a e s' x j : inv c s -> step c s (i, a, e) s' ->
  (exists v, P s' x = JFree KJoin j v \/ P s' x = JRet KJoin j v) ->
  (exists v, P s x = JFree KJoin j v \/ P s x = JRet KJoin j v) \/ (x = i /\ P s x = JDone KJoin j /\ e = ENone).
Proof.
  intros I St. destruct (le_lt_dec (n s) x) as [L|L].
  - destruct (i_out _ _ I x L) as (O & _). rewrite O.
    tr St; rewrite ?O; intros (vv & [W|W]); try discriminate; try congruence.
  - tr St; intros (vv & [W|W]); try discriminate; try (injection W as -> ->); try (injection W as -> -> ->); eauto 6.
    injection W as -> _. auto.
Qed.

Lemma into_self c s i a e s' j : inv c s -> step c s (i, a, e) s' -> j < n s -> self (T s' j) = true ->
  self (T s j) = true \/ (i = j /\ exists v, P s j = XCas v /\ r_det (R s j) = Detached /\ e = ENone).
Proof.
  intros I St L. unfold self. pose proof (i_clear _ _ I j) as C.
  tr St; intros J; auto; try (rp; eauto; fail); try (left; rp; congruence).
  - right. split; auto. eexists; repeat split; eauto.
    match goal with H : P s ?x = XCas _ |- _ => pose proof (xcas_not_aband _ _ _ _ I H); destruct (r_det (R s x)); congruence end.
  - left. rp. rewrite C in J. discriminate.
  - left. rp. rewrite C in J. discriminate.
  - left. rp. rewrite C in J. discriminate.

Qed.

Lemma syncs_ops s i e s' o : syncs s i e s' o -> (forall a, P s i <> KWake a) -> o = ops_of s i e.
Proof. intros [a w k j H|]; auto. intros N. now apply N in H. Qed.

(** ** entries *)
(** thread [j] used its own memory, or it was created *)
Definition own (h : list entry) (j p : nat) : Prop := exists a, nth_error h p = Some a /\
  ((by_ a = j /\ acc a <> []) \/ what a = Some (ECreate j)).
(** an ordinary access of [j], its return, or its creation *)
Definition user (h : list entry) (j p : nat) : Prop := exists a, nth_error h p = Some a /\
  ((by_ a = j /\ (what a = None \/ exists v, what a = Some (EReturn v))) \/ what a = Some (ECreate j)).
(** another thread used [j]'s memory or called join or detach on it *)
Definition other (h : list entry) (j w p : nat) : Prop := exists a, nth_error h p = Some a /\ by_ a = w /\ w <> j /\
  ((In j (acc a) /\ (forall k v, what a <> Some (EId k v))) \/ what a = Some (ECallJoin j) \/ what a = Some (ECallDetach j)).

Lemma own_snoc h x j p : own (h ++ [x]) j p ->
  own h j p \/ (p = length h /\ ((by_ x = j /\ acc x <> []) \/ what x = Some (ECreate j))).
Proof. intros (a & N & H). apply nth_snoc in N as [(N & _)|(-> & ->)]; [left; exists a; auto|auto]. Qed.
Lemma user_snoc h x j p : user (h ++ [x]) j p ->
  user h j p \/ (p = length h /\ ((by_ x = j /\ (what x = None \/ exists v, what x = Some (EReturn v))) \/ what x = Some (ECreate j))).
Proof. intros (a & N & H). apply nth_snoc in N as [(N & _)|(-> & ->)]; [left; exists a; auto|auto]. Qed.
Lemma other_snoc h x j w p : other (h ++ [x]) j w p ->
  other h j w p \/ (p = length h /\ by_ x = w /\ w <> j /\
    ((In j (acc x) /\ (forall k v, what x <> Some (EId k v))) \/ what x = Some (ECallJoin j) \/ what x = Some (ECallDetach j))).
Proof. intros (a & N & H). apply nth_snoc in N as [(N & _)|(-> & ->)]; [left; exists a; auto|auto]. Qed.

Lemma step_create c s i a j s' : step c s (i, a, ECreate j) s' -> j = n s /\ P s i = Run /\ n s' = S (n s) /\ P s' j = Run.
Proof. intros St. inversion St; subst. cbn [n T]. unfold fupd. rewrite Nat.eqb_refl. auto. Qed.
Lemma step_return c s i a v s' : step c s (i, a, EReturn v) s' -> P s i = Run.
Proof. intros St. inversion St; subst; auto. Qed.
Lemma actor_n c s i a e s' : inv c s -> step c s (i, a, e) s' -> i < n s.
Proof. intros I St. destruct (step_actor _ _ _ _ _ _ I St) as (D & _). eapply actor_lt; eauto. Qed.
Lemma step_le c s i a e s' : step c s (i, a, e) s' -> n s <= n s'.
Proof. intros St. destruct (step_n _ _ _ _ St) as [->|(-> & _)]; lia. Qed.

Section Inv.
Variable c : cfg.
Hypothesis Hp : (0 < c_page c)%Z.
Hypothesis Hr : c_reuse c = false.
Variable kw : bool.

Lemma own_before h s j p : hist c h s -> own h j p -> j < n s /\ before kw h j p.
Proof.
  intros H. revert h s H j p. apply (hist_ind' c (fun h s => forall j p, own h j p -> j < n s /\ before kw h j p)); auto.
  - intros s _ j p (a & N & _). destruct p; discriminate.
  - intros h s i a e s' o H I I' IH St Sy j p O. pose proof (step_le _ _ _ _ _ _ St).
    apply own_snoc in O as [O|(-> & [(E & _)|E])].
    + destruct (IH j p O). split; [lia|]. now apply before_ext.
    + cbn in E. subst i. split; [pose proof (actor_n _ _ _ _ _ _ I St); lia|].
      apply (before_new kw h (En j a (Some e) o)).
    + cbn in E. injection E as ->. destruct (step_create _ _ _ _ _ _ St) as (-> & Ep & -> & _).
      split; [lia|]. apply before_fork; [|right; auto]. cbn. rewrite (syncs_ops _ _ _ _ _ Sy); [cbn; auto|].
      intros b X; congruence.
  - intros h s i H I IH L Ei j p O. apply own_snoc in O as [O|(-> & [(E & _)|E])].
    + destruct (IH j p O). split; auto. now apply before_ext.
    + cbn in E. subst i. split; auto. apply (before_new kw h (En j [j] None [])).
    + discriminate.
Qed.

Lemma user_own h j p : user h j p -> (forall a, nth_error h p = Some a -> what a = None \/ (exists v, what a = Some (EReturn v)) -> acc a <> []) -> own h j p.
Proof. intros (a & N & [(E & W)|W]) X; exists a; split; auto. Qed.
Lemma user_acc h s : hist c h s -> forall p a, nth_error h p = Some a -> what a = None \/ (exists v, what a = Some (EReturn v)) -> acc a <> [].
Proof.
  intros H. induction H as [|h s i a e s' o H IH St Sy|h s i H IH].
  - intros [|p]; discriminate.
  - intros p b N W. apply nth_snoc in N as [(N & _)|(-> & ->)]; [eauto|]. cbn in *.
    destruct W as [W|(v & W)]; [discriminate|]. injection W as ->. inversion St; subst. discriminate.
  - intros p b N W. apply nth_snoc in N as [(N & _)|(-> & ->)]; [eauto|]. discriminate.
Qed.
Lemma user_before h s j p : hist c h s -> user h j p -> j < n s /\ before kw h j p.
Proof. intros H U. eapply own_before; eauto. eapply user_own; eauto. intros; eapply user_acc; eauto. Qed.

Lemma not_rel s i a e s' o x : inv c s -> step c s (i, a, e) s' -> syncs s i e s' o ->
  (match x with Tid j => P s j <> KClear | Ret j => forall v, P s j <> XStore v | Det j => True end) -> ~ In (Rel x) o.
Proof.
  intros I St Sy X H. destruct (sync_rel _ _ _ _ _ _ _ _ I St Sy H) as [(-> & E)|(-> & v & E)]; [auto|now apply X in E].
Qed.

(** once a joinable thread is gone, all its uses of its memory are released by
    its thread id *)
Lemma gone_bloc h s : hist c h s -> forall j p, j < n s -> gone (P s j) = true -> jn (T s j) = true ->
  own h j p -> bloc kw h (Tid j) p.
Proof.
  intros H. revert h s H. apply (hist_ind' c (fun h s => forall j p, j < n s -> gone (P s j) = true -> jn (T s j) = true ->
    own h j p -> bloc kw h (Tid j) p)); auto.
  - intros s _ j p _ _ _ (a & N & _). destruct p; discriminate.
  - intros h s i a e s' o H I I' IH St Sy j p L' G J O.
    assert (L : j < n s).
    { destruct (step_n _ _ _ _ St) as [En|(En & i' & Ee)]; [lia|]. injection Ee as -> -> ->.
      destruct (step_create _ _ _ _ _ _ St) as (_ & _ & _ & Ej). destruct (Nat.eq_dec j (n s)); [|lia].
      subst j. rewrite Ej in G. discriminate. }
    destruct (into_gone _ _ _ _ _ _ _ I St L G J) as [(G0 & J0)|(-> & Ej & Ec & ->)].
    + assert (F : finished s j) by (unfold finished; destruct (P s j); cbn in G0; try discriminate; eauto).
      apply own_snoc in O as [O|(-> & [(E & N)|E])].
      * apply bloc_keep; [|eauto]. apply (not_rel _ _ _ _ _ _ (Tid j) I St Sy). intros X; rewrite X in G0; discriminate.
      * exfalso. cbn in E, N. destruct (step_gone _ _ _ _ _ _ _ I St L F). auto.
      * exfalso. cbn in E. injection E as ->. destruct (step_create _ _ _ _ _ _ St) as (-> & _). lia.
    + apply bloc_rel.
      * left. cbn. rewrite (syncs_ops _ _ _ _ _ Sy); [|intros b X; congruence]. unfold ops_of. rewrite Ej, Ec. cbn; auto.
      * apply own_snoc in O as [O|(-> & _)]; [|right; auto]. left. cbn. eapply own_before; eauto.
  - intros h s i H I IH L Ei j p Lj G J O. apply bloc_keep; [cbn; auto|]. apply own_snoc in O as [O|(-> & [(E & _)|E])]; [eauto| |discriminate].
    cbn in E. subst i. rewrite Ei in G. discriminate.
Qed.

(** the thread that waited for it has them before everything it does next *)
Lemma woken_before h s : kw = true -> hist c h s -> forall i j p, woken (P s i) j -> own h j p -> before kw h i p.
Proof.
  intros K H. revert h s H. apply (hist_ind' c (fun h s => forall i j p, woken (P s i) j -> own h j p -> before kw h i p)); auto.
  - intros s _ i j p _ (a & N & _). destruct p; discriminate.
  - intros h s x a e s' o H I I' IH St Sy i j p W O.
    destruct (into_woken _ _ _ _ _ _ _ _ I St W) as [W0|[(-> & k & Ep & E0 & ->)|(k & b & Es & Ek & Et & Ed)]].
    + destruct (i_woken _ _ I _ _ W0) as (J0 & G0).
      destruct (le_lt_dec (n s) j) as [L|L].
      { apply own_snoc in O as [O|(-> & [(E & _)|E])].
        - destruct (own_before _ _ _ _ H O). lia.
        - cbn in E. subst x. pose proof (actor_n _ _ _ _ _ _ I St). lia.
        - cbn in E. injection E as ->. destruct (step_create _ _ _ _ _ _ St) as (-> & _).
          destruct (P s i) eqn:Ei; cbn in W0; try contradiction; subst.
          + destruct (waits_of c s i k (n s) I) as (_ & _ & _ & X); [rewrite Ei; cbn; auto|lia].
          + destruct (waits_of c s i k (n s) I) as (_ & _ & _ & X); [rewrite Ei; cbn; auto|lia].
          + destruct (i_jret _ _ I _ _ _ _ Ei) as (C & _). apply (i_claim_lt _ _ I) in C. lia. }
      assert (F : finished s j) by (unfold finished; destruct (P s j); cbn in G0; try discriminate; eauto).
      apply own_snoc in O as [O|(-> & [(E & N)|E])].
      * apply before_ext. eauto.
      * exfalso. cbn in E, N. destruct (step_gone _ _ _ _ _ _ _ I St L F). auto.
      * exfalso. cbn in E. injection E as ->. destruct (step_create _ _ _ _ _ _ St) as (-> & _). lia.
    + (* the load saw 0 *)
      destruct (waits_of c s x k j I) as (_ & _ & _ & L); [rewrite Ep; cbn; auto|].
      assert (GJ : jn (T s j) && gone (P s j) = true).
      { destruct (jn (T s j) && gone (P s j)) eqn:X; auto. exfalso.
        pose proof (i_tid _ _ I j L X). pose proof (i_tpos _ _ I j L). lia. }
      apply andb_prop in GJ as (J & G).
      apply own_snoc in O as [O|(-> & [(E & N)|E])]; [| |discriminate].
      * apply (bloc_acq kw h (En x a (Some ENone) o) (Tid j)).
        -- left. cbn. rewrite (syncs_ops _ _ _ _ _ Sy); [|intros b X; congruence]. unfold ops_of. rewrite Ep. cbn; auto.
        -- eapply gone_bloc; eauto.
      * exfalso. cbn in E. subst x. rewrite Ep in G. discriminate.
    + (* woken *)
      assert (W' : waits (P s i) k j) by (rewrite Es; cbn; auto).
      destruct (waits_of c s i k j I W') as (_ & M & _ & L).
      assert (x = j).
      { destruct (Nat.eq_dec x j) as [|D]; auto. exfalso. eapply (i_wake_d _ _ I x); eauto. }
      subst x. assert (In (Wakes i) o).
      { destruct Sy as [b' w' k' j' H1 H2 H3|SN].
        - cbn. left. f_equal. clear -St H1 H2 H3 Es Ed Ek I.
          destruct (Nat.eq_dec w' i); auto. exfalso.
          inversion St; subst; unf; unfold fupd in *;
          repeat match goal with H : context [Nat.eqb ?a ?b] |- _ => destruct (Nat.eqb_spec a b); try subst a end; cbn [t_pc set_pc] in *; try congruence;
          try (rewrite Ek in *; cbn in *; discriminate).
        - destruct (SN i) as [X|X]; [intros ->; congruence|congruence|]. destruct (i_out _ _ I i X). congruence. }
      apply own_snoc in O as [O|(-> & _)].
      * apply (before_wake kw h (En j a (Some e) o)); auto. left. cbn. eapply own_before; eauto.
      * apply (before_wake kw h (En j a (Some e) o)); auto. right; auto.
  - intros h s x H I IH L Ei i j p W O. apply own_snoc in O as [O|(-> & [(E & N)|E])]; [apply before_ext; eauto| |discriminate].
    cbn in E. subst x. destruct (i_woken _ _ I _ _ W) as (_ & G). rewrite Ei in G. discriminate.
Qed.

(** ** what the crate's own atomics give, without the kernel's wake *)
Lemma user_not_run h s i a e s' o j p : inv c s -> step c s (i, a, e) s' -> j < n s -> jn (T s j) = true ->
  user (h ++ [En i a (Some e) o]) j p -> user h j p.
Proof.
  intros I St L J U. apply user_snoc in U as [U|(-> & [(E & [W|(v & W)])|E])]; auto; cbn in *; exfalso.
  - discriminate.
  - subst i. injection W as ->. apply step_return in St. unfold jn in J. rewrite St in J. discriminate.
  - injection E as ->. destruct (step_create _ _ _ _ _ _ St) as (-> & _). lia.
Qed.
Lemma jn_new s i a e s' j : step c s (i, a, e) s' -> j < n s' -> jn (T s' j) = true -> j < n s.
Proof.
  intros St L J. destruct (step_n _ _ _ _ St) as [En|(En & i' & Ee)]; [lia|]. injection Ee as -> -> ->.
  destruct (step_create _ _ _ _ _ _ St) as (_ & _ & _ & Ej). destruct (Nat.eq_dec j (n s)); [|lia].
  subst j. unfold jn in J. rewrite Ej in J. discriminate.
Qed.
Lemma user_not_user h s i j p : P s i = Run -> jn (T s j) = true -> user (h ++ [En i [i] None []]) j p -> user h j p.
Proof.
  intros E J U. apply user_snoc in U as [U|(-> & [(X & _)|X])]; auto; cbn in *; [|discriminate].
  subst i. unfold jn in J. rewrite E in J. discriminate.
Qed.

Lemma stored_bloc h s : hist c h s -> forall j p, j < n s -> jn (T s j) = true -> stored (P s j) = true ->
  user h j p -> bloc kw h (Ret j) p.
Proof.
  intros H. revert h s H. apply (hist_ind' c (fun h s => forall j p, j < n s -> jn (T s j) = true -> stored (P s j) = true ->
    user h j p -> bloc kw h (Ret j) p)); auto.
  - intros s _ j p _ _ _ (a & N & _). destruct p; discriminate.
  - intros h s i a e s' o H I I' IH St Sy j p L' J G U.
    pose proof (jn_new _ _ _ _ _ _ St L' J) as L.
    destruct (into_stored _ _ _ _ _ _ _ I St L J G) as [(J0 & G0)|(-> & v & Ej & ->)].
    + apply (user_not_run _ _ _ _ _ _ _ _ _ I St L J0) in U. apply bloc_keep; [|eauto].
      apply (not_rel _ _ _ _ _ _ (Ret j) I St Sy). intros v X; rewrite X in G0; discriminate.
    + apply bloc_rel.
      * left. cbn. rewrite (syncs_ops _ _ _ _ _ Sy); [|intros b X; congruence]. unfold ops_of. rewrite Ej. cbn; auto.
      * apply user_snoc in U as [U|(-> & _)]; [|right; auto]. left. cbn. eapply user_before; eauto.
  - intros h s i H I IH L Ei j p Lj J G U. apply bloc_keep; [cbn; auto|]. apply IH; auto. eapply user_not_user; eauto.
Qed.

Lemma jn_bloc h s : hist c h s -> forall j p, j < n s -> jn (T s j) = true -> user h j p -> bloc kw h (Det j) p.
Proof.
  intros H. revert h s H. apply (hist_ind' c (fun h s => forall j p, j < n s -> jn (T s j) = true -> user h j p -> bloc kw h (Det j) p)); auto.
  - intros s _ j p _ _ (a & N & _). destruct p; discriminate.
  - intros h s i a e s' o H I I' IH St Sy j p L' J U.
    pose proof (jn_new _ _ _ _ _ _ St L' J) as L.
    destruct (into_jn _ _ _ _ _ _ _ I St L J) as [J0|(-> & v & Ej & Ed & ->)].
    + apply (user_not_run _ _ _ _ _ _ _ _ _ I St L J0) in U. apply bloc_keep; [|eauto].
      apply (not_rel _ _ _ _ _ _ (Det j) I St Sy). exact Logic.I.
    + apply bloc_rel.
      * right. cbn. rewrite (syncs_ops _ _ _ _ _ Sy); [|intros b X; congruence]. unfold ops_of. rewrite Ej, Ed. cbn; auto.
      * apply user_snoc in U as [U|(-> & _)]; [|right; auto]. left. cbn. eapply user_before; eauto.
  - intros h s i H I IH L Ei j p Lj J U. apply bloc_keep; [cbn; auto|]. apply IH; auto. eapply user_not_user; eauto.
Qed.

Definition after_wait (p : pc) (k : kind) (j : nat) : Prop :=
  match k with
  | KJoin => exists v, p = JFree KJoin j v \/ p = JRet KJoin j v
  | KDetach => waits p KDetach j \/ exists v, p = JRet KDetach j v
  end.
Lemma after_wait_jn s i k j : inv c s -> after_wait (P s i) k j -> j < n s /\ jn (T s j) = true.
Proof.
  intros I A. assert (W : (waits (P s i) k j /\ (k = KDetach \/ woken (P s i) j)) \/ exists v, P s i = JRet k j v).
  { destruct k; cbn in A; [destruct A as (v & [A|A]); rewrite A; cbn; eauto|destruct A as [A|A]; eauto]. }
  destruct W as [(W & X)|(v & W)].
  - destruct (waits_of _ _ _ _ _ I W) as (_ & _ & D & L). split; auto.
    destruct X as [->|X]; [apply D; auto|]. apply (i_woken _ _ I _ _ X).
  - destruct (i_jret _ _ I _ _ _ _ W) as (C & _). split; [apply (i_claim_lt _ _ I) in C; tauto|].
    apply (i_woken _ _ I i). rewrite W. cbn. auto.
Qed.

Lemma wait_before h s : hist c h s -> forall i k j p, after_wait (P s i) k j -> user h j p -> before kw h i p.
Proof.
  intros H. revert h s H. apply (hist_ind' c (fun h s => forall i k j p, after_wait (P s i) k j -> user h j p -> before kw h i p)); auto.
  - intros s _ i k j p _ (a & N & _). destruct p; discriminate.
  - intros h s x a e s' o H I I' IH St Sy i k j p A U.
    assert (C : after_wait (P s i) k j \/
      (i = x /\ P s i = JDone KJoin j /\ e = ENone) \/ (i = x /\ P s i = DSwap j /\ r_det (R s j) = Abandoned /\ e = ENone)).
    { destruct k; cbn in A |- *.
      - destruct (into_jfree _ _ _ _ _ _ _ _ I St A) as [A0|A0]; auto.
      - destruct (into_wait _ _ _ _ _ _ _ _ I St A) as [A0|A0]; auto. }
    destruct C as [A0|[( -> & Ep & ->)|( -> & Ep & Ea & ->)]].
    + destruct (after_wait_jn _ _ _ _ I A0) as (L & J). apply (user_not_run _ _ _ _ _ _ _ _ _ I St L J) in U.
      apply before_ext. eauto.
    + assert (W : woken (P s x) j) by (rewrite Ep; cbn; auto). destruct (i_woken _ _ I _ _ W) as (J & G).
      destruct (waits_of c s x KJoin j I) as (_ & _ & _ & L); [rewrite Ep; cbn; auto|].
      apply (user_not_run _ _ _ _ _ _ _ _ _ I St L J) in U.
      apply (bloc_acq kw h (En x a (Some ENone) o) (Ret j)).
      * left. cbn. rewrite (syncs_ops _ _ _ _ _ Sy); [|intros b X; congruence]. unfold ops_of. rewrite Ep. cbn; auto.
      * eapply stored_bloc; eauto. destruct (P s j); cbn in *; congruence.
    + destruct (i_dswap _ _ I _ _ Ep) as (C & _). destruct (i_claim_lt _ _ I _ _ _ C) as (L & _).
      pose proof (i_aband _ _ I j L Ea) as J. apply (user_not_run _ _ _ _ _ _ _ _ _ I St L J) in U.
      apply (bloc_acq kw h (En x a (Some ENone) o) (Det j)).
      * right. cbn. rewrite (syncs_ops _ _ _ _ _ Sy); [|intros b X; congruence]. unfold ops_of. rewrite Ep. cbn; auto.
      * eapply jn_bloc; eauto.
  - intros h s x H I IH L Ei i k j p A U. apply before_ext. eapply IH; eauto.
    destruct (after_wait_jn _ _ _ _ I A). eapply user_not_user; eauto.
Qed.

(** ** what other threads did to a thread's memory *)
Lemma touch_other s i a e s' j : inv c s -> step c s (i, a, e) s' -> In j a -> j <> i ->
  (exists v, e = EId j v) \/ (exists k, waits (P s i) k j) \/ (P s i = DSwap j /\ e <> ESignal).
Proof.
  intros I St Hin D. inversion St; subst; cbn [In] in Hin;
   repeat match goal with H : _ \/ _ |- _ => destruct H as [ <- | H ] end; try contradiction; eauto;
   try (right; left; match goal with H : t_pc (T _ i) = _ |- _ => rewrite H end; cbn; eauto; fail).
  all: right; right; split; auto; discriminate.
Qed.
Lemma claim_keep s i a e s' j x : inv c s -> step c s (i, a, e) s' -> claim s j = Some x -> claim s' j = Some x.
Proof.
  intros I St C. pose proof (i_claim_lt _ _ I j (fst x) (snd x)) as L. rewrite <- surjective_pairing in L. destruct (L C) as (L1 & _).
  inversion St; subst; unf; unfold munmap; cbn [claim]; auto; unfold fupd; match goal with |- context [Nat.eqb j ?x] => destruct (Nat.eqb_spec j x) end; subst; auto; try congruence; lia.
Qed.
Lemma claim_back s i a e s' j k w : inv c s -> step c s (i, a, e) s' -> claim s' j = Some (k, w) ->
  claim s j = Some (k, w) \/ (w = i /\ claim s j = None /\ ((k = KJoin /\ P s' w = JLoad KJoin j) \/ (k = KDetach /\ P s' w = DSwap j))).
Proof.
  intros I St. inversion St; subst; unf; unfold munmap; cbn [claim]; auto; unfold fupd; 
   match goal with |- context [Nat.eqb j ?x] => destruct (Nat.eqb_spec j x) end; subst; auto; try congruence;
   intros X; injection X as <- <-; rewrite Nat.eqb_refl; right; repeat split; auto.
Qed.
Lemma pre_back s i a e s' j : inv c s -> step c s (i, a, e) s' -> j < n s -> pre (P s' j) = true -> pre (P s j) = true.
Proof. intros I St L. tr St; intros X; auto; try discriminate; rp; auto. Qed.
Lemma dswap_out s i a e s' w j : inv c s -> step c s (i, a, e) s' -> P s w = DSwap j -> P s' w <> DSwap j -> w = i /\ e <> ESignal.
Proof.
  intros I St E N. assert (L : w < n s) by (eapply actor_lt; eauto; congruence).
  revert N. tr St; intros; try congruence; split; auto; discriminate.
Qed.

Lemma other_claim h s : hist c h s -> forall j w p, other h j w p -> exists k, claim s j = Some (k, w).
Proof.
  intros H. revert h s H. apply (hist_ind' c (fun h s => forall j w p, other h j w p -> exists k, claim s j = Some (k, w))); auto.
  - intros s _ j w p (a & N & _). destruct p; discriminate.
  - intros h s i a e s' o H I I' IH St Sy j w p O.
    apply other_snoc in O as [O|(-> & <- & D & [(X & Y)|[X|X]])].
    + destruct (IH _ _ _ O) as (k & C). exists k. exact (claim_keep _ _ _ _ _ _ _ I St C).
    + cbn in *. destruct (touch_other _ _ _ _ _ _ I St X ltac:(auto)) as [(v & ->)|[(k & W)|(W & _)]].
      * exfalso. eapply Y; eauto.
      * destruct (i_waits _ _ I _ _ _ W) as (C & _). exists k. exact (claim_keep _ _ _ _ _ _ _ I St C).
      * destruct (i_dswap _ _ I _ _ W) as (C & _). exists KDetach. exact (claim_keep _ _ _ _ _ _ _ I St C).
    + cbn in X. injection X as ->. inversion St; subst. unf. unfold fupd. rewrite Nat.eqb_refl. cbn. eauto.
    + cbn in X. injection X as ->. inversion St; subst. unf. unfold fupd. rewrite Nat.eqb_refl. cbn. eauto.
  - intros h s i H I IH L Ei j w p O. apply other_snoc in O as [O|(-> & <- & D & [([X|[]] & Y)|[X|X]])]; eauto; try discriminate.
    cbn in *. congruence.
Qed.

Lemma other_bloc h s : hist c h s -> forall j w p, claim s j = Some (KDetach, w) -> P s w <> DSwap j -> pre (P s j) = true ->
  other h j w p -> bloc kw h (Det j) p.
Proof.
  intros H. revert h s H. apply (hist_ind' c (fun h s => forall j w p, claim s j = Some (KDetach, w) -> P s w <> DSwap j -> pre (P s j) = true ->
  other h j w p -> bloc kw h (Det j) p)); auto.
  - intros s _ j w p _ _ _ (a & N & _). destruct p; discriminate.
  - intros h s i a e s' o H I I' IH St Sy j w p C' D' P' O.
    destruct (claim_back _ _ _ _ _ _ _ _ I St C') as [C|(-> & _ & [(X & _)|(_ & X)])]; [|discriminate|contradiction].
    destruct (i_claim_lt _ _ I _ _ _ C) as (L & _).
    pose proof (pre_back _ _ _ _ _ _ I St L P') as P0.
    assert (DD : P s w = DSwap j \/ P s w <> DSwap j) by (destruct (P s w); try (right; discriminate); destruct (Nat.eq_dec j j0); [left|right]; congruence).
    destruct DD as [D|D].
    + destruct (dswap_out _ _ _ _ _ _ _ I St D D') as (-> & NS).
      apply bloc_rel.
      * right. cbn. rewrite (syncs_ops _ _ _ _ _ Sy); [|intros b X; congruence]. unfold ops_of. rewrite D.
        destruct e; cbn; auto; try congruence; inversion St; subst; congruence.
      * apply other_snoc in O as [O|(-> & _)]; [|right; auto]. left. cbn. destruct O as (b & N & E & _).
        eapply before_own; eauto.
    + apply other_snoc in O as [O|(-> & <- & Dw & [(X & Y)|[X|X]])].
      * apply bloc_keep; [|eauto]. apply (not_rel _ _ _ _ _ _ (Det j) I St Sy). exact Logic.I.
      * exfalso. cbn in *. destruct (touch_other _ _ _ _ _ _ I St X ltac:(auto)) as [(v & ->)|[(k & W)|(W & _)]].
        -- eapply Y; eauto.
        -- destruct (i_waits _ _ I _ _ _ W) as (C2 & _ & J). rewrite C in C2. injection C2 as <-.
           destruct (J eq_refl) as (_ & J1). unfold jn in J1. destruct (P s j); discriminate.
        -- contradiction.
      * exfalso. cbn in X. injection X as ->. inversion St; subst. congruence.
      * exfalso. cbn in X. injection X as ->. inversion St; subst. congruence.
  - intros h s i H I IH L Ei j w p C D P0 O. apply bloc_keep; [cbn; auto|].
    apply other_snoc in O as [O|(-> & <- & Dw & [([X|[]] & Y)|[X|X]])]; eauto; try discriminate. cbn in *. congruence.
Qed.

Lemma other_self h s : hist c h s -> forall j w p, j < n s -> self (T s j) = true -> other h j w p -> before kw h j p.
Proof.
  intros H. revert h s H. apply (hist_ind' c (fun h s => forall j w p, j < n s -> self (T s j) = true -> other h j w p -> before kw h j p)); auto.
  - intros s _ j w p _ _ (a & N & _). destruct p; discriminate.
  - intros h s i a e s' o H I I' IH St Sy j w p L' S' O.
    assert (L : j < n s).
    { destruct (step_n _ _ _ _ St) as [En|(En & i' & Ee)]; [lia|]. injection Ee as -> -> ->.
      destruct (step_create _ _ _ _ _ _ St) as (_ & _ & _ & Ej). destruct (Nat.eq_dec j (n s)); [|lia].
      subst j. unfold self in S'. rewrite Ej in S'. discriminate. }
    destruct (into_self _ _ _ _ _ _ _ I St L S') as [S0|(-> & v & Ej & Ed & ->)].
    + pose proof (i_self _ _ I j L S0) as Dj. destruct (i_det _ _ I j L Dj) as (w0 & C & _).
      apply other_snoc in O as [O|(-> & <- & Dw & [(X & Y)|[X|X]])].
      * apply before_ext. eauto.
      * exfalso. cbn in *. destruct (touch_other _ _ _ _ _ _ I St X ltac:(auto)) as [(v & ->)|[(k & W)|(W & _)]].
        -- eapply Y; eauto.
        -- destruct (i_waits _ _ I _ _ _ W) as (C2 & _ & J). rewrite C in C2. injection C2 as <- _.
           destruct (J eq_refl) as (_ & J1). unfold jn, self in *. destruct (P s j); try discriminate; destruct (t_clear (T s j)); discriminate.
        -- destruct (i_dswap _ _ I _ _ W) as (_ & _ & ND). contradiction.
      * exfalso. cbn in X. injection X as ->. inversion St; subst. congruence.
      * exfalso. cbn in X. injection X as ->. inversion St; subst. congruence.
    + destruct (i_det _ _ I j L Ed) as (w0 & C & N & _).
      apply other_snoc in O as [O|(-> & E & Dw & _)]; [|cbn in E; congruence].
      destruct (other_claim _ _ H _ _ _ O) as (k & C2). rewrite C in C2. injection C2 as <- <-.
      apply (bloc_acq kw h (En j a (Some ENone) o) (Det j)).
      * left. cbn. rewrite (syncs_ops _ _ _ _ _ Sy); [|intros b X; congruence]. unfold ops_of. rewrite Ej, Ed. cbn; auto.
      * eapply other_bloc; eauto. rewrite Ej. reflexivity.
  - intros h s i H I IH L Ei j w p Lj S0 O.
    apply other_snoc in O as [O|(-> & <- & Dw & [([X|[]] & Y)|[X|X]])]; try discriminate; [apply before_ext; eauto|]. cbn in *. congruence.
Qed.
End Inv.
