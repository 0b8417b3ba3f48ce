(** The invariant holds in every reachable state. *)
From Coq Require Import ZArith List Bool Lia Arith.
From Verif Require Import ThreadModel ThreadInv ThreadPres ThreadPres2 ThreadPres3.
Import ListNotations.
Open Scope Z_scope.

Lemma p_create c s i base guard map tid taddr : 0 < c_page c -> c_reuse c = false -> inv c s ->
  (i < n s)%nat -> P s i = Run ->
  0 < tid -> base mod c_page c = 0 -> 0 <= guard -> 0 < map ->
  (forall k, (k < n s)%nat -> r_mapped (R s k) = true -> overlaps base map (R s k) = false) ->
  base <= taddr < base + map ->
  (c_reuse c = false -> forall k a, (k < n s)%nat -> P s k = KWake a -> a <> taddr) ->
  inv c (St (S (n s))
          (fupd (T s) (n s) (Task Run tid true false None))
          (fupd (R s) (n s)
             (TRec tid Initial 0 (base + (guard + c_page c - 1) / c_page c * c_page c) guard map taddr base map true))
          (fupd (claim s) (n s) None)).
Proof.
  intros Hp Hr I H1 H2 H3 H4 H5 H6 H7 H8 H9. specialize (H9 Hr).
  destruct (i_out _ _ I (n s) (le_n _)) as (O1 & O2 & O3).
  assert (NW : forall j k, ~ waits (P s j) k (n s)).
  { intros j k W. destruct (i_waits _ _ I _ _ _ W) as (W1 & _). apply (i_claim_lt _ _ I) in W1. lia. }
  assert (NC : forall j k, claim s j <> Some (k, n s)).
  { intros j k W. apply (i_claim_lt _ _ I) in W. lia. }
  constructor; cbn [n T R claim]; intros; unfold fupd in *.
  - lia.
  - destruct (Nat.eqb_spec i0 (n s)) as [?E|?E]; [lia|]. apply (i_out _ _ I). lia.
  - destruct (Nat.eqb_spec j (n s)) as [?E|?E]; [reflexivity|]. apply (i_clear _ _ I).
  - destruct (Nat.eqb_spec j (n s)) as [?E|?E]; [reflexivity|]. apply (i_init _ _ I); [lia|assumption].
  - destruct (Nat.eqb_spec j (n s)) as [?E|?E]; [discriminate|]. apply (i_aband _ _ I); [lia|assumption].
  - destruct (Nat.eqb_spec j (n s)) as [?E|?E]; [discriminate|]. destruct (i_det _ _ I j) as (w & W1 & W2 & W3); [lia|assumption|].
    exists w. destruct (Nat.eqb_spec w (n s)) as [?E|?E]; [subst; exfalso; eapply NC; eauto|]. auto.
  - destruct (Nat.eqb_spec j (n s)) as [?E|?E]; [discriminate|]. apply (i_self _ _ I); [lia|assumption].
  - destruct (Nat.eqb_spec i0 (n s)) as [?E|?E]; [contradiction|]. destruct (i_waits _ _ I _ _ _ H) as (W1 & W2 & W3).
    destruct (Nat.eqb_spec j (n s)) as [?E|?E]; [subst; exfalso; eapply NW; eauto|]. auto.
  - destruct (Nat.eqb_spec i0 (n s)) as [?E|?E]; [discriminate|]. destruct (i_dswap _ _ I _ _ H) as (W1 & W2 & W3).
    destruct (Nat.eqb_spec j (n s)) as [?E|?E]; [subst; congruence|]. auto.
  - destruct (Nat.eqb_spec i0 (n s)) as [?E|?E]; [discriminate|]. destruct (i_jret _ _ I _ _ _ _ H) as (W1 & W2).
    destruct (Nat.eqb_spec j (n s)) as [?E|?E]; [subst; congruence|]. auto.
  - destruct (Nat.eqb_spec j (n s)) as [?E|?E]; [discriminate|]. apply (i_claim_lt _ _ I) in H. lia.
  - destruct (Nat.eqb_spec j (n s)) as [?E|?E]; [discriminate|]. destruct (Nat.eqb_spec i0 (n s)) as [?E|?E]; [subst; exfalso; eapply NC; eauto|].
    apply (i_claim_j _ _ I); auto.
  - destruct (Nat.eqb_spec j (n s)) as [?E|?E]; [discriminate|]. destruct (Nat.eqb_spec i0 (n s)) as [?E|?E]; [subst; exfalso; eapply NC; eauto|].
    apply (i_claim_d _ _ I); auto.
  - destruct (Nat.eqb_spec j (n s)) as [?E|?E]; [reflexivity|]. apply (i_mapped_none _ _ I); [lia|assumption].
  - destruct (Nat.eqb_spec j (n s)) as [?E|?E]; [discriminate|]. apply (i_mapped _ _ I); [lia|assumption].
  - destruct (Nat.eqb_spec j (n s)) as [?E|?E]; [discriminate|]. apply (i_freed _ _ I); auto; lia.
  - destruct (Nat.eqb_spec j (n s)) as [?E|?E]; [discriminate|]. apply (i_tid0 _ _ I); auto; lia.
  - destruct (Nat.eqb_spec j (n s)) as [?E|?E]; [reflexivity|]. apply (i_tid _ _ I); auto; lia.
  - destruct (Nat.eqb_spec j (n s)) as [?E|?E]; [assumption|]. apply (i_tpos _ _ I); auto; lia.
  - destruct (Nat.eqb_spec j (n s)) as [?E|?E]; [discriminate|]. apply (i_xval _ _ I); auto; lia.
  - destruct (Nat.eqb_spec j (n s)) as [?E|?E]; [discriminate|]. apply (i_ret _ _ I); auto; lia.
  - destruct (Nat.eqb_spec i0 (n s)) as [?E|?E]; [discriminate|]. pose proof (jval_woken _ _ _ H) as K.
    destruct (Nat.eqb_spec j (n s)) as [?E|?E].
    + subst. exfalso. destruct (P s i0) eqn:EP; cbn in K; try contradiction; subst;
      first [ eapply (NW i0); rewrite EP; cbn; auto; fail | destruct (i_jret _ _ I _ _ _ _ EP); congruence].
    + apply (i_jval _ _ I) in H. assumption.
  - destruct (Nat.eqb_spec i0 (n s)) as [?E|?E]; [contradiction|].
    destruct (Nat.eqb_spec j (n s)) as [?E|?E].
    + subst. exfalso. destruct (P s i0) eqn:EP; cbn in H; try contradiction; subst;
      first [ eapply (NW i0); rewrite EP; cbn; auto; fail | destruct (i_jret _ _ I _ _ _ _ EP); congruence].
    + apply (i_woken _ _ I) in H. assumption.
  - destruct (Nat.eqb_spec i0 (n s)) as [?E|?E]; [discriminate|].
    destruct (Nat.eqb_spec j (n s)) as [?E|?E]; [subst; exfalso; eapply (NW i0); rewrite H; cbn; auto|]. apply (i_sleep _ _ I) in H. assumption.
  - destruct (Nat.eqb_spec i0 (n s)) as [?E|?E]; [discriminate|]. apply (i_futex _ _ I) in H. assumption.
  - destruct (Nat.eqb_spec j (n s)) as [?E|?E]; [discriminate|]. apply (i_wake _ _ I); auto.
  - destruct (Nat.eqb_spec j (n s)) as [?E|?E]; [discriminate|]. destruct (Nat.eqb_spec k (n s)) as [?E|?E].
    + cbn. intros X. apply (H9 j a); auto. destruct (le_lt_dec (n s) j) as [L|L]; [|lia]. destruct (i_out _ _ I j L). congruence.
    + apply (i_wake_d _ _ I j); auto; lia.
  - destruct (Nat.eqb_spec j (n s)) as [?E|?E]; cbn [r_base r_taddr r_len r_guard r_map r_stack]; [auto 7|]. apply (i_geo _ _ I); lia.
  - assert (SY : forall a1 l1 r, overlaps a1 l1 r = false <-> (r_base r + r_len r <= a1 \/ a1 + l1 <= r_base r)).
    { intros. unfold overlaps. rewrite andb_false_iff, !Z.ltb_ge. tauto. }
    destruct (Nat.eqb_spec j (n s)) as [?E|?E]; destruct (Nat.eqb_spec k (n s)) as [?E|?E]; subst.
    + contradiction.
    + cbn. apply H7; [lia|assumption].
    + apply SY. cbn. specialize (H7 j ltac:(lia) ltac:(assumption)). apply SY in H7. lia.
    + apply (i_disj _ _ I); auto; lia.
  - destruct (Nat.eqb_spec 0 (n s)) as [?E|?E]; [pose proof (i_n _ _ I); lia|]. apply (i_main _ _ I).
  - destruct (Nat.eqb_spec j (n s)) as [?E|?E]; [contradiction|]. apply (i_block _ _ I); auto.
Qed.

Lemma waits_of c s i k j : inv c s -> waits (P s i) k j ->
  claim s j = Some (k, i) /\ r_mapped (R s j) = true /\ (k = KDetach -> r_det (R s j) = Detached /\ jn (T s j) = true) /\
  (j < n s)%nat.
Proof.
  intros I W. destruct (i_waits _ _ I _ _ _ W) as (A & B & C). repeat split; auto; try (apply C; auto).
  apply (i_claim_lt _ _ I) in A. tauto.
Qed.

(** moves inside a waiting call *)
Lemma p_wait c s i k j p : inv c s -> waits (P s i) k j -> waits p k j ->
  (forall v, jval p j = Some v -> t_fin (T s j) = Some v) ->
  (woken p j -> jn (T s j) = true /\ gone (P s j) = true) ->
  (p = JSleep k j -> r_tid (R s j) <> 0 \/ P s j = KWake (r_taddr (R s j))) ->
  (forall v, p = JFutex k j v -> v <> 0) ->
  inv c (goto s i p).
Proof.
  intros I W W' HV HK HS HF. destruct (waits_of _ _ _ _ _ I W) as (A & B & C & D).
  assert (PI : pre (P s i) = true /\ xval (P s i) = None) by (destruct (P s i); cbn in *; tauto).
  assert (PP : pre p = true /\ xval p = None) by (destruct p; cbn in *; tauto).
  assert (UQ : forall k' j', waits p k' j' -> k' = k /\ j' = j).
  { intros k' j' X. destruct p; cbn in *; try tauto; destruct W', X; subst; auto. }
  assert (UJ : forall j', claim s j' = Some (KJoin, i) -> r_mapped (R s j') = true -> k = KJoin /\ j' = j).
  { intros j' X Y. destruct (i_claim_j _ _ I _ _ X Y) as [Z|Z]; [|rewrite Z in W; contradiction].
    destruct (P s i); cbn in *; try tauto; destruct W, Z; subst; auto. }
  apply goto_pre; try tauto.
  - intros k' j' X. destruct (UQ _ _ X). subst. auto.
  - intros j' ->. contradiction.
  - intros k' j' rv' ->. contradiction.
  - intros j' X Y. destruct (UJ _ X Y). subst. auto.
  - intros j' X Y. rewrite (i_claim_d _ _ I _ _ X Y) in W. contradiction.
  - intros j' X Y Z1 Z2. destruct (i_claim_lt _ _ I _ _ _ X) as (L & _).
    destruct (i_det _ _ I j' L Y) as (w & E1 & _ & E3). assert (w = i) by congruence. subst.
    destruct (E3 Z1 Z2) as [Q|Q]; [|rewrite Q in W; contradiction].
    assert (k = KDetach /\ j' = j) by (destruct (P s i); cbn in *; try tauto; destruct W, Q; subst; auto).
    destruct H. subst. auto.
  - intros j' v X. assert (woken p j') by (eapply jval_woken; eauto).
    assert (j' = j) by (destruct p; cbn in *; try tauto; destruct W'; congruence). subst. auto.
  - intros j' X. assert (j' = j) by (destruct p; cbn in *; try tauto; destruct W'; congruence). subst. auto.
  - intros k' j' X. assert (k' = k /\ j' = j) by (rewrite X in W'; cbn in W'; tauto). destruct H; subst. auto.
  - intros k' j' v X. assert (k' = k /\ j' = j) by (rewrite X in W'; cbn in W'; tauto). destruct H; subst. eauto.
Qed.

(** from a waiting call to a panic *)
Lemma p_panic c s i k j : inv c s -> waits (P s i) k j -> inv c (goto s i Panicked).
Proof.
  intros I W. destruct (waits_of _ _ _ _ _ I W) as (A & B & C & D).
  assert (PI : pre (P s i) = true /\ xval (P s i) = None) by (destruct (P s i); cbn in *; tauto).
  apply goto_pre; try tauto; try discriminate; cbn; auto; try tauto.
  intros j' X Y. rewrite (i_claim_d _ _ I _ _ X Y) in W. contradiction.
Qed.

(** returning from a call *)
Lemma p_ret c s i k j rv : inv c s -> P s i = JRet k j rv -> inv c (goto s i Run).
Proof.
  intros I E. destruct (i_jret _ _ I _ _ _ _ E) as (A & B).
  apply goto_pre; try rewrite E; try discriminate; cbn; auto; try tauto.
  - intros j' X Y. destruct (i_claim_j _ _ I _ _ X Y) as [Z|Z]; rewrite E in Z; [contradiction|discriminate].
  - intros j' X Y. pose proof (i_claim_d _ _ I _ _ X Y). congruence.
  - intros j' X Y Z1 Z2. destruct (i_claim_lt _ _ I _ _ _ X) as (L & _).
    destruct (i_det _ _ I j' L Y) as (w & E1 & _ & E3). assert (w = i) by congruence. subst.
    destruct (E3 Z1 Z2) as [Q|Q]; rewrite E in Q; [contradiction|discriminate].
Qed.

Lemma jn_gone_ret c s j : inv c s -> (j < n s)%nat -> jn (T s j) = true -> gone (P s j) = true -> t_fin (T s j) = Some (r_ret (R s j)).
Proof. intros I L A B. apply (i_ret _ _ I); auto. destruct (P s j); cbn in *; congruence. Qed.

Lemma tid0_gone c s j : inv c s -> (j < n s)%nat -> r_tid (R s j) = 0 -> jn (T s j) = true /\ gone (P s j) = true.
Proof.
  intros I L E. destruct (jn (T s j) && gone (P s j)) eqn:X; [apply andb_true_iff in X; tauto|].
  pose proof (i_tid _ _ I j L X). pose proof (i_tpos _ _ I j L). lia.
Qed.

Ltac wt I i := match goal with E : P ?s i = _ |- _ =>
  let W := fresh "W" in
  match type of E with
  | _ = JLoad ?k ?j => assert (W : waits (P s i) k j) by (rewrite E; cbn; auto)
  | _ = JFutex ?k ?j _ => assert (W : waits (P s i) k j) by (rewrite E; cbn; auto)
  | _ = JSleep ?k ?j => assert (W : waits (P s i) k j) by (rewrite E; cbn; auto)
  | _ = JDone ?k ?j => assert (W : waits (P s i) k j) by (rewrite E; cbn; auto)
  | _ = JFree ?k ?j _ => assert (W : waits (P s i) k j) by (rewrite E; cbn; auto)
  end; destruct (waits_of _ _ _ _ _ I W) as (?WA & ?WB & ?WC & ?WL) end.

Lemma xcas_not_aband c s i rv : inv c s -> P s i = XCas rv -> r_det (R s i) <> Abandoned.
Proof.
  intros I E X. assert (L : (i < n s)%nat) by (apply (actor_lt c s i I); congruence).
  pose proof (i_aband _ _ I i L X) as Y. unfold jn in Y. rewrite E in Y. discriminate.
Qed.

Lemma map_pos c s i : inv c s -> (i < n s)%nat -> pre (P s i) = false \/ xval (P s i) <> None -> (0 < i)%nat /\ 0 < r_map (R s i).
Proof.
  intros I L H. destruct i as [|i].
  - destruct (i_main _ _ I). destruct H; congruence.
  - split; [lia|]. destruct (i_geo _ _ I (S i) L) as (_ & G). destruct G as (_ & _ & G & _); [lia|]. exact G.
Qed.

Theorem step_inv c s l s' : 0 < c_page c -> c_reuse c = false -> inv c s -> step c s l s' -> inv c s'.
Proof.
  intros Hp Hr I St. destruct St.
  - eapply p_create; eauto.
  - apply p_join; auto.
  - apply p_detach; auto.
  - assumption.
  - apply p_return; auto.
  - (* load0 *) wt I i. eapply p_wait; eauto; cbn; try tauto; try discriminate. intros _. eapply tid0_gone; eauto.
  - wt I i. eapply p_wait; eauto; cbn; try tauto; try discriminate. intros v [=]; subst; auto.
  - wt I i. eapply p_wait; eauto; cbn; try tauto; try discriminate.
  - wt I i. eapply p_wait; eauto; cbn; try tauto; try discriminate.
  - wt I i. eapply p_wait; eauto; cbn; try tauto; try discriminate. intros _. left.
    rewrite H0. eapply i_futex; eauto.
  - wt I i. eapply p_wait; eauto; cbn; try tauto; try discriminate.
  - (* join load *) wt I i. assert (K : woken (P s i) j) by (rewrite H; cbn; auto). destruct (i_woken _ _ I i j K) as (K1 & K2).
    eapply p_wait; eauto; cbn; try tauto; try discriminate.
    rewrite Nat.eqb_refl. intros v [= <-]. eapply jn_gone_ret; eauto.
  - wt I i. eapply p_panic; eauto.
  - wt I i. assert (K : woken (P s i) j) by (rewrite H; cbn; auto). destruct (i_woken _ _ I i j K) as (K1 & K2).
    eapply p_wait; eauto; cbn; try tauto; try discriminate.
  - (* free *) wt I i. assert (K : woken (P s i) j) by (rewrite H; cbn; auto). destruct (i_woken _ _ I i j K) as (K1 & K2).
    eapply inv_ext; [apply same_goto; eapply munmap_same; eauto|].
    + split; [|auto]. apply (map_pos c s j I); auto. left. destruct (P s j); cbn in *; congruence.
    + apply (p_free c s i k j rv); auto.
  - wt I i. eapply p_panic; eauto.
  - exfalso. wt I i. assert (K : woken (P s i) j) by (rewrite H; cbn; auto). destruct (i_woken _ _ I i j K) as (K1 & K2).
    assert (X : (0 < j)%nat /\ 0 < r_map (R s j)).
    { apply (map_pos c s j I); auto. left. destruct (P s j); cbn in *; congruence. } lia.
  - eapply p_ret; eauto.
  - eapply p_ret; eauto.
  - apply p_swap; auto.
  - apply p_swap_running; auto.
  - apply p_cas; auto.
  - exfalso. eapply xcas_not_aband; eauto.
  - apply (p_cas_detached c s i rv); auto. pose proof (xcas_not_aband _ _ _ _ I H). destruct (r_det (R s i)); congruence.
  - exfalso. assert (L : (i < n s)%nat) by (apply (actor_lt c s i I); congruence).
    assert (X : (0 < i)%nat /\ 0 < r_map (R s i)) by (apply (map_pos c s i I); auto; right; rewrite H; discriminate). lia.
  - apply p_store; auto.
  - apply p_exit; auto.
  - apply p_dx_settid; auto.
  - apply p_dx_block; auto.
  - apply p_dx_noblock; auto.
  - assert (L : (i < n s)%nat) by (apply (actor_lt c s i I); congruence).
    eapply inv_ext; [apply same_goto; eapply munmap_same; eauto|].
    + split; [|auto]. apply (map_pos c s i I); auto. left. rewrite H; reflexivity.
    + destruct (r_mapped (R s i)) eqn:M; [reflexivity|]. destruct (i_mapped _ _ I i L M) as [X|[_ X]]; rewrite H in X; discriminate.
    + apply p_dx_munmap; auto.
  - apply p_dx_einval; auto.
  - apply p_dx_exit; auto.
  - apply p_kclear; auto.
  - apply p_kclear_null; auto.
  - (* wake *)
    wt I w.
    assert (NE : w <> i) by congruence.
    assert (EJ : j = i).
    { destruct (Nat.eq_dec j i) as [|D]; auto. exfalso.
      eapply (i_wake_d _ _ I i a j); eauto. }
    subst j.
    assert (I1 : inv c (goto s w (JDone k i))).
    { eapply p_wait; eauto; cbn; try tauto; try discriminate. intros _. unfold jn. rewrite H. auto. }
    eapply inv_ext; [|apply (p_kwake_none c (goto s w (JDone k i)) i a I1)].
    + unfold same, goto; cbn [n T R claim]. repeat split; auto. intros x. unfold fupd.
      destruct (Nat.eqb_spec x i); destruct (Nat.eqb_spec x w); subst; auto; try congruence.
      * destruct (Nat.eqb_spec i w); [congruence|reflexivity].
      * destruct (Nat.eqb_spec w i); [congruence|reflexivity].
    + unfold goto; cbn [T]. unfold fupd. destruct (Nat.eqb_spec i w); [congruence|]. exact H.
    + unfold goto; cbn [T R]. unfold fupd. intros w' k' j'. destruct (Nat.eqb_spec w' w); [discriminate|].
      intros X Y. assert (W2 : waits (P s w') k' j') by (rewrite X; cbn; auto).
      destruct (waits_of _ _ _ _ _ I W2) as (Q1 & Q2 & _ & Q4).
      destruct (Nat.eq_dec j' i) as [->|D]; [congruence|]. eapply (i_wake_d _ _ I i a j'); eauto.
  - eapply p_kwake_none; eauto. intros w k j E. apply (H0 w k j); auto. eapply actor_lt; eauto. congruence.
  - assumption.
Qed.

Theorem exec_inv c s tr s' : 0 < c_page c -> c_reuse c = false -> inv c s -> exec c s tr s' -> inv c s'.
Proof. intros Hp Hr I E. induction E; auto. apply (step_inv c s1 l s2); auto. Qed.

Theorem run_inv c tr s : 0 < c_page c -> c_reuse c = false -> run c tr s -> inv c s.
Proof. intros Hp Hr (s0 & H & E). eapply exec_inv; eauto. apply init_inv; auto. Qed.
