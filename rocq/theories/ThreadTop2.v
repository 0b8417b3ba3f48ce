From Coq Require Import ZArith List Bool Lia Arith.
From Verif Require Import ThreadModel ThreadInv ThreadPres ThreadPres4 ThreadSpec ThreadTop.
Import ListNotations.
Open Scope Z_scope.

Lemma guard_munmap_ok c s j : 0 < c_page c -> inv c s -> (0 < j < n s)%nat -> r_guard (R s j) mod c_page c = 0 ->
  munmap_ok c (R s j) = true.
Proof.
  intros Hp I L G. destruct (i_geo _ _ I j ltac:(lia)) as (_ & X). destruct (X ltac:(lia)) as (X1 & X2 & X3 & X4 & X5).
  unfold munmap_ok, munmap_addr. rewrite X5. apply Z.eqb_eq.
  rewrite Zminus_mod, G, Z.mod_add by lia. rewrite X1. reflexivity.
Qed.

Lemma self_not_main c s j : inv c s -> (j < n s)%nat -> gone (P s j) = true -> (0 < j)%nat.
Proof.
  intros I L G. destruct j; [|lia]. destruct (i_main _ _ I) as (X & _). destruct (P s 0%nat); cbn in *; congruence.
Qed.

(** ** claims and calls in the trace *)
Lemma claim_history c tr s : 0 < c_page c -> c_reuse c = false -> run c tr s ->
  forall j, (claim s j <> None <-> (join_called tr j \/ detach_called tr j)) /\
            ((n s <= j)%nat -> ~ (join_called tr j \/ detach_called tr j)).
Proof.
  intros Hp Hr. revert tr s. apply (run_ind' c (fun tr s => forall j, (claim s j <> None <-> (join_called tr j \/ detach_called tr j)) /\
            ((n s <= j)%nat -> ~ (join_called tr j \/ detach_called tr j)))); auto.
  - intros s (tid & sk & g & ta & b & len & _ & _ & ->) j. cbn [claim init].
    assert (N : ~ (join_called [] j \/ detach_called [] j)) by (intros [(i & acc & [])|(i & acc & [])]).
    split; [split; [congruence|intros X; contradiction]|intros _ X; contradiction].
  - intros tr s l s' _ I I' IH St j. destruct (IH j) as (IH1 & IH2).
    assert (OUT : (n s' <= j)%nat -> claim s' j = None) by (intros L; destruct (i_out _ _ I' j L) as (_ & X & _); exact X).
    assert (E : claim s' j <> None <-> (join_called (tr ++ [l]) j \/ detach_called (tr ++ [l]) j)).
    { assert (JC : (join_called (tr ++ [l]) j \/ detach_called (tr ++ [l]) j) <->
         ((join_called tr j \/ detach_called tr j) \/ (exists i acc, l = (i, acc, ECallJoin j)) \/ (exists i acc, l = (i, acc, ECallDetach j)))).
      { unfold join_called, detach_called. setoid_rewrite did_snoc. split.
        - intros [(i & [X|X])|(i & [X|X])]; eauto 8.
        - intros [[(i & X)|(i & X)]|[(i & X)|(i & X)]]; eauto 8. }
      rewrite JC, <- IH1. clear JC.
      destruct St; unf; unfold munmap; cbn [claim n] in *;
        try (split; [auto|intros [X|[(x & y & X)|(x & y & X)]]; [exact X|discriminate|discriminate]]; fail).
      + unfold fupd. destruct (Nat.eqb_spec j (n s)); subst.
        * split; [congruence|]. intros [X|[(x & y & X)|(x & y & X)]]; try discriminate. rewrite IH1 in X. exfalso. apply IH2; auto.
        * split; [auto|intros [X|[(x & y & X)|(x & y & X)]]; [exact X|discriminate|discriminate]].
      + unfold fupd. destruct (Nat.eqb_spec j j0); subst.
        * split; [intros _; right; left; eauto|discriminate].
        * split; [auto|intros [X|[(x & y & X)|(x & y & X)]]; [exact X|congruence|discriminate]].
      + unfold fupd. destruct (Nat.eqb_spec j j0); subst.
        * split; [intros _; right; right; eauto|discriminate].
        * split; [auto|intros [X|[(x & y & X)|(x & y & X)]]; [exact X|discriminate|congruence]]. }
    split; [exact E|]. intros L X. apply E in X. apply X. auto.
Qed.

(** ** no leaks *)
Definition detached_self (s : st) (j : nat) : Prop := r_det (R s j) = Detached /\ jn (T s j) = false.

Lemma step_detached_self c s i acc e s' j : 0 < c_page c -> inv c s -> step c s (i, acc, e) s' -> (j < n s)%nat ->
  detached_self s j -> detached_self s' j.
Proof.
  intros Hp I St L (D & J). unfold detached_self in *.
  destruct (step_actor _ _ _ _ _ _ I St) as (ND & _).
  inversion St; subst; unf; unfold munmap; cbn [R T];
   try (destruct (overlaps _ _ (R s j)));
   fu1; auto; try (exfalso; lia); try congruence;
   repeat match goal with
   | H : P s ?x = _ |- context [jn (set_pc (T s ?x) _)] => unfold jn in *; cbn [t_pc t_clear set_pc set_clear set_block set_fin] in *; rewrite H in *
   | |- context [jn _] => unfold jn in *; cbn [t_pc t_clear set_pc set_clear set_block set_fin] in *
   end; auto; try congruence; try (split; [congruence|auto]; fail); try discriminate.
  - exfalso. match goal with H : P s i = _ |- _ =>
      assert (Y : (0 < i)%nat /\ 0 < r_map (R s i)) by (apply (map_pos c s i I); auto; right; rewrite H; discriminate) end. lia.
  - pose proof (i_clear _ _ I i) as X. match goal with H : P s i = DxExit |- _ => rewrite H in X end. cbn in X. split; auto. now destruct (t_clear (T s i)).
Qed.

Lemma return_history c tr s : 0 < c_page c -> c_reuse c = false -> run c tr s ->
  forall j, (join_returned tr j -> (j < n s)%nat /\ ~ mapped s j) /\
            (detach_returned tr j -> (j < n s)%nat /\ (~ mapped s j \/ detached_self s j)).
Proof.
  intros Hp Hr. revert tr s. apply (run_ind' c (fun tr s => forall j, (join_returned tr j -> (j < n s)%nat /\ ~ mapped s j) /\
            (detach_returned tr j -> (j < n s)%nat /\ (~ mapped s j \/ detached_self s j)))); auto.
  - intros s _ j. split; [intros (i & rv & acc & [])|intros (i & acc & [])].
  - intros tr s [[i acc] e] s' _ I I' IH St j. destruct (IH j) as (IH1 & IH2).
    assert (KEEP : (j < n s)%nat -> ~ mapped s j -> (j < n s')%nat /\ ~ mapped s' j).
    { intros L M. split; [destruct (step_n _ _ _ _ St) as [->|[-> _]]; lia|]. unfold mapped in *.
      destruct (step_mem c s i acc e s' Hp I St) as (_ & [(x & _ & _ & _ & _ & X)|(_ & X & _)]); rewrite X by auto; auto.
      destruct (Nat.eqb j x); [discriminate|auto]. }
    split.
    + intros (x & rv & D). apply did_snoc in D as [D|(ac & D)].
      * destruct IH1 as (A & B); [exists x, rv; auto|]. apply KEEP; auto.
      * injection D as -> -> ->. inversion St; subst. match goal with H : P s x = _ |- _ => rename H into E end.
        destruct (i_jret _ _ I _ _ _ _ E) as (A & B). apply (i_claim_lt _ _ I) in A. apply KEEP; [tauto|]. unfold mapped; congruence.
    + intros (x & D). apply did_snoc in D as [D|(ac & D)].
      * destruct IH2 as (A & [B|B]); [exists x; auto| |].
        -- destruct (KEEP A B); auto.
        -- split; [destruct (step_n _ _ _ _ St) as [->|[-> _]]; lia|]. right. apply (step_detached_self c s i acc e s'); auto.
      * injection D as -> -> ->. inversion St; subst; match goal with H : P s x = _ |- _ => rename H into E end.
        -- destruct (i_jret _ _ I _ _ _ _ E) as (A & B). apply (i_claim_lt _ _ I) in A. destruct KEEP; [tauto|unfold mapped; congruence|]. auto.
        -- destruct (i_dswap _ _ I _ _ E) as (A & B & C). apply (i_claim_lt _ _ I) in A. unf. split; [tauto|]. right.
           assert (DI : r_det (R s j) = Initial) by (destruct (r_det (R s j)); congruence).
           pose proof (i_init _ _ I j (proj1 A) DI) as AJ. destruct (pre_facts _ AJ) as (PF & _). specialize (PF _ eq_refl).
           unfold detached_self; cbn [R T]. fu1; split; auto; congruence.
Qed.

Lemma no_leak c tr s j : 0 < c_page c -> c_reuse c = false -> run c tr s -> guards_ok c s ->
  (join_returned tr j -> ~ mapped s j) /\ (detach_returned tr j -> exited s j -> ~ mapped s j).
Proof.
  intros Hp Hr Rn G. destruct (return_history _ _ _ Hp Hr Rn j) as (A & B). split; [intros X; apply A; auto|].
  intros X E. destruct (B X) as (L & [M|(M1 & M2)]); auto. unfold exited in E.
  pose proof (run_inv _ _ _ Hp Hr Rn) as I.
  assert (J0 : (0 < j)%nat) by (eapply self_not_main; eauto; rewrite E; reflexivity).
  unfold mapped. rewrite (i_freed _ _ I j L); [discriminate| | |].
  - unfold jn, self in *. rewrite E in *. now rewrite M2.
  - rewrite E; reflexivity.
  - eapply guard_munmap_ok; eauto.
Qed.

Lemma unclaimed_mapped c tr s j : 0 < c_page c -> c_reuse c = false -> run c tr s -> (j < n s)%nat ->
  ~ join_called tr j -> ~ detach_called tr j -> mapped s j.
Proof.
  intros Hp Hr Rn L A B. pose proof (run_inv _ _ _ Hp Hr Rn) as I. apply (i_mapped_none _ _ I); auto.
  destruct (claim s j) eqn:E; auto. exfalso.
  destruct (claim_history _ _ _ Hp Hr Rn j) as (X & _).
  assert (Y : claim s j <> None) by congruence. apply X in Y. tauto.
Qed.

Lemma quiescent_exact c tr s : 0 < c_page c -> c_reuse c = false -> run c tr s -> guards_ok c s ->
  (forall i, (i < n s)%nat -> (exited s i \/ t_pc (T s i) = Run)) ->
  forall j, (0 < j < n s)%nat -> exited s j ->
  (mapped s j <-> ~ (join_called tr j \/ detach_called tr j)).
Proof.
  intros Hp Hr Rn G Q j L X. pose proof (run_inv _ _ _ Hp Hr Rn) as I. split.
  - intros M C. destruct (claim_history _ _ _ Hp Hr Rn j) as (CH & _). apply CH in C.
    destruct (claim s j) as [[k i]|] eqn:E; [|congruence]. unfold mapped, exited in *.
    destruct (i_claim_lt _ _ I _ _ _ E) as (_ & Li).
    assert (NQ : forall k' j', ~ waits (P s i) k' j' /\ P s i <> Panicked /\ P s i <> DSwap j').
    { intros k' j'. destruct (Q i Li) as [Y|Y]; rewrite Y; cbn; repeat split; auto; discriminate. }
    destruct k.
    + destruct (i_claim_j _ _ I _ _ E M) as [Y|Y]; [exact (proj1 (NQ _ _) Y)|]. destruct (NQ KJoin j) as (_ & Z & _). auto.
    + destruct (r_det (R s j)) eqn:D.
      * destruct (NQ KJoin j) as (_ & _ & Z). apply Z. apply (i_claim_d _ _ I); auto. congruence.
      * destruct (i_det _ _ I j ltac:(lia) D) as (w & W1 & _ & W2). assert (w = i) by congruence. subst w.
        destruct (jn (T s j)) eqn:J.
        -- destruct (W2 eq_refl M) as [Y|Y]; [exact (proj1 (NQ _ _) Y)|]. destruct (NQ KJoin j) as (_ & Z & _). auto.
        -- rewrite (i_freed _ _ I j) in M; [discriminate|lia| | |].
           ++ unfold jn, self in *. rewrite X in *. now rewrite J.
           ++ rewrite X; reflexivity.
           ++ eapply guard_munmap_ok; eauto.
      * destruct (NQ KJoin j) as (_ & _ & Z). apply Z. apply (i_claim_d _ _ I); auto. congruence.
  - intros C. eapply unclaimed_mapped; eauto. lia.
Qed.

(** ** no panics *)
Lemma guards_back c s tr s' : 0 < c_page c -> c_reuse c = false -> inv c s -> exec c s tr s' -> guards_ok c s' -> guards_ok c s.
Proof.
  intros Hp Hr I E. induction E as [|s tr s1 l s2 E IH St]; auto.
  intros G. apply IH; auto. pose proof (exec_inv _ _ _ _ Hp Hr I E) as I1.
  intros j L. destruct l as [[i acc] e]. destruct (step_mem c s1 i acc e s2 Hp I1 St) as (B & _).
  destruct (B j ltac:(lia)) as (_ & _ & <-). apply G. destruct (step_n _ _ _ _ St) as [->|[-> _]]; lia.
Qed.

Lemma step_no_panic c s l s' : 0 < c_page c -> inv c s -> guards_ok c s -> (forall i, P s i <> Panicked) ->
  step c s l s' -> forall i, P s' i <> Panicked.
Proof.
  intros Hp I G NP St x.
  assert (PW : forall i k j, waits (P s i) k j -> woken (P s i) j ->
     (0 < j < n s)%nat /\ munmap_ok c (R s j) = true /\ (k = KJoin -> r_det (R s j) = Abandoned)).
  { intros i k j W K. destruct (waits_of _ _ _ _ _ I W) as (A & _ & _ & L). destruct (i_woken _ _ I i j K) as (K1 & K2).
    assert (J0 : (0 < j)%nat) by (eapply self_not_main; eauto).
    split; [lia|]. split; [apply guard_munmap_ok; auto; apply G; lia|]. intros ->.
    destruct (r_det (R s j)) eqn:D; auto.
    - pose proof (i_init _ _ I j L D) as X. destruct (P s j); cbn in *; congruence.
    - destruct (i_det _ _ I j L D) as (w & X & _). congruence. }
  destruct St; unf; unfold munmap; cbn [T]; fu1; try discriminate; try apply NP.
  - destruct (PW i KJoin j) as (_ & _ & X); [rewrite H; cbn; auto|rewrite H; cbn; auto|]. specialize (X eq_refl). congruence.
  - destruct (PW i k j) as (_ & X & _); [rewrite H; cbn; auto|rewrite H; cbn; auto|]. congruence.
  - exfalso. eapply xcas_not_aband; eauto.
Qed.

Lemma no_panic c tr s : 0 < c_page c -> c_reuse c = false -> run c tr s -> guards_ok c s -> forall i, P s i <> Panicked.
Proof.
  intros Hp Hr. revert tr s. apply (run_ind' c (fun tr s => guards_ok c s -> forall i, P s i <> Panicked)); auto.
  - intros s (tid & sk & g & ta & b & len & _ & _ & ->) _ [|i]; discriminate.
  - intros tr s l s' _ I I' IH St G. 
    assert (G0 : guards_ok c s).
    { intros j L. destruct l as [[i acc] e]. destruct (step_mem c s i acc e s' Hp I St) as (B & _).
      destruct (B j ltac:(lia)) as (_ & _ & <-). apply G. destruct (step_n _ _ _ _ St) as [->|[-> _]]; lia. }
    apply (step_no_panic c s l s'); auto.
Qed.

(** ** no lost wake-ups *)
Lemma no_sleeper c tr s i k j : 0 < c_page c -> c_reuse c = false -> run c tr s -> t_pc (T s i) = JSleep k j -> ~ exited s j.
Proof.
  intros Hp Hr Rn E X. pose proof (run_inv _ _ _ Hp Hr Rn) as I. unfold exited in X.
  assert (W : waits (P s i) k j) by (rewrite E; cbn; auto). destruct (waits_of _ _ _ _ _ I W) as (A & B & C & L).
  destruct (i_sleep _ _ I _ _ _ E) as [Y|Y]; [|congruence].
  destruct (jn (T s j)) eqn:J; [apply Y, (i_tid0 _ _ I); auto; rewrite X; reflexivity|].
  assert (S : self (T s j) = true) by (unfold jn, self in *; rewrite X in *; now rewrite J).
  pose proof (i_self _ _ I j L S) as D. destruct (i_det _ _ I j L D) as (w & W1 & _).
  destruct k; [congruence|]. destruct C as (_ & C); auto. congruence.
Qed.

Definition todo (p : pc) : nat :=
  match p with JRet _ _ _ => 1 | JFree _ _ _ => 2 | JDone _ _ => 3 | JLoad _ _ => 4 | JFutex _ _ _ | DSwap _ => 5 | _ => 0 end.

Lemma in_call_alive c s i j : inv c s -> exited s j -> in_call s i j -> (j < n s)%nat ->
  i <> j /\ (1 <= todo (P s i) <= 5)%nat \/ exists k, P s i = JSleep k j.
Proof.
  intros I X H L. unfold in_call, exited in *. destruct (P s i) eqn:E; cbn in H; try contradiction; subst; eauto;
  left; (split; [congruence|cbn; lia]).
Qed.

(** one own step of a caller whose target has exited *)
Lemma call_step c s i acc e s' j : 0 < c_page c -> inv c s -> guards_ok c s -> (j < n s)%nat -> exited s j -> in_call s i j ->
  (forall k, P s i <> JSleep k j) -> step c s (i, acc, e) s' -> e <> ESignal ->
  (exists rv, e = EJoin j rv) \/ e = EDetach j \/ (in_call s' i j /\ (todo (P s' i) < todo (P s i))%nat /\ forall k, P s' i <> JSleep k j).
Proof.
  intros Hp I G L X H NS St NE.
  assert (T0 : forall k, waits (P s i) k j -> r_tid (R s j) = 0 /\ munmap_ok c (R s j) = true /\ (woken (P s i) j -> k = KJoin -> r_det (R s j) = Abandoned)).
  { intros k W. destruct (waits_of _ _ _ _ _ I W) as (A & B & C & _). unfold exited in X.
    assert (J : jn (T s j) = true).
    { destruct (jn (T s j)) eqn:J; auto. assert (S : self (T s j) = true) by (unfold jn, self in *; rewrite X in *; now rewrite J).
      pose proof (i_self _ _ I j L S) as D. destruct (i_det _ _ I j L D) as (w & W1 & _).
      destruct k; [congruence|]. destruct C as (_ & C); auto; congruence. }
    split; [apply (i_tid0 _ _ I); auto; rewrite X; reflexivity|].
    assert (J0 : (0 < j)%nat) by (eapply self_not_main; eauto; rewrite X; reflexivity).
    split; [apply guard_munmap_ok; auto; apply G; lia|]. intros K ->.
    destruct (r_det (R s j)) eqn:D; auto.
    - pose proof (i_init _ _ I j L D) as Y. rewrite X in Y; discriminate.
    - destruct (i_det _ _ I j L D) as (w & Y & _). congruence. }
  assert (MP : r_map (R s j) <> 0).
  { assert (J0 : (0 < j)%nat) by (eapply self_not_main; eauto; unfold exited in X; rewrite X; reflexivity).
    destruct (i_geo _ _ I j L) as (_ & Y). destruct (Y J0) as (_ & _ & Z & _). lia. }
  unfold in_call, exited in *.
  inversion St; subst; try congruence;
    match goal with E : t_pc (T ?q ?x) = _ |- _ => rewrite E in H, T0, NS; cbn [waits woken] in T0 | _ => idtac end; try contradiction;
    try (subst j0; try (destruct (T0 _ (conj eq_refl eq_refl)) as (T1 & T2 & T3))).
  all: try congruence.
  all: try (right; right; unf; unfold munmap; cbn [T]; unfold fupd; rewrite Nat.eqb_refl; cbn [t_pc set_pc];
     match goal with E : t_pc (T ?q ?x) = _ |- _ => rewrite E end; cbn; (split; [reflexivity|split; [lia|discriminate]]); fail).
  all: try (left; eauto; fail). all: try (right; left; reflexivity).
  all: try (exfalso; eapply NS; reflexivity).
  - exfalso. match goal with E : P s i = JFutex _ _ _ |- _ => apply (i_futex _ _ I _ _ _ _ E T1) end.
  - specialize (T3 eq_refl eq_refl). contradiction.
Qed.

Lemma call_enabled c s i j : 0 < c_page c -> inv c s -> guards_ok c s -> (j < n s)%nat -> exited s j -> in_call s i j ->
  (forall k, P s i <> JSleep k j) -> exists acc e s', e <> ESignal /\ step c s (i, acc, e) s'.
Proof.
  intros Hp I G L X H NS. unfold in_call in H.
  assert (J0 : (0 < j)%nat) by (eapply self_not_main; eauto; unfold exited in X; rewrite X; reflexivity).
  assert (MP : r_map (R s j) <> 0).
  { destruct (i_geo _ _ I j L) as (_ & Y). destruct (Y J0) as (_ & _ & Z & _). lia. }
  assert (MO : munmap_ok c (R s j) = true) by (apply guard_munmap_ok; auto; apply G; lia).
  destruct (P s i) as [|k j'|k j' v|k j'|k j'|k j' rv|k j' rv|j'| | | | | | | | | | |] eqn:E; try contradiction; subst j'.
  - destruct (Z.eq_dec (r_tid (R s j)) 0).
    + do 3 eexists. split; [|eapply s_load0; eauto]. discriminate.
    + do 3 eexists. split; [|eapply s_load; eauto]. discriminate.
  - do 3 eexists. split; [|eapply s_futex_intr; eauto]. discriminate.
  - exfalso. eapply NS; reflexivity.
  - destruct k.
    + destruct (r_det (R s j)) eqn:D; destruct (c_debug c) eqn:DB;
      try (do 3 eexists; split; [|eapply s_join_load; eauto]; discriminate);
      do 3 eexists; (split; [|eapply s_join_assert; eauto; congruence]); discriminate.
    + do 3 eexists. split; [|eapply s_detach_done; eauto]. discriminate.
  - do 3 eexists. split; [|eapply s_free; eauto]. discriminate.
  - destruct k; do 3 eexists; (split; [|first [eapply s_ret_join; eauto; fail | eapply s_ret_detach; eauto]]); discriminate.
  - destruct (r_det (R s j)) eqn:D.
    + do 3 eexists. split; [|eapply s_swap_running; eauto; congruence]. discriminate.
    + do 3 eexists. split; [|eapply s_swap_running; eauto; congruence]. discriminate.
    + do 3 eexists. split; [|eapply s_swap; eauto]. discriminate.
Qed.

Lemma own_steps_snoc i tr l : own_steps i (tr ++ [l]) = (own_steps i tr + if own_step i l then 1 else 0)%nat.
Proof. unfold own_steps. rewrite filter_app, app_length. cbn. destruct (own_step i l); reflexivity. Qed.

Lemma signal_same c s i acc s' : step c s (i, acc, ESignal) s' -> s' = s.
Proof. intros St. inversion St; reflexivity. Qed.

(** From any state where j has exited and i is in a call on j: after five own
    steps of i, whatever else runs, the call has returned; until then i can
    always step. *)
Lemma call_completes c s tr s' i j : 0 < c_page c -> c_reuse c = false ->
  (exists tr0, run c tr0 s) -> exited s j -> in_call s i j -> exec c s tr s' -> guards_ok c s' ->
  ((exists rv, did tr i (EJoin j rv)) \/ did tr i (EDetach j)) \/
  (in_call s' i j /\ (own_steps i tr < 5)%nat /\ exists acc e s2, e <> ESignal /\ step c s' (i, acc, e) s2).
Proof.
  intros Hp Hr (tr0 & Rn) X H E G. pose proof (run_inv _ _ _ Hp Hr Rn) as I.
  assert (L : (j < n s)%nat).
  { unfold in_call in H. destruct (P s i) eqn:EP; try contradiction; subst;
    try (match type of EP with _ = JRet _ _ _ => destruct (i_jret _ _ I _ _ _ _ EP) as (C & _) | _ = DSwap _ => destruct (i_dswap _ _ I _ _ EP) as (C & _)
      | _ => edestruct (i_waits _ _ I i) as (C & _); [rewrite EP; cbn; eauto|] end; apply (i_claim_lt _ _ I) in C; tauto). }
  assert (M : ((exists rv, did tr i (EJoin j rv)) \/ did tr i (EDetach j)) \/
    (in_call s' i j /\ exited s' j /\ (n s <= n s')%nat /\ (forall k, P s' i <> JSleep k j) /\ (own_steps i tr + todo (P s' i) <= 5)%nat /\ (1 <= todo (P s' i))%nat)).
  { induction E as [s|s tr s1 l s2 E IH St].
    - right. destruct (in_call_alive c s i j I X H L) as [(_ & Y)|(k & Y)].
      + split; auto. split; auto. split; [lia|]. split; [|unfold own_steps; cbn; lia]. intros k Z. rewrite Z in Y. cbn in Y. lia.
      + exfalso. eapply no_sleeper; eauto.
    - pose proof (exec_inv _ _ _ _ Hp Hr I E) as I1. pose proof (step_inv _ _ _ _ Hp Hr I1 St) as I2.
      assert (G1 : guards_ok c s1).
      { intros x Lx. destruct l as [[a acc] e]. destruct (step_mem c s1 a acc e s2 Hp I1 St) as (B & _).
        destruct (B x ltac:(lia)) as (_ & _ & <-). apply G. destruct (step_n _ _ _ _ St) as [->|[-> _]]; lia. }
      destruct IH as [[(rv & D)|D]|(H1 & X1 & N1 & S1 & O1 & O2)]; auto.
      + left. left. exists rv. apply did_snoc. auto.
      + left. right. apply did_snoc. auto.
      + destruct l as [[a acc] e].
        assert (X2 : exited s2 j).
        { unfold exited. assert (a <> j) by (intros ->; destruct (step_actor _ _ _ _ _ _ I1 St) as (Y & _); auto).
          rewrite (step_other _ _ _ _ _ _ j St); auto; [lia|]. unfold exited in X1. rewrite X1. discriminate. }
        assert (N2 : (n s <= n s2)%nat) by (destruct (step_n _ _ _ _ St) as [->|[-> _]]; lia).
        destruct (Nat.eq_dec a i) as [->|D].
        * destruct e eqn:Ee; try (match goal with |- context [(i, acc, ?ee)] =>
            destruct (call_step c s1 i acc ee s2 j Hp I1 G1 ltac:(lia) X1 H1 S1 St ltac:(discriminate)) as [(rv' & Y)|[Y|(Y1 & Y2 & Y3)]] end;
            [left; left; exists rv'; apply did_snoc; right; rewrite <- Y; eauto
            |left; right; apply did_snoc; right; rewrite <- Y; eauto
            |right; split; auto; split; auto; split; auto; split; auto; rewrite own_steps_snoc; unfold own_step; rewrite Nat.eqb_refl; cbn [andb];
             split; [lia|]; destruct (in_call_alive c s2 i j I2 X2 Y1 ltac:(lia)) as [(_ & Z)|(k & Z)]; [lia|exfalso; eapply Y3; eauto]]; fail).
          apply signal_same in St. subst s2. right. rewrite own_steps_snoc. unfold own_step. rewrite andb_false_r.
          repeat (split; auto); lia.
        * right. rewrite own_steps_snoc. unfold own_step. destruct (Nat.eqb_spec a i); [contradiction|]. cbn [andb].
          assert (ET : T s2 i = T s1 i).
          { apply (step_other c s1 a acc e s2 i St); auto.
            - eapply actor_lt; eauto. intros Q. unfold in_call in H1. rewrite Q in H1. contradiction.
            - intros k j' Q. unfold in_call in H1. rewrite Q in H1. subst j'. eapply S1; eauto. }
          unfold in_call. rewrite ET. repeat (split; auto); lia. }
  destruct M as [M|(H1 & X1 & N1 & S1 & O1 & O2)]; [left; auto|right].
  split; auto. split; [lia|]. eapply call_enabled; eauto; [|lia]. eapply exec_inv; eauto.
Qed.

(** ** thread ids *)
Lemma live_tids c tr s : 0 < c_page c -> c_reuse c = false -> run c tr s ->
  forall i j, (i < n s)%nat -> (j < n s)%nat -> i <> j -> ~ exited s i -> ~ exited s j -> t_tid (T s i) <> t_tid (T s j).
Proof.
  intros Hp Hr. revert tr s. apply (run_ind' c (fun tr s => forall i j, (i < n s)%nat -> (j < n s)%nat -> i <> j -> ~ exited s i -> ~ exited s j -> t_tid (T s i) <> t_tid (T s j))); auto.
  - intros s (tid & sk & g & ta & b & len & _ & _ & ->) i j Li Lj. cbn in *. lia.
  - intros tr s l s' _ I I' IH St x y.
    assert (AL : forall k, ~ exited s k -> alive (P s k) = true) by (intros k; unfold exited; destruct (P s k); cbn; congruence).
    unfold exited in *. destruct St; unf; unfold munmap; cbn [n T]; intros Lx Ly D; unfold fupd in *;
      repeat match goal with
      | |- context [Nat.eqb ?a ?b] => destruct (Nat.eqb_spec a b); try subst a
      end; cbn [t_pc t_tid set_pc set_clear set_block set_fin]; intros Ax Ay; try congruence;
      try (apply IH; auto; congruence);
      try (intros Q; match goal with H : forall k, (k < n s)%nat -> alive _ = true -> _ |- _ => eapply H; eauto; lia end);
      try (apply IH; auto; lia).
    + intros Q. apply (H2 y); auto; lia.
    + apply (H2 x); auto; lia.
Qed.

Lemma id_value c tr s i acc j v s' : 0 < c_page c -> c_reuse c = false -> run c tr s -> step c s (i, acc, EId j v) s' ->
  (v = 0 <-> finished s j) /\ (~ finished s j -> v = t_tid (T s j) /\ 0 < v) .
Proof.
  intros Hp Hr Rn St. pose proof (run_inv _ _ _ Hp Hr Rn) as I. inversion St; subst.
  match goal with H : _ \/ _ |- _ => rename H into C end. match goal with H : (j < _)%nat |- _ => rename H into L end.
  assert (NF : ~ finished s' j -> r_tid (R s' j) = t_tid (T s' j) /\ 0 < r_tid (R s' j)).
  { intros F. rewrite (i_tid _ _ I j L); [split; auto; apply (i_tpos _ _ I); auto|].
    apply andb_false_iff. right. destruct (gone (P s' j)) eqn:Gn; auto. exfalso. apply F. unfold finished. destruct (P s' j); cbn in Gn; try discriminate; eauto. }
  split; [|exact NF]. split.
  - intros Z. destruct (tid0_gone _ _ j I L Z) as (_ & Gn). unfold finished. destruct (P s' j); cbn in Gn; try discriminate; eauto.
  - intros F. apply (i_tid0 _ _ I); auto.
    + unfold jn. destruct F as [F|(a & F)]; rewrite F; auto.
      destruct C as [C|C]; [|subst; congruence].
      destruct (t_clear (T s' j)) eqn:K; auto. exfalso.
      assert (D : r_det (R s' j) = Detached) by (apply (i_self _ _ I j L); unfold self; rewrite F, K; reflexivity).
      destruct (i_det _ _ I j L D) as (w & W & _). congruence.
    + destruct F as [F|(a & F)]; rewrite F; reflexivity.
Qed.

Lemma running_tid c tr s i : 0 < c_page c -> c_reuse c = false -> run c tr s -> (i < n s)%nat -> ~ finished s i ->
  r_tid (R s i) = t_tid (T s i) /\ 0 < t_tid (T s i).
Proof.
  intros Hp Hr Rn L F. pose proof (run_inv _ _ _ Hp Hr Rn) as I.
  split; [apply (i_tid _ _ I); auto|apply (i_tpos _ _ I); auto].
  apply andb_false_iff. right. destruct (gone (P s i)) eqn:Gn; auto. exfalso. apply F. unfold finished. destruct (P s i); cbn in Gn; try discriminate; eauto.
Qed.

(** ** detached exit *)
Definition before (tr : list label) (a b : nat * event) : Prop :=
  exists t1 t2 t3 x y, tr = t1 ++ (fst a, x, snd a) :: t2 ++ (fst b, y, snd b) :: t3.

Lemma dx_history c tr s : 0 < c_page c -> c_reuse c = false -> run c tr s ->
  forall i, (i < n s)%nat ->
   match P s i with
   | DxBlock => did tr i ESetTidNull
   | DxMunmap => did tr i ESetTidNull /\ (c_sig c = true -> before tr (i, ESetTidNull) (i, EBlockAll))
   | _ => True end.
Proof.
  intros Hp Hr. revert tr s. apply (run_ind' c (fun tr s => forall i, (i < n s)%nat ->
   match P s i with
   | DxBlock => did tr i ESetTidNull
   | DxMunmap => did tr i ESetTidNull /\ (c_sig c = true -> before tr (i, ESetTidNull) (i, EBlockAll))
   | _ => True end)); auto.
  - intros s (tid & sk & g & ta & b & len & _ & _ & ->) i L. destruct i; exact Logic.I.
  - intros tr s l s' _ I I' IH St i L.
    assert (BS : forall a b, before tr a b -> before (tr ++ [l]) a b).
    { intros a b (t1 & t2 & t3 & x & y & ->). exists t1, t2, (t3 ++ [l]), x, y. now rewrite <- app_assoc; cbn; rewrite <- app_assoc. }
    assert (OLD : (i < n s)%nat -> T s' i = T s i -> match P s' i with
       | DxBlock => did (tr ++ [l]) i ESetTidNull
       | DxMunmap => did (tr ++ [l]) i ESetTidNull /\ (c_sig c = true -> before (tr ++ [l]) (i, ESetTidNull) (i, EBlockAll))
       | _ => True end).
    { intros Li E. rewrite E. specialize (IH i Li). destruct (P s i); auto.
      - apply did_snoc; auto.
      - destruct IH as (A & B). split; [apply did_snoc; auto|]. auto. }
    destruct St; unf; unfold munmap in *; cbn [n T] in *;
     try (unfold fupd in *; match goal with |- context [Nat.eqb ?a ?b] => destruct (Nat.eqb_spec a b); [subst a; cbn [t_pc set_pc set_clear set_block set_fin]; try exact Logic.I|apply OLD; auto; lia] end; fail);
     try (apply OLD; auto; lia).
    + unfold fupd in *. destruct (Nat.eqb_spec i i0); [|apply OLD; auto; lia]. subst. cbn. apply did_snoc. right. eauto.
    + unfold fupd in *. destruct (Nat.eqb_spec i i0); [|apply OLD; auto; lia]. subst. cbn.
      pose proof (IH i0 L) as X. rewrite H in X. split; [apply did_snoc; auto|]. intros _.
      destruct X as (acc & X). apply in_split in X as (t1 & t2 & ->).
      exists t1, t2, [], acc, [i0]. cbn. now rewrite <- app_assoc.
    + unfold fupd in *. destruct (Nat.eqb_spec i i0); [|apply OLD; auto; lia]. subst. cbn.
      pose proof (IH i0 L) as X. rewrite H in X. split; [apply did_snoc; auto|]. congruence.
    + unfold fupd in *. destruct (Nat.eqb_spec i w); [cbn; exact Logic.I|]. destruct (Nat.eqb_spec i i0); [cbn; exact Logic.I|].
      apply OLD; auto.
Qed.

(** A thread that unmaps its own memory. *)
Lemma self_free c tr s i acc e s' : 0 < c_page c -> c_reuse c = false -> signals_ok c -> run c tr s ->
  step c s (i, acc, e) s' -> mapped s i -> ~ mapped s' i ->
  did tr i ESetTidNull /\ (c_sig c = true -> before tr (i, ESetTidNull) (i, EBlockAll)) /\
  e = EMunmap (r_base (R s i)) (r_len (R s i)) /\
  forall tr2 s2, exec c s' tr2 s2 -> forall acc2 e2, In (i, acc2, e2) tr2 -> acc2 = [] /\ (e2 = EExit \/ e2 = ENone).
Proof.
  intros Hp Hr Hs Rn St M M'. pose proof (run_inv _ _ _ Hp Hr Rn) as I. pose proof (step_inv _ _ _ _ Hp Hr I St) as I'.
  unfold mapped in *.
  destruct (step_mem c s i acc e s' Hp I St) as (_ & [(x & E & L & Mx & En & X)|(_ & X & _)]).
  2: { exfalso. apply M'. rewrite X; auto. eapply actor_lt; eauto. apply (step_actor _ _ _ _ _ _ I St). }
  rewrite X in M'. destruct (Nat.eqb_spec i x); [subst x|contradiction].
  assert (PD : P s i = DxMunmap).
  { subst e. inversion St; subst; auto. exfalso.
    assert (W : waits (P s i) k j) by (match goal with H : P s i = _ |- _ => rewrite H; cbn; auto end).
    assert (K : woken (P s i) j) by (match goal with H : P s i = _ |- _ => rewrite H; cbn; auto end).
    destruct (waits_of _ _ _ _ _ I W) as (_ & _ & _ & Lj). destruct (i_woken _ _ I i j K) as (_ & K2).
    assert (j <> i) by (intros ->; match goal with H : P s i = _ |- _ => rewrite H in K2; discriminate end).
    specialize (X i). rewrite Nat.eqb_refl in X. unfold goto in X; cbn [R] in X.
    assert (J0 : (0 < j)%nat) by (apply (self_not_main c s j I Lj K2)).
    destruct (waits_of _ _ _ _ _ I W) as (_ & Mj & _).
    destruct (munmap_same c s j Hp I ltac:(lia) ltac:(assumption) Mj) as (_ & _ & SR & _).
    rewrite <- SR in X. unfold with_rec, fupd in X; cbn [R] in X. destruct (Nat.eqb_spec i j); congruence. }
  pose proof (dx_history _ _ _ Hp Hr Rn i L) as H. rewrite PD in H. destruct H as (H1 & H2).
  split; [auto|]. split; [auto|]. split; [auto|].
  intros tr2 s2 E2.
  assert (P' : P s' i = DxExit).
  { subst e. inversion St; subst; try congruence. unf. unfold fupd. now rewrite Nat.eqb_refl. }
  assert (Q : inv c s2 /\ (n s' <= n s2)%nat /\ (P s2 i = DxExit \/ (P s2 i = KClear /\ t_clear (T s2 i) = false) \/ P s2 i = Dead) /\ forall acc2 e2, In (i, acc2, e2) tr2 -> acc2 = [] /\ (e2 = EExit \/ e2 = ENone)).
  { clear M M' X. induction E2 as [s'|s' tr2 s1 l s2 E2 IH St2].
    - split; [auto|]. split; [auto|]. split; [auto|]. intros ? ? [].
    - destruct IH as (I1 & N1 & Q1 & Q2); auto. 
      split; [apply (step_inv c s1 l s2); auto|].
      split; [destruct (step_n _ _ _ _ St2) as [->|[-> _]]; lia|].
      destruct l as [[a acc2] e2]. destruct (Nat.eq_dec a i) as [->|D].
      + destruct (step_actor _ _ _ _ _ _ I1 St2) as (ND & _).
        assert (LB : acc2 = [] /\ (e2 = EExit \/ e2 = ENone) /\ ((P s2 i = KClear /\ t_clear (T s2 i) = false) \/ P s2 i = Dead)).
        { pose proof (i_block _ _ I1 i) as BL. pose proof (i_clear _ _ I1 i) as CL.
          destruct Q1 as [Q1|[(Q1 & C1)|Q1]]; [| |contradiction].
          - rewrite Q1 in BL, CL. cbn in CL.
            inversion St2; subst; try congruence.
            + split; [auto|]. split; [auto|]. left. unf. unfold fupd. rewrite Nat.eqb_refl. cbn. split; auto. now destruct (t_clear (T s1 i)).
            + exfalso. rewrite BL in *; auto. discriminate.
          - inversion St2; subst; try congruence.
            + split; [auto|]. split; [auto|]. right. unf. unfold fupd. now rewrite Nat.eqb_refl.
            + rewrite Q1 in *. discriminate. }
        destruct LB as (-> & LE & LP). split; [tauto|]. intros acc3 e3 Hin. apply in_app_iff in Hin as [Hin|[Hin|[]]]; [auto|].
        injection Hin as <- <-. auto.
      + rewrite (step_other _ _ _ _ _ _ i St2); auto; [|lia|intros k j Y; destruct Q1 as [Q1|[(Q1 & _)|Q1]]; congruence].
        split; [auto|]. intros acc3 e3 Hin. apply in_app_iff in Hin as [Hin|[Hin|[]]]; [auto|]. congruence. }
  apply Q.
Qed.
