(** Theorems about traces, from the invariant. *)
From Coq Require Import ZArith List Bool Lia Arith.
From Verif Require Import ThreadModel ThreadInv ThreadPres ThreadPres4 ThreadSpec.
Import ListNotations.
Open Scope Z_scope.

Lemma run_snoc c tr s l s' : run c tr s -> step c s l s' -> run c (tr ++ [l]) s'.
Proof. intros (s0 & H & E) St. exists s0. split; auto. econstructor; eauto. Qed.

Lemma exec_app c s tr s1 tr2 s2 : exec c s tr s1 -> exec c s1 tr2 s2 -> exec c s (tr ++ tr2) s2.
Proof.
  intros E1 E2. induction E2; [now rewrite app_nil_r|]. rewrite app_assoc. econstructor; eauto.
Qed.
Lemma run_app c tr s tr2 s2 : run c tr s -> exec c s tr2 s2 -> run c (tr ++ tr2) s2.
Proof. intros (s0 & H & E) E2. exists s0. split; auto. eapply exec_app; eauto. Qed.

Lemma app_snoc_inv {A} (l l' : list A) a b : l ++ [a] = l' ++ [b] -> l = l' /\ a = b.
Proof. apply app_inj_tail. Qed.

Lemma run_last c tr l s' : run c (tr ++ [l]) s' -> exists s, run c tr s /\ step c s l s'.
Proof.
  intros (s0 & H & E). inversion E; subst.
  - now destruct tr.
  - apply app_snoc_inv in H0 as (-> & ->). exists s1. split; auto. exists s0; auto.
Qed.

(** Induction over runs with the invariant at hand. *)
Lemma run_ind' c (Q : list label -> st -> Prop) : 0 < c_page c -> c_reuse c = false ->
  (forall s, initial s -> Q [] s) ->
  (forall tr s l s', run c tr s -> inv c s -> inv c s' -> Q tr s -> step c s l s' -> Q (tr ++ [l]) s') ->
  forall tr s, run c tr s -> Q tr s.
Proof.
  intros Hp Hr H0 HS tr s (s0 & Hi & E). induction E; auto.
  assert (R1 : run c tr s1) by (exists s; auto).
  eapply HS; eauto; [eapply run_inv; eauto|]. eapply run_inv; eauto. eapply run_snoc; eauto.
Qed.

Lemma did_snoc tr l j e : did (tr ++ [l]) j e <-> did tr j e \/ (exists acc, l = (j, acc, e)).
Proof.
  unfold did. split.
  - intros (acc & H). apply in_app_iff in H as [H|[H|[]]]; [left; eauto|right; eauto].
  - intros [(acc & H)|(acc & ->)]; exists acc; apply in_app_iff; cbn; auto.
Qed.

Ltac fu1 := unfold fupd in *;
  repeat match goal with
  | |- context [Nat.eqb ?a ?b] => destruct (Nat.eqb_spec a b); try subst a
  | H : context [Nat.eqb ?a ?b] |- _ => destruct (Nat.eqb_spec a b); try subst a
  end; cbn [t_pc t_tid t_clear t_block t_fin set_pc set_clear set_block set_fin
  r_tid r_det r_ret r_stack r_guard r_map r_taddr r_base r_len r_mapped set_tid set_det set_ret unmap] in *.

(** ** what a step does to other things *)
Lemma step_n c s l s' : step c s l s' -> n s' = n s \/ (n s' = S (n s) /\ exists i, l = (i, [i], ECreate (n s))).
Proof. intros St; destruct St; cbn; auto. right. eauto. Qed.

Lemma step_actor c s i acc e s' : inv c s -> step c s (i, acc, e) s' ->
  P s i <> Dead /\ (forall a, P s i = KWake a -> acc = [] /\ P s' i = Dead).
Proof.
  intros I St. inversion St; subst; try match goal with H : user_pc _ = true |- _ =>
      split; [intros X; rewrite X in H; discriminate|intros ? X; rewrite X in H; discriminate] end;
    (split; [congruence|]); intros; try congruence; unf; fu1; try congruence; auto.
Qed.
Lemma step_other c s i acc e s' x : step c s (i, acc, e) s' -> x <> i -> (x < n s)%nat ->
  (forall k j, P s x <> JSleep k j) -> T s' x = T s x.
Proof.
  intros St N L NS. inversion St; subst; unf; unfold munmap; cbn [T]; fu1; try congruence; try lia.
Qed.

Lemma step_gone c s i acc e s' j : inv c s -> step c s (i, acc, e) s' -> (j < n s)%nat -> finished s j ->
  finished s' j /\ (i = j -> acc = []).
Proof.
  intros I St L F. destruct (step_actor _ _ _ _ _ _ I St) as (A1 & A2). unfold finished in *.
  destruct (Nat.eq_dec i j) as [->|D].
  - destruct F as [F|(a & F)]; [contradiction|]. destruct (A2 a F). auto.
  - split; [|congruence]. rewrite (step_other _ _ _ _ _ _ j St); auto.
    intros k j'. destruct F as [->|(a & ->)]; discriminate.
Qed.

Lemma exec_gone c s tr s' j : 0 < c_page c -> c_reuse c = false -> inv c s -> exec c s tr s' -> (j < n s)%nat -> finished s j ->
  inv c s' /\ (n s <= n s')%nat /\ finished s' j /\ (forall acc e, In (j, acc, e) tr -> acc = []).
Proof.
  intros Hp Hr I E L F. induction E as [|s tr s1 l s2 E IH St].
  - split; auto. split; auto. split; auto. intros ? ? [].
  - destruct IH as (I1 & N1 & F1 & A1); auto. destruct l as [[a acc] e].
    destruct (step_gone c s1 a acc e s2 j I1 St ltac:(lia) F1) as (F2 & A2).
    split; [apply (step_inv c s1 (a, acc, e) s2); auto|]. split; [|split; auto].
    + destruct (step_n _ _ _ _ St) as [->|[-> _]]; lia.
    + intros acc' e' H. apply in_app_iff in H as [H|[H|[]]]; [eauto|]. injection H as -> -> ->. auto.
Qed.

(** ** return values *)
Lemma fin_history c tr s : 0 < c_page c -> c_reuse c = false -> run c tr s ->
  (forall j, (n s <= j)%nat -> t_fin (T s j) = None) /\
  (forall j, match P s j with Run | JLoad _ _ | JFutex _ _ _ | JSleep _ _ | JDone _ _ | JFree _ _ _ | JRet _ _ _ | DSwap _ => True | _ => False end ->
             t_fin (T s j) = None) /\
  (forall j v, did tr j (EReturn v) <-> t_fin (T s j) = Some v).
Proof.
  intros Hp Hr. revert tr s. apply run_ind'; auto.
  - intros s (tid & sk & g & ta & b & len & _ & _ & ->). cbn. split; [|split].
    + intros [|j]; auto.
    + intros [|j]; auto.
    + intros j v. split; [intros (acc & [])|]. destruct j; discriminate.
  - intros tr s l s' _ I I' (F1 & F2 & F3) St.
    assert (OUT : forall j, P s j <> Dead -> (j < n s)%nat) by (intros; eapply actor_lt; eauto).
    split; [|split].
    + intros j. destruct St; unf; unfold munmap; cbn [n T]; intros L; fu1; try (apply F1; lia); try lia.
    + intros j. destruct St; unf; unfold munmap; cbn [n T]; fu1; auto; try contradiction; intros _;
        match goal with H : P s ?x = _ |- t_fin (T s ?x) = None => apply F2; rewrite H; exact Logic.I end.
    + intros j v. rewrite did_snoc, F3. destruct St; unf; unfold munmap; cbn [T]; fu1;
       try (split; [intros [X|(acc & X)]; [assumption|discriminate]|auto]; fail).
      * split; [intros [X|(acc & X)]|]; try discriminate. rewrite F1 in X by lia. discriminate.
      * rewrite F2 by (rewrite H1; exact Logic.I). split; [intros [X|(acc & X)]; [discriminate|injection X as _ ->; reflexivity]|].
        intros [= ->]. right. eauto.
      * split; [intros [X|(acc & X)]; [assumption|injection X as -> _ _; contradiction]|auto].
Qed.

(** Every thread other than those exactly resuming: what join returns. *)
Lemma join_value c tr i acc j rv s : 0 < c_page c -> c_reuse c = false ->
  run c (tr ++ [(i, acc, EJoin j rv)]) s ->
  (forall v, did tr j (EReturn v) <-> v = rv) /\ finished s j /\
  (forall tr2 s2 acc2 e, exec c s tr2 s2 -> In (j, acc2, e) tr2 -> acc2 = []).
Proof.
  intros Hp Hr Rn. destruct (run_last _ _ _ _ Rn) as (s1 & R1 & St).
  pose proof (run_inv _ _ _ Hp Hr R1) as I1. pose proof (run_inv _ _ _ Hp Hr Rn) as I.
  destruct (fin_history _ _ _ Hp Hr R1) as (_ & _ & F3).
  inversion St; subst. match goal with H : P s1 i = JRet _ _ _ |- _ => rename H into E end.
  assert (JV : t_fin (T s1 j) = Some rv).
  { apply (i_jval _ _ I1 i). rewrite E. cbn. now rewrite Nat.eqb_refl. }
  assert (K : jn (T s1 j) = true /\ gone (P s1 j) = true) by (apply (i_woken _ _ I1 i); rewrite E; cbn; auto).
  destruct (i_jret _ _ I1 _ _ _ _ E) as (C1 & _). destruct (i_claim_lt _ _ I1 _ _ _ C1) as (L & _).
  assert (FJ : finished s1 j).
  { destruct K as (_ & K). unfold finished. destruct (P s1 j); cbn in K; try discriminate; eauto. }
  destruct (step_gone c s1 i [i] (EJoin j rv) _ j I1 St L FJ) as (F & _).
  split; [|split; auto].
  - intros v. rewrite F3, JV. split; [intros [= ->]; auto|intros ->; auto].
  - intros tr2 s2 acc2 e E2 Hin.
    destruct (exec_gone c _ tr2 s2 j Hp Hr I E2) as (_ & _ & _ & A); eauto.
Qed.

(** ** memory *)
Lemma user_mapped c s i : inv c s -> (i < n s)%nat -> gone (P s i) = false -> sfreed (P s i) && self (T s i) = false ->
  r_mapped (R s i) = true.
Proof.
  intros I L G S. destruct (r_mapped (R s i)) eqn:M; auto. destruct (i_mapped _ _ I i L M) as [X|[X Y]]; [congruence|].
  rewrite X, Y in S. discriminate.
Qed.

Lemma access_mapped c s i acc e s' a : 0 < c_page c -> signals_ok c -> inv c s -> step c s (i, acc, e) s' -> In a acc ->
  (a < n s)%nat /\ mapped s a.
Proof.
  intros Hp Hs I St. unfold mapped.
  destruct (step_actor _ _ _ _ _ _ I St) as (ND & _).
  pose proof (actor_lt _ _ _ I ND) as Li.
  assert (UM : gone (P s i) = false -> sfreed (P s i) && self (T s i) = false -> (i < n s)%nat /\ r_mapped (R s i) = true).
  { intros; split; auto. eapply user_mapped; eauto. }
  assert (WT : forall k j, waits (P s i) k j -> (j < n s)%nat /\ r_mapped (R s j) = true).
  { intros k j W. destruct (waits_of _ _ _ _ _ I W) as (_ & ? & _ & ?). auto. }
  intros Hin. inversion St; subst; cbn [In] in Hin;
   repeat match goal with H : _ \/ _ |- _ => destruct H as [ <- | H ] end; try contradiction;
   try match goal with H : t_pc (T ?ss i) = ?p |- _ =>
     rewrite H in UM, WT; cbn in UM; first [ exact (UM eq_refl eq_refl) | eapply WT; cbn; auto; fail | idtac ] end.
  - (* id, other *) match goal with H : _ \/ _ |- _ => destruct H as [ C | -> ] end.
    + split; auto. eapply i_mapped_none; eauto.
    + exact (UM eq_refl eq_refl).
  - destruct (i_dswap _ _ I i j) as (X & Y & _); auto. split; auto. apply (i_claim_lt _ _ I) in X. tauto.
  - destruct (i_dswap _ _ I i j) as (X & Y & _); auto. split; auto. apply (i_claim_lt _ _ I) in X. tauto.
  - (* kclear *) apply UM; auto. unfold self. match goal with H : P s i = _ |- _ => rewrite H end.
    match goal with H : t_clear _ = true |- _ => rewrite H end. reflexivity.
  - (* signal *) apply UM.
    + destruct (P s' i); cbn in *; congruence.
    + destruct (P s' i) eqn:E; cbn in *; try congruence; auto. exfalso.
      assert (t_block (T s' i) = true) by (apply (i_block _ _ I i); [auto|rewrite E; exact Logic.I]). congruence.
Qed.

Lemma step_mem c s i acc e s' : 0 < c_page c -> inv c s -> step c s (i, acc, e) s' ->
  (forall k, (k < n s)%nat -> r_base (R s' k) = r_base (R s k) /\ r_len (R s' k) = r_len (R s k) /\ r_guard (R s' k) = r_guard (R s k)) /\
  ((exists j, e = EMunmap (r_base (R s j)) (r_len (R s j)) /\ (j < n s)%nat /\ r_mapped (R s j) = true /\ n s' = n s /\
     forall k, r_mapped (R s' k) = if Nat.eqb k j then false else r_mapped (R s k)) \/
   ((forall a l, e <> EMunmap a l) /\ (forall k, (k < n s)%nat -> r_mapped (R s' k) = r_mapped (R s k)) /\
    (n s' = S (n s) -> r_mapped (R s' (n s)) = true))).
Proof.
  intros Hp I St.
  destruct (step_actor _ _ _ _ _ _ I St) as (ND & _).
  pose proof (actor_lt _ _ _ I ND) as Li.
  inversion St; subst;
   try (unf; cbn [n R]; split; [intros k' Hk'; fu1; auto; try lia; try (exfalso; lia)|
       right; split; [discriminate|]; split; [intros k' Hk'; fu1; auto; try lia; try (exfalso; lia)
         | intros Hn; fu1; auto; try lia; try congruence; try (exfalso; lia)]]; fail).
  - match goal with X : P s i = _ |- _ => rename X into H end. wt I i.
    assert (K : jn (T s j) = true /\ gone (P s j) = true) by (apply (i_woken _ _ I i); rewrite H; cbn; auto).
    assert (J0 : (0 < j)%nat /\ 0 < r_map (R s j)).
    { apply (map_pos c s j I); auto. left. destruct K as (_ & K). destruct (P s j); cbn in *; congruence. }
    destruct (munmap_base c s j Hp I ltac:(lia) ltac:(assumption)) as (M1 & M2).
    destruct (munmap_same c s j Hp I ltac:(lia) ltac:(assumption) WB) as (_ & _ & SR & _).
    unfold goto; cbn [n R]. split.
    + intros k' Hk'. rewrite <- SR. unfold with_rec; cbn [R]. fu1; auto.
    + left. exists j. rewrite <- M1, <- M2. repeat split; auto. intros k'. rewrite <- SR. unfold with_rec; cbn [R]. fu1; auto.
  - match goal with X : P s i = _ |- _ => rename X into H end.
    assert (J0 : (0 < i)%nat /\ 0 < r_map (R s i)).
    { apply (map_pos c s i I); auto. left. rewrite H; reflexivity. }
    assert (WB : r_mapped (R s i) = true) by (eapply user_mapped; eauto; rewrite H; reflexivity).
    destruct (munmap_base c s i Hp I ltac:(lia) ltac:(assumption)) as (M1 & M2).
    destruct (munmap_same c s i Hp I ltac:(lia) ltac:(assumption) WB) as (_ & _ & SR & _).
    unfold goto; cbn [n R]. split.
    + intros k' Hk'. rewrite <- SR. unfold with_rec; cbn [R]. fu1; auto.
    + left. exists i. rewrite <- M1, <- M2. repeat split; auto. intros k'. rewrite <- SR. unfold with_rec; cbn [R]. fu1; auto.
Qed.

Lemma munmaps_app a b : munmaps (a ++ b) = munmaps a ++ munmaps b.
Proof. induction a as [|[[i acc] e] a IH]; cbn; auto. destruct e; cbn; rewrite IH; auto. Qed.

Lemma freed_once c tr s : 0 < c_page c -> c_reuse c = false -> run c tr s ->
  exists js, NoDup js /\ map (fun j => (r_base (R s j), r_len (R s j))) js = munmaps tr /\
    forall j, In j js <-> ((j < n s)%nat /\ ~ mapped s j).
Proof.
  intros Hp Hr. revert tr s. apply (run_ind' c (fun tr s => exists js, NoDup js /\
     map (fun j => (r_base (R s j), r_len (R s j))) js = munmaps tr /\ forall j, In j js <-> ((j < n s)%nat /\ ~ mapped s j))); auto.
  - intros s (tid & sk & g & ta & b & len & _ & _ & ->). exists []. repeat split; try constructor; try contradiction.
    unfold mapped. intros [H1 H2]. cbn in H1. destruct j; [|lia]. apply H2. reflexivity.
  - intros tr s l s' _ I I' (js & N & M & Q) St. destruct l as [[i acc] e].
    destruct (step_mem c s i acc e s' Hp I St) as (B & C).
    assert (ME : map (fun j => (r_base (R s' j), r_len (R s' j))) js = munmaps tr).
    { rewrite <- M. apply map_ext_in. intros a Ha. apply Q in Ha. destruct (B a) as (-> & -> & _); tauto. }
    rewrite munmaps_app. unfold mapped in *.
    destruct C as [(j & -> & L & Mj & En & C)|(NE & C & Cn)].
    + exists (js ++ [j]). split; [|split].
      * assert (X : ~ In j js) by (rewrite Q; intros [_ X]; auto).
        clear -N X. induction js; cbn; [constructor; auto; constructor|]. inversion N; subst. constructor.
        -- intros H. apply in_app_iff in H as [H|[H|[]]]; [auto|]. subst. apply X. cbn; auto.
        -- apply IHjs; auto. intros H; apply X; cbn; auto.
      * rewrite map_app, ME. cbn. destruct (B j L) as (-> & -> & _). reflexivity.
      * intros x. rewrite in_app_iff, Q, En, C. cbn. destruct (Nat.eqb_spec x j); subst.
        -- split; [intros _; split; auto; discriminate|auto].
        -- split; [intros [H|[H|[]]]; [auto|congruence]|tauto].
    + exists js. split; [auto|]. split.
      * rewrite ME. destruct e; cbn; rewrite ?app_nil_r; auto. exfalso. eapply NE; eauto.
      * intros x. rewrite Q. destruct (step_n _ _ _ _ St) as [En|[En _]].
        -- rewrite En. split; intros [X1 X2]; (split; [assumption|]); [rewrite C by auto|rewrite C in X2 by auto]; assumption.
        -- rewrite En. split; intros [X1 X2].
           ++ split; [lia|]. rewrite C; auto.
           ++ destruct (Nat.eq_dec x (n s)) as [->|D]; [rewrite Cn in X2; auto; contradiction|].
              assert (x < n s)%nat by lia. rewrite C in X2 by auto. auto.
Qed.
