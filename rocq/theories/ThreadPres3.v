From Coq Require Import ZArith List Bool Lia Arith.
From Verif Require Import ThreadModel ThreadInv ThreadPres.
Import ListNotations.
Open Scope Z_scope.

Lemma p_cas c s i rv : inv c s -> P s i = XCas rv -> r_det (R s i) = Initial ->
  inv c (goto (with_rec s i (set_det (R s i) Abandoned)) i (XStore rv)).
Proof.
  intros I H0 H1. pose proof (actor_lt _ _ i I ltac:(congruence)) as AL. know I i.  rwp; cb. go I.
Qed.

Lemma p_cas_detached c s i rv : inv c s -> P s i = XCas rv -> r_det (R s i) = Detached ->
  inv c (goto s i DxSetTid).
Proof.
  intros I H0 H1. pose proof (actor_lt _ _ i I ltac:(congruence)) as AL. know I i.  rwp; cb. go I.
Qed.

Lemma p_store c s i rv : inv c s -> P s i = XStore rv ->
  inv c (goto (with_rec s i (set_ret (R s i) rv)) i XExit).
Proof.
  intros I H0. pose proof (actor_lt _ _ i I ltac:(congruence)) as AL. know I i.  rwp; cb. go I.
Qed.

Lemma p_exit c s i : inv c s -> P s i = XExit ->
  inv c (goto s i KClear).
Proof.
  intros I H0. pose proof (actor_lt _ _ i I ltac:(congruence)) as AL. know I i.  rwp; cb. go I.
Qed.

Lemma p_dx_settid c s i : inv c s -> P s i = DxSetTid ->
  inv c (with_task s i (set_clear (T s i) DxBlock false)).
Proof.
  intros I H0. pose proof (actor_lt _ _ i I ltac:(congruence)) as AL. know I i.  rwp; cb. go I.
Qed.

Lemma p_dx_block c s i : inv c s -> P s i = DxBlock ->
  inv c (with_task s i (set_block (T s i) DxMunmap)).
Proof.
  intros I H0. pose proof (actor_lt _ _ i I ltac:(congruence)) as AL. know I i.  rwp; cb. go I.
Qed.

Lemma p_dx_noblock c s i : inv c s -> P s i = DxBlock -> c_sig c = false ->
  inv c (goto s i DxMunmap).
Proof.
  intros I H0 H1. pose proof (actor_lt _ _ i I ltac:(congruence)) as AL. know I i.  rwp; cb. go I.
Qed.

Lemma p_dx_munmap c s i : inv c s -> P s i = DxMunmap ->
  inv c (goto (with_rec s i (unmap (R s i))) i DxExit).
Proof.
  intros I H0. pose proof (actor_lt _ _ i I ltac:(congruence)) as AL. know I i. destruct (i_det _ _ I i AL) as (w & D1 & D2 & D3); [apply (i_self _ _ I i AL); unfold self; rewrite H0; reflexivity|]. rwp; cb. go I.
  - match goal with W : waits _ k i |- _ => destruct (i_waits _ _ I _ _ _ W) as (X1 & X2 & X3) end.
    destruct k; [congruence|]. destruct (X3 eq_refl) as (_ & X4). unfold jn in X4. rewrite H0 in X4. discriminate.
Qed.

Lemma p_dx_einval c s i : inv c s -> P s i = DxMunmap -> munmap_ok c (R s i) = false ->
  inv c (goto s i DxExit).
Proof.
  intros I H0 H1. pose proof (actor_lt _ _ i I ltac:(congruence)) as AL. know I i.  rwp; cb. go I.
Qed.

Lemma p_dx_exit c s i : inv c s -> P s i = DxExit ->
  inv c (goto s i KClear).
Proof.
  intros I H0. pose proof (actor_lt _ _ i I ltac:(congruence)) as AL. know I i.  rwp; cb. go I.
Qed.

Lemma p_kclear c s i : inv c s -> P s i = KClear -> t_clear (T s i) = true ->
  inv c (goto (with_rec s i (set_tid (R s i) 0)) i (KWake (r_taddr (R s i)))).
Proof.
  intros I H0 H1. pose proof (actor_lt _ _ i I ltac:(congruence)) as AL. know I i.  rwp; cb. go I.
  - assert (Mi : r_mapped (R s i) = true).
    { destruct (r_mapped (R s i)) eqn:M; [reflexivity|]. destruct (i_mapped _ _ I i AL M) as [X|[X _]];
      [rewrite H0 in X; discriminate|]. unfold self in X. rewrite H0, H1 in X. discriminate. }
    assert (E : a = r_taddr (R s i)) by congruence. rewrite E. intros X.
    assert (D : overlaps (r_base (R s i)) (r_len (R s i)) (R s k) = false) by (apply (i_disj _ _ I); auto).
    destruct (i_geo _ _ I i AL) as (G1 & _). destruct (i_geo _ _ I k ltac:(assumption)) as (G2 & _).
    rewrite X in G2. unfold overlaps in D. apply andb_false_iff in D. rewrite !Z.ltb_ge in D. lia.
Qed.

Lemma p_kclear_null c s i : inv c s -> P s i = KClear -> t_clear (T s i) = false ->
  inv c (goto s i Dead).
Proof.
  intros I H0 H1. pose proof (actor_lt _ _ i I ltac:(congruence)) as AL. know I i.  rwp; cb. go I.
Qed.

Lemma p_kwake_none c s i a : inv c s -> P s i = KWake a -> (forall w k j, P s w = JSleep k j -> r_taddr (R s j) <> a) ->
  inv c (goto s i Dead).
Proof.
  intros I H0 H1. pose proof (actor_lt _ _ i I ltac:(congruence)) as AL. know I i.  rwp; cb. go I.
  - exfalso. match goal with W : P s _ = JSleep k i |- _ => apply (H1 _ _ _ W) end. symmetry. apply (i_wake _ _ I i a H0).
Qed.
