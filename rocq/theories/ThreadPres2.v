From Coq Require Import ZArith List Bool Lia Arith.
From Verif Require Import ThreadModel ThreadInv ThreadPres.
Import ListNotations.
Open Scope Z_scope.

Lemma p_return c s i v : inv c s -> (0 < i)%nat -> P s i = Run ->
  inv c (with_task s i (set_fin (T s i) (XCas v) v)).
Proof.
  intros I H0 H1. pose proof (actor_lt _ _ i I ltac:(congruence)) as AL. know I i.  rwp; cb. go I.
Qed.

Lemma p_join c s i j : inv c s -> P s i = Run -> (j < n s)%nat -> claim s j = None ->
  inv c (goto (with_claim s j (KJoin, i)) i (JLoad KJoin j)).
Proof.
  intros I H0 H1 H2. pose proof (actor_lt _ _ i I ltac:(congruence)) as AL. know I i. assert (ND : r_det (R s j) <> Detached) by (intros X; destruct (i_det _ _ I j ltac:(assumption) X) as (w & W1 & _); congruence). pose proof (i_mapped_none _ _ I j ltac:(assumption) ltac:(assumption)) as MJ. know I j.  rwp; cb. go I.
Qed.

Lemma p_detach c s i j : inv c s -> P s i = Run -> (j < n s)%nat -> claim s j = None ->
  inv c (goto (with_claim s j (KDetach, i)) i (DSwap j)).
Proof.
  intros I H0 H1 H2. pose proof (actor_lt _ _ i I ltac:(congruence)) as AL. know I i. assert (ND : r_det (R s j) <> Detached) by (intros X; destruct (i_det _ _ I j ltac:(assumption) X) as (w & W1 & _); congruence). pose proof (i_mapped_none _ _ I j ltac:(assumption) ltac:(assumption)) as MJ. know I j.  rwp; cb. go I.
Qed.

Lemma p_free c s i k j rv : inv c s -> P s i = JFree k j rv ->
  inv c (goto (with_rec s j (unmap (R s j))) i (JRet k j rv)).
Proof.
  intros I H0. pose proof (actor_lt _ _ i I ltac:(congruence)) as AL. know I i. 
  assert (W : waits (P s i) k j) by (rewrite H0; cbn; auto). destruct (i_waits _ _ I i k j W) as (W1 & W2 & W3).
  assert (K : woken (P s i) j) by (rewrite H0; cbn; auto). destruct (i_woken _ _ I i j K) as (K1 & K2).
  assert (NE : i <> j) by (intros ->; rewrite H0 in K2; discriminate).
  assert (JL : (j < n s)%nat) by (apply (i_claim_lt _ _ I j _ _ W1)).
  pose proof (i_jval _ _ I i j) as JV. know I j.
  rwp; cb. go I.
  all: apply (i_jval _ _ I i); rewrite H0; cbn [jval]; assumption.
Qed.

Lemma p_swap c s i j : inv c s -> P s i = DSwap j -> r_det (R s j) = Abandoned ->
  inv c (goto (with_rec s j (set_det (R s j) Detached)) i (JLoad KDetach j)).
Proof.
  intros I H0 H1. pose proof (actor_lt _ _ i I ltac:(congruence)) as AL. know I i. destruct (i_dswap _ _ I i j ltac:(assumption)) as (S1 & S2 & S3). assert (JL : (j < n s)%nat) by (apply (i_claim_lt _ _ I j _ _ S1)). pose proof (i_aband _ _ I j JL H1) as AJ. assert (NE : i <> j) by (intros ->; unfold jn in AJ; rewrite H0 in AJ; discriminate). know I j.  rwp; cb. go I.
  - exists i. rewrite Nat.eqb_refl. cb. split; [assumption|]. split; [discriminate|]. auto.
Qed.

Lemma p_swap_running c s i j : inv c s -> P s i = DSwap j -> r_det (R s j) <> Abandoned ->
  inv c (goto (with_rec s j (set_det (R s j) Detached)) i Run).
Proof.
  intros I H0 H1. pose proof (actor_lt _ _ i I ltac:(congruence)) as AL. know I i. destruct (i_dswap _ _ I i j ltac:(assumption)) as (S1 & S2 & S3). assert (JL : (j < n s)%nat) by (apply (i_claim_lt _ _ I j _ _ S1)). assert (DI : r_det (R s j) = Initial) by (destruct (r_det (R s j)); congruence). pose proof (i_init _ _ I j JL DI) as AJ. destruct (pre_facts _ AJ) as (PF & _). specialize (PF _ eq_refl). know I j.  rwp; cb. go I.
  - exists j. rewrite Nat.eqb_refl. cb. repeat split; auto; discriminate.
  - exists i. rewrite Nat.eqb_refl. cb. repeat split; auto; try discriminate. intros X; congruence.
Qed.

