(** C68's argument, for anything whose steps are steps of the thread model: the
    states of the thread model that go with moment [k] are those with [Q k].
    Props_Fair.v uses it for the thread model itself, Props_ByteFair.v for the
    model on bytes, ScriptFair.v for whole programs, where fairness is promised
    only until the process ends ([stop]). *)
From Coq Require Import ZArith List Bool Lia Arith.
From Verif Require Import ThreadModel ThreadInv ThreadPres ThreadPres4 ThreadSpec ThreadTop ThreadTop2 FairSpec.
Import ListNotations.
Open Scope Z_scope.

Definition idlep (p : pc) : Prop := match p with Run | JSleep _ _ | Dead | Panicked => True | _ => False end.

Section Fair.
Variables (c : cfg) (Q : nat -> st -> Prop) (pcs : nat -> nat -> pc) (nn : nat -> nat) (mp : nat -> nat -> Prop) (la : nat -> option label) (stop : nat -> Prop).
Hypothesis Hp : 0 < c_page c.
Hypothesis Hr : c_reuse c = false.
Hypothesis H0 : exists s, initial s /\ Q 0%nat s.
Hypothesis H1 : forall k s, Q k s -> inv c s -> match la k with Some l => exists s', step c s l s' /\ Q (S k) s' | None => Q (S k) s end.
Hypothesis H2 : forall k s, Q k s -> (forall i, P s i = pcs k i) /\ n s = nn k /\ (forall i, mp k i -> mapped s i).
Hypothesis H3 : forall i k, exists k', (k <= k')%nat /\ (stop k' \/ moves la i k' \/ idlep (pcs k' i)).
Local Notation ST := (exists k, stop k).

Lemma moment k : exists s, run c (upto la k) s /\ Q k s.
Proof.
  induction k as [|k (s & Rn & Qk)].
  - destruct H0 as (s & I & Q0). exists s. split; [exists s; split; [auto|constructor]|auto].
  - pose proof (H1 k s Qk (run_inv _ _ _ Hp Hr Rn)) as N. cbn [upto]. destruct (la k) as [l|].
    + destruct N as (s' & St & Q'). exists s'. split; [eapply run_snoc; eauto|auto].
    + exists s. rewrite app_nil_r. auto.
Qed.
(** the step from moment [k] *)
Lemma onward k : exists s s', run c (upto la k) s /\ inv c s /\ run c (upto la (S k)) s' /\ inv c s' /\
  (forall i, P s i = pcs k i) /\ n s = nn k /\ (forall i, P s' i = pcs (S k) i) /\ n s' = nn (S k) /\
  Q k s /\ Q (S k) s' /\ match la k with Some l => step c s l s' | None => s' = s end.
Proof.
  destruct (moment k) as (s & Rn & Qk). pose proof (run_inv _ _ _ Hp Hr Rn) as I.
  destruct (H2 k s Qk) as (E1 & E2 & _). pose proof (H1 k s Qk I) as N.
  destruct (la k) as [l|] eqn:El.
  - destruct N as (s' & St & Q'). destruct (H2 _ _ Q') as (E3 & E4 & _).
    assert (Rn' : run c (upto la (S k)) s') by (cbn [upto]; rewrite El; eapply run_snoc; eauto).
    pose proof (run_inv _ _ _ Hp Hr Rn'). exists s, s'. tauto.
  - destruct (H2 _ _ N) as (E3 & E4 & _). exists s, s.
    assert (Rn' : run c (upto la (S k)) s) by (cbn [upto]; rewrite El, app_nil_r; auto). tauto.
Qed.
Lemma core_n k k' : (k <= k')%nat -> (nn k <= nn k')%nat.
Proof.
  induction 1 as [|k' _ IH]; [lia|]. destruct (onward k') as (s & s' & _ & _ & _ & _ & _ & E1 & _ & E2 & _ & _ & St).
  destruct (la k') as [l|]; [destruct (step_n _ _ _ _ St) as [E|[E _]]; lia|subst; lia].
Qed.
Lemma upto_in k l : In l (upto la k) <-> exists k', (k' < k)%nat /\ la k' = Some l.
Proof.
  induction k as [|k IH]; cbn [upto].
  - split; [intros []|intros (? & ? & _); lia].
  - rewrite in_app_iff, IH. split.
    + intros [(k' & H & E)|H]; [exists k'; split; [lia|auto]|]. destruct (la k) as [l'|] eqn:E; [|destruct H].
      destruct H as [->|[]]. exists k. split; [lia|auto].
    + intros (k' & H & E). destruct (Nat.eq_dec k' k) as [->|]; [right; rewrite E; left; reflexivity|].
      left. exists k'. split; [lia|auto].
Qed.
Lemma did_upto k i e : did (upto la k) i e <-> exists k', (k' < k)%nat /\ at_step la k' i e.
Proof.
  unfold did, at_step. split.
  - intros (acc & H). apply upto_in in H as (k' & L & E). eauto.
  - intros (k' & L & acc & E). exists acc. apply upto_in. eauto.
Qed.

(** A rank that own steps of [i] lower and nothing raises, while [i] is never
    idle, runs out. *)
Lemma runs_out (A G : nat -> Prop) (r : nat -> nat) i :
  (forall k, A k -> G k \/ (~ idlep (pcs k i) /\ A (S k) /\ (r (S k) <= r k)%nat /\ (moves la i k -> (r (S k) < r k)%nat))) ->
  forall k, A k -> ST \/ exists k', (k <= k')%nat /\ G k'.
Proof.
  intros H k. remember (r k) as b eqn:Eb. assert (B : (r k <= b)%nat) by lia. clear Eb. revert k B.
  induction b as [b IH] using lt_wf_ind. intros k B HA.
  assert (W : forall d, (exists k', (k <= k')%nat /\ G k') \/ (exists k', (k <= k')%nat /\ A k' /\ (r k' < b)%nat) \/ (A (k + d)%nat /\ (r (k + d)%nat <= b)%nat /\ forall x, (k <= x < k + d)%nat -> ~ moves la i x /\ ~ idlep (pcs x i))).
  { induction d as [|d [W|[W|(W1 & W2 & W3)]]]; auto.
    - right. right. replace (k + 0)%nat with k by lia. split; [auto|]. split; [auto|]. intros x Hx. lia.
    - destruct (H _ W1) as [HG|(HI & HA' & L1 & L2)]; [left; exists (k + d)%nat; split; [lia|auto]|].
      replace (k + S d)%nat with (S (k + d)) by lia.
      destruct (Nat.eq_dec (r (S (k + d))) b) as [E|E].
      + right. right. split; [auto|]. split; [lia|]. intros x Hx.
        destruct (Nat.eq_dec x (k + d)) as [->|]; [|apply W3; lia].
        split; [|exact HI]. intros M. specialize (L2 M). lia.
      + right. left. exists (S (k + d)). split; [lia|]. split; [auto|]. lia. }
  destruct (H3 i k) as (k' & L & D).
  destruct D as [D|D]; [left; eauto|].
  destruct (W (S (k' - k))) as [X|[(k2 & L2 & A2 & R2)|(_ & _ & X)]]; [right; exact X| |].
  - destruct (IH (r k2) R2 k2 ltac:(lia) A2) as [E|(k3 & L3 & G3)]; [left; exact E|right]. exists k3. split; [lia|exact G3].
  - destruct (X k' ltac:(lia)) as (N1 & N2). destruct D; contradiction.
Qed.

(** ** Threads whose function returned go away *)
Definition xrank (p : pc) : nat :=
  match p with
  | XCas _ => 7 | DxSetTid => 6 | DxBlock => 5 | DxMunmap => 4 | DxExit => 3 | XStore _ => 4 | XExit => 3
  | KClear => 2 | KWake _ => 1 | _ => 0 end.

Lemma exit_step s i acc e s' : inv c s -> step c s (i, acc, e) s' -> e <> ESignal -> (0 < xrank (P s i))%nat ->
  (xrank (P s' i) < xrank (P s i))%nat /\ ((0 < xrank (P s' i))%nat \/ exited s' i).
Proof.
  intros I St NE X. unfold exited.
  inversion St; subst; try congruence;
    try match goal with E : t_pc (T _ i) = _ |- _ => rewrite E in X; cbn in X end; try lia;
    try (exfalso; eapply xcas_not_aband; eauto; fail);
    unf; unfold munmap; cbn [T]; fu1;
    repeat match goal with E : t_pc (T s _) = _ |- _ => rewrite E in * end; cbn; try (split; [lia|]; first [left; lia|right; reflexivity]); try congruence.
Qed.

Lemma keeps_pc k i : (i < nn k)%nat -> (forall k' j, pcs k i <> JSleep k' j) -> ~ moves la i k -> pcs (S k) i = pcs k i.
Proof.
  intros L NS NM. unfold moves in NM. destruct (onward k) as (s & s' & _ & _ & _ & _ & E1 & E2 & E3 & _ & _ & _ & St).
  destruct (la k) as [[[a acc] e]|]; [|subst s'; now rewrite <- E1, <- E3].
  rewrite <- E1, <- E3. rewrite <- E2 in L. rewrite <- E1 in NS.
  destruct (Nat.eq_dec a i) as [->|D].
  - cbn in NM. rewrite Nat.eqb_refl in NM. destruct e; try (exfalso; apply NM; reflexivity).
    now rewrite (signal_same _ _ _ _ _ St).
  - now rewrite (step_other _ _ _ _ _ _ i St (fun x => D (eq_sym x)) L NS).
Qed.

Lemma moves_dec i k : moves la i k \/ ~ moves la i k.
Proof. unfold moves. destruct (la k) as [l|]; [destruct (own_step i l); auto|auto]. Qed.
Lemma moves_inv i k : moves la i k -> exists acc e, la k = Some (i, acc, e) /\ e <> ESignal.
Proof.
  unfold moves. destruct (la k) as [[[a acc] e]|]; [|intros []].
  cbn. intros H. apply andb_prop in H as [X1 X2]. apply Nat.eqb_eq in X1 as ->. exists acc, e.
  split; [reflexivity|]. intros ->; discriminate.
Qed.

Lemma xrank_runs i k : (i < nn k)%nat -> (0 < xrank (pcs k i))%nat -> ST \/ exists k', (k <= k')%nat /\ pcs k' i = Dead.
Proof.
  intros L X.
  apply (runs_out (fun k => (i < nn k)%nat /\ ((0 < xrank (pcs k i))%nat \/ pcs k i = Dead)) (fun k => pcs k i = Dead) (fun k => xrank (pcs k i)) i); [|auto].
  clear k L X. intros k (L & [X|X]); [right|left; exact X].
  assert (L' : (i < nn (S k))%nat) by (pose proof (core_n k (S k) ltac:(lia)); lia).
  assert (NI : ~ idlep (pcs k i)) by (unfold idlep; destruct (pcs k i); cbn in X; try lia; tauto).
  split; [exact NI|]. destruct (moves_dec i k) as [M|M].
  - destruct (moves_inv i k M) as (acc & e & El & NE). destruct (onward k) as (s & s' & _ & I & _ & _ & E1 & _ & E3 & _ & _ & _ & St). rewrite El in St.
    rewrite <- E1 in X. destruct (exit_step _ _ _ _ _ I St NE X) as (A & B). unfold exited in B. rewrite E3 in A, B. rewrite E1 in A. split; [auto|]. split; [lia|auto].
  - assert (E : pcs (S k) i = pcs k i) by (apply keeps_pc; auto; intros k' j E; rewrite E in X; cbn in X; lia).
    rewrite E. split; [auto|]. split; [lia|]. intros; contradiction.
Qed.

Lemma return_xcas k j v : at_step la k j (EReturn v) -> (j < nn (S k))%nat /\ (0 < xrank (pcs (S k) j))%nat.
Proof.
  intros (acc & E). destruct (onward k) as (s & s' & _ & _ & _ & _ & _ & _ & E3 & E4 & _ & _ & St). rewrite E in St.
  rewrite <- E3, <- E4. inversion St; subst. unf. fu1; [|congruence]. cbn. split; [auto|lia].
Qed.

Lemma exited_stays k k' j : (k <= k')%nat -> (j < nn k)%nat -> pcs k j = Dead -> pcs k' j = Dead.
Proof.
  induction 1 as [|k' H IH]; auto. intros L X. specialize (IH L X).
  pose proof (core_n k k' H). rewrite <- IH. apply keeps_pc; [lia|intros; congruence|].
  intros M. destruct (moves_inv j k' M) as (acc & e & El & _). destruct (onward k') as (s & s' & _ & I & _ & _ & E1 & _ & _ & _ & _ & _ & St). rewrite El in St.
  destruct (step_actor _ _ _ _ _ _ I St) as (A & _). rewrite E1 in A. auto.
Qed.

Theorem halt_exit : forall k j v, at_step la k j (EReturn v) ->
  ST \/ exists k', (k < k')%nat /\ forall k'', (k' <= k'')%nat -> pcs k'' j = Dead.
Proof.
  intros k j v R. destruct (return_xcas _ _ _ R) as (L & X). destruct (xrank_runs _ _ L X) as [E|(k' & H & E)]; [left; exact E|right].
  exists k'. split; [lia|]. intros k'' H''. eapply exited_stays; eauto. pose proof (core_n (S k) k' H). lia.
Qed.

(** ** Calls return *)
Hypothesis G : forall k s, Q k s -> guards_ok c s.

(** in a call of kind [q] on [j] *)
Definition incallp (p : pc) (q : kind) (j : nat) : Prop :=
  match p with
  | JLoad q' j' | JFutex q' j' _ | JSleep q' j' | JDone q' j' | JFree q' j' _ | JRet q' j' _ => q' = q /\ j' = j
  | DSwap j' => q = KDetach /\ j' = j
  | _ => False end.
Definition returns (q : kind) (j : nat) (e : event) : Prop :=
  match q with KJoin => exists rv, e = EJoin j rv | KDetach => e = EDetach j end.

Lemma incall_in s i q j : incallp (P s i) q j -> in_call s i j.
Proof. unfold incallp, in_call. destruct (P s i); tauto. Qed.

Lemma np k i : pcs k i <> Panicked.
Proof. destruct (moment k) as (s & Rn & Qk). destruct (H2 _ _ Qk) as (E & _). rewrite <- E. apply (no_panic c (upto la k)); auto. eapply G; eauto. Qed.

Lemma incall_step s a acc e s' i q j : step c s (a, acc, e) s' -> (i < n s)%nat -> incallp (P s i) q j ->
  incallp (P s' i) q j \/ (a = i /\ returns q j e) \/ P s' i = Panicked.
Proof.
  intros St L H. unfold incallp in *.
  inversion St; subst; unf; unfold munmap; cbn [T]; unfold fupd in *;
    repeat match goal with |- context [Nat.eqb ?x ?y] => destruct (Nat.eqb_spec x y); subst end; cbn [t_pc set_pc set_clear set_block set_fin] in *; auto; try lia;
    repeat match goal with E : t_pc (T s _) = _ |- _ => rewrite E in * end; try tauto;
    try (destruct H as [<- <-] || (subst)); cbn [returns]; eauto 6.
  destruct H as [-> ->]. right. left. split; reflexivity.
Qed.

Lemma incall_next k i q j : (i < nn k)%nat -> incallp (pcs k i) q j ->
  incallp (pcs (S k) i) q j \/ exists e, at_step la k i e /\ returns q j e.
Proof.
  intros L H. unfold at_step. destruct (onward k) as (s & s' & _ & _ & _ & _ & E1 & E2 & E3 & _ & _ & _ & St).
  destruct (la k) as [[[a acc] e]|] eqn:El; [|subst s'; left; rewrite <- E3, E1; auto].
  rewrite <- E1 in H. rewrite <- E2 in L.
  destruct (incall_step _ _ _ _ _ _ _ _ St L H) as [X|[(-> & X)|X]]; [left; rewrite <- E3; auto|right; eauto|].
  exfalso. rewrite E3 in X. eapply np; eauto.
Qed.

(** From any time on, the call is still in progress or has returned. *)
Lemma incall_until k d i q j : (i < nn k)%nat -> incallp (pcs k i) q j ->
  incallp (pcs (k + d)%nat i) q j \/ exists k' e, (k <= k' < k + d)%nat /\ at_step la k' i e /\ returns q j e.
Proof.
  intros L H. induction d as [|d [IH|(k' & e & A & B)]].
  - left. now replace (k + 0)%nat with k by lia.
  - destruct (incall_next (k + d)%nat i q j ltac:(pose proof (core_n k (k + d)%nat ltac:(lia)); lia) IH) as [X|(e & X)].
    + left. now replace (k + S d)%nat with (S (k + d)) by lia.
    + right. exists (k + d)%nat, e. split; [lia|auto].
  - right. exists k', e. split; [lia|auto].
Qed.

Lemma incall_lt k i q j : incallp (pcs k i) q j -> (i < nn k)%nat /\ (j < nn k)%nat.
Proof.
  destruct (onward k) as (s & _ & _ & I & _ & _ & E1 & <- & _). rewrite <- E1.
  intros H. unfold incallp in H. destruct (P s i) eqn:E; try contradiction; destruct H as [? ?]; subst;
    (split; [eapply actor_lt; eauto; congruence|]);
    try (match type of E with _ = JRet _ _ _ => destruct (i_jret _ _ I _ _ _ _ E) as (C & _) | _ = DSwap _ => destruct (i_dswap _ _ I _ _ E) as (C & _)
      | _ => edestruct (i_waits _ _ I i) as (C & _); [rewrite E; cbn; eauto|] end; apply (i_claim_lt _ _ I) in C; tauto).
Qed.

Lemma returned_run s i acc e s' j : step c s (i, acc, e) s' -> (exists rv, e = EJoin j rv) \/ e = EDetach j -> P s' i = Run.
Proof.
  intros St [(rv & ->)| ->]; inversion St; subst; unf; unfold fupd; now rewrite Nat.eqb_refl.
Qed.

(** Once the target has exited, the call returns. *)
Lemma call_returns k i q j : incallp (pcs k i) q j -> pcs k j = Dead ->
  ST \/ exists k' e, (k <= k')%nat /\ at_step la k' i e /\ returns q j e.
Proof.
  intros H X. destruct (incall_lt _ _ _ _ H) as (Li & Lj).
  destruct (runs_out (fun x => (k <= x)%nat /\ incallp (pcs x i) q j) (fun x => exists e, at_step la x i e /\ returns q j e) (fun x => todo (pcs x i)) i) with (k := k)
    as [E|(k' & L & e & A & B)]; [|auto|left; exact E|right; exists k', e; auto].
  intros x (Lx & Hx). destruct (incall_next x i q j (proj1 (incall_lt _ _ _ _ Hx)) Hx) as [Hn|]; [right|left; auto].
  pose proof (exited_stays k x j Lx Lj X) as Xx. destruct (incall_lt _ _ _ _ Hx) as (Lx' & Ljx).
  destruct (onward x) as (s & s' & Rn & I & _ & _ & E1 & E2 & E3 & _ & Qx & _ & St).
  assert (NS : forall k0, pcs x i <> JSleep k0 j).
  { intros k0 E. rewrite <- E1 in E. eapply (no_sleeper c (upto la x) s i k0 j); eauto. unfold exited. now rewrite E1. }
  assert (NI : ~ idlep (pcs x i)).
  { unfold idlep. unfold incallp in Hx. destruct (pcs x i) eqn:E; try tauto. destruct Hx as [-> ->]. exfalso. eapply NS; eauto. }
  split; [exact NI|]. split; [split; [lia|exact Hn]|].
  destruct (moves_dec i x) as [M|M].
  - destruct (moves_inv i x M) as (acc & e & El & NE). rewrite El in St.
    assert (Hi : in_call s i j) by (apply (incall_in s i q j); rewrite E1; auto).
    assert (Lj' : (j < n s)%nat) by (rewrite E2; auto). assert (Xs : exited s j) by (unfold exited; now rewrite E1).
    assert (NS' : forall k0, P s i <> JSleep k0 j) by (intros k0; rewrite E1; auto).
    destruct (call_step c _ _ _ _ _ j Hp I (G x s Qx) Lj' Xs Hi NS' St NE) as [(rv & ->)|[->|(_ & D & _)]].
    + exfalso. unfold incallp in Hn. rewrite <- E3 in Hn. now rewrite (returned_run _ _ _ _ _ _ St (or_introl (ex_intro _ rv eq_refl))) in Hn.
    + exfalso. unfold incallp in Hn. rewrite <- E3 in Hn. now rewrite (returned_run _ _ _ _ _ _ St (or_intror eq_refl)) in Hn.
    + rewrite E1, E3 in D. split; [lia|auto].
  - assert (E : pcs (S x) i = pcs x i).
    { apply keeps_pc; auto. intros k' j' E. unfold incallp in Hx. rewrite E in Hx. destruct Hx as [-> ->]. eapply NS; eauto. }
    rewrite E. split; [lia|]. intros; contradiction.
Qed.

Lemma calljoin_in k i j : at_step la k i (ECallJoin j) -> incallp (pcs (S k) i) KJoin j.
Proof.
  intros (acc & E). destruct (onward k) as (s & s' & _ & _ & _ & _ & _ & _ & E3 & _ & _ & _ & St). rewrite E in St. rewrite <- E3.
  inversion St; subst. unfold incallp. unf. fu1; [cbn; auto|congruence].
Qed.

(** join returns the value of a function that returns, whenever it does. *)
Theorem halt_join : forall k1 k2 i j v, at_step la k1 i (ECallJoin j) -> at_step la k2 j (EReturn v) ->
  ST \/ exists k3, (k1 < k3)%nat /\ at_step la k3 i (EJoin j v).
Proof.
  intros k1 k2 i j v A1 A2.
  destruct (halt_exit k2 j v A2) as [E|(k' & L' & X')]; [left; exact E|].
  pose proof (calljoin_in _ _ _ A1) as H.
  assert (V : forall k3 e, at_step la k3 i e -> returns KJoin j e -> (S k1 <= k3)%nat -> exists k3, (k1 < k3)%nat /\ at_step la k3 i (EJoin j v)).
  { intros k3 e A (rv & ->) L3. exists k3. split; [lia|]. destruct A as (acc & E).
    destruct (moment (S k3)) as (s3 & R & _). cbn [upto] in R. rewrite E in R.
    destruct (join_value c _ _ _ _ _ _ Hp Hr R) as (JV & JF).
    assert (v = rv); [|subst; exists acc; auto].
    assert (D : did (upto la (Nat.max (S k2) (S k3))) j (EReturn v)) by (apply did_upto; exists k2; split; [lia|auto]).
    assert (D' : did (upto la (Nat.max (S k2) (S k3))) j (EReturn rv)).
    { pose proof (proj2 (JV rv) eq_refl) as Y. apply did_upto in Y as (y & Ly & Y). apply did_upto. exists y. split; [lia|auto]. }
    destruct (moment (Nat.max (S k2) (S k3))) as (s4 & R4 & _).
    destruct (fin_history c _ _ Hp Hr R4) as (_ & _ & FH).
    apply FH in D. apply FH in D'. congruence. }
  destruct (incall_until (S k1) (Nat.max (S k1) k' - S k1) i KJoin j (proj1 (incall_lt _ _ _ _ H)) H) as [Y|(k3 & e & L3 & A & B)].
  - replace (S k1 + (Nat.max (S k1) k' - S k1))%nat with (Nat.max (S k1) k') in Y by lia.
    destruct (call_returns _ _ _ _ Y (X' (Nat.max (S k1) k') ltac:(lia))) as [E|(k3 & e & L3 & A & B)]; [left; exact E|right]. apply (V k3 e); auto. lia.
  - right. apply (V k3 e); auto. lia.
Qed.

Lemma swap_step s i acc e s' j : P s i = DSwap j -> step c s (i, acc, e) s' -> e <> ESignal ->
  (r_det (R s j) = Abandoned /\ incallp (P s' i) KDetach j) \/ e = EDetach j.
Proof.
  intros E St NE. inversion St; subst; try congruence;
    match goal with X : t_pc (T _ i) = DSwap ?y |- _ => assert (y = j) by congruence; subst y end; auto.
  left. split; [auto|]. unfold incallp. unf. unfold fupd. rewrite Nat.eqb_refl. cbn. auto.
Qed.

(** detach always returns, whatever the thread does. *)
Theorem halt_detach : forall k i j, at_step la k i (ECallDetach j) ->
  ST \/ exists k', (k < k')%nat /\ at_step la k' i (EDetach j).
Proof.
  intros k i j A1.
  assert (H : pcs (S k) i = DSwap j).
  { destruct A1 as (acc & E). destruct (onward k) as (s & s' & _ & _ & _ & _ & _ & _ & E3 & _ & _ & _ & St). rewrite E in St. rewrite <- E3.
    inversion St; subst. unf. fu1; [cbn; auto|congruence]. }
  assert (LT : forall x, pcs x i = DSwap j -> (i < nn x)%nat /\ (j < nn x)%nat).
  { intros x Ex. apply (incall_lt x i KDetach j). rewrite Ex. cbn. auto. }
  destruct (runs_out (fun x => (S k <= x)%nat /\ pcs x i = DSwap j) (fun x => (S k <= x)%nat /\ pcs x i = DSwap j /\ moves la i x) (fun x => 0%nat) i) with (k := S k)
    as [E|(k1 & L1 & _ & P1 & M1)]; [|auto|left; exact E|].
  { intros x (Lx & Px). destruct (moves_dec i x) as [M|M]; [left; auto|right].
    split; [unfold idlep; rewrite Px; auto|]. split; [|split; [lia|intros; contradiction]]. split; [lia|].
    rewrite <- Px. apply keeps_pc; auto; [apply (LT x Px)|intros; congruence]. }
  destruct (moves_inv i k1 M1) as (acc & e & El & NE).
  destruct (onward k1) as (s & s' & _ & I & _ & _ & E1 & E2 & E3 & E4 & _ & _ & St). rewrite El in St.
  assert (Ps : P s i = DSwap j) by (rewrite E1; auto).
  destruct (swap_step _ _ _ _ _ _ Ps St NE) as [(D & HI)| ->]; [|right; exists k1; split; [lia|]; exists acc; exact El].
  rewrite E3 in HI.
  destruct (incall_lt _ _ _ _ HI) as (Li1 & Lj1).
  destruct (i_dswap _ _ I _ _ Ps) as (C & _). apply (i_claim_lt _ _ I) in C as (Lj & _).
  pose proof (i_aband _ _ I j Lj D) as J.
  assert (X : ST \/ exists k2, (k1 <= k2)%nat /\ pcs k2 j = Dead).
  { rewrite E2 in Lj. unfold jn in J. rewrite E1 in J. destruct (pcs k1 j) eqn:EP; try discriminate; try (apply xrank_runs; [auto|rewrite EP; cbn; lia]). right. exists k1. split; [lia|exact EP]. }
  destruct X as [X|(k2 & L2 & X)]; [left; exact X|].
  assert (RT : ST \/ exists k3 e, (S k1 <= k3)%nat /\ at_step la k3 i e /\ returns KDetach j e).
  { destruct (incall_until (S k1) (Nat.max (S k1) k2 - S k1) i KDetach j Li1 HI) as [Y|(k3 & e0 & L3 & A & B)].
    - replace (S k1 + (Nat.max (S k1) k2 - S k1))%nat with (Nat.max (S k1) k2) in Y by lia.
      destruct (call_returns _ _ _ _ Y) as [E|(k3 & e0 & L3 & A & B)]; [|left; exact E|right; exists k3, e0; split; [lia|auto]].
      eapply exited_stays; [|pose proof (core_n k1 k2 L2)|exact X]; lia.
    - right. exists k3, e0. split; [lia|auto]. }
  destruct RT as [E|(k3 & e0 & L3 & A & B)]; [left; exact E|right]. cbn in B. subst e0. exists k3. split; [lia|exact A].
Qed.

(** The memory of a thread that was joined or detached is gone for good once its
    function has returned. *)
Theorem halt_freed : forall k1 k2 i j v, at_step la k1 i (ECallJoin j) \/ at_step la k1 i (ECallDetach j) ->
  at_step la k2 j (EReturn v) ->
  ST \/ exists k3, forall k, (k3 <= k)%nat -> pcs k j = Dead /\ ~ mp k j.
Proof.
  intros k1 k2 i j v A1 A2. destruct (halt_exit k2 j v A2) as [E|(k' & L' & X')]; [left; exact E|].
  destruct A1 as [A1|A1].
  - destruct (halt_join k1 k2 i j v A1 A2) as [E|(k3 & L3 & A3)]; [left; exact E|right]. exists (Nat.max k' (S k3)). intros k Hk.
    split; [apply X'; lia|]. destruct (moment k) as (s & Rn & Qk). intros M. apply (H2 _ _ Qk) in M. revert M.
    apply (proj1 (no_leak c (upto la k) s j Hp Hr Rn (G k s Qk))).
    exists i, v. apply did_upto. exists k3. split; [lia|auto].
  - destruct (halt_detach k1 i j A1) as [E|(k3 & L3 & A3)]; [left; exact E|right]. exists (Nat.max k' (S k3)). intros k Hk.
    split; [apply X'; lia|]. destruct (moment k) as (s & Rn & Qk). intros M. apply (H2 _ _ Qk) in M. revert M.
    apply (proj2 (no_leak c (upto la k) s j Hp Hr Rn (G k s Qk))); [|unfold exited; rewrite (proj1 (H2 _ _ Qk)); apply X'; lia].
    exists i. apply did_upto. exists k3. split; [lia|auto].
Qed.
End Fair.

(** Fairness without end. *)
Section Forever.
Variables (c : cfg) (Q : nat -> st -> Prop) (pcs : nat -> nat -> pc) (nn : nat -> nat) (mp : nat -> nat -> Prop) (la : nat -> option label).
Hypothesis Hp : 0 < c_page c.
Hypothesis Hr : c_reuse c = false.
Hypothesis H0 : exists s, initial s /\ Q 0%nat s.
Hypothesis H1 : forall k s, Q k s -> inv c s -> match la k with Some l => exists s', step c s l s' /\ Q (S k) s' | None => Q (S k) s end.
Hypothesis H2 : forall k s, Q k s -> (forall i, P s i = pcs k i) /\ n s = nn k /\ (forall i, mp k i -> mapped s i).
Hypothesis H3 : forall i k, exists k', (k <= k')%nat /\ (moves la i k' \/ idlep (pcs k' i)).
Let stop : nat -> Prop := fun _ => False.
Lemma H3' i k : exists k', (k <= k')%nat /\ (stop k' \/ moves la i k' \/ idlep (pcs k' i)).
Proof. destruct (H3 i k) as (k' & L & X). exists k'. split; [exact L|right; exact X]. Qed.
Lemma no_stop (X : Prop) : (exists k, stop k) \/ X -> X.
Proof. intros [[k []]|H]; exact H. Qed.
Theorem core_exit : forall k j v, at_step la k j (EReturn v) ->
  exists k', (k < k')%nat /\ forall k'', (k' <= k'')%nat -> pcs k'' j = Dead.
Proof. intros k j v A. apply no_stop. eapply halt_exit; eauto. apply H3'. Qed.
Hypothesis G : forall k s, Q k s -> guards_ok c s.
Theorem core_join : forall k1 k2 i j v, at_step la k1 i (ECallJoin j) -> at_step la k2 j (EReturn v) ->
  exists k3, (k1 < k3)%nat /\ at_step la k3 i (EJoin j v).
Proof. intros k1 k2 i j v A B. apply no_stop. eapply halt_join; eauto. apply H3'. Qed.
Theorem core_detach : forall k i j, at_step la k i (ECallDetach j) ->
  exists k', (k < k')%nat /\ at_step la k' i (EDetach j).
Proof. intros k i j A. apply no_stop. eapply halt_detach; eauto. apply H3'. Qed.
Theorem core_freed : forall k1 k2 i j v, at_step la k1 i (ECallJoin j) \/ at_step la k1 i (ECallDetach j) ->
  at_step la k2 j (EReturn v) ->
  exists k3, forall k, (k3 <= k)%nat -> pcs k j = Dead /\ ~ mp k j.
Proof. intros k1 k2 i j v A B. apply no_stop. eapply halt_freed; eauto. apply H3'. Qed.
End Forever.
