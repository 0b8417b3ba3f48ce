(** Every fair execution of a parallel program ends (for C74). *)
From Coq Require Import ZArith List Bool Lia Arith.
From Verif Require Import Machine LayoutModel ThreadModel ThreadInv ThreadSpec FairSpec FairCore ByteModel ByteSpec ByteProofs ByteSim ByteFairSpec DtorsModel DtorsFacts DtorsInv DtorsPres ExitFairSpec ProcModel Props_Proc Props_Byte ScriptPc ScriptFairSpec ScriptFair ForkModel ForkSpec ForkProofs ForkPc ForkTick ForkFairSpec.
Import ListNotations.
Open Scope Z_scope.

(** Below exit on the stack of the main thread there is no other exit. *)
Fixpoint nof_below (l : list frame) : Prop :=
  match l with FX _ _ :: bot => existsb isfini bot = false | FUser _ :: l' => nof_below l' | _ => True end.
Lemma nof_step c A x B : fstep c A x B -> nof_below A ->
  match x with BeginP _ | ImmCall _ | TrapCall | EndP => False | ExitCall _ => A = [FUser WMain] | _ => True end -> nof_below B.
Proof.
  intros F N X. destruct F; try contradiction; try exact N; try exact Logic.I; injection X; intros; subst; reflexivity.
Qed.
Lemma frun_nof fini main e c tr s m : good_env e -> frun fini main e c tr s m -> nof_below (frames (fns s) 0).
Proof.
  intros Ge R. induction R as [b Hb|tr s m x s' m' R IH St F|tr s m t w z k hs R IH T U P K]; [exact Logic.I| |exact IH].
  destruct (proj _ _ _ _ (frun_prun _ _ _ _ _ _ _ R)) as [_ RD]. pose proof (exec_inv _ _ _ RD) as I.
  destruct (frun_inv c fini e main tr s m Ge R) as [g V]. destruct (v_main _ _ _ _ _ _ _ V) as [_ Lt].
  destruct (v_left _ _ _ _ _ _ _ V 0%nat Lt) as (os & L & _).
  assert (ST : forall t a y d', dstep c (fns s) t a = Some (y, d') ->
     (t = 0%nat -> match y with BeginP _ | ImmCall _ | TrapCall | EndP => False | ExitCall _ => frames (fns s) 0 = [FUser WMain] | _ => True end) -> nof_below (frames d' 0)).
  { intros t a y d' DS H. pose proof (dstep_effect _ _ _ _ _ _ DS) as [_ EL EO EF _ _ _ _ _ _ EG _].
    destruct (Nat.eq_dec t 0) as [->|NE]; [eapply nof_step; [apply EO; lia|exact IH|apply H; reflexivity]|].
    rewrite (EF 0%nat) by auto. destruct y; auto. destruct EG as [-> _]. destruct (Nat.eqb_spec 0 (nthr (fns s))); [lia|exact IH]. }
  destruct St as [acc b' Tm B|acc i ins y b' Tm B LO AC|t act y d' DS FO PC|t v d' DS PC UV|acc i ins j b' d' B DS|acc t ins b' d' DS B]; cbn [fns]; auto; eapply ST; eauto; intros ->; auto.
  pose proof (dstep_effect _ _ _ _ _ _ DS) as [_ EL EO EF _ _ _ _ _ _ EG _]. specialize (EO ltac:(lia)).
  revert L. generalize (value (code m 0%nat) []). intros v0 L.
  inversion F; subst; auto.
  - match goal with A : acts _ 0%nat = Some _ |- _ => rewrite A in L end. inversion L; subst.
    match goal with A : kont _ _ _ _ _ _ _ _ _ _ _ |- _ => inversion A; subst end. reflexivity.
  - match goal with A : match y with _ => _ end |- _ => destruct y; try contradiction; auto end.
    exfalso. revert EO L. generalize (frames d' 0) (frames (fns s) 0). intros B A FS L. inversion FS; subst. inversion L.
Qed.

Section Fair.
Variables (fini : nat -> fprog) (main : fprog) (e : benv) (c : dcfg) (si : nat -> pst * fmach) (la : nat -> slab).
Hypothesis W : good_env e.
Hypothesis F : ffair fini main e c si la.

Local Notation s k := (fst (si k)).
Local Notation m k := (snd (si k)).
Local Notation fr k := (frames (fns (fst (si k)))).
Local Notation run := (frun fini main e c).
Local Notation evs := (ScriptFair.evs la).

Lemma fevs_in k x : In x (evs k) -> exists k', (k' < k)%nat /\ la k' = LEv x.
Proof.
  clear. induction k as [|k IH]; cbn; [intros []|]. rewrite in_app_iff. intros [X|X].
  - destruct (IH X) as (k' & L & E). exists k'. split; [lia|exact E].
  - destruct (la k) as [y| |] eqn:E; try destruct X as [->|[]]; try destruct X. exists k. split; [lia|exact E].
Qed.
Lemma step_at k : match la k with
     | LEv x => pstep e c (s k) x (s (S k)) /\ gollows fini (m k) x (m (S k))
     | LDo t => s (S k) = s k /\ term (fns (s k)) = None /\ in_user (fns (s k)) t /\ t_pc (bT (life (s k)) t) = Run /\
         exists w z p hs, acts (m k) t = Some (Act w (FPrint z p) hs) /\ m (S k) = oput (aset (m k) t (Some (Act w p hs))) t z
     | LIdle => si (S k) = si k
     end.
Proof. pose proof (ff_step _ _ _ _ _ _ F k) as X. destruct (si k) as [a b]. exact X. Qed.

Lemma at_run k : run (evs k) (s k) (m k).
Proof.
  induction k as [|k IH]; cbn [ScriptFair.evs].
  - destruct (ff_start _ _ _ _ _ _ F) as (b & Hb & -> & ->). constructor. exact Hb.
  - pose proof (step_at k) as X. destruct (la k) as [x|t|].
    + destruct X as [X Y]. eapply fr_step; eauto.
    + destruct X as (-> & X1 & X2 & X3 & w & z & p & hs & X4 & ->). rewrite app_nil_r. eapply fr_print; eauto.
    + rewrite X, app_nil_r. exact IH.
Qed.
Lemma at_prun k : prun e c (evs k) (s k).
Proof. eapply frun_prun. apply at_run. Qed.
Lemma at_inv k : DtorsInv.inv c (ProcModel.exits (evs k)) (fns (s k)).
Proof. destruct (proj _ _ _ _ (at_prun k)) as [_ X]. eapply exec_inv; eauto. Qed.
Lemma at_where k : fwhere (s k) (m k).
Proof. eapply frun_where; [exact W|]. apply at_run. Qed.
Lemma at_user k t : acts (m k) t <> None -> in_user (fns (s k)) t.
Proof. eapply frun_user; [exact W|]. apply at_run. Qed.
(** What the stack of a thread looks like. *)
Lemma at_left k t : (t < nthr (fns (s k)))%nat -> exists v os g,
  left c fini (code (m k)) (freg (m k)) (fval (s k) t) (Nat.eqb t 0) (fr k t) (acts (m k) t) (tdt (fns (s k)) t) v os g.
Proof.
  intros L. destruct (frun_inv c fini e main _ _ _ W (at_run k)) as [g V]. destruct (v_left _ _ _ _ _ _ _ V t L) as (os & X & _). eauto.
Qed.

Lemma over_stays k k' : (k <= k')%nat -> ended (s k) -> si k' = si k.
Proof.
  induction 1 as [|k' L IH]; [auto|]. intros E. specialize (IH E). pose proof (step_at k') as X. destruct (la k') as [x|t|].
  - exfalso. destruct X as [X _]. eapply (C62_end e c); [apply at_prun| |exact X]. rewrite IH. exact E.
  - exfalso. destruct X as (_ & X & _). rewrite IH in X. contradiction.
  - congruence.
Qed.

(** ** Actions of user code are bounded *)
Definition fact (k : nat) : nat := match la k with LEv x => if facts x then 1 else 0 | LDo _ => 1 | LIdle => 0 end.
Fixpoint cnt (k : nat) : nat := match k with O => 0%nat | S k' => (cnt k' + fact k')%nat end.
Lemma cnt_mono k k' : (k <= k')%nat -> (cnt k <= cnt k')%nat.
Proof. induction 1; cbn; lia. Qed.
Lemma cnt_ticks k : exists m', frun (ftfini fini) (FT main) e c (evs k) (s k) m' /\ ftrel (s k) (m k) m' /\ (cnt k <= length (fout m'))%nat.
Proof.
  induction k as [|k (m' & R & TR & L)]; cbn [ScriptFair.evs cnt].
  - destruct (ff_start _ _ _ _ _ _ F) as (b & Hb & -> & ->). eexists. split; [constructor; exact Hb|]. split; [|cbn; lia]. constructor; cbn; auto; try lia.
    intros t. unfold dupd. destruct (Nat.eqb t 0); reflexivity.
  - pose proof (step_at k) as X. unfold fact. destruct (la k) as [x|t|].
    + destruct X as [X Y]. destruct (ftick_step c fini main e _ _ _ _ _ _ _ W R TR X Y) as (m1 & R1 & T1 & L1).
      exists m1. split; [exact R1|]. split; [exact T1|]. lia.
    + destruct X as (-> & X1 & X2 & X3 & w & z & p & hs & X4 & ->). rewrite app_nil_r.
      destruct (ftick_print c fini main e _ _ _ _ _ _ _ _ _ R TR X1 X2 X3 X4) as (m1 & R1 & T1 & L1).
      exists m1. split; [exact R1|]. split; [exact T1|]. lia.
    + rewrite X, app_nil_r. exists m'. split; [exact R|]. split; [exact TR|lia].
Qed.
Lemma cnt_bound : exists B, forall k, (cnt k <= B)%nat.
Proof.
  eexists. intros k. destruct (cnt_ticks k) as (m' & R & _ & L). pose proof (tick_bound c fini main e _ _ _ W R). eapply Nat.le_trans; eauto.
Qed.

(** ** Something happens *)
Definition Q (k : nat) : Prop := exists k', (k <= k')%nat /\ (ended (s k') \/ (cnt k < cnt k')%nat).
Lemma Q_up k k' : (k <= k')%nat -> Q k' -> Q k.
Proof. intros L (x & Lx & [X|X]); exists x; (split; [lia|]); [left; exact X|right; pose proof (cnt_mono k k' L); lia]. Qed.
Lemma Q_act k k' : (k <= k')%nat -> fact k' = 1%nat -> Q k.
Proof. intros L A. exists (S k'). split; [lia|]. right. cbn. pose proof (cnt_mono k k' L). lia. Qed.
Lemma Q_end k : (exists k', ended (s k')) -> Q k.
Proof. intros (k' & E). exists (Nat.max k k'). split; [lia|]. left. rewrite (over_stays k'); [exact E|lia|exact E]. Qed.

Lemma fsteps k t y a d' : dstep c (fns (s k)) t a = Some (y, d') -> fstep c (fr k t) y (frames d' t).
Proof.
  intros DS. pose proof (dstep_effect _ _ _ _ _ _ DS) as [_ EL EO _ _ _ _ _ _ _ _ _]. apply EO. intros ->.
  destruct (i_new _ _ _ (at_inv k) (nthr (fns (s k)))) as [Y _]; [lia|]. contradiction.
Qed.
(** Threads are created by actions that count. *)
Lemma nthr_same k k' : (k <= k')%nat -> Q k \/ nthr (fns (s k')) = nthr (fns (s k)).
Proof.
  induction 1 as [|k' L [IH|IH]]; [auto|auto|]. pose proof (step_at k') as X.
  assert (E : fact k' = 1%nat \/ nthr (fns (s (S k'))) = nthr (fns (s k'))).
  { unfold fact. destruct (la k') as [x|t|]; [|destruct X as (-> & _); auto|rewrite X; auto]. destruct X as [X _].
    inversion X; subst; cbn [fns]; auto; right; match goal with DS : dstep _ _ _ _ = Some (?y, _) |- _ => rewrite (e_nthr _ _ _ _ _ (dstep_effect _ _ _ _ _ _ DS)) end; auto.
    destruct x0; try discriminate; auto. }
  destruct E as [E|E]; [left; eapply Q_act; eauto|right; congruence].
Qed.
Lemma life_none k : life_at la k = None -> life (s (S k)) = life (s k) \/ exists acc, bstep e (life (s k)) acc None (life (s (S k))).
Proof.
  unfold life_at. pose proof (step_at k) as X. destruct (la k) as [x|t|].
  - destruct X as [X _]. inversion X; subst; cbn; intros Y; try discriminate Y; auto. right. eauto.
  - destruct X as (-> & _). auto.
  - rewrite X. auto.
Qed.
Lemma life_some k l : life_at la k = Some l -> exists acc, bstep e (life (s k)) acc (Some l) (life (s (S k))).
Proof.
  unfold life_at. pose proof (step_at k) as X. destruct (la k) as [x|t|]; try discriminate.
  destruct X as [X _]. inversion X; subst; cbn; intros Y; try discriminate Y; injection Y as <-; eauto.
Qed.

Lemma no_fns k t : fr k t <> [] -> (forall y, ~ does (fns_at la) k t y) -> fr (S k) t = fr k t.
Proof.
  intros NE ND. assert (TL : (t < nthr (fns (s k)))%nat).
  { destruct (le_lt_dec (nthr (fns (s k))) t) as [Z|Z]; [|exact Z]. destruct (i_new _ _ _ (at_inv k) t Z) as [Y _]. contradiction. }
  unfold does, fns_at in ND. pose proof (step_at k) as X. destruct (la k) as [x|u|]; [|destruct X as (-> & _); reflexivity|rewrite X; reflexivity].
  destruct X as [X _].
  assert (EO : forall u a y d', dstep c (fns (s k)) u a = Some (y, d') -> hd_error (fns_of x) = Some (u, y) -> frames d' t = fr k t).
  { intros u a y d' DS HD. assert (t <> u) by (intros ->; eapply ND; exact HD). rewrite (e_other _ _ _ _ _ (dstep_effect _ _ _ _ _ _ DS) t) by auto.
    destruct y; auto. pose proof (e_guard _ _ _ _ _ (dstep_effect _ _ _ _ _ _ DS)) as EG. cbn in EG. destruct EG as [-> _]. destruct (Nat.eqb_spec t (nthr (fns (s k)))); [lia|reflexivity]. }
  inversion X; subst; cbn [fns]; auto; eapply EO; eauto; reflexivity.
Qed.
Lemma fns_dec k t : (exists y, does (fns_at la) k t y) \/ forall y, ~ does (fns_at la) k t y.
Proof.
  unfold does. destruct (fns_at la k) as [[u y]|]; [|right; discriminate]. destruct (Nat.eq_dec u t) as [->|NE]; [left; eauto|right; congruence].
Qed.
Lemma fns_step k t y : does (fns_at la) k t y -> exists a, dstep c (fns (s k)) t a = Some (y, fns (s (S k))).
Proof.
  unfold does, fns_at. pose proof (step_at k) as X. destruct (la k) as [x|u|]; try discriminate.
  destruct X as [X _]. inversion X; subst; cbn; intros Z; try discriminate Z; injection Z as <- <-; eauto.
Qed.


(** ** User code about to act stays so until it does. *)
Lemma stays k t a : acts (m k) t = Some a -> t_pc (bT (life (s k)) t) = Run ->
  fact k = 1%nat \/ (exists acc j, la k = LEv (PLife (t, acc, ECallJoin j)) \/ la k = LEv (PLife (t, acc, ECallDetach j))) \/
  (acts (m (S k)) t = Some a /\ t_pc (bT (life (s (S k))) t) = Run).
Proof.
  intros A PR. pose proof (step_at k) as X. unfold fact. destruct (la k) as [x|u|]; [|auto|rewrite X; auto].
  destruct X as [X Y]. destruct (facts x) eqn:FA; [auto|]. right.
  assert (U : in_user (fns (s k)) t) by (apply at_user; congruence).
  inversion X as [acc b' Tm B E1 E2|acc i ins y b' Tm B LO AC E1 E2|u act y d' DS FO PC E1 E2|u v d' DS PC UV E1 E2|acc i ins j b' d' B DS E1 E2|acc u ins b' d' DS B E1 E2]; subst x; try discriminate FA; cbn [life fns].
  - right. assert (EM : m (S k) = m k) by (inversion Y; reflexivity). rewrite EM. split; [exact A|]. apply (fpc_step _ _ _ _ _ t B). exact PR.
  - pose proof (fpc_step _ _ _ _ _ t B) as PS. destruct (Nat.eq_dec i t) as [->|NE].
    + destruct y; try discriminate LO; try discriminate FA; try (left; eauto 6; fail).
      all: right; (split; [assert (EM : m (S k) = m k) by (inversion Y; reflexivity); rewrite EM; exact A|]); try (apply PS; exact PR).
    + right. assert (EM : acts (m (S k)) t = acts (m k) t) by (inversion Y; subst; cbn; rewrite ?dupd_ne by auto; reflexivity). rewrite EM. split; [exact A|].
      destruct y; try discriminate LO; try discriminate FA; try (apply PS; exact PR); destruct PS as (_ & PS & _); rewrite PS by auto; exact PR.
  - right. split; [|exact PR]. pose proof (fsteps _ _ _ _ _ DS) as FS. destruct (Nat.eq_dec u t) as [->|NE].
    + destruct U as (w & fs & Fr). rewrite Fr in FS. inversion FS; subst; try discriminate FA; try discriminate FO; inversion Y; subst; try contradiction; exact A.
    + rewrite <- A. inversion Y; subst; cbn; rewrite ?dupd_ne by auto; reflexivity.
  - right. assert (EM : m (S k) = m k) by (inversion Y; reflexivity). rewrite EM. split; [exact A|].
    pose proof (fpc_step _ _ _ _ _ t B) as PS. cbn in PS. destruct (Nat.eq_dec t u) as [->|NE]; [|rewrite PS by auto; exact PR].
    exfalso. pose proof (fsteps _ _ _ _ _ DS) as FS. destruct U as (w & fs & Fr). rewrite Fr in FS. inversion FS.
Qed.
(** ** Calls *)
Hypothesis G : forall k, bguards_ok e (life (s k)).
Local Notation pcs := (fun k i => t_pc (bT (life (s k)) i)).

Lemma core_H0 : exists x, initial x /\ rel e (life (s 0%nat)) x.
Proof. destruct W as [W1 W2]. apply (bstarts_rel e W1 W2). destruct (ff_start _ _ _ _ _ _ F) as (b & Hb & -> & _). exact Hb. Qed.
Lemma core_H1 k x : rel e (life (s k)) x -> ThreadInv.inv (be_cfg e) x ->
  match life_at la k with Some l => exists x', step (be_cfg e) x l x' /\ rel e (life (s (S k))) x' | None => rel e (life (s (S k))) x end.
Proof.
  destruct W as [W1 W2]. intros Rl Iv. destruct (life_at la k) as [l|] eqn:El.
  - destruct (life_some k l El) as (acc & B). destruct (bsim e W1 W2 _ _ _ _ _ Rl Iv B) as [_ X]. exact X.
  - destruct (life_none k El) as [->|(acc & B)]; [exact Rl|]. destruct (bsim e W1 W2 _ _ _ _ _ Rl Iv B) as [_ X]. exact X.
Qed.
Lemma core_H2 k x : rel e (life (s k)) x -> (forall i, P x i = pcs k i) /\ n x = bn (life (s k)) /\ (forall i, bmapped (life (s k)) i -> mapped x i).
Proof.
  intros Rl. split; [intros y; now rewrite (rl_T _ _ _ Rl)|]. split; [apply (rl_n _ _ _ Rl)|].
  intros y (L & Mp). unfold mapped. destruct (rl_geo _ _ _ Rl y) as (_ & _ & ->). auto.
Qed.
Lemma core_H3 i k : exists k', (k <= k')%nat /\ (ended (s k') \/ moves (life_at la) i k' \/ idlep (pcs k' i)).
Proof. destruct (ff_life _ _ _ _ _ _ F i k) as (k' & L & X). exists k'. split; [exact L|exact X]. Qed.
Lemma core_G k x : rel e (life (s k)) x -> guards_ok (be_cfg e) x.
Proof. intros Rl. eapply guards_of; eauto. Qed.

Definition dead_at (j : nat) : Prop := exists k2 v, at_step (life_at la) k2 j (EReturn v).

(** A call of join or detach returns once the thread it is about has returned. *)
Lemma call_goes k i q j : incallp (pcs k i) q j -> dead_at j -> Q k.
Proof.
  intros H (k2 & v & R). pose proof (page_pos e W) as PP. destruct W as [W1 W2].
  destruct (halt_exit (be_cfg e) (fun k => rel e (life (s k))) pcs (fun k => bn (life (s k))) (fun k => bmapped (life (s k))) (life_at la) (fun k => ended (s k))
    PP W2 core_H0 core_H1 core_H2 core_H3 k2 j v R) as [E|(kd & _ & D)]; [apply Q_end; exact E|].
  assert (ACT : forall k' y, (k <= k')%nat -> at_step (life_at la) k' i y -> returns q j y -> Q k).
  { intros k' y L (acc & El) Re. apply (Q_act k k' L). unfold fact. unfold life_at in El. destruct (la k') as [x| |]; try discriminate.
    destruct x as [|l|u z|u v'|a ins j'|u ins v']; try discriminate; cbn in El; injection El; intros; subst; cbn.
    - destruct q; cbn in Re; [destruct Re as (rv & ->)|subst y]; reflexivity.
    - destruct q; cbn in Re; [destruct Re as (rv & Re)|]; discriminate.
    - destruct q; cbn in Re; [destruct Re as (rv & Re)|]; discriminate. }
  destruct (incall_lt (be_cfg e) (fun k => rel e (life (s k))) pcs (fun k => bn (life (s k))) (fun k => bmapped (life (s k))) (life_at la) PP W2 core_H0 core_H1 core_H2 k i q j H) as [Li _].
  destruct (incall_until (be_cfg e) (fun k => rel e (life (s k))) pcs (fun k => bn (life (s k))) (fun k => bmapped (life (s k))) (life_at la) PP W2 core_H0 core_H1 core_H2 core_G k kd i q j Li H) as [H'|(k' & y & L & A & B)];
    [|exact (ACT k' y ltac:(lia) A B)].
  destruct (call_returns (be_cfg e) (fun k => rel e (life (s k))) pcs (fun k => bn (life (s k))) (fun k => bmapped (life (s k))) (life_at la) (fun k => ended (s k))
    PP W2 core_H0 core_H1 core_H2 core_H3 core_G (k + kd)%nat i q j H' (D (k + kd)%nat ltac:(lia))) as [E|(k' & y & L & A & B)]; [apply Q_end; exact E|].
  exact (ACT k' y ltac:(lia) A B).
Qed.
Lemma never_panics k i : t_pc (bT (life (s k)) i) <> Panicked.
Proof.
  destruct W as [W1 W2]. apply (np (be_cfg e) (fun k => rel e (life (s k))) pcs (fun k => bn (life (s k))) (fun k => bmapped (life (s k))) (life_at la) (page_pos e W) W2 core_H0 core_H1 core_H2 core_G).
Qed.

(** A thread with nothing left to run has returned. *)
Lemma done_at k t : (t < nthr (fns (s k)))%nat -> fr k t = [] -> dead_at t.
Proof.
  intros L E. destruct (proj _ _ _ _ (at_prun k)) as [_ X]. destruct (done_in c (fun _ => ScriptModel.Return 0 : ScriptModel.prog unit) _ _ X) as [_ Y]. specialize (Y t L E).
  unfold ProcModel.exits in Y. apply in_flat_map in Y as (x & Hx & Y). apply fevs_in in Hx as (k2 & _ & El).
  pose proof (step_at k2) as St. rewrite El in St. destruct St as [St _].
  destruct x as [| |u y|u v|i ins j|u ins v]; cbn in Y; try contradiction; try (destruct Y as [Y|[]]; injection Y; intros; subst; try discriminate).
  - inversion St; subst. discriminate.
  - exists k2, v, ins. unfold life_at. rewrite El. reflexivity.
Qed.

(** Only the main thread ever waits for the lock, and no other thread holds it. *)
Lemma not_blocked k t : (t < nthr (fns (s k)))%nat -> ~ blocked c (fns (s k)) t.
Proof.
  intros Lt (Ct & Lk & B). destruct (at_left k t Lt) as (v & os & g & L).
  assert (E : exists st l, fr k t = FX st XLock :: l /\ t = 0%nat).
  { destruct B as [(f & l & B)|(st & l & B)]; rewrite B in L.
    - inversion L.
    - exists st, l. split; [exact B|]. destruct (Nat.eqb_spec t 0) as [->|]; [reflexivity|inversion L]. }
  destruct E as (st & l & E & ->). clear B.
  pose proof (frun_nof _ _ _ _ _ _ _ W (at_run k)) as NB. rewrite E in NB. cbn in NB.
  destruct (lk (fns (s k))) as [v0|] eqn:El; [|congruence]. apply (i_hold _ _ _ (at_inv k) Ct v0) in El.
  destruct (Nat.eq_dec v0 0) as [->|NE].
  - rewrite E in El. unfold holds in El. cbn in El. rewrite NB, andb_false_r in El. discriminate.
  - destruct (le_lt_dec (nthr (fns (s k))) v0) as [Z|Z].
    { destruct (i_new _ _ _ (at_inv k) v0 Z) as [Y _]. rewrite Y in El. unfold holds in El. cbn in El. rewrite andb_false_r in El. discriminate. }
    destruct (at_left k v0 Z) as (v1 & os1 & g1 & L1). destruct (Nat.eqb_spec v0 0) as [|_]; [contradiction|].
    inversion L1; subst; try match goal with A : kont _ _ _ _ _ _ _ _ _ _ _ |- _ => inversion A; subst end; try discriminate;
      match goal with A : _ = fr k v0 |- _ => rewrite <- A in El end; unfold holds in El; cbn in El; rewrite andb_false_r in El; discriminate.
Qed.

(** ** Every thread comes to its end, or something happens *)
Lemma thread_ends : forall d N t k, nthr (fns (s k)) = N -> (t < N)%nat -> (N - t <= d)%nat -> Q k \/ dead_at t.
Proof.
  induction d as [|d IHd]; [lia|]. intros N t k En Lt Ld.
  assert (IN : forall k i q j, nthr (fns (s k)) = N -> (t < j < N)%nat -> incallp (pcs k i) q j -> Q k).
  { intros k0 i q j E0 Lj H. destruct (IHd N j k0 E0) as [X|X]; [lia|lia|exact X|]. eapply call_goes; eauto. }
  (* user code inside join or detach *)
  assert (CALL : forall k, nthr (fns (s k)) = N -> fr k t <> [] -> t_pc (bT (life (s k)) t) <> Run -> Q k).
  { intros k0 E0 NE NR. destruct (fw_pc _ _ (at_where k0) t NE) as [X|X]; [contradiction|]. unfold at_call in X.
    destruct (acts (m k0) t) as [[w p hs]|] eqn:A; [|contradiction].
    destruct p; try contradiction; destruct X as (j & X1 & [X2|X2]); try (exfalso; eapply never_panics; exact X2);
      apply nth_error_In in X1; pose proof (fw_kid _ _ (at_where k0) t _ _ _ _ A X1); (eapply IN; [exact E0| |exact X2]); lia. }
  (* user code that runs *)
  assert (USER : forall k a, nthr (fns (s k)) = N -> acts (m k) t = Some a -> Q k).
  { intros k0 a E0 A. assert (RD : t_pc (bT (life (s k0)) t) = Run \/ t_pc (bT (life (s k0)) t) <> Run) by (destruct (t_pc (bT (life (s k0)) t)); (left; reflexivity) || (right; discriminate)).
    assert (FN : fr k0 t <> []) by (destruct (at_user k0 t) as (w & fs & X); [congruence|rewrite X; discriminate]).
    destruct RD as [RD|RD]; [|eapply CALL; eauto].
    destruct (ff_user _ _ _ _ _ _ F t k0) as (k' & L & X).
    assert (CL : forall x acc j, (k0 <= x)%nat -> la x = LEv (PLife (t, acc, ECallJoin j)) \/ la x = LEv (PLife (t, acc, ECallDetach j)) -> Q k0).
    { intros x acc j Lx Lax. destruct (nthr_same k0 (S x) ltac:(lia)) as [Y|Y]; [exact Y|]. apply (Q_up k0 (S x)); [lia|]. pose proof (step_at x) as St.
      assert (Z : fr x t <> [] /\ incallp (pcs (S x) t) (match la x with LEv (PLife (_, _, ECallDetach _)) => KDetach | _ => KJoin end) j /\ fr (S x) t = fr x t).
      { destruct Lax as [El|El]; rewrite El in *; destruct St as [St Yg]; inversion St as [|acc0 i0 ins0 y b' Tm B LO AC| | | |]; subst; cbn [life fns];
          pose proof (fpc_step _ _ _ _ _ t B) as (_ & _ & PS); (split; [|split; [exact PS|reflexivity]]);
          (destruct (at_user x t) as (w & fs & U); [inversion Yg; subst; [congruence|discriminate]|rewrite U; discriminate]). }
      destruct Z as (Z1 & Z2 & Z3). apply CALL; [congruence|congruence|]. intros RR. cbn beta in Z2. rewrite RR in Z2. exact Z2. }
    destruct (holds_until (fun x => acts (m x) t = Some a /\ t_pc (bT (life (s x)) t) = Run)
      (fun x => fact x = 1%nat \/ exists acc j, la x = LEv (PLife (t, acc, ECallJoin j)) \/ la x = LEv (PLife (t, acc, ECallDetach j))) k0 k' L (conj A RD)) as [(x & Lx & [Y|(acc & j & Y)])|[A1 A2]].
    - intros x Lx [K1 U1]. destruct (stays x t a K1 U1) as [Y|[Y|Y]]; auto.
    - eapply Q_act; eauto.
    - eapply CL; eauto.
    - destruct X as [X|[X|X]].
      + exists k'. split; [exact L|left; exact X].
      + unfold fdoes_next in X. destruct (la k') as [x|u|] eqn:El; [|eapply Q_act; [exact L|]; unfold fact; rewrite El; reflexivity|contradiction].
        destruct x as [|[[i ins] x]|u y|u v|i ins j|u ins v]; try contradiction.
        * destruct x; try contradiction; subst i; eapply CL; eauto.
        * eapply Q_act; [exact L|]. unfold fact. rewrite El. destruct y; try contradiction; reflexivity.
        * eapply Q_act; [exact L|]. unfold fact. rewrite El. reflexivity.
        * eapply Q_act; [exact L|]. unfold fact. rewrite El. reflexivity.
      + exfalso. apply X. split; [exact A2|]. split; [apply at_user; congruence|congruence]. }
  (* origin's code *)
  assert (ORIGIN : forall w k, nthr (fns (s k)) = N -> (fw (fr k t) <= w)%nat -> Q k \/ dead_at t).
  { induction w as [w IHw] using lt_wf_ind. intros k0 E0 Wt.
    destruct (at_left k0 t ltac:(lia)) as (v & os & g & Lf).
    destruct (acts (m k0) t) as [a|] eqn:A; [left; eapply USER; eauto|].
    destruct (fr k0 t) as [|f0 fs] eqn:Fr; [right; apply (done_at k0); [lia|exact Fr]|].
    assert (Ps : (0 < fw (f0 :: fs))%nat).
    { destruct f0 as [w0| | | | |st []| |]; [inversion Lf|..]; cbn; lia. }
    destruct (ff_fns _ _ _ _ _ _ F t k0) as (k' & L & X).
    assert (MOVE : forall x y, (k0 <= x)%nat -> fr x t = f0 :: fs -> does (fns_at la) x t y -> Q k0 \/ dead_at t).
    { intros x y Lx Fx Dy. destruct (nthr_same k0 (S x) ltac:(lia)) as [Y|Y]; [left; exact Y|].
      destruct (fns_step _ _ _ Dy) as (a & DS). pose proof (fsteps _ _ _ _ _ DS) as FS. pose proof (dstep_effect _ _ _ _ _ _ DS) as EF. rewrite Fx in FS.
      assert (TD : (exists o', y = Term o') \/ forall o', y <> Term o') by (destruct y; (left; eexists; reflexivity) || (right; discriminate)).
      destruct TD as [(o' & ->)|NT].
      - left. exists (S x). split; [lia|]. left. unfold ended. rewrite (e_term _ _ _ _ _ EF). discriminate.
      - pose proof (fw_step _ _ _ _ FS Ps NT) as LT. destruct (IHw (fw (fr (S x) t))) with (k := S x) as [Z|Z]; [lia|congruence|lia| |right; exact Z].
        left. apply (Q_up k0 (S x)); [lia|exact Z]. }
    destruct (holds_until (fun x => fr x t = f0 :: fs) (fun x => fr x t = f0 :: fs /\ exists y, does (fns_at la) x t y) k0 k' L Fr) as [(x & Lx & Fx & y & Dy)|Fk].
    { intros x Lx Fx. destruct (fns_dec x t) as [Y|Y]; [left; auto|right]. rewrite no_fns; auto. rewrite Fx. discriminate. }
    - eapply MOVE; eauto.
    - destruct (nthr_same k0 k' L) as [Y|Y]; [left; exact Y|]. destruct X as [X|[(y & X)|[X|[(w0 & fs' & X)|X]]]].
      + left. exists k'. split; [exact L|left; exact X].
      + eapply MOVE; eauto.
      + exfalso. unfold gone in X. congruence.
      + exfalso. rewrite Fk in X. injection X as -> ->. cbn in Ps. lia.
      + exfalso. eapply not_blocked; [|exact X]. lia. }
  eapply ORIGIN; eauto.
Qed.

Lemma main_goes : ~ dead_at 0%nat.
Proof.
  intros (k2 & v & acc & El). unfold life_at in El. pose proof (step_at k2) as St. destruct (la k2) as [x| |]; try discriminate.
  destruct St as [St _]. inversion St; subst; cbn in El; try discriminate; injection El; intros; subst; try discriminate.
  match goal with DS : dstep _ _ _ _ = Some (ThreadDone, ?d) |- _ => pose proof (fsteps _ _ _ _ _ DS) as FS end.
  destruct (frun_inv c fini e main _ _ _ W (at_run k2)) as [g V]. destruct (v_main _ _ _ _ _ _ _ V) as [_ Lt].
  destruct (at_left k2 0%nat Lt) as (v' & os & g' & L). revert FS L. generalize (frames d' 0) (fr k2 0%nat). intros A B FS L. inversion FS; subst. inversion L.
Qed.
Lemma always_Q k : Q k.
Proof.
  destruct (frun_inv c fini e main _ _ _ W (at_run k)) as [g V]. destruct (v_main _ _ _ _ _ _ _ V) as [_ Lt].
  destruct (thread_ends _ _ 0%nat k eq_refl Lt (le_n _)) as [X|X]; [exact X|exfalso; eapply main_goes; eauto].
Qed.
Theorem fends : exists K, forall k, (K <= k)%nat -> ended (s k).
Proof.
  assert (X : exists K, ended (s K)).
  { destruct cnt_bound as (B & HB). assert (Y : forall n k, (B - cnt k <= n)%nat -> exists K, ended (s K)).
    { induction n as [|n IH]; intros k L; destruct (always_Q k) as (k' & _ & [E|C]); eauto; specialize (HB k'); [lia|]. apply (IH k'). lia. }
    apply (Y (B - cnt 0) 0)%nat. lia. }
  destruct X as (K & E). exists K. intros k L. rewrite (over_stays K k L E). exact E.
Qed.

End Fair.
