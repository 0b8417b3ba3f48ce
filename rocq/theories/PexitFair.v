(** Every fair execution of a parallel program ends (for C83). *)
From Coq Require Import ZArith List Bool Lia Arith.
From Verif Require Import Machine LayoutModel ThreadModel ThreadInv ThreadSpec FairSpec FairCore ByteModel ByteSpec ByteProofs ByteSim ByteFairSpec DtorsModel DtorsFacts DtorsInv DtorsPres ExitFairSpec ProcModel Props_Proc Props_Byte ScriptPc ScriptFairSpec ScriptFair ForkProofs ForkPc PexitModel PexitSpec PexitProofs PexitAll PexitPc PexitTick PexitFairSpec.
Import ListNotations.
Open Scope Z_scope.

(** While the .fini_array functions run, the main thread is in one of them, and
    it waits for nothing. *)
Definition fin_ok (s : pst) (m : qmach) : Prop :=
  existsb isfini (frames (fns s) 0) = true ->
  match acts m 0%nat with Some (Act _ p _) => solo p /\ in_user (fns s) 0 | None => exists st k bot, frames (fns s) 0 = FX st (XFini k) :: bot end.
Lemma frun_fin fini main e c tr s m : (forall k, solo (fini k)) -> good_env e -> qrun fini main e c tr s m -> fin_ok s m.
Proof.
  intros Hs Ge R. induction R as [b Hb|tr s m x s' m' R IH St F|tr s m t w z k hs R IH T U P K]; [discriminate| |].
  - destruct (proj _ _ _ _ (frun_prun _ _ _ _ _ _ _ R)) as [_ RD]. pose proof (exec_inv _ _ _ RD) as I.
    destruct (arun_inv c fini e main tr s m Ge R) as [g V]. destruct (a_main _ _ _ _ _ _ _ V) as [_ Lt].
    destruct (a_left _ _ _ _ _ _ _ V 0%nat Lt) as (os & L & _). cbn [Nat.eqb] in L.
    (* another thread, or nothing happens *)
    assert (OTH : frames (fns s') 0 = frames (fns s) 0 -> acts m' 0%nat = acts m 0%nat -> fin_ok s' m').
    { intros E1 E2. unfold fin_ok, in_user in *. rewrite E1, E2. exact IH. }
    assert (OF : forall t a y d', dstep c (fns s) t a = Some (y, d') -> t <> 0%nat -> frames d' 0%nat = frames (fns s) 0%nat).
    { intros t a y d' DS NE. pose proof (dstep_effect _ _ _ _ _ _ DS) as EF. rewrite (e_other _ _ _ _ _ EF 0%nat) by auto.
      destruct y; auto. pose proof (e_guard _ _ _ _ _ EF) as [-> _]. destruct (Nat.eqb_spec 0 (nthr (fns s))); [lia|reflexivity]. }
    assert (OW : forall a y d', dstep c (fns s) 0%nat a = Some (y, d') -> fstep c (frames (fns s) 0%nat) y (frames d' 0%nat)).
    { intros a y d' DS. apply (e_own _ _ _ _ _ (dstep_effect _ _ _ _ _ _ DS)). lia. }
    unfold fin_ok in *. 
    destruct St as [acc b' Tm B|acc i ins y b' Tm B LO AC|t act y d' DS FO PC|t v d' DS PC UV|acc i ins j b' d' B DS|acc t ins b' d' DS B]; cbn [fns] in *.
    + assert (m' = m) as -> by (inversion F; reflexivity). exact IH.
    + inversion F; subst; try exact IH.
      all: destruct (Nat.eq_dec i 0) as [->|D]; [|apply OTH; [reflexivity|cbn; apply dupd_ne; auto]].
      all: intros X; specialize (IH X); match goal with A : acts _ 0%nat = Some _ |- _ => rewrite A in IH end; destruct IH as [[] _].
    + destruct (Nat.eq_dec t 0) as [->|D]; [|apply OTH; [eapply OF; eauto|inversion F; subst; cbn; rewrite ?dupd_ne by auto; reflexivity]].
      specialize (OW _ _ _ DS). clear - Hs L IH OW F FO. unfold in_user in *. revert L IH OW. generalize (frames d' 0%nat) (frames (fns s) 0%nat) (value (code m 0%nat) []).
      intros B A v0 L IH OW X.
      inversion F; subst; try discriminate FO; inversion OW; subst; cbn [acts aset fset]; rewrite ?dupd_eq in *;
        try (match goal with Q : acts _ 0%nat = _ |- _ => rewrite Q in * end);
        try (specialize (IH X)); try contradiction; try (destruct IH as [[] _]; fail); try exact IH.
      all: try (destruct (acts _ 0%nat) as [[w9 p9 hs9]|]; [destruct IH as [_ (? & ? & IH)]; discriminate IH|destruct IH as (? & ? & ? & IH); discriminate IH]; fail).
      all: try (split; [apply Hs|eauto]; fail).
      all: inversion L; subst; try (match goal with Q : _ = _ \/ _ = _ |- _ => destruct Q; discriminate end).
      all: try (cbn in X; congruence).
      all: try (match goal with Q : akont _ _ _ _ _ _ _ _ _ _ |- _ => inversion Q; subst end); try (cbn in X; congruence); eauto.
      all: unfold first_phase, after_t in *; destruct (c_tae c), (c_pae c); cbn in X; eauto; congruence.
    + destruct (Nat.eq_dec t 0) as [->|D]; [|apply OTH; [eapply OF; eauto|inversion F; subst; cbn; rewrite ?dupd_ne by auto; reflexivity]].
      specialize (OW _ _ _ DS). exfalso. clear - L OW. revert L OW. generalize (frames d' 0%nat) (frames (fns s) 0%nat) (value (code m 0%nat) []).
      intros B A v0 L OW. inversion OW; subst; try congruence. inversion L; subst; try (match goal with Q : _ = _ \/ _ = _ |- _ => destruct Q; discriminate end). match goal with Q : akont _ _ _ _ _ _ _ _ _ _ |- _ => inversion Q end.
    + inversion F; subst. pose proof (e_guard _ _ _ _ _ (dstep_effect _ _ _ _ _ _ DS)) as [Ej _].
      destruct (Nat.eq_dec i 0) as [->|D].
      * specialize (OW _ _ _ DS). unfold in_user in *. cbn [acts cset aset]. rewrite dupd_ne, dupd_eq by lia. match goal with Q : acts m 0%nat = _ |- _ => rewrite Q in IH end.
        intros X. revert IH OW X. generalize (frames d' 0%nat) (frames (fns s) 0%nat). intros B' A IH OW X. inversion OW; subst. apply IH. exact X.
      * apply OTH; [eapply OF; eauto|]. cbn [acts cset aset]. rewrite !dupd_ne by lia. reflexivity.
    + destruct (Nat.eq_dec t 0) as [->|D]; [|apply OTH; [eapply OF; eauto|inversion F; reflexivity]].
      specialize (OW _ _ _ DS). exfalso. clear - L OW. revert L OW. generalize (frames d' 0%nat) (frames (fns s) 0%nat) (value (code m 0%nat) []).
      intros B A v0 L OW. inversion OW; subst. inversion L; subst; try (match goal with Q : _ = _ \/ _ = _ |- _ => destruct Q; discriminate end).
  - intros X. specialize (IH X). cbn [acts aset oput]. unfold dupd. destruct (Nat.eqb_spec 0 t) as [<-|D]; [|exact IH]. rewrite K in IH. exact IH.
Qed.

Section Fair.
Variables (fini : nat -> qprog) (main : qprog) (e : benv) (c : dcfg) (si : nat -> pst * qmach) (la : nat -> slab).
Hypothesis W : good_env e.
Hypothesis F : ffair fini main e c si la.

Local Notation s k := (fst (si k)).
Local Notation m k := (snd (si k)).
Local Notation fr k := (frames (fns (fst (si k)))).
Local Notation run := (qrun fini main e c).
Local Notation evs := (ScriptFair.evs la).

Lemma fevs_in k x : In x (evs k) -> exists k', (k' < k)%nat /\ la k' = LEv x.
Proof.
  clear. induction k as [|k IH]; cbn; [intros []|]. rewrite in_app_iff. intros [X|X].
  - destruct (IH X) as (k' & L & E). exists k'. split; [lia|exact E].
  - destruct (la k) as [y| |] eqn:E; try destruct X as [->|[]]; try destruct X. exists k. split; [lia|exact E].
Qed.
Lemma step_at k : match la k with
     | LEv x => pstep e c (s k) x (s (S k)) /\ qollows fini (m k) x (m (S k))
     | LDo t => s (S k) = s k /\ term (fns (s k)) = None /\ in_user (fns (s k)) t /\ t_pc (bT (life (s k)) t) = Run /\
         exists w z p hs, acts (m k) t = Some (Act w (QPrint z p) hs) /\ m (S k) = oput (aset (m k) t (Some (Act w p hs))) t z
     | LIdle => si (S k) = si k
     end.
Proof. pose proof (ff_step _ _ _ _ _ _ F k) as X. destruct (si k) as [a b]. exact X. Qed.

Lemma at_run k : run (evs k) (s k) (m k).
Proof.
  induction k as [|k IH]; cbn [ScriptFair.evs].
  - destruct (ff_start _ _ _ _ _ _ F) as (b & Hb & -> & ->). constructor. exact Hb.
  - pose proof (step_at k) as X. destruct (la k) as [x|t|].
    + destruct X as [X Y]. eapply qr_step; eauto.
    + destruct X as (-> & X1 & X2 & X3 & w & z & p & hs & X4 & ->). rewrite app_nil_r. eapply qr_print; eauto.
    + rewrite X, app_nil_r. exact IH.
Qed.
Lemma at_prun k : prun e c (evs k) (s k).
Proof. eapply frun_prun. apply at_run. Qed.
Lemma at_inv k : DtorsInv.inv c (ProcModel.exits (evs k)) (fns (s k)).
Proof. destruct (proj _ _ _ _ (at_prun k)) as [_ X]. eapply exec_inv; eauto. Qed.
Lemma at_where k : qwhere (s k) (m k).
Proof. eapply frun_where; [exact W|]. apply at_run. Qed.
Hypothesis Hs : forall k, solo (fini k).
Lemma at_fin k : fin_ok (s k) (m k).
Proof. eapply frun_fin; [exact Hs|exact W|]. apply at_run. Qed.
Lemma at_reg k t x l : fr k t = x :: l -> isreg x = true -> t_pc (bT (life (s k)) t) = Run.
Proof. eapply reg_run. eapply at_prun. Qed.
Lemma at_user k t : acts (m k) t <> None -> t_pc (bT (life (s k)) t) <> Run -> in_user (fns (s k)) t.
Proof.
  intros A NR. eapply user_now; [exact W|apply at_run|exact A|]. intros x l E. destruct (isreg x) eqn:X; [|reflexivity]. exfalso. apply NR. eapply at_reg; eauto.
Qed.
(** What the stack of a thread looks like. *)
Lemma at_left k t : (t < nthr (fns (s k)))%nat -> exists v os g,
  aleft c fini (code (m k)) (freg (m k)) (fval (s k) t) (Nat.eqb t 0) (fr k t) (acts (m k) t) (tdt (fns (s k)) t) v os g.
Proof.
  intros L. destruct (arun_inv c fini e main _ _ _ W (at_run k)) as [g V]. destruct (a_left _ _ _ _ _ _ _ V t L) as (os & X & _). eauto.
Qed.

Lemma over_stays k k' : (k <= k')%nat -> ended (s k) -> si k' = si k.
Proof.
  induction 1 as [|k' L IH]; [auto|]. intros E. specialize (IH E). pose proof (step_at k') as X. destruct (la k') as [x|t|].
  - exfalso. destruct X as [X _]. eapply (C62_end e c); [apply at_prun| |exact X]. rewrite IH. exact E.
  - exfalso. destruct X as (_ & X & _). rewrite IH in X. contradiction.
  - congruence.
Qed.

(** ** Actions of user code are bounded *)
Definition fact (k : nat) : nat := match la k with LEv x => if facts x then 1 else 0 | LDo _ => 1 | LIdle => 0 end.
Fixpoint cnt (k : nat) : nat := match k with O => 0%nat | S k' => (cnt k' + fact k')%nat end.
Lemma cnt_mono k k' : (k <= k')%nat -> (cnt k <= cnt k')%nat.
Proof. induction 1; cbn; lia. Qed.
Lemma cnt_ticks k : exists m', qrun (ftfini fini) (QT main) e c (evs k) (s k) m' /\ ftrel (s k) (m k) m' /\ (cnt k <= length (fout m'))%nat.
Proof.
  induction k as [|k (m' & R & TR & L)]; cbn [ScriptFair.evs cnt].
  - destruct (ff_start _ _ _ _ _ _ F) as (b & Hb & -> & ->). eexists. split; [constructor; exact Hb|]. split; [|cbn; lia]. constructor; cbn; auto; try lia.
    intros t. unfold dupd. destruct (Nat.eqb t 0); reflexivity.
  - pose proof (step_at k) as X. unfold fact. destruct (la k) as [x|t|].
    + destruct X as [X Y]. destruct (ftick_step c fini main e _ _ _ _ _ _ _ W R TR X Y) as (m1 & R1 & T1 & L1).
      exists m1. split; [exact R1|]. split; [exact T1|]. lia.
    + destruct X as (-> & X1 & X2 & X3 & w & z & p & hs & X4 & ->). rewrite app_nil_r.
      destruct (ftick_print c fini main e _ _ _ _ _ _ _ _ _ R TR X1 X2 X3 X4) as (m1 & R1 & T1 & L1).
      exists m1. split; [exact R1|]. split; [exact T1|]. lia.
    + rewrite X, app_nil_r. exists m'. split; [exact R|]. split; [exact TR|lia].
Qed.
Lemma cnt_bound : exists B, forall k, (cnt k <= B)%nat.
Proof.
  eexists. intros k. destruct (cnt_ticks k) as (m' & R & _ & L). pose proof (tick_bound c fini main e _ _ _ W R). eapply Nat.le_trans; eauto.
Qed.

(** ** Something happens *)
Definition Q (k : nat) : Prop := exists k', (k <= k')%nat /\ (ended (s k') \/ (cnt k < cnt k')%nat).
Lemma Q_up k k' : (k <= k')%nat -> Q k' -> Q k.
Proof. intros L (x & Lx & [X|X]); exists x; (split; [lia|]); [left; exact X|right; pose proof (cnt_mono k k' L); lia]. Qed.
Lemma Q_act k k' : (k <= k')%nat -> fact k' = 1%nat -> Q k.
Proof. intros L A. exists (S k'). split; [lia|]. right. cbn. pose proof (cnt_mono k k' L). lia. Qed.
Lemma Q_end k : (exists k', ended (s k')) -> Q k.
Proof. intros (k' & E). exists (Nat.max k k'). split; [lia|]. left. rewrite (over_stays k'); [exact E|lia|exact E]. Qed.

Lemma fsteps k t y a d' : dstep c (fns (s k)) t a = Some (y, d') -> fstep c (fr k t) y (frames d' t).
Proof.
  intros DS. pose proof (dstep_effect _ _ _ _ _ _ DS) as [_ EL EO _ _ _ _ _ _ _ _ _]. apply EO. intros ->.
  destruct (i_new _ _ _ (at_inv k) (nthr (fns (s k)))) as [Y _]; [lia|]. contradiction.
Qed.
(** Threads are created by actions that count. *)
Lemma nthr_same k k' : (k <= k')%nat -> Q k \/ nthr (fns (s k')) = nthr (fns (s k)).
Proof.
  induction 1 as [|k' L [IH|IH]]; [auto|auto|]. pose proof (step_at k') as X.
  assert (E : fact k' = 1%nat \/ nthr (fns (s (S k'))) = nthr (fns (s k'))).
  { unfold fact. destruct (la k') as [x|t|]; [|destruct X as (-> & _); auto|rewrite X; auto]. destruct X as [X _].
    inversion X; subst; cbn [fns]; auto; right; match goal with DS : dstep _ _ _ _ = Some (?y, _) |- _ => rewrite (e_nthr _ _ _ _ _ (dstep_effect _ _ _ _ _ _ DS)) end; auto.
    destruct x0; try discriminate; auto. }
  destruct E as [E|E]; [left; eapply Q_act; eauto|right; congruence].
Qed.
Lemma life_none k : life_at la k = None -> life (s (S k)) = life (s k) \/ exists acc, bstep e (life (s k)) acc None (life (s (S k))).
Proof.
  unfold life_at. pose proof (step_at k) as X. destruct (la k) as [x|t|].
  - destruct X as [X _]. inversion X; subst; cbn; intros Y; try discriminate Y; auto. right. eauto.
  - destruct X as (-> & _). auto.
  - rewrite X. auto.
Qed.
Lemma life_some k l : life_at la k = Some l -> exists acc, bstep e (life (s k)) acc (Some l) (life (s (S k))).
Proof.
  unfold life_at. pose proof (step_at k) as X. destruct (la k) as [x|t|]; try discriminate.
  destruct X as [X _]. inversion X; subst; cbn; intros Y; try discriminate Y; injection Y as <-; eauto.
Qed.

Lemma no_fns k t : (t < nthr (fns (s k)))%nat -> (forall y, ~ does (fns_at la) k t y) -> fr (S k) t = fr k t.
Proof.
  intros TL ND.
  unfold does, fns_at in ND. pose proof (step_at k) as X. destruct (la k) as [x|u|]; [|destruct X as (-> & _); reflexivity|rewrite X; reflexivity].
  destruct X as [X _].
  assert (EO : forall u a y d', dstep c (fns (s k)) u a = Some (y, d') -> hd_error (fns_of x) = Some (u, y) -> frames d' t = fr k t).
  { intros u a y d' DS HD. assert (t <> u) by (intros ->; eapply ND; exact HD). rewrite (e_other _ _ _ _ _ (dstep_effect _ _ _ _ _ _ DS) t) by auto.
    destruct y; auto. pose proof (e_guard _ _ _ _ _ (dstep_effect _ _ _ _ _ _ DS)) as EG. cbn in EG. destruct EG as [-> _]. destruct (Nat.eqb_spec t (nthr (fns (s k)))); [lia|reflexivity]. }
  inversion X; subst; cbn [fns]; auto; eapply EO; eauto; reflexivity.
Qed.
Lemma fns_dec k t : (exists y, does (fns_at la) k t y) \/ forall y, ~ does (fns_at la) k t y.
Proof.
  unfold does. destruct (fns_at la k) as [[u y]|]; [|right; discriminate]. destruct (Nat.eq_dec u t) as [->|NE]; [left; eauto|right; congruence].
Qed.
Lemma fns_step k t y : does (fns_at la) k t y -> exists a, dstep c (fns (s k)) t a = Some (y, fns (s (S k))).
Proof.
  unfold does, fns_at. pose proof (step_at k) as X. destruct (la k) as [x|u|]; try discriminate.
  destruct X as [X _]. inversion X; subst; cbn; intros Z; try discriminate Z; injection Z as <- <-; eauto.
Qed.


Lemma live_lt k t : fr k t <> [] -> (t < nthr (fns (s k)))%nat.
Proof. intros NE. destruct (le_lt_dec (nthr (fns (s k))) t) as [Z|Z]; [|exact Z]. destruct (i_new _ _ _ (at_inv k) t Z) as [Y _]. contradiction. Qed.

(** ** User code about to act stays so until it does. *)
Lemma user_keeps k t : in_user (fns (s k)) t -> fact k = 0%nat -> in_user (fns (s (S k))) t.
Proof.
  intros (w & fs & U) FA. destruct (fns_dec k t) as [(y & D)|ND].
  - destruct (fns_step _ _ _ D) as (a & DS). pose proof (fsteps _ _ _ _ _ DS) as FS. rewrite U in FS. unfold in_user. clear DS.
    unfold does, fns_at in D. pose proof (step_at k) as X. unfold fact in FA. destruct (la k) as [x|u|]; try discriminate D. destruct X as [X Y]. clear X.
    revert FS. generalize (frames (fns (s (S k))) t). intros B FS.
    destruct x as [|l|u z|u v|i ins j|u ins v]; cbn in D; try discriminate D; injection D; intros; subst; clear D; cbn in FA; try discriminate FA.
    + inversion FS; subst; try discriminate FA; eauto; inversion Y; contradiction.
    + inversion FS.
  - exists w, fs. rewrite no_fns; auto. apply live_lt. rewrite U. discriminate.
Qed.
Lemma stays k t a : acts (m k) t = Some a -> in_user (fns (s k)) t -> t_pc (bT (life (s k)) t) = Run ->
  fact k = 1%nat \/ (acts (m k) t = Some a /\ exists acc j, la k = LEv (PLife (t, acc, ECallJoin j)) \/ la k = LEv (PLife (t, acc, ECallDetach j))) \/
  (acts (m (S k)) t = Some a /\ in_user (fns (s (S k))) t /\ t_pc (bT (life (s (S k))) t) = Run).
Proof.
  intros A U PR.
  assert (FD : fact k = 1%nat \/ fact k = 0%nat) by (unfold fact; destruct (la k) as [x| |]; [destruct (facts x)|..]; auto). destruct FD as [FD|FD]; [auto|]. right.
  pose proof (user_keeps k t U FD) as UK.
  assert (R : (acts (m k) t = Some a /\ exists acc j, la k = LEv (PLife (t, acc, ECallJoin j)) \/ la k = LEv (PLife (t, acc, ECallDetach j))) \/
    (acts (m (S k)) t = Some a /\ t_pc (bT (life (s (S k))) t) = Run)); [|tauto]. clear UK.
  pose proof (step_at k) as X. unfold fact in FD. destruct (la k) as [x|u|]; [|discriminate FD|rewrite X; auto].
  destruct X as [X Y]. destruct (facts x) eqn:FA; [discriminate FD|].
  inversion X as [acc b' Tm B E1 E2|acc i ins y b' Tm B LO AC E1 E2|u act y d' DS FO PC E1 E2|u v d' DS PC UV E1 E2|acc i ins j b' d' B DS E1 E2|acc u ins b' d' DS B E1 E2]; subst x; try discriminate FA; cbn [life fns].
  - right. assert (EM : m (S k) = m k) by (inversion Y; reflexivity). rewrite EM. split; [exact A|]. apply (fpc_step _ _ _ _ _ t B). exact PR.
  - pose proof (fpc_step _ _ _ _ _ t B) as PS. destruct (Nat.eq_dec i t) as [->|NE].
    + destruct y; try discriminate LO; try discriminate FA; try (left; split; [exact A|eauto 6]; fail).
      all: right; (split; [assert (EM : m (S k) = m k) by (inversion Y; reflexivity); rewrite EM; exact A|]); try (apply PS; exact PR).
    + right. assert (EM : acts (m (S k)) t = acts (m k) t) by (inversion Y; subst; cbn; rewrite ?dupd_ne by auto; reflexivity). rewrite EM. split; [exact A|].
      destruct y; try discriminate LO; try discriminate FA; try (apply PS; exact PR); destruct PS as (_ & PS & _); rewrite PS by auto; exact PR.
  - right. split; [|exact PR]. pose proof (fsteps _ _ _ _ _ DS) as FS. destruct (Nat.eq_dec u t) as [->|NE].
    + destruct U as (w & fs & Fr). rewrite Fr in FS. inversion FS; subst; try discriminate FA; try discriminate FO; inversion Y; subst; try contradiction; exact A.
    + rewrite <- A. inversion Y; subst; cbn; rewrite ?dupd_ne by auto; reflexivity.
  - right. assert (EM : m (S k) = m k) by (inversion Y; reflexivity). rewrite EM. split; [exact A|].
    pose proof (fpc_step _ _ _ _ _ t B) as PS. cbn in PS. destruct (Nat.eq_dec t u) as [->|NE]; [|rewrite PS by auto; exact PR].
    exfalso. pose proof (fsteps _ _ _ _ _ DS) as FS. destruct U as (w & fs & Fr). rewrite Fr in FS. inversion FS.
Qed.
Lemma user_Q k t a : acts (m k) t = Some a -> in_user (fns (s k)) t -> t_pc (bT (life (s k)) t) = Run ->
  Q k \/ exists x acc j, (k <= x)%nat /\ acts (m x) t = Some a /\ (la x = LEv (PLife (t, acc, ECallJoin j)) \/ la x = LEv (PLife (t, acc, ECallDetach j))).
Proof.
  intros A U RD. destruct (ff_user _ _ _ _ _ _ F t k) as (k' & L & X).
  destruct (holds_until (fun x => acts (m x) t = Some a /\ in_user (fns (s x)) t /\ t_pc (bT (life (s x)) t) = Run)
      (fun x => fact x = 1%nat \/ (acts (m x) t = Some a /\ exists acc j, la x = LEv (PLife (t, acc, ECallJoin j)) \/ la x = LEv (PLife (t, acc, ECallDetach j)))) k k' L (conj A (conj U RD))) as [(x & Lx & [Y|(Ax & acc & j & Y)])|(A1 & A2 & A3)].
  - intros x Lx (K1 & U1 & P1). destruct (stays x t a K1 U1 P1) as [Y|[Y|Y]]; auto.
  - left. eapply Q_act; eauto.
  - right. exists x, acc, j. auto.
  - destruct X as [X|[X|X]].
    + left. exists k'. split; [exact L|left; exact X].
    + unfold fdoes_next in X. destruct (la k') as [x|u|] eqn:El; [|left; eapply Q_act; [exact L|]; unfold fact; rewrite El; reflexivity|contradiction].
      destruct x as [|[[i ins] x]|u y|u v|i ins j|u ins v]; try contradiction.
      * destruct x; try contradiction; subst i; right; exists k', ins, j; auto.
      * left. eapply Q_act; [exact L|]. unfold fact. rewrite El. destruct y; try contradiction; reflexivity.
      * left. eapply Q_act; [exact L|]. unfold fact. rewrite El. reflexivity.
      * left. eapply Q_act; [exact L|]. unfold fact. rewrite El. reflexivity.
    + exfalso. apply X. split; [exact A3|]. split; [exact A2|congruence].
Qed.

(** ** Steps of origin's own code are bounded as long as user code does nothing *)
Lemma fw_user l : fw l = 0%nat -> l = [] \/ exists w fs, l = FUser w :: fs.
Proof. destruct l as [|x l]; [auto|]. destruct x as [w| | | | |st []| |]; cbn; intros X; eauto; discriminate X. Qed.
Lemma fw_keeps k t : (t < nthr (fns (s k)))%nat -> fact k = 0%nat -> (fw (fr (S k) t) <= fw (fr k t))%nat.
Proof.
  intros Lt FA. destruct (fns_dec k t) as [(y & D)|ND]; [|rewrite no_fns; auto].
  destruct (fns_step _ _ _ D) as (a & DS). pose proof (fsteps _ _ _ _ _ DS) as FS.
  destruct (fw (fr k t)) as [|n0] eqn:E0.
  - destruct (fw_user _ E0) as [E|(w & fs & E)].
    + exfalso. exact (e_live _ _ _ _ _ (dstep_effect _ _ _ _ _ _ DS) E).
    + destruct (user_keeps k t) as (w' & fs' & E'); [exists w, fs; exact E|exact FA|]. rewrite E'. cbn. lia.
  - rewrite <- E0. destruct (match y with Term _ => true | _ => false end) eqn:TY.
    + destruct y; try discriminate TY. clear - FS. revert FS. generalize (frames (fns (s (S k))) t) (fr k t). intros B A FS. inversion FS; subst; lia.
    + assert (LT : (fw (fr (S k) t) < fw (fr k t))%nat); [|lia]. eapply fw_step; [exact FS|lia|]. intros o ->. discriminate.
Qed.
Definition gm (N k : nat) : nat := list_sum (map (fun t => fw (fr k t)) (seq 0 N)).
Lemma sum_le (f g : nat -> nat) l : (forall t, In t l -> (f t <= g t)%nat) -> (list_sum (map f l) <= list_sum (map g l))%nat.
Proof.
  clear. induction l as [|x l IH]; [reflexivity|]. change (list_sum (map f (x :: l))) with (f x + list_sum (map f l))%nat. change (list_sum (map g (x :: l))) with (g x + list_sum (map g l))%nat. intros H. pose proof (H x (or_introl eq_refl)). specialize (IH (fun t Ht => H t (or_intror Ht))). lia.
Qed.
Lemma sum_lt (f g : nat -> nat) l u : (forall t, In t l -> (f t <= g t)%nat) -> In u l -> (f u < g u)%nat -> (list_sum (map f l) < list_sum (map g l))%nat.
Proof.
  clear. induction l as [|x l IH]; [intros _ []|]. change (list_sum (map f (x :: l))) with (f x + list_sum (map f l))%nat. change (list_sum (map g (x :: l))) with (g x + list_sum (map g l))%nat. intros H I L. pose proof (H x (or_introl eq_refl)).
  pose proof (sum_le f g l (fun t Ht => H t (or_intror Ht))). destruct I as [->|I]; [lia|]. specialize (IH (fun t Ht => H t (or_intror Ht)) I L). lia.
Qed.
Lemma gm_mono N k k' : (k <= k')%nat -> nthr (fns (s k)) = N -> Q k \/ (nthr (fns (s k')) = N /\ (gm N k' <= gm N k)%nat).
Proof.
  intros L E. induction L as [|k' L IH]; [right; auto|]. destruct IH as [IH|[IH1 IH2]]; [auto|].
  assert (FD : fact k' = 1%nat \/ fact k' = 0%nat) by (unfold fact; destruct (la k') as [x| |]; [destruct (facts x)|..]; auto).
  destruct FD as [FD|FD]; [left; eapply Q_act; eauto|].
  destruct (nthr_same k (S k') ltac:(lia)) as [X|X]; [auto|]. right. split; [congruence|].
  enough (gm N (S k') <= gm N k')%nat by lia. apply sum_le. intros t Ht. apply in_seq in Ht. apply fw_keeps; [lia|exact FD].
Qed.
(** A step of origin's code. *)
Lemma gm_less N k x t y : (k <= x)%nat -> nthr (fns (s k)) = N -> (t < N)%nat -> does (fns_at la) x t y -> (0 < fw (fr x t))%nat ->
  Q k \/ (nthr (fns (s (S x))) = N /\ (gm N (S x) < gm N k)%nat).
Proof.
  intros L E Lt D Ps. destruct (gm_mono N k x L E) as [X|[E1 E2]]; [auto|].
  assert (FD : fact x = 1%nat \/ fact x = 0%nat) by (unfold fact; destruct (la x) as [z| |]; [destruct (facts z)|..]; auto).
  destruct FD as [FD|FD]; [left; eapply Q_act; eauto|].
  destruct (nthr_same k (S x) ltac:(lia)) as [X|X]; [auto|].
  destruct (fns_step _ _ _ D) as (a & DS). pose proof (fsteps _ _ _ _ _ DS) as FS. pose proof (dstep_effect _ _ _ _ _ _ DS) as EF.
  assert (TD : (exists o', y = Term o') \/ forall o', y <> Term o') by (destruct y; (left; eexists; reflexivity) || (right; discriminate)).
  destruct TD as [(o' & ->)|NT].
  - left. exists (S x). split; [lia|]. left. unfold ended. rewrite (e_term _ _ _ _ _ EF). discriminate.
  - right. split; [congruence|]. eapply Nat.lt_le_trans; [|exact E2]. apply (sum_lt _ _ _ t).
    + intros u Hu. apply in_seq in Hu. apply fw_keeps; [lia|exact FD].
    + apply in_seq. lia.
    + exact (fw_step _ _ _ _ FS Ps NT).
Qed.

(** While .fini_array runs the main thread gets on by itself. *)
Lemma fini_Q : forall w k, existsb isfini (fr k 0%nat) = true -> (fw (fr k 0%nat) <= w)%nat -> Q k.
Proof.
  induction w as [w IHw] using lt_wf_ind. intros k Fi Wt. pose proof (at_fin k Fi) as X.
  destruct (acts (m k) 0%nat) as [[w0 p hs]|] eqn:A.
  - destruct X as [So U].
    assert (PR : t_pc (bT (life (s k)) 0%nat) = Run).
    { destruct (fw_pc _ _ (at_where k) 0%nat) as [Y|Y]; [destruct U as (? & ? & ->); discriminate|exact Y|]. rewrite A in Y. destruct p; contradiction. }
    destruct (user_Q k 0%nat _ A U PR) as [Y|(x & acc & j & L & Ax & Y)]; [exact Y|exfalso].
    pose proof (step_at x) as St. destruct Y as [Y|Y]; rewrite Y in St; destruct St as [_ St]; inversion St; subst; try discriminate;
      match goal with B : acts (m x) 0%nat = Some (Act _ _ _) |- _ => rewrite Ax in B; injection B as -> -> ->; contradiction end.
  - destruct X as (st & n & bot & Fr). destruct (ff_fns _ _ _ _ _ _ F 0%nat k) as (k' & L & X).
    assert (MOVE : forall x y, (k <= x)%nat -> fr x 0%nat = FX st (XFini n) :: bot -> does (fns_at la) x 0%nat y -> Q k).
    { intros x y Lx Fx Dy. apply (Q_up k (S x)); [lia|]. destruct (fns_step _ _ _ Dy) as (a & DS). pose proof (fsteps _ _ _ _ _ DS) as FS. pose proof (dstep_effect _ _ _ _ _ _ DS) as EF. rewrite Fx in FS.
      assert (TD : (exists o', y = Term o') \/ forall o', y <> Term o') by (destruct y; (left; eexists; reflexivity) || (right; discriminate)).
      destruct TD as [(o' & ->)|NT].
      - exists (S x). split; [lia|]. left. unfold ended. rewrite (e_term _ _ _ _ _ EF). discriminate.
      - rewrite Fr in Wt. assert (Ps : (0 < fw (FX st (XFini n) :: bot))%nat) by (cbn; lia). pose proof (fw_step _ _ _ _ FS Ps NT) as LT. apply (IHw (fw (fr (S x) 0%nat))); [lia| |lia].
        clear - FS NT. revert FS. generalize (frames (fns (s (S x))) 0%nat). intros B FS. inversion FS; subst; [reflexivity|edestruct NT; reflexivity]. }
    destruct (holds_until (fun x => fr x 0%nat = FX st (XFini n) :: bot) (fun x => fr x 0%nat = FX st (XFini n) :: bot /\ exists y, does (fns_at la) x 0%nat y) k k' L Fr) as [(x & Lx & Fx & y & Dy)|Fk].
    { intros x Lx Fx. destruct (fns_dec x 0%nat) as [Y|Y]; [left; auto|right]. rewrite no_fns; auto. apply live_lt. rewrite Fx. discriminate. }
    + eapply MOVE; eauto.
    + destruct X as [X|[(y & X)|[X|[(w0 & fs' & X)|(_ & _ & [(f & l & X)|(st' & l & X)])]]]]; try congruence.
      * exists k'. split; [exact L|left; exact X].
      * eapply MOVE; eauto.
Qed.

(** Whoever holds the lock lets go of it. *)
Lemma holder_moves N k v0 f1 fs1 : nthr (fns (s k)) = N -> fr k v0 = f1 :: fs1 -> holds_top f1 = true ->
  Q k \/ exists x, (k <= x)%nat /\ nthr (fns (s x)) = N /\ (gm N x < gm N k)%nat.
Proof.
  intros E Fr H. assert (Lv : (v0 < N)%nat) by (rewrite <- E; apply live_lt; rewrite Fr; discriminate).
  assert (Ps : (0 < fw (f1 :: fs1))%nat) by (destruct f1 as [w| | | | |st []| |]; cbn in *; try discriminate; lia).
  destruct (ff_fns _ _ _ _ _ _ F v0 k) as (k' & L & X).
  assert (MOVE : forall x y, (k <= x)%nat -> fr x v0 = f1 :: fs1 -> does (fns_at la) x v0 y -> Q k \/ exists x, (k <= x)%nat /\ nthr (fns (s x)) = N /\ (gm N x < gm N k)%nat).
  { intros x y Lx Fx Dy. destruct (gm_less N k x v0 y Lx E Lv Dy) as [Y|[Y1 Y2]]; [rewrite Fx; exact Ps|auto|]. right. exists (S x). split; [lia|auto]. }
  destruct (holds_until (fun x => fr x v0 = f1 :: fs1) (fun x => fr x v0 = f1 :: fs1 /\ exists y, does (fns_at la) x v0 y) k k' L Fr) as [(x & Lx & Fx & y & Dy)|Fk].
  { intros x Lx Fx. destruct (fns_dec x v0) as [Y|Y]; [left; auto|right]. rewrite no_fns; auto. apply live_lt. rewrite Fx. discriminate. }
  - eapply MOVE; eauto.
  - destruct X as [X|[(y & X)|[X|[(w0 & fs' & X)|(_ & _ & [(f & l & X)|(st' & l & X)])]]]].
    + left. exists k'. split; [exact L|left; exact X].
    + eapply MOVE; eauto.
    + exfalso. unfold gone in X. congruence.
    + exfalso. rewrite Fk in X. injection X as -> ->. discriminate.
    + exfalso. rewrite Fk in X. injection X as -> ->. discriminate.
    + exfalso. rewrite Fk in X. injection X as -> ->. discriminate.
Qed.
Lemma blocked_moves N k t : nthr (fns (s k)) = N -> blocked c (fns (s k)) t ->
  Q k \/ exists x, (k <= x)%nat /\ nthr (fns (s x)) = N /\ (gm N x < gm N k)%nat.
Proof.
  intros E (Ct & Lk & _). destruct (lk (fns (s k))) as [v0|] eqn:El; [|congruence]. apply (i_hold _ _ _ (at_inv k) Ct v0) in El.
  unfold holds in El. apply orb_true_iff in El as [El|El].
  - destruct (fr k v0) as [|f1 fs1] eqn:Fr; [discriminate|]. eapply holder_moves; eauto.
  - left. apply andb_true_iff in El as [_ El]. assert (NE : fr k v0 <> []) by (intros X; rewrite X in El; discriminate).
    destruct (at_left k v0 (live_lt k v0 NE)) as (v & os & g & Lf). assert (v0 = 0%nat) as ->; [|eapply fini_Q; eauto].
    destruct (Nat.eqb_spec v0 0) as [Z|Z]; [exact Z|exfalso]. revert Lf El. generalize (fr k v0). intros A Lf El. clear - Lf El.
    inversion Lf; subst; try discriminate El; try (match goal with Q : akont _ _ _ _ _ _ _ _ _ _ |- _ => inversion Q; subst end); cbn in El; try discriminate El;
      match goal with Q : _ \/ _ |- _ => destruct Q as [->| ->]; discriminate El end.
Qed.
(** ** Calls *)
Hypothesis G : forall k, bguards_ok e (life (s k)).
Local Notation pcs := (fun k i => t_pc (bT (life (s k)) i)).

Lemma core_H0 : exists x, initial x /\ rel e (life (s 0%nat)) x.
Proof. destruct W as [W1 W2]. apply (bstarts_rel e W1 W2). destruct (ff_start _ _ _ _ _ _ F) as (b & Hb & -> & _). exact Hb. Qed.
Lemma core_H1 k x : rel e (life (s k)) x -> ThreadInv.inv (be_cfg e) x ->
  match life_at la k with Some l => exists x', step (be_cfg e) x l x' /\ rel e (life (s (S k))) x' | None => rel e (life (s (S k))) x end.
Proof.
  destruct W as [W1 W2]. intros Rl Iv. destruct (life_at la k) as [l|] eqn:El.
  - destruct (life_some k l El) as (acc & B). destruct (bsim e W1 W2 _ _ _ _ _ Rl Iv B) as [_ X]. exact X.
  - destruct (life_none k El) as [->|(acc & B)]; [exact Rl|]. destruct (bsim e W1 W2 _ _ _ _ _ Rl Iv B) as [_ X]. exact X.
Qed.
Lemma core_H2 k x : rel e (life (s k)) x -> (forall i, P x i = pcs k i) /\ n x = bn (life (s k)) /\ (forall i, bmapped (life (s k)) i -> mapped x i).
Proof.
  intros Rl. split; [intros y; now rewrite (rl_T _ _ _ Rl)|]. split; [apply (rl_n _ _ _ Rl)|].
  intros y (L & Mp). unfold mapped. destruct (rl_geo _ _ _ Rl y) as (_ & _ & ->). auto.
Qed.
Lemma core_H3 i k : exists k', (k <= k')%nat /\ (ended (s k') \/ moves (life_at la) i k' \/ idlep (pcs k' i)).
Proof. destruct (ff_life _ _ _ _ _ _ F i k) as (k' & L & X). exists k'. split; [exact L|exact X]. Qed.
Lemma core_G k x : rel e (life (s k)) x -> guards_ok (be_cfg e) x.
Proof. intros Rl. eapply guards_of; eauto. Qed.

Definition dead_at (j : nat) : Prop := exists k2 v, at_step (life_at la) k2 j (EReturn v).

(** A call of join or detach returns once the thread it is about has returned. *)
Lemma call_goes k i q j : incallp (pcs k i) q j -> dead_at j -> Q k.
Proof.
  intros H (k2 & v & R). pose proof (page_pos e W) as PP. destruct W as [W1 W2].
  destruct (halt_exit (be_cfg e) (fun k => rel e (life (s k))) pcs (fun k => bn (life (s k))) (fun k => bmapped (life (s k))) (life_at la) (fun k => ended (s k))
    PP W2 core_H0 core_H1 core_H2 core_H3 k2 j v R) as [E|(kd & _ & D)]; [apply Q_end; exact E|].
  assert (ACT : forall k' y, (k <= k')%nat -> at_step (life_at la) k' i y -> returns q j y -> Q k).
  { intros k' y L (acc & El) Re. apply (Q_act k k' L). unfold fact. unfold life_at in El. destruct (la k') as [x| |]; try discriminate.
    destruct x as [|l|u z|u v'|a ins j'|u ins v']; try discriminate; cbn in El; injection El; intros; subst; cbn.
    - destruct q; cbn in Re; [destruct Re as (rv & ->)|subst y]; reflexivity.
    - destruct q; cbn in Re; [destruct Re as (rv & Re)|]; discriminate.
    - destruct q; cbn in Re; [destruct Re as (rv & Re)|]; discriminate. }
  destruct (incall_lt (be_cfg e) (fun k => rel e (life (s k))) pcs (fun k => bn (life (s k))) (fun k => bmapped (life (s k))) (life_at la) PP W2 core_H0 core_H1 core_H2 k i q j H) as [Li _].
  destruct (incall_until (be_cfg e) (fun k => rel e (life (s k))) pcs (fun k => bn (life (s k))) (fun k => bmapped (life (s k))) (life_at la) PP W2 core_H0 core_H1 core_H2 core_G k kd i q j Li H) as [H'|(k' & y & L & A & B)];
    [|exact (ACT k' y ltac:(lia) A B)].
  destruct (call_returns (be_cfg e) (fun k => rel e (life (s k))) pcs (fun k => bn (life (s k))) (fun k => bmapped (life (s k))) (life_at la) (fun k => ended (s k))
    PP W2 core_H0 core_H1 core_H2 core_H3 core_G (k + kd)%nat i q j H' (D (k + kd)%nat ltac:(lia))) as [E|(k' & y & L & A & B)]; [apply Q_end; exact E|].
  exact (ACT k' y ltac:(lia) A B).
Qed.
Lemma never_panics k i : t_pc (bT (life (s k)) i) <> Panicked.
Proof.
  destruct W as [W1 W2]. apply (np (be_cfg e) (fun k => rel e (life (s k))) pcs (fun k => bn (life (s k))) (fun k => bmapped (life (s k))) (life_at la) (page_pos e W) W2 core_H0 core_H1 core_H2 core_G).
Qed.

(** A thread with nothing left to run has returned. *)
Lemma done_at k t : (t < nthr (fns (s k)))%nat -> fr k t = [] -> dead_at t.
Proof.
  intros L E. destruct (proj _ _ _ _ (at_prun k)) as [_ X]. destruct (done_in c (fun _ => ScriptModel.Return 0 : ScriptModel.prog unit) _ _ X) as [_ Y]. specialize (Y t L E).
  unfold ProcModel.exits in Y. apply in_flat_map in Y as (x & Hx & Y). apply fevs_in in Hx as (k2 & _ & El).
  pose proof (step_at k2) as St. rewrite El in St. destruct St as [St _].
  destruct x as [| |u y|u v|i ins j|u ins v]; cbn in Y; try contradiction; try (destruct Y as [Y|[]]; injection Y; intros; subst; try discriminate).
  - inversion St; subst. discriminate.
  - exists k2, v, ins. unfold life_at. rewrite El. reflexivity.
Qed.

(** ** Every thread comes to its end, or something happens *)
Lemma thread_ends : forall d N t k, nthr (fns (s k)) = N -> (t < N)%nat -> (N - t <= d)%nat -> Q k \/ dead_at t.
Proof.
  induction d as [|d IHd]; [lia|]. intros N t k En Lt Ld.
  assert (IN : forall k i q j, nthr (fns (s k)) = N -> (t < j < N)%nat -> incallp (pcs k i) q j -> Q k).
  { intros k0 i q j E0 Lj H. destruct (IHd N j k0 E0) as [X|X]; [lia|lia|exact X|]. eapply call_goes; eauto. }
  (* user code inside join or detach *)
  assert (CALL : forall k, nthr (fns (s k)) = N -> fr k t <> [] -> t_pc (bT (life (s k)) t) <> Run -> Q k).
  { intros k0 E0 NE NR. destruct (fw_pc _ _ (at_where k0) t NE) as [X|X]; [contradiction|]. unfold at_call in X.
    destruct (acts (m k0) t) as [[w p hs]|] eqn:A; [|contradiction].
    destruct p; try contradiction; destruct X as (j & X1 & [X2|X2]); try (exfalso; eapply never_panics; exact X2);
      apply nth_error_In in X1; pose proof (fw_kid _ _ (at_where k0) t _ _ _ _ A X1); (eapply IN; [exact E0| |exact X2]); lia. }
  (* user code that runs *)
  assert (USER : forall k a, nthr (fns (s k)) = N -> acts (m k) t = Some a -> in_user (fns (s k)) t -> Q k).
  { intros k0 a E0 A U. assert (RD : t_pc (bT (life (s k0)) t) = Run \/ t_pc (bT (life (s k0)) t) <> Run) by (destruct (t_pc (bT (life (s k0)) t)); (left; reflexivity) || (right; discriminate)).
    assert (FN : fr k0 t <> []) by (destruct U as (w & fs & X); rewrite X; discriminate).
    destruct RD as [RD|RD]; [|eapply CALL; eauto].
    destruct (user_Q k0 t a A U RD) as [Y|(x & acc & j & Lx & Ax & Lax)]; [exact Y|].
    destruct (nthr_same k0 (S x) ltac:(lia)) as [Y|Y]; [exact Y|]. apply (Q_up k0 (S x)); [lia|]. pose proof (step_at x) as St.
    assert (Z : fr x t <> [] /\ incallp (pcs (S x) t) (match la x with LEv (PLife (_, _, ECallDetach _)) => KDetach | _ => KJoin end) j /\ fr (S x) t = fr x t).
    { destruct Lax as [El|El]; rewrite El in *; destruct St as [St Yg]; inversion St as [|acc0 i0 ins0 y b' Tm B LO AC| | | |]; subst; cbn [life fns];
        pose proof (fpc_step _ _ _ _ _ t B) as (_ & _ & PS); (split; [|split; [exact PS|reflexivity]]);
        (destruct (AC eq_refl) as (w & fs & U'); rewrite U'; discriminate). }
    destruct Z as (Z1 & Z2 & Z3). apply CALL; [congruence|congruence|]. intros RR. cbn beta in Z2. rewrite RR in Z2. exact Z2. }
  (* origin's code *)
  assert (ORIGIN : forall w k, nthr (fns (s k)) = N -> (gm N k <= w)%nat -> Q k \/ dead_at t).
  { induction w as [w IHw] using lt_wf_ind. intros k0 E0 Wt.
    assert (LESS : forall x, (k0 <= x)%nat -> nthr (fns (s x)) = N -> (gm N x < gm N k0)%nat -> Q k0 \/ dead_at t).
    { intros x Lx Ex Gx. destruct (IHw (gm N x)) with (k := x) as [Z|Z]; [lia|exact Ex|lia|left; eapply Q_up; eauto|auto]. }
    destruct (fr k0 t) as [|f0 fs] eqn:Fr; [right; apply (done_at k0); [lia|exact Fr]|].
    assert (UD : in_user (fns (s k0)) t \/ (forall w l, f0 :: fs <> FUser w :: l)).
    { destruct f0; try (right; discriminate). left. exists w0, fs. exact Fr. }
    destruct UD as [UD|UD].
    { left. destruct (acts (m k0) t) as [a|] eqn:A; [eapply USER; eauto|exfalso].
      destruct (at_left k0 t ltac:(lia)) as (v & os & g & Lf). rewrite A in Lf. destruct UD as (w0 & l & UD). rewrite UD in Lf. inversion Lf; match goal with Q : _ = _ \/ _ |- _ => destruct Q; discriminate end. }
    assert (Ps : (0 < fw (f0 :: fs))%nat) by (destruct (fw (f0 :: fs)) eqn:E; [|lia]; destruct (fw_user _ E) as [X|(w0 & l & X)]; [discriminate X|edestruct UD; exact X]).
    destruct (ff_fns _ _ _ _ _ _ F t k0) as (k' & L & X).
    assert (MOVE : forall x y, (k0 <= x)%nat -> fr x t = f0 :: fs -> does (fns_at la) x t y -> Q k0 \/ dead_at t).
    { intros x y Lx Fx Dy. destruct (gm_less N k0 x t y Lx E0 Lt Dy) as [Y|[Y1 Y2]]; [rewrite Fx; exact Ps|auto|]. apply (LESS (S x)); auto. }
    destruct (holds_until (fun x => fr x t = f0 :: fs) (fun x => fr x t = f0 :: fs /\ exists y, does (fns_at la) x t y) k0 k' L Fr) as [(x & Lx & Fx & y & Dy)|Fk].
    { intros x Lx Fx. destruct (fns_dec x t) as [Y|Y]; [left; auto|right]. rewrite no_fns; auto. apply live_lt. rewrite Fx. discriminate. }
    - eapply MOVE; eauto.
    - destruct (gm_mono N k0 k' L E0) as [Y|[Y1 Y2]]; [left; exact Y|]. destruct X as [X|[(y & X)|[X|[(w0 & fs' & X)|X]]]].
      + left. exists k'. split; [exact L|left; exact X].
      + eapply MOVE; eauto.
      + exfalso. unfold gone in X. congruence.
      + exfalso. rewrite Fk in X. eapply UD; exact X.
      + destruct (blocked_moves N k' t Y1 X) as [Z|(x & Lx & Ex & Gx)]; [left; eapply Q_up; eauto|]. apply (LESS x); [lia|exact Ex|lia]. }
  eapply ORIGIN; eauto.
Qed.

Lemma main_goes : ~ dead_at 0%nat.
Proof.
  intros (k2 & v & acc & El). unfold life_at in El. pose proof (step_at k2) as St. destruct (la k2) as [x| |]; try discriminate.
  destruct St as [St _]. inversion St; subst; cbn in El; try discriminate; injection El; intros; subst; try discriminate.
  match goal with DS : dstep _ _ _ _ = Some (ThreadDone, ?d) |- _ => pose proof (fsteps _ _ _ _ _ DS) as FS end.
  destruct (arun_inv c fini e main _ _ _ W (at_run k2)) as [g V]. destruct (a_main _ _ _ _ _ _ _ V) as [_ Lt].
  destruct (at_left k2 0%nat Lt) as (v' & os & g' & L). revert FS L. generalize (frames d' 0) (fr k2 0%nat). intros A B FS L. cbn [Nat.eqb] in L. inversion FS; subst. inversion L; subst; try (match goal with Q0 : _ = _ \/ _ |- _ => destruct Q0; discriminate end).
Qed.
Lemma always_Q k : Q k.
Proof.
  destruct (arun_inv c fini e main _ _ _ W (at_run k)) as [g V]. destruct (a_main _ _ _ _ _ _ _ V) as [_ Lt].
  destruct (thread_ends _ _ 0%nat k eq_refl Lt (le_n _)) as [X|X]; [exact X|exfalso; eapply main_goes; eauto].
Qed.
Theorem fends : exists K, forall k, (K <= k)%nat -> ended (s k).
Proof.
  assert (X : exists K, ended (s K)).
  { destruct cnt_bound as (B & HB). assert (Y : forall n k, (B - cnt k <= n)%nat -> exists K, ended (s K)).
    { induction n as [|n IH]; intros k L; destruct (always_Q k) as (k' & _ & [E|C]); eauto; specialize (HB k'); [lia|]. apply (IH k'). lia. }
    apply (Y (B - cnt 0) 0)%nat. lia. }
  destruct X as (K & E). exists K. intros k L. rewrite (over_stays K k L E). exact E.
Qed.

End Fair.
