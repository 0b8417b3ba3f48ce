(** Every fair execution of a scripted program ends (for C72). *)
From Coq Require Import ZArith List Bool Lia Arith.
From Verif Require Import Machine LayoutModel ThreadModel ThreadInv ThreadSpec FairSpec FairCore ByteModel ByteSpec ByteProofs ByteSim ByteFairSpec DtorsModel DtorsFacts DtorsInv DtorsPres ExitFairSpec ProcModel Props_Proc Props_Byte ScriptModel ScriptSpec ScriptProofs ScriptChain ScriptDet ScriptTick ScriptPc ScriptFairSpec.
Import ListNotations.
Open Scope Z_scope.

Lemma holds_until (A G : nat -> Prop) k k' : (k <= k')%nat -> A k -> (forall x, (k <= x)%nat -> A x -> G x \/ A (S x)) ->
  (exists x, (k <= x)%nat /\ G x) \/ A k'.
Proof.
  intros L H St. induction L as [|k' L [IH|IH]]; [auto|auto|]. destruct (St k' L IH); [left; exists k'; split; [lia|auto]|auto].
Qed.

(** How far origin's own code on top of a stack is from user code. *)
Definition fwt (fr : frame) : nat :=
  match fr with
  | FUser _ => 0 | FLock _ => 3 | FPush _ => 2 | FUnlock => 1 | FDtors => 1
  | FX _ XT => 6 | FX _ XLock => 5 | FX _ XPop => 4 | FX _ (XUnlock _) => 3 | FX _ (XCall _) => 2 | FX _ (XFini _) => 1
  | FImm _ | FTrap => 1
  end.
Fixpoint fw (l : list frame) : nat :=
  match l with [] => 0%nat | FUser _ :: _ => 0%nat | fr :: l' => (fwt fr + fw l')%nat end.
Lemma fw_step c A x B : fstep c A x B -> (0 < fw A)%nat -> (forall o, x <> Term o) -> (fw B < fw A)%nat.
Proof.
  intros F H NT. destruct F; cbn in *; try lia; try (edestruct NT; reflexivity).
  unfold after_t. destruct (c_pae c); cbn; lia.
Qed.

Section Fair.
Context {D : Type}.
Variables (fini : nat -> prog D) (main : prog D) (d0 : D) (e : benv) (c : dcfg) (si : nat -> pst * mach D) (la : nat -> slab).
Variables (os : list Z) (o : outcome).
Hypothesis W : good_env e.
Hypothesis F : sfair fini main d0 e c si la.
Hypothesis G : forall k, bguards_ok e (life (fst (si k))).
Hypothesis M : means c fini main d0 os o.

Local Notation s k := (fst (si k)).
Local Notation m k := (snd (si k)).
Local Notation fr k := (frames (fns (fst (si k)))).
Local Notation run := (srun fini main d0 e c).

Fixpoint evs (k : nat) : list pevent :=
  match k with O => [] | S k' => evs k' ++ match la k' with LEv x => [x] | _ => [] end end.
Lemma evs_in k x : In x (evs k) -> exists k', (k' < k)%nat /\ la k' = LEv x.
Proof.
  induction k as [|k IH]; cbn; [intros []|]. rewrite in_app_iff. intros [X|X].
  - destruct (IH X) as (k' & L & E). exists k'. split; [lia|exact E].
  - destruct (la k) as [y| |] eqn:E; try destruct X as [->|[]]; try destruct X. exists k. split; [lia|exact E].
Qed.

Lemma step_at k : match la k with
     | LEv x => pstep e c (s k) x (s (S k)) /\ follows fini (m k) x (m (S k))
     | LDo t => s (S k) = s k /\ term (fns (s k)) = None /\ in_user (fns (s k)) t /\ t_pc (bT (life (s k)) t) = Run /\
         exists w g p r, konts (m k) t = URun w (Do g p) :: r /\
         m (S k) = Mach (dupd (konts (m k)) t (URun w (p (fst (g (data (m k))))) :: r)) (reg (m k)) (fst (g (data (m k)))) (out (m k) ++ snd (g (data (m k))))
     | LIdle => si (S k) = si k
     end.
Proof. pose proof (sf_step _ _ _ _ _ _ _ F k) as X. destruct (si k) as [a b]. exact X. Qed.

Lemma at_run k : run (evs k) (s k) (m k).
Proof.
  induction k as [|k IH]; cbn [evs].
  - destruct (sf_start _ _ _ _ _ _ _ F) as (b & Hb & -> & ->). constructor. exact Hb.
  - pose proof (step_at k) as X. destruct (la k) as [x|t|].
    + destruct X as [X Y]. eapply sr_step; eauto.
    + destruct X as (-> & X1 & X2 & X3 & w & g & p & r & X4 & ->). rewrite app_nil_r. eapply sr_do; eauto.
    + rewrite X, app_nil_r. exact IH.
Qed.
Lemma at_prun k : prun e c (evs k) (s k).
Proof. eapply srun_prun. apply at_run. Qed.
Lemma at_inv k : DtorsInv.inv c (ProcModel.exits (evs k)) (fns (s k)).
Proof. destruct (proj _ _ _ _ (at_prun k)) as [_ X]. eapply exec_inv; eauto. Qed.
Lemma at_where k : where_ (s k) (m k).
Proof. eapply srun_where. apply at_run. Qed.
Lemma at_J k : exists rest, J c fini (s k) (m k) rest o.
Proof. destruct (srun_J c fini main d0 e (evs k) (s k) (m k) os o W (at_run k) M) as (rest & _ & Hj). eauto. Qed.

Lemma over_stays k k' : (k <= k')%nat -> ended (s k) -> si k' = si k.
Proof.
  induction 1 as [|k' L IH]; [auto|]. intros E. specialize (IH E). pose proof (step_at k') as X. destruct (la k') as [x|t|].
  - exfalso. destruct X as [X _]. eapply (C62_end e c); [apply at_prun| |exact X]. rewrite IH. exact E.
  - exfalso. destruct X as (_ & X & _). rewrite IH in X. contradiction.
  - congruence.
Qed.

(** ** Actions of user code are bounded *)
Definition act (k : nat) : nat := match la k with LEv x => if acts x then 1 else 0 | LDo _ => 1 | LIdle => 0 end.
Fixpoint cnt (k : nat) : nat := match k with O => 0%nat | S k' => (cnt k' + act k')%nat end.
Lemma cnt_mono k k' : (k <= k')%nat -> (cnt k <= cnt k')%nat.
Proof. induction 1; cbn; lia. Qed.
Lemma cnt_ticks k : exists m', srun (tfini fini) (T main) d0 e c (evs k) (s k) m' /\ trel (s k) (m k) m' /\ (cnt k <= length (out m'))%nat.
Proof.
  induction k as [|k (m' & R & TR & L)]; cbn [evs cnt].
  - destruct (sf_start _ _ _ _ _ _ _ F) as (b & Hb & -> & ->). eexists. split; [constructor; exact Hb|]. split; [|cbn; lia]. constructor; cbn; auto; try lia.
    intros t. unfold dupd. destruct (Nat.eqb t 0); reflexivity.
  - pose proof (step_at k) as X. unfold act. destruct (la k) as [x|t|].
    + destruct X as [X Y]. destruct (tick_step c fini main d0 e _ _ _ _ _ _ _ R TR X Y) as (m1 & R1 & T1 & L1).
      exists m1. split; [exact R1|]. split; [exact T1|]. lia.
    + destruct X as (-> & X1 & X2 & X3 & w & g & p & r & X4 & ->). rewrite app_nil_r.
      destruct (tick_do c fini main d0 e _ _ _ _ _ _ _ _ _ R TR X1 X2 X3 X4) as (m1 & R1 & T1 & L1).
      exists m1. split; [exact R1|]. split; [exact T1|]. lia.
    + rewrite X, app_nil_r. exists m'. split; [exact R|]. split; [exact TR|lia].
Qed.
Lemma cnt_bound : exists B, forall k, (cnt k <= B)%nat.
Proof.
  destruct (tick_means c fini main d0 os o M) as (os' & M'). exists (length os'). intros k.
  destruct (cnt_ticks k) as (m' & R & _ & L). destruct (srun_J c (tfini fini) (T main) d0 e _ _ _ os' o W R M') as (rest & -> & _).
  rewrite app_length. lia.
Qed.

(** ** Something happens *)
Definition Q (k : nat) : Prop := exists k', (k <= k')%nat /\ (ended (s k') \/ (cnt k < cnt k')%nat).
Lemma Q_up k k' : (k <= k')%nat -> Q k' -> Q k.
Proof. intros L (x & Lx & [X|X]); exists x; (split; [lia|]); [left; exact X|right; pose proof (cnt_mono k k' L); lia]. Qed.
Lemma Q_act k k' : (k <= k')%nat -> act k' = 1%nat -> Q k.
Proof. intros L A. exists (S k'). split; [lia|]. right. cbn. pose proof (cnt_mono k k' L). lia. Qed.

Lemma fsteps k t y a d' : dstep c (fns (s k)) t a = Some (y, d') -> fstep c (fr k t) y (frames d' t).
Proof.
  intros DS. pose proof (dstep_effect _ _ _ _ _ _ DS) as [_ EL EO _ _ _ _ _ _ _ _ _]. apply EO. intros ->.
  destruct (i_new _ _ _ (at_inv k) (nthr (fns (s k)))) as [Y _]; [lia|]. contradiction.
Qed.

(** User code about to act stays so until it does. *)
Lemma stays k t kt r : konts (m k) t = kt :: r -> in_user (fns (s k)) t -> match kt with URun _ _ | UJoin _ _ _ => True | _ => False end ->
  act k = 1%nat \/ (exists acc j, la k = LEv (PLife (t, acc, ECallJoin j))) \/
  (konts (m (S k)) t = kt :: r /\ in_user (fns (s (S k))) t).
Proof.
  intros K U KT. pose proof (step_at k) as X. unfold act. destruct (la k) as [x|u|]; [|auto|rewrite X; auto].
  destruct X as [X Y]. destruct (acts x) eqn:A; [auto|]. right.
  destruct x as [|[[i ins] x]|u y|u v|i ins j|u ins v]; try discriminate A.
  - right. inversion Y; subst. inversion X; subst. cbn. auto.
  - destruct (Nat.eq_dec i t) as [->|NE].
    + inversion Y; subst.
      * left. eauto.
      * exfalso. match goal with B : konts _ t = UWait _ _ _ :: _ |- _ => rewrite K in B; injection B as -> -> end. contradiction.
      * right. inversion X; subst. cbn. auto.
    + right. inversion X; subst. cbn [fns]. split; [|exact U]. inversion Y; subst; cbn; rewrite ?dupd_ne by auto; exact K.
  - right. inversion X as [| |t' a y' d' DS FO PC| | |]; subst. cbn [fns].
    destruct (Nat.eq_dec u t) as [->|NE].
    + pose proof (fsteps _ _ _ _ _ DS) as FS. destruct U as (w & fs & Fr). rewrite Fr in FS.
      assert (y = Nop) as -> by (inversion FS; subst; auto; solve [discriminate A|discriminate FO]).
      assert (Z : frames d' t = FUser w :: fs) by (inversion FS; reflexivity).
      split; [inversion Y; subst; exact K|exists w, fs; exact Z].
    + split; [inversion Y; subst; cbn; rewrite ?dupd_ne by auto; exact K|].
      unfold in_user. rewrite (e_other _ _ _ _ _ (dstep_effect _ _ _ _ _ _ DS) t) by auto. destruct y; try discriminate FO; exact U.
  - right. inversion Y; subst. split; [exact K|]. inversion X; subst. cbn [fns].
    match goal with DS : dstep _ _ _ _ = _ |- _ => pose proof (fsteps _ _ _ _ _ DS) as FS; pose proof (e_other _ _ _ _ _ (dstep_effect _ _ _ _ _ _ DS) t) as EOt end.
    destruct (Nat.eq_dec t u) as [->|NE]; [|unfold in_user; rewrite EOt by auto; exact U].
    exfalso. destruct U as (w & fs & Fr). rewrite Fr in FS. inversion FS.
Qed.

(** It does, sooner or later. *)
Lemma user_goes k t kt r : konts (m k) t = kt :: r -> in_user (fns (s k)) t -> match kt with URun _ _ | UJoin _ _ _ => True | _ => False end ->
  Q k \/ exists k' acc j, (k <= k')%nat /\ la k' = LEv (PLife (t, acc, ECallJoin j)) /\ konts (m k') t = kt :: r.
Proof.
  intros K U KT. destruct (sf_user _ _ _ _ _ _ _ F t k) as (k' & L & X).
  destruct (holds_until (fun x => konts (m x) t = kt :: r /\ in_user (fns (s x)) t)
    (fun x => act x = 1%nat \/ exists acc j, la x = LEv (PLife (t, acc, ECallJoin j)) /\ konts (m x) t = kt :: r) k k' L (conj K U)) as [(x & Lx & [A|(acc & j & A & B)])|[A1 A2]].
  - intros x Lx [K1 U1]. destruct (stays x t kt r K1 U1 KT) as [A|[(acc & j & A)|A]]; [left; left; exact A|left; right; eauto|right; exact A].
  - left. eapply Q_act; eauto.
  - right. exists x, acc, j. auto.
  - destruct X as [X|[X|X]].
    + left. exists k'. split; [exact L|left; exact X].
    + unfold does_next in X. destruct (la k') as [x|u|] eqn:El; [|left; eapply Q_act; [exact L|]; unfold act; rewrite El; reflexivity|contradiction].
      destruct x as [|[[i ins] x]|u y|u v|i ins j|u ins v]; try contradiction.
      * destruct x; try contradiction. subst i. right. eauto 8.
      * left. eapply Q_act; [exact L|]. unfold act. rewrite El. destruct y; try contradiction; reflexivity.
      * left. eapply Q_act; [exact L|]. unfold act. rewrite El. reflexivity.
      * left. eapply Q_act; [exact L|]. unfold act. rewrite El. reflexivity.
    + exfalso. apply X. split; [|split; [exact A2|exists kt, r; auto]].
      pose proof (wh_pc _ _ (at_where k') t) as P. rewrite A1 in P. destruct kt; try contradiction; apply P; destruct A2 as (w' & fs & ->); discriminate.
Qed.
Lemma run_goes k t w p r : konts (m k) t = URun w p :: r -> in_user (fns (s k)) t -> Q k.
Proof.
  intros K U. destruct (user_goes k t _ r K U Logic.I) as [X|(k' & acc & j & L & El & K')]; [exact X|exfalso].
  pose proof (step_at k') as X. rewrite El in X. destruct X as [_ Y]. inversion Y; subst; [|discriminate].
  match goal with B : konts _ t = UJoin _ _ _ :: _ |- _ => rewrite K' in B; discriminate B end.
Qed.

(** ** Joins *)
Lemma life_none k : life_at la k = None -> life (s (S k)) = life (s k) \/ exists acc, bstep e (life (s k)) acc None (life (s (S k))).
Proof.
  unfold life_at. pose proof (step_at k) as X. destruct (la k) as [x|t|].
  - destruct X as [X _]. inversion X; subst; cbn; intros Y; try discriminate Y; auto. right. eauto.
  - destruct X as (-> & _). auto.
  - rewrite X. auto.
Qed.
Lemma life_some k l : life_at la k = Some l -> exists acc, bstep e (life (s k)) acc (Some l) (life (s (S k))).
Proof.
  unfold life_at. pose proof (step_at k) as X. destruct (la k) as [x|t|]; try discriminate.
  destruct X as [X _]. inversion X; subst; cbn; intros Y; try discriminate Y; injection Y as <-; eauto.
Qed.
Lemma join_over k1 k2 i j v : at_step (life_at la) k1 i (ECallJoin j) -> at_step (life_at la) k2 j (EReturn v) ->
  (exists k, ended (s k)) \/ exists k3, (k1 < k3)%nat /\ at_step (life_at la) k3 i (EJoin j v).
Proof.
  pose proof W as W'. destruct W as [W1 W2].
  apply (halt_join (be_cfg e) (fun k => rel e (life (s k))) (fun k i => t_pc (bT (life (s k)) i)) (fun k => bn (life (s k))) (fun k => bmapped (life (s k))) (life_at la) (fun k => ended (s k)) (page_pos e W') W2).
  - apply (bstarts_rel e W1 W2). destruct (sf_start _ _ _ _ _ _ _ F) as (b & Hb & -> & _). exact Hb.
  - intros k x Rl Iv. destruct (life_at la k) as [l|] eqn:El.
    + destruct (life_some k l El) as (acc & B). destruct (bsim e W1 W2 _ _ _ _ _ Rl Iv B) as [_ X]. exact X.
    + destruct (life_none k El) as [->|(acc & B)]; [exact Rl|]. destruct (bsim e W1 W2 _ _ _ _ _ Rl Iv B) as [_ X]. exact X.
  - intros k x Rl. split; [intros y; now rewrite (rl_T _ _ _ Rl)|]. split; [apply (rl_n _ _ _ Rl)|].
    intros y (L & Mp). unfold mapped. destruct (rl_geo _ _ _ Rl y) as (_ & _ & ->). auto.
  - intros y k. destruct (sf_life _ _ _ _ _ _ _ F y k) as (k' & L & X). exists k'. split; [exact L|exact X].
  - intros k x Rl. eapply guards_of; eauto.
Qed.

(** A thread with nothing left to run has returned. *)
Lemma done_at k t : (t < nthr (fns (s k)))%nat -> fr k t = [] -> exists k2 v, at_step (life_at la) k2 t (EReturn v).
Proof.
  intros L E. destruct (proj _ _ _ _ (at_prun k)) as [_ X]. destruct (done_in c fini _ _ X) as [_ Y]. specialize (Y t L E).
  unfold ProcModel.exits in Y. apply in_flat_map in Y as (x & Hx & Y). apply evs_in in Hx as (k2 & _ & El).
  pose proof (step_at k2) as St. rewrite El in St. destruct St as [St _].
  destruct x as [| |u y|u v|i ins j|u ins v]; cbn in Y; try contradiction; try (destruct Y as [Y|[]]; injection Y; intros; subst; try discriminate).
  - inversion St; subst. discriminate.
  - exists k2, v, ins. unfold life_at. rewrite El. reflexivity.
Qed.

(** A thread that waits has called join, and waited since. *)
Lemma called k p w j ks r : konts (m k) p = UWait w j ks :: r ->
  exists k1, (k1 < k)%nat /\ at_step (life_at la) k1 p (ECallJoin j) /\ forall x, (k1 < x <= k)%nat -> konts (m x) p = UWait w j ks :: r.
Proof.
  induction k as [|k IH]; intros K.
  - exfalso. destruct (sf_start _ _ _ _ _ _ _ F) as (b & Hb & _ & E). rewrite E in K. cbn in K. unfold dupd in K. destruct (Nat.eqb p 0); discriminate.
  - assert (C : at_step (life_at la) k p (ECallJoin j) \/ konts (m k) p = UWait w j ks :: r).
    { pose proof (wh_tl _ _ (at_where k) p) as TL. assert (NG : ~ Forall going (konts (m (S k)) p)) by (rewrite K; intros Z; inversion Z; contradiction).
      pose proof (step_at k) as X. unfold at_step, life_at. destruct (la k) as [x|u|].
      - destruct X as [X Y]. destruct Y; cbn in K, NG; unfold dupd in K, NG; auto;
          repeat match type of K with context [Nat.eqb ?a ?b] => destruct (Nat.eqb_spec a b); subst end; try discriminate K; auto;
          try (exfalso; apply NG; match goal with B : konts _ _ = _ :: _ |- _ => rewrite B in TL end; exact TL).
        left. injection K as -> -> -> ->. exists ins. reflexivity.
      - destruct X as (_ & _ & _ & _ & w' & g & q & r' & X4 & X5). rewrite X5 in K. cbn in K. unfold dupd in K. destruct (Nat.eqb_spec p u) as [->|]; [discriminate|auto].
      - rewrite X in K. auto. }
    destruct C as [C|C].
    + exists k. split; [lia|]. split; [exact C|]. intros x Hx. replace x with (S k) by lia. exact K.
    + destruct (IH C) as (k1 & L & A & B). exists k1. split; [lia|]. split; [exact A|]. intros x Hx.
      destruct (Nat.eq_dec x (S k)) as [->|]; [exact K|]. apply B. lia.
Qed.

Lemma wait_goes k p w j ks r k2 v : konts (m k) p = UWait w j ks :: r -> at_step (life_at la) k2 j (EReturn v) -> Q k.
Proof.
  intros K R. destruct (called _ _ _ _ _ _ K) as (k1 & L1 & A1 & B1).
  destruct (join_over _ _ _ _ _ A1 R) as [(k' & E)|(k3 & L3 & acc & El)].
  - exists (Nat.max k k'). split; [lia|]. left. rewrite (over_stays k'); [exact E|lia|exact E].
  - pose proof (step_at k3) as X. unfold life_at in El. destruct (la k3) as [x|u|] eqn:Ex; try discriminate.
    destruct X as [X Y]. destruct x as [|l|u y|u v'|i ins j'|u ins v']; try discriminate. cbn in El. injection El as ->.
    inversion Y; subst; [|exfalso; match goal with B : forall j v, _ <> _ |- _ => eapply B; reflexivity end].
    match goal with B : konts _ p = UWait ?w' j ?k' :: ?r', C : kset _ _ _ = _ |- _ => rename B into B3; rename C into C3 end.
    assert (K4 : exists w' q' r', konts (m (S k3)) p = URun w' q' :: r') by (rewrite <- C3; cbn; rewrite dupd_eq; eauto).
    destruct K4 as (w' & q' & r' & K4).
    destruct (le_lt_dec k k3) as [L|L].
    + apply (Q_up k (S k3)); [lia|]. apply (run_goes _ _ _ _ _ K4). inversion X; subst. cbn [fns]. eapply (wh_u _ _ (at_where k3)). right. exact B3.
    + exfalso. rewrite (B1 (S k3)) in K4 by lia. discriminate.
Qed.

Lemma join_goes k p w j ks r k2 v : konts (m k) p = UJoin w j ks :: r -> at_step (life_at la) k2 j (EReturn v) -> Q k.
Proof.
  intros K R. destruct (user_goes k p _ r K) as [X|(k' & acc & j' & L & El & K')]; [eapply (wh_u _ _ (at_where k)); left; exact K|exact Logic.I|exact X|].
  pose proof (step_at k') as X. rewrite El in X. destruct X as [X Y]. inversion Y; subst; [|discriminate].
  match goal with B : konts _ p = UJoin _ _ _ :: _, C : kset _ _ _ = _ |- _ => rewrite K' in B; injection B as <- <- <- <-; rename C into C3 end.
  apply (Q_up k (S k')); [lia|]. eapply wait_goes; [rewrite <- C3; cbn; apply dupd_eq|exact R].
Qed.

(** ** Origin's own code *)
Lemma no_fns k t : fr k t <> [] -> (forall y, ~ does (fns_at la) k t y) -> fr (S k) t = fr k t.
Proof.
  intros NE ND. assert (TL : (t < nthr (fns (s k)))%nat).
  { destruct (le_lt_dec (nthr (fns (s k))) t) as [Z|Z]; [|exact Z]. destruct (i_new _ _ _ (at_inv k) t Z) as [Y _]. contradiction. }
  unfold does, fns_at in ND. pose proof (step_at k) as X. destruct (la k) as [x|u|]; [|destruct X as (-> & _); reflexivity|rewrite X; reflexivity].
  destruct X as [X _].
  assert (EO : forall u a y d', dstep c (fns (s k)) u a = Some (y, d') -> hd_error (fns_of x) = Some (u, y) -> frames d' t = fr k t).
  { intros u a y d' DS HD. assert (t <> u) by (intros ->; eapply ND; exact HD). rewrite (e_other _ _ _ _ _ (dstep_effect _ _ _ _ _ _ DS) t) by auto.
    destruct y; auto. pose proof (e_guard _ _ _ _ _ (dstep_effect _ _ _ _ _ _ DS)) as EG. cbn in EG. destruct EG as [-> _]. destruct (Nat.eqb_spec t (nthr (fns (s k)))); [lia|reflexivity]. }
  inversion X; subst; cbn [fns]; auto; eapply EO; eauto; reflexivity.
Qed.
Lemma fns_dec k t : (exists y, does (fns_at la) k t y) \/ forall y, ~ does (fns_at la) k t y.
Proof.
  unfold does. destruct (fns_at la k) as [[u y]|]; [|right; discriminate]. destruct (Nat.eq_dec u t) as [->|NE]; [left; eauto|right; congruence].
Qed.
Lemma fns_step k t y : does (fns_at la) k t y -> exists a, dstep c (fns (s k)) t a = Some (y, fns (s (S k))).
Proof.
  unfold does, fns_at. pose proof (step_at k) as X. destruct (la k) as [x|u|]; try discriminate.
  destruct X as [X _]. inversion X; subst; cbn; intros Z; try discriminate Z; injection Z as <- <-; eauto.
Qed.

Lemma goes : forall n k h t rest os', hok c (fns (s k)) h -> shape (fns (s k)) (m k) t rest ->
  ceval c fini (s k) (m k) h t rest (fr k t) (konts (m k) t) (ustof (fns (s k)) (m k) t) os' o -> (fw (fr k t) <= n)%nat -> Q k.
Proof.
  induction n as [n IH] using lt_wf_ind. intros k h t rest os' Hk Sh E Wt.
  assert (FE : exists os1 r, feval c fini (reg (m k)) h (fval (s k) t) (fr k t) (konts (m k) t) (ustof (fns (s k)) (m k) t) os1 r) by (inversion E; subst; eauto).
  destruct (fr k t) as [|f0 fs] eqn:Fr.
  - (* the thread is done: its parent joins it *)
    inversion E; subst; [match goal with A : feval _ _ _ _ _ [] _ _ _ _ |- _ => inversion A end|].
    match goal with A : waits (konts (m k) ?p) = Some (?w, t, ?q, ?r) |- _ => rename A into Wa; rename p into pp end.
    assert (TL : (t < nthr (fns (s k)))%nat).
    { unfold waits in Wa. pose proof (wh_j _ _ (at_where k) pp) as WJ. destruct (konts (m k) pp) as [|[] r'] eqn:K; try discriminate; injection Wa as <- <- <- <-; eapply WJ; cbn; eauto. }
    destruct (done_at k t TL Fr) as (k2 & v2 & R). unfold waits in Wa.
    destruct (konts (m k) pp) as [|[] r'] eqn:K; try discriminate; injection Wa as <- <- <- <-.
    + eapply join_goes; eauto.
    + eapply wait_goes; eauto.
  - destruct FE as (os1 & r1 & FE).
    assert (US : (exists w, f0 = FUser w) \/ (0 < fw (f0 :: fs))%nat).
    { destruct f0 as [w| | | | |st []| |]; [left; eauto|..]; right; cbn; lia. }
    destruct US as [(w & ->)|Ps].
    + (* user code *)
      destruct (konts (m k) t) as [|kt ks] eqn:K; [inversion FE|]. destruct (user_kont _ _ _ _ _ _ _ _ _ _ _ _ FE) as (p & ->).
      eapply run_goes; [exact K|]. exists w, fs. exact Fr.
    + destruct (sf_fns _ _ _ _ _ _ _ F t k) as (k' & L & X).
      assert (RUN : forall x, fr x t = f0 :: fs -> ended (s x) \/ exists h' rest' os2, hok c (fns (s x)) h' /\ shape (fns (s x)) (m x) t rest' /\
         exists u r, feval c fini (reg (m x)) h' (fval (s x) t) (fr x t) (konts (m x) t) u os2 r).
      { intros x Fx. destruct (at_J x) as (ro & [[Z _]|(_ & h' & t' & rest' & Hk' & Sh' & E')]); [left; unfold ended; rewrite Z; discriminate|right].
        assert (t' = t) as ->.
        { destruct (Nat.eq_dec t' t) as [|NE]; [assumption|exfalso]. destruct (other_frames (fns (s x)) (m x) t' rest' t Sh' ltac:(auto)) as [Z|(w & fs' & Z)]; rewrite Fx in Z; [discriminate|]. injection Z as -> ->. cbn in Ps. lia. }
        inversion E'; subst; exists h'; eauto 10. }
      assert (MOVE : forall x y, (k <= x)%nat -> fr x t = f0 :: fs -> does (fns_at la) x t y -> Q k).
      { intros x y Lx Fx Dy.
        apply (Q_up k x Lx). destruct (fns_step _ _ _ Dy) as (a & DS). pose proof (fsteps _ _ _ _ _ DS) as FS.
        pose proof (dstep_effect _ _ _ _ _ _ DS) as EF.
        destruct (at_J (S x)) as (ro & [[Z _]|(Tm & h' & t' & rest' & Hk' & Sh' & E')]); [exists (S x); split; [lia|left; unfold ended; rewrite Z; discriminate]|].
        apply (Q_up x (S x)); [lia|]. rewrite Fx in FS.
        assert (NT : forall o', y <> Term o') by (intros o' ->; rewrite (e_term _ _ _ _ _ EF) in Tm; discriminate).
        pose proof (fw_step _ _ _ _ FS Ps NT) as LT.
        destruct (Nat.eq_dec t' t) as [->|NE]; [eapply (IH (fw (fr (S x) t))); eauto; lia|].
        destruct (RUN x Fx) as [Z|(h2 & rest2 & os2 & _ & Sh2 & _)]; [exfalso; apply Z; apply (e_alive _ _ _ _ _ EF)|].
        assert (Z : fr (S x) t' = fr x t').
        { rewrite (e_other _ _ _ _ _ EF t') by auto. destruct y; auto. exfalso. cbn in Ps. inversion FS; subst; cbn in Ps; lia. }
        destruct (other_frames (fns (s x)) (m x) t rest2 t' Sh2 NE) as [Z2|(w & fs2 & Z2)]; eapply (IH 0%nat); eauto; try (rewrite Z, Z2; cbn; lia); lia. }
      destruct (holds_until (fun x => fr x t = f0 :: fs) (fun x => fr x t = f0 :: fs /\ exists y, does (fns_at la) x t y) k k' L Fr) as [(x & Lx & Fx & y & Dy)|Fk].
      { intros x Lx Fx. destruct (fns_dec x t) as [Y|Y]; [left; auto|right]. rewrite no_fns; auto. rewrite Fx. discriminate. }
      * eapply MOVE; eauto.
      * destruct X as [X|[(y & X)|[X|[(w & fs' & X)|X]]]].
        -- exists k'. split; [exact L|left; exact X].
        -- eapply MOVE; eauto.
        -- exfalso. unfold gone in X. congruence.
        -- exfalso. rewrite Fk in X. injection X as -> ->. cbn in Ps. lia.
        -- destruct (RUN k' Fk) as [Z|(h2 & rest2 & os2 & Hk2 & Sh2 & u2 & r2 & FE2)]; [exists k'; split; [exact L|left; exact Z]|].
           exfalso. eapply (not_blocked c fini _ (s k')); eauto. apply at_inv.
Qed.

Lemma always_Q k : Q k.
Proof.
  destruct (at_J k) as (ro & [[Z _]|(_ & h & t & rest & Hk & Sh & E)]); [exists k; split; [lia|left; unfold ended; rewrite Z; discriminate]|].
  eapply goes; eauto.
Qed.
Theorem ends : exists K, forall k, (K <= k)%nat -> term (fns (s k)) = Some o /\ out (m k) = os.
Proof.
  assert (X : exists K, ended (s K)).
  { destruct cnt_bound as (B & HB). assert (Y : forall n k, (B - cnt k <= n)%nat -> exists K, ended (s K)).
    { induction n as [|n IH]; intros k L; destruct (always_Q k) as (k' & _ & [E|C]); eauto; specialize (HB k'); [lia|]. apply (IH k'). lia. }
    apply (Y (B - cnt 0) 0)%nat. lia. }
  destruct X as (K & E). exists K. intros k L. rewrite (over_stays K k L E).
  destruct (srun_J c fini main d0 e (evs K) (s K) (m K) os o W (at_run K) M) as (rest & -> & [[Tm ->]|[Tm _]]); [|contradiction].
  rewrite app_nil_r. auto.
Qed.
End Fair.
