(** C70: liveness of exits.  On every fair schedule program::exit ends the
    process, and a thread whose function returned gets through its exit
    functions, if the user's exit functions return and registrations come to an
    end. *)
From Coq Require Import ZArith List Bool Lia Arith Permutation.
From Verif Require Import LayoutModel DtorsModel DtorsSpec DtorsFacts DtorsInv DtorsPres DtorsTop DtorsTop2 DtorsTop3 ExitFairSpec.
Import ListNotations.
Local Open Scope nat_scope.

(** ** A measure of the work left *)
Section Measure.
Variable c : dcfg.
Let N := nfini c.
Definition cF (k : nat) : nat := 1 + 3 * k.
Definition cL : nat := cF N + 2.
Definition wU : nat := cL + 4.
Definition wP : nat := wU + 5.
Definition wT : nat := wU + 1.
Definition user_w (w : who) : nat := match w with WF _ => 2 | _ => wU end.
Definition cX (p : xphase) : nat :=
  match p with
  | XT => cL + 1 | XLock => cL | XPop => cF N + 1 | XUnlock _ => wU + cL + 2 | XCall _ => wU + cL + 1 | XFini k => cF k
  end.
Fixpoint wl (l : list frame) : nat :=
  match l with
  | [] => 0
  | FUser w :: l' => user_w w + wl l'
  | FLock _ :: l' => wP + 3 + wl l'
  | FPush _ :: l' => wP + 2 + wl l'
  | FUnlock :: l' => 1 + wl l'
  | FDtors :: l' => 1 + wl l'
  | FX _ p :: _ => cX p
  | FImm _ :: _ | FTrap :: _ => 1
  end.
Definition wt1 (s : dst) (t : nat) : nat := wl (frames s t) + wT * length (tdt s t).
Fixpoint sumn (f : nat -> nat) (n : nat) : nat := match n with O => 0 | S n' => sumn f n' + f n' end.
Definition meas (s : dst) : nat :=
  (match term s with None => 1 | Some _ => 0 end) + wP * length (pdt s) + sumn (wt1 s) (nthr s).

Lemma sumn_eq f g n : (forall t, t < n -> f t = g t) -> sumn f n = sumn g n.
Proof. induction n; cbn; intros H; [auto|]. rewrite IHn, (H n); auto. Qed.
Lemma sumn_upd f g n t : t < n -> (forall u, u <> t -> g u = f u) -> sumn g n + f t = sumn f n + g t.
Proof.
  induction n as [|n IH]; cbn; intros L H; [lia|]. destruct (Nat.eq_dec t n) as [->|D].
  - rewrite (sumn_eq g f n); [lia|]. intros u Hu. apply H. lia.
  - rewrite (H n) by lia. specialize (IH ltac:(lia) H). lia.
Qed.

Lemma first_small : cX (first_phase c) + 2 < wU.
Proof. unfold first_phase, after_t, wU, cL. fold N. destruct (c_tae c); cbn [cX]; [unfold cL; lia|]. destruct (c_pae c); cbn [cX]; unfold cL; lia. Qed.
Lemma after_small : cX (after_t c) < cX XT.
Proof. unfold after_t. fold N. destruct (c_pae c); cbn [cX]; unfold cL; lia. Qed.

Lemma meas_step tr s t a e s' : exec c tr s -> dstep c s t a = Some (e, s') ->
  match e with RegT _ | BeginP _ | Spawn _ => False | _ => True end ->
  (forall j, running s t (WF j) -> match e with BeginP _ | ExitCall _ => False | _ => True end) ->
  (s' = s /\ e = Nop /\ exists w, running s t w) \/ meas s' < meas s.
Proof.
  intros H D NR NF. pose proof (exec_inv _ _ _ H) as I.
  apply dstep_inv in D as (HT & D).
  assert (L : t < nthr s).
  { destruct (Nat.lt_ge_cases t (nthr s)) as [|G]; [auto|]. destruct (i_new _ _ _ I t G) as (F & _). inversion D; congruence. }
  assert (K : forall s1, nthr s1 = nthr s -> (forall u, u <> t -> frames s1 u = frames s u /\ tdt s1 u = tdt s u) ->
     sumn (wt1 s1) (nthr s1) + wt1 s t = sumn (wt1 s) (nthr s) + wt1 s1 t).
  { intros s1 E1 E2. rewrite E1. apply sumn_upd; [auto|]. intros u Hu. unfold wt1. destruct (E2 u Hu) as (-> & ->). reflexivity. }
  pose proof first_small as FS. pose proof after_small as AS. cbn [cX] in AS.
  assert (U2 : forall w, 2 <= user_w w) by (intros []; cbn; unfold wU; lia).
  unfold meas. rewrite HT.
  inversion D as [w fs F|w fs F C|w fs F C|w fs st F|w fs st F|w fs F|w fs F C|fs st F|fs F|w fs F W1 W2|f fs s1 F TL|f fs F|fs F|f l fs F C E|fs F C
    |st f l fs F E|st fs F E|st fs s1 F TL|st f l fs F E|st fs F E|st f fs F|st f fs F|st k fs F|st fs F|st fs F|fs F]; subst; try contradiction; [left; split; [auto|split; [auto|eexists; eexists; eauto]]|..]; right;
    try (unfold try_lock in TL; destruct (c_thread c); [destruct (lk s); [discriminate|]|]; inversion TL; subst s1; clear TL).
  all: match goal with |- _ + _ * length (pdt ?s1) + _ < _ => pose proof (K s1) as X end;
    unfold unlock in *; try destruct (c_thread c);
    cbn [nthr set_frames set_tdt set_pdt set_lk finish frames tdt pdt term bump] in *;
    (specialize (X eq_refl); match type of X with ?A -> _ => assert (Y : A) by (intros u Hu; rewrite ?dupd_ne by auto; auto) end; specialize (X Y));
    unfold wt1 in X at 2 4; cbn [nthr set_frames set_tdt set_pdt set_lk finish frames tdt pdt term bump] in X; rewrite ?dupd_eq in X; rewrite F in X;
    rewrite ?HT; cbn [wl cX user_w] in X |- *.
  all: try (assert (WW : user_w w = wU) by (destruct w as [| | | |j]; auto; exfalso; apply (NF j); eexists; eauto)).
  all: try match goal with E : tdt _ _ = _ |- _ => rewrite E in X end; try match goal with E : pdt _ = _ |- _ => rewrite E end; cbn [length] in *.
  all: try (pose proof (U2 w)); unfold wP, wT, wU, cL, cF in *; nia.
Qed.
End Measure.

(** ** Shapes of stacks *)
Definition okp (x y : frame) : bool :=
  match y with
  | FUser (WF _) => match x with FImm _ | FTrap => true | _ => false end
  | FX _ (XFini _) => match x with FUser (WF _) => true | _ => false end
  | _ => true
  end.
Fixpoint okl (l : list frame) : bool :=
  match l with x :: ((y :: _) as l') => okp x y && okl l' | _ => true end.
Definition leavef (fr : frame) : bool := match fr with FX _ _ | FImm _ | FTrap | FDtors => true | _ => false end.
Definition leaving (s : dst) (t : nat) : Prop := existsb leavef (frames s t) = true.
Definition ends (fr : frame) : bool := match fr with FX _ _ | FImm _ | FTrap => true | _ => false end.

Lemma fini_top l : existsb isfini l = true -> okl l = true -> stack_ok l ->
  exists x l', l = x :: l' /\ ((exists k, x = FUser (WF k)) \/ (exists st k, x = FX st (XFini k)) \/ (exists st, x = FImm st) \/ x = FTrap).
Proof.
  induction l as [|x l IH]; cbn; [discriminate|]. intros H O [S1 S2]. exists x, l. split; [auto|].
  destruct (isfini x) eqn:E; [destruct x as [| | | | |? []| |]; try discriminate; eauto 7|]. cbn in H.
  destruct l as [|y l]; [discriminate|]. apply andb_prop in O as [O1 O2].
  cbn in S1. inversion S1 as [|? ? S3 S4]; subst. destruct S2 as [_ S2].
  destruct (IH H O2 (conj S4 S2)) as (y' & l' & E' & Q). inversion E'; subst y' l'. clear E'.
  destruct Q as [(k & ->)|[(st & k & ->)|[(st & ->)| ->]]]; cbn in *; try contradiction;
    destruct x as [[]| | | | | | |]; try discriminate; eauto 7.
Qed.

Lemma okl_tl x l : okl (x :: l) = true -> okl l = true.
Proof. destruct l as [|y l]; cbn; auto. intros H. apply andb_prop in H. tauto. Qed.
Lemma okl_head x x' l : (forall y, okp x y = okp x' y) -> okl (x :: l) = okl (x' :: l).
Proof. intros H. destruct l; cbn; auto. now rewrite H. Qed.
Lemma okp_x x x' : (match x with FImm _ | FTrap | FUser (WF _) => False | _ => True end) ->
  (match x' with FImm _ | FTrap | FUser (WF _) => False | _ => True end) -> forall y, okp x y = okp x' y.
Proof. intros H H' y. destruct y as [[]| | | | |? []| |]; auto; cbn; destruct x as [[]| | | | |? []| |]; try contradiction; destruct x' as [[]| | | | |? []| |]; try contradiction; auto. Qed.

Lemma okl_step c l e l' : fstep c l e l' -> stack_ok l -> okl l = true ->
  (forall k r, l = FUser (WF k) :: r -> match e with BeginP _ | ExitCall _ => False | _ => True end) -> okl l' = true.
Proof.
  intros F [_ B] O NF. destruct F; auto;
    try (rewrite <- O; apply okl_head; intros y; apply okp_x; exact I);
    try (eapply okl_tl; eauto; fail);
    try (destruct w; cbn in *; auto; exfalso; eapply (NF k); eauto; fail);
    try (cbn in B; destruct B as [[-> |B] _]; [reflexivity|discriminate]);
    try (cbn [okl okp]; rewrite <- O; apply okl_head; intros y; apply okp_x; exact I).
  all: try (change (okp (FUser (WT f)) FDtors && okl (FDtors :: fs) = true); exact O).
Qed.

Lemma leave_step c l e l' : fstep c l e l' -> existsb leavef l = true -> existsb leavef l' = true \/ l' = [].
Proof. intros F H. destruct F; cbn in *; auto; rewrite ?H; auto using orb_true_r. Qed.
Lemma ends_step c l e l' : fstep c l e l' -> stack_ok l -> existsb ends l = true -> existsb ends l' = true.
Proof. intros F [_ B] H. destruct F; cbn in *; auto; rewrite ?H; auto using orb_true_r. destruct B as [[-> |B] _]; [discriminate|discriminate]. Qed.
Lemma ends_leaving l : existsb ends l = true -> existsb leavef l = true /\ l <> [].
Proof. induction l as [|x l IH]; cbn; [discriminate|]. intros H. split; [|discriminate]. destruct x; cbn in *; auto; apply IH, H. Qed.

Section Fair.
Variables (c : dcfg) (si : nat -> dst) (la : nat -> option (nat * event)).
Hypothesis X : exit_fair c si la.

Fixpoint past (k : nat) : trace :=
  match k with O => [] | S k' => past k' ++ match la k' with Some x => [x] | None => [] end end.
Lemma fair_exec k : exec c (past k) (si k).
Proof.
  induction k as [|k IH]; [rewrite (x_start _ _ _ X); constructor|]. cbn [past].
  pose proof (x_step _ _ _ X k) as St. destruct (la k) as [[t e]|].
  - destruct St as (a & D). econstructor; eauto.
  - rewrite St, app_nil_r. exact IH.
Qed.
Lemma fair_inv k : inv c (past k) (si k).
Proof. apply exec_inv, fair_exec. Qed.
Lemma does_eff k t e : does la k t e -> effect c (si k) t e (si (S k)).
Proof. intros D. pose proof (x_step _ _ _ X k) as St. rewrite D in St. destruct St as (a & St). eapply dstep_effect; eauto. Qed.
Lemma does_fstep k t e : does la k t e -> fstep c (frames (si k) t) e (frames (si (S k)) t).
Proof. intros D. eapply fs; [apply fair_inv|apply does_eff; auto]. Qed.

(** Steps of others leave a thread's frames alone. *)
Lemma keeps k t : frames (si k) t <> [] -> (forall e, ~ does la k t e) -> frames (si (S k)) t = frames (si k) t.
Proof.
  intros NE ND. pose proof (x_step _ _ _ X k) as St. destruct (la k) as [[u e]|] eqn:E; [|now rewrite St].
  destruct (Nat.eq_dec u t) as [->|D]; [exfalso; eapply ND; exact E|].
  destruct (fr_other _ _ _ _ _ _ (fair_inv k) (does_eff _ _ _ E) t (fun q => D (eq_sym q))) as [->|(_ & _ & _ & Z)]; [auto|]. congruence.
Qed.
Lemma does_dec k t : (exists e, does la k t e) \/ (forall e, ~ does la k t e).
Proof.
  unfold does. destruct (la k) as [[u e]|]; [|right; congruence].
  destruct (Nat.eq_dec u t) as [->|]; [left; eauto|right; congruence].
Qed.
Lemma over_dec s : over s \/ term s = None.
Proof. unfold over. destruct (term s); [left; discriminate|auto]. Qed.
Lemma over_stays k k' : k <= k' -> over (si k) -> over (si k').
Proof.
  induction 1 as [|k' H IH]; auto. intros O. specialize (IH O).
  pose proof (x_step _ _ _ X k') as St. destruct (la k') as [[t e]|]; [|now rewrite St].
  destruct St as (a & D). apply dstep_inv in D as (T & _). unfold over in IH. congruence.
Qed.

(** ** immediate_exit and trap need nothing of the user's code *)
Theorem C70_immediate : forall k t e, does la k t e -> (exists st, e = ImmCall st) \/ e = TrapCall ->
  exists k', k < k' /\ over (si k').
Proof.
  intros k t e D E.
  assert (F0 : exists fr l, frames (si (S k)) t = fr :: l /\ ((exists st, fr = FImm st) \/ fr = FTrap)).
  { pose proof (does_fstep _ _ _ D) as F. destruct E as [(st & ->)| ->]; inversion F; subst; do 2 eexists; split; eauto. }
  destruct F0 as (fr & l & F0 & Hfr).
  destruct (x_fair _ _ _ X t (S k)) as (k' & L & Q).
  assert (SS : forall d, (exists j, S k <= j /\ over (si j)) \/ frames (si (S k + d)) t = fr :: l).
  { induction d as [|d [IH|IH]]; [right; now rewrite Nat.add_0_r|auto|].
    destruct (does_dec (S k + d) t) as [(e' & D')|ND].
    - left. exists (S (S k + d)). split; [lia|]. pose proof (does_fstep _ _ _ D') as F. pose proof (e_term _ _ _ _ _ (does_eff _ _ _ D')) as T.
      rewrite IH in F. unfold over. rewrite T. destruct Hfr as [(st & ->)| ->]; inversion F; subst; discriminate.
    - right. replace (S k + S d) with (S (S k + d)) by lia. rewrite keeps; auto. rewrite IH. discriminate. }
  destruct (SS (k' - S k)) as [(j & Lj & O)|S1]; [exists j; split; [lia|auto]|].
  replace (S k + (k' - S k)) with k' in S1 by lia.
  destruct Q as [(e' & D')|[O|[G|[(w & r & Rn)|(_ & _ & B)]]]].
  - exists (S k'). split; [lia|]. pose proof (does_fstep _ _ _ D') as F. pose proof (e_term _ _ _ _ _ (does_eff _ _ _ D')) as T.
    rewrite S1 in F. unfold over. rewrite T. destruct Hfr as [(st & ->)| ->]; inversion F; subst; discriminate.
  - exists k'. split; [lia|auto].
  - unfold gone in G. congruence.
  - rewrite S1 in Rn. inversion Rn; subst. destruct Hfr as [(st & Q)|Q]; discriminate.
  - destruct B as [(f & r & B)|(st & r & B)]; rewrite S1 in B; inversion B; subst; destruct Hfr as [(st' & Q)|Q]; discriminate.
Qed.

(** ** program::exit and thread exit *)
Hypothesis W : well_behaved si la.

Lemma fair_okl k t : okl (frames (si k) t) = true.
Proof.
  induction k as [|k IH].
  - rewrite (x_start _ _ _ X). cbn. unfold dupd. destruct (Nat.eqb t 0); reflexivity.
  - pose proof (x_step _ _ _ X k) as St. destruct (la k) as [[u e]|] eqn:E; [|now rewrite St].
    destruct (Nat.eq_dec t u) as [->|D].
    + eapply okl_step; [eapply does_fstep; exact E|apply (i_stack _ _ _ (fair_inv k))|exact IH|].
      intros j r Er. eapply (b_fini _ _ W k u j e); [exists r; exact Er|exact E].
    + destruct (fr_other _ _ _ _ _ _ (fair_inv k) (does_eff _ _ _ E) t D) as [->|(_ & _ & -> & _)]; [auto|reflexivity].
Qed.

Definition from (N : nat) : Prop := forall k t e, N <= k -> does la k t e ->
  match e with RegT _ | BeginP _ | Spawn _ => False | _ => True end.

Lemma next N k t e : from N -> N <= k -> does la k t e ->
  (si (S k) = si k /\ e = Nop /\ exists w, running (si k) t w) \/ meas c (si (S k)) < meas c (si k).
Proof.
  intros HN L D. pose proof (x_step _ _ _ X k) as St. rewrite D in St. destruct St as (a & St).
  eapply meas_step; [apply fair_exec|exact St|eapply HN; eauto|]. intros j Rn. eapply (b_fini _ _ W); eauto.
Qed.
Lemma same_or_less N k k' : from N -> N <= k -> k <= k' -> si k' = si k \/ meas c (si k') < meas c (si k).
Proof.
  intros HN L. induction 1 as [|k' H IH]; [auto|].
  assert (Q : si (S k') = si k' \/ meas c (si (S k')) < meas c (si k')).
  { destruct (la k') as [[t e]|] eqn:E.
    - destruct (next N k' t e HN ltac:(lia) E) as [(-> & _)|]; auto.
    - pose proof (x_step _ _ _ X k') as St. rewrite E in St. auto. }
  destruct IH as [IH|IH]; destruct Q as [Q|Q]; [left; congruence|right; rewrite IH in Q; exact Q|right; rewrite Q; exact IH|right; lia].
Qed.
Lemma leaving_stays k k' t : k <= k' -> leaving (si k) t -> leaving (si k') t \/ exists j, k <= j /\ gone (si j) t.
Proof.
  induction 1 as [|k' H IH]; auto. intros Lv. destruct (IH Lv) as [Q|Q]; [|auto].
  destruct (does_dec k' t) as [(e & D)|ND].
  - destruct (leave_step _ _ _ _ (does_fstep _ _ _ D) Q); [auto|]. right. exists (S k'). split; [lia|auto].
  - left. unfold leaving in *. rewrite keeps; auto. intros E. rewrite E in Q. discriminate.
Qed.

(** A thread that must move before time stands still. *)
Lemma mover N k : from N -> N <= k -> term (si k) = None -> forall t, leaving (si k) t ->
  exists k', k <= k' /\ (over (si k') \/ meas c (si k') < meas c (si k)).
Proof.
  intros HN L T t Lv.
  (* an unblocked thread inside origin's code moves *)
  assert (A : forall u fr l, frames (si k) u = fr :: l -> (forall w, fr <> FUser w) -> ~ blocked c (si k) u ->
     exists k', k <= k' /\ (over (si k') \/ meas c (si k') < meas c (si k))).
  { intros u fr l Fr NU NB. destruct (x_fair _ _ _ X u k) as (k' & L' & Q).
    destruct (same_or_less N k k' HN L L') as [E|E]; [|exists k'; auto]. rewrite E in Q.
    destruct Q as [(e & D)|[O|[G|[(w & r & Rn)|B]]]].
    - exists (S k'). split; [lia|]. right. rewrite <- E. destruct (next N k' u e HN ltac:(lia) D) as [(_ & _ & w & r & Rn)|Q]; [|exact Q].
      exfalso. rewrite E, Fr in Rn. inversion Rn. eapply NU; eauto.
    - exists k. auto.
    - unfold gone in G. congruence.
    - rewrite Fr in Rn. inversion Rn. exfalso. eapply NU; eauto.
    - contradiction. }
  (* an exit function comes to do something *)
  assert (U : forall u w, running (si k) u w -> exit_function w ->
     exists k', k <= k' /\ (over (si k') \/ meas c (si k') < meas c (si k))).
  { intros u w Rn Ew. destruct (b_return _ _ W u k w Rn Ew) as (k' & L' & [O|(e & D & NE)]); [exists k'; auto|].
    destruct (same_or_less N k k' HN L L') as [E|E]; [|exists k'; auto].
    exists (S k'). split; [lia|]. right. rewrite <- E. destruct (next N k' u e HN ltac:(lia) D) as [(_ & Z & _)|Q]; [contradiction|exact Q]. }
  (* whoever holds the lock moves *)
  assert (Hd : forall h, c_thread c = true -> lk (si k) = Some h -> exists k', k <= k' /\ (over (si k') \/ meas c (si k') < meas c (si k))).
  { intros h Hc Hl. apply (i_hold _ _ _ (fair_inv k) Hc) in Hl. unfold holds in Hl. apply orb_true_iff in Hl. destruct Hl as [Hl|Hl].
    - destruct (frames (si k) h) as [|x r] eqn:Fr; [discriminate|].
      apply (A h x r Fr); [intros w ->; discriminate|].
      intros (_ & _ & [(? & ? & Z)|(? & ? & Z)]); rewrite Fr in Z; inversion Z; subst; discriminate.
    - apply andb_true_iff in Hl as (_ & Hl).
      destruct (fini_top _ Hl (fair_okl k h) (i_stack _ _ _ (fair_inv k) h)) as (x & r & Fr & Q).
      destruct Q as [(j & ->)|[(st & j & ->)|[(st & ->)| ->]]];
        try (eapply (A h); [exact Fr|intros; discriminate|intros (_ & _ & [(? & ? & Z)|(? & ? & Z)]); congruence]; fail).
      apply (U h (WF j)); [eexists; eauto|exact Logic.I]. }
  destruct (frames (si k) t) as [|fr l] eqn:Fr; [unfold leaving in Lv; rewrite Fr in Lv; discriminate|].
  pose proof (i_stack _ _ _ (fair_inv k) t) as [_ B]. unfold leaving in Lv. rewrite Fr in B, Lv.
  destruct fr as [w|f|f| | |st p|st|]; try (eapply (A t); [exact Fr|intros; discriminate|intros (_ & _ & [(? & ? & Z)|(? & ? & Z)]); congruence]; fail).
  - apply (U t w); [eexists; eauto|]. cbn in B, Lv. destruct w; cbn; auto; destruct B as [[-> |B] _]; discriminate.
  - (* at_exit waits *)
    destruct (c_thread c) eqn:Hc; [|eapply (A t); [exact Fr|intros; discriminate|intros (Z & _); congruence]].
    destruct (lk (si k)) as [h|] eqn:Hl; [|eapply (A t); [exact Fr|intros; discriminate|intros (_ & Z & _); congruence]].
    eapply Hd; eauto.
  - destruct (c_thread c) eqn:Hc; [|eapply (A t); [exact Fr|intros; discriminate|intros (Z & _); congruence]].
    destruct (lk (si k)) as [h|] eqn:Hl; [eapply Hd; eauto|eapply (A t); [exact Fr|intros; discriminate|intros (_ & Z & _); congruence]].
Qed.

Lemma leaves N : from N -> forall b k t, N <= k -> meas c (si k) <= b -> leaving (si k) t ->
  exists k', k <= k' /\ (over (si k') \/ gone (si k') t).
Proof.
  intros HN. induction b as [b IH] using lt_wf_ind. intros k t L Mb Lv.
  destruct (over_dec (si k)) as [O|T]; [exists k; auto|].
  destruct (mover N k HN L T t Lv) as (k' & L' & [O|M]); [exists k'; auto|].
  destruct (leaving_stays k k' t L' Lv) as [Lv'|(j & Lj & G)]; [|exists j; auto].
  destruct (IH (meas c (si k')) ltac:(lia) k' t ltac:(lia) ltac:(lia) Lv') as (k2 & L2 & Q). exists k2. split; [lia|auto].
Qed.
Lemma leaves_any k t : leaving (si k) t -> exists k', k <= k' /\ (over (si k') \/ gone (si k') t).
Proof.
  intros Lv. destruct (b_finite _ _ W) as (N & HN).
  destruct (leaving_stays k (Nat.max N k) t ltac:(lia) Lv) as [Lv'|(j & Lj & G)]; [|exists j; auto].
  destruct (leaves N HN _ (Nat.max N k) t ltac:(lia) (le_n _) Lv') as (k' & L & Q). exists k'. split; [lia|auto].
Qed.

(** program::exit, and returning from origin_main, end the process. *)
Theorem C70_exit : forall k t e, does la k t e -> ending e = true -> exists k', k < k' /\ over (si k').
Proof.
  intros k t e D E.
  assert (H0 : existsb ends (frames (si (S k)) t) = true).
  { pose proof (does_fstep _ _ _ D) as F. destruct e; try discriminate; inversion F; reflexivity. }
  assert (H1 : forall k', S k <= k' -> existsb ends (frames (si k') t) = true).
  { induction 1 as [|k' H IH]; [exact H0|]. destruct (does_dec k' t) as [(e' & D')|ND].
    - eapply ends_step; [eapply does_fstep; eauto|apply (i_stack _ _ _ (fair_inv k'))|exact IH].
    - rewrite keeps; auto. apply ends_leaving in IH. tauto. }
  destruct (leaves_any (S k) t) as (k' & L & [O|G]).
  - apply ends_leaving in H0. apply H0.
  - exists k'. split; [lia|auto].
  - exfalso. specialize (H1 k' L). unfold gone in G. rewrite G in H1. discriminate.
Qed.

(** A thread whose function returned calls its exit functions and ends, unless
    the process ends first. *)
Theorem C70_thread : forall k t, does la k t (Ret WThread) ->
  exists k', k < k' /\ (over (si k') \/ does la k' t ThreadDone).
Proof.
  intros k t D.
  assert (H0 : leaving (si (S k)) t).
  { pose proof (does_fstep _ _ _ D) as F. unfold leaving. inversion F; subst; [reflexivity|congruence]. }
  destruct (leaves_any (S k) t H0) as (k' & L & [O|G]); [exists k'; split; [lia|auto]|].
  (* the step that emptied the frames *)
  assert (Q : forall d, (exists j, S k <= j /\ does la j t ThreadDone) \/ leaving (si (S k + d)) t).
  { induction d as [|d [IH|IH]]; [right; now rewrite Nat.add_0_r|auto|].
    replace (S k + S d) with (S (S k + d)) by lia.
    destruct (does_dec (S k + d) t) as [(e & D')|ND].
    - destruct (leave_step _ _ _ _ (does_fstep _ _ _ D') IH) as [|Z]; [auto|]. left. exists (S k + d). split; [lia|].
      pose proof (does_fstep _ _ _ D') as F. rewrite Z in F. unfold leaving in IH.
      remember (frames (si (S k + d)) t) as l1 eqn:E1. clear E1. inversion F; subst; try exact D'; cbn in IH; discriminate.
    - right. unfold leaving in *. rewrite keeps; auto. intros Z. rewrite Z in IH. discriminate. }
  destruct (Q (k' - S k)) as [(j & Lj & Dj)|Z]; [exists j; split; [lia|auto]|].
  replace (S k + (k' - S k)) with k' in Z by lia. unfold leaving in Z. unfold gone in G. rewrite G in Z. discriminate.
Qed.
End Fair.
Print Assumptions C70_immediate.
Print Assumptions C70_exit.
Print Assumptions C70_thread.

(** Fairness demands nothing impossible: in every reachable state every thread
    is in user code, gone, waiting for the lock, or can move. *)
Theorem C70_never_stuck : forall c tr s t, exec c tr s ->
  over s \/ gone s t \/ (exists w, running s t w) \/ blocked c s t \/ exists e s', dstep c s t AGo = Some (e, s').
Proof.
  intros c tr s t H. destruct (over_dec s) as [|T]; [auto|]. right. unfold gone, running, blocked.
  destruct (frames s t) as [|fr l] eqn:F; [auto|]. right.
  assert (TL : forall fr', frames s t = fr' :: l -> try_lock c s t = None -> c_thread c = true /\ lk s <> None).
  { intros fr' _. unfold try_lock. destruct (c_thread c); [|discriminate]. destruct (lk s); [intros _; split; [auto|discriminate]|discriminate]. }
  unfold dstep. rewrite T, F.
  destruct fr as [w|f|f| | |st p|st|]; cbn; eauto 6.
  - destruct (try_lock c s t) eqn:Q; [eauto 6|]. right. left. destruct (TL _ F eq_refl). repeat split; auto. left. eauto.
  - right. right. destruct (if c_tae c then tdt s t else []); eauto.
  - destruct p as [| | |f|f|[|k]]; cbn; eauto 6.
    + right. right. destruct (tdt s t); eauto.
    + destruct (try_lock c s t) eqn:Q; [eauto 6|]. right. left. destruct (TL _ F eq_refl). repeat split; auto. right. eauto.
    + right. right. destruct (pdt s); eauto.
Qed.
Print Assumptions C70_never_stuck.

(** ** Concrete executions: a schedule, then nothing *)
Definition st_at (c : dcfg) (l : list (nat * action)) (k : nat) : dst :=
  match play c dinit [] (firstn k l) with Some (_, s) => s | None => dinit end.
Definition ev_at (c : dcfg) (l : list (nat * action)) (k : nat) : option (nat * event) :=
  match play c dinit [] l with Some (tr, _) => nth_error tr k | None => None end.

Lemma play_app c l1 : forall l2 s tr, play c s tr (l1 ++ l2) =
  match play c s tr l1 with Some (tr1, s1) => play c s1 tr1 l2 | None => None end.
Proof.
  induction l1 as [|[t a] l1 IH]; intros l2 s tr; cbn; [reflexivity|].
  destruct (dstep c s t a) as [[e s']|]; auto.
Qed.
Lemma play_ext c l : forall s tr tr' s', play c s tr l = Some (tr', s') -> exists ev, tr' = tr ++ ev /\ length ev = length l.
Proof.
  induction l as [|[t a] l IH]; intros s tr tr' s'; cbn.
  - intros E. inversion E; subst. exists []. rewrite app_nil_r. auto.
  - destruct (dstep c s t a) as [[e s1]|]; [|discriminate]. intros E. destruct (IH _ _ _ _ E) as (ev & -> & L).
    exists ((t, e) :: ev). rewrite <- app_assoc. cbn. auto.
Qed.
Lemma ev_none c l k : (length l <= k) -> ev_at c l k = None.
Proof.
  unfold ev_at. destruct (play c dinit [] l) as [[tr s]|] eqn:E; [|auto]. destruct (play_ext _ _ _ _ _ _ E) as (ev & -> & L).
  intros H. apply nth_error_None. cbn. lia.
Qed.
Lemma st_end c l k : length l <= k -> st_at c l k = st_at c l (length l).
Proof. intros H. unfold st_at. rewrite !firstn_all2 by lia. reflexivity. Qed.

Lemma play_fair c l tr s : play c dinit [] l = Some (tr, s) ->
  (over s \/ forall t, gone s t \/ (exists w, running s t w) \/ blocked c s t) -> exit_fair c (st_at c l) (ev_at c l).
Proof.
  intros H Q.
  assert (SE : st_at c l (length l) = s) by (unfold st_at; rewrite firstn_all, H; reflexivity).
  constructor.
  - unfold st_at. now destruct l.
  - intros k. destruct (Nat.lt_ge_cases k (length l)) as [L|L]; [|rewrite ev_none by auto; rewrite (st_end c l k), (st_end c l (S k)) by lia; reflexivity].
    assert (E : l = firstn k l ++ nth k l (0, ANop) :: skipn (S k) l).
    { clear - L. revert k L. induction l as [|x l IH]; intros k L; cbn in L; [lia|]. destruct k; cbn; [auto|]. f_equal. apply IH. lia. }
    assert (E1 : firstn (S k) l = firstn k l ++ [nth k l (0, ANop)]).
    { clear - L. revert k L. induction l as [|x l IH]; intros k L; cbn in L; [lia|]. destruct k; cbn; [auto|]. f_equal. apply (IH k). lia. }
    unfold ev_at. rewrite H. rewrite E, play_app in H. unfold st_at. rewrite E1, play_app.
    destruct (play c dinit [] (firstn k l)) as [[t1 s1]|] eqn:P1; [|discriminate].
    destruct (nth k l (0, ANop)) as [t a] eqn:En. cbn in *.
    destruct (dstep c s1 t a) as [[e s2]|] eqn:D; [|discriminate].
    destruct (play_ext _ _ _ _ _ _ P1) as (ev1 & -> & L1). destruct (play_ext _ _ _ _ _ _ H) as (ev2 & -> & L2). cbn in *.
    rewrite firstn_length_le in L1 by lia.
    rewrite <- app_assoc, nth_error_app2 by lia. rewrite L1, Nat.sub_diag. cbn. exists a. exact D.
  - intros t k. exists (Nat.max k (length l)). split; [lia|]. rewrite (st_end c l) by lia. rewrite SE. right.
    destruct Q as [Q|Q]; [auto|]. right. exact (Q t).
Qed.

(** Main registers one function of each kind and starts a thread; the thread
    registers two more and returns; main calls exit(7) meanwhile; its program
    function registers yet another; .fini_array has one entry. *)
Definition cx : dcfg := DCfg true true true true 1 X86_64.
Definition sched_x : list (nat * action) :=
  [(0, ARegT); (0, ARegP); (0, AGo); (0, AGo); (0, AGo); (0, ASpawn); (1, ARegT); (1, ARegP); (0, AExit 7);
   (1, AGo); (0, AGo); (1, AGo); (0, ARet 0); (0, AGo); (1, AGo); (1, ARet 0); (0, AGo); (1, AGo); (0, AGo); (1, ARet 0); (1, AGo);
   (0, AGo); (0, AGo); (0, ARegP); (0, AGo); (0, AGo); (0, AGo); (0, ARet 0);
   (0, AGo); (0, AGo); (0, AGo); (0, AGo); (0, ARet 0); (0, AGo); (0, AGo); (0, AGo); (0, AGo); (0, ARet 0); (0, AGo); (0, AGo); (0, AGo); (0, ARet 0); (0, AGo)].
Lemma x_play : exists tr s, play cx dinit [] sched_x = Some (tr, s) /\ term s = Some (Exited 7).
Proof. destruct (play cx dinit [] sched_x) as [[tr s]|] eqn:E; [exists tr, s; split; [auto|]|exfalso; vm_compute in E; discriminate].
  assert (Q : match play cx dinit [] sched_x with Some (_, s) => term s | None => None end = Some (Exited 7)) by (vm_compute; reflexivity).
  rewrite E in Q. exact Q. Qed.

(** what the .fini_array entries of a schedule do *)
Definition fini_clean (c : dcfg) (l : list (nat * action)) : bool :=
  forallb (fun k => match ev_at c l k with
                    | Some (t, e) => match frames (st_at c l k) t with
                                     | FUser (WF _) :: _ => match e with BeginP _ | ExitCall _ => false | _ => true end
                                     | _ => true end
                    | None => true end) (seq 0 (length l)).
Lemma fini_clean_ok c l : fini_clean c l = true -> forall k t j e, running (st_at c l k) t (WF j) -> does (ev_at c l) k t e ->
  match e with BeginP _ | ExitCall _ => False | _ => True end.
Proof.
  intros H k t j e (r & F) D. unfold does in D.
  destruct (Nat.lt_ge_cases k (length l)) as [L|L]; [|rewrite ev_none in D by auto; discriminate].
  unfold fini_clean in H. rewrite forallb_forall in H. specialize (H k). rewrite D, F in H.
  rewrite in_seq in H. specialize (H ltac:(lia)). destruct e; auto; discriminate.
Qed.

Theorem C70_ex : exists si la, exit_fair cx si la /\ well_behaved si la /\
  (exists k, does la k 0 (ExitCall 7)) /\ (exists k, does la k 1 (Ret WThread)) /\ (exists k, does la k 1 ThreadDone) /\
  exists k, term (si k) = Some (Exited 7).
Proof.
  destruct x_play as (tr & s & P & T). exists (st_at cx sched_x), (ev_at cx sched_x).
  assert (SE : forall k, length sched_x <= k -> st_at cx sched_x k = s).
  { intros k L. unfold st_at. rewrite firstn_all2, P by auto. reflexivity. }
  split; [eapply play_fair; [exact P|left; unfold over; congruence]|]. split; [constructor|].
  - intros t k w _ _. exists (Nat.max k (length sched_x)). split; [lia|]. left. rewrite SE by lia. unfold over. congruence.
  - exists (length sched_x). intros k t e L D. unfold does in D. rewrite ev_none in D by auto. discriminate.
  - apply fini_clean_ok. vm_compute. reflexivity.
  - split; [exists 8; vm_compute; reflexivity|]. split; [exists 15; vm_compute; reflexivity|]. split; [exists 20; vm_compute; reflexivity|].
    exists (length sched_x). rewrite SE by lia. exact T.
Qed.
Print Assumptions C70_ex.

(** The condition on .fini_array entries is needed: one that calls exit waits
    for ever for the lock its own thread holds. *)
Definition sched_h : list (nat * action) := [(0, ARet 3); (0, AGo); (0, AGo); (0, AGo); (0, AGo); (0, AExit 4); (0, AGo)].
Theorem C70_fini_refuted : exists si la, exit_fair cx si la /\
  (forall t k w, running (si k) t w -> exit_function w ->
     exists k', (k <= k') /\ (over (si k') \/ exists e, does la k' t e /\ e <> Nop)) /\
  (exists N, forall k t e, N <= k -> ~ does la k t e) /\
  does la 0 0 (ExitCall 3) /\ forall k, ~ over (si k).
Proof.
  exists (st_at cx sched_h), (ev_at cx sched_h).
  assert (E : forall k, length sched_h <= k -> st_at cx sched_h k = st_at cx sched_h 7) by (intros k L; apply st_end; exact L).
  assert (F0 : frames (st_at cx sched_h 7) 0 = [FX 4 XLock; FUser (WF 0); FX 3 (XFini 0)]) by (vm_compute; reflexivity).
  assert (FO : forall t k, t <> 0 -> frames (st_at cx sched_h k) t = []).
  { intros t k Ht. destruct (Nat.lt_ge_cases k 7) as [L|L]; [|rewrite E by exact L].
    - do 7 (destruct k as [|k]; [cbn -[Nat.eqb]; unfold dupd; cbn -[Nat.eqb]; destruct t; [congruence|reflexivity]|]). lia.
    - cbn -[Nat.eqb]; unfold dupd; cbn -[Nat.eqb]; destruct t; [congruence|reflexivity]. }
  destruct (play cx dinit [] sched_h) as [[tr s]|] eqn:P; [|exfalso; vm_compute in P; discriminate].
  assert (Es : s = st_at cx sched_h 7) by (unfold st_at; change (firstn 7 sched_h) with sched_h; now rewrite P).
  split; [|split; [|split; [|split]]].
  - eapply play_fair; [exact P|]. right. intros t. subst s. destruct (Nat.eq_dec t 0) as [->|D]; [|left; apply FO; exact D].
    right. right. split; [reflexivity|]. split; [vm_compute; discriminate|]. right. rewrite F0. eauto.
  - intros t k w (r & F) W. destruct (Nat.eq_dec t 0) as [->|D]; [|rewrite FO in F by auto; discriminate].
    destruct (Nat.lt_ge_cases k 6) as [L|L].
    + exists 5. do 6 (destruct k as [|k]; [vm_compute in F; inversion F; subst; try contradiction|]); try lia.
      split; [lia|]. right. exists (ExitCall 4). split; [vm_compute; reflexivity|discriminate].
    + exfalso. assert (Q : frames (st_at cx sched_h k) 0 = frames (st_at cx sched_h 7) 0 \/ k = 6).
      { destruct (Nat.eq_dec k 6); [auto|]. left. rewrite E; [auto|cbn; lia]. }
      destruct Q as [Q| ->]; [rewrite Q, F0 in F; discriminate|vm_compute in F; discriminate].
  - exists 7. intros k t e L D. unfold does in D. rewrite ev_none in D by exact L. discriminate.
  - vm_compute. reflexivity.
  - intros k. unfold over. destruct (Nat.lt_ge_cases k 7) as [L|L]; [|rewrite E by exact L; vm_compute; congruence].
    do 7 (destruct k as [|k]; [vm_compute; congruence|]). lia.
Qed.
Print Assumptions C70_fini_refuted.
