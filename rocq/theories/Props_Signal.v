(** Property theorems C39, C40, C53: signal actions.
    Vocabulary: [SignalSpec.v]; model: [SignalModel.v]. *)
From Verif Require Import Machine LayoutModel SignalModel AsmModel AsmSpec SignalSpec AsmProofs AsmProofs2 Props_Asm.

Lemma contains_siginfo fl : (Z.land (Z.lor fl SA_RESTORER) SA_SIGINFO =? SA_SIGINFO) = Z.testbit fl 2.
Proof.
  assert (E : Z.land (Z.lor fl SA_RESTORER) SA_SIGINFO = if Z.testbit fl 2 then 4 else 0).
  { apply Z.bits_inj'. intros i Hi. rewrite Z.land_spec, Z.lor_spec.
    unfold SA_RESTORER, SA_SIGINFO. change 0x04000000 with (2 ^ 26). change 4 with (2 ^ 2).
    rewrite !Z.pow2_bits_eqb by lia.
    destruct (Z.eqb_spec 2 i) as [<-|N].
    - destruct (Z.testbit fl 2); reflexivity.
    - rewrite andb_false_r. destruct (Z.testbit fl 2); [rewrite Z.pow2_bits_false by lia; reflexivity|now rewrite Z.bits_0]. }
  rewrite E. destruct (Z.testbit fl 2); reflexivity.
Qed.

Lemma unblockable_bit i : 0 <= i -> Z.testbit unblockable i = ((i =? 8) || (i =? 18)).
Proof.
  intros Hi. unfold unblockable. change (2 ^ (9 - 1) + 2 ^ (19 - 1)) with (Z.lor (2 ^ 8) (2 ^ 18)).
  rewrite Z.lor_spec, !Z.pow2_bits_eqb by lia. rewrite (Z.eqb_sym 8), (Z.eqb_sym 18). reflexivity.
Qed.

Lemma prepare_flags a r e : sa_flags (prepare a r e) = match a with Riscv64 => sa_flags e | _ => Z.lor (sa_flags e) SA_RESTORER end.
Proof. unfold prepare. destruct a; cbv zeta; try destruct (Z.land _ _ =? _); reflexivity. Qed.
Lemma prepare_handler a r e : sa_handler (prepare a r e) = sa_handler e.
Proof. unfold prepare. destruct a; cbv zeta; try destruct (Z.land _ _ =? _); reflexivity. Qed.
Lemma prepare_mask a r e : sa_mask (prepare a r e) = sa_mask e.
Proof. unfold prepare. destruct a; cbv zeta; try destruct (Z.land _ _ =? _); reflexivity. Qed.
Lemma prepare_restorer a r e : sa_restorer (prepare a r e) =
  match a with Riscv64 => sa_restorer e | _ => if Z.testbit (sa_flags e) 2 then r_info r else r_noinfo r end.
Proof. unfold prepare. destruct a; cbv zeta; rewrite ?contains_siginfo; try destruct (Z.testbit _ 2); reflexivity. Qed.

Lemma ask_changeable sig : changeable sig -> (sig <? 1) || (64 <? sig) = false /\ (sig =? 9) || (sig =? 19) = false.
Proof.
  intros (H & H1 & H2). split; apply orb_false_iff; split; try (apply Z.ltb_ge; lia); apply Z.eqb_neq; assumption.
Qed.

(** * C39 *)
Theorem C39_sigaction sup a r t sig req : sup_ok a sup -> changeable sig ->
  exists t', sigaction (k_sigaction sup) a r t sig (Some req) = (inl (t sig), t') /\
    is_request_with_restorer a r sup req (t' sig) /\ forall s, s <> sig -> t' s = t s.
Proof.
  intros [S2 S26] C. destruct (ask_changeable sig C) as [E1 E2].
  unfold sigaction, k_sigaction. cbn [option_map]. rewrite E1, E2. eexists. split; [reflexivity|].
  unfold set_entry. rewrite Z.eqb_refl. split.
  - unfold is_request_with_restorer, siginfo. cbn [sa_handler sa_flags sa_restorer sa_mask].
    rewrite prepare_handler, prepare_mask, prepare_flags, prepare_restorer.
    split; [reflexivity|]. split; [|split; [|split]].
    + intros i Hi N1 N2. rewrite Z.ldiff_spec, unblockable_bit by assumption.
      replace (i =? 8) with false by (symmetry; apply Z.eqb_neq; lia). replace (i =? 18) with false by (symmetry; apply Z.eqb_neq; lia).
      apply andb_true_r.
    + intros i Hi Hs N. rewrite Z.land_spec, Hs, andb_true_r.
      destruct a; try reflexivity; rewrite Z.lor_spec; unfold SA_RESTORER; change 0x04000000 with (2 ^ 26);
        rewrite Z.pow2_bits_false by (destruct N; congruence); apply orb_false_r.
    + intros N. specialize (S26 N). rewrite Z.land_spec, S26, andb_true_r.
      destruct a; try congruence; (split; [rewrite Z.lor_spec; apply orb_true_r|reflexivity]).
    + intros ->. reflexivity.
  - intros s N. apply Z.eqb_neq in N. rewrite N. reflexivity.
Qed.
Print Assumptions C39_sigaction.

(** `sigaction(sig, None)` and calls the kernel refuses change nothing; the
    answer is the kernel's.  [k] is any kernel here. *)
Theorem C39_query sup a r t sig : 1 <= sig <= 64 -> sigaction (k_sigaction sup) a r t sig None = (inl (t sig), t).
Proof.
  intros H. unfold sigaction, k_sigaction. cbn [option_map].
  replace ((sig <? 1) || (64 <? sig)) with false; [reflexivity|]. symmetry. apply orb_false_iff. split; apply Z.ltb_ge; lia.
Qed.
Theorem C39_errors sup a r t sig act : ~ (1 <= sig <= 64) \/ (act <> None /\ (sig = 9 \/ sig = 19)) ->
  sigaction (k_sigaction sup) a r t sig act = (inr EINVAL, t).
Proof.
  intros H. unfold sigaction, k_sigaction.
  destruct ((sig <? 1) || (64 <? sig)) eqn:E1; [reflexivity|].
  apply orb_false_iff in E1. destruct E1 as [E1 E1']. apply Z.ltb_ge in E1, E1'.
  destruct H as [H|[H H']]; [lia|]. destruct act as [e|]; [|congruence]. cbn [option_map].
  destruct H' as [-> | ->]; reflexivity.
Qed.
Theorem C39_ex : sup_ok X86 0xdc000807 /\ changeable 11 /\
  snd (sigaction (k_sigaction 0xdc000807) X86 (Rst 0x5000 0x6000) (fun _ => SA 0 0 0 0) 11 (Some (SA 0x400 0x1000_0004 0 (2 ^ 8 + 2)))) 11
  = SA 0x400 0x1400_0004 0x5000 2.
Proof. repeat split. all: lia. Qed.

(** With C49: when a handler installed this way returns, the trampoline issues
    the sigreturn that matches the frame the kernel pushed for it, finding that
    frame.  The kernel chooses the frame by the installed flags and enters the
    installed restorer. *)
Theorem C39_handler_returns sup a r t sig req code : sup_ok a sup -> changeable sig -> a <> Riscv64 -> trampolines a r code ->
  let t' := snd (sigaction (k_sigaction sup) a r t sig (Some req)) in
  let rt := rt_frame a (siginfo (sa_flags (t' sig))) in
  exists asm, code (sa_restorer (t' sig)) = Some asm /\
  forall frame s ks, wf_cpu a s -> 0 <= frame -> frame + 8 < modulus (wsz a) -> at_restorer a frame s ->
  exists tr args c, run a asm s ks = (tr, match ks with [] => InKernel | _ => Trapped end) /\
    syscalls tr = [(if rt then linux_nr a Sys_rt_sigreturn else linux_nr a Sys_sigreturn, args, c)] /\
    frame_used a rt (stack_pointer a c) = frame /\ cmem c = cmem s.
Proof.
  intros Hs Hc Ha [K1 K2] t' rt. destruct (C39_sigaction sup a r t sig req Hs Hc) as (t'' & E & (_ & _ & Hf & Hr & _) & _).
  assert (T : t' = t'') by (unfold t'; rewrite E; reflexivity). 
  destruct (Hr Ha) as [_ R].
  assert (B : siginfo (sa_flags (t' sig)) = siginfo (sa_flags req)).
  { rewrite T. unfold siginfo. apply Hf; [lia|apply Hs|left; lia]. }
  exists (if siginfo (sa_flags req) then restorer_asm a else restorer_noinfo_asm a). split.
  - rewrite T, R. destruct (siginfo (sa_flags req)); assumption.
  - intros frame s ks Hw F0 F1 Hat. unfold rt. rewrite B.
    destruct (C49_signal_return a (siginfo (sa_flags req)) frame s ks Ha Hw F0 F1 Hat) as (tr & nr & args & c & X1 & X2 & _ & X4 & X5 & X6).
    exists tr, args, c. split; [exact X1|]. rewrite X2, X4. tauto.
Qed.
Print Assumptions C39_handler_returns.

(** * C40 *)
(** Entries made by origin. *)
Definition made (sup : Z) (a : arch) (r : restorers) (e : sigact) : Prop :=
  Z.land (sa_flags e) sup = sa_flags e /\ Z.ldiff (sa_mask e) unblockable = sa_mask e /\
  (a <> Riscv64 -> Z.testbit (sa_flags e) 26 = true /\ sa_restorer e = if Z.testbit (sa_flags e) 2 then r_info r else r_noinfo r).

Definition stored sup a r (req : sigact) : sigact :=
  SA (sa_handler req) (Z.land (sa_flags (prepare a r req)) sup) (sa_restorer (prepare a r req)) (Z.ldiff (sa_mask req) unblockable).

Lemma ldiff_idem x y : Z.ldiff (Z.ldiff x y) y = Z.ldiff x y.
Proof. apply Z.bits_inj'. intros i Hi. rewrite !Z.ldiff_spec. destruct (Z.testbit x i), (Z.testbit y i); reflexivity. Qed.

Lemma stored_made sup a r req : sup_ok a sup -> made sup a r (stored sup a r req).
Proof.
  intros [S2 S26]. unfold made, stored. cbn [sa_flags sa_mask sa_restorer]. rewrite prepare_flags, prepare_restorer.
  split; [rewrite <- Z.land_assoc, Z.land_diag; reflexivity|]. split; [apply ldiff_idem|].
  intros N. specialize (S26 N). rewrite !Z.land_spec, S26, S2, !andb_true_r.
  destruct a; try congruence; (split; [rewrite Z.lor_spec; apply orb_true_r|]);
    rewrite Z.lor_spec; change (Z.testbit SA_RESTORER 2) with false; rewrite orb_false_r; reflexivity.
Qed.

Lemma made_stored sup a r e : made sup a r e -> stored sup a r e = e.
Proof.
  intros (F & M & R). unfold stored. rewrite prepare_flags, prepare_restorer, M.
  assert (G : a <> Riscv64 -> Z.lor (sa_flags e) SA_RESTORER = sa_flags e).
  { intros N. destruct (R N) as [R1 _]. apply Z.bits_inj'. intros i Hi. rewrite Z.lor_spec. unfold SA_RESTORER. change 0x04000000 with (2 ^ 26).
    destruct (Z.eqb_spec i 26) as [->|Ni]; [rewrite R1; reflexivity|rewrite Z.pow2_bits_false by lia; apply orb_false_r]. }
  destruct e as [h f rs m]; cbn [sa_handler sa_flags sa_restorer sa_mask] in *.
  destruct a; try (destruct (R ltac:(discriminate)) as [R1 R2]; rewrite G by discriminate; rewrite F, R2; reflexivity).
  rewrite F. reflexivity.
Qed.

Lemma ask_some sup a r t sig req : changeable sig ->
  sigaction (k_sigaction sup) a r t sig (Some req) = (inl (t sig), set_entry t sig (stored sup a r req)).
Proof.
  intros C. destruct (ask_changeable sig C) as [E1 E2]. unfold sigaction, k_sigaction. cbn [option_map]. rewrite E1, E2.
  unfold stored. rewrite prepare_handler, prepare_mask. reflexivity.
Qed.
Lemma ask_some_inv sup a r t sig req old t' :
  sigaction (k_sigaction sup) a r t sig (Some req) = (inl old, t') -> changeable sig /\ old = t sig /\ t' = set_entry t sig (stored sup a r req).
Proof.
  intros E. assert (C : changeable sig).
  { unfold changeable, sigaction, k_sigaction in *. cbn [option_map] in E.
    destruct ((sig <? 1) || (64 <? sig)) eqn:E1; [discriminate|]. destruct ((sig =? 9) || (sig =? 19)) eqn:E2; [discriminate|].
    apply orb_false_iff in E1, E2. destruct E1 as [A B], E2 as [A' B']. apply Z.ltb_ge in A, B. apply Z.eqb_neq in A', B'. lia. }
  rewrite (ask_some sup a r t sig req C) in E. injection E as <- <-. auto.
Qed.

Definition good_entry sup a r (e : sigact) : Prop := made sup a r e \/ exists h, e = SA h 0 0 0.

Lemma made_handler sup a r e h : made sup a r e -> made sup a r (SA h (sa_flags e) (sa_restorer e) (sa_mask e)).
Proof. intros H. exact H. Qed.

Lemma op_good sup a r t o s : sup_ok a sup -> (good_entry sup a r (t s) -> good_entry sup a r (apply_op sup a r t o s)) /\
  (made sup a r (t s) -> made sup a r (apply_op sup a r t o s)).
Proof.
  intros S. destruct o as [sig act|sig]; cbn [apply_op].
  - destruct (sigaction (k_sigaction sup) a r t sig act) as [[old|err] t'] eqn:E; cbn [snd].
    + destruct act as [req|].
      * destruct (ask_some_inv _ _ _ _ _ _ _ _ E) as (_ & _ & ->). unfold set_entry.
        pose proof (stored_made sup a r req S). destruct (s =? sig); split; unfold good_entry; tauto.
      * assert (t' = t) as ->; [|split; tauto]. unfold sigaction, k_sigaction in E. cbn [option_map] in E.
        destruct (_ || _); [discriminate|]. injection E as _ <-. reflexivity.
    + assert (t' = t) as ->; [|split; tauto]. unfold sigaction, k_sigaction in E.
      destruct (_ || _); [injection E as _ <-; reflexivity|]. destruct act as [req|]; cbn [option_map] in E; [|discriminate].
      destruct (_ || _); [injection E as _ <-; reflexivity|discriminate].
  - unfold k_deliver. destruct (Z.testbit _ 31) eqn:E; [|split; tauto]. unfold set_entry.
    destruct (Z.eqb_spec s sig) as [->|N]; [|split; tauto]. split.
    + intros [H|[h H]]; [left; apply made_handler; exact H|]. rewrite H in E. cbn in E. discriminate.
    + intros H. apply made_handler. exact H.
Qed.

Lemma after_good sup a r h : forall t s, sup_ok a sup ->
  (good_entry sup a r (t s) -> good_entry sup a r (after sup a r t h s)) /\ (made sup a r (t s) -> made sup a r (after sup a r t h s)).
Proof.
  induction h as [|o h IH]; intros t s S; [split; tauto|]. cbn [after fold_left].
  destruct (IH (apply_op sup a r t o) s S) as [I1 I2]. destruct (op_good sup a r t o s S). split; intros; auto.
Qed.

Lemma after_app sup a r t h h' : after sup a r t (h ++ h') = after sup a r (after sup a r t h) h'.
Proof. unfold after. apply fold_left_app. Qed.

(** Save, do anything (install and query any signals, take deliveries), restore:
    the previous disposition is back, except that one that was never set
    through origin now has the restorer fields filled in ... *)
Theorem C40_restore sup a r t0 before sig req old t1 between t2 t3 res :
  sup_ok a sup -> after_exec t0 ->
  let t := after sup a r t0 before in
  sigaction (k_sigaction sup) a r t sig (Some req) = (inl old, t1) ->
  t2 = after sup a r t1 between ->
  sigaction (k_sigaction sup) a r t2 sig (Some old) = (res, t3) ->
  (exists e, res = inl e) /\ same_but_restorer (t3 sig) (t sig) /\ (forall s, s <> sig -> t3 s = t2 s) /\
  (* ... exactly, if it had been set through origin *)
  ((exists req' pre post old' tx, before = pre ++ Ask sig (Some req') :: post /\
      sigaction (k_sigaction sup) a r (after sup a r t0 pre) sig (Some req') = (inl old', tx)) -> t3 sig = t sig).
Proof.
  intros S X t E1 E2 E3. destruct (ask_some_inv _ _ _ _ _ _ _ _ E1) as (C & -> & _).
  rewrite (ask_some _ _ _ _ _ _ C) in E3. injection E3 as <- <-.
  assert (G : good_entry sup a r (t sig)).
  { apply after_good; [exact S|]. right. destruct (X sig) as (h & _ & ->). exists h. reflexivity. }
  assert (T : set_entry t2 sig (stored sup a r (t sig)) sig = stored sup a r (t sig)).
  { unfold set_entry. rewrite Z.eqb_refl. reflexivity. }
  rewrite T. split; [eexists; reflexivity|]. split; [|split].
  - destruct G as [G|[h G]]; [rewrite (made_stored _ _ _ _ G); repeat split; reflexivity|].
    rewrite G. unfold stored, same_but_restorer. cbn [sa_handler sa_mask sa_flags]. split; [reflexivity|]. split; [reflexivity|].
    intros i Hi N. rewrite Z.land_spec, prepare_flags. cbn [sa_flags]. destruct a; rewrite ?Z.lor_spec, ?Z.bits_0; try reflexivity;
      unfold SA_RESTORER; change 0x04000000 with (2 ^ 26); rewrite Z.pow2_bits_false by lia; reflexivity.
  - intros s N. unfold set_entry. apply Z.eqb_neq in N. rewrite N. reflexivity.
  - intros (req' & pre & post & old' & tx & Hb & Hx).
    destruct (ask_some_inv _ _ _ _ _ _ _ _ Hx) as (_ & _ & Ex).
    apply made_stored. unfold t. rewrite Hb, after_app. cbn [after fold_left].
    change (made sup a r (after sup a r (apply_op sup a r (after sup a r t0 pre) (Ask sig (Some req'))) post sig)).
    apply after_good; [exact S|]. cbn [apply_op]. rewrite Hx. cbn [snd]. rewrite Ex. unfold set_entry. rewrite Z.eqb_refl.
    apply stored_made. exact S.
Qed.
Print Assumptions C40_restore.
Theorem C40_ex : after_exec (fun _ => SA 0 0 0 0) /\
  let t := after (-1) Arm (Rst 0x5000 0x6000) (fun _ => SA 0 0 0 0) [Ask 11 (Some (SA 0x400 4 0 2)); Delivered 11; Ask 3 None] in
  t 11 = SA 0x400 (4 + 2 ^ 26) 0x5000 2 /\ fst (sigaction (k_sigaction (-1)) Arm (Rst 0x5000 0x6000) t 11 (Some (SA 1 0 0 0))) = inl (t 11).
Proof. split; [intros s; exists 0; auto|]. split; reflexivity. Qed.

(** A restorer not set by origin is replaced (no libc-style pass-through). *)
Theorem C40_foreign_restorer_refuted : exists t,
  let '(res, t1) := sigaction (k_sigaction (-1)) X86_64 (Rst 0x5000 0x5000) t 10 (Some (SA 1 0 0 0)) in
  exists old, res = inl old /\ old = t 10 /\
    sa_restorer (snd (sigaction (k_sigaction (-1)) X86_64 (Rst 0x5000 0x5000) t1 10 (Some old)) 10) <> sa_restorer (t 10).
Proof. exists (fun _ => SA 0x400 (2 ^ 26) 0x7000 0). cbn. eexists. repeat split. discriminate. Qed.

(** * C53 libc mode *)
(** The pointer given to libc for `Some(action)` refers to a local whose scope
    has ended: with a stack layout the language allows, what libc installs may
    be anything, whatever was asked for. *)
Theorem C53_refuted : exists slot, slots_ok slot /\ forall m asked installed u0,
  m (slot LArg) = asked -> exists u, frame_run slot libc_some m None (u0 :: u) = Some (Some installed).
Proof.
  exists (fun x => match x with LArg => 0%nat | _ => 1%nat end). split; [split; discriminate|].
  intros m asked installed u0 H. exists [u0; installed]. cbn. reflexivity.
Qed.
(** Queries are right, and so would be borrowing the parameter. *)
Theorem C53_query slot m u x : frame_run slot libc_none m None (x :: u) = Some None.
Proof. reflexivity. Qed.
Theorem C53_fixed slot m u x : slots_ok slot -> frame_run slot libc_some_fixed m None (x :: u) = Some (Some (m (slot LArg))).
Proof.
  intros [H1 H2]. cbn [frame_run libc_some_fixed option_map]. do 2 f_equal. unfold put.
  destruct (Nat.eqb_spec (slot LArg) (slot LOld)); [congruence|reflexivity].
Qed.
Theorem C53_dead_binding_contrast slot : slots_ok slot ->
  (exists m u, frame_run slot libc_some m None u <> Some (Some (m (slot LArg))) /\ length u = 3%nat).
Proof.
  intros _. exists (fun _ => SA 0 0 0 0), [SA 1 0 0 0; SA 1 0 0 0; SA 1 0 0 0]. split; [|reflexivity].
  cbn [frame_run libc_some option_map]. unfold put. rewrite !Nat.eqb_refl. destruct (Nat.eqb (slot LArm) (slot LOld)); discriminate.
Qed.
Print Assumptions C53_fixed.
