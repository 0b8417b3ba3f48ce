(** The invariants of DtorsInv.v hold with panics. *)
From Coq Require Import ZArith List Bool Lia Arith Permutation.
From Verif Require Import LayoutModel DtorsModel DtorsSpec DtorsFacts DtorsInv DtorsPres DtorsTop PanicModel PanicSpec.
Import ListNotations.

Lemma plainly_app a b : plainly (a ++ b) = plainly a ++ plainly b.
Proof. apply flat_map_app. Qed.
Lemma plainly_in t e tr : In (t, PEv e) tr -> In (t, e) (plainly tr).
Proof. intros H. apply in_flat_map. exists (t, PEv e). split; [exact H|left; reflexivity]. Qed.
Lemma plainly_out t e tr : In (t, e) (plainly tr) -> (forall w, e <> Ret w) -> In (t, PEv e) tr.
Proof. intros H N. apply in_flat_map in H. destruct H as ([u x] & H & K). destruct x; cbn in K; [|destruct K as [K|[]]; inversion K; subst; exfalso; eapply N; reflexivity|contradiction]. destruct K as [K|[]]. inversion K; subst. exact H. Qed.
Lemma plainly_ret t w tr : In (t, Ret w) (plainly tr) -> ended t w tr.
Proof. intros H. apply in_flat_map in H. destruct H as ([u x] & H & K). destruct x; cbn in K; try contradiction; destruct K as [K|[]]; inversion K; subst; [left|right]; exact H. Qed.

(** Which frame is below which. *)
Definition adj (x y : frame) : Prop :=
  match x with
  | FUser (WT _) => y = FDtors \/ exists st, y = FX st XT
  | FUser (WP _) => exists st, y = FX st XLock
  | FUser (WF k) => exists st, y = FX st (XFini k)
  | FUser WMain | FUser WThread | FDtors => False
  | _ => exists w, y = FUser w
  end.
Fixpoint paired (l : list frame) : Prop :=
  match l with x :: r => match r with y :: _ => adj x y | [] => True end /\ paired r | [] => True end.

Lemma fstep_paired c l e l' : fstep c l e l' -> paired l -> paired l'.
Proof.
  intros F P. destruct F; cbn [paired] in *; try tauto; try (split; [cbn; eauto|]; tauto); try (destruct fs; cbn in *; tauto); try (destruct P as [P1 P2]; split; [|exact P2]; destruct fs; [exact Logic.I|]; cbn in *; tauto).
  all: try (split; [cbn; eauto|]; destruct P as [P1 P2]; split; [|exact P2]; destruct fs; cbn in *; auto).
Qed.

Section Panic.
Variable c : dcfg.

(** program::exit disappears from under a function that panicked. *)
Lemma drop_inv tr s t st p w fs : inv c tr s -> frames s t = FX st p :: FUser w :: fs -> p = XT \/ p = XLock ->
  inv c tr (set_frames s t (FUser w :: fs)).
Proof.
  intros I F P.
  assert (K : forall u, u <> t -> frames (set_frames s t (FUser w :: fs)) u = frames s u) by (intros u Nu; cbn; now apply dupd_ne).
  assert (K0 : frames (set_frames s t (FUser w :: fs)) t = FUser w :: fs) by (cbn; now apply dupd_eq).
  split.
  - intros u Hu. cbn in Hu. destruct (Nat.eq_dec u t) as [->|Nu]; [destruct (i_new _ _ _ I t Hu) as [X _]; congruence|]. rewrite (K u Nu). apply (i_new _ _ _ I u Hu).
  - intros u. destruct (Nat.eq_dec u t) as [->|Nu]; [|rewrite (K u Nu); apply (i_stack _ _ _ I)]. rewrite K0.
    destruct (i_stack _ _ _ I t) as [L B]. rewrite F in L, B. cbn in L, B. split; [cbn; now inversion L|]. cbn. tauto.
  - intros u Hu. destruct (Nat.eq_dec u t) as [->|Nu]; [rewrite (i_done _ _ _ I t Hu) in F; discriminate|]. rewrite (K u Nu). now apply (i_done _ _ _ I).
  - exact (i_term _ _ _ I).
  - exact (i_alloc _ _ _ I).
  - exact (i_permt _ _ _ I).
  - exact (i_wt _ _ _ I).
  - intros u f. destruct (Nat.eq_dec u t) as [->|Nu]; [rewrite K0; intros []|]. rewrite (K u Nu). apply (i_push _ _ _ I).
  - exact (i_regp _ _ _ I).
  - exact (i_nodupp _ _ _ I).
  - exact (i_permp _ _ _ I).
  - exact (i_wp _ _ _ I).
  - intros u. rewrite (i_take _ _ _ I u). f_equal. destruct (Nat.eq_dec u t) as [->|Nu]; [rewrite K0, F; destruct P; subst; reflexivity|now rewrite (K u Nu)].
  - exact (i_lk _ _ _ I).
  - exact (i_nolk _ _ _ I).
  - intros Hc u. rewrite <- (i_hold _ _ _ I Hc u) || (pose proof (i_hold _ _ _ I Hc u) as X; destruct (Nat.eq_dec u t) as [->|Nu]; [rewrite K0; rewrite F in X|rewrite (K u Nu); exact X]);
      try (cbn [lk set_frames]; rewrite X; destruct P; subst; reflexivity).
  - intros Hc u. pose proof (i_pae _ _ _ I Hc u) as X. destruct (Nat.eq_dec u t) as [->|Nu]; [|now rewrite (K u Nu)]. rewrite K0. rewrite F in X. cbn in X |- *. apply orb_false_iff in X. tauto.
  - intros Hc Hp u. pose proof (i_excl _ _ _ I Hc Hp u) as X. destruct (Nat.eq_dec u t) as [->|Nu]; [|now rewrite (K u Nu)]. rewrite K0. cbn. discriminate.
  - intros u f Hf. destruct (i_retT _ _ _ I u f Hf) as [X|X]; [auto|right]. destruct (Nat.eq_dec u t) as [->|Nu]; [|now rewrite (K u Nu)]. rewrite K0. rewrite F in X. destruct X as [X|X]; [discriminate|exact X].
  - intros u f Hf. destruct (i_retP _ _ _ I u f Hf) as [X|X]; [auto|right]. destruct (Nat.eq_dec u t) as [->|Nu]; [|now rewrite (K u Nu)]. rewrite K0. rewrite F in X. destruct X as [X|X]; [discriminate|exact X].
  - intros u f Hf. destruct (i_retF _ _ _ I u f Hf) as [X|X]; [auto|right]. destruct (Nat.eq_dec u t) as [->|Nu]; [|now rewrite (K u Nu)]. rewrite K0. rewrite F in X. destruct X as [X|X]; [discriminate|exact X].
  - exact (i_tae _ _ _ I).
Qed.
Lemma abort_inv tr s o : inv c tr s -> term s = None -> inv c tr (finish s o).
Proof.
  intros I T. split; cbn; try apply I. intros t o' Ho. pose proof (i_term _ _ _ I t o' Ho). congruence.
Qed.

(** A panic that is not an abort: as a return, and program::exit is gone. *)
Lemma unwound s t w fs fs' : term s = None -> frames s t = FUser w :: fs -> paired (frames s t) -> unwind w fs = Some fs' ->
  exists st p w' fs0, fs = FX st p :: fs' /\ fs' = FUser w' :: fs0 /\ (p = XT \/ p = XLock) /\ (w <> WMain /\ w <> WThread) /\
    dstep c s t (ARet 0) = Some (Ret w, set_frames s t fs).
Proof.
  intros T F P U. rewrite F in P. destruct w as [| |f|f|k]; cbn in U; try discriminate;
    destruct fs as [|[w1|f1|f1| | |st p|st|] [|[w'|f2|f2| | |st2 p2|st2|] fs0]]; try discriminate; injection U as <-; cbn in P;
    exists st, p, w', fs0; (split; [reflexivity|]); (split; [reflexivity|]); (split; [|split; [split; discriminate|unfold dstep; rewrite T, F; reflexivity]]).
  - destruct P as [[P|[st' P]] _]; [discriminate|]. inversion P; auto.
  - destruct P as [[st' P] _]. inversion P; auto.
Qed.
Lemma set_frames_twice s t a b x : frames (set_frames (set_frames s t a) t b) x = frames (set_frames s t b) x.
Proof. cbn. unfold dupd. destruct (Nat.eqb x t); reflexivity. Qed.

(** inv does not look at the frames beyond their values. *)
Lemma inv_ext tr s s' : (forall u, frames s' u = frames s u) -> tdt s' = tdt s -> pdt s' = pdt s -> lk s' = lk s -> nextf s' = nextf s -> nthr s' = nthr s -> term s' = term s ->
  inv c tr s -> inv c tr s'.
Proof.
  intros F A1 A2 A3 A4 A5 A6 I. split; intros; rewrite ?F, ?A1, ?A2, ?A3, ?A4, ?A5, ?A6 in *; try (apply I; assumption); try apply (i_lk _ _ _ I H).
  all: solve [now apply (i_done _ _ _ I)|eapply (i_term _ _ _ I); eauto|now apply (i_regp _ _ _ I)|now apply (i_tae _ _ _ I)].
Qed.

Lemma pstep_cases s t a e s' : pstep c s t a = Some (e, s') -> paired (frames s t) ->
  term s = None /\
  ((exists a' ev, e = PEv ev /\ dstep c s t a' = Some (ev, s')) \/
   (exists w st p w' fs, e = Unwound w /\ w <> WMain /\ w <> WThread /\ frames s t = FUser w :: FX st p :: FUser w' :: fs /\ (p = XT \/ p = XLock) /\
      s' = set_frames s t (FUser w' :: fs)) \/
   (e = Aborted /\ s' = finish s (Killed 6) /\ exists w fs, frames s t = FUser w :: fs /\ unwind w fs = None)).
Proof.
  destruct a as [a|]; cbn.
  - destruct (dstep c s t a) as [[ev s1]|] eqn:D; [|discriminate]. intros H _. inversion H; subst. split; [apply dstep_inv in D; tauto|]. left. eauto.
  - destruct (term s) eqn:T; [discriminate|]. destruct (frames s t) as [|[w|f|f| | |st p|st|] fs] eqn:F; try discriminate. intros H P. split; [reflexivity|]. right.
    destruct (unwind w fs) as [fs'|] eqn:U; inversion H; subst.
    + left. rewrite <- F in P. destruct (unwound _ _ _ _ _ T F P U) as (st & p & w' & fs0 & -> & -> & Hp & [N1 N2] & _). exists w, st, p, w', fs0. auto 8.
    + right. eauto 6.
Qed.

Lemma pexec_inv : forall tr s, pexec c tr s -> inv c (plainly tr) s /\ forall t, paired (frames s t).
Proof.
  induction 1 as [|tr s t a e s' H [I P] St].
  - split; [apply (exec_inv c [] dinit); constructor|]. intros t. cbn. unfold dupd. destruct (Nat.eqb t 0); cbn; auto.
  - rewrite plainly_app. destruct (pstep_cases _ _ _ _ _ St (P t)) as [T [(a' & ev & -> & D)|[(w & st & p & w' & fs & -> & N1 & N2 & F & Hp & ->)|(-> & -> & _)]]].
    + cbn [plainly flat_map snd fst app]. pose proof D as D0. apply dstep_effect in D. split; [exact (inv_step _ _ _ _ _ _ I D)|].
      intros u. destruct (Nat.eq_dec u t) as [->|Nu]; [eapply fstep_paired; [exact (fs _ _ _ _ _ _ I D)|apply P]|].
      destruct (fr_other _ _ _ _ _ _ I D u Nu) as [->|(_ & _ & -> & _)]; [apply P|cbn; auto].
    + cbn [plainly flat_map snd fst app].
      assert (D : dstep c s t (ARet 0) = Some (Ret w, set_frames s t (FX st p :: FUser w' :: fs))) by (unfold dstep; rewrite T, F; destruct w; try congruence; reflexivity).
      apply dstep_effect in D. pose proof (inv_step _ _ _ _ _ _ I D) as I1. split.
      * apply (inv_ext _ (set_frames (set_frames s t (FX st p :: FUser w' :: fs)) t (FUser w' :: fs))); try reflexivity; [intros u; symmetry; apply set_frames_twice|].
        eapply drop_inv; [exact I1| |exact Hp]. cbn. apply dupd_eq.
      * intros u. cbn. unfold dupd. destruct (Nat.eqb_spec u t) as [->|]; [|apply P]. pose proof (P t) as X. rewrite F in X. cbn in X |- *. tauto.
    + cbn [plainly flat_map snd fst app]. rewrite app_nil_r. split; [now apply abort_inv|exact P].
Qed.
End Panic.
