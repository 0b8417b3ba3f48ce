(** Preservation of the invariant. *)
From Coq Require Import ZArith List Bool Lia Arith Permutation.
From Verif Require Import LayoutModel DtorsModel DtorsSpec DtorsFacts DtorsInv.
Import ListNotations.

Lemma in_snoc {A} (x y : A) l : In x (l ++ [y]) <-> In x l \/ x = y.
Proof. rewrite in_app_iff. simpl. intuition. Qed.

Section Step.
Context (c : dcfg) (tr : trace) (s : dst) (t : nat) (e : event) (s' : dst).
Hypothesis I : inv c tr s.
Hypothesis E : effect c s t e s'.

Lemma t_old : (t < nthr s)%nat.
Proof.
  destruct (le_lt_dec (nthr s) t) as [H|H]; [|exact H].
  exfalso. apply (e_live _ _ _ _ _ E). apply (i_new _ _ _ I t H).
Qed.
Lemma fs : fstep c (frames s t) e (frames s' t).
Proof. apply (e_own _ _ _ _ _ E). pose proof t_old. lia. Qed.

Lemma fr_other u : u <> t -> (frames s' u = frames s u) \/ (e = Spawn (nthr s) /\ u = nthr s /\ frames s' u = [FUser WThread] /\ frames s u = []).
Proof.
  intros Hu. pose proof (e_other _ _ _ _ _ E u Hu) as H.
  pose proof (e_guard _ _ _ _ _ E) as G.
  destruct e as [ | | | | | | | | | | | | | | |v| | | ]; auto.
  destruct G as [-> _]. destruct (Nat.eqb_spec u (nthr s)) as [->|]; auto.
  right. repeat split; auto. apply (i_new _ _ _ I). lia.
Qed.

Lemma own_snoc u : own u (tr ++ [(t, e)]) = own u tr ++ (if Nat.eqb t u then [e] else []).
Proof. rewrite own_app, own_one. reflexivity. Qed.

Lemma p_new : forall u, (nthr s' <= u)%nat -> frames s' u = [] /\ tdt s' u = [] /\ own u (tr ++ [(t, e)]) = [].
Proof.
  intros u Hu. pose proof t_old as Ht.
  assert (Hu' : (nthr s <= u)%nat) by (rewrite (e_nthr _ _ _ _ _ E) in Hu; destruct e; lia).
  assert (Hne : u <> t) by lia.
  destruct (i_new _ _ _ I u Hu') as [N1 [N2 N3]].
  split; [|split].
  - destruct (fr_other u Hne) as [->|[He [Hv _]]]; auto.
    exfalso. rewrite (e_nthr _ _ _ _ _ E), He in Hu. lia.
  - rewrite (e_tdt _ _ _ _ _ E). destruct e; auto; destruct (Nat.eqb_spec u t); try congruence.
    all: destruct (Nat.eqb_spec u u0); auto.
  - rewrite own_snoc, N3. destruct (Nat.eqb_spec t u); [congruence|reflexivity].
Qed.

Lemma stack_fs l e' l' : fstep c l e' l' -> stack_ok l -> stack_ok l'.
Proof.
  intros F [L B]. unfold stack_ok, first_phase, after_t in *.
  destruct F; simpl in *; try (destruct B as [B1 B2]); repeat split;
    try (destruct (c_tae c), (c_pae c); simpl);
    repeat match goal with
    | H : Forall _ (_ :: _) |- _ => inversion H; clear H; subst
    end; auto.
  all: try (destruct B1 as [B1|B1]; [auto|simpl in B1; discriminate]).
  all: try (destruct fs0; simpl in *; inversion L; assumption).
  all: try (constructor; [exact Logic.I|assumption]).
Qed.

Lemma p_stack : forall u, stack_ok (frames s' u).
Proof.
  intros u. destruct (Nat.eq_dec u t) as [->|Hne].
  - eapply stack_fs; [apply fs|apply (i_stack _ _ _ I)].
  - destruct (fr_other u Hne) as [->|[_ [_ [-> _]]]]; [apply (i_stack _ _ _ I)|].
    repeat split; simpl; auto.
Qed.

Lemma p_done : forall u, In (u, ThreadDone) (tr ++ [(t, e)]) -> frames s' u = [].
Proof.
  pose proof fs as F.
  intros u Hu. apply in_snoc in Hu. destruct Hu as [Hu|Hu].
  - pose proof (i_done _ _ _ I u Hu) as H.
    destruct (Nat.eq_dec u t) as [->|Hne]; [exfalso; apply (e_live _ _ _ _ _ E H)|].
    destruct (fr_other u Hne) as [->|[He [Hv _]]]; auto.
    exfalso. subst u. destruct (i_new _ _ _ I (nthr s)) as [_ [_ O]]; [lia|].
    apply own_in in Hu. rewrite O in Hu. destruct Hu.
  - inversion Hu; subst.  inversion F; subst; auto.
Qed.

Lemma p_term : forall u o, In (u, Term o) (tr ++ [(t, e)]) -> term s' = Some o.
Proof.
  intros u o Hu. apply in_snoc in Hu. destruct Hu as [Hu|Hu].
  - pose proof (i_term _ _ _ I u o Hu) as H. rewrite (e_alive _ _ _ _ _ E) in H. discriminate.
  - inversion Hu; subst. rewrite (e_term _ _ _ _ _ E). reflexivity.
Qed.

Lemma p_alloc : pick g_alloc (tr ++ [(t, e)]) = seq 0 (nextf s').
Proof.
  rewrite pick_snoc, (i_alloc _ _ _ I), (e_nextf _ _ _ _ _ E).
  pose proof (e_guard _ _ _ _ _ E) as G.
  destruct e; simpl; rewrite ?app_nil_r; auto; destruct G as [-> _]; rewrite <- seq_S; reflexivity.
Qed.

Lemma p_permt : forall u, Permutation (opick g_regt u (tr ++ [(t, e)])) (opick g_callt u (tr ++ [(t, e)]) ++ tdt s' u).
Proof.
  pose proof t_old as TO.
  intros u. rewrite !opick_snoc, (e_tdt _ _ _ _ _ E). pose proof (e_guard _ _ _ _ _ E) as G.
  pose proof (i_permt _ _ _ I u) as P.
  destruct (Nat.eqb_spec t u) as [<-|Hne].
  - destruct e as [ |f| | | | | | |f| | | | | | |v| | | ]; simpl; rewrite ?app_nil_r, ?Nat.eqb_refl; auto.
    + eapply Permutation_trans; [apply Permutation_app_comm|]. simpl.
      eapply Permutation_trans; [apply perm_skip, P|]. apply Permutation_middle.
    + destruct G as [l Hl]. rewrite Hl in *. simpl.
      eapply Permutation_trans; [exact P|]. rewrite <- app_assoc. reflexivity.
    + destruct (Nat.eqb_spec t v); auto. exfalso. destruct G as [G _]. lia.
  - destruct e as [ |f| | | | | | |f| | | | | | |v| | | ]; simpl; auto; destruct (Nat.eqb_spec u t); try congruence.
    all: destruct (Nat.eqb_spec u v); auto; subst v; destruct G as [G _]; subst u;
      destruct (i_new _ _ _ I (nthr s)) as [_ [N _]]; [lia|]; rewrite N in P; exact P.
Qed.

Lemma nodup_t u : NoDup (opick g_callt u tr ++ tdt s u).
Proof.
  eapply Permutation_NoDup; [apply (i_permt _ _ _ I)|].
  assert (H : NoDup (opick g_alloc u tr)) by (apply pick_nodup_own; rewrite (i_alloc _ _ _ I); apply seq_NoDup).
  revert H. unfold opick. generalize (own u tr). induction l as [|x l IH]; simpl; intros H; [constructor|].
  apply NoDup_app_inv in H. destruct H as [_ [H2 H3]].
  destruct x; simpl in *; auto. constructor; auto.
  intros Hin. apply (H3 f); [auto|]. rewrite in_flat_map in *. destruct Hin as [y [Hy1 Hy2]].
  exists y. split; auto. destruct y; simpl in *; auto; contradiction.
Qed.

Lemma p_wt : forall u, tdt s' u = waiting u (tr ++ [(t, e)]).
Proof.
  intros u. rewrite waiting_snoc, (e_tdt _ _ _ _ _ E), <- (i_wt _ _ _ I u). pose proof (e_guard _ _ _ _ _ E) as G.
  destruct e as [ |f| | | | | | |f| | | | | | |v| | | ]; simpl;
    rewrite ?(Nat.eqb_sym u t); try (destruct (Nat.eqb t u); reflexivity).
  - destruct (Nat.eqb_spec t u) as [<-|]; auto.
    destruct G as [l Hl]. pose proof (nodup_t t) as D. rewrite Hl in *.
    apply NoDup_app_inv in D. destruct D as [_ [D _]]. inversion D; subst.
    symmetry. cbn [tl]. apply remove_head. assumption.
  - destruct G as [-> _]. destruct (Nat.eqb_spec u (nthr s)) as [->|].
    + destruct (i_new _ _ _ I (nthr s)) as [_ [N _]]; [lia|]. rewrite N. destruct (Nat.eqb t (nthr s)); reflexivity.
    + destruct (Nat.eqb t u); reflexivity.
Qed.

Lemma begin_alloc u f : In (u, BeginP f) tr -> In f (pick g_alloc tr).
Proof. intros H. apply pick_in. exists u, (BeginP f). split; [assumption|simpl; auto]. Qed.

Lemma p_push : forall u f, In f (pushing (frames s' u)) -> In (u, BeginP f) (tr ++ [(t, e)]) /\ ~ In f (pick g_regp (tr ++ [(t, e)])).
Proof.
  pose proof fs as F.
  intros u f Hf. rewrite pick_snoc, in_snoc.
  destruct (Nat.eq_dec u t) as [->|Hne].
  - assert (FR := e_guard _ _ _ _ _ E). pose proof (i_push _ _ _ I t) as P.
    assert (LO := i_stack _ _ _ I t). destruct LO as [LO _].
     remember (frames s t) as l1. remember (frames s' t) as l2. destruct F; simpl in *; try contradiction;
      try (destruct (P f) as [P1 P2]; [assumption|]; split; [auto|rewrite app_nil_r; assumption]).
    + destruct Hf as [<-|[]]. split; [auto|]. rewrite app_nil_r. destruct FR as [-> _].
      intros Hin. apply pick_in in Hin. destruct Hin as [v [e' [H1 H2]]].
      destruct e'; simpl in H2; try contradiction. destruct H2 as [->|[]].
      apply (i_regp _ _ _ I) in H1. apply begin_alloc in H1. rewrite (i_alloc _ _ _ I) in H1. apply in_seq in H1. lia.
    + exfalso. destruct fs0 as [|x fs0]; simpl in Hf; [contradiction|]. inversion LO as [|? ? L1 L2]; subst.
      destruct x; simpl in L1, Hf; auto.
    + exfalso. destruct fs0 as [|x fs0]; simpl in Hf; [contradiction|]. inversion LO as [|? ? L1 L2]; subst.
      destruct x; simpl in L1, Hf; auto.
  - destruct (fr_other u Hne) as [Hfr|[_ [_ [Hfr _]]]]; rewrite Hfr in Hf; [|destruct Hf].
    destruct (i_push _ _ _ I u f Hf) as [P1 P2]. split; [auto|].
    rewrite in_app_iff. intros [H|H]; [auto|].
    destruct e; simpl in H; try contradiction. destruct H as [->|[]].
    (* the pushing thread is t, with the same function: impossible *)
     inversion F as [ | | | | | | | | | | |f0 fs0 Hf1 Hf2| | | | | | | | | | | | | | ]; subst.
    destruct (i_push _ _ _ I t f) as [Q1 _]; [rewrite <- Hf1; simpl; auto|].
    apply Hne. apply (pick_nodup_thread g_alloc tr f); [rewrite (i_alloc _ _ _ I); apply seq_NoDup| |];
      apply opick_in; exists (BeginP f); simpl; auto.
Qed.

Lemma p_regp : forall u f, In (u, RegP f) (tr ++ [(t, e)]) -> In (u, BeginP f) (tr ++ [(t, e)]).
Proof.
  pose proof fs as F.
  intros u f. rewrite !in_snoc. intros [H|H].
  - left. apply (i_regp _ _ _ I). assumption.
  - inversion H; subst. left.  inversion F as [ | | | | | | | | | | |f0 fs0 Hf1 Hf2| | | | | | | | | | | | | | ]; subst.
    apply (i_push _ _ _ I). rewrite <- Hf1. simpl. auto.
Qed.

Lemma p_nodupp : NoDup (pick g_regp (tr ++ [(t, e)])).
Proof.
  pose proof fs as F.
  rewrite pick_snoc. destruct e; simpl; rewrite ?app_nil_r; try apply (i_nodupp _ _ _ I).
  apply NoDup_app_intro; [apply (i_nodupp _ _ _ I)|repeat constructor; auto|].
  intros x Hx [->|[]].  inversion F as [ | | | | | | | | | | |f0 fs0 Hf1 Hf2| | | | | | | | | | | | | | ]; subst.
  destruct (i_push _ _ _ I t x) as [_ Q]; [rewrite <- Hf1; simpl; auto|]. auto.
Qed.

Lemma p_permp : Permutation (pick g_regp (tr ++ [(t, e)])) (pick g_take (tr ++ [(t, e)]) ++ pdt s').
Proof.
  rewrite !pick_snoc, (e_pdt _ _ _ _ _ E). pose proof (e_guard _ _ _ _ _ E) as G. pose proof (i_permp _ _ _ I) as P.
  destruct e; simpl; rewrite ?app_nil_r; auto.
  - eapply Permutation_trans; [apply Permutation_app_comm|]. simpl.
    eapply Permutation_trans; [apply perm_skip, P|]. apply Permutation_middle.
  - destruct G as [l Hl]. rewrite Hl in *. rewrite <- app_assoc. exact P.
Qed.

Lemma nodup_p : NoDup (pick g_take tr ++ pdt s).
Proof. eapply Permutation_NoDup; [apply (i_permp _ _ _ I)|apply (i_nodupp _ _ _ I)]. Qed.

Lemma p_wp : pdt s' = listed (tr ++ [(t, e)]).
Proof.
  rewrite listed_snoc, (e_pdt _ _ _ _ _ E), <- (i_wp _ _ _ I). pose proof (e_guard _ _ _ _ _ E) as G.
  destruct e; simpl; auto. destruct G as [l Hl]. rewrite Hl. cbn [tl].
  symmetry. apply remove_head. pose proof nodup_p as D. rewrite Hl in D.
  apply NoDup_app_inv in D. destruct D as [_ [D _]]. inversion D; assumption.
Qed.

Lemma p_take : forall u, opick g_take u (tr ++ [(t, e)]) = opick g_callp u (tr ++ [(t, e)]) ++ inflight (frames s' u).
Proof.
  pose proof fs as F.
  intros u. rewrite !opick_snoc. pose proof (i_take _ _ _ I u) as P.
  destruct (Nat.eqb_spec t u) as [<-|Hne].
  - pose proof (i_stack _ _ _ I t) as [LO _].  rewrite P. clear P.
    remember (frames s t) as l1. remember (frames s' t) as l2.
    destruct F; simpl in *; rewrite ?app_nil_r, <- ?app_assoc; auto.
    + destruct (first_phase c) eqn:Hp; simpl; rewrite ?app_nil_r; auto; unfold first_phase, after_t in Hp;
        destruct (c_tae c), (c_pae c); discriminate.
    + destruct (first_phase c) eqn:Hp; simpl; rewrite ?app_nil_r; auto; unfold first_phase, after_t in Hp;
        destruct (c_tae c), (c_pae c); discriminate.
    + destruct fs0 as [|x fs0]; simpl; rewrite ?app_nil_r; auto. inversion LO as [|? ? L1 L2]; subst.
      destruct x as [ | | | | |? p | | ]; simpl in L1; rewrite ?app_nil_r; auto; destruct p; simpl in L1; rewrite ?app_nil_r; auto; contradiction.
    + destruct fs0 as [|x fs0]; simpl; rewrite ?app_nil_r; auto. inversion LO as [|? ? L1 L2]; subst.
      destruct x as [ | | | | |? p | | ]; simpl in L1; rewrite ?app_nil_r; auto; destruct p; simpl in L1; rewrite ?app_nil_r; auto; contradiction.
    + destruct (after_t c) eqn:Hp; simpl; rewrite ?app_nil_r; auto; unfold after_t in Hp;
        destruct (c_pae c); discriminate.
  - destruct (fr_other u (not_eq_sym Hne)) as [->|[_ [_ [-> N]]]]; auto. rewrite N in P. exact P.
Qed.

Lemma p_lk : c_thread c = true -> lk s' = holder (tr ++ [(t, e)]).
Proof.
  intros Hc. rewrite holder_snoc, (e_lk _ _ _ _ _ E), Hc, <- (i_lk _ _ _ I Hc). destruct e; reflexivity.
Qed.
Lemma p_nolk : c_thread c = false -> lk s' = None.
Proof. intros Hc. rewrite (e_lk _ _ _ _ _ E), Hc. apply (i_nolk _ _ _ I Hc). Qed.

Lemma p_pae : c_pae c = false -> forall u, existsb paeframe (frames s' u) = false.
Proof.
  pose proof fs as F.
  intros Hc u. destruct (Nat.eq_dec u t) as [->|Hne].
  - pose proof (i_pae _ _ _ I Hc t) as P.  pose proof (e_guard _ _ _ _ _ E) as G.
    remember (frames s t) as l1. remember (frames s' t) as l2.
    destruct F; simpl in *; unfold first_phase, after_t; rewrite ?Hc; try assumption; try discriminate; auto.
    + destruct G; congruence.
    + destruct (c_tae c); assumption.
    + destruct (c_tae c); assumption.
  - destruct (fr_other u Hne) as [->|[_ [_ [-> N]]]]; [apply (i_pae _ _ _ I Hc)|reflexivity].
Qed.

Lemma p_excl : c_thread c = true -> c_pae c = true -> forall u, excl (frames s' u).
Proof.
  pose proof fs as F.
  intros Hc Hp u. destruct (Nat.eq_dec u t) as [->|Hne].
  - pose proof (i_excl _ _ _ I Hc Hp t) as P.  pose proof (e_guard _ _ _ _ _ E) as G.
    pose proof (i_hold _ _ _ I Hc t) as HH. pose proof (i_stack _ _ _ I t) as [LO _]. unfold holds in HH.
    remember (frames s t) as l1. remember (frames s' t) as l2.
    destruct F; simpl in *; unfold first_phase, after_t; rewrite ?Hp in *; simpl in *; auto.
    all: try (intros; destruct (c_tae c); discriminate).
    all: try (intros; discriminate).
    + destruct fs0 as [|x fs0]; simpl; auto. inversion LO as [|? ? L1 L2]; subst. destruct x as [ | | | | |? p | | ]; simpl in *; try contradiction; try discriminate.
      destruct p; simpl in *; try contradiction; discriminate.
    + intros _. destruct (existsb isfini fs0); [|reflexivity]. destruct HH as [_ HH]. rewrite (G Hc) in HH. specialize (HH eq_refl). discriminate.
    + destruct fs0 as [|x fs0]; simpl; auto. inversion LO as [|? ? L1 L2]; subst. destruct x as [ | | | | |? p | | ]; simpl in *; try contradiction; try discriminate.
      destruct p; simpl in *; try contradiction; discriminate.
    + intros _. destruct (existsb isfini fs0); [|reflexivity]. destruct HH as [_ HH]. rewrite (G Hc) in HH. specialize (HH eq_refl). discriminate.
  - destruct (fr_other u Hne) as [->|[_ [_ [-> N]]]]; [apply (i_excl _ _ _ I Hc Hp)|simpl; discriminate].
Qed.

(** How the own thread's "holds the lock" changes. *)
Lemma holds_own : c_thread c = true ->
  match e with
  | Lock => holds c (frames s' t) = true
  | Unlock | EndP => holds c (frames s t) = true /\ holds c (frames s' t) = false
  | _ => holds c (frames s' t) = holds c (frames s t)
  end.
Proof.
  pose proof fs as F.
  intros Hc.  pose proof (i_stack _ _ _ I t) as [LO B].
  assert (X : c_pae c = true -> excl (frames s t)) by (intros Hp; apply (i_excl _ _ _ I Hc Hp)).
  assert (Y : c_pae c = false -> existsb paeframe (frames s t) = false) by (intros Hp; apply (i_pae _ _ _ I Hp)).
  unfold holds. 
  remember (frames s t) as l1. remember (frames s' t) as l2.
  destruct F; simpl in *; unfold first_phase, after_t; try reflexivity; try (destruct (c_tae c), (c_pae c); reflexivity);
    try (destruct (c_pae c); reflexivity).
  - destruct fs0 as [|x fs0]; simpl in *; [reflexivity|]. inversion LO as [|? ? L1 L2]; subst.
    replace (holds_top x) with false; [reflexivity|]. destruct x as [ | | | | |? p | | ]; simpl in *; try contradiction; auto.
    destruct p; simpl in *; try contradiction; auto.
  - split; [reflexivity|]. destruct (c_pae c); [|specialize (Y eq_refl); discriminate]. simpl.
    rewrite (X eq_refl eq_refl), orb_false_r.
    destruct fs0 as [|x fs0]; simpl in *; [reflexivity|]. inversion LO as [|? ? L1 L2]; subst.
    destruct x as [ | | | | |? p | | ]; simpl in *; try contradiction; auto.
    destruct p; simpl in *; try contradiction; auto.
  - destruct B as [[->|B] _]; [|discriminate]. simpl. destruct (c_pae c); reflexivity.
  - destruct (c_pae c); [reflexivity|specialize (Y eq_refl); discriminate].
  - split; [reflexivity|]. destruct (c_pae c); [|reflexivity]. simpl. apply X; reflexivity.
Qed.

Lemma p_hold : c_thread c = true -> forall u, lk s' = Some u <-> holds c (frames s' u) = true.
Proof.
  intros Hc u. pose proof (holds_own Hc) as HO. pose proof (e_guard _ _ _ _ _ E) as G.
  rewrite (e_lk _ _ _ _ _ E), Hc. pose proof (i_hold _ _ _ I Hc) as HH.
  destruct (Nat.eq_dec u t) as [->|Hne].
  - destruct e; rewrite ?HO; try apply HH; try tauto.
    + destruct HO as [_ ->]. split; discriminate.
    + destruct HO as [_ ->]. split; discriminate.
  - assert (HF : holds c (frames s' u) = holds c (frames s u)).
    { destruct (fr_other u Hne) as [->|[_ [_ [-> ->]]]]; [reflexivity|]. unfold holds. simpl. destruct (c_pae c); reflexivity. }
    rewrite HF. destruct e; try apply HH.
    + destruct HO as [HO _]. apply HH in HO. rewrite <- HH, HO. split; [discriminate|intros Q; inversion Q; congruence].
    + rewrite <- HH, (G Hc). split; [intros Q; inversion Q; congruence|discriminate].
    + destruct HO as [HO _]. apply HH in HO. rewrite <- HH, HO. split; [discriminate|intros Q; inversion Q; congruence].
Qed.

(** A user function that was called has returned or is on the stack. *)
Lemma ret_own w : w <> WMain -> w <> WThread -> In (FUser w) (frames s t) -> In (FUser w) (frames s' t) \/ e = Ret w.
Proof.
  pose proof fs as F.
  intros N1 N2 Hin.  pose proof (i_stack _ _ _ I t) as [_ B].
  remember (frames s t) as l1. remember (frames s' t) as l2.
  destruct F; simpl in *; auto; try tauto.
  all: destruct Hin as [Hin|Hin]; [inversion Hin; subst; solve [auto|congruence]|auto].
  destruct B as [[->|B] _]; [destruct Hin|discriminate B].
Qed.

Lemma ret_gen (mk : fid -> event) (w : fid -> who) :
  (forall f, w f <> WMain /\ w f <> WThread) ->
  (forall f l l', fstep c l (mk f) l' -> In (FUser (w f)) l') ->
  (forall u f, In (u, mk f) tr -> In (u, Ret (w f)) tr \/ In (FUser (w f)) (frames s u)) ->
  forall u f, In (u, mk f) (tr ++ [(t, e)]) -> In (u, Ret (w f)) (tr ++ [(t, e)]) \/ In (FUser (w f)) (frames s' u).
Proof.
  pose proof fs as F. intros HN HC HI u f. rewrite !in_snoc. intros [H|H].
  - destruct (HI u f H) as [R|R]; [auto|]. destruct (Nat.eq_dec u t) as [->|Hne].
    + destruct (ret_own (w f)) as [Q|Q]; try apply HN; auto. subst; auto.
    + right. destruct (fr_other u Hne) as [->|[_ [_ [_ N]]]]; auto. rewrite N in R. destruct R.
  - inversion H; subst. right. apply HC with (l := frames s t). exact F.
Qed.

Lemma p_tae : c_tae c = false -> forall u, tdt s' u = [].
Proof.
  intros Hc u. rewrite (e_tdt _ _ _ _ _ E). pose proof (i_tae _ _ _ I Hc u) as P. pose proof (e_guard _ _ _ _ _ E) as G.
  destruct e as [ |f| | | | | | |f| | | | | | |v| | | ]; auto.
  - destruct G; congruence.
  - destruct (Nat.eqb u t); rewrite ?P; auto.
  - destruct (Nat.eqb u v); auto.
Qed.

Lemma inv_step : inv c (tr ++ [(t, e)]) s'.
Proof.
  split.
  - exact p_new.
  - exact p_stack.
  - exact p_done.
  - exact p_term.
  - exact p_alloc.
  - exact p_permt.
  - exact p_wt.
  - exact p_push.
  - exact p_regp.
  - exact p_nodupp.
  - exact p_permp.
  - exact p_wp.
  - exact p_take.
  - exact p_lk.
  - exact p_nolk.
  - exact p_hold.
  - exact p_pae.
  - exact p_excl.
  - apply (ret_gen CallT WT); [intros; split; discriminate| |exact (i_retT _ _ _ I)].
    intros f l l' F; inversion F; simpl; auto.
  - apply (ret_gen CallP WP); [intros; split; discriminate| |exact (i_retP _ _ _ I)].
    intros f l l' F; inversion F; simpl; auto.
  - apply (ret_gen CallF WF); [intros; split; discriminate| |exact (i_retF _ _ _ I)].
    intros f l l' F; inversion F; simpl; auto.
  - exact p_tae.
Qed.
End Step.

Lemma inv_init c : inv c [] dinit.
Proof.
  split; simpl; intros; try contradiction; auto.
  - repeat split; auto. unfold dupd. destruct (Nat.eqb_spec t 0); [lia|reflexivity].
  - unfold dupd. destruct (Nat.eqb t 0); repeat split; simpl; auto.
  - unfold dupd in *. destruct (Nat.eqb t 0); simpl in *; contradiction.
  - constructor.
  - unfold dupd. destruct (Nat.eqb t 0); reflexivity.
  - split; [intros Q; inversion Q|]. unfold dupd. destruct (Nat.eqb t 0); unfold holds; simpl; destruct (c_pae c); intros Q; inversion Q.
  - unfold dupd. destruct (Nat.eqb t 0); reflexivity.
  - unfold dupd. destruct (Nat.eqb t 0); simpl; auto; discriminate.
Qed.

Lemma exec_inv c tr s : exec c tr s -> inv c tr s.
Proof.
  induction 1 as [|tr s t a e s' H IH D]; [apply inv_init|].
  eapply inv_step; [exact IH|]. eapply dstep_effect; eauto.
Qed.
