(** Exit functions that panic: order, once, locks, aborts. *)
From Coq Require Import ZArith List Bool Lia Arith Permutation.
From Verif Require Import LayoutModel DtorsModel DtorsSpec DtorsFacts DtorsInv DtorsPres DtorsTop PanicModel PanicSpec PanicInv.
Import ListNotations.

Lemma pexec_snoc c tr x s : pexec c (tr ++ [x]) s ->
  exists s0 a, pexec c tr s0 /\ pstep c s0 (fst x) a = Some (snd x, s).
Proof.
  intros H. inversion H as [H0|tr0 s0 t a e s' H1 H2 H3]; subst.
  - destruct tr; discriminate.
  - apply app_inj_tail in H3. destruct H3 as [-> <-]. exists s0, a. auto.
Qed.
Lemma pexec_prefix c a b s : pexec c (a ++ b) s -> exists s0, pexec c a s0.
Proof.
  revert s. induction b as [|x b IH] using rev_ind; intros s H.
  - rewrite app_nil_r in H. eauto.
  - rewrite app_assoc in H. apply pexec_snoc in H. destruct H as [s0 [k [H _]]]. eauto.
Qed.
(** An event of DtorsModel.v is a step of DtorsModel.v. *)
Lemma pexec_ev c tr t e s : pexec c (tr ++ [(t, PEv e)]) s ->
  exists s0 a, pexec c tr s0 /\ dstep c s0 t a = Some (e, s).
Proof.
  intros H. apply pexec_snoc in H. destruct H as (s0 & a & H & E). cbn [fst snd] in E. exists s0.
  destruct (pexec_inv _ _ _ H) as [_ P].
  destruct (pstep_cases _ _ _ _ _ _ E (P t)) as [_ [(a' & ev & Q & D)|[(w & ? & ? & ? & ? & Q & _)|(Q & _)]]]; try discriminate.
  injection Q as <-. eauto.
Qed.
Lemma pexec_unw c tr t w s : pexec c (tr ++ [(t, Unwound w)]) s ->
  exists s0 st p w' fs, pexec c tr s0 /\ term s0 = None /\ w <> WMain /\ w <> WThread /\
    frames s0 t = FUser w :: FX st p :: FUser w' :: fs /\ (p = XT \/ p = XLock) /\ s = set_frames s0 t (FUser w' :: fs).
Proof.
  intros H. apply pexec_snoc in H. destruct H as (s0 & a & H & E). cbn [fst snd] in E. exists s0.
  destruct (pexec_inv _ _ _ H) as [_ P].
  destruct (pstep_cases _ _ _ _ _ _ E (P t)) as [T [(a' & ev & Q & D)|[(w0 & st & p & w' & fs & Q & N1 & N2 & F & Hp & S)|(Q & _)]]]; try discriminate.
  injection Q as <-. exists st, p, w', fs. auto 8.
Qed.
Lemma pexec_abo c tr t s : pexec c (tr ++ [(t, Aborted)]) s ->
  exists s0 w fs, pexec c tr s0 /\ term s0 = None /\ frames s0 t = FUser w :: fs /\ unwind w fs = None /\ s = finish s0 (Killed 6).
Proof.
  intros H. apply pexec_snoc in H. destruct H as (s0 & a & H & E). cbn [fst snd] in E. exists s0.
  destruct (pexec_inv _ _ _ H) as [_ P].
  destruct (pstep_cases _ _ _ _ _ _ E (P t)) as [T [(a' & ev & Q & D)|[(w0 & st & p & w' & fs & Q & N1 & N2 & F & Hp & S)|(_ & S & w & fs & F & U)]]]; try discriminate.
  exists w, fs. auto 8.
Qed.

Tactic Notation "psnoc" hyp(H) ident(s0) ident(II) ident(E) :=
  let a := fresh "act" in let P := fresh "PP" in
  apply pexec_ev in H; destruct H as [s0 [a [H E]]];
  destruct (pexec_inv _ _ _ H) as [II P]; apply dstep_effect in E.

Lemma plifo_t c tr t f s : pexec c (tr ++ [(t, PEv (CallT f))]) s -> exists rest, waiting t (plainly tr) = f :: rest.
Proof.
  intros H. psnoc H s0 J E. pose proof (e_guard _ _ _ _ _ E) as [l G]. exists l. rewrite <- (i_wt _ _ _ J). exact G.
Qed.
Lemma plifo_p c tr t f s : pexec c (tr ++ [(t, PEv (Take f))]) s -> exists rest, listed (plainly tr) = f :: rest.
Proof.
  intros H. psnoc H s0 J E. pose proof (e_guard _ _ _ _ _ E) as [l G]. exists l. rewrite <- (i_wp _ _ _ J). exact G.
Qed.

(** Induction on histories with what each kind of step does. *)
Lemma pexec_ind' c (Q : ptrace -> dst -> Prop) :
  Q [] dinit ->
  (forall tr s t e s', pexec c tr s -> inv c (plainly tr) s -> Q tr s -> effect c s t e s' -> Q (tr ++ [(t, PEv e)]) s') ->
  (forall tr s t w st p w' fs, pexec c tr s -> inv c (plainly tr) s -> Q tr s -> term s = None -> w <> WMain -> w <> WThread ->
     frames s t = FUser w :: FX st p :: FUser w' :: fs -> (p = XT \/ p = XLock) -> Q (tr ++ [(t, Unwound w)]) (set_frames s t (FUser w' :: fs))) ->
  (forall tr s t, pexec c tr s -> inv c (plainly tr) s -> Q tr s -> term s = None -> Q (tr ++ [(t, Aborted)]) (finish s (Killed 6))) ->
  forall tr s, pexec c tr s -> Q tr s.
Proof.
  intros H0 H1 H2 H3. induction 1 as [|tr s t a e s' H IH E]; [exact H0|].
  destruct (pexec_inv _ _ _ H) as [J P].
  destruct (pstep_cases _ _ _ _ _ _ E (P t)) as [T [(a' & ev & -> & D)|[(w0 & st & p & w' & fs & -> & N1 & N2 & F & Hp & ->)|(-> & -> & w & fs & F & U)]]].
  - apply dstep_effect in D. eapply H1; eauto.
  - eapply H2; eauto.
  - eapply H3; eauto.
Qed.

Lemma pick_app' {A} (g : event -> list A) a b : pick g (a ++ b) = pick g a ++ pick g b.
Proof. apply flat_map_app. Qed.
Lemma ponce_t c tr s : pexec c tr s -> NoDup (t_calls (plainly tr)).
Proof.
  revert tr s. apply pexec_ind'; [constructor| | |]; intros tr s t; [intros e s' H J IH D|intros w st p w' fs _ _ IH _ _ _ _ _|intros _ _ IH _];
    rewrite plainly_app; unfold t_calls; rewrite pick_app'; cbn [plainly flat_map fst snd app]; cbn [pick flat_map fst snd app]; rewrite ?app_nil_r; try exact IH.
  destruct e; cbn; rewrite ?app_nil_r; try exact IH.
  apply NoDup_app_intro; [exact IH|repeat constructor; auto|].
  intros x Hx [->|[]]. apply pick_in in Hx. destruct Hx as [u [e [H1 H2]]].
  destruct e; try contradiction. destruct H2 as [->|[]].
  destruct (e_guard _ _ _ _ _ D) as [l Hl].
  assert (Hin : In x (tdt s t)) by (rewrite Hl; simpl; auto).
  pose proof (reg_thread _ _ _ _ _ _ J (callt_reg _ _ _ _ _ J H1) (tdt_reg _ _ _ _ _ J Hin)) as ->.
  pose proof (nodup_t _ _ _ J t) as N. apply NoDup_app_inv in N. destruct N as [_ [_ N]].
  apply (N x); auto. apply opick_in. exists (CallT x). simpl; auto.
Qed.
Lemma ponce_p c tr s : pexec c tr s -> NoDup (p_calls (plainly tr)).
Proof.
  revert tr s. apply pexec_ind'; [constructor| | |]; intros tr s t; [intros e s' H J IH D|intros w st p w' fs _ _ IH _ _ _ _ _|intros _ _ IH _];
    rewrite plainly_app; unfold p_calls; rewrite pick_app'; cbn [plainly flat_map fst snd app]; cbn [pick flat_map fst snd app]; rewrite ?app_nil_r; try exact IH.
  pose proof (fs _ _ _ _ _ _ J D) as F.
  destruct e; cbn; rewrite ?app_nil_r; try exact IH.
  apply NoDup_app_intro; [exact IH|repeat constructor; auto|].
  intros x Hx [->|[]]. apply pick_in in Hx. destruct Hx as [u [e [H1 H2]]].
  destruct e; try contradiction. destruct H2 as [->|[]].
  assert (NT : NoDup (pick g_take (plainly tr))) by (pose proof (nodup_p _ _ _ J) as N; apply NoDup_app_inv in N; tauto).
  inversion F as [ | | | | | | | | | | | | | | | | | | | | |st0 f0 fs0 E1 E2 E3| | | | ]; subst f0.
  pose proof (i_take _ _ _ J t) as Tt. rewrite <- E1 in Tt. simpl in Tt.
  assert (Cu : In x (opick g_callp u (plainly tr))) by (apply opick_in; exists (CallP x); simpl; auto).
  assert (u = t).
  { apply (pick_nodup_thread g_take (plainly tr) x); auto.
    - rewrite (i_take _ _ _ J u). apply in_or_app; auto.
    - rewrite Tt. apply in_or_app; simpl; auto. }
  subst u. apply (pick_nodup_own _ t) in NT. rewrite Tt in NT. apply NoDup_app_inv in NT.
  destruct NT as [_ [_ NT]]. apply (NT x); simpl; auto.
Qed.

(** Where the functions called come from. *)
Lemma pcallt_reg c tr s t f : pexec c tr s -> In (t, PEv (CallT f)) tr -> In (t, PEv (RegT f)) tr.
Proof.
  intros H Hf. destruct (pexec_inv _ _ _ H) as [J _]. apply plainly_in in Hf. apply (callt_reg _ _ _ _ _ J) in Hf. apply plainly_out in Hf; [exact Hf|discriminate].
Qed.
Lemma pcallp_reg c tr s t f : pexec c tr s -> In (t, PEv (CallP f)) tr -> In (t, PEv (Take f)) tr /\ exists u, In (u, PEv (RegP f)) tr.
Proof.
  intros H Hf. destruct (pexec_inv _ _ _ H) as [J _]. apply plainly_in in Hf.
  assert (T : In f (opick g_take t (plainly tr))).
  { rewrite (i_take _ _ _ J). apply in_or_app. left. apply opick_in. exists (CallP f). simpl; auto. }
  split.
  - apply opick_in in T. destruct T as (e & T1 & T2). destruct e; simpl in T2; try contradiction. destruct T2 as [->|[]]. apply plainly_out in T1; [exact T1|discriminate].
  - apply opick_sub in T.
    assert (R : In f (pick g_regp (plainly tr))).
    { eapply Permutation_in; [apply Permutation_sym, (i_permp _ _ _ J)|]. apply in_or_app; auto. }
    apply pick_in in R. destruct R as [v [e [R1 R2]]]. destruct e; simpl in R2; try contradiction. destruct R2 as [->|[]].
    exists v. apply plainly_out in R1; [exact R1|discriminate].
Qed.
(** Every function is accounted for. *)
Lemma pregt_all c tr s t f : pexec c tr s -> In (t, PEv (RegT f)) tr -> In (t, PEv (CallT f)) tr \/ In f (waiting t (plainly tr)).
Proof.
  intros H Hf. destruct (pexec_inv _ _ _ H) as [J _]. apply plainly_in in Hf. destruct (reg_callt _ _ _ _ _ J Hf) as [K|K].
  - left. apply plainly_out in K; [exact K|discriminate].
  - right. rewrite <- (i_wt _ _ _ J). exact K.
Qed.
Lemma pregp_all c tr s u f : pexec c tr s -> In (u, PEv (RegP f)) tr -> (exists v, In (v, PEv (Take f)) tr) \/ In f (listed (plainly tr)).
Proof.
  intros H Hf. destruct (pexec_inv _ _ _ H) as [J _]. apply plainly_in in Hf.
  assert (R : In f (pick g_take (plainly tr) ++ pdt s)).
  { eapply Permutation_in; [apply (i_permp _ _ _ J)|]. apply pick_in. exists u, (RegP f). simpl; auto. }
  apply in_app_or in R. destruct R as [R|R].
  - left. apply pick_in in R. destruct R as [v [e [R1 R2]]]. destruct e; simpl in R2; try contradiction. destruct R2 as [->|[]]. exists v. apply plainly_out in R1; [exact R1|discriminate].
  - right. rewrite <- (i_wp _ _ _ J). exact R.
Qed.

(** A thread that has exited called and saw the end of all its functions; none
    of them by a panic that got out of it. *)
Lemma pdone_all c tr t s : pexec c (tr ++ [(t, PEv ThreadDone)]) s ->
  forall f, In (t, PEv (RegT f)) tr -> In (t, PEv (CallT f)) tr /\ ended t (WT f) tr.
Proof.
  intros H f Hf. pose proof (proj1 (pexec_inv _ _ _ H)) as J'. psnoc H s0 J E. pose proof Hf as Hf0. apply plainly_in in Hf.
  assert (Hc : In (t, CallT f) (plainly tr)).
  { destruct (reg_callt _ _ _ _ _ J Hf) as [Hc|Hc]; [exact Hc|].
    destruct (c_tae c) eqn:Ht.
    - rewrite (e_guard _ _ _ _ _ E Ht) in Hc. destruct Hc.
    - rewrite (i_tae _ _ _ J Ht) in Hc. destruct Hc. }
  split; [apply plainly_out in Hc; [exact Hc|discriminate]|].
  apply plainly_ret.
  destruct (i_retT _ _ _ J' t f) as [R|R].
  - rewrite plainly_app. apply in_or_app; auto.
  - rewrite plainly_app in R. apply in_app_or in R. destruct R as [R|[R|[]]]; [exact R|inversion R].
  - rewrite (i_done _ _ _ J' t) in R; [destruct R|]. rewrite plainly_app. apply in_or_app; simpl; auto.
Qed.

(** The functions on the stack have been called. *)
Lemma fstep_user c l e l' w : fstep c l e l' -> In (FUser w) l' -> In (FUser w) l \/
  match w with WT f => e = CallT f | WP f => e = CallP f | WF k => e = CallF k | _ => True end.
Proof.
  intros F K. destruct F; cbn in K |- *; repeat (destruct K as [K|K]; [try discriminate; try (injection K as <-); cbn; auto|]); auto; try contradiction.
  all: try (left; tauto).
Qed.
Lemma pcalled c tr s : pexec c tr s -> forall t w, In (FUser w) (frames s t) ->
  match w with WT f => In (t, CallT f) (plainly tr) | WP f => In (t, CallP f) (plainly tr) | WF k => In (t, CallF k) (plainly tr) | _ => True end.
Proof.
  revert tr s. refine (pexec_ind' c _ _ _ _ _).
  - intros t w. cbn. unfold dupd. destruct (Nat.eqb t 0); [intros [K|[]]; injection K as <-; exact Logic.I|intros []].
  - intros tr s t e s' H J IH D u w K. rewrite plainly_app. cbn [plainly flat_map fst snd app].
    destruct (Nat.eq_dec u t) as [->|N].
    + destruct (fstep_user _ _ _ _ _ (fs _ _ _ _ _ _ J D) K) as [K'|K'].
      * specialize (IH t w K'). destruct w; auto; apply in_or_app; auto.
      * destruct w; auto; subst e; apply in_or_app; right; left; reflexivity.
    + destruct (fr_other _ _ _ _ _ _ J D u N) as [Q|[_ [_ [Q _]]]]; rewrite Q in K.
      * specialize (IH u w K). destruct w; auto; apply in_or_app; auto.
      * destruct K as [K|[]]. injection K as <-. exact Logic.I.
  - intros tr s t w0 st p w' fs H J IH T N1 N2 F Hp u w K. rewrite plainly_app. cbn [plainly flat_map fst snd app]. cbn in K. unfold dupd in K.
    assert (K' : In (FUser w) (frames s u)) by (destruct (Nat.eqb_spec u t) as [->|]; [rewrite F; right; right; exact K|exact K]).
    specialize (IH u w K'). destruct w; auto; apply in_or_app; auto.
  - intros tr s t H J IH T u w K. rewrite plainly_app. cbn [plainly flat_map fst snd app]. rewrite app_nil_r. apply (IH u w K).
Qed.
Lemma paired_fini l : paired l -> existsb isfini (tl l) = true -> exists k, In (FUser (WF k)) l.
Proof.
  induction l as [|x l IH]; cbn; [discriminate|]. intros [A P] K. destruct l as [|y l]; [discriminate|]. cbn in K.
  destruct (isfini y) eqn:Y.
  - destruct y as [| | | | |st p| |]; try discriminate. destruct p; try discriminate.
    destruct x as [w| | | | |? ?| |]; cbn in A; try (destruct A as [? A]; discriminate); try contradiction.
    destruct w; try contradiction; try (destruct A as [A|[? A]]; discriminate); destruct A as [? A]; try discriminate. injection A as <- <-. exists k. left. reflexivity.
  - destruct (IH P K) as [k Q]. exists k. right. exact Q.
Qed.

(** What a program::exit left by a panic leaves behind. *)
Lemma punw_state c tr t w s : pexec c (tr ++ [(t, Unwound w)]) s ->
  term s = None /\ (exists w' fs, frames s t = FUser w' :: fs) /\
  ((exists f, w = WT f /\ In (t, PEv (CallT f)) tr) \/ (exists f, w = WP f /\ In (t, PEv (CallP f)) tr)).
Proof.
  intros H. apply pexec_unw in H. destruct H as (s0 & st & p & w' & fs & H & T & N1 & N2 & F & Hp & ->).
  split; [exact T|]. split; [exists w', fs; cbn; apply dupd_eq|].
  pose proof (pcalled _ _ _ H t w) as K. rewrite F in K. specialize (K (or_introl eq_refl)).
  destruct w as [| |f|f|k]; try congruence.
  - left. exists f. split; [reflexivity|]. apply plainly_out in K; [exact K|discriminate].
  - right. exists f. split; [reflexivity|]. apply plainly_out in K; [exact K|discriminate].
  - destruct (pexec_inv _ _ _ H) as [_ P]. specialize (P t). rewrite F in P. cbn in P. destruct P as [[? P] _]. inversion P; subst. destruct Hp; discriminate.
Qed.
Lemma punw_lock c tr t w s : pexec c (tr ++ [(t, Unwound w)]) s -> c_thread c = true ->
  (forall k, ~ In (t, PEv (CallF k)) tr) -> holder (plainly tr) <> Some t.
Proof.
  intros H Hc N K. apply pexec_unw in H. destruct H as (s0 & st & p & w' & fs & H & T & N1 & N2 & F & Hp & ->).
  destruct (pexec_inv _ _ _ H) as [J P]. rewrite <- (i_lk _ _ _ J Hc) in K. apply (i_hold _ _ _ J Hc) in K.
  unfold holds in K. apply orb_prop in K. destruct K as [K|K]; [rewrite F in K; discriminate|].
  apply andb_prop in K. destruct K as [_ K].
  destruct (paired_fini _ (P t)) as [k Q].
  { rewrite F in K |- *. exact K. }
  pose proof (pcalled _ _ _ H t _ Q) as C. apply (N k). apply plainly_out in C; [exact C|discriminate].
Qed.

(** Nothing runs after the end of the process. *)
Lemma pafter c a t e b s : pexec c (a ++ (t, e) :: b) s -> (e = Aborted \/ exists o, e = PEv (Term o)) -> b = [].
Proof.
  intros H He. enough (K : b = [] /\ term s <> None) by tauto. revert s H. induction b as [|[u x] b IH] using rev_ind; intros s H.
  - split; [reflexivity|]. destruct He as [->|[o ->]].
    + apply pexec_abo in H. destruct H as (s0 & w & fs & _ & _ & _ & _ & ->). cbn. discriminate.
    + destruct (pexec_inv _ _ _ H) as [J _]. rewrite (i_term _ _ _ J t o); [discriminate|]. rewrite plainly_app. apply in_or_app. right. left. reflexivity.
  - replace (a ++ (t, e) :: b ++ [(u, x)]) with ((a ++ (t, e) :: b) ++ [(u, x)]) in H by (rewrite <- app_assoc; reflexivity).
    apply pexec_snoc in H. destruct H as (s0 & act & H & E). destruct (IH _ H) as [_ K]. exfalso.
    destruct (pexec_inv _ _ _ H) as [_ P]. destruct (pstep_cases _ _ _ _ _ _ E (P _)) as [T _]. contradiction.
Qed.
Lemma pabort_term c tr t s : pexec c (tr ++ [(t, Aborted)]) s -> term s = Some (Killed 6).
Proof. intros H. apply pexec_abo in H. destruct H as (s0 & w & fs & _ & _ & _ & _ & ->). reflexivity. Qed.

(** When a panic can be caught. *)
Lemma ppanic c tr s t w fs : pexec c tr s -> term s = None -> frames s t = FUser w :: fs -> (forall k, w <> WF k) ->
  (exists x w' l s', fs = x :: FUser w' :: l /\ pstep c s t PPanic = Some (Unwound w, s') /\ frames s' t = FUser w' :: l /\ term s' = None) \/
  ((forall x w' l, fs <> x :: FUser w' :: l) /\ exists s', pstep c s t PPanic = Some (Aborted, s') /\ term s' = Some (Killed 6)).
Proof.
  intros H T F N. destruct (pexec_inv _ _ _ H) as [J P]. specialize (P t). pose proof (i_stack _ _ _ J t) as [_ B]. rewrite F in P, B.
  destruct (unwind w fs) as [fs'|] eqn:U.
  - left. destruct w; cbn in U; try discriminate; destruct fs as [|[w1|f1|f1| | |st p|st|] [|[w'|f2|f2| | |st2 p2|st2|] fs0]]; try discriminate; injection U as <-.
    all: exists (FX st p), w', fs0; eexists; split; [reflexivity|]; split; [unfold pstep; rewrite T, F; reflexivity|]; split; [cbn; apply dupd_eq|exact T].
  - right. split.
    + intros x w' l ->. destruct w; cbn in U, P, B; try (destruct B as [[B|B] _]; discriminate); try (destruct x; discriminate).
      * destruct P as [[->|[st ->]] _]; [|discriminate]. destruct B as (_ & [B|B] & _); discriminate.
      * destruct P as [[st ->] _]. discriminate.
      * eapply N; reflexivity.
    + eexists. unfold pstep. rewrite T, F, U. split; reflexivity.
Qed.
Lemma ppanic_fini c s t k fs : term s = None -> frames s t = FUser (WF k) :: fs ->
  exists s', pstep c s t PPanic = Some (Aborted, s') /\ term s' = Some (Killed 6).
Proof. intros T F. eexists. unfold pstep. rewrite T, F. split; reflexivity. Qed.

(** What is called has just been taken. *)
Lemma ptake_shape c tr s : pexec c tr s -> forall t,
  match frames s t with
  | FX _ (XUnlock f) :: _ => last_own t (plainly tr) [Take f]
  | FX _ (XCall f) :: _ => last_own t (plainly tr) [Take f; Unlock]
  | _ => True
  end.
Proof.
  revert tr s. refine (pexec_ind' c _ _ _ _ _).
  - intros u. simpl. unfold dupd. destruct (Nat.eqb u 0); exact Logic.I.
  - intros tr s t e s' H J IH D u. rewrite plainly_app. cbn [plainly flat_map fst snd app].
    destruct (Nat.eq_dec u t) as [->|Hne].
    + pose proof (i_stack _ _ _ J t) as [LO _]. specialize (IH t). pose proof (fs _ _ _ _ _ _ J D) as F.
      remember (frames s t) as l1. remember (frames s' t) as l2.
      unfold last_own in *. rewrite own_app, own_one, Nat.eqb_refl.
      destruct F; simpl in *; unfold first_phase, after_t; auto.
      all: try (destruct (c_tae c), (c_pae c); exact Logic.I).
      all: try (destruct (c_pae c); exact Logic.I).
      * destruct fs as [|x fs]; [exact Logic.I|]. inversion LO as [|? ? L1 L2]; subst.
        destruct x as [ | | | | |? p | | ]; auto; destruct p; auto; contradiction.
      * destruct fs as [|x fs]; [exact Logic.I|]. inversion LO as [|? ? L1 L2]; subst.
        destruct x as [ | | | | |? p | | ]; auto; destruct p; auto; contradiction.
      * eexists; reflexivity.
      * destruct IH as [pre ->]. exists pre. rewrite <- app_assoc. reflexivity.
    + destruct (fr_other _ _ _ _ _ _ J D u Hne) as [->|[_ [_ [-> _]]]]; [|exact Logic.I].
      specialize (IH u). unfold last_own in *. rewrite own_app, own_one.
      destruct (Nat.eqb_spec t u); [congruence|]. rewrite app_nil_r. exact IH.
  - intros tr s t w0 st p w' fs H J IH T N1 N2 F Hp u. rewrite plainly_app. cbn [plainly flat_map fst snd app]. cbn [frames set_frames]. unfold dupd.
    destruct (Nat.eqb_spec u t) as [->|N]; [exact Logic.I|]. specialize (IH u). unfold last_own in *. rewrite own_app, own_one.
    destruct (Nat.eqb_spec t u); [congruence|]. rewrite app_nil_r. exact IH.
  - intros tr s t H J IH T u. rewrite plainly_app. cbn [plainly flat_map fst snd app]. rewrite app_nil_r. apply IH.
Qed.
Lemma pcall_taken c tr t f s : pexec c (tr ++ [(t, PEv (CallP f))]) s -> last_own t (plainly tr) [Take f; Unlock].
Proof.
  intros H. psnoc H s0 J E. pose proof (fs _ _ _ _ _ _ J E) as F.
  pose proof (ptake_shape _ _ _ H t) as Sh.
  inversion F as [ | | | | | | | | | | | | | | | | | | | | |st0 f0 fs0 E1 E2 E3| | | | ]; subst f0.
  rewrite <- E1 in Sh. exact Sh.
Qed.

(** Without panics: the histories of DtorsModel.v. *)
Lemma lift_app a b : lift (a ++ b) = lift a ++ lift b.
Proof. apply map_app. Qed.
Lemma plainly_lift tr : plainly (lift tr) = tr.
Proof. induction tr as [|[t e] tr IH]; [reflexivity|]. change (lift ((t, e) :: tr)) with ((t, PEv e) :: lift tr). change (plainly ((t, PEv e) :: lift tr)) with ((t, e) :: plainly (lift tr)). now rewrite IH. Qed.
Lemma exec_pexec c tr s : exec c tr s -> pexec c (lift tr) s.
Proof.
  induction 1 as [|tr s t a e s' H IH D]; [constructor|]. rewrite lift_app. eapply px_step with (a := PA a); [exact IH|]. cbn. now rewrite D.
Qed.
Lemma pexec_exec c tr s : pexec c tr s -> forall l, tr = lift l -> exec c l s.
Proof.
  induction 1 as [|tr s t a e s' H IH E]; intros l L; [destruct l; [constructor|discriminate]|].
  destruct l as [|x l _] using rev_ind; [destruct tr; discriminate|]. rewrite lift_app in L. apply app_inj_tail in L. destruct L as [-> L].
  destruct x as [u ev]. cbn in L. injection L as -> ->. specialize (IH l eq_refl).
  destruct (pexec_inv _ _ _ H) as [_ P].
  destruct (pstep_cases _ _ _ _ _ _ E (P _)) as [_ [(a' & ev' & Q & D)|[(w & ? & ? & ? & ? & Q & _)|(Q & _)]]]; try discriminate.
  injection Q as <-. econstructor; eauto.
Qed.
