(** A program::exit that runs to its end, in a history with panics: order and
    completeness.  The three step lemmas are those inside DtorsTop2.v. *)
From Coq Require Import ZArith List Bool Lia Arith Permutation.
From Verif Require Import LayoutModel DtorsModel DtorsSpec DtorsFacts DtorsInv DtorsPres DtorsTop DtorsTop2 PanicModel PanicSpec PanicInv PanicTop.
Import ListNotations.

Lemma seg_step c t st tr tr2 u e s0 s : inv c tr s0 -> effect c s0 u e s -> (u = t -> ending e = false) ->
  seg c t st (calls t tr2) s0 -> seg c t st (calls t (tr2 ++ [(u, e)])) s.
Proof.
    intros I E HN2 IH. rewrite calls_snoc. unfold seg in *.
    destruct (Nat.eqb_spec u t) as [->|Hne].
    + pose proof (HN2 eq_refl) as He. destruct IH as [above [p [base [Hf [Ha Hs]]]]].
      pose proof (fs _ _ _ _ _ _ I E) as F. rewrite Hf in F.
      destruct Ha as [|w l Hm Hc|fr w l Hr Hm Hc]; simpl in F.
      * (* exit's own code *)
        inversion F; subst; simpl; rewrite ?app_nil_r.
        -- exists [FUser (WT f)], XT, base. repeat split; auto.
           ++ eapply A_user with (l := calls t tr2); simpl; auto.
           ++ destruct Hs as [lt ->]. exists (lt ++ [f]). rewrite map_app. reflexivity.
        -- exists [], (after_t c), base. repeat split; auto. constructor. apply shape_after. assumption.
        -- exists [], XPop, base. repeat split; auto. constructor.
        -- exists [], (XUnlock f), base. repeat split; auto. constructor.
        -- exists [], (XFini (nfini c)), base. repeat split; auto; [constructor|].
           destruct Hs as [lt [lp ->]]. exists lt, lp. rewrite Nat.sub_diag. simpl. rewrite app_nil_r. reflexivity.
        -- exists [], (XCall f), base. repeat split; auto. constructor.
        -- exists [FUser (WP f)], XLock, base. repeat split; auto.
           ++ eapply A_user with (l := calls t tr2); simpl; auto.
           ++ destruct Hs as [lt [lp ->]]. exists lt, (lp ++ [f]). rewrite map_app, app_assoc. reflexivity.
        -- exists [FUser (WF k)], (XFini k), base. repeat split; auto.
           ++ eapply A_user with (l := calls t tr2); simpl; auto.
           ++ destruct Hs; lia.
           ++ destruct Hs as [Hk [lt [lp ->]]]. exists lt, lp. rewrite (seq_down k) by lia.
              rewrite map_app, <- !app_assoc. reflexivity.
        -- exists [], (XFini 0), base. split; [auto|]. split; [constructor|]. exact Hs.
      * (* in a user function *)
        inversion F; subst; simpl in He; try discriminate; simpl; rewrite ?app_nil_r.
        -- exists [FUser w], p, base. repeat split; auto. eapply A_user; eauto.
        -- exists [FUser w], p, base. repeat split; auto. eapply A_user; eauto.
        -- exists [FLock f; FUser w], p, base. repeat split; auto. eapply A_reg; simpl; eauto.
        -- exists [FUser w], p, base. repeat split; auto. eapply A_user; eauto.
        -- destruct p; contradiction.
        -- exists [], p, base. repeat split; auto. constructor.
      * (* in program::at_exit *)
        inversion F; subst; simpl in Hr, He; try discriminate; try contradiction; simpl; rewrite ?app_nil_r.
        -- exists [FPush f; FUser w], p, base. repeat split; auto. eapply A_reg; simpl; eauto.
        -- exists [FUnlock; FUser w], p, base. repeat split; auto. eapply A_reg; simpl; eauto.
        -- exists [FUser w], p, base. repeat split; auto. eapply A_user; eauto.
    + rewrite app_nil_r. destruct (fr_other _ _ _ _ _ _ I E t (not_eq_sym Hne)) as [->|[_ [_ [_ N]]]]; [exact IH|].
      exfalso. destruct IH as [above [p [base [Hf _]]]]. rewrite N in Hf. destruct above; discriminate.
Qed.
Lemma xt_step c t f tr tr2 u e s0 s : inv c tr s0 -> effect c s0 u e s -> (u = t -> ending e = false) ->
  In f (tdt s0 t) -> in_xt t s0 -> In (t, CallT f) (tr2 ++ [(u, e)]) \/ (In f (tdt s t) /\ in_xt t s).
Proof.
    intros I E HN2 D X.
    destruct (Nat.eq_dec u t) as [->|Hne].
    + pose proof (HN2 eq_refl) as He.
      destruct X as [above [st [base [Hf Hp]]]].
      pose proof (fs _ _ _ _ _ _ I E) as F. pose proof (e_tdt _ _ _ _ _ E t) as TD. pose proof (e_guard _ _ _ _ _ E) as G.
      rewrite Hf in F. destruct above as [|fr above].
      * (* exit's own code, in XT *)
        simpl in F, Hf. inversion F; subst.
        -- rewrite Nat.eqb_refl in TD. destruct G as [l Hl]. rewrite Hl in TD, D. simpl in TD, D.
           destruct D as [->|D]; [left; apply in_or_app; simpl; auto|].
           right. rewrite TD. split; [exact D|].
           eexists [FUser (WT f0)], st, base. split; [symmetry; eassumption|]. repeat constructor.
        -- exfalso. rewrite (e_xt0 _ _ _ _ _ E st base Hf eq_refl) in D. destruct D.
      * right.
        assert (Hn : e <> Ret WThread).
        { intros ->. pose proof (i_stack _ _ _ I t) as [_ B]. rewrite Hf in B. simpl in B.
          simpl in F. inversion F; subst.
          - destruct B as [[B|B] _]; [destruct above; discriminate|discriminate].
          - congruence. }
        destruct (plain_step _ _ _ _ _ _ _ _ F He Hn Hp) as [above' [Hf' Hp']].
        split; [|exists above', st, base; auto].
        rewrite TD. simpl in F. inversion Hp as [|? ? P1 P2]; subst.
        inversion F; subst; simpl in P1; try contradiction; rewrite ?Nat.eqb_refl; simpl; auto.
        destruct (Nat.eqb_spec t v); auto. destruct G as [-> _]. pose proof (t_old _ _ _ _ _ _ I E). lia.
    + right. split.
      * rewrite (e_tdt _ _ _ _ _ E). destruct (Nat.eqb_spec t u); [congruence|]. pose proof (e_guard _ _ _ _ _ E) as G.
        destruct e as [ |? | | | | | | |? | | | | | | |v| | | ]; auto. destruct (Nat.eqb_spec t v); auto. destruct G as [-> _].
        exfalso. destruct (i_new _ _ _ I t) as [_ [N _]]; [lia|]. rewrite N in D. destruct D.
      * destruct X as [above [st [base [Hf Hp]]]]. exists above, st, base. split; [|exact Hp].
        destruct (fr_other _ _ _ _ _ _ I E t (not_eq_sym Hne)) as [->|[_ [_ [_ N]]]]; [exact Hf|].
        rewrite N in Hf. destruct above; discriminate.
Qed.
Lemma listed_step' c t f tr tr2 u e s0 s : c_pae c = true -> inv c tr s0 -> effect c s0 u e s -> (u = t -> ending e = false) ->
  In f (pdt s0) -> pre_empty c s0 t -> (exists v, In (v, Take f) (tr2 ++ [(u, e)])) \/ (In f (pdt s) /\ pre_empty c s t).
Proof.
    intros Hp I E HN2 D X.
    pose proof (e_pdt _ _ _ _ _ E) as PD. pose proof (e_guard _ _ _ _ _ E) as G.
    assert (K : (exists v, In (v, Take f) (tr2 ++ [(u, e)])) \/ In f (pdt s)).
    { rewrite PD. destruct e; auto; [right; simpl; auto|]. destruct G as [l Hl]. rewrite Hl in *. simpl in *.
      destruct D as [->|D]; [left; exists u; apply in_or_app; simpl; auto|auto]. }
    destruct K as [K|K]; [auto|]. right. split; [exact K|].
    destruct X as [above [st' [p [base [Hf [Hpl Hfi]]]]]].
    destruct (Nat.eq_dec u t) as [->|Hne].
    + pose proof (HN2 eq_refl) as He.
      pose proof (fs _ _ _ _ _ _ I E) as F. rewrite Hf in F. destruct above as [|fr above].
      * simpl in F, Hf. unfold pre_empty. inversion F; subst.
        -- eexists [FUser (WT f0)], st', XT, base. repeat split; auto. repeat constructor.
        -- eexists [], st', (after_t c), base. repeat split; auto. unfold after_t. rewrite Hp. reflexivity.
        -- eexists [], st', XPop, base. repeat split; auto.
        -- eexists [], st', (XUnlock f0), base. repeat split; auto.
        -- exfalso. rewrite G in D. destruct D.
        -- eexists [], st', (XCall f0), base. repeat split; auto.
        -- eexists [FUser (WP f0)], st', XLock, base. repeat split; auto. 
        -- discriminate.
        -- discriminate.
      * assert (Hn : e <> Ret WThread).
        { intros ->. pose proof (i_stack _ _ _ I t) as [_ B]. rewrite Hf in B. simpl in B.
          simpl in F. inversion F; subst.
          - destruct B as [[B|B] _]; [destruct above; discriminate|discriminate].
          - congruence. }
        destruct (plain_step _ _ _ _ _ _ _ _ F He Hn Hpl) as [above' [Hf' Hp']].
        exists above', st', p, base. auto.
    + exists above, st', p, base. split; [|auto].
      destruct (fr_other _ _ _ _ _ _ I E t (not_eq_sym Hne)) as [->|[_ [_ [_ N]]]]; [exact Hf|].
      rewrite N in Hf. destruct above; discriminate.
Qed.

Lemma calm_l t a b : calm t (a ++ b) -> calm t a.
Proof. intros [A B]. split; [intros e H; apply A|intros w H; apply (B w)]; apply in_or_app; auto. Qed.

(** Carrying a predicate on one thread through [during]. *)
Lemma carry c t st (Q : trace -> dst -> Prop) before :
  (forall s0 s, pexec c before s0 -> inv c (plainly before) s0 -> effect c s0 t (ExitCall st) s -> Q [] s) ->
  (forall tr d u e s0 s, pexec c tr s0 -> inv c (plainly tr) s0 -> effect c s0 u e s -> (u = t -> ending e = false) -> Q d s0 -> Q (d ++ [(u, e)]) s) ->
  (forall d u w s0 l, u <> t -> Q d s0 -> Q (d ++ [(u, Ret w)]) (set_frames s0 u l)) ->
  (forall d s0 o, Q d s0 -> Q d (finish s0 o)) ->
  forall during s, pexec c (before ++ (t, PEv (ExitCall st)) :: during) s -> calm t during -> Q (plainly during) s.
Proof.
  intros Q0 Q1 Q2 Q3. induction during as [|[u x] during IH] using rev_ind; intros s H C.
  - psnoc H s0 J E. eapply Q0; eauto.
  - replace (before ++ (t, PEv (ExitCall st)) :: during ++ [(u, x)]) with ((before ++ (t, PEv (ExitCall st)) :: during) ++ [(u, x)]) in H
      by (rewrite <- app_assoc; reflexivity).
    pose proof (calm_l _ _ _ C) as C0. rewrite plainly_app. destruct x as [e|w|]; cbn [plainly flat_map fst snd app].
    + psnoc H s0 J E. eapply Q1; [exact H|exact J|exact E| |apply IH; auto].
      intros ->. apply (proj1 C). apply in_or_app. right. left. reflexivity.
    + assert (N : u <> t) by (intros ->; apply (proj2 C w), in_or_app; right; left; reflexivity).
      apply pexec_unw in H. destruct H as (s0 & st0 & p & w' & fs & H & T & _ & _ & F & Hp & ->). apply Q2; [exact N|]. now apply IH.
    + apply pexec_abo in H. destruct H as (s0 & w & fs & H & _ & _ & _ & ->). rewrite app_nil_r. apply Q3. now apply IH.
Qed.

Lemma pexits_inv c t st before during tr o s :
  pexits_by t st before during tr o -> pexec c tr s ->
  exists s0 base, pexec c (before ++ (t, PEv (ExitCall st)) :: during) s0 /\
    frames s0 t = FX st (XFini 0) :: base /\ o = Exited st /\
    exists lt lp, calls t (plainly during) = map CT lt ++ map CP lp ++ map CF (rev (seq 0 (nfini c))).
Proof.
  intros [-> HN] H.
  replace (before ++ (t, PEv (ExitCall st)) :: during ++ [(t, PEv (Term o))]) with ((before ++ (t, PEv (ExitCall st)) :: during) ++ [(t, PEv (Term o))]) in H
    by (rewrite <- app_assoc; reflexivity).
  psnoc H s0 J E.
  assert (SG : seg c t st (calls t (plainly during)) s0).
  { apply (carry c t st (fun d s => seg c t st (calls t d) s) before); auto.
    - intros s1 s2 _ J1 E1. pose proof (fs _ _ _ _ _ _ J1 E1) as F. inversion F; subst.
      + exists [], (first_phase c), (FUser w :: fs). repeat split; [auto|constructor|apply shape_first].
      + exists [], (first_phase c), fs. repeat split; [auto|constructor|apply shape_first].
    - intros. eapply seg_step; eauto.
    - intros d u w s1 l N (above & p & base & Q & A & B). exists above, p, base. rewrite calls_snoc. destruct (Nat.eqb_spec u t); [contradiction|]. rewrite app_nil_r. split; [|auto]. cbn. rewrite dupd_ne; auto. }
  destruct SG as [above [p [base [Hf [Ha Hs]]]]].
  pose proof (fs _ _ _ _ _ _ J E) as F. rewrite Hf in F.
  exists s0, base. split; [exact H|].
  destruct Ha as [|w l Hm Hc|fr w l Hr Hm Hc]; simpl in F; inversion F; subst; try contradiction.
  split; [exact Hf|]. split; [reflexivity|]. destruct Hs as [_ [lt [lp Hs]]]. exists lt, lp.
  rewrite Nat.sub_0_r in Hs. exact Hs.
Qed.

Lemma pexit_waiting c t st before during tr o s :
  pexits_by t st before during tr o -> pexec c tr s ->
  forall f, In f (waiting t (plainly before)) -> In (t, PEv (CallT f)) during.
Proof.
  intros HX H f Hf. destruct (pexits_inv _ _ _ _ _ _ _ _ HX H) as [s0 [base [H0 [Hfr _]]]]. destruct HX as [_ HN].
  enough (K : In (t, CallT f) (plainly during) \/ (In f (tdt s0 t) /\ in_xt t s0)).
  { destruct K as [K|[_ X]]; [apply plainly_out in K; [exact K|discriminate]|]. exfalso. eapply not_xt_term; eauto. }
  apply (carry c t st (fun d s => In (t, CallT f) d \/ (In f (tdt s t) /\ in_xt t s)) before); auto.
  - intros s1 s2 _ J E. right. pose proof (fs _ _ _ _ _ _ J E) as F. pose proof (e_tdt _ _ _ _ _ E t) as TD.
    rewrite <- (i_wt _ _ _ J t) in Hf.
    assert (Ht : c_tae c = true).
    { destruct (c_tae c) eqn:Q; [reflexivity|]. rewrite (i_tae _ _ _ J Q) in Hf. destruct Hf. }
    split; [rewrite TD; exact Hf|].
    unfold in_xt. inversion F; subst; unfold first_phase in *; rewrite Ht in *.
    + exists [], st, (FUser w :: fs). auto.
    + exists [], st, fs. auto.
  - intros tr1 d u e s1 s2 _ J E He [Q|[Q1 Q2]]; [left; apply in_or_app; auto|]. eapply xt_step; eauto.
  - intros d u w s1 l N [Q|[Q1 (above & st1 & b & Q2 & Q3)]]; [left; apply in_or_app; auto|right]. split; [exact Q1|]. exists above, st1, b. split; [|exact Q3]. cbn. rewrite dupd_ne; auto.
Qed.
Lemma pexit_listed c t st before during tr o s :
  c_pae c = true -> pexits_by t st before during tr o -> pexec c tr s ->
  forall f, In f (listed (plainly before)) -> exists u, In (u, PEv (Take f)) during.
Proof.
  intros Hp HX H f Hf. pose proof (pexits_inv _ _ _ _ _ _ _ _ HX H) as [s0 [base [H0 [Hfr _]]]]. destruct HX as [_ HN].
  enough (K : (exists u, In (u, Take f) (plainly during)) \/ (In f (pdt s0) /\ pre_empty c s0 t)).
  { destruct K as [[u K]|[_ X]]; [exists u; apply plainly_out in K; [exact K|discriminate]|].
    exfalso. destruct X as [above [st' [p [b [Hf' [Hpl Hfi]]]]]]. rewrite Hfr in Hf'.
    destruct above as [|x above]; simpl in Hf'; inversion Hf'; subst; [discriminate|].
    inversion Hpl; contradiction. }
  apply (carry c t st (fun d s => (exists u, In (u, Take f) d) \/ (In f (pdt s) /\ pre_empty c s t)) before); auto.
  - intros s1 s2 _ J E. right. rewrite (e_pdt _ _ _ _ _ E), (i_wp _ _ _ J). split; [exact Hf|].
    assert (Q : isfini (FX st (first_phase c)) = false)
      by (unfold first_phase, after_t; rewrite Hp; destruct (c_tae c); reflexivity).
    pose proof (fs _ _ _ _ _ _ J E) as F. unfold pre_empty.
    inversion F; subst.
    + exists [], st, (first_phase c), (FUser w :: fs). auto.
    + exists [], st, (first_phase c), fs. auto.
  - intros tr1 d u e s1 s2 _ J E He [[v Q]|[Q1 Q2]]; [left; exists v; apply in_or_app; auto|]. eapply listed_step'; eauto.
  - intros d u w s1 l N [[v Q]|[Q1 (above & st1 & p & b & Q2 & Q3)]]; [left; exists v; apply in_or_app; auto|right]. split; [exact Q1|]. exists above, st1, p, b. split; [|exact Q3]. cbn. rewrite dupd_ne; auto.
Qed.
