(** program::exit as a whole: order of calls, what is called, completeness. *)
From Coq Require Import ZArith List Bool Lia Arith Permutation.
From Verif Require Import LayoutModel DtorsModel DtorsSpec DtorsFacts DtorsInv DtorsPres DtorsTop.
Import ListNotations.

Definition regframe (fr : frame) : Prop := match fr with FLock _ | FPush _ | FUnlock => True | _ => False end.
Definition matches (w : who) (p : xphase) : Prop :=
  match w, p with WT _, XT => True | WP _, XLock => True | WF k, XFini k' => k = k' | _, _ => False end.
Definition as_call (w : who) : list call :=
  match w with WT f => [CT f] | WP f => [CP f] | WF k => [CF k] | _ => [] end.

(** The frames above an exit in progress: none, or a user function called by
    it, possibly inside program::at_exit. *)
Inductive above_ok (p : xphase) (cs : list call) : list frame -> Prop :=
| A_nil : above_ok p cs []
| A_user w l : matches w p -> cs = l ++ as_call w -> above_ok p cs [FUser w]
| A_reg fr w l : regframe fr -> matches w p -> cs = l ++ as_call w -> above_ok p cs [fr; FUser w].

Definition shape (c : dcfg) (p : xphase) (cs : list call) : Prop :=
  match p with
  | XT => exists lt, cs = map CT lt
  | XFini k => (k <= nfini c)%nat /\ exists lt lp, cs = map CT lt ++ map CP lp ++ map CF (rev (seq k (nfini c - k)))
  | _ => exists lt lp, cs = map CT lt ++ map CP lp
  end.

Definition seg (c : dcfg) (t : nat) (st : Z) (cs : list call) (s : dst) : Prop :=
  exists above p base, frames s t = above ++ FX st p :: base /\ above_ok p cs above /\ shape c p cs.

Lemma shape_first c : shape c (first_phase c) [].
Proof.
  unfold first_phase, after_t. destruct (c_tae c), (c_pae c); simpl.
  - exists []. reflexivity.
  - exists []. reflexivity.
  - exists [], []. reflexivity.
  - split; [lia|]. exists [], []. rewrite Nat.sub_diag. reflexivity.
Qed.
Lemma shape_after c cs : shape c XT cs -> shape c (after_t c) cs.
Proof.
  unfold after_t. intros [lt ->]. destruct (c_pae c); simpl.
  - exists lt, []. rewrite app_nil_r. reflexivity.
  - split; [lia|]. exists lt, []. rewrite Nat.sub_diag. rewrite app_nil_r. reflexivity.
Qed.

Lemma calls_snoc t tr u e : calls t (tr ++ [(u, e)]) =
  calls t tr ++ (if Nat.eqb u t then match e with CallT f => [CT f] | CallP f => [CP f] | CallF k => [CF k] | _ => [] end else []).
Proof.
  rewrite calls_app. f_equal. unfold calls. rewrite own_one. destruct (Nat.eqb u t); simpl; rewrite ?app_nil_r; reflexivity.
Qed.

Lemma seq_down k n : (S k <= n)%nat -> rev (seq k (n - k)) = rev (seq (S k) (n - S k)) ++ [k].
Proof.
  intros H. replace (n - k)%nat with (S (n - S k)) by lia. reflexivity.
Qed.

Lemma seg_exec c t st tr1 tr2 s :
  exec c (tr1 ++ (t, ExitCall st) :: tr2) s ->
  Forall (fun e => ending e = false) (own t tr2) ->
  seg c t st (calls t tr2) s.
Proof.
  revert s. induction tr2 as [|[u e] tr2 IH] using rev_ind; intros s H HN.
  - snoc H s0 I E. pose proof (fs _ _ _ _ _ _ I E) as F. inversion F; subst.
    + exists [], (first_phase c), (FUser w :: fs). repeat split; [auto|constructor|apply shape_first].
    + exists [], (first_phase c), fs. repeat split; [auto|constructor|apply shape_first].
  - replace (tr1 ++ (t, ExitCall st) :: tr2 ++ [(u, e)]) with ((tr1 ++ (t, ExitCall st) :: tr2) ++ [(u, e)]) in H
      by (rewrite <- app_assoc; reflexivity).
    snoc H s0 I E. rewrite own_app, own_one in HN. apply Forall_app in HN. destruct HN as [HN1 HN2].
    specialize (IH _ H HN1). rewrite calls_snoc. unfold seg in *.
    destruct (Nat.eqb_spec u t) as [->|Hne].
    + inversion HN2 as [|? ? He _]; subst. destruct IH as [above [p [base [Hf [Ha Hs]]]]].
      pose proof (fs _ _ _ _ _ _ I E) as F. rewrite Hf in F.
      destruct Ha as [|w l Hm Hc|fr w l Hr Hm Hc]; simpl in F.
      * (* exit's own code *)
        inversion F; subst; simpl; rewrite ?app_nil_r.
        -- exists [FUser (WT f)], XT, base. repeat split; auto.
           ++ eapply A_user with (l := calls t tr2); simpl; auto.
           ++ destruct Hs as [lt ->]. exists (lt ++ [f]). rewrite map_app. reflexivity.
        -- exists [], (after_t c), base. repeat split; auto. constructor. apply shape_after. assumption.
        -- exists [], XPop, base. repeat split; auto. constructor.
        -- exists [], (XUnlock f), base. repeat split; auto. constructor.
        -- exists [], (XFini (nfini c)), base. repeat split; auto; [constructor|].
           destruct Hs as [lt [lp ->]]. exists lt, lp. rewrite Nat.sub_diag. simpl. rewrite app_nil_r. reflexivity.
        -- exists [], (XCall f), base. repeat split; auto. constructor.
        -- exists [FUser (WP f)], XLock, base. repeat split; auto.
           ++ eapply A_user with (l := calls t tr2); simpl; auto.
           ++ destruct Hs as [lt [lp ->]]. exists lt, (lp ++ [f]). rewrite map_app, app_assoc. reflexivity.
        -- exists [FUser (WF k)], (XFini k), base. repeat split; auto.
           ++ eapply A_user with (l := calls t tr2); simpl; auto.
           ++ destruct Hs; lia.
           ++ destruct Hs as [Hk [lt [lp ->]]]. exists lt, lp. rewrite (seq_down k) by lia.
              rewrite map_app, <- !app_assoc. reflexivity.
        -- exists [], (XFini 0), base. split; [auto|]. split; [constructor|]. exact Hs.
      * (* in a user function *)
        inversion F; subst; simpl in He; try discriminate; simpl; rewrite ?app_nil_r.
        -- exists [FUser w], p, base. repeat split; auto. eapply A_user; eauto.
        -- exists [FUser w], p, base. repeat split; auto. eapply A_user; eauto.
        -- exists [FLock f; FUser w], p, base. repeat split; auto. eapply A_reg; simpl; eauto.
        -- exists [FUser w], p, base. repeat split; auto. eapply A_user; eauto.
        -- destruct p; contradiction.
        -- exists [], p, base. repeat split; auto. constructor.
      * (* in program::at_exit *)
        inversion F; subst; simpl in Hr, He; try discriminate; try contradiction; simpl; rewrite ?app_nil_r.
        -- exists [FPush f; FUser w], p, base. repeat split; auto. eapply A_reg; simpl; eauto.
        -- exists [FUnlock; FUser w], p, base. repeat split; auto. eapply A_reg; simpl; eauto.
        -- exists [FUser w], p, base. repeat split; auto. eapply A_user; eauto.
    + rewrite app_nil_r. destruct (fr_other _ _ _ _ _ _ I E t (not_eq_sym Hne)) as [->|[_ [_ [_ N]]]]; [exact IH|].
      exfalso. destruct IH as [above [p [base [Hf _]]]]. rewrite N in Hf. destruct above; discriminate.
Qed.

Lemma exits_inv c t st before during tr o s :
  exits_by t st before during tr o -> exec c tr s ->
  exists s0 base, exec c (before ++ (t, ExitCall st) :: during) s0 /\
    frames s0 t = FX st (XFini 0) :: base /\ o = Exited st /\
    exists lt lp, calls t during = map CT lt ++ map CP lp ++ map CF (rev (seq 0 (nfini c))).
Proof.
  intros [-> HN] H.
  replace (before ++ (t, ExitCall st) :: during ++ [(t, Term o)]) with ((before ++ (t, ExitCall st) :: during) ++ [(t, Term o)]) in H
    by (rewrite <- app_assoc; reflexivity).
  snoc H s0 I E. pose proof (seg_exec _ _ _ _ _ _ H HN) as [above [p [base [Hf [Ha Hs]]]]].
  pose proof (fs _ _ _ _ _ _ I E) as F. rewrite Hf in F.
  exists s0, base. split; [exact H|].
  destruct Ha as [|w l Hm Hc|fr w l Hr Hm Hc]; simpl in F; inversion F; subst; try contradiction.
  split; [exact Hf|]. split; [reflexivity|]. destruct Hs as [_ [lt [lp Hs]]]. exists lt, lp.
  rewrite Nat.sub_0_r in Hs. exact Hs.
Qed.

(** A function waiting on the exiting thread while its thread functions are
    being called is called before the exit goes on. *)
Definition plain (fr : frame) : Prop := match fr with FUser _ | FLock _ | FPush _ | FUnlock => True | _ => False end.
Definition in_xt (t : nat) (s : dst) : Prop := exists above st base, frames s t = above ++ FX st XT :: base /\ Forall plain above.

Lemma plain_step c e fr above p st base l' :
  fstep c ((fr :: above) ++ FX st p :: base) e l' -> ending e = false -> e <> Ret WThread -> Forall plain (fr :: above) ->
  exists above', l' = above' ++ FX st p :: base /\ Forall plain above'.
Proof.
  intros F He Hn Hp. inversion Hp as [|? ? P1 P2]; subst. simpl in F.
  inversion F; subst; simpl in He, P1; try discriminate; try contradiction; try congruence.
  all: first [ exists above; split; [reflexivity|assumption]
             | match goal with |- exists _, ?x :: (?y :: _ ++ _) = _ /\ _ => exists (x :: y :: above) end; split; [reflexivity|]; repeat constructor; simpl; auto
             | match goal with |- exists _, ?x :: _ = _ /\ _ => exists (x :: above) end; split; [reflexivity|]; constructor; simpl; auto ].
Qed.

Lemma xt_keeps c t f tr1 tr2 s1 s :
  exec c tr1 s1 -> exec c (tr1 ++ tr2) s ->
  (forall s', exec c tr1 s' -> In f (tdt s' t) /\ in_xt t s') ->
  Forall (fun e => ending e = false) (own t tr2) ->
  In (t, CallT f) tr2 \/ (In f (tdt s t) /\ in_xt t s).
Proof.
  intros H1. revert s. induction tr2 as [|[u e] tr2 IH] using rev_ind; intros s H HS HN.
  - rewrite app_nil_r in H. right. apply HS. exact H.
  - rewrite app_assoc in H. snoc H s0 I E. rewrite own_app, own_one in HN. apply Forall_app in HN. destruct HN as [HN1 HN2].
    destruct (IH _ H HS HN1) as [C|[D X]]; [left; apply in_or_app; auto|].
    destruct (Nat.eq_dec u t) as [->|Hne].
    + rewrite Nat.eqb_refl in HN2. inversion HN2 as [|? ? He _]; subst.
      destruct X as [above [st [base [Hf Hp]]]].
      pose proof (fs _ _ _ _ _ _ I E) as F. pose proof (e_tdt _ _ _ _ _ E t) as TD. pose proof (e_guard _ _ _ _ _ E) as G.
      rewrite Hf in F. destruct above as [|fr above].
      * (* exit's own code, in XT *)
        simpl in F, Hf. inversion F; subst.
        -- rewrite Nat.eqb_refl in TD. destruct G as [l Hl]. rewrite Hl in TD, D. simpl in TD, D.
           destruct D as [->|D]; [left; apply in_or_app; simpl; auto|].
           right. rewrite TD. split; [exact D|].
           eexists [FUser (WT f0)], st, base. split; [symmetry; eassumption|]. repeat constructor.
        -- exfalso. rewrite (e_xt0 _ _ _ _ _ E st base Hf eq_refl) in D. destruct D.
      * right.
        assert (Hn : e <> Ret WThread).
        { intros ->. pose proof (i_stack _ _ _ I t) as [_ B]. rewrite Hf in B. simpl in B.
          simpl in F. inversion F; subst.
          - destruct B as [[B|B] _]; [destruct above; discriminate|discriminate].
          - congruence. }
        destruct (plain_step _ _ _ _ _ _ _ _ F He Hn Hp) as [above' [Hf' Hp']].
        split; [|exists above', st, base; auto].
        rewrite TD. simpl in F. inversion Hp as [|? ? P1 P2]; subst.
        inversion F; subst; simpl in P1; try contradiction; rewrite ?Nat.eqb_refl; simpl; auto.
        destruct (Nat.eqb_spec t v); auto. destruct G as [-> _]. pose proof (t_old _ _ _ _ _ _ I E). lia.
    + right. split.
      * rewrite (e_tdt _ _ _ _ _ E). destruct (Nat.eqb_spec t u); [congruence|]. pose proof (e_guard _ _ _ _ _ E) as G.
        destruct e as [ |? | | | | | | |? | | | | | | |v| | | ]; auto. destruct (Nat.eqb_spec t v); auto. destruct G as [-> _].
        exfalso. destruct (i_new _ _ _ I t) as [_ [N _]]; [lia|]. rewrite N in D. destruct D.
      * destruct X as [above [st [base [Hf Hp]]]]. exists above, st, base. split; [|exact Hp].
        destruct (fr_other _ _ _ _ _ _ I E t (not_eq_sym Hne)) as [->|[_ [_ [_ N]]]]; [exact Hf|].
        rewrite N in Hf. destruct above; discriminate.
Qed.

Lemma exec_det_prefix c a b s : exec c (a ++ b) s -> exists s0, exec c a s0.
Proof. apply exec_prefix. Qed.

Lemma in_calls_ct t f tr : In (CT f) (calls t tr) <-> In (t, CallT f) tr.
Proof.
  unfold calls. rewrite in_flat_map. split.
  - intros [e [H1 H2]]. apply own_in in H1. destruct e; simpl in H2; try contradiction; destruct H2 as [H2|[]]; try discriminate.
    inversion H2; subst; exact H1.
  - intros H. exists (CallT f). split; [apply own_in; exact H|simpl; auto].
Qed.
Lemma in_calls_cp t f tr : In (CP f) (calls t tr) <-> In (t, CallP f) tr.
Proof.
  unfold calls. rewrite in_flat_map. split.
  - intros [e [H1 H2]]. apply own_in in H1. destruct e; simpl in H2; try contradiction; destruct H2 as [H2|[]]; try discriminate.
    inversion H2; subst; exact H1.
  - intros H. exists (CallP f). split; [apply own_in; exact H|simpl; auto].
Qed.

Lemma not_xt_term st base t s : frames s t = FX st (XFini 0) :: base -> in_xt t s -> False.
Proof.
  intros Hf [above [st' [b [Hf' Hp]]]]. rewrite Hf in Hf'. destruct above as [|x above]; simpl in Hf'.
  - discriminate.
  - inversion Hf'; subst. inversion Hp; contradiction.
Qed.

(** ** program::exit: everything waiting on the thread is called. *)
Lemma exit_calls_waiting c t st before during tr o s :
  exits_by t st before during tr o -> exec c tr s ->
  forall f, In f (waiting t before) -> In (t, CallT f) during.
Proof.
  intros HX H f Hf. destruct (exits_inv _ _ _ _ _ _ _ _ HX H) as [s0 [base [H0 [Hfr _]]]].
  destruct HX as [_ HN].
  replace (before ++ (t, ExitCall st) :: during) with ((before ++ [(t, ExitCall st)]) ++ during) in H0 by (rewrite <- app_assoc; reflexivity).
  destruct (exec_prefix _ _ _ _ H0) as [s1 H1].
  destruct (xt_keeps c t f _ during s1 s0 H1 H0) as [C|[_ X]]; auto.
  - intros s' H'. snoc H' s2 I E. pose proof (fs _ _ _ _ _ _ I E) as F. pose proof (e_tdt _ _ _ _ _ E t) as TD.
    rewrite <- (i_wt _ _ _ I t) in Hf.
    assert (Ht : c_tae c = true).
    { destruct (c_tae c) eqn:Q; [reflexivity|]. rewrite (i_tae _ _ _ I Q) in Hf. destruct Hf. }
    split; [rewrite TD; exact Hf|].
    unfold in_xt. inversion F; subst; unfold first_phase in *; rewrite Ht in *.
    + exists [], st, (FUser w :: fs). auto.
    + exists [], st, fs. auto.
  - exfalso. eapply not_xt_term; eauto.
Qed.

(** Registered by thread::at_exit during the exit: called exactly when the
    registering function was itself a thread::at_exit function. *)
Lemma exit_calls_new c t st before d1 d2 f tr o s :
  exits_by t st before (d1 ++ (t, RegT f) :: d2) tr o -> exec c tr s ->
  exists l x, calls t d1 = l ++ [x] /\
    (In (t, CallT f) d2 <-> exists g, x = CT g).
Proof.
  intros HX H. destruct (exits_inv _ _ _ _ _ _ _ _ HX H) as [s0 [base [H0 [Hfr [_ [lt [lp HC]]]]]]].
  destruct HX as [_ HN]. rewrite own_app in HN. apply Forall_app in HN. destruct HN as [HN1 HN2].
  rewrite own_cons, Nat.eqb_refl in HN2. simpl in HN2. inversion HN2 as [|? ? _ HN3]; subst.
  replace (before ++ (t, ExitCall st) :: d1 ++ (t, RegT f) :: d2) with (((before ++ (t, ExitCall st) :: d1) ++ [(t, RegT f)]) ++ d2) in H0
    by (rewrite <- !app_assoc; reflexivity).
  destruct (exec_prefix _ _ _ _ H0) as [s1 H1]. pose proof H1 as H1'. snoc H1 s2 I E.
  pose proof (seg_exec _ _ _ _ _ _ H1 HN1) as [above [p [b [Hf [Ha Hs]]]]].
  pose proof (fs _ _ _ _ _ _ I E) as F. rewrite Hf in F.
  destruct Ha as [|w l Hm Hc|fr w l Hr Hm Hc]; simpl in F; inversion F; subst; try contradiction.
  destruct w as [ | |g|g|k]; try (destruct p; contradiction); simpl in Hc.
  - exists l, (CT g). split; [exact Hc|]. split; [eauto|]. intros _.
    destruct p; try contradiction.
    destruct (xt_keeps c t f _ d2 s1 s0 H1' H0) as [C|[_ X]]; auto.
    + intros s' H'. snoc H' s3 I3 E3. split.
      * rewrite (e_tdt _ _ _ _ _ E3), Nat.eqb_refl. simpl; auto.
      * (* the frames at this point are determined by the segment invariant *)
        pose proof (seg_exec _ _ _ _ _ _ H' HN1) as [above3 [p3 [b3 [Hf3 [Ha3 Hs3]]]]].
        pose proof (fs _ _ _ _ _ _ I3 E3) as F3. rewrite Hf3 in F3.
        destruct Ha3 as [|w3 l3 Hm3 Hc3|fr3 w3 l3 Hr3 Hm3 Hc3]; simpl in F3; inversion F3; subst; try contradiction.
        rewrite Hc in Hc3.
        destruct w3; try (destruct p3; contradiction); simpl in Hc3; apply app_inj_tail in Hc3; destruct Hc3 as [_ Hc3]; try discriminate.
        destruct p3; try contradiction. exists [FUser (WT f0)], st, b3. split; [auto|repeat constructor].
    + exfalso. eapply not_xt_term; eauto.
  - exists l, (CP g). split; [exact Hc|]. split; [|intros [? ?]; discriminate].
    intros Hin. exfalso. destruct p; try contradiction. apply in_calls_ct in Hin.
    rewrite calls_app, Hc in HC. replace ((t, RegT f) :: d2) with ([(t, RegT f)] ++ d2) in HC by reflexivity.
    rewrite calls_app in HC. unfold calls at 1 in HC. rewrite own_one, Nat.eqb_refl in HC. simpl in HC.
    apply in_split in Hin. destruct Hin as [x [y Hxy]]. rewrite Hxy in HC.
    (* a CT after a CP contradicts the shape *)
    clear - HC. rewrite <- app_assoc in HC. simpl in HC.
    revert l HC. induction lt as [|a lt IH]; intros l HC; simpl in HC.
    + assert (In (CT f) (map CP lp ++ map CF (rev (seq 0 (nfini c))))).
      { rewrite <- HC. apply in_or_app. right. simpl. right. apply in_or_app. simpl. auto. }
      apply in_app_or in H. destruct H as [H|H]; apply in_map_iff in H; destruct H as [? [? _]]; discriminate.
    + destruct l as [|z l]; simpl in HC; inversion HC; subst; eauto.
  - exists l, (CF k). split; [exact Hc|]. split; [|intros [? ?]; discriminate].
    intros Hin. exfalso. destruct p; try contradiction. apply in_calls_ct in Hin.
    rewrite calls_app, Hc in HC. replace ((t, RegT f) :: d2) with ([(t, RegT f)] ++ d2) in HC by reflexivity.
    rewrite calls_app in HC. unfold calls at 1 in HC. rewrite own_one, Nat.eqb_refl in HC. simpl in HC.
    apply in_split in Hin. destruct Hin as [x [y Hxy]]. rewrite Hxy in HC.
    clear - HC. rewrite <- app_assoc in HC. simpl in HC.
    revert l HC. induction lt as [|a lt IH]; intros l HC; simpl in HC.
    + assert (In (CT f) (map CP lp ++ map CF (rev (seq 0 (nfini c))))).
      { rewrite <- HC. apply in_or_app. right. simpl. right. apply in_or_app. simpl. auto. }
      apply in_app_or in H. destruct H as [H|H]; apply in_map_iff in H; destruct H as [? [? _]]; discriminate.
    + destruct l as [|z l]; simpl in HC; inversion HC; subst; eauto.
Qed.

(** ** Every program::at_exit registration is taken, and called if this is the
    only thread that exits the program. *)
Lemma regp_taken c t st before during tr o s :
  c_thread c = true -> c_pae c = true ->
  exits_by t st before during tr o -> exec c tr s ->
  forall u f, In (u, RegP f) tr -> exists v, In (v, Take f) tr.
Proof.
  intros Hc Hp HX H u f Hf. pose proof (exits_inv _ _ _ _ _ _ _ _ HX H) as [s0 [base [H0 [Hfr _]]]].
  pose proof (exec_inv _ _ _ H0) as I0.
  assert (D : pdt s0 = []) by (apply (drained _ _ _ H0 Hc Hp t); rewrite Hfr; reflexivity).
  assert (HT : tr = (before ++ (t, ExitCall st) :: during) ++ [(t, Term o)])
    by (destruct HX as [-> _]; rewrite <- app_assoc; reflexivity).
  rewrite HT in Hf. apply in_snoc in Hf. destruct Hf as [Hf|Hf]; [|inversion Hf].
  assert (R : In f (pick g_take (before ++ (t, ExitCall st) :: during))).
  { pose proof (i_permp _ _ _ I0) as P. rewrite D, app_nil_r in P.
    eapply Permutation_in; [exact P|]. apply pick_in. exists u, (RegP f). simpl; auto. }
  apply pick_in in R. destruct R as [v [e [R1 R2]]]. destruct e; simpl in R2; try contradiction.
  destruct R2 as [->|[]]. exists v. rewrite HT. apply in_or_app; auto.
Qed.

Lemma regp_called c t st before during tr o s :
  c_thread c = true -> c_pae c = true ->
  exits_by t st before during tr o -> exec c tr s ->
  (forall u st', In (u, ExitCall st') tr -> u = t) ->
  forall u f, In (u, RegP f) tr -> In (t, CallP f) tr.
Proof.
  intros Hc Hp HX H HO u f Hf. destruct (regp_taken _ _ _ _ _ _ _ _ Hc Hp HX H u f Hf) as [v Hv].
  pose proof (exits_inv _ _ _ _ _ _ _ _ HX H) as [s0 [base [H0 [Hfr _]]]].
  destruct (take_exit _ _ _ H v) as [_ TE]. destruct (TE f Hv) as [st' Hst]. apply HO in Hst. subst v.
  assert (HT : tr = (before ++ (t, ExitCall st) :: during) ++ [(t, Term o)])
    by (destruct HX as [-> _]; rewrite <- app_assoc; reflexivity).
  rewrite HT in Hv. apply in_snoc in Hv. destruct Hv as [Hv|Hv]; [|inversion Hv].
  pose proof (i_take _ _ _ (exec_inv _ _ _ H0) t) as P. rewrite Hfr in P. simpl in P. rewrite app_nil_r in P.
  assert (R : In f (opick g_callp t (before ++ (t, ExitCall st) :: during))).
  { rewrite <- P. apply opick_in. exists (Take f). simpl; auto. }
  apply opick_in in R. destruct R as [e [R1 R2]]. destruct e; simpl in R2; try contradiction.
  destruct R2 as [->|[]]. rewrite HT. apply in_or_app; auto.
Qed.

(** Functions on the list when the exit begins are taken during it (all
    configurations). *)
Definition pre_empty (c : dcfg) (s : dst) (t : nat) : Prop :=
  exists above st p base, frames s t = above ++ FX st p :: base /\ Forall plain above /\ isfini (FX st p) = false.

Lemma listed_kept c t f tr1 tr2 st s :
  c_pae c = true ->
  exec c (tr1 ++ (t, ExitCall st) :: tr2) s -> In f (listed tr1) ->
  Forall (fun e => ending e = false) (own t tr2) ->
  (exists u, In (u, Take f) tr2) \/ (In f (pdt s) /\ pre_empty c s t).
Proof.
  intros Hp. revert s. induction tr2 as [|[u e] tr2 IH] using rev_ind; intros s H HS HN.
  - right. snoc H s0 I E. rewrite (e_pdt _ _ _ _ _ E), (i_wp _ _ _ I). split; [exact HS|].
    assert (Q : isfini (FX st (first_phase c)) = false)
      by (unfold first_phase, after_t; rewrite Hp; destruct (c_tae c); reflexivity).
    pose proof (fs _ _ _ _ _ _ I E) as F. unfold pre_empty.
    inversion F; subst.
    + exists [], st, (first_phase c), (FUser w :: fs). auto.
    + exists [], st, (first_phase c), fs. auto.
  - replace (tr1 ++ (t, ExitCall st) :: tr2 ++ [(u, e)]) with ((tr1 ++ (t, ExitCall st) :: tr2) ++ [(u, e)]) in H
      by (rewrite <- app_assoc; reflexivity).
    snoc H s0 I E. rewrite own_app, own_one in HN. apply Forall_app in HN. destruct HN as [HN1 HN2].
    destruct (IH _ H HS HN1) as [[v C]|[D X]]; [left; exists v; apply in_or_app; auto|].
    pose proof (e_pdt _ _ _ _ _ E) as PD. pose proof (e_guard _ _ _ _ _ E) as G.
    assert (K : (exists v, In (v, Take f) (tr2 ++ [(u, e)])) \/ In f (pdt s)).
    { rewrite PD. destruct e; auto; [right; simpl; auto|]. destruct G as [l Hl]. rewrite Hl in *. simpl in *.
      destruct D as [->|D]; [left; exists u; apply in_or_app; simpl; auto|auto]. }
    destruct K as [K|K]; [auto|]. right. split; [exact K|].
    destruct X as [above [st' [p [base [Hf [Hpl Hfi]]]]]].
    destruct (Nat.eq_dec u t) as [->|Hne].
    + rewrite Nat.eqb_refl in HN2. inversion HN2 as [|? ? He _]; subst.
      pose proof (fs _ _ _ _ _ _ I E) as F. rewrite Hf in F. destruct above as [|fr above].
      * simpl in F, Hf. unfold pre_empty. inversion F; subst.
        -- eexists [FUser (WT f0)], st', XT, base. repeat split; auto. repeat constructor.
        -- eexists [], st', (after_t c), base. repeat split; auto. unfold after_t. rewrite Hp. reflexivity.
        -- eexists [], st', XPop, base. repeat split; auto.
        -- eexists [], st', (XUnlock f0), base. repeat split; auto.
        -- exfalso. rewrite G in D. destruct D.
        -- eexists [], st', (XCall f0), base. repeat split; auto.
        -- eexists [FUser (WP f0)], st', XLock, base. repeat split; auto. 
        -- discriminate.
        -- discriminate.
      * assert (Hn : e <> Ret WThread).
        { intros ->. pose proof (i_stack _ _ _ I t) as [_ B]. rewrite Hf in B. simpl in B.
          simpl in F. inversion F; subst.
          - destruct B as [[B|B] _]; [destruct above; discriminate|discriminate].
          - congruence. }
        destruct (plain_step _ _ _ _ _ _ _ _ F He Hn Hpl) as [above' [Hf' Hp']].
        exists above', st', p, base. auto.
    + exists above, st', p, base. split; [|auto].
      destruct (fr_other _ _ _ _ _ _ I E t (not_eq_sym Hne)) as [->|[_ [_ [_ N]]]]; [exact Hf|].
      rewrite N in Hf. destruct above; discriminate.
Qed.

Lemma exit_takes_listed c t st before during tr o s :
  c_pae c = true -> exits_by t st before during tr o -> exec c tr s ->
  forall f, In f (listed before) -> exists u, In (u, Take f) during.
Proof.
  intros Hp HX H f Hf. pose proof (exits_inv _ _ _ _ _ _ _ _ HX H) as [s0 [base [H0 [Hfr _]]]].
  destruct HX as [_ HN].
  destruct (listed_kept c t f before during st s0 Hp H0 Hf HN) as [T|[_ X]]; [exact T|].
  exfalso. destruct X as [above [st' [p [b [Hf' [Hpl Hfi]]]]]]. rewrite Hfr in Hf'.
  destruct above as [|x above]; simpl in Hf'; inversion Hf'; subst; [discriminate|].
  inversion Hpl; contradiction.
Qed.
