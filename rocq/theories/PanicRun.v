(** program::exit and the end of a thread after panics: they run to the end,
    calling what is left.  The first section is DtorsTop4.v for any predicate on
    histories that the steps of DtorsModel.v preserve. *)
From Coq Require Import ZArith List Bool Lia Arith Permutation.
From Verif Require Import LayoutModel DtorsModel DtorsSpec DtorsFacts DtorsInv DtorsPres DtorsTop DtorsTop2 DtorsTop4 PanicModel PanicSpec PanicInv PanicTop.
Import ListNotations.

Section Run.
Variable c : dcfg.
Variable E : trace -> dst -> Prop.
Hypothesis EH : forall tr s t a e s', E tr s -> dstep c s t a = Some (e, s') -> E (tr ++ [(t, e)]) s'.

Lemma pquiet_t t fr l0 : (fr = FDtors /\ c_tae c = true) \/ (exists st, fr = FX st XT) ->
  forall l tr s, E tr s -> term s = None -> frames s t = fr :: l0 -> tdt s t = l ->
  exists tr' s', E (tr ++ tr') s' /\ term s' = None /\ frames s' t = fr :: l0 /\ tdt s' t = [] /\ pdt s' = pdt s /\ lk s' = lk s /\
    solo t tr' /\ calls t tr' = map CT l.
Proof.
  intros Hfr. induction l as [|f l IH]; intros tr s H HT Hf Hd.
  - exists [], s. rewrite app_nil_r. repeat split; auto; try constructor.
  - set (s1 := set_frames (set_tdt s t l) t (FUser (WT f) :: fr :: l0)).
    assert (D1 : dstep c s t AGo = Some (CallT f, s1)).
    { unfold dstep. rewrite HT, Hf. destruct Hfr as [[-> Ht]|[st ->]]; simpl; rewrite ?Ht, Hd; reflexivity. }
    pose proof (EH _ _ _ _ _ _ H D1) as H1.
    assert (F1 : frames s1 t = FUser (WT f) :: fr :: l0) by (unfold s1; simpl; apply dupd_eq).
    set (s2 := set_frames s1 t (fr :: l0)).
    assert (D2 : dstep c s1 t (ARet 0) = Some (Ret (WT f), s2)).
    { unfold dstep. rewrite F1. unfold s1 at 1. simpl. rewrite HT. reflexivity. }
    pose proof (EH _ _ _ _ _ _ H1 D2) as H2.
    destruct (IH _ _ H2) as [tr' [s' [E1 [E2 [E3 [E4 [E5 [E6 [E7 E8]]]]]]]]].
    + unfold s2, s1. simpl. assumption.
    + unfold s2. simpl. apply dupd_eq.
    + unfold s2, s1. simpl. apply dupd_eq.
    + exists ([(t, CallT f); (t, Ret (WT f))] ++ tr'), s'.
      repeat split; auto.
      * rewrite <- !app_assoc in E1. exact E1.
      * destruct E7 as [E7 _]. repeat constructor; assumption.
      * destruct E7 as [_ E7]. rewrite own_app. apply Forall_app. split; [|assumption].
        rewrite !own_cons, Nat.eqb_refl. simpl. repeat constructor.
      * rewrite calls_app, E8. unfold calls. rewrite !own_cons, Nat.eqb_refl. reflexivity.
Qed.

Lemma pquiet_p t st l0 :
  forall l tr s, E tr s -> term s = None -> (c_thread c = true -> lk s = None) -> frames s t = FX st XLock :: l0 -> pdt s = l ->
  exists tr' s', E (tr ++ tr') s' /\ term s' = None /\ frames s' t = FX st (XFini (nfini c)) :: l0 /\
    solo t tr' /\ calls t tr' = map CP l.
Proof.
  induction l as [|f l IH]; intros tr s H HT HL Hf Hd.
  - set (s0 := if c_thread c then set_lk s (Some t) else s).
    assert (T0 : try_lock c s t = Some s0).
    { unfold try_lock, s0. destruct (c_thread c); [rewrite (HL eq_refl)|]; reflexivity. }
    assert (P0 : pdt s0 = []) by (unfold s0; destruct (c_thread c); exact Hd).
    assert (Q0 : term s0 = None) by (unfold s0; destruct (c_thread c); exact HT).
    set (s1 := set_frames s0 t (FX st XPop :: l0)).
    assert (D1 : dstep c s t AGo = Some (Lock, s1)) by (unfold dstep; rewrite HT, Hf; simpl; rewrite T0; reflexivity).
    pose proof (EH _ _ _ _ _ _ H D1) as H1.
    set (s2 := set_frames s1 t (FX st (XFini (nfini c)) :: l0)).
    assert (D2 : dstep c s1 t AGo = Some (Empty, s2)).
    { unfold dstep. unfold s1 at 1 2. simpl. rewrite Q0, dupd_eq. simpl. rewrite P0. reflexivity. }
    pose proof (EH _ _ _ _ _ _ H1 D2) as H2.
    exists [(t, Lock); (t, Empty)], s2. rewrite <- app_assoc in H2. split; [exact H2|]. split; [exact Q0|]. split; [|split; [split|]].
    + unfold s2; simpl; apply dupd_eq.
    + repeat constructor.
    + rewrite !own_cons, Nat.eqb_refl. repeat constructor.
    + unfold calls. rewrite !own_cons, Nat.eqb_refl. reflexivity.
  - set (s0 := if c_thread c then set_lk s (Some t) else s).
    assert (T0 : try_lock c s t = Some s0).
    { unfold try_lock, s0. destruct (c_thread c); [rewrite (HL eq_refl)|]; reflexivity. }
    assert (P0 : pdt s0 = f :: l) by (unfold s0; destruct (c_thread c); exact Hd).
    assert (Q0 : term s0 = None) by (unfold s0; destruct (c_thread c); exact HT).
    set (s1 := set_frames s0 t (FX st XPop :: l0)).
    assert (D1 : dstep c s t AGo = Some (Lock, s1)) by (unfold dstep; rewrite HT, Hf; simpl; rewrite T0; reflexivity).
    pose proof (EH _ _ _ _ _ _ H D1) as H1.
    set (s2 := set_frames (set_pdt s1 l) t (FX st (XUnlock f) :: l0)).
    assert (D2 : dstep c s1 t AGo = Some (Take f, s2)).
    { unfold dstep. unfold s1 at 1 2. simpl. rewrite Q0, dupd_eq. simpl. rewrite P0. reflexivity. }
    pose proof (EH _ _ _ _ _ _ H1 D2) as H2.
    set (s3 := set_frames (unlock c s2) t (FX st (XCall f) :: l0)).
    assert (D3 : dstep c s2 t AGo = Some (Unlock, s3)).
    { unfold dstep. unfold s2 at 1 2. simpl. rewrite Q0, dupd_eq. reflexivity. }
    pose proof (EH _ _ _ _ _ _ H2 D3) as H3.
    assert (Q3 : term s3 = None) by (unfold s3, unlock; destruct (c_thread c); exact Q0).
    set (s4 := set_frames s3 t (FUser (WP f) :: FX st XLock :: l0)).
    assert (D4 : dstep c s3 t AGo = Some (CallP f, s4)).
    { unfold dstep. rewrite Q3. unfold s3 at 1. simpl. rewrite dupd_eq. reflexivity. }
    pose proof (EH _ _ _ _ _ _ H3 D4) as H4.
    set (s5 := set_frames s4 t (FX st XLock :: l0)).
    assert (D5 : dstep c s4 t (ARet 0) = Some (Ret (WP f), s5)).
    { unfold dstep. unfold s4 at 1 2. change (term (set_frames s3 t (FUser (WP f) :: FX st XLock :: l0))) with (term s3).
      rewrite Q3. simpl. rewrite dupd_eq. reflexivity. }
    pose proof (EH _ _ _ _ _ _ H4 D5) as H5.
    destruct (IH _ _ H5) as [tr' [s' [E1 [E2 [E3 [E4 E5]]]]]].
    + exact Q3.
    + intros Hc. unfold s5, s4, s3, unlock. rewrite Hc. reflexivity.
    + unfold s5. simpl. apply dupd_eq.
    + unfold s5, s4, s3, unlock. destruct (c_thread c); reflexivity.
    + exists ([(t, Lock); (t, Take f); (t, Unlock); (t, CallP f); (t, Ret (WP f))] ++ tr'), s'.
      repeat split; auto.
      * rewrite <- !app_assoc in E1. exact E1.
      * destruct E4 as [E4 _]. repeat constructor; assumption.
      * destruct E4 as [_ E4]. rewrite own_app. apply Forall_app. split; [|assumption].
        rewrite !own_cons, Nat.eqb_refl. simpl. repeat constructor.
      * rewrite calls_app, E5. unfold calls. rewrite !own_cons, Nat.eqb_refl. reflexivity.
Qed.

Lemma pquiet_f t st l0 :
  forall k tr s, E tr s -> term s = None -> frames s t = FX st (XFini k) :: l0 ->
  exists tr' s', E (tr ++ tr' ++ [(t, Term (Exited st))]) s' /\ solo t tr' /\ calls t tr' = map CF (rev (seq 0 k)).
Proof.
  induction k as [|k IH]; intros tr s H HT Hf.
  - exists []. eexists. simpl. split; [|split; [apply solo_nil|reflexivity]].
    eapply EH; [exact H|]. instantiate (2 := AGo). unfold dstep. rewrite HT, Hf. reflexivity.
  - set (s1 := set_frames s t (FUser (WF k) :: FX st (XFini k) :: l0)).
    assert (D1 : dstep c s t AGo = Some (CallF k, s1)) by (unfold dstep; rewrite HT, Hf; reflexivity).
    pose proof (EH _ _ _ _ _ _ H D1) as H1.
    set (s2 := set_frames s1 t (FX st (XFini k) :: l0)).
    assert (D2 : dstep c s1 t (ARet 0) = Some (Ret (WF k), s2)).
    { unfold dstep. unfold s1 at 1 2. simpl. rewrite HT, dupd_eq. reflexivity. }
    pose proof (EH _ _ _ _ _ _ H1 D2) as H2.
    destruct (IH _ _ H2) as [tr' [s' [E1 [E2 E3]]]].
    + exact HT.
    + unfold s2. simpl. apply dupd_eq.
    + exists ([(t, CallF k); (t, Ret (WF k))] ++ tr'), s'. split; [|split].
      * rewrite <- !app_assoc in E1. exact E1.
      * destruct E2 as [E2 E2']. split; [repeat constructor; assumption|].
        rewrite own_app. apply Forall_app. split; [|assumption]. rewrite !own_cons, Nat.eqb_refl. repeat constructor.
      * rewrite calls_app, E3. unfold calls. rewrite !own_cons, Nat.eqb_refl. rewrite seq_S, rev_app_distr. reflexivity.
Qed.


Lemma pexit_runs tr s t w l0 st : E tr s -> term s = None -> frames s t = FUser w :: l0 ->
  (c_thread c = true -> lk s = None) -> (c_tae c = false -> tdt s t = []) -> (c_pae c = false -> pdt s = []) ->
  exists during s', E (tr ++ (t, ExitCall st) :: during ++ [(t, Term (Exited st))]) s' /\ solo t during /\
    calls t during = map CT (tdt s t) ++ map CP (pdt s) ++ map CF (rev (seq 0 (nfini c))).
Proof.
  intros H HT Hf HL HA HB.
  set (s1 := set_frames s t (FX st (first_phase c) :: FUser w :: l0)).
  assert (D1 : dstep c s t (AExit st) = Some (ExitCall st, s1)) by (unfold dstep; rewrite HT, Hf; reflexivity).
  pose proof (EH _ _ _ _ _ _ H D1) as H1.
  assert (L1 : c_thread c = true -> lk s1 = None) by (intros Hc; unfold s1; simpl; auto).
  assert (ST : exists tr2 s2, E ((tr ++ [(t, ExitCall st)]) ++ tr2) s2 /\ term s2 = None /\
     frames s2 t = FX st (after_t c) :: FUser w :: l0 /\ pdt s2 = pdt s /\ lk s2 = lk s1 /\ solo t tr2 /\ calls t tr2 = map CT (tdt s t)).
  { unfold first_phase in *. destruct (c_tae c) eqn:Ht.
    - destruct (pquiet_t t (FX st XT) (FUser w :: l0) (or_intror (ex_intro _ st eq_refl)) (tdt s1 t) _ _ H1)
        as [tr' [s' [E1 [E2 [E3 [E4 [E5 [E6 [E7 E8]]]]]]]]].
      + exact HT.
      + unfold s1; simpl; apply dupd_eq.
      + reflexivity.
      + set (s2 := set_frames s' t (FX st (after_t c) :: FUser w :: l0)).
        assert (D2 : dstep c s' t AGo = Some (Nop, s2)) by (unfold dstep; rewrite E2, E3; simpl; rewrite E4; reflexivity).
        exists (tr' ++ [(t, Nop)]), s2. repeat split.
        * rewrite app_assoc. eapply EH; eauto.
        * exact E2.
        * unfold s2; simpl; apply dupd_eq.
        * unfold s2; simpl. rewrite E5. reflexivity.
        * unfold s2; simpl. rewrite E6. reflexivity.
        * apply (solo_app t tr' [(t, Nop)] E7 (solo_one t Nop eq_refl)).
        * apply (solo_app t tr' [(t, Nop)] E7 (solo_one t Nop eq_refl)).
        * rewrite calls_app, E8, calls_solo, app_nil_r. reflexivity.
    - exists [], s1. rewrite app_nil_r. repeat split; auto; try constructor.
      + unfold s1; simpl; apply dupd_eq.
      + rewrite (HA eq_refl). reflexivity. }
  destruct ST as [tr2 [s2 [A1 [A2 [A3 [A4 [A5 [A6 A7]]]]]]]].
  assert (SP : exists tr3 s3, E (((tr ++ [(t, ExitCall st)]) ++ tr2) ++ tr3) s3 /\ term s3 = None /\
     frames s3 t = FX st (XFini (nfini c)) :: FUser w :: l0 /\ solo t tr3 /\ calls t tr3 = map CP (pdt s)).
  { unfold after_t in A3. destruct (c_pae c) eqn:Hp.
    - destruct (pquiet_p t st (FUser w :: l0) (pdt s2) _ _ A1 A2) as [tr' [s' [E1 [E2 [E3 [E4 E5]]]]]]; auto.
      + intros Hc. rewrite A5. auto.
      + exists tr', s'. repeat split; auto; try apply E4. rewrite E5, A4. reflexivity.
    - exists [], s2. rewrite app_nil_r. repeat split; auto; try constructor.
      rewrite (HB eq_refl). reflexivity. }
  destruct SP as [tr3 [s3 [B1 [B2 [B3 [B4 B5]]]]]].
  destruct (pquiet_f t st (FUser w :: l0) (nfini c) _ _ B1 B2 B3) as [tr4 [s4 [C1 [C2 C3]]]].
  exists (tr2 ++ tr3 ++ tr4), s4.
  assert (EQ : tr ++ (t, ExitCall st) :: (tr2 ++ tr3 ++ tr4) ++ [(t, Term (Exited st))] =
     (((tr ++ [(t, ExitCall st)]) ++ tr2) ++ tr3) ++ tr4 ++ [(t, Term (Exited st))]).
  { rewrite <- !app_assoc. reflexivity. }
  split; [rewrite EQ; exact C1|]. split; [repeat apply solo_app; assumption|].
  rewrite !calls_app, A7, B5, C3. reflexivity.
Qed.
Lemma pthread_runs tr s t : E tr s -> term s = None -> frames s t = [FDtors] -> (c_tae c = false -> tdt s t = []) ->
  exists tr' s', E (tr ++ tr' ++ [(t, ThreadDone)]) s' /\ solo t tr' /\ calls t tr' = map CT (tdt s t).
Proof.
  intros H HT Hf HA. destruct (c_tae c) eqn:Ht.
  - destruct (pquiet_t t FDtors [] (or_introl (conj eq_refl Ht)) _ _ _ H HT Hf eq_refl)
      as [tr' [s' [E1 [E2 [E3 [E4 [E5 [E6 [E7 E8]]]]]]]]].
    exists tr'. eexists. rewrite app_assoc. split; [|auto].
    eapply EH; [exact E1|]. instantiate (2 := AGo). unfold dstep. rewrite E2, E3. simpl. rewrite Ht, E4. reflexivity.
  - exists []. eexists. simpl. split; [|split; [apply solo_nil|]].
    + eapply EH; [exact H|]. instantiate (2 := AGo). unfold dstep. rewrite HT, Hf. simpl. rewrite Ht. reflexivity.
    + rewrite (HA eq_refl). reflexivity.
Qed.
End Run.

Lemma pnopae c tr s : pexec c tr s -> c_pae c = false -> pdt s = [].
Proof.
  intros H Hp. revert tr s H. refine (pexec_ind' c _ _ _ _ _); auto.
  intros tr s t e s' H J IH D. rewrite (e_pdt _ _ _ _ _ D), IH.
  pose proof (fs _ _ _ _ _ _ J D) as F. pose proof (i_pae _ _ _ J Hp t) as P.
  destruct e; auto. inversion F as [ | | | | | | | | | | |f0 fs0 Hf1 Hf2| | | | | | | | | | | | | | ]; subst.
  rewrite <- Hf1 in P. discriminate.
Qed.

(** program::exit called after any history of panics. *)
Lemma pexit_again c tr s t w l0 st : pexec c tr s -> term s = None -> frames s t = FUser w :: l0 ->
  (c_thread c = true -> holder (plainly tr) = None) ->
  exists during s', pexec c (tr ++ (t, PEv (ExitCall st)) :: lift during ++ [(t, PEv (Term (Exited st)))]) s' /\
    Forall (fun x => fst x = t) during /\ Forall (fun e => ending e = false) (own t during) /\
    calls t during = map CT (waiting t (plainly tr)) ++ map CP (listed (plainly tr)) ++ map CF (rev (seq 0 (nfini c))).
Proof.
  intros H HT Hf HL. destruct (pexec_inv _ _ _ H) as [J _].
  destruct (pexit_runs c (fun l s' => pexec c (tr ++ lift l) s')) with (tr := @nil (nat * event)) (s := s) (t := t) (w := w) (l0 := l0) (st := st) as (during & s' & A & [B1 B2] & C).
  - intros l s0 u a e s1 K D. cbn beta. rewrite lift_app, app_assoc. eapply px_step with (a := PA a); [exact K|]. cbn. now rewrite D.
  - cbn. now rewrite app_nil_r.
  - exact HT.
  - exact Hf.
  - intros Hc. rewrite (i_lk _ _ _ J Hc). auto.
  - intros Ht. apply (i_tae _ _ _ J Ht).
  - apply (pnopae _ _ _ H).
  - exists during, s'. cbn beta in A. change ([] ++ ?x) with x in A. change (lift ((t, ExitCall st) :: ?x)) with ((t, PEv (ExitCall st)) :: lift x) in A. rewrite lift_app in A.
    split; [exact A|]. split; [exact B1|]. split; [exact B2|]. rewrite <- (i_wt _ _ _ J), <- (i_wp _ _ _ J). exact C.
Qed.
Lemma pthread_again c tr s t : pexec c tr s -> term s = None -> frames s t = [FDtors] ->
  exists during s', pexec c (tr ++ lift during ++ [(t, PEv ThreadDone)]) s' /\
    Forall (fun x => fst x = t) during /\ calls t during = map CT (waiting t (plainly tr)).
Proof.
  intros H HT Hf. destruct (pexec_inv _ _ _ H) as [J _].
  destruct (pthread_runs c (fun l s' => pexec c (tr ++ lift l) s')) with (tr := @nil (nat * event)) (s := s) (t := t) as (during & s' & A & [B1 B2] & C).
  - intros l s0 u a e s1 K D. cbn beta. rewrite lift_app, app_assoc. eapply px_step with (a := PA a); [exact K|]. cbn. now rewrite D.
  - cbn. now rewrite app_nil_r.
  - exact HT.
  - exact Hf.
  - intros Ht. apply (i_tae _ _ _ J Ht).
  - exists during, s'. cbn beta in A. change ([] ++ ?x) with x in A. rewrite lift_app in A.
    split; [exact A|]. split; [exact B1|]. rewrite <- (i_wt _ _ _ J). exact C.
Qed.
