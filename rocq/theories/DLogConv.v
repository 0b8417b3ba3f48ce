(** Histories with log statements: they are those without, and conversely. *)
From Coq Require Import ZArith List Bool Lia Arith.
From Verif Require Import LayoutModel DtorsModel DtorsSpec DtorsFacts DLogModel DLogSpec DLogProofs.
Import ListNotations.
Local Open Scope nat_scope.

Lemma silence_app a b : silence (a ++ b) = silence a ++ silence b.
Proof. apply flat_map_app. Qed.
Lemma quiet_inv tr x : quiet (tr ++ [x]) -> quiet tr /\ (busy (fst x) tr = true -> forall e, snd x <> Ev e).
Proof. intros H. inversion H as [E|tr' x' Q B E]; [destruct tr; discriminate|]. apply app_inj_tail in E. destruct E; subst. auto. Qed.

Section Conv.
Variable c : lcfg.

Lemma quiet_exec : forall tr s, lexec c tr s -> quiet tr -> exists d, exec (l_dtors c) (silence tr) d /\ sim c tr s d.
Proof.
  induction 1 as [|tr s t a e s' H IH St]; intros Q.
  - exists dinit. split; [constructor|apply sim_init].
  - apply quiet_inv in Q. destruct Q as [Q B]. destruct (IH Q) as (d & E & S). destruct (sim_step c _ _ _ _ _ _ _ S St B) as (d' & F & S').
    exists d'. split; [|exact S']. rewrite silence_app. destruct e; cbn in F |- *; subst; rewrite ?app_nil_r; auto.
    destruct F as [a' F]. econstructor; eauto.
Qed.

(** The other direction: thread [t] of [s] has stack [fs] and list [td],
    everything else is as in [d]. *)
Record near (s : lst) (d : dst) (t : nat) (fs : list lframe) (td : list fid) : Prop := Near {
  n_fr : lfr s t = fs; n_td : ltdt s t = td;
  n_of : forall u, u <> t -> lfr s u = map LF (frames d u); n_ot : forall u, u <> t -> ltdt s u = tdt d u;
  n_pd : lpdt s = pdt d; n_lk : llk s = lk d; n_nf : lnextf s = nextf d; n_nt : lnthr s = nthr d; n_tm : lterm s = term d }.
(** A quiet history in which no logger is running now. *)
Definition still (tr : ltrace) (s : lst) : Prop := lexec c tr s /\ quiet tr /\ forall u, busy u tr = false.

Lemma still_ev tr s t a e s' : still tr s -> lstep c s t a = Some (Ev e, s') -> still (tr ++ [(t, Ev e)]) s'.
Proof.
  intros (E & Q & B) H. split; [econstructor; eauto|]. split; [constructor; [exact Q|]; cbn; rewrite B; discriminate|].
  intros u. rewrite busy_snoc. unfold busy_step. cbn. destruct (Nat.eqb t u); apply B.
Qed.
Lemma still_tau tr s t a s' : still tr s -> lstep c s t a = Some (Tau, s') -> still (tr ++ [(t, Tau)]) s'.
Proof.
  intros (E & Q & B) H. split; [econstructor; eauto|]. split; [constructor; [exact Q|]; cbn; discriminate|].
  intros u. rewrite busy_snoc. unfold busy_step. cbn. destruct (Nat.eqb t u); apply B.
Qed.
Lemma still_take tr s t a f s' : still tr s -> lstep c s t a = Some (TakeT f, s') -> still (tr ++ [(t, TakeT f)]) s'.
Proof.
  intros (E & Q & B) H. split; [econstructor; eauto|]. split; [constructor; [exact Q|]; cbn; discriminate|].
  intros u. rewrite busy_snoc. unfold busy_step. cbn. destruct (Nat.eqb t u); apply B.
Qed.
(** The logger is called and returns. *)
Lemma hush tr s d t m fs td : still tr s -> lterm s = None -> near s d t (say c m fs) td ->
  exists tr' s', still tr' s' /\ near s' d t fs td /\ silence tr' = silence tr.
Proof.
  intros (E & Q & B) T N. unfold say in N. destruct (l_log c); [|exists tr, s; repeat split; try assumption; apply N].
  pose (s1 := lset s t (LLog m :: fs)). pose (s2 := lset s1 t fs).
  assert (S1 : lstep c s t AGo = Some (Say m, s1)) by (unfold lstep; rewrite T, (n_fr _ _ _ _ _ N); reflexivity).
  assert (S2 : lstep c s1 t (ARet 0%Z) = Some (LogDone, s2)) by (unfold lstep, s1; cbn; rewrite T, dupd_eq; reflexivity).
  exists ((tr ++ [(t, Say m)]) ++ [(t, LogDone)]), s2. split; [split; [|split]|split].
  - econstructor; [|exact S2]. econstructor; eauto.
  - repeat (apply q_snoc; [|cbn; discriminate]). exact Q.
  - intros u. rewrite !busy_snoc. unfold busy_step. cbn. destruct (Nat.eqb t u); [reflexivity|apply B].
  - destruct N. split; cbn; rewrite ?dupd_eq; auto. intros u Nu. rewrite !(dupd_ne _ _ _ _ Nu). auto.
  - rewrite !silence_app. cbn. now rewrite !app_nil_r.
Qed.

(** Nobody's logger runs, nothing is pending. *)
Definition pl (s : lst) (d : dst) : Prop := forall t, near s d t (map LF (frames d t)) (tdt d t).
Lemma near_pl s d t fs td : near s d t fs td -> fs = map LF (frames d t) -> td = tdt d t -> pl s d.
Proof.
  intros N -> -> u. destruct N. split; auto.
  - destruct (Nat.eq_dec u t) as [->|]; auto.
  - destruct (Nat.eq_dec u t) as [->|]; auto.
  - intros v _. destruct (Nat.eq_dec v t) as [->|]; auto.
  - intros v _. destruct (Nat.eq_dec v t) as [->|]; auto.
Qed.

Definition apart (s s' : lst) (d d' : dst) (t : nat) : Prop :=
  forall u, u <> t -> lfr s' u = lfr s u /\ ltdt s' u = ltdt s u /\ frames d' u = frames d u /\ tdt d' u = tdt d u.
Lemma near_mk s d s' d' t fs td : pl s d -> apart s s' d d' t -> lfr s' t = fs -> ltdt s' t = td ->
  lpdt s' = pdt d' -> llk s' = lk d' -> lnextf s' = nextf d' -> lnthr s' = nthr d' -> lterm s' = term d' -> near s' d' t fs td.
Proof.
  intros P O F D P1 P2 P3 P4 P5. split; auto; intros u Nu; destruct (O u Nu) as (A1 & A2 & A3 & A4); [rewrite A1, A3|rewrite A2, A4]; apply (P u).
Qed.
Lemma near_go s d s' d' t fs td fs' td' : near s d t fs td -> apart s s' d d' t -> lfr s' t = fs' -> ltdt s' t = td' ->
  lpdt s' = pdt d' -> llk s' = lk d' -> lnextf s' = nextf d' -> lnthr s' = nthr d' -> lterm s' = term d' -> near s' d' t fs' td'.
Proof.
  intros N O F D P1 P2 P3 P4 P5. split; auto; intros u Nu; destruct (O u Nu) as (A1 & A2 & A3 & A4); [rewrite A1, A3; apply (n_of _ _ _ _ _ N u Nu)|rewrite A2, A4; apply (n_ot _ _ _ _ _ N u Nu)].
Qed.

Ltac st T F := unfold lstep; rewrite T, F; cbn.
Ltac ap := intros u Nu; cbn; rewrite ?(dupd_ne _ _ _ _ Nu); auto.
Ltac eqs := cbn; rewrite ?dupd_eq; try congruence; auto.

(** An event, from a state where only [t] is in the middle of something. *)
Lemma conv_last tr s d t fs td a e s' d' : still tr s -> near s d t fs td -> lstep c s t a = Some (Ev e, s') -> apart s s' d d' t ->
  lfr s' t = map LF (frames d' t) -> ltdt s' t = tdt d' t ->
  lpdt s' = pdt d' -> llk s' = lk d' -> lnextf s' = nextf d' -> lnthr s' = nthr d' -> lterm s' = term d' ->
  exists tr' s', still tr' s' /\ silence tr' = silence tr ++ [(t, e)] /\ lterm s' = term d' /\ (pl s' d' \/ term d' <> None).
Proof.
  intros St N H O F D P1 P2 P3 P4 P5. exists (tr ++ [(t, Ev e)]), s'. split; [eapply still_ev; eauto|]. split; [now rewrite silence_app|].
  split; [exact P5|]. left. eapply near_pl; [eapply near_go; eauto|reflexivity|reflexivity].
Qed.
Lemma conv_term tr s d t a o s' d' : still tr s -> lstep c s t a = Some (Ev (Term o), s') -> lterm s' = Some o -> term d' = Some o ->
  exists tr' s', still tr' s' /\ silence tr' = silence tr ++ [(t, Term o)] /\ lterm s' = term d' /\ (pl s' d \/ term d' <> None).
Proof.
  intros St H E E'. exists (tr ++ [(t, Ev (Term o))]), s'. split; [eapply still_ev; eauto|]. split; [now rewrite silence_app|].
  split; [congruence|]. right. congruence.
Qed.

Lemma conv_step tr s d t e d' : still tr s -> pl s d -> term d = None -> stepR (l_dtors c) d t e d' ->
  exists tr' s', still tr' s' /\ silence tr' = silence tr ++ [(t, e)] /\ lterm s' = term d' /\ (pl s' d' \/ term d' <> None).
Proof.
  intros St P T H. pose proof (P t) as N. pose proof (n_tm _ _ _ _ _ N) as Tl. rewrite T in Tl.
  pose proof (n_fr _ _ _ _ _ N) as F. pose proof (n_td _ _ _ _ _ N) as D.
  pose proof (n_pd _ _ _ _ _ N) as Pd. pose proof (n_lk _ _ _ _ _ N) as Lk. pose proof (n_nf _ _ _ _ _ N) as Nf. pose proof (n_nt _ _ _ _ _ N) as Nt.
  Ltac one a Tl F St N := eapply (conv_last _ _ _ _ _ _ a); [exact St|exact N|unfold lstep; rewrite Tl, F; cbn| | | | | | | | ].
  destruct H as [w fs G|w fs G Hc|w fs G Hc|w fs st G|w fs st G|w fs G|w fs G Hc|fs st G|fs G|w fs G N1 N2|f fs s1 G L|f fs G|fs G
    |f l fs G Hc E|fs G E|st f l fs G E|st fs G E|st fs s1 G L|st f l fs G E|st fs G E|st f fs G|st f fs G|st k fs G|st fs G|st fs G|fs G];
    rewrite G in F; cbn in F.
  - one ANop Tl F St N; [reflexivity|ap|eqs..]. now rewrite F, G.
  - one ARegT Tl F St N; [rewrite Hc, Nf; reflexivity|ap|eqs..]. now rewrite F, G.
  - one ARegP Tl F St N; [rewrite Hc, Nf; reflexivity|ap|eqs..].
  - one (AExit st) Tl F St N; [reflexivity|ap|eqs..].
  - one (AImm st) Tl F St N; [reflexivity|ap|eqs..].
  - one ATrap Tl F St N; [reflexivity|ap|eqs..].
  - assert (Q : lstep c s t ASpawn = Some (Ev (Spawn (nthr d)), lspawn c s)) by (unfold lstep; rewrite Tl, F; cbn; rewrite Hc, Nt; reflexivity).
    pose proof (still_ev _ _ _ _ _ _ St Q) as St1.
    destruct (hush (tr ++ [(t, Ev (Spawn (nthr d)))]) (lspawn c s) (spawn d) (nthr d) MLaunched [LF (FUser WThread)] []) as (tr' & s' & A1 & A2 & A3).
    + exact St1.
    + exact Tl.
    + destruct (P (nthr d)). split; cbn; rewrite ?Nt, ?dupd_eq; auto; try congruence; intros u Nu; rewrite ?(dupd_ne _ _ _ _ Nu); apply (P u).
    + exists tr', s'. split; [exact A1|]. split; [now rewrite A3, silence_app|]. split; [apply A2|]. left. eapply near_pl; [exact A2|cbn; now rewrite dupd_eq..].
  - assert (Q : lstep c s t (ARet st) = Some (Tau, lset s t (say c (MMainReturned st) (LMain st :: map LF fs)))) by (unfold lstep; rewrite Tl, F; reflexivity).
    destruct (hush _ _ d t (MMainReturned st) (LMain st :: map LF fs) (tdt d t) (still_tau _ _ _ _ _ St Q)) as (tr' & s' & A1 & A2 & A3); [exact Tl|eapply near_go; [exact N|ap|eqs..]|].
    rewrite silence_app in A3. cbn in A3. rewrite app_nil_r in A3. rewrite <- A3. pose proof A2 as AK. destruct A2 as [B1 B2 B3 B4 B5 B6 B7 B8 B9]. rewrite T in B9.
    eapply (conv_last _ _ _ _ _ _ AGo); [exact A1|exact AK|unfold lstep; rewrite B9, B1; reflexivity|ap|eqs..].
  - assert (Q : lstep c s t (ARet 0%Z) = Some (Ev (Ret WThread), lset s t (say c MReturned (LF FDtors :: map LF fs)))) by (unfold lstep; rewrite Tl, F; reflexivity).
    destruct (hush _ _ (set_frames d t (FDtors :: fs)) t MReturned (LF FDtors :: map LF fs) (tdt d t) (still_ev _ _ _ _ _ _ St Q)) as (tr' & s' & A1 & A2 & A3); [exact Tl|eapply near_go; [exact N|ap|eqs..]|].
    exists tr', s'. split; [exact A1|]. split; [now rewrite A3, silence_app|]. split; [apply A2|]. left. eapply near_pl; [exact A2|cbn; now rewrite ?dupd_eq..].
  - one (ARet 0%Z) Tl F St N; [destruct w; try contradiction; reflexivity|ap|eqs..].
  - unfold try_lock in L. destruct (c_thread (l_dtors c)) eqn:Ct; [destruct (lk d) eqn:El; [discriminate|]|]; inversion L; subst s1; clear L;
      (one AGo Tl F St N; [unfold ltry_lock; rewrite Ct, ?Lk; reflexivity|ap|eqs..]).
  - one AGo Tl F St N; [reflexivity|ap|eqs..].
  - one AGo Tl F St N; [reflexivity| |eqs..]; unfold lunlock, unlock; destruct (c_thread (l_dtors c)); try ap; eqs.
  - assert (Q : lstep c s t AGo = Some (TakeT f, lset (lset_tdt s t l) t (say c MCallT (LCall f :: LF FDtors :: map LF fs)))) by (unfold lstep; rewrite Tl, F; cbn; rewrite Hc, D, E; reflexivity).
    destruct (hush _ _ d t MCallT (LCall f :: LF FDtors :: map LF fs) l (still_take _ _ _ _ _ _ St Q)) as (tr' & s' & A1 & A2 & A3); [exact Tl|eapply near_go; [exact N|ap|eqs..]|].
    rewrite silence_app in A3. cbn in A3. rewrite app_nil_r in A3. rewrite <- A3. pose proof A2 as AK. destruct A2 as [B1 B2 B3 B4 B5 B6 B7 B8 B9]. rewrite T in B9.
    eapply (conv_last _ _ _ _ _ _ AGo); [exact A1|exact AK|unfold lstep; rewrite B9, B1; reflexivity|ap|eqs..].
  - assert (Q : lstep c s t AGo = Some (Tau, lset s t (say c MThreadExiting (LEnd :: map LF fs)))).
    { unfold lstep; rewrite Tl, F; cbn. destruct (c_tae (l_dtors c)); [rewrite D, E by reflexivity|]; reflexivity. }
    destruct (hush _ _ d t MThreadExiting (LEnd :: map LF fs) (tdt d t) (still_tau _ _ _ _ _ St Q)) as (tr' & s' & A1 & A2 & A3); [exact Tl|eapply near_go; [exact N|ap|eqs..]|].
    rewrite silence_app in A3. cbn in A3. rewrite app_nil_r in A3. rewrite <- A3. pose proof A2 as AK. destruct A2 as [B1 B2 B3 B4 B5 B6 B7 B8 B9]. rewrite T in B9.
    eapply (conv_last _ _ _ _ _ _ AGo); [exact A1|exact AK|unfold lstep; rewrite B9, B1; reflexivity|ap|eqs..].
  - assert (Q : lstep c s t AGo = Some (TakeT f, lset (lset_tdt s t l) t (say c MCallT (LCall f :: LF (FX st XT) :: map LF fs)))) by (unfold lstep; rewrite Tl, F; cbn; rewrite D, E; reflexivity).
    destruct (hush _ _ d t MCallT (LCall f :: LF (FX st XT) :: map LF fs) l (still_take _ _ _ _ _ _ St Q)) as (tr' & s' & A1 & A2 & A3); [exact Tl|eapply near_go; [exact N|ap|eqs..]|].
    rewrite silence_app in A3. cbn in A3. rewrite app_nil_r in A3. rewrite <- A3. pose proof A2 as AK. destruct A2 as [B1 B2 B3 B4 B5 B6 B7 B8 B9]. rewrite T in B9.
    eapply (conv_last _ _ _ _ _ _ AGo); [exact A1|exact AK|unfold lstep; rewrite B9, B1; reflexivity|ap|eqs..].
  - one AGo Tl F St N; [rewrite D, E; reflexivity|ap|eqs..].
  - unfold try_lock in L. destruct (c_thread (l_dtors c)) eqn:Ct; [destruct (lk d) eqn:El; [discriminate|]|]; inversion L; subst s1; clear L;
      (one AGo Tl F St N; [unfold ltry_lock; rewrite Ct, ?Lk; reflexivity|ap|eqs..]).
  - one AGo Tl F St N; [rewrite Pd, E; reflexivity|ap|eqs..].
  - one AGo Tl F St N; [rewrite Pd, E; reflexivity|ap|eqs..].
  - assert (Q : lstep c s t AGo = Some (Ev Unlock, lset (lunlock (l_dtors c) s) t (say c MCallP (LF (FX st (XCall f)) :: map LF fs)))) by (unfold lstep; rewrite Tl, F; reflexivity).
    destruct (hush _ _ (set_frames (unlock (l_dtors c) d) t (FX st (XCall f) :: fs)) t MCallP (LF (FX st (XCall f)) :: map LF fs) (tdt d t) (still_ev _ _ _ _ _ _ St Q)) as (tr' & s' & A1 & A2 & A3).
    + unfold lunlock. destruct (c_thread (l_dtors c)); exact Tl.
    + unfold lunlock, unlock. destruct (c_thread (l_dtors c)); (eapply near_go; [exact N|ap|eqs..]).
    + exists tr', s'. split; [exact A1|]. split; [now rewrite A3, silence_app|]. split; [apply A2|]. left.
      eapply near_pl; [exact A2|cbn; now rewrite ?dupd_eq|]. unfold unlock. destruct (c_thread (l_dtors c)); reflexivity.
  - one AGo Tl F St N; [reflexivity|ap|eqs..].
  - assert (Q : lstep c s t AGo = Some (Tau, lset s t (say c (MCallF k) (LFini st k :: map LF fs)))) by (unfold lstep; rewrite Tl, F; reflexivity).
    destruct (hush _ _ d t (MCallF k) (LFini st k :: map LF fs) (tdt d t) (still_tau _ _ _ _ _ St Q)) as (tr' & s' & A1 & A2 & A3); [exact Tl|eapply near_go; [exact N|ap|eqs..]|].
    rewrite silence_app in A3. cbn in A3. rewrite app_nil_r in A3. rewrite <- A3. pose proof A2 as AK. destruct A2 as [B1 B2 B3 B4 B5 B6 B7 B8 B9]. rewrite T in B9.
    eapply (conv_last _ _ _ _ _ _ AGo); [exact A1|exact AK|unfold lstep; rewrite B9, B1; reflexivity|ap|eqs..].
  - assert (Q : lstep c s t AGo = Some (Tau, lset s t (say c (MExiting st) (LTerm st :: LF (FX st (XFini 0)) :: map LF fs)))) by (unfold lstep; rewrite Tl, F; reflexivity).
    destruct (hush _ _ d t (MExiting st) (LTerm st :: LF (FX st (XFini 0)) :: map LF fs) (tdt d t) (still_tau _ _ _ _ _ St Q)) as (tr' & s' & A1 & A2 & A3); [exact Tl|eapply near_go; [exact N|ap|eqs..]|].
    rewrite silence_app in A3. cbn in A3. rewrite app_nil_r in A3. rewrite <- A3. pose proof (n_tm _ _ _ _ _ A2) as B9. rewrite T in B9.
    edestruct (conv_term tr' s' d t AGo (Exited st) (lfinish s' (Exited st)) (finish d (Exited st)) A1) as (x & y & C1 & C2 & C3 & C4); [unfold lstep; rewrite B9, (n_fr _ _ _ _ _ A2); reflexivity|reflexivity|reflexivity|].
    exists x, y. repeat split; try apply C1; auto. right; discriminate.
  - assert (Q : lstep c s t AGo = Some (Tau, lset s t (say c (MExiting st) (LTerm st :: LF (FImm st) :: map LF fs)))) by (unfold lstep; rewrite Tl, F; reflexivity).
    destruct (hush _ _ d t (MExiting st) (LTerm st :: LF (FImm st) :: map LF fs) (tdt d t) (still_tau _ _ _ _ _ St Q)) as (tr' & s' & A1 & A2 & A3); [exact Tl|eapply near_go; [exact N|ap|eqs..]|].
    rewrite silence_app in A3. cbn in A3. rewrite app_nil_r in A3. rewrite <- A3. pose proof (n_tm _ _ _ _ _ A2) as B9. rewrite T in B9.
    edestruct (conv_term tr' s' d t AGo (Exited st) (lfinish s' (Exited st)) (finish d (Exited st)) A1) as (x & y & C1 & C2 & C3 & C4); [unfold lstep; rewrite B9, (n_fr _ _ _ _ _ A2); reflexivity|reflexivity|reflexivity|].
    exists x, y. repeat split; try apply C1; auto. right; discriminate.
  - edestruct (conv_term tr s d t AGo (Killed (linux_signal (trap_insn (c_arch (l_dtors c))))) (lfinish s (Killed (linux_signal (trap_insn (c_arch (l_dtors c)))))) (finish d (Killed (linux_signal (trap_insn (c_arch (l_dtors c)))))) St) as (x & y & C1 & C2 & C3 & C4);
      [unfold lstep; rewrite Tl, F; reflexivity|reflexivity|reflexivity|]. exists x, y. repeat split; try apply C1; auto. right; discriminate.
Qed.
Lemma conv : forall tr d, exec (l_dtors c) tr d -> exists ltr s, still ltr s /\ silence ltr = tr /\ lterm s = term d /\ (pl s d \/ term d <> None).
Proof.
  induction 1 as [|tr d t a e d' H IH St].
  - exists [], linit. split; [split; [constructor|split; [constructor|reflexivity]]|]. split; [reflexivity|]. split; [reflexivity|]. left. intros t. unfold linit, dinit. split; cbn; auto;
      unfold dupd; intros; try destruct (Nat.eqb _ 0); reflexivity.
  - apply dstep_inv in St. destruct St as [T R]. destruct IH as (ltr & s & A & <- & B & [P|P]); [|congruence].
    exact (conv_step _ _ _ _ _ _ A P T R).
Qed.
End Conv.
