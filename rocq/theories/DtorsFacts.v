(** Step inversion and trace lemmas for exit functions. *)
From Coq Require Import ZArith List Bool Lia Arith Permutation.
From Verif Require Import LayoutModel DtorsModel DtorsSpec.
Import ListNotations.

Inductive stepR (c : dcfg) (s : dst) (t : nat) : event -> dst -> Prop :=
| R_nop w fs : frames s t = FUser w :: fs -> stepR c s t Nop s
| R_regt w fs : frames s t = FUser w :: fs -> c_tae c = true ->
    stepR c s t (RegT (nextf s)) (bump (set_tdt s t (nextf s :: tdt s t)))
| R_regp w fs : frames s t = FUser w :: fs -> c_pae c = true ->
    stepR c s t (BeginP (nextf s)) (bump (set_frames s t (FLock (nextf s) :: FUser w :: fs)))
| R_exit w fs st : frames s t = FUser w :: fs ->
    stepR c s t (ExitCall st) (set_frames s t (FX st (first_phase c) :: FUser w :: fs))
| R_imm w fs st : frames s t = FUser w :: fs ->
    stepR c s t (ImmCall st) (set_frames s t (FImm st :: FUser w :: fs))
| R_trap w fs : frames s t = FUser w :: fs ->
    stepR c s t TrapCall (set_frames s t (FTrap :: FUser w :: fs))
| R_spawn w fs : frames s t = FUser w :: fs -> c_thread c = true ->
    stepR c s t (Spawn (nthr s)) (spawn s)
| R_main fs st : frames s t = FUser WMain :: fs ->
    stepR c s t (ExitCall st) (set_frames s t (FX st (first_phase c) :: fs))
| R_thr fs : frames s t = FUser WThread :: fs ->
    stepR c s t (Ret WThread) (set_frames s t (FDtors :: fs))
| R_ret w fs : frames s t = FUser w :: fs -> w <> WMain -> w <> WThread ->
    stepR c s t (Ret w) (set_frames s t fs)
| R_plock f fs s1 : frames s t = FLock f :: fs -> try_lock c s t = Some s1 ->
    stepR c s t Lock (set_frames s1 t (FPush f :: fs))
| R_push f fs : frames s t = FPush f :: fs ->
    stepR c s t (RegP f) (set_frames (set_pdt s (f :: pdt s)) t (FUnlock :: fs))
| R_punlock fs : frames s t = FUnlock :: fs ->
    stepR c s t EndP (set_frames (unlock c s) t fs)
| R_dtor f l fs : frames s t = FDtors :: fs -> c_tae c = true -> tdt s t = f :: l ->
    stepR c s t (CallT f) (set_frames (set_tdt s t l) t (FUser (WT f) :: FDtors :: fs))
| R_done fs : frames s t = FDtors :: fs -> (c_tae c = true -> tdt s t = []) ->
    stepR c s t ThreadDone (set_frames s t [])
| R_xt st f l fs : frames s t = FX st XT :: fs -> tdt s t = f :: l ->
    stepR c s t (CallT f) (set_frames (set_tdt s t l) t (FUser (WT f) :: FX st XT :: fs))
| R_xt0 st fs : frames s t = FX st XT :: fs -> tdt s t = [] ->
    stepR c s t Nop (set_frames s t (FX st (after_t c) :: fs))
| R_xlock st fs s1 : frames s t = FX st XLock :: fs -> try_lock c s t = Some s1 ->
    stepR c s t Lock (set_frames s1 t (FX st XPop :: fs))
| R_xpop st f l fs : frames s t = FX st XPop :: fs -> pdt s = f :: l ->
    stepR c s t (Take f) (set_frames (set_pdt s l) t (FX st (XUnlock f) :: fs))
| R_xempty st fs : frames s t = FX st XPop :: fs -> pdt s = [] ->
    stepR c s t Empty (set_frames s t (FX st (XFini (nfini c)) :: fs))
| R_xunlock st f fs : frames s t = FX st (XUnlock f) :: fs ->
    stepR c s t Unlock (set_frames (unlock c s) t (FX st (XCall f) :: fs))
| R_xcall st f fs : frames s t = FX st (XCall f) :: fs ->
    stepR c s t (CallP f) (set_frames s t (FUser (WP f) :: FX st XLock :: fs))
| R_xfini st k fs : frames s t = FX st (XFini (S k)) :: fs ->
    stepR c s t (CallF k) (set_frames s t (FUser (WF k) :: FX st (XFini k) :: fs))
| R_xterm st fs : frames s t = FX st (XFini 0) :: fs ->
    stepR c s t (Term (Exited st)) (finish s (Exited st))
| R_immterm st fs : frames s t = FImm st :: fs ->
    stepR c s t (Term (Exited st)) (finish s (Exited st))
| R_trapterm fs : frames s t = FTrap :: fs ->
    stepR c s t (Term (Killed (linux_signal (trap_insn (c_arch c)))))
      (finish s (Killed (linux_signal (trap_insn (c_arch c))))).

Lemma dstep_inv c s t a e s' : dstep c s t a = Some (e, s') -> term s = None /\ stepR c s t e s'.
Proof.
  unfold dstep. destruct (term s); [discriminate|].
  destruct (frames s t) as [|fr fs] eqn:Hfr; [discriminate|].
  intros H; split; [reflexivity|].
  destruct fr as [w|f|f| | |st p|st|].
  - destruct a; simpl in H.
    + inversion H; subst; econstructor; eauto.
    + destruct (c_tae c) eqn:?; inversion H; subst; econstructor; eauto.
    + destruct (c_pae c) eqn:?; inversion H; subst; econstructor; eauto.
    + inversion H; subst; eapply R_exit; eauto.
    + inversion H; subst; econstructor; eauto.
    + inversion H; subst; econstructor; eauto.
    + destruct (c_thread c) eqn:?; inversion H; subst; econstructor; eauto.
    + destruct w; inversion H; subst; try (econstructor; eauto; discriminate).
    + discriminate.
  - destruct a; try discriminate. simpl in H. destruct (try_lock c s t) eqn:?; inversion H; subst; econstructor; eauto.
  - destruct a; try discriminate. inversion H; subst; econstructor; eauto.
  - destruct a; try discriminate. inversion H; subst; econstructor; eauto.
  - destruct a; try discriminate. simpl in H. destruct (c_tae c) eqn:Ht.
    + destruct (tdt s t) eqn:Hd; inversion H; subst; econstructor; eauto.
    + inversion H; subst; econstructor; eauto. congruence.
  - destruct a; try discriminate. destruct p as [| | |f|f|[|k]]; simpl in H.
    + destruct (tdt s t) eqn:?; inversion H; subst; [eapply R_xt0|eapply R_xt]; eauto.
    + destruct (try_lock c s t) eqn:?; inversion H; subst; eapply R_xlock; eauto.
    + destruct (pdt s) eqn:?; inversion H; subst; econstructor; eauto.
    + inversion H; subst; econstructor; eauto.
    + inversion H; subst; econstructor; eauto.
    + inversion H; subst; eapply R_xterm; eauto.
    + inversion H; subst; econstructor; eauto.
  - destruct a; try discriminate. inversion H; subst; eapply R_immterm; eauto.
  - destruct a; try discriminate. inversion H; subst; econstructor; eauto.
Qed.

(** What a step does to its own thread's frames. *)
Inductive fstep (c : dcfg) : list frame -> event -> list frame -> Prop :=
| F_nop w fs : fstep c (FUser w :: fs) Nop (FUser w :: fs)
| F_regt w fs f : fstep c (FUser w :: fs) (RegT f) (FUser w :: fs)
| F_regp w fs f : fstep c (FUser w :: fs) (BeginP f) (FLock f :: FUser w :: fs)
| F_exit w fs st : fstep c (FUser w :: fs) (ExitCall st) (FX st (first_phase c) :: FUser w :: fs)
| F_imm w fs st : fstep c (FUser w :: fs) (ImmCall st) (FImm st :: FUser w :: fs)
| F_trap w fs : fstep c (FUser w :: fs) TrapCall (FTrap :: FUser w :: fs)
| F_spawn w fs v : fstep c (FUser w :: fs) (Spawn v) (FUser w :: fs)
| F_main fs st : fstep c (FUser WMain :: fs) (ExitCall st) (FX st (first_phase c) :: fs)
| F_thr fs : fstep c (FUser WThread :: fs) (Ret WThread) (FDtors :: fs)
| F_ret w fs : w <> WMain -> w <> WThread -> fstep c (FUser w :: fs) (Ret w) fs
| F_plock f fs : fstep c (FLock f :: fs) Lock (FPush f :: fs)
| F_push f fs : fstep c (FPush f :: fs) (RegP f) (FUnlock :: fs)
| F_punlock fs : fstep c (FUnlock :: fs) EndP fs
| F_dtor f fs : fstep c (FDtors :: fs) (CallT f) (FUser (WT f) :: FDtors :: fs)
| F_done fs : fstep c (FDtors :: fs) ThreadDone []
| F_xt st f fs : fstep c (FX st XT :: fs) (CallT f) (FUser (WT f) :: FX st XT :: fs)
| F_xt0 st fs : fstep c (FX st XT :: fs) Nop (FX st (after_t c) :: fs)
| F_xlock st fs : fstep c (FX st XLock :: fs) Lock (FX st XPop :: fs)
| F_xpop st f fs : fstep c (FX st XPop :: fs) (Take f) (FX st (XUnlock f) :: fs)
| F_xempty st fs : fstep c (FX st XPop :: fs) Empty (FX st (XFini (nfini c)) :: fs)
| F_xunlock st f fs : fstep c (FX st (XUnlock f) :: fs) Unlock (FX st (XCall f) :: fs)
| F_xcall st f fs : fstep c (FX st (XCall f) :: fs) (CallP f) (FUser (WP f) :: FX st XLock :: fs)
| F_xfini st k fs : fstep c (FX st (XFini (S k)) :: fs) (CallF k) (FUser (WF k) :: FX st (XFini k) :: fs)
| F_xterm st fs : fstep c (FX st (XFini 0) :: fs) (Term (Exited st)) (FX st (XFini 0) :: fs)
| F_immterm st fs : fstep c (FImm st :: fs) (Term (Exited st)) (FImm st :: fs)
| F_trapterm fs : fstep c (FTrap :: fs) (Term (Killed (linux_signal (trap_insn (c_arch c))))) (FTrap :: fs).

Lemma dupd_eq {A} (f : nat -> A) i v : dupd f i v i = v.
Proof. unfold dupd. rewrite Nat.eqb_refl. reflexivity. Qed.
Lemma dupd_ne {A} (f : nat -> A) i v j : j <> i -> dupd f i v j = f j.
Proof. unfold dupd. intros H. apply Nat.eqb_neq in H. rewrite H. reflexivity. Qed.

(** The effect of a step on every field, and its guards. *)
Record effect (c : dcfg) (s : dst) (t : nat) (e : event) (s' : dst) : Prop := {
  e_alive : term s = None;
  e_live : frames s t <> [];
  e_own : (t <> nthr s) -> fstep c (frames s t) e (frames s' t);
  e_other : forall u, u <> t -> frames s' u =
      match e with Spawn v => if Nat.eqb u v then [FUser WThread] else frames s u | _ => frames s u end;
  e_tdt : forall u, tdt s' u =
      match e with
      | RegT f => if Nat.eqb u t then f :: tdt s u else tdt s u
      | CallT f => if Nat.eqb u t then tl (tdt s u) else tdt s u
      | Spawn v => if Nat.eqb u v then [] else tdt s u
      | _ => tdt s u
      end;
  e_pdt : pdt s' = match e with RegP f => f :: pdt s | Take f => tl (pdt s) | _ => pdt s end;
  e_lk : lk s' = if c_thread c then match e with Lock => Some t | Unlock | EndP => None | _ => lk s end else lk s;
  e_nextf : nextf s' = match e with RegT f | BeginP f => S (nextf s) | _ => nextf s end;
  e_nthr : nthr s' = match e with Spawn v => S (nthr s) | _ => nthr s end;
  e_term : term s' = match e with Term o => Some o | _ => None end;
  e_guard : match e with
      | RegT f => f = nextf s /\ c_tae c = true
      | BeginP f => f = nextf s /\ c_pae c = true
      | CallT f => exists l, tdt s t = f :: l
      | Take f => exists l, pdt s = f :: l
      | Empty => pdt s = []
      | ThreadDone => c_tae c = true -> tdt s t = []
      | Spawn v => v = nthr s /\ c_thread c = true
      | Lock => c_thread c = true -> lk s = None
      | _ => True
      end;
  e_xt0 : forall st fs, frames s t = FX st XT :: fs -> e = Nop -> tdt s t = []
}.

Lemma dstep_effect c s t a e s' : dstep c s t a = Some (e, s') -> effect c s t e s'.
Proof.
  intros H. apply dstep_inv in H. destruct H as [T H].
  destruct H as [w fs F|w fs F Hc|w fs F Hc|w fs st F|w fs st F|w fs F|w fs F Hc|fs st F|fs F|w fs F N1 N2|f fs s1 F L|f fs F|fs F
    |f l fs F Hc D|fs F D|st f l fs F D|st fs F D|st fs s1 F L|st f l fs F D|st fs F D|st f fs F|st f fs F|st k fs F|st fs F|st fs F|fs F];
  try (unfold try_lock in L; destruct (c_thread c) eqn:Hth; [destruct (lk s) eqn:Hlk; [discriminate|]|]; inversion L; subst s1; clear L);
  (split;
   [ exact T
   | rewrite F; discriminate
   | intros Hne; unfold unlock; try destruct (c_thread c); simpl; rewrite ?dupd_eq; try rewrite (dupd_ne _ _ _ t Hne); rewrite F; constructor; assumption
   | intros u Hu; unfold unlock; try destruct (c_thread c); simpl; rewrite ?(dupd_ne _ _ _ _ Hu); reflexivity
   | intros u; unfold unlock; try destruct (c_thread c); simpl; unfold dupd; try reflexivity;
     destruct (Nat.eqb_spec u t); subst; try rewrite D; reflexivity
   | unfold unlock; try destruct (c_thread c); simpl; try rewrite D; reflexivity
   | unfold unlock; try destruct (c_thread c); simpl; try rewrite Hth; try reflexivity; try congruence
   | unfold unlock; try destruct (c_thread c); reflexivity
   | unfold unlock; try destruct (c_thread c); reflexivity
   | unfold unlock; try destruct (c_thread c); simpl; try assumption; try reflexivity
   | simpl; eauto; try congruence
   | intros; try congruence ]).
Qed.

(** ** Trace lemmas *)
Lemma own_app t a b : own t (a ++ b) = own t a ++ own t b.
Proof. unfold own. rewrite filter_app, map_app. reflexivity. Qed.
Lemma own_one t u e : own t [(u, e)] = if Nat.eqb u t then [e] else [].
Proof. unfold own. simpl. destruct (Nat.eqb u t); reflexivity. Qed.
Lemma own_cons t u e tr : own t ((u, e) :: tr) = (if Nat.eqb u t then [e] else []) ++ own t tr.
Proof. unfold own. simpl. destruct (Nat.eqb u t); reflexivity. Qed.
Lemma own_in t e tr : In e (own t tr) <-> In (t, e) tr.
Proof.
  unfold own. rewrite in_map_iff. split.
  - intros [[u e'] [E H]]. apply filter_In in H. destruct H as [H U]. simpl in *. apply Nat.eqb_eq in U. subst. assumption.
  - intros H. exists (t, e). split; [reflexivity|]. apply filter_In. split; [assumption|]. simpl. apply Nat.eqb_refl.
Qed.

Lemma waiting_snoc t tr u e :
  waiting t (tr ++ [(u, e)]) = if Nat.eqb u t then waiting_step (waiting t tr) e else waiting t tr.
Proof.
  unfold waiting. rewrite own_app, own_one. destruct (Nat.eqb u t).
  - rewrite fold_left_app. reflexivity.
  - rewrite app_nil_r. reflexivity.
Qed.
Lemma listed_snoc tr x : listed (tr ++ [x]) = listed_step (listed tr) x.
Proof. unfold listed. rewrite fold_left_app. reflexivity. Qed.
Lemma holder_snoc tr x : holder (tr ++ [x]) = holder_step (holder tr) x.
Proof. unfold holder. rewrite fold_left_app. reflexivity. Qed.
Lemma pick_snoc {A} (g : event -> list A) tr u e : pick g (tr ++ [(u, e)]) = pick g tr ++ g e.
Proof. unfold pick. rewrite flat_map_app. simpl. rewrite app_nil_r. reflexivity. Qed.
Lemma calls_app t a b : calls t (a ++ b) = calls t a ++ calls t b.
Proof. unfold calls. rewrite own_app, flat_map_app. reflexivity. Qed.

Lemma remove_head f l : ~ In f l -> remove Nat.eq_dec f (f :: l) = l.
Proof.
  intros H. simpl. destruct (Nat.eq_dec f f) as [_|n]; [|congruence].
  apply notin_remove. assumption.
Qed.

Lemma snoc_split {A} (a b c : list A) x y :
  a ++ [x] = b ++ y :: c -> (c = [] /\ a = b /\ x = y) \/ (exists c', c = c' ++ [x] /\ a = b ++ y :: c').
Proof.
  destruct c as [|z c] using rev_ind.
  - intros H. apply app_inj_tail in H. destruct H; subst. left; auto.
  - clear IHc. intros H. right. exists c.
    replace (b ++ y :: c ++ [z]) with ((b ++ y :: c) ++ [z]) in H by (rewrite <- app_assoc; reflexivity).
    apply app_inj_tail in H. destruct H; subst. auto.
Qed.
