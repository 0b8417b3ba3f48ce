(** Building concrete executions of parallel programs by computation (only for
    the examples beside C73). *)
From Coq Require Import ZArith List Bool Lia Arith.
From Verif Require Import Machine LayoutModel LayoutSpec ThreadModel ByteModel ByteSpec DtorsModel DtorsFacts ProcModel Props_Proc Props_Byte ForkModel.
Import ListNotations.
Open Scope Z_scope.

Section Play.
Variables (e : benv) (c : dcfg) (fini : nat -> fprog) (main : fprog).

Definition waits (b : bst) (ad : Z) (w : nat) : bool :=
  match t_pc (bT b w) with JSleep _ j => i_t (bI b j) + o_tid (be_td e) =? ad | _ => false end.
(** The next step of origin's own code, or the kernel's, in thread [i]. *)
Definition lnext (b : bst) (i : nat) : option (list nat * ThreadModel.event * bst) :=
  match t_pc (bT b i) with
  | XCas rv => if ld_det e (bmem b) (own e b i) =? INITIAL then Some ([i], ENone, bgoto (bset_mem b (st_det e (bmem b) (own e b i) ABANDONED)) i (XStore rv)) else None
  | XStore rv => Some ([i], ENone, bgoto (bset_mem b (st_ret e (bmem b) (own e b i) rv)) i XExit)
  | XExit => Some ([i], EExit, bgoto b i KClear)
  | KClear => if t_clear (bT b i) then Some ([i], EKernelClear, bgoto (bset_mem b (store_le (bmem b) (i_ctid (bI b i)) 4 0)) i (KWake (i_ctid (bI b i)))) else None
  | KWake ad => match find (waits b ad) (seq 0 (bn b)) with
      | Some w => match t_pc (bT b w) with JSleep k j => Some ([], ENone, bgoto (bgoto b i Dead) w (JDone k j)) | _ => None end
      | None => Some ([], ENone, bgoto b i Dead) end
  | JLoad k j => if ld_tid e (bmem b) (i_t (bI b j)) =? 0 then Some ([i; j], ENone, bgoto b i (JDone k j))
      else Some ([i; j], ENone, bgoto b i (JFutex k j (ld_tid e (bmem b) (i_t (bI b j)))))
  | JFutex k j v => if ld_tid e (bmem b) (i_t (bI b j)) =? v then Some ([i; j], ENone, bgoto b i (JSleep k j)) else Some ([i; j], ENone, bgoto b i (JLoad k j))
  | JDone KJoin j => if ld_det e (bmem b) (i_t (bI b j)) =? ABANDONED then Some ([i; j], ENone, bgoto b i (JFree KJoin j (ld_ret e (bmem b) (i_t (bI b j))))) else None
  | JFree k j rv => let r := unmap_request e (bmem b) (i_t (bI b j)) in
      if negb (snd r =? 0) && bmunmap_ok (c_page (be_cfg e)) r then Some ([i; j], EMunmap (fst r) (snd r), bgoto (bmunmap b r) i (JRet k j rv)) else None
  | JRet KJoin j rv => Some ([i], EJoin j rv, bgoto b i Run)
  | _ => None
  end.
Lemma lnext_ok b i ins x b' : lnext b i = Some (ins, x, b') -> exists acc, bstep e b acc (Some (i, ins, x)) b' /\ life_only x = true /\ api_call x = false.
Proof.
  unfold lnext. destruct (t_pc (bT b i)) eqn:P; try discriminate; intros H.
  all: repeat match type of H with
    | (if ?x =? ?y then _ else _) = _ => destruct (Z.eqb_spec x y); try discriminate
    | (if ?x && ?y then _ else _) = _ => destruct x eqn:?, y eqn:?; try discriminate; cbn [andb] in H
    | (if ?x then _ else _) = _ => destruct x eqn:?; try discriminate
    | match ?k with KJoin => _ | KDetach => _ end = _ => destruct k; try discriminate
    end.
  all: try (injection H as <- <- <-; eexists; split; [econstructor; eauto|split; reflexivity]; fail).
  - injection H as <- <- <-. eexists. split; [refine (b_free e b i k j rv _ P eq_refl _ _); [|assumption]|split; reflexivity]. intros X. rewrite X in *. discriminate.
  - destruct (find (waits b _) (seq 0 (bn b))) as [w|] eqn:F.
    + apply find_some in F as [_ F]. unfold waits in F. destruct (t_pc (bT b w)) eqn:Pw; try discriminate. injection H as <- <- <-.
      eexists. split; [eapply b_kwake; eauto|split; reflexivity]. apply Z.eqb_eq. exact F.
    + injection H as <- <- <-. eexists. split; [eapply b_kwake_none; eauto|split; reflexivity]. intros w k j Hw Pw X.
      pose proof (find_none _ _ F w ltac:(apply in_seq; lia)) as Y. unfold waits in Y. rewrite Pw in Y. apply Z.eqb_neq in Y. contradiction.
Qed.

Definition has {A} (o : option A) : bool := match o with Some _ => true | None => false end.
Definition usizeb (v : Z) : bool := (0 <=? v) && (v <? modulus (wsz (be_arch e))).

(** The user code's side of an event. *)
Definition gadv (m : fmach) (x : pevent) : option fmach :=
  match x with
  | PUser | PDone _ _ _ => Some m
  | PLife (i, _, ECallJoin j) => match acts m i with
      | Some (Act w (FJoin n k) hs) => match nth_error hs n with Some j' => if Nat.eqb j j' then Some m else None | None => None end
      | _ => None end
  | PLife (i, _, EJoin j v) => match acts m i with
      | Some (Act w (FJoin n k) hs) => match nth_error hs n with Some j' => if Nat.eqb j j' then Some (aset m i (Some (Act w (k v) hs))) else None | None => None end
      | _ => None end
  | PLife (_, _, EDetach _) => None
  | PLife (_, _, y) => if api_call y then None else Some m
  | PFns t (RegT f) => match acts m t with Some (Act w (FAtThreadExit q k) hs) => Some (fset (aset m t (Some (Act w k hs))) f q) | _ => None end
  | PFns t (CallT f) => Some (aset m t (Some (Act (WT f) (freg m f) [])))
  | PFns t (CallF k) => Some (aset m t (Some (Act (WF k) (fini k) [])))
  | PFns t (ExitCall st) => match acts m t with Some (Act WMain (FReturn v) hs) => if Z.eqb st v then Some (aset m t None) else None | _ => None end
  | PFns t (Ret w) => match acts m t, w with
      | Some (Act (WT f) (FReturn v) hs), WT f' | Some (Act (WF f) (FReturn v) hs), WF f' => if Nat.eqb f f' then Some (aset m t None) else None
      | _, _ => None end
  | PFns t y => match y with Nop | RegP _ | EndP | Lock | Take _ | Unlock | Empty | Term _ => Some m | _ => None end
  | PReturns t v => match acts m t with Some (Act WThread (FReturn v') hs) => if Z.eqb v v' then Some (aset m t None) else None | _ => None end
  | PCreate i _ j => match acts m i with
      | Some (Act w (FCreate f k) hs) => Some (cset (aset (aset m i (Some (Act w k (hs ++ [j])))) j (Some (Act WThread f []))) j f)
      | _ => None end
  end.
Lemma gadv_ok m x m' : gadv m x = Some m' -> gollows fini m x m'.
Proof.
  intros H. destruct x as [|[[i ins] x]|t x|t v|i acc j|t acc v]; cbn in H.
  - injection H as <-. constructor.
  - destruct x; cbn in H; try discriminate; try (injection H as <-; apply g_life; [reflexivity|discriminate|discriminate]);
      destruct (acts m i) as [[w p hs]|] eqn:A; try discriminate; destruct p; try discriminate; destruct (nth_error hs n) as [j'|] eqn:Nt; try discriminate;
      destruct (Nat.eqb_spec j j'); try discriminate; subst; injection H as <-; econstructor; eauto.
  - destruct x; cbn in H; try discriminate; try (injection H as <-; first [apply g_callt|apply g_callf|apply g_fns; exact Logic.I]);
      destruct (acts m t) as [[w0 p hs]|] eqn:A; try discriminate.
    + destruct p; try discriminate. injection H as <-. eapply g_regt; eauto.
    + destruct w0, p, w; try discriminate; destruct (Nat.eqb_spec f f0) || destruct (Nat.eqb_spec k k0); try discriminate; subst; injection H as <-; eapply g_ret; eauto.
    + destruct w0, p; try discriminate. destruct (Z.eqb_spec status v); try discriminate. subst. injection H as <-. eapply g_main; eauto.
  - destruct (acts m t) as [[w0 p hs]|] eqn:A; try discriminate. destruct w0, p; try discriminate. destruct (Z.eqb_spec v v0); try discriminate. subst. injection H as <-. eapply g_returns; eauto.
  - destruct (acts m i) as [[w0 p hs]|] eqn:A; try discriminate. destruct p; try discriminate. injection H as <-. eapply g_create; eauto.
  - injection H as <-. constructor.
Qed.

(** One move of the example's scheduler. *)
Inductive move :=
| MLife (i : nat)            (* origin's own code of thread i, or the kernel's end of it *)
| MJoin (i j : nat)          (* thread i calls join on j *)
| MFns (t : nat) (a : action)
| MPrint (t : nat)
| MRet (t : nat) (v : Z)     (* the thread function returns *)
| MDone (t : nat).
Definition is_user (d : dst) (t : nat) : bool := match frames d t with FUser _ :: _ => true | _ => false end.
Definition is_run (b : bst) (t : nat) : bool := match t_pc (bT b t) with Run => true | _ => false end.
Definition smove (s : pst) (mv : move) : option (pevent * pst) :=
  match mv with
  | MLife i => match lnext (life s) i with
      | Some (ins, x, b') => if negb (has (term (fns s))) then Some (PLife (i, ins, x), PSt b' (fns s) (fval s)) else None
      | None => None end
  | MJoin i j => if negb (has (term (fns s))) && Nat.ltb i (bn (life s)) && is_run (life s) i && Nat.ltb j (bn (life s)) && negb (has (bclaim (life s) j)) && is_user (fns s) i
      then Some (PLife (i, [i], ECallJoin j), PSt (bgoto (bset_claim (life s) j (KJoin, i)) i (JLoad KJoin j)) (fns s) (fval s)) else None
  | MFns t a => match dstep c (fns s) t a with
      | Some (x, d') => if fns_only x && is_run (life s) t then Some (PFns t x, PSt (life s) d' (fval s)) else None
      | None => None end
  | MPrint _ => None
  | MRet t v => match dstep c (fns s) t (ARet 0) with
      | Some (Ret WThread, d') => if is_run (life s) t && usizeb v then Some (PReturns t v, PSt (life s) d' (fupd (fval s) t v)) else None
      | _ => None end
  | MDone t => match dstep c (fns s) t AGo with
      | Some (ThreadDone, d') => if Nat.ltb 0 t && Nat.ltb t (bn (life s)) && is_run (life s) t && usizeb (fval s t)
          then Some (PDone t [t] (fval s t), PSt (btask (life s) t (set_fin (bT (life s) t) (XCas (fval s t)) (fval s t))) d' (fval s)) else None
      | _ => None end
  end.
Lemma run_ok b t : is_run b t = true -> t_pc (bT b t) = Run.
Proof. unfold is_run. destruct (t_pc (bT b t)); try discriminate; reflexivity. Qed.
Lemma user_ok d t : is_user d t = true -> in_user d t.
Proof. unfold is_user, in_user. destruct (frames d t) as [|[] ?]; try discriminate. eauto. Qed.
Lemma usizeb_ok v : usizeb v = true -> usize (be_arch e) v.
Proof. unfold usizeb, usize. intros H. apply andb_prop in H as [H1 H2]. lia. Qed.
Lemma none_ok {A} (o : option A) : negb (has o) = true -> o = None.
Proof. destruct o; [discriminate|reflexivity]. Qed.
Lemma smove_ok s mv x s' : smove s mv = Some (x, s') -> pstep e c s x s'.
Proof.
  destruct mv as [i|i j|t a|t|t v|t]; cbn [smove]; intros H; try discriminate.
  - destruct (lnext (life s) i) as [[[ins y] b']|] eqn:L; try discriminate. destruct (negb (has (term (fns s)))) eqn:T; try discriminate. injection H as <- <-.
    destruct (lnext_ok _ _ _ _ _ L) as (acc & St & O & A). eapply p_life; eauto; [apply none_ok; exact T|congruence].
  - destruct (negb _) eqn:T; try discriminate. cbn [andb] in H. repeat (apply none_ok in T).
    destruct (Nat.ltb_spec i (bn (life s))); try discriminate. destruct (is_run (life s) i) eqn:R; try discriminate.
    destruct (Nat.ltb_spec j (bn (life s))); try discriminate. destruct (negb (has (bclaim (life s) j))) eqn:Cl; try discriminate. destruct (is_user (fns s) i) eqn:U; try discriminate.
    injection H as <- <-. eapply p_life; [exact T|apply b_join; auto using run_ok, none_ok|reflexivity|intros _; apply user_ok; exact U].
  - destruct (dstep c (fns s) t a) as [[y d']|] eqn:D; try discriminate. destruct (fns_only y) eqn:O; try discriminate. destruct (is_run (life s) t) eqn:R; try discriminate.
    injection H as <- <-. eapply p_fns; eauto using run_ok.
  - destruct (dstep c (fns s) t (ARet 0)) as [[y d']|] eqn:D; try discriminate. destruct y as [| | | | | | | | | |w| | | | | | | |]; try discriminate; destruct w; try discriminate.
    destruct (is_run (life s) t) eqn:R; try discriminate. destruct (usizeb v) eqn:V; try discriminate. injection H as <- <-. apply p_returns; auto using run_ok, usizeb_ok.
  - destruct (dstep c (fns s) t AGo) as [[y d']|] eqn:D; try discriminate. destruct y; try discriminate.
    destruct (Nat.ltb_spec 0 t); try discriminate. destruct (Nat.ltb_spec t (bn (life s))); try discriminate. destruct (is_run (life s) t) eqn:R; try discriminate.
    destruct (usizeb (fval s t)) eqn:V; try discriminate. injection H as <- <-. eapply p_done; [exact D|]. apply b_return; auto using run_ok, usizeb_ok.
Qed.

Definition fmove (s : pst) (m : fmach) (mv : move) : option (list pevent * pst * fmach) :=
  match mv with
  | MPrint t => match acts m t with
      | Some (Act w (FPrint z k) hs) => if negb (has (term (fns s))) && is_user (fns s) t && is_run (life s) t then Some ([], s, oput (aset m t (Some (Act w k hs))) t z) else None
      | _ => None end
  | _ => match smove s mv with Some (x, s') => match gadv m x with Some m' => Some ([x], s', m') | None => None end | None => None end
  end.
Fixpoint fplay (s : pst) (m : fmach) (l : list move) : option (list pevent * pst * fmach) :=
  match l with
  | [] => Some ([], s, m)
  | mv :: l' => match fmove s m mv with
      | Some (x, s', m') => match fplay s' m' l' with Some (tr, s'', m'') => Some (x ++ tr, s'', m'') | None => None end
      | None => None end
  end.
Lemma fmove_ok tr s m mv x s' m' : frun fini main e c tr s m -> fmove s m mv = Some (x, s', m') -> frun fini main e c (tr ++ x) s' m'.
Proof.
  intros R H.
  assert (K : match smove s mv with Some (x, s') => match gadv m x with Some m' => Some ([x], s', m') | None => None end | None => None end = Some (x, s', m') -> frun fini main e c (tr ++ x) s' m').
  { intros K. destruct (smove s mv) as [[y s1]|] eqn:S; try discriminate. destruct (gadv m y) as [m1|] eqn:G; try discriminate. injection K as <- <- <-.
    eapply fr_step; [exact R|eapply smove_ok; eauto|apply gadv_ok; exact G]. }
  destruct mv; try (apply K; exact H). clear K. cbn [fmove] in H.
  destruct (acts m t) as [[w p hs]|] eqn:A; try discriminate. destruct p; try discriminate.
  destruct (negb (has (term (fns s)))) eqn:T; try discriminate. destruct (is_user (fns s) t) eqn:U; try discriminate. destruct (is_run (life s) t) eqn:Rn; try discriminate.
  injection H as <- <- <-. rewrite app_nil_r. eapply fr_print; eauto using none_ok, user_ok, run_ok.
Qed.
Lemma fplay_ok l : forall tr s m x s' m', frun fini main e c tr s m -> fplay s m l = Some (x, s', m') -> frun fini main e c (tr ++ x) s' m'.
Proof.
  induction l as [|mv l IH]; intros tr s m x s' m' R H; cbn [fplay] in H.
  - injection H as <- <- <-. rewrite app_nil_r. exact R.
  - destruct (fmove s m mv) as [[[y s1] m1]|] eqn:M; try discriminate. destruct (fplay s1 m1 l) as [[[z s2] m2]|] eqn:P; try discriminate. injection H as <- <- <-.
    rewrite app_assoc. eapply IH; [eapply fmove_ok; eauto|exact P].
Qed.
(** The state a play ends in, if it can be played. *)
Definition pdef : list pevent * pst * fmach -> option (list pevent * pst * fmach) -> list pevent * pst * fmach := fun d o => match o with Some x => x | None => d end.
Definition ends_in (s : pst) (m : fmach) (l : list move) : pst * fmach := let '(_, s', m') := pdef ([], s, m) (fplay s m l) in (s', m').
Lemma ends_ok l s m tr : frun fini main e c tr s m -> has (fplay s m l) = true -> exists tr', frun fini main e c tr' (fst (ends_in s m l)) (snd (ends_in s m l)).
Proof.
  intros R H. unfold ends_in, pdef. destruct (fplay s m l) as [[[x s'] m']|] eqn:P; [|discriminate]. exists (tr ++ x). eapply fplay_ok; eauto.
Qed.
End Play.
