(** Building concrete executions of parallel programs with program::at_exit by
    computation (only for the examples beside C82). *)
From Coq Require Import ZArith List Bool Lia Arith.
From Verif Require ForkModel.
From Verif Require Import Machine LayoutModel LayoutSpec ThreadModel ByteModel ByteSpec DtorsModel DtorsFacts ProcModel Props_Proc Props_Byte ForkPlay PexitModel.
Import ListNotations.
Open Scope Z_scope.

Section Play.
Variables (e : benv) (c : dcfg) (fini : nat -> qprog) (main : qprog).

(** The user code's side of an event. *)
Definition gadv (m : qmach) (x : pevent) : option qmach :=
  match x with
  | PUser | PDone _ _ _ => Some m
  | PLife (i, _, ECallJoin j) => match acts m i with
      | Some (Act w (QJoin n k) hs) => match nth_error hs n with Some j' => if Nat.eqb j j' then Some m else None | None => None end
      | _ => None end
  | PLife (i, _, EJoin j v) => match acts m i with
      | Some (Act w (QJoin n k) hs) => match nth_error hs n with Some j' => if Nat.eqb j j' then Some (aset m i (Some (Act w (k v) hs))) else None | None => None end
      | _ => None end
  | PLife (_, _, EDetach _) => None
  | PLife (_, _, y) => if api_call y then None else Some m
  | PFns t (RegT f) => match acts m t with Some (Act w (QAtThreadExit q k) hs) => Some (fset (aset m t (Some (Act w k hs))) f q) | _ => None end
  | PFns t (BeginP f) => match acts m t with Some (Act w (QAtExit q k) hs) => Some (fset (aset m t (Some (Act w k hs))) f q) | _ => None end
  | PFns t (CallP f) => Some (aset m t (Some (Act (WP f) (freg m f) [])))
  | PFns t (CallT f) => Some (aset m t (Some (Act (WT f) (freg m f) [])))
  | PFns t (CallF k) => Some (aset m t (Some (Act (WF k) (fini k) [])))
  | PFns t (ExitCall st) => match acts m t with Some (Act WMain (QReturn v) hs) => if Z.eqb st v then Some (aset m t None) else None | _ => None end
  | PFns t (Ret w) => match acts m t, w with
      | Some (Act (WT f) (QReturn v) hs), WT f' | Some (Act (WP f) (QReturn v) hs), WP f' | Some (Act (WF f) (QReturn v) hs), WF f' => if Nat.eqb f f' then Some (aset m t None) else None
      | _, _ => None end
  | PFns t y => match y with Nop | RegP _ | EndP | Lock | Take _ | Unlock | Empty | Term _ => Some m | _ => None end
  | PReturns t v => match acts m t with Some (Act WThread (QReturn v') hs) => if Z.eqb v v' then Some (aset m t None) else None | _ => None end
  | PCreate i _ j => match acts m i with
      | Some (Act w (QCreate f k) hs) => Some (cset (aset (aset m i (Some (Act w k (hs ++ [j])))) j (Some (Act WThread f []))) j f)
      | _ => None end
  end.
Lemma gadv_ok m x m' : gadv m x = Some m' -> qollows fini m x m'.
Proof.
  intros H. destruct x as [|[[i ins] x]|t x|t v|i acc j|t acc v]; cbn in H.
  - injection H as <-. constructor.
  - destruct x; cbn in H; try discriminate; try (injection H as <-; apply q_life; [reflexivity|discriminate|discriminate]);
      destruct (acts m i) as [[w p hs]|] eqn:A; try discriminate; destruct p; try discriminate; destruct (nth_error hs n) as [j'|] eqn:Nt; try discriminate;
      destruct (Nat.eqb_spec j j'); try discriminate; subst; injection H as <-; econstructor; eauto.
  - destruct x; cbn in H; try discriminate; try (injection H as <-; first [apply q_callt|apply q_callp|apply q_callf|apply q_fns; exact Logic.I]);
      destruct (acts m t) as [[w0 p hs]|] eqn:A; try discriminate.
    + destruct p; try discriminate. injection H as <-. eapply q_regt; eauto.
    + destruct p; try discriminate. injection H as <-. eapply q_begp; eauto.
    + destruct w0, p, w; try discriminate; (destruct (Nat.eqb_spec f f0) || destruct (Nat.eqb_spec k k0)); try discriminate; subst; injection H as <-; eapply q_ret; eauto.
    + destruct w0, p; try discriminate. destruct (Z.eqb_spec status v); try discriminate. subst. injection H as <-. eapply q_main; eauto.
  - destruct (acts m t) as [[w0 p hs]|] eqn:A; try discriminate. destruct w0, p; try discriminate. destruct (Z.eqb_spec v v0); try discriminate. subst. injection H as <-. eapply q_returns; eauto.
  - destruct (acts m i) as [[w0 p hs]|] eqn:A; try discriminate. destruct p; try discriminate. injection H as <-. eapply q_create; eauto.
  - injection H as <-. constructor.
Qed.

Definition fmove (s : pst) (m : qmach) (mv : move) : option (list pevent * pst * qmach) :=
  match mv with
  | MPrint t => match acts m t with
      | Some (Act w (QPrint z k) hs) => if negb (has (term (fns s))) && is_user (fns s) t && is_run (life s) t then Some ([], s, oput (aset m t (Some (Act w k hs))) t z) else None
      | _ => None end
  | _ => match smove e c s mv with Some (x, s') => match gadv m x with Some m' => Some ([x], s', m') | None => None end | None => None end
  end.
Fixpoint fplay (s : pst) (m : qmach) (l : list move) : option (list pevent * pst * qmach) :=
  match l with
  | [] => Some ([], s, m)
  | mv :: l' => match fmove s m mv with
      | Some (x, s', m') => match fplay s' m' l' with Some (tr, s'', m'') => Some (x ++ tr, s'', m'') | None => None end
      | None => None end
  end.
Lemma fmove_ok tr s m mv x s' m' : qrun fini main e c tr s m -> fmove s m mv = Some (x, s', m') -> qrun fini main e c (tr ++ x) s' m'.
Proof.
  intros R H.
  assert (K : match smove e c s mv with Some (x, s') => match gadv m x with Some m' => Some ([x], s', m') | None => None end | None => None end = Some (x, s', m') -> qrun fini main e c (tr ++ x) s' m').
  { intros K. destruct (smove e c s mv) as [[y s1]|] eqn:S; try discriminate. destruct (gadv m y) as [m1|] eqn:G; try discriminate. injection K as <- <- <-.
    eapply qr_step; [exact R|eapply (smove_ok e c (fun _ => ForkModel.FReturn 0)); eauto|apply gadv_ok; exact G]. }
  destruct mv; try (apply K; exact H). clear K. cbn [fmove] in H.
  destruct (acts m t) as [[w p hs]|] eqn:A; try discriminate. destruct p; try discriminate.
  destruct (negb (has (term (fns s)))) eqn:T; try discriminate. destruct (is_user (fns s) t) eqn:U; try discriminate. destruct (is_run (life s) t) eqn:Rn; try discriminate.
  injection H as <- <- <-. rewrite app_nil_r. eapply qr_print; eauto using none_ok, user_ok, run_ok.
Qed.
Lemma fplay_ok l : forall tr s m x s' m', qrun fini main e c tr s m -> fplay s m l = Some (x, s', m') -> qrun fini main e c (tr ++ x) s' m'.
Proof.
  induction l as [|mv l IH]; intros tr s m x s' m' R H; cbn [fplay] in H.
  - injection H as <- <- <-. rewrite app_nil_r. exact R.
  - destruct (fmove s m mv) as [[[y s1] m1]|] eqn:M; try discriminate. destruct (fplay s1 m1 l) as [[[z s2] m2]|] eqn:P; try discriminate. injection H as <- <- <-.
    rewrite app_assoc. eapply IH; [eapply fmove_ok; eauto|exact P].
Qed.
(** The state a play ends in, if it can be played. *)
Definition pdef : list pevent * pst * qmach -> option (list pevent * pst * qmach) -> list pevent * pst * qmach := fun d o => match o with Some x => x | None => d end.
Definition ends_in (s : pst) (m : qmach) (l : list move) : pst * qmach := let '(_, s', m') := pdef ([], s, m) (fplay s m l) in (s', m').
Lemma ends_ok l s m tr : qrun fini main e c tr s m -> has (fplay s m l) = true -> exists tr', qrun fini main e c tr' (fst (ends_in s m l)) (snd (ends_in s m l)).
Proof.
  intros R H. unfold ends_in, pdef. destruct (fplay s m l) as [[[x s'] m']|] eqn:P; [|discriminate]. exists (tr ++ x). eapply fplay_ok; eauto.
Qed.
End Play.
