(** Simulation between exit functions with and without log statements. *)
From Coq Require Import ZArith List Bool Lia Arith.
From Verif Require Import LayoutModel DtorsModel DtorsSpec DtorsFacts DLogModel DLogSpec.
Import ListNotations.
Local Close Scope Z_scope.
Local Open Scope nat_scope.

(** The activation frames without the log, and functions popped but not called. *)
Definition efr (x : lframe) : list frame :=
  match x with
  | LF fr => [fr] | LFini st k => [FX st (XFini (S k))] | LMain _ => [FUser WMain] | LEnd => [FDtors] | _ => []
  end.
Definition efs (fs : list lframe) : list frame := flat_map efr fs.
Definition pend (fs : list lframe) : list fid := flat_map (fun x => match x with LCall f => [f] | _ => [] end) fs.

Section Sim.
Variable c : lcfg.
Let d0 := l_dtors c.

Inductive core (td : list fid) : list lframe -> Prop :=
| k_plain l : core td (map LF l)
| k_call f fr l : fr = FDtors /\ c_tae (l_dtors c) = true \/ (exists st, fr = FX st XT) -> core td (LCall f :: LF fr :: map LF l)
| k_fini st k l : core td (LFini st k :: map LF l)
| k_main st l : core td (LMain st :: map LF l)
| k_end l : (if c_tae (l_dtors c) then td else []) = [] -> core td (LEnd :: map LF l)
| k_term st fr l : fr = FX st (XFini 0) \/ fr = FImm st -> core td (LTerm st :: LF fr :: map LF l).
Inductive shape (td : list fid) : bool -> list lframe -> Prop :=
| s_core fs : core td fs -> shape td false fs
| s_say m fs : core td fs -> shape td false (LSay m :: fs)
| s_log m fs : core td fs -> shape td true (LLog m :: fs).

Record sim (tr : ltrace) (s : lst) (d : dst) : Prop := Sim {
  m_fr : forall t, frames d t = efs (lfr s t);
  m_td : forall t, tdt d t = pend (lfr s t) ++ ltdt s t;
  m_pd : pdt d = lpdt s; m_lk : lk d = llk s; m_nf : nextf d = lnextf s; m_nt : nthr d = lnthr s; m_tm : term d = lterm s;
  m_sh : forall t, shape (ltdt s t) (busy t tr) (lfr s t);
  m_new : forall t : nat, lnthr s <= t -> lfr s t = [] }.

Lemma efs_map l : efs (map LF l) = l.
Proof. unfold efs. induction l as [|x l IH]; [reflexivity|cbn in *; now rewrite IH]. Qed.
Lemma pend_map l : pend (map LF l) = [].
Proof. induction l as [|x l IH]; [reflexivity|exact IH]. Qed.
Lemma efs_cons x l : efs (x :: l) = efr x ++ efs l. Proof. reflexivity. Qed.
Definition pfr (x : lframe) : list fid := match x with LCall f => [f] | _ => [] end.
Lemma pend_cons x l : pend (x :: l) = pfr x ++ pend l. Proof. reflexivity. Qed.
Lemma shape_say td m fs : core td fs -> shape td false (say c m fs).
Proof. intros H. unfold say. destruct (l_log c); constructor; exact H. Qed.
Lemma efs_say m fs : efs (say c m fs) = efs fs.
Proof. unfold say. destruct (l_log c); reflexivity. Qed.
Lemma pend_say m fs : pend (say c m fs) = pend fs.
Proof. unfold say. destruct (l_log c); reflexivity. Qed.
Lemma busy_snoc u t e tr : busy u (tr ++ [(t, e)]) = busy_step u (busy u tr) (t, e).
Proof. unfold busy. now rewrite fold_left_app. Qed.

Definition follows_ (e : lev) (d : dst) (t : nat) (d' : dst) : Prop :=
  match e with Ev ev => exists a, dstep (l_dtors c) d t a = Some (ev, d') | _ => d' = d end.

Lemma sim_init : sim [] linit dinit.
Proof.
  split; try reflexivity; intros t; unfold linit, dinit; cbn; unfold dupd; destruct (Nat.eqb_spec t 0) as [->|]; try reflexivity.
  - apply s_core. apply (k_plain [] [FUser WMain]).
  - apply s_core. apply (k_plain [] []).
  - lia.
Qed.

Lemma sim_mk tr s d t e s' d' : sim tr s d ->
  (forall u, u <> t -> frames d' u = frames d u /\ tdt d' u = tdt d u /\ lfr s' u = lfr s u /\ ltdt s' u = ltdt s u) ->
  frames d' t = efs (lfr s' t) -> tdt d' t = pend (lfr s' t) ++ ltdt s' t ->
  pdt d' = lpdt s' -> lk d' = llk s' -> nextf d' = lnextf s' -> nthr d' = lnthr s' -> term d' = lterm s' ->
  shape (ltdt s' t) (busy t (tr ++ [(t, e)])) (lfr s' t) -> lnthr s' = lnthr s -> lfr s t <> [] -> sim (tr ++ [(t, e)]) s' d'.
Proof.
  intros S O F D P1 P2 P3 P4 P5 H Nt Ne.
  assert (Lt : t < lnthr s) by (destruct (le_lt_dec (lnthr s) t) as [G|G]; [exfalso; apply Ne; now apply (m_new _ _ _ S)|exact G]).
  split; try assumption; intros u; (destruct (Nat.eq_dec u t) as [->|N]; [try assumption; lia|]);
    destruct (O u N) as (A1 & A2 & A3 & A4); rewrite ?A1, ?A2, ?A3, ?A4, ?Nt; try apply S.
  rewrite busy_snoc. unfold busy_step. cbn [fst]. destruct (Nat.eqb_spec t u); [congruence|]. apply S.
Qed.
Lemma core_plain td td' l : core td (map LF l) -> core td' (map LF l).
Proof. intros _. constructor. Qed.
Lemma core_td td td' fs : core td fs -> pend fs <> [] \/ (forall l, fs <> LEnd :: l) -> core td' fs.
Proof. intros H N. inversion H; subst; try (constructor; assumption). destruct N as [N|N]; [cbn in N; rewrite pend_map in N; congruence|exfalso; eapply N; reflexivity]. Qed.
Lemma map_cons_inv x fs l : x :: fs = map LF l -> exists fr r, x = LF fr /\ fs = map LF r /\ l = fr :: r.
Proof. destruct l as [|fr r]; [discriminate|]. intros H. inversion H; subst. eauto. Qed.

Lemma shape_inv td b top fs : shape td b (top :: fs) ->
  match top with
  | LSay _ => b = false /\ core td fs
  | LLog _ => b = true /\ core td fs
  | LF _ | LFini _ _ | LMain _ => b = false /\ exists l, fs = map LF l
  | LCall _ => b = false /\ exists fr l, fs = LF fr :: map LF l /\ (fr = FDtors /\ c_tae (l_dtors c) = true \/ exists st, fr = FX st XT)
  | LEnd => b = false /\ (if c_tae (l_dtors c) then td else []) = [] /\ exists l, fs = map LF l
  | LTerm st => b = false /\ exists fr l, fs = LF fr :: map LF l /\ (fr = FX st (XFini 0) \/ fr = FImm st)
  end.
Proof.
  intros H. inversion H as [fs' C|m fs' C|m fs' C]; subst; [|split; auto|split; auto].
  inversion C as [l E|f fr l E|st k l|st l|l E|st fr l E]; subst; try solve [split; eauto 8].
  symmetry in E. apply map_cons_inv in E. destruct E as (fr & r & -> & -> & ->). split; eauto.
Qed.

Arguments efs : simpl never.
Arguments pend : simpl never.
Lemma say_core td tr t e m fs : busy t (tr ++ [(t, e)]) = false -> core td fs -> shape td (busy t (tr ++ [(t, e)])) (say c m fs).
Proof. intros -> H. now apply shape_say. Qed.
Lemma say_new td b m fr : b = false -> shape td b (say c m [LF fr]).
Proof. intros ->. apply shape_say. apply (k_plain td [fr]). Qed.
Lemma shape_nil td b : shape td b [] -> b = false. Proof. now inversion 1. Qed.
Lemma core1 td x l : core td (LF x :: map LF l). Proof. apply (k_plain td (x :: l)). Qed.
Lemma core2 td x y l : core td (LF x :: LF y :: map LF l). Proof. apply (k_plain td (x :: y :: l)). Qed.
Lemma core3 td x y z l : core td (LF x :: LF y :: LF z :: map LF l). Proof. apply (k_plain td (x :: y :: z :: l)). Qed.

Ltac mk S := eapply sim_mk; [exact S|intros u Nu; cbn; rewrite ?(dupd_ne _ _ _ _ Nu); auto | | | | | | | | | | ];
    cbn; rewrite ?dupd_eq, ?efs_say, ?pend_say, ?efs_cons, ?pend_cons, ?efs_map, ?pend_map; cbn; try congruence; auto.
Ltac go F Tm := unfold dstep; rewrite Tm, F; cbn.

Lemma sim_step tr s d t a e s' : sim tr s d -> lstep c s t a = Some (e, s') -> (busy t tr = true -> forall ev, e <> Ev ev) ->
  exists d', follows_ e d t d' /\ sim (tr ++ [(t, e)]) s' d'.
Proof.
  intros S H Q. unfold lstep in H. destruct (lterm s) eqn:T; [discriminate|].
  pose proof (m_fr _ _ _ S t) as F. pose proof (m_td _ _ _ S t) as D. pose proof (m_sh _ _ _ S t) as Sh.
  pose proof (m_pd _ _ _ S) as Pd. pose proof (m_lk _ _ _ S) as Lk. pose proof (m_nf _ _ _ S) as Nf. pose proof (m_nt _ _ _ S) as Nt.
  pose proof (m_tm _ _ _ S) as Tm. rewrite T in Tm.
  pose proof (busy_snoc t t e tr) as Bz. unfold busy_step in Bz. cbn [fst snd] in Bz. rewrite Nat.eqb_refl in Bz.
  destruct (lfr s t) as [|top fs] eqn:L; [discriminate|]. apply shape_inv in Sh.
  rewrite efs_cons in F. rewrite pend_cons in D.
  assert (SC : forall td fs e0, busy t tr = false -> e = Ev e0 -> core td fs -> shape td (busy t (tr ++ [(t, e)])) fs).
  { intros td x e0 B -> C. rewrite Bz, B. now apply s_core. }
  assert (ST : forall td fs, busy t tr = false -> e = Tau -> core td fs -> shape td (busy t (tr ++ [(t, e)])) fs).
  { intros td x B -> C. rewrite Bz, B. now apply s_core. }
  destruct top as [fr|m|m|f|st k|st| |st]; cbn [efr pfr app] in F, D.
  - destruct Sh as (B & l & ->). rewrite efs_map in F. rewrite pend_map in D. cbn [app] in D. rewrite B in Bz.
    destruct fr as [w|f|f| | |st p|st|].
    + (* user *)
      destruct a; cbn in H; try discriminate.
      * inversion H; subst. exists d. split; [exists ANop; go F Tm; reflexivity|].
        mk S; rewrite ?L, ?efs_cons, ?pend_cons, ?efs_map, ?pend_map; auto. eapply SC; auto using core1.
      * destruct (c_tae (l_dtors c)) eqn:Ct; inversion H; subst. eexists. split; [exists ARegT; go F Tm; rewrite Ct, Nf; reflexivity|].
        mk S; rewrite ?L, ?efs_cons, ?pend_cons, ?efs_map, ?pend_map; auto; [cbn; congruence|]. eapply SC; auto using core1.
      * destruct (c_pae (l_dtors c)) eqn:Ct; inversion H; subst. eexists. split; [exists ARegP; go F Tm; rewrite Ct, Nf; reflexivity|].
        mk S. eapply SC; auto using core2.
      * inversion H; subst. eexists. split; [exists (AExit status); go F Tm; reflexivity|]. mk S. eapply SC; auto using core2.
      * inversion H; subst. eexists. split; [exists (AImm status); go F Tm; reflexivity|]. mk S. eapply SC; auto using core2.
      * inversion H; subst. eexists. split; [exists ATrap; go F Tm; reflexivity|]. mk S. eapply SC; auto using core2.
      * destruct (c_thread (l_dtors c)) eqn:Ct; inversion H; subst. eexists. split; [exists ASpawn; go F Tm; rewrite Ct, Nt; reflexivity|].
        split; cbn; try congruence; auto; intros u; unfold dupd; rewrite ?Nt; destruct (Nat.eqb_spec u (lnthr s)) as [->|Nu]; rewrite ?efs_say, ?pend_say; auto; try apply S.
        -- apply say_new. pose proof (m_new _ _ _ S (lnthr s) (le_n _)) as E. pose proof (m_sh _ _ _ S (lnthr s)) as Sn. rewrite E in Sn.
           rewrite busy_snoc. unfold busy_step. cbn [fst snd]. destruct (Nat.eqb t (lnthr s)); now apply shape_nil in Sn.
        -- rewrite busy_snoc. unfold busy_step. cbn [fst snd]. destruct (Nat.eqb t u); apply S.
        -- lia.
        -- intros G. apply S. lia.
      * destruct w; inversion H; subst.
        -- exists d. split; [reflexivity|]. mk S. apply say_core; [auto|constructor].
        -- eexists. split; [exists (ARet status); go F Tm; reflexivity|]. mk S. apply say_core; [auto|apply core1].
        -- eexists. split; [exists (ARet status); go F Tm; reflexivity|]. mk S. eapply SC; auto; constructor.
        -- eexists. split; [exists (ARet status); go F Tm; reflexivity|]. mk S. eapply SC; auto; constructor.
        -- eexists. split; [exists (ARet status); go F Tm; reflexivity|]. mk S. eapply SC; auto; constructor.
    + destruct a; try discriminate. cbn in H. unfold ltry_lock in H. destruct (c_thread (l_dtors c)) eqn:Ct.
      * destruct (llk s) eqn:Ll; inversion H; subst. eexists. split; [exists AGo; go F Tm; unfold try_lock; rewrite Ct, Lk; reflexivity|].
        mk S. eapply SC; auto using core1.
      * inversion H; subst. eexists. split; [exists AGo; go F Tm; unfold try_lock; rewrite Ct; reflexivity|]. mk S. eapply SC; auto using core1.
    + destruct a; inversion H; subst. eexists. split; [exists AGo; go F Tm; reflexivity|]. mk S. eapply SC; auto using core1.
    + destruct a; inversion H; subst. eexists. split; [exists AGo; go F Tm; reflexivity|]. unfold unlock, lunlock in *. destruct (c_thread (l_dtors c)); mk S; eapply SC; auto; constructor.
    + destruct a; try discriminate. cbn in H. destruct (if c_tae (l_dtors c) then ltdt s t else []) as [|f r] eqn:E; inversion H; subst.
      * exists d. split; [reflexivity|]. mk S. apply say_core; [auto|]. now constructor.
      * exists d. split; [reflexivity|]. destruct (c_tae (l_dtors c)) eqn:Ct; [|discriminate]. mk S. apply say_core; [auto|]. constructor. auto.
    + destruct a; try discriminate. cbn in H. destruct p as [| | |f|f|k].
      * destruct (ltdt s t) as [|f r] eqn:E; inversion H; subst.
        -- eexists. split; [exists AGo; go F Tm; rewrite D; reflexivity|]. mk S. eapply SC; auto using core1.
        -- exists d. split; [reflexivity|]. mk S. apply say_core; [auto|]. constructor. eauto.
      * unfold ltry_lock in H. destruct (c_thread (l_dtors c)) eqn:Ct.
        -- destruct (llk s) eqn:Ll; inversion H; subst. eexists. split; [exists AGo; go F Tm; unfold try_lock; rewrite Ct, Lk; reflexivity|].
           mk S. eapply SC; auto using core1.
        -- inversion H; subst. eexists. split; [exists AGo; go F Tm; unfold try_lock; rewrite Ct; reflexivity|]. mk S. eapply SC; auto using core1.
      * destruct (lpdt s) as [|f r] eqn:E; inversion H; subst.
        -- eexists. split; [exists AGo; go F Tm; rewrite Pd; reflexivity|]. mk S. eapply SC; auto using core1.
        -- eexists. split; [exists AGo; go F Tm; rewrite Pd; reflexivity|]. mk S. eapply SC; auto using core1.
      * inversion H; subst. eexists. split; [exists AGo; go F Tm; reflexivity|]. unfold unlock, lunlock in *.
        destruct (c_thread (l_dtors c)); mk S; (apply say_core; [auto|apply core1]).
      * inversion H; subst. eexists. split; [exists AGo; go F Tm; reflexivity|]. mk S. eapply SC; auto using core2.
      * destruct k as [|k]; inversion H; subst; (exists d; split; [reflexivity|]); mk S; (apply say_core; [auto|]); constructor; auto.
    + destruct a; inversion H; subst. exists d. split; [reflexivity|]. mk S. apply say_core; [auto|]. constructor; auto.
    + destruct a; inversion H; subst. eexists. split; [exists AGo; go F Tm; reflexivity|]. mk S; rewrite ?L, ?efs_cons, ?pend_cons, ?efs_map, ?pend_map; auto.
      eapply SC; auto using core1.
  - destruct a; inversion H; subst. destruct Sh as [B C]. exists d. split; [reflexivity|]. mk S. rewrite Bz. now constructor.
  - destruct Sh as [B C]. specialize (Q B). rewrite B in Bz. destruct a; cbn in H; try discriminate;
      try (exfalso; revert H; repeat match goal with |- context [if ?x then _ else _] => destruct x end; intros H; inversion H; subst; eapply Q; reflexivity).
    + inversion H; subst. exists d. split; [reflexivity|]. mk S; rewrite ?L, ?efs_cons, ?pend_cons; auto. rewrite Bz. now constructor.
    + inversion H; subst. exists d. split; [reflexivity|]. mk S. rewrite Bz. now constructor.
  - destruct a; inversion H; subst. destruct Sh as (B & fr & l & -> & K). rewrite efs_cons, efs_map in F. rewrite pend_cons, pend_map in D. cbn in F, D.
    eexists. split.
    + exists AGo. unfold dstep. rewrite Tm, F. destruct K as [[-> Ct]|[st ->]]; cbn; rewrite ?Ct, D; reflexivity.
    + mk S. eapply SC; auto using core2.
  - destruct a; inversion H; subst. destruct Sh as (B & l & ->). rewrite efs_map in F. rewrite pend_map in D.
    eexists. split; [exists AGo; go F Tm; reflexivity|]. mk S. eapply SC; auto using core2.
  - destruct a; inversion H; subst. destruct Sh as (B & l & ->). rewrite efs_map in F. rewrite pend_map in D.
    eexists. split; [exists (ARet st); go F Tm; reflexivity|]. mk S. eapply SC; auto using core1.
  - destruct a; inversion H; subst. destruct Sh as (B & E & l & ->). rewrite efs_map in F. rewrite pend_map in D. cbn [app] in D.
    eexists. split; [exists AGo; go F Tm; rewrite D, E; reflexivity|]. mk S. eapply SC; auto. apply (k_plain _ []).
  - destruct a; inversion H; subst. destruct Sh as (B & fr & l & -> & K). rewrite efs_cons, efs_map in F. rewrite pend_cons, pend_map in D. cbn in F, D.
    eexists. split.
    + exists AGo. unfold dstep. rewrite Tm, F. destruct K as [-> | ->]; reflexivity.
    + mk S; rewrite ?L, ?efs_cons, ?pend_cons, ?efs_map, ?pend_map; auto. eapply SC; auto. now constructor.
Qed.
End Sim.
