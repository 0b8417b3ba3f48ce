(** The chain of threads of a scripted program, each waiting for the next, and
    what is left of the program in it (for C71). *)
From Coq Require Import ZArith List Bool Lia Arith.
From Verif Require Import Machine LayoutModel ThreadModel ByteModel DtorsModel DtorsFacts DtorsInv DtorsPres ProcModel Props_Proc Props_Byte ScriptModel ScriptSpec ScriptProofs.
Import ListNotations.
Open Scope Z_scope.

Section Chain.
Context {D : Type}.
Variables (c : dcfg) (fini : nat -> prog D).
Local Notation runs := (runs c fini). Local Notation thread := (thread c fini). Local Notation drain := (drain c fini).
Local Notation exits := (ScriptSpec.exits c fini). Local Notation pops := (pops c fini). Local Notation finis := (finis c fini).
Local Notation feval := (feval c fini).

(** ** User code at the top, when it prints or runs a thread *)
Lemma user_do reg h fv w g k fs ks u os r : feval reg h fv (FUser w :: fs) (URun w (Do g k) :: ks) u os r ->
  exists os', os = snd (g (ud u)) ++ os' /\
    feval reg h fv (FUser w :: fs) (URun w (k (fst (g (ud u)))) :: ks) (with_d u (fst (g (ud u)))) os' r.
Proof.
  assert (RD : forall os r, runs h (Do g k) u os r -> exists os', os = snd (g (ud u)) ++ os' /\ runs h (k (fst (g (ud u)))) (with_d u (fst (g (ud u)))) os' r).
  { intros os' r' R. inversion R; subst. match goal with E : g _ = _ |- _ => rewrite E end. cbn [fst snd]. eauto. }
  intros E. inversion E; subst.
  - destruct (RD _ _ ltac:(eassumption)) as (o' & -> & R). exists (o' ++ os2). split; [now rewrite app_assoc|]. eapply E_fn; eauto.
  - destruct (RD _ _ ltac:(eassumption)) as (o' & -> & R). exists o'. split; [reflexivity|]. apply E_fn_end; eauto.
  - match goal with H : thread _ _ _ _ _ |- _ => inversion H; subst end; destruct (RD _ _ ltac:(eassumption)) as (o' & -> & R).
    + exists (o' ++ os2). split; [now rewrite app_assoc|]. apply E_thread. eapply T_run; eauto.
    + exists o'. split; [reflexivity|]. apply E_thread. apply T_end; eauto.
  - match goal with H : mains _ _ _ _ _ _ _ |- _ => destruct H as [MR|(o1 & v & u1 & o2 & -> & MR & X)] end; destruct (RD _ _ MR) as (o' & -> & R).
    + exists o'. split; [reflexivity|]. apply E_main. left. exact R.
    + exists (o' ++ o2). split; [now rewrite app_assoc|]. apply E_main. right. exists o', v, u1, o2. auto.
Qed.

Lemma user_thread reg h fv w f k fs ks u os r : feval reg h fv (FUser w :: fs) (URun w (CallThread f k) :: ks) u os r ->
  (exists o, r = End o /\ thread h f (with_ts u []) os (End o)) \/
  (exists os1 v u1 os2, os = os1 ++ os2 /\ thread h f (with_ts u []) os1 (Back v u1) /\
     feval reg h fv (FUser w :: fs) (URun w (k v) :: ks) (with_ts u1 (uts u)) os2 r).
Proof.
  assert (RD : forall os r, runs h (CallThread f k) u os r -> (exists o, r = End o /\ thread h f (with_ts u []) os (End o)) \/
    (exists os1 v u1 os2, os = os1 ++ os2 /\ thread h f (with_ts u []) os1 (Back v u1) /\ runs h (k v) (with_ts u1 (uts u)) os2 r)).
  { intros os' r' R. inversion R; subst; [right|left]; eauto 8. }
  intros E. inversion E; subst.
  - destruct (RD _ _ ltac:(eassumption)) as [(o & X & _)|(o1 & v' & u' & o2 & -> & T & R)]; [discriminate|].
    right. exists o1, v', u', (o2 ++ os2). split; [now rewrite app_assoc|]. split; [exact T|]. eapply E_fn; eauto.
  - destruct (RD _ _ ltac:(eassumption)) as [(o' & X & R)|(o1 & v' & u' & o2 & -> & T & R)]; [left; eauto|].
    right. exists o1, v', u', o2. split; [reflexivity|]. split; [exact T|]. apply E_fn_end; eauto.
  - match goal with H : thread _ _ _ _ _ |- _ => inversion H; subst end; destruct (RD _ _ ltac:(eassumption)) as [(o' & X & R)|(o1 & v' & u' & o2 & -> & T & R)]; try discriminate X.
    + right. exists o1, v', u', (o2 ++ os2). split; [now rewrite app_assoc|]. split; [exact T|]. apply E_thread. eapply T_run; eauto.
    + left. eauto.
    + right. exists o1, v', u', o2. split; [reflexivity|]. split; [exact T|]. apply E_thread. apply T_end; eauto.
  - match goal with H : mains _ _ _ _ _ _ _ |- _ => destruct H as [MR|(oa & va & ua & ob & -> & MR & X)] end; destruct (RD _ _ MR) as [(o' & X' & R)|(o1 & v' & u' & o2 & -> & T & R)]; try discriminate X'.
    + left. eauto.
    + right. exists o1, v', u', o2. split; [reflexivity|]. split; [exact T|]. apply E_main. left. exact R.
    + right. exists o1, v', u', (o2 ++ ob). split; [now rewrite app_assoc|]. split; [exact T|]. apply E_main. right. exists o2, va, ua, ob. auto.
Qed.

(** ** The chain of threads, each waiting for the one before it *)
Definition waits (l : list (ukont D)) : option (who * nat * (Z -> prog D) * list (ukont D)) :=
  match l with UJoin w j k :: r | UWait w j k :: r => Some (w, j, k, r) | _ => None end.
Definition going (k : ukont D) : Prop := match k with URun _ _ | UGone => True | _ => False end.

Inductive ceval (s : pst) (m : mach D) (h : bool) : nat -> list nat -> list frame -> list (ukont D) -> ust -> list Z -> outcome -> Prop :=
| c_end t rest fs ks u os o : feval (reg m) h (fval s t) fs ks u os (End o) -> ceval s m h t rest fs ks u os o
| c_back t p rest fs ks u os1 v u1 w k r os2 o : feval (reg m) h (fval s t) fs ks u os1 (Back v u1) ->
    waits (konts m p) = Some (w, t, k, r) ->
    ceval s m h p rest (frames (fns s) p) (URun w (k v) :: r) (with_ts u1 (map (reg m) (tdt (fns s) p))) os2 o ->
    ceval s m h t (p :: rest) fs ks u (os1 ++ os2) o.

Lemma ceval_cong s m s' m' h rest : known (fns s) ->
  (forall f, (f < nextf (fns s))%nat -> reg m' f = reg m f) ->
  (forall p, In p rest -> frames (fns s') p = frames (fns s) p /\ tdt (fns s') p = tdt (fns s) p /\ waits (konts m' p) = waits (konts m p) /\ fval s' p = fval s p) ->
  forall t fs ks u os o, (forall fr f, In fr fs -> In f (ffids fr) -> (f < nextf (fns s))%nat) -> fval s' t = fval s t ->
  ceval s m h t rest fs ks u os o -> ceval s' m' h t rest fs ks u os o.
Proof.
  intros (K1 & K2 & K3) RG. induction rest as [|p rest IH]; intros HP t fs ks u os o FS FV E; inversion E; subst.
  - apply c_end. rewrite FV. eapply feval_reg; [|eassumption]. intros. apply RG. eauto.
  - apply c_end. rewrite FV. eapply feval_reg; [|eassumption]. intros. apply RG. eauto.
  - destruct (HP p (or_introl eq_refl)) as (E1 & E2 & E3 & E4).
    eapply c_back; [rewrite FV; eapply feval_reg; [|eassumption]; intros; apply RG; eauto|rewrite E3; eassumption|].
    rewrite E1, E2. replace (map (reg m') (tdt (fns s) p)) with (map (reg m) (tdt (fns s) p)).
    + apply IH; auto; [intros q Hq; apply HP; right; exact Hq|intros fr f; apply K3].
    + apply map_ext_in. intros f Hf. symmetry. apply RG. eapply K1; eauto.
Qed.

Fixpoint linked (s : dst) (m : mach D) (t : nat) (rest : list nat) : Prop :=
  match rest with
  | [] => True
  | p :: rest' => (exists w k r fs, waits (konts m p) = Some (w, t, k, r) /\ frames s p = FUser w :: fs /\ Forall going r) /\ linked s m p rest'
  end.
Lemma linked_in s m rest : forall t, linked s m t rest -> forall p, In p rest ->
  exists j w k r fs, waits (konts m p) = Some (w, j, k, r) /\ frames s p = FUser w :: fs /\ Forall going r.
Proof. induction rest as [|q rest IH]; intros t L p []; cbn in L; destruct L as [(w & k & r & fs & L1) L2]; [subst; eauto 8|eauto]. Qed.
Lemma linked_cong s m s' m' rest : forall t,
  (forall p, In p rest -> frames s' p = frames s p /\ waits (konts m' p) = waits (konts m p)) -> linked s m t rest -> linked s' m' t rest.
Proof.
  induction rest as [|q rest IH]; intros t H L; cbn in *; [exact Logic.I|]. destruct (H q (or_introl eq_refl)) as [-> ->]. destruct L as [L1 L2].
  split; [exact L1|]. apply IH; auto.
Qed.

Record shape (s : dst) (m : mach D) (t : nat) (rest : list nat) : Prop := {
  sh_nd : NoDup (t :: rest);
  sh_out : forall u, ~ In u (t :: rest) -> frames s u = [] /\ konts m u = [];
  sh_top : Forall going (konts m t);
  sh_link : linked s m t rest }.

(** [h = false]: nobody calls .fini_array functions with the lock held. *)
Definition hok (s : dst) (h : bool) : Prop :=
  h = false -> c_thread c = true -> c_pae c = true -> forall u, existsb isfini (frames s u) = false.
Lemma hok_step tr s t a x s' h : DtorsInv.inv c tr s -> dstep c s t a = Some (x, s') -> x <> Empty -> hok s h -> hok s' h.
Proof.
  intros I DS NE H Eh Et Ep u. specialize (H Eh Et Ep).
  pose proof (dstep_effect _ _ _ _ _ _ DS) as [_ EL EO EF _ _ _ _ _ _ _ _].
  assert (TN : t <> nthr s).
  { intros ->. destruct (i_new _ _ _ I (nthr s)) as [X _]; [lia|]. contradiction. }
  specialize (EO TN). destruct (Nat.eq_dec u t) as [->|NU].
  - specialize (H t). revert EO H. generalize (frames s t) (frames s' t). intros A B F Q.
    destruct F; try congruence; cbn in *; auto; unfold first_phase, after_t in *; rewrite ?Ep; destruct (c_tae c); cbn; auto.
  - rewrite (EF u NU). destruct x; auto. destruct (Nat.eqb u u0); auto.
Qed.

(** [os] is still to be printed; then the process ends with [o]. *)
Definition J (s : pst) (m : mach D) (os : list Z) (o : outcome) : Prop :=
  (term (fns s) = Some o /\ os = []) \/
  (term (fns s) = None /\ exists h t rest, hok (fns s) h /\ shape (fns s) m t rest /\
     ceval s m h t rest (frames (fns s) t) (konts m t) (ustof (fns s) m t) os o).

Lemma J_life s m b os o : J s m os o -> J (PSt b (fns s) (fval s)) m os o.
Proof.
  intros [H|(T & h & t & rest & Hk & Sh & E)]; [left; exact H|right]. split; [exact T|]. exists h, t, rest. split; [exact Hk|]. split; [exact Sh|].
  clear Sh T. cbn [fns]. revert E. generalize (frames (fns s) t), (konts m t), (ustof (fns s) m t). intros fs ks u E.
  induction E; [apply c_end; auto|eapply c_back; eauto].
Qed.

(** A thread with a continuation that is not waiting is the running one. *)
Lemma runner s m t rest i k r : shape s m t rest -> konts m i = k :: r -> going k -> i = t.
Proof.
  intros [ND SO ST SL] K G. destruct (Nat.eq_dec i t) as [|NE]; [assumption|exfalso].
  destruct (in_dec Nat.eq_dec i rest) as [Hi|Hi].
  - destruct (linked_in _ _ _ _ SL _ Hi) as (j & w & kk & rr & fs & W & _). rewrite K in W. destruct k; cbn in *; try discriminate; contradiction.
  - destruct (SO i) as [_ X]; [intros [->|X]; contradiction|congruence].
Qed.
Lemma waiter s m t rest i l x : shape s m t rest -> konts m i = l -> waits l = Some x -> i <> t /\ In i rest.
Proof.
  intros [ND SO ST SL] K W. assert (i <> t).
  { intros ->. rewrite K in ST. destruct l as [|[]]; cbn in W; try discriminate; inversion ST; subst; cbn in *; contradiction. }
  split; [assumption|]. destruct (in_dec Nat.eq_dec i rest) as [Hi|Hi]; [assumption|exfalso].
  destruct (SO i) as [_ X]; [intros [->|X]; contradiction|]. rewrite X in K. subst. discriminate.
Qed.

(** A step of the running thread on its own stack. *)
Lemma J_own s m t rest h os o s' m' :
  shape (fns s) m t rest -> ceval s m h t rest (frames (fns s) t) (konts m t) (ustof (fns s) m t) os o ->
  known (fns s) -> term (fns s') = None ->
  (forall p, p <> t -> frames (fns s') p = frames (fns s) p /\ tdt (fns s') p = tdt (fns s) p /\ konts m' p = konts m p /\ fval s' p = fval s p) ->
  (forall f, (f < nextf (fns s))%nat -> reg m' f = reg m f) ->
  Forall going (konts m' t) ->
  (forall os1 r, feval (reg m) h (fval s t) (frames (fns s) t) (konts m t) (ustof (fns s) m t) os1 r ->
     exists h', (h' = h \/ exists o', r = End o') /\ hok (fns s') h' /\ feval (reg m') h' (fval s' t) (frames (fns s') t) (konts m' t) (ustof (fns s') m' t) os1 r) ->
  J s' m' os o.
Proof.
  intros [ND SO ST SL] E K T OT RG GO F.
  assert (NI : forall p, In p rest -> p <> t) by (intros p Hp ->; inversion ND; contradiction).
  assert (Sh : shape (fns s') m' t rest).
  { constructor; auto.
    - intros u Hu. destruct (SO u Hu) as [A B]. assert (u <> t) by (intros ->; apply Hu; left; reflexivity).
      destruct (OT u H) as (-> & _ & -> & _). auto.
    - revert SL. apply linked_cong. intros p Hp. destruct (OT p (NI p Hp)) as (-> & _ & -> & _). auto. }
  right. split; [exact T|]. inversion E; subst.
  - destruct (F _ _ ltac:(eassumption)) as (h' & _ & Hk & F'). exists h', t, rest. split; [exact Hk|]. split; [exact Sh|]. apply c_end. exact F'.
  - destruct (F _ _ ltac:(eassumption)) as (h' & [->|[o' X]] & Hk & F'); [|discriminate X]. exists h, t, (p :: rest0). split; [exact Hk|]. split; [exact Sh|].
    destruct (OT p (NI p (or_introl eq_refl))) as (E1 & E2 & E3 & E4).
    eapply c_back; [exact F'|rewrite E3; eassumption|]. rewrite E1, E2. destruct K as (K1 & K2 & K3).
    replace (map (reg m') (tdt (fns s) p)) with (map (reg m) (tdt (fns s) p)).
    + eapply ceval_cong; [split; [exact K1|split; [exact K2|exact K3]]|exact RG| |intros; eapply K3; eauto|exact E4|eassumption].
      intros q Hq. destruct (OT q (NI q (or_intror Hq))) as (-> & -> & -> & ->). auto.
    + apply map_ext_in. intros f Hf. symmetry. apply RG. eapply K1; eauto.
Qed.

Lemma exec_known tr s : DtorsModel.exec c tr s -> known s.
Proof.
  induction 1 as [|tr s t a x s' E IH St].
  - split; [|split]; cbn; try contradiction. intros t fr f. unfold dupd. destruct (Nat.eqb t 0); [intros [<-|[]] []|intros []].
  - eapply known_step; eauto. eapply exec_inv; eauto.
Qed.

Lemma J_do s m t w g k r os o : known (fns s) -> J s m os o -> term (fns s) = None -> in_user (fns s) t -> konts m t = URun w (Do g k) :: r ->
  exists os', os = snd (g (data m)) ++ os' /\
    J s (Mach (dupd (konts m) t (URun w (k (fst (g (data m)))) :: r)) (reg m) (fst (g (data m))) (out m ++ snd (g (data m)))) os' o.
Proof.
  intros K [[X _]|(T & h & t' & rest & Hk & Sh & E)] Tm (w' & fs & U) KT; [congruence|].
  assert (t = t') as <- by (eapply runner; eauto; exact Logic.I).
  set (m' := Mach _ _ _ _).
  assert (KT' : konts m' t = URun w (k (fst (g (data m)))) :: r) by (unfold m'; cbn; apply dupd_eq).
  assert (KO : forall p, p <> t -> konts m' p = konts m p) by (intros p NE; unfold m'; cbn; apply dupd_ne; exact NE).
  rewrite U, KT in E.
  destruct Sh as [ND SO ST SL].
  assert (NI : forall p, In p rest -> p <> t) by (intros p Hp ->; inversion ND; contradiction).
  assert (Sh' : shape (fns s) m' t rest).
  { constructor; auto.
    - intros u Hu. destruct (SO u Hu) as [A B]. split; [exact A|]. rewrite KO; [exact B|]. intros ->. apply Hu. left. reflexivity.
    - rewrite KT'. rewrite KT in ST. inversion ST; subst. constructor; [exact Logic.I|assumption].
    - revert SL. apply linked_cong. intros p Hp. rewrite KO; auto. }
  inversion E; subst.
  - assert (w' = w) as -> by (match goal with A : ScriptProofs.feval _ _ _ _ _ _ _ _ _ _ |- _ => exact (proj1 (user_runs _ _ _ _ _ _ _ _ _ _ _ _ _ A)) end).
    destruct (user_do _ _ _ _ _ _ _ _ _ _ _ ltac:(eassumption)) as (os' & -> & F). exists os'. split; [reflexivity|].
    right. split; [exact T|]. exists h, t, rest. split; [exact Hk|]. split; [exact Sh'|]. rewrite U, KT'. apply c_end. exact F.
  - assert (w' = w) as -> by (match goal with A : ScriptProofs.feval _ _ _ _ _ _ _ _ _ _ |- _ => exact (proj1 (user_runs _ _ _ _ _ _ _ _ _ _ _ _ _ A)) end).
    destruct (user_do _ _ _ _ _ _ _ _ _ _ _ ltac:(eassumption)) as (os' & -> & F). exists (os' ++ os2). split; [now rewrite app_assoc|].
    right. split; [exact T|]. exists h, t, (p :: rest0). split; [exact Hk|]. split; [exact Sh'|]. rewrite U, KT'.
    eapply c_back; [exact F|rewrite KO by (apply NI; left; reflexivity); eassumption|].
    eapply (ceval_cong s m s m'); [exact K|reflexivity| |destruct K as (_ & _ & K3); intros; eapply K3; eauto|reflexivity|eassumption].
    intros q Hq. rewrite KO; auto. apply NI. right. exact Hq.
Qed.

Lemma J_step e tr s m x s' m' os o : good_env e -> prun e c tr s -> J s m os o -> pstep e c s x s' -> follows fini m x m' -> J s' m' os o.
Proof.
  intros G R Hj St F.
  destruct (proj _ _ _ _ R) as [RB RD]. pose proof (exec_inv _ _ _ RD) as I. pose proof (exec_known _ _ RD) as K.
  pose proof (prun_inv _ _ _ _ R) as PI.
  assert (R' : prun e c (tr ++ [x]) s') by (econstructor; eauto).
  destruct Hj as [[X _]|(T & h & t & rest & Hk & Sh & E)].
  { exfalso. eapply C62_end; [exact R| |exact St]. congruence. }
  assert (Hj : J s m os o) by (right; eauto 9).
  destruct St as [acc b' T' B|acc i ins x b' T' B LO AC|t0 act x d' DS FO PC|t0 v d' DS PC UV|acc i ins j b' d' B DS|acc t0 ins b' d' DS B].
  - (* user *) inversion F; subst. apply J_life. exact Hj.
  - (* life *) inversion F; subst.
    + (* ECallJoin *) match goal with X : konts m i = _ |- _ => rename X into KI end.
      assert (W : waits (konts m i) = Some (w, j, k, r)) by (rewrite KI; reflexivity).
      assert (NE : i <> t /\ In i rest) by exact (waiter _ _ _ _ _ _ _ Sh eq_refl W).
      apply (J_life s). right. split; [exact T|]. exists h, t, rest. destruct Sh as [ND SO ST SL].
      assert (WE : forall p, waits (konts (kset m i (UWait w j k :: r)) p) = waits (konts m p)).
      { intros p. cbn. unfold dupd. destruct (Nat.eqb_spec p i) as [->|]; [rewrite W|]; reflexivity. }
      assert (KT : konts (kset m i (UWait w j k :: r)) t = konts m t) by (cbn; apply dupd_ne; intuition).
      split; [exact Hk|]. split.
      * constructor; auto.
        -- intros u Hu. destruct (SO u Hu) as [A B']. split; [exact A|]. cbn. rewrite dupd_ne; [exact B'|]. intros ->. apply Hu. right. tauto.
        -- rewrite KT. exact ST.
        -- revert SL. apply linked_cong. intros. split; [reflexivity|]. apply WE.
      * rewrite KT. eapply (ceval_cong s m s); [exact K|reflexivity| |destruct K as (_ & _ & K3); intros; eapply K3; eauto|reflexivity|exact E].
        intros p _. rewrite WE. auto.
    + (* EJoin *) match goal with X : konts m i = _ |- _ => rename X into KI end.
      destruct (C62_join_partial e c _ _ _ _ _ _ G R') as (_ & _ & [acc' Dn] & Fj). cbn [fns] in Fj.
      pose proof (pi_done _ _ PI _ _ _ Dn) as Pr. destruct (pi_ret _ _ PI _ _ Pr) as [-> _].
      assert (W : waits (konts m i) = Some (w, j, k, r)) by (rewrite KI; reflexivity).
      assert (NE : i <> t /\ In i rest) by exact (waiter _ _ _ _ _ _ _ Sh eq_refl W). destruct NE as [NE Hi].
      destruct Sh as [ND SO ST SL].
      (* the thread i waits for is t *)
      assert (Rr : exists rest', rest = i :: rest' /\ j = t).
      { clear E Hj SO ST. revert t ND SL NE Hi. induction rest as [|p rest' IH]; intros t ND SL NE Hi; [destruct Hi|].
        destruct SL as [(w1 & k1 & r1 & fs1 & W1 & F1 & _) SL]. destruct (Nat.eq_dec p i) as [->|Np].
        - exists rest'. split; [reflexivity|]. rewrite W in W1. congruence.
        - exfalso. destruct Hi as [->|Hi]; [congruence|]. destruct (IH p) as (r2 & -> & ->); auto; [now inversion ND|].
          rewrite F1 in Fj. discriminate. }
      destruct Rr as (rest' & -> & ->). rewrite Fj in E.
      assert (NI : ~ In t rest') by (inversion ND; subst; intros X; match goal with A : ~ In t _ |- _ => apply A; right; exact X end).
      assert (NI2 : ~ In i rest') by (inversion ND; subst; match goal with A : NoDup (i :: _) |- _ => inversion A; assumption end).
      inversion E; subst; [match goal with A : ScriptProofs.feval _ _ _ _ _ [] _ _ _ _ |- _ => inversion A end|].
      match goal with A : ScriptProofs.feval _ _ _ _ _ [] _ _ _ _ |- _ => inversion A; subst end.
      match goal with A : waits (konts m i) = _ |- _ => rewrite W in A; injection A as <- <- <- end. cbn [app].
      destruct SL as [(w1 & k1 & r1 & fs1 & W1 & F1 & G1) SL]. rewrite W in W1. injection W1 as <- <- <-.
      apply (J_life s). right. split; [exact T|]. exists h, i, rest'.
      set (m' := kset m i (URun w (k (fval s t)) :: r)).
      assert (KI' : konts m' i = URun w (k (fval s t)) :: r) by (cbn; apply dupd_eq).
      assert (KO : forall p, p <> i -> konts m' p = konts m p) by (intros; cbn; apply dupd_ne; assumption).
      split; [exact Hk|]. split.
      * constructor.
        -- now inversion ND.
        -- intros u Hu. destruct (Nat.eq_dec u t) as [->|Nu].
           ++ split; [exact Fj|]. rewrite KO by auto. auto.
           ++ destruct (SO u) as [A B']; [intros [->|[->|X]]; [congruence|apply Hu; left; reflexivity|apply Hu; right; exact X]|]. split; [exact A|]. rewrite KO; [exact B'|]. intros ->. apply Hu. left. reflexivity.
        -- rewrite KI'. constructor; [exact Logic.I|exact G1].
        -- revert SL. apply linked_cong. intros p Hp. split; [reflexivity|]. rewrite KO; [reflexivity|]. intros ->. contradiction.
      * rewrite KI'. eapply (ceval_cong s m s m'); [exact K|reflexivity| |destruct K as (_ & _ & K3); intros; eapply K3; eauto|reflexivity|].
        -- intros p Hp. rewrite KO; [auto|]. intros ->. contradiction.
        -- eassumption.
    + apply J_life. exact Hj.
  - (* exit functions *)
    pose proof (dstep_effect _ _ _ _ _ _ DS) as [_ EL EO EF ET EP _ EN _ ETm EG EX].
    assert (TN : t0 <> nthr (fns s)).
    { intros ->. destruct (i_new _ _ _ I (nthr (fns s))) as [X _]; [lia|]. contradiction. }
    specialize (EO TN).
    destruct (Nat.eq_dec t0 t) as [->|NE].
    + destruct (match x with Term _ => true | _ => false end) eqn:XT.
      * destruct x; try discriminate XT. left. cbn [fns]. rewrite ETm.
        assert (TE : forall os1 rr, feval (reg m) h (fval s t) (frames (fns s) t) (konts m t) (ustof (fns s) m t) os1 rr -> os1 = [] /\ rr = End o0).
        { intros os1 rr Ev. inversion EO; subst; match goal with A : _ = frames (fns s) t |- _ => rewrite <- A in Ev end; inversion Ev; subst; rewrite ?trap_sig; auto.
          match goal with A : finis _ _ _ _ _ _ |- _ => inversion A; subst; auto end. }
        inversion E; subst; destruct (TE _ _ ltac:(eassumption)) as [-> Y]; [injection Y as ->; auto|discriminate Y].
      * eapply (J_own s m t rest h os o); eauto.
        -- cbn [fns]. rewrite ETm. destruct x; try reflexivity. discriminate XT.
        -- intros p Np. cbn [fns fval]. rewrite (EF p Np), ET.
           assert (E3 : konts m' p = konts m p) by (inversion F; subst; cbn; rewrite ?dupd_ne by assumption; reflexivity).
           rewrite E3. destruct x; try discriminate FO; auto; destruct (Nat.eqb_spec p t); try contradiction; auto.
        -- intros f Hf. inversion F; subst; cbn; try reflexivity; apply dupd_ne; destruct EG as [-> _]; lia.
        -- destruct Sh as [_ _ ST _]. inversion F; subst; cbn; rewrite ?dupd_eq; try exact ST;
             try (match goal with A : konts m t = _ |- _ => rewrite A in ST end; inversion ST; subst); try constructor; auto; exact Logic.I.
        -- intros os1 rr Ev. destruct (own_step c fini _ _ _ _ _ _ _ _ _ _ _ _ I K DS FO F Ev) as [(o' & -> & _)|(h' & X1 & X2)]; [discriminate XT|].
           exists h'. split; [|split; [|exact X2]].
           ++ destruct x; auto. destruct X1; auto.
           ++ cbn [fns]. destruct (match x with Empty => true | _ => false end) eqn:XE.
              ** destruct x; try discriminate XE. destruct X1 as [-> _]. intros Y1 Y2. congruence.
              ** assert (h' = h) as -> by (destruct x; try discriminate XE; exact X1).
                 eapply hok_step; [exact I|exact DS|intros ->; discriminate XE|exact Hk].
    + (* a waiting thread *)
      destruct (in_dec Nat.eq_dec t0 rest) as [Hi|Hi].
      * destruct (linked_in _ _ _ _ (sh_link _ _ _ _ Sh) _ Hi) as (j & w & k & r & fs & W & Fr & _).
        rewrite Fr in EO.
        assert (NW : forall w' p r', konts m t0 <> URun w' p :: r') by (intros w' p r' X; rewrite X in W; discriminate W).
        inversion F; subst; try (exfalso; eapply NW; eassumption); inversion EO; subst; try contradiction.
        assert (d' = fns s) as ->.
        { unfold dstep in DS. rewrite T, Fr in DS. destruct act; cbn in DS; repeat match goal with A : context [if ?b then _ else _] |- _ => destruct b end; try discriminate; try (injection DS as <-; reflexivity).
          destruct w; discriminate. }
        destruct s; exact Hj.
      * destruct (sh_out _ _ _ _ Sh t0) as [X _]; [intros [->|X]; contradiction|contradiction].
  - (* a thread's function returns *)
    pose proof (dstep_effect _ _ _ _ _ _ DS) as [_ EL EO EF ET EP _ EN _ ETm EG EX].
    assert (TN : t0 <> nthr (fns s)).
    { intros ->. destruct (i_new _ _ _ I (nthr (fns s))) as [X _]; [lia|]. contradiction. }
    specialize (EO TN). inversion F; subst. match goal with X : konts m t0 = _ |- _ => rename X into KI end.
    assert (t0 = t) as -> by (eapply runner; eauto; exact Logic.I).
    eapply (J_own s m t rest h os o); eauto.
    + intros p Np. cbn. rewrite (EF p Np), ET, dupd_ne by assumption. unfold fupd. destruct (Nat.eqb_spec p t); [contradiction|auto].
    + cbn. rewrite dupd_eq. destruct Sh as [_ _ ST _]. rewrite KI in ST. now inversion ST.
    + intros os1 rr Ev. exists h. split; [auto|]. split; [eapply hok_step; [exact I|exact DS|discriminate|exact Hk]|]. cbn [fns fval kset konts reg]. unfold fupd. rewrite Nat.eqb_refl, dupd_eq.
      assert (Q : ustof d' (kset m t r) t = ustof (fns s) m t) by (unfold ustof; rewrite ET, EP; reflexivity). rewrite Q.
      rewrite KI in Ev. inversion EO; subst; [|congruence].
      match goal with A : _ = frames (fns s) t |- _ => rewrite <- A in Ev end.
      inversion Ev; subst; try congruence.
      match goal with A : thread _ _ _ _ _ |- _ => inversion A; subst end; match goal with A : runs _ _ _ _ _ |- _ => inversion A; subst end.
      cbn [app]. apply E_dtors. assumption.
  - (* create *)
    pose proof (dstep_effect _ _ _ _ _ _ DS) as [_ EL EO EF ET EP _ EN _ ETm [EG EC] EX].
    assert (TN : i <> nthr (fns s)).
    { intros ->. destruct (i_new _ _ _ I (nthr (fns s))) as [X _]; [lia|]. contradiction. }
    specialize (EO TN). inversion F; subst. match goal with X : konts m i = _ |- _ => rename X into KI end.
    assert (i = t) as -> by (eapply runner; eauto; exact Logic.I).
    set (j := nthr (fns s)) in *.
    destruct (i_new _ _ _ I j) as [Fj0 [Tj0 _]]; [unfold j; lia|].
    assert (EOf : frames d' t = frames (fns s) t /\ exists w' fs', frames (fns s) t = FUser w' :: fs').
    { revert EO. generalize (frames d' t) (frames (fns s) t) j. intros FA FB v X. inversion X; subst; eauto. }
    destruct EOf as [EOf (w' & fs' & Ft)].
    set (m' := kset (kset m t (UJoin w j k :: r)) j [URun WThread f]).
    assert (KT : konts m' t = UJoin w j k :: r) by (cbn; rewrite dupd_ne by assumption; apply dupd_eq).
    assert (KJ : konts m' j = [URun WThread f]) by (cbn; apply dupd_eq).
    assert (KO : forall p, p <> t -> p <> j -> konts m' p = konts m p) by (intros; cbn; rewrite !dupd_ne by assumption; reflexivity).
    assert (FrJ : frames d' j = [FUser WThread]) by (rewrite EF by congruence; now rewrite Nat.eqb_refl).
    assert (FrO : forall p, p <> j -> frames d' p = frames (fns s) p).
    { intros p Np. destruct (Nat.eq_dec p t) as [->|Nt]; [exact EOf|]. rewrite EF by assumption. destruct (Nat.eqb_spec p j); [contradiction|reflexivity]. }
    assert (TdO : forall p, p <> j -> tdt d' p = tdt (fns s) p).
    { intros p Np. rewrite ET. destruct (Nat.eqb_spec p j); [contradiction|reflexivity]. }
    assert (TdJ : tdt d' j = []) by (rewrite ET, Nat.eqb_refl; reflexivity).
    assert (NJ : ~ In j (t :: rest)).
    { intros [->|X]; [congruence|]. destruct (linked_in _ _ _ _ (sh_link _ _ _ _ Sh) _ X) as (? & ? & ? & ? & ? & _ & Y & _). congruence. }
    assert (Sh' : shape d' m' j (t :: rest)).
    { destruct Sh as [ND SO ST SL]. constructor.
      - constructor; auto.
      - intros u Hu. destruct (SO u) as [A B']; [intros X; apply Hu; right; exact X|].
        assert (u <> j) by (intros ->; apply Hu; left; reflexivity). assert (u <> t) by (intros ->; apply Hu; right; left; reflexivity).
        rewrite FrO, KO by assumption. auto.
      - rewrite KJ. constructor; [exact Logic.I|constructor].
      - cbn [linked]. rewrite KI in ST. split.
        + exists w, k, r, fs'. rewrite KT, FrO by congruence. split; [reflexivity|]. split; [|now inversion ST].
          rewrite Ft. f_equal. f_equal. rewrite Ft, KI in E. inversion E; subst;
            match goal with A : ScriptProofs.feval _ _ _ _ _ _ _ _ _ _ |- _ => exact (proj1 (user_runs _ _ _ _ _ _ _ _ _ _ _ _ _ A)) end.
        + revert SL. apply linked_cong. intros p Hp.
          assert (p <> t) by (intros ->; inversion ND; contradiction). assert (p <> j) by (intros ->; apply NJ; right; exact Hp).
          rewrite FrO, KO by assumption. auto. }
    assert (w' = w) as ->.
    { rewrite Ft, KI in E. inversion E; subst;
        match goal with A : ScriptProofs.feval _ _ _ _ _ _ _ _ _ _ |- _ => exact (proj1 (user_runs _ _ _ _ _ _ _ _ _ _ _ _ _ A)) end. }
    assert (CG : forall tt fs ks u os o, (forall fr f, In fr fs -> In f (ffids fr) -> (f < nextf (fns s))%nat) ->
      ceval s m h tt rest fs ks u os o -> ceval (PSt b' d' (fval s)) m' h tt rest fs ks u os o).
    { intros tt fs ks u os' o' HF. apply ceval_cong; auto. intros p Hp. cbn [fns fval].
      assert (p <> t) by (destruct Sh as [ND _ _ _]; intros ->; inversion ND; contradiction). assert (p <> j) by (intros ->; apply NJ; right; exact Hp).
      rewrite FrO, TdO, KO by assumption. auto. }
    right. cbn [fns]. split; [exact ETm|]. exists h, j, (t :: rest). split; [eapply hok_step; [exact I|exact DS|discriminate|exact Hk]|]. split; [exact Sh'|]. rewrite FrJ, KJ.
    assert (UJ : ustof d' m' j = with_ts (ustof (fns s) m t) []) by (unfold ustof, with_ts; cbn; rewrite TdJ, EP; reflexivity).
    rewrite UJ. rewrite Ft, KI in E.
    assert (KF : forall fr f, In fr (FUser w :: fs') -> In f (ffids fr) -> (f < nextf (fns s))%nat) by (rewrite <- Ft; destruct K as (_ & _ & K3); intros; eapply K3; eauto).
    inversion E; subst; destruct (user_thread _ _ _ _ _ _ _ _ _ _ _ ltac:(eassumption)) as [(o' & Y & Th)|(o1 & v1 & u1' & o2 & -> & Th & Ev)].
    + injection Y as <-. apply c_end. apply E_thread. exact Th.
    + eapply c_back; [apply E_thread; exact Th|rewrite KT; reflexivity|]. cbn [fns]. rewrite FrO, TdO, Ft by congruence. apply CG; [exact KF|]. apply c_end. exact Ev.
    + discriminate Y.
    + rewrite <- app_assoc. eapply c_back; [apply E_thread; exact Th|rewrite KT; reflexivity|]. cbn [fns]. rewrite FrO, TdO, Ft by congruence. apply CG; [exact KF|].
      eapply c_back; [exact Ev|eassumption|assumption].
  - (* a thread is done *)
    pose proof (dstep_effect _ _ _ _ _ _ DS) as [_ EL EO EF ET EP _ EN _ ETm EG EX].
    assert (TN : t0 <> nthr (fns s)).
    { intros ->. destruct (i_new _ _ _ I (nthr (fns s))) as [X _]; [lia|]. contradiction. }
    specialize (EO TN). inversion F; subst.
    assert (t0 = t) as ->.
    { destruct (Nat.eq_dec t0 t) as [|NE]; [assumption|exfalso]. destruct (in_dec Nat.eq_dec t0 rest) as [Hi|Hi].
      - destruct (linked_in _ _ _ _ (sh_link _ _ _ _ Sh) _ Hi) as (j & w & k & r & fs & W & Fr & _). rewrite Fr in EO. inversion EO.
      - destruct (sh_out _ _ _ _ Sh t0) as [X _]; [intros [->|X]; contradiction|contradiction]. }
    eapply (J_own s m' t rest h os o); eauto.
    + apply (sh_top _ _ _ _ Sh).
    + intros os1 rr Ev. exists h. split; [auto|]. split; [eapply hok_step; [exact I|exact DS|discriminate|exact Hk]|]. cbn [fns fval].
      assert (Q : ustof d' m' t = ustof (fns s) m' t) by (unfold ustof; rewrite ET, EP; reflexivity). rewrite Q.
      assert (TD : tdt (fns s) t = []) by (destruct (c_tae c) eqn:Et; [auto|apply (i_tae _ _ _ I Et)]).
      assert (EF2 : exists fs, frames (fns s) t = FDtors :: fs /\ frames d' t = []) by (inversion EO; subst; eauto). destruct EF2 as (fs2 & EF2 & ->). rewrite EF2 in Ev. rename m' into mm.
      inversion Ev; subst. match goal with A : drain _ _ _ _ _ |- _ => inversion A; subst end;
        try (match goal with A : uts (ustof _ _ _) = _ :: _ |- _ => unfold ustof in A; cbn in A; rewrite TD in A; discriminate A end).
      apply E_done.
Qed.

Lemma follows_out m x m' : follows fini m x m' -> out m' = out m.
Proof. intros F. inversion F; reflexivity. Qed.

Lemma srun_prun main d0 e tr s m : srun fini main d0 e c tr s m -> prun e c tr s.
Proof. induction 1; auto; econstructor; eauto. Qed.

Lemma means_J main d0 os o b : means c fini main d0 os o ->
  J (PSt b dinit (fun _ => 0)) (Mach (dupd (fun _ => []) 0%nat [URun WMain main]) (fun _ => Return 0) d0 []) os o.
Proof.
  intros M. right. split; [reflexivity|]. exists false, 0%nat, []. split; [intros _ _ _ u; cbn; unfold dupd; destruct (Nat.eqb u 0); reflexivity|]. split.
  - constructor.
    + constructor; [intros []|constructor].
    + intros u Hu. cbn in *. unfold dupd. destruct (Nat.eqb_spec u 0) as [->|]; [edestruct Hu; auto|auto].
    + cbn. constructor; [exact Logic.I|constructor].
    + exact Logic.I.
  - apply c_end. cbn. apply E_main. destruct M; [right|left]; eauto 8.
Qed.

Lemma srun_J main d0 e tr s m os o : good_env e -> srun fini main d0 e c tr s m -> means c fini main d0 os o ->
  exists rest, os = out m ++ rest /\ J s m rest o.
Proof.
  intros G R M. induction R as [b Hb|tr s m x s' m' R IH St F|tr s m t w g k r R IH T U P K].
  - exists os. split; [reflexivity|]. apply means_J. exact M.
  - destruct IH as (rest & -> & Hj). exists rest. rewrite (follows_out _ _ _ F). split; [reflexivity|].
    eapply J_step; eauto. eapply srun_prun; eauto.
  - destruct IH as (rest & -> & Hj). destruct (proj _ _ _ _ (srun_prun _ _ _ _ _ _ R)) as [_ RD].
    destruct (J_do s m t w g k r rest o (exec_known _ _ RD) Hj T U K) as (os' & -> & Hj'). exists os'. cbn [out]. rewrite app_assoc. auto.
Qed.
End Chain.

