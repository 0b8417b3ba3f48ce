(** Whatever the logger does, a registered function is called at most once. *)
From Coq Require Import ZArith List Bool Lia Arith.
From Verif Require Import LayoutModel DtorsModel DtorsSpec DtorsFacts DLogModel DLogSpec DLogProofs DLogConv DLogTell.
Import ListNotations.
Local Open Scope nat_scope.

(** The boxes a frame, a thread, the whole state holds; those called. *)
Definition ids (x : lframe) : list nat :=
  match x with LF (FLock f) | LF (FPush f) | LF (FX _ (XUnlock f)) | LF (FX _ (XCall f)) | LCall f => [f] | _ => [] end.
Definition held (s : lst) (t : nat) : list nat := flat_map ids (lfr s t) ++ ltdt s t.
Definition called (tr : ltrace) : list nat := flat_map (fun x => match snd x with Ev (CallT f) | Ev (CallP f) => [f] | _ => [] end) tr.
Definition cnt (l : list nat) (x : nat) : nat := count_occ Nat.eq_dec l x.
Lemma cnt_app a b x : cnt (a ++ b) x = cnt a x + cnt b x. Proof. apply count_occ_app. Qed.
Lemma cnt_cons a b x : cnt (a :: b) x = (if Nat.eq_dec a x then 1 else 0) + cnt b x.
Proof. unfold cnt. cbn. destruct (Nat.eq_dec a x); reflexivity. Qed.
Lemma cnt_nil x : cnt [] x = 0. Proof. reflexivity. Qed.
Global Opaque cnt.
Definition here (s : lst) (tr : ltrace) (t x : nat) : nat := cnt (held s t) x + cnt (lpdt s) x + cnt (called tr) x.
Definition everywhere (s : lst) (tr : ltrace) (x : nat) : nat := cnt (flat_map (held s) (seq 0 (lnthr s))) x + cnt (lpdt s) x + cnt (called tr) x.

Lemma held_split s t n x : t < n -> exists r, cnt (flat_map (held s) (seq 0 n)) x = cnt (held s t) x + r /\
  forall s', (forall u, u <> t -> held s' u = held s u) -> cnt (flat_map (held s') (seq 0 n)) x = cnt (held s' t) x + r.
Proof.
  intros L. exists (cnt (flat_map (held s) (seq 0 t)) x + cnt (flat_map (held s) (seq (S t) (n - S t))) x).
  assert (E : seq 0 n = seq 0 t ++ t :: seq (S t) (n - S t)).
  { assert (X : n = t + S (n - S t)) by lia. rewrite X at 1. rewrite seq_app. reflexivity. }
  assert (K : forall s', cnt (flat_map (held s') (seq 0 n)) x = cnt (held s' t) x + (cnt (flat_map (held s') (seq 0 t)) x + cnt (flat_map (held s') (seq (S t) (n - S t))) x)).
  { intros s'. rewrite E, flat_map_app, cnt_app. cbn [flat_map]. rewrite cnt_app. lia. }
  split; [apply K|]. intros s' H. rewrite K. f_equal. f_equal; (f_equal; rewrite !flat_map_concat_map; f_equal; apply map_ext_in; intros u Hu; apply in_seq in Hu; apply H; lia).
Qed.

Section Once.
Variable c : lcfg.

Record once (tr : ltrace) (s : lst) : Prop := Once {
  o_one : forall x, everywhere s tr x <= 1;
  o_old : forall x, lnextf s <= x -> everywhere s tr x = 0;
  o_new : forall t, lnthr s <= t -> lfr s t = [] /\ ltdt s t = [];
  o_td : forall t f, In f (ltdt s t) \/ In (LCall f) (lfr s t) -> In (t, Ev (RegT f)) tr;
  o_pd : forall f, In f (lpdt s) -> exists u, In (u, Ev (RegP f)) tr;
  o_fr : forall t st f, In (LF (FX st (XUnlock f))) (lfr s t) \/ In (LF (FX st (XCall f))) (lfr s t) -> exists u, In (u, Ev (RegP f)) tr;
  o_ct : forall t f, In (t, Ev (CallT f)) tr -> In (t, Ev (RegT f)) tr;
  o_cp : forall t f, In (t, Ev (CallP f)) tr -> exists u, In (u, Ev (RegP f)) tr }.

(** One step: boxes only move, or the next one is made. *)
Lemma step_count tr s t a e s' : lstep c s t a = Some (e, s') -> (forall u, e <> Ev (Spawn u)) ->
  lnthr s' = lnthr s /\
  ((lnextf s' = lnextf s /\ forall x, here s' (tr ++ [(t, e)]) t x <= here s tr t x) \/
   (lnextf s' = S (lnextf s) /\ forall x, here s' (tr ++ [(t, e)]) t x <= here s tr t x + (if Nat.eq_dec (lnextf s) x then 1 else 0))).
Proof.
  unfold lstep. destruct (lterm s); [discriminate|]. unfold here, held. destruct (lfr s t) as [|top fs] eqn:L; [discriminate|].
  assert (CA : called (tr ++ [(t, e)]) = called tr ++ called [(t, e)]) by apply flat_map_app. rewrite CA.
  destruct top as [fr|m|m|f|st k|st| |st]; [destruct fr as [w|f|f| | |st p|st|]|..]; destruct a; cbn; try discriminate;
    unfold ltry_lock, lunlock, say;
    repeat match goal with
    | |- context [if c_thread ?x then _ else _] => destruct (c_thread x)
    | |- context [match llk ?x with _ => _ end] => destruct (llk x)
    | |- context [if c_tae ?x then ltdt s t else []] => destruct (c_tae x)
    | |- context [match ltdt s t with _ => _ end] => destruct (ltdt s t) eqn:?
    | |- context [match lpdt s with _ => _ end] => destruct (lpdt s) eqn:?
    | |- (match ?x with _ => _ end) = _ -> _ => destruct x
    | |- context [if ?x then _ else _] => destruct x
    end; cbn; try discriminate; intros H NS; inversion H; subst; try (exfalso; eapply NS; reflexivity); cbn;
    (split; [reflexivity|]); try (left; split; [reflexivity|]; intros x); try (right; split; [reflexivity|]; intros x); cbn;
    rewrite ?dupd_eq, ?L; cbn; rewrite ?cnt_app, ?cnt_cons, ?cnt_nil; cbn; try match goal with E : ltdt s t = _ |- _ => rewrite ?E end; try match goal with E : lpdt s = _ |- _ => rewrite ?E end; rewrite ?cnt_app, ?cnt_cons, ?cnt_nil;
    repeat match goal with |- context [Nat.eq_dec ?a ?b] => destruct (Nat.eq_dec a b) end; try lia.
all: unfold first_phase, after_t; destruct (c_tae (l_dtors c)), (c_pae (l_dtors c)); rewrite ?cnt_nil; lia.
Qed.

(** Where boxes come from. *)
Lemma step_from s t a e s' : lstep c s t a = Some (e, s') -> (forall u, e <> Ev (Spawn u)) ->
  (forall f, In f (ltdt s' t) \/ In (LCall f) (lfr s' t) -> (In f (ltdt s t) \/ In (LCall f) (lfr s t)) \/ e = Ev (RegT f)) /\
  (forall f, In f (lpdt s') -> In f (lpdt s) \/ e = Ev (RegP f)) /\
  (forall st f, In (LF (FX st (XUnlock f))) (lfr s' t) \/ In (LF (FX st (XCall f))) (lfr s' t) ->
     In (LF (FX st (XUnlock f))) (lfr s t) \/ In (LF (FX st (XCall f))) (lfr s t) \/ In f (lpdt s)) /\
  (forall f, e = Ev (CallT f) -> In (LCall f) (lfr s t)) /\
  (forall f, e = Ev (CallP f) -> exists st, In (LF (FX st (XCall f))) (lfr s t)).
Proof.
  unfold lstep. destruct (lterm s); [discriminate|]. destruct (lfr s t) as [|top fs] eqn:L; [discriminate|].
  destruct top as [fr|m|m|f|st k|st| |st]; [destruct fr as [w|f|f| | |st p|st|]|..]; destruct a; cbn; try discriminate;
    unfold ltry_lock, lunlock, say, first_phase, after_t; repeat match goal with
    | |- context [if c_thread ?x then _ else _] => destruct (c_thread x)
    | |- context [match llk ?x with _ => _ end] => destruct (llk x)
    | |- context [if c_tae ?x then ltdt s t else []] => destruct (c_tae x)
    | |- context [match ltdt s t with _ => _ end] => destruct (ltdt s t) eqn:?
    | |- context [match lpdt s with _ => _ end] => destruct (lpdt s) eqn:?
    | |- (match ?x with _ => _ end) = _ -> _ => destruct x
    | |- context [if ?x then _ else _] => destruct x
    end;
    cbn; try discriminate; intros H NS; inversion H; subst; try (exfalso; eapply NS; reflexivity); cbn; rewrite ?dupd_eq, ?L; cbn.
  all: repeat match goal with E : ltdt _ _ = _ |- _ => rewrite E in *; clear E | E : lpdt _ = _ |- _ => rewrite E in *; clear E end; cbn.
  all: clear; split; [|split; [|split; [|split]]]; intros;
    repeat match goal with X : _ \/ _ |- _ => destruct X as [X|X] end; try discriminate;
    repeat match goal with X : LF _ = LF _ |- _ => injection X; clear X; intros; subst | X : LCall _ = LCall _ |- _ => injection X; clear X; intros; subst | X : Ev _ = Ev _ |- _ => injection X; clear X; intros; subst end;
    first [tauto|subst; tauto|eauto 6].
Qed.

Lemma step_act s t a e s' : lstep c s t a = Some (e, s') -> lfr s t <> [].
Proof. unfold lstep. destruct (lterm s); [discriminate|]. destruct (lfr s t); discriminate. Qed.
Lemma called_snoc tr t e : called (tr ++ [(t, e)]) = called tr ++ called [(t, e)].
Proof. apply flat_map_app. Qed.

Lemma lstep_spawn s t a u s' : lstep c s t a = Some (Ev (Spawn u), s') -> u = lnthr s /\ s' = lspawn c s.
Proof.
  unfold lstep. destruct (lterm s); [discriminate|]. destruct (lfr s t) as [|top fs]; [discriminate|].
  destruct top as [fr|m|m|f|st k|st| |st]; [destruct fr as [w|f|f| | |st p|st|]|..]; destruct a; cbn; try discriminate; unfold ltry_lock;
    repeat match goal with
    | |- context [match (if ?x then _ else _) with _ => _ end] => destruct x
    | |- (match ?x with _ => _ end) = _ -> _ => destruct x
    | |- (if ?x then _ else _) = _ -> _ => destruct x
    end; cbn; try discriminate; intros H; inversion H; auto.
Qed.

Lemma once_init : once [] linit.
Proof.
  unfold linit. split; unfold everywhere, held; cbn -[dupd]; intros.
  - rewrite !cnt_nil. lia.
  - rewrite !cnt_nil. lia.
  - unfold dupd. destruct (Nat.eqb_spec t 0); [lia|auto].
  - unfold dupd in *. destruct (Nat.eqb t 0); cbn in *; intuition discriminate.
  - contradiction.
  - unfold dupd in *. destruct (Nat.eqb t 0); cbn in *; intuition discriminate.
  - contradiction.
  - contradiction.
Qed.

Lemma once_spawn tr s t : once tr s -> once (tr ++ [(t, Ev (Spawn (lnthr s)))]) (lspawn c s).
Proof.
  intros O.
  assert (K : forall u, lfr (lspawn c s) u = lfr s u /\ ltdt (lspawn c s) u = ltdt s u \/ u = lnthr s /\ flat_map ids (lfr (lspawn c s) u) = [] /\
    (forall st f, ~ In (LCall f) (lfr (lspawn c s) u) /\ ~ In (LF (FX st (XUnlock f))) (lfr (lspawn c s) u) /\ ~ In (LF (FX st (XCall f))) (lfr (lspawn c s) u)) /\ ltdt (lspawn c s) u = []).
  { intros u. cbn. unfold dupd. destruct (Nat.eqb_spec u (lnthr s)) as [->|]; [right|auto]. split; [reflexivity|]. unfold say.
    split; [destruct (l_log c); reflexivity|]. split; [|reflexivity]. intros st f. destruct (l_log c); cbn; intuition discriminate. }
  assert (H : forall x, everywhere (lspawn c s) (tr ++ [(t, Ev (Spawn (lnthr s)))]) x = everywhere s tr x).
  { intros x. unfold everywhere. rewrite called_snoc, cnt_app. change (called [(t, Ev (Spawn (lnthr s)))]) with (@nil nat). rewrite cnt_nil.
    change (lnthr (lspawn c s)) with (S (lnthr s)). rewrite seq_S, flat_map_app, cnt_app. cbn [flat_map Nat.add].
    assert (E : held (lspawn c s) (lnthr s) = []).
    { unfold held. destruct (K (lnthr s)) as [[A B]|(_ & A & _ & B)]; rewrite B, ?A.
      - destruct (o_new _ _ O (lnthr s) (le_n _)) as [-> ->]. reflexivity.
      - reflexivity. }
    rewrite E. cbn [app]. rewrite cnt_nil. change (lpdt (lspawn c s)) with (lpdt s).
    assert (F : flat_map (held (lspawn c s)) (seq 0 (lnthr s)) = flat_map (held s) (seq 0 (lnthr s))).
    { rewrite !flat_map_concat_map. f_equal. apply map_ext_in. intros u Hu. apply in_seq in Hu. unfold held. destruct (K u) as [[-> ->]|(-> & _)]; [reflexivity|lia]. }
    rewrite F. lia. }
  split.
  - intros x. rewrite H. apply (o_one _ _ O).
  - intros x L. rewrite H. now apply (o_old _ _ O).
  - intros u Hu. cbn in Hu. destruct (K u) as [[-> ->]|(-> & _)]; [apply (o_new _ _ O); lia|lia].
  - intros u f Hf. apply in_or_app. left. destruct (K u) as [[A B]|(-> & _ & A & B)].
    + rewrite A, B in Hf. now apply (o_td _ _ O).
    + rewrite B in Hf. destruct Hf as [[]|Hf]. destruct (A 0%Z f) as (N & _). contradiction.
  - intros f Hf. destruct (o_pd _ _ O f Hf) as [u Hu]. exists u. apply in_or_app. auto.
  - intros u st f Hf. destruct (K u) as [[A B]|(-> & _ & A & B)].
    + rewrite A in Hf. destruct (o_fr _ _ O _ _ _ Hf) as [v Hv]. exists v. apply in_or_app. auto.
    + destruct (A st f) as (_ & N & N'). tauto.
  - intros u f Hf. apply in_app_or in Hf. destruct Hf as [Hf|[Hf|[]]]; [|discriminate]. apply in_or_app. left. now apply (o_ct _ _ O).
  - intros u f Hf. apply in_app_or in Hf. destruct Hf as [Hf|[Hf|[]]]; [|discriminate]. destruct (o_cp _ _ O _ _ Hf) as [v Hv]. exists v. apply in_or_app. auto.
Qed.

Lemma once_step tr s t a e s' : once tr s -> lstep c s t a = Some (e, s') -> once (tr ++ [(t, e)]) s'.
Proof.
  intros O H. destruct (lstep_others _ _ _ _ _ _ H) as [Ot|[-> ->]]; [|now apply once_spawn].
  assert (SP : (forall u, e <> Ev (Spawn u)) \/ exists u, e = Ev (Spawn u)) by (destruct e as [ev| | | | |]; [destruct ev|..]; try (left; discriminate); right; eauto).
  destruct SP as [NS|[u ->]]; [|destruct (lstep_spawn _ _ _ _ _ H) as [-> ->]; now apply once_spawn].
  destruct (step_count tr _ _ _ _ _ H NS) as [N C]. destruct (step_from _ _ _ _ _ H NS) as (F1 & F2 & F3 & F4 & F5).
  pose proof (step_act _ _ _ _ _ H) as Act.
  assert (Lt : t < lnthr s) by (destruct (Nat.lt_ge_cases t (lnthr s)) as [|G]; [assumption|destruct (o_new _ _ O t G); contradiction]).
  assert (Hd : forall u, u <> t -> held s' u = held s u) by (intros u Nu; unfold held; now destruct (Ot u Nu) as [-> ->]).
  assert (Ev' : forall x, exists r, everywhere s tr x = here s tr t x + r /\ everywhere s' (tr ++ [(t, e)]) x = here s' (tr ++ [(t, e)]) t x + r).
  { intros x. destruct (held_split s t _ x Lt) as (r & A & B). exists r. unfold everywhere, here. rewrite N, A, (B s' Hd). lia. }
  assert (W : forall u f, In (u, Ev (RegP f)) tr -> exists v, In (v, Ev (RegP f)) (tr ++ [(t, e)])) by (intros u f Hu; exists u; apply in_or_app; auto).
  assert (P : forall u f, In f (ltdt s u) \/ In (LCall f) (lfr s u) -> In (u, Ev (RegT f)) (tr ++ [(t, e)])) by (intros u f Hu; apply in_or_app; left; now apply (o_td _ _ O)).
  assert (P2 : forall f, In f (lpdt s) -> exists v, In (v, Ev (RegP f)) (tr ++ [(t, e)])) by (intros f Hf; destruct (o_pd _ _ O _ Hf) as [u Hu]; eauto).
  assert (P3 : forall u st f, In (LF (FX st (XUnlock f))) (lfr s u) \/ In (LF (FX st (XCall f))) (lfr s u) -> exists v, In (v, Ev (RegP f)) (tr ++ [(t, e)])) by (intros u st f Hf; destruct (o_fr _ _ O _ _ _ Hf) as [v Hv]; eauto).
  split.
  - intros x. destruct (Ev' x) as (r & A & B). rewrite B. pose proof (o_one _ _ O x) as X. destruct C as [[_ C]|[_ C]]; specialize (C x); [lia|].
    destruct (Nat.eq_dec (lnextf s) x) as [<-|]; [pose proof (o_old _ _ O (lnextf s) (le_n _))|]; lia.
  - intros x Lx. destruct (Ev' x) as (r & A & B). rewrite B. destruct C as [[E C]|[E C]]; specialize (C x); rewrite E in Lx.
    + pose proof (o_old _ _ O x Lx). lia.
    + assert (X : lnextf s <= x) by lia. pose proof (o_old _ _ O x X). destruct (Nat.eq_dec (lnextf s) x); lia.
  - intros u Hu. rewrite N in Hu. assert (Nu : u <> t) by lia. destruct (Ot u Nu) as [-> ->]. now apply (o_new _ _ O).
  - intros u f Hf. destruct (Nat.eq_dec u t) as [->|Nu]; [|destruct (Ot u Nu) as [A B]; rewrite A, B in Hf; now apply P].
    destruct (F1 f Hf) as [G|G]; [now apply P|]. subst e. apply in_or_app. right. left. reflexivity.
  - intros f Hf. destruct (F2 f Hf) as [G|G]; [now apply P2|]. subst e. exists t. apply in_or_app. right. left. reflexivity.
  - intros u st f Hf. destruct (Nat.eq_dec u t) as [->|Nu]; [|destruct (Ot u Nu) as [A B]; rewrite A in Hf; eapply P3; eauto].
    destruct (F3 st f Hf) as [G|[G|G]]; [eapply P3; eauto|eapply P3; eauto|now apply P2].
  - intros u f Hf. apply in_app_or in Hf. destruct Hf as [Hf|[Hf|[]]].
    + apply in_or_app. left. now apply (o_ct _ _ O).
    + injection Hf as <- ->. apply P. right. now apply F4.
  - intros u f Hf. apply in_app_or in Hf. destruct Hf as [Hf|[Hf|[]]].
    + destruct (o_cp _ _ O _ _ Hf) as [v Hv]. eauto.
    + injection Hf as <- ->. destruct (F5 f eq_refl) as [st G]. eapply P3. right. exact G.
Qed.

Lemma once_exec : forall tr s, lexec c tr s -> once tr s.
Proof. induction 1; [apply once_init|eapply once_step; eauto]. Qed.
End Once.

(** As one list without duplicates. *)
Lemma cnt_calls tr : forall x, cnt (called tr) x = cnt (t_calls (silence tr) ++ p_calls (silence tr)) x.
Proof.
  induction tr as [|[t e] tr IH]; intros x; [reflexivity|].
  change ((t, e) :: tr) with ([(t, e)] ++ tr). assert (CA : called ([(t, e)] ++ tr) = called [(t, e)] ++ called tr) by apply flat_map_app. rewrite CA, silence_app. unfold t_calls, p_calls, pick in *. rewrite !flat_map_app.
  rewrite !cnt_app. specialize (IH x). rewrite cnt_app in IH. rewrite IH.
  destruct e as [ev| | | | |]; [destruct ev|..]; cbn; rewrite ?cnt_cons, ?cnt_nil; lia.
Qed.
Lemma nodup_calls tr : (forall x, cnt (called tr) x <= 1) -> NoDup (t_calls (silence tr) ++ p_calls (silence tr)).
Proof.
  intros H. apply (NoDup_count_occ Nat.eq_dec). intros x. specialize (H x). rewrite cnt_calls in H. exact H.
Qed.
Lemma lexec_prefix c : forall a b s, lexec c (a ++ b) s -> exists s', lexec c a s'.
Proof.
  intros a b. induction b as [|x b IH] using rev_ind; intros s H; [rewrite app_nil_r in H; eauto|].
  rewrite app_assoc in H. inversion H as [E|tr s0 t ac e s1 H0 St E]; [destruct (a ++ b); discriminate|].
  apply app_inj_tail in E. destruct E as [-> _]. eauto.
Qed.
Lemma off_silent c tr s : l_log c = false -> lexec c tr s ->
  Forall (fun x => match snd x with Say _ | LogNop | LogDone => False | _ => True end) tr.
Proof.
  intros L H.
  assert (K : Forall (fun x => match snd x with Say _ | LogNop | LogDone => False | _ => True end) tr /\ forall t m, ~ In (LSay m) (lfr s t) /\ ~ In (LLog m) (lfr s t)); [|apply K].
  induction H as [|tr s t a e s' H [F I] St].
  - split; [constructor|]. intros t m. unfold linit; cbn. unfold dupd. destruct (Nat.eqb t 0); cbn; intuition discriminate.
  - assert (K : (match e with Say _ | LogNop | LogDone => False | _ => True end) /\ forall m, ~ In (LSay m) (lfr s' t) /\ ~ In (LLog m) (lfr s' t)).
    { clear F H. specialize (I t). revert St. unfold lstep. destruct (lterm s); [discriminate|]. destruct (lfr s t) as [|top fs] eqn:E; [discriminate|].
      destruct top as [fr|m0|m0|f|st k|st| |st]; [destruct fr as [w|f|f| | |st p|st|]|..]; destruct a; cbn; try discriminate;
        try (exfalso; destruct (I m0) as [X Y]; (apply X; left; reflexivity) || (apply Y; left; reflexivity));
        unfold ltry_lock, lunlock, say, lspawn, say; rewrite ?L;
        repeat match goal with
        | |- context [if c_thread ?x then _ else _] => destruct (c_thread x)
        | |- context [match llk ?x with _ => _ end] => destruct (llk x)
        | |- context [if c_tae ?x then ltdt s t else []] => destruct (c_tae x)
        | |- (match ?x with _ => _ end) = _ -> _ => destruct x
        | |- (if ?x then _ else _) = _ -> _ => destruct x
        end; cbn; try discriminate; intros H; inversion H; clear H; subst; cbn; (split; [exact Logic.I|]); intros m; specialize (I m); cbn in I;
        rewrite ?dupd_eq, ?E; cbn; unfold dupd; rewrite ?E; try (match goal with |- context [Nat.eqb ?x ?y] => destruct (Nat.eqb x y) end; rewrite ?E; cbn); cbn; intuition discriminate. }
    destruct K as [K1 K2]. split; [apply Forall_app; split; [exact F|repeat constructor; exact K1]|].
    intros u m. destruct (Nat.eq_dec u t) as [->|Nu]; [apply K2|].
    destruct (lstep_others _ _ _ _ _ _ St) as [O|[-> _]]; [destruct (O u Nu) as [-> _]; apply I|].
    cbn. unfold dupd, say. rewrite L. destruct (Nat.eqb u (lnthr s)); [cbn; intuition discriminate|apply I].
Qed.
