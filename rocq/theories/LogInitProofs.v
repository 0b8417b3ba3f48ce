(** Lemmas for C80. *)
From Coq Require Import ZArith List Bool Arith Permutation Sorted Lia.
From Verif Require Import LogInitModel.
Import ListNotations.

Lemma andthen_fst o f : fst (andthen o f) = fst o ++ match snd o with Some s => fst (f s) | None => [] end.
Proof. unfold andthen. destruct o as [l [s|]]; cbn; [reflexivity|now rewrite app_nil_r]. Qed.
Lemma andthen_snd o f : snd (andthen o f) = match snd o with Some s => snd (f s) | None => None end.
Proof. unfold andthen. destruct o as [l [s|]]; reflexivity. Qed.
Lemma andthen_assoc o f g : andthen (andthen o f) g = andthen o (fun s => andthen (f s) g).
Proof. unfold andthen. destruct o as [l [s|]]; cbn; [|reflexivity]. destruct (f s) as [l' [s'|]]; cbn; [|reflexivity]. now rewrite app_assoc. Qed.
Lemma andthen_ret s f : andthen (ret s) f = f s.
Proof. unfold andthen, ret. cbn. now destruct (f s). Qed.
Lemma andthen_ext o f g : (forall s, f s = g s) -> andthen o f = andthen o g.
Proof. intros H. unfold andthen. destruct o as [l [s|]]; cbn; [|reflexivity]. now rewrite H. Qed.

Lemma inits_app c a b s : inits c (a ++ b) s = andthen (inits c a s) (inits c b).
Proof.
  revert s. induction a as [|e a IH]; intros s; cbn [app inits]; [now rewrite andthen_ret|].
  rewrite !andthen_assoc. apply andthen_ext. intros s1. rewrite !andthen_assoc. apply andthen_ext. intros s2. rewrite andthen_assoc. apply andthen_ext. exact IH.
Qed.

(** What events user code can cause. *)
Definition isact (e : lev) : Prop := match e with EMsg (MUser _) _ | EInstalled Own | ERefused | EEnd => True | _ => False end.
Lemma acts_events l : forall s e, In e (fst (acts l s)) -> isact e.
Proof.
  induction l as [|a l IH]; intros s e H; [contradiction|]. destruct a; cbn [acts] in H.
  - rewrite andthen_fst in H. destruct H as [<-|H]; [exact Logic.I|]. eapply IH; exact H.
  - destruct (slot s); rewrite andthen_fst in H; (destruct H as [<-|H]; [exact Logic.I|]); eapply IH; exact H.
  - eapply IH; exact H.
  - destruct H as [<-|[]]. exact Logic.I.
Qed.
Lemma acts_slot l : forall s s', snd (acts l s) = Some s' -> (slot s <> None -> slot s' = slot s) /\ (~ In UInstall l -> slot s' = slot s) /\
  (~ In (ULevel false) l -> tron s = true -> tron s' = true).
Proof.
  induction l as [|a l IH]; intros s s' H; [injection H as <-; auto|]. destruct a; cbn [acts] in H.
  - rewrite andthen_snd in H. cbn in H. destruct (IH _ _ H) as (A & B & C). split; [exact A|]. split; [intros N; apply B; intros K; apply N; right; exact K|]. intros N; apply C; intros K; apply N; right; exact K.
  - destruct (slot s) eqn:S; rewrite andthen_snd in H; cbn in H; destruct (IH _ _ H) as (A & B & C).
    + rewrite S in *. split; [exact A|]. split; [intros N; apply B; intros K; apply N; right; exact K|]. intros N; apply C; intros K; apply N; right; exact K.
    + split; [congruence|]. split; [intros N; exfalso; apply N; left; reflexivity|]. intros N; apply C; intros K; apply N; right; exact K.
  - destruct (IH _ _ H) as (A & B & C). split; [exact A|]. split; [intros N; apply B; intros K; apply N; right; exact K|].
    intros N T. apply C; [intros K; apply N; right; exact K|]. destruct on; [reflexivity|]. exfalso. apply N. left. reflexivity.
  - discriminate.
Qed.
Lemma acts_end l : forall s, snd (acts l s) = None <-> In UEnd l.
Proof.
  induction l as [|a l IH]; intros s; [split; [discriminate|contradiction]|]. destruct a; cbn [acts].
  - rewrite andthen_snd. cbn [snd say]. rewrite IH. split; [right; assumption|intros [K|K]; [discriminate|exact K]].
  - destruct (slot s); rewrite andthen_snd; cbn [snd]; rewrite IH; (split; [right; assumption|intros [K|K]; [discriminate|exact K]]).
  - rewrite IH. split; [right; assumption|intros [K|K]; [discriminate|exact K]].
  - split; [left; reflexivity|reflexivity].
Qed.
(** Messages of user code: recorded while a logger is installed and the level
    stays; not recorded while none is. *)
Lemma acts_on l : forall s m r, slot s <> None -> tron s = true -> ~ In (ULevel false) l -> In (EMsg m r) (fst (acts l s)) -> r = true.
Proof.
  induction l as [|a l IH]; intros s m r S T N H; [contradiction|]. assert (N' : ~ In (ULevel false) l) by (intros K; apply N; right; exact K). destruct a; cbn [acts] in H.
  - rewrite andthen_fst in H. destruct H as [H|H]; [injection H as <- <-; unfold passes; destruct (slot s); [exact T|congruence]|]. eapply IH; eauto.
  - destruct (slot s) eqn:S0; [|congruence]. rewrite andthen_fst in H. destruct H as [H|H]; [discriminate|]. cbn in H. eapply IH; eauto. congruence.
  - assert (on = true) as -> by (destruct on; [reflexivity|exfalso; apply N; left; reflexivity]). eapply IH in H; eauto.
  - destruct H as [H|[]]. discriminate.
Qed.
Lemma acts_off l : forall s m r, slot s = None -> ~ In UInstall l -> In (EMsg m r) (fst (acts l s)) -> r = false.
Proof.
  induction l as [|a l IH]; intros s m r S N H; [contradiction|]. assert (N' : ~ In UInstall l) by (intros K; apply N; right; exact K). destruct a; cbn [acts] in H.
  - rewrite andthen_fst in H. destruct H as [H|H]; [injection H as <- <-; unfold passes; rewrite S; reflexivity|]. eapply IH; eauto.
  - exfalso. apply N. left. reflexivity.
  - eapply IH in H; eauto.
  - destruct H as [H|[]]. discriminate.
Qed.
Lemma acts_noinst l : forall s k, slot s = None -> ~ In UInstall l -> ~ In (EInstalled k) (fst (acts l s)).
Proof.
  induction l as [|a l IH]; intros s k S N H; [contradiction|]. assert (N' : ~ In UInstall l) by (intros K; apply N; right; exact K). destruct a; cbn [acts] in H.
  - rewrite andthen_fst in H. destruct H as [H|H]; [discriminate|]. eapply IH in H; eauto.
  - apply N. left. reflexivity.
  - eapply IH in H; eauto.
  - destruct H as [H|[]]. discriminate.
Qed.

Definition body (e : ent) : list uact := match e with User _ _ l => l | Origin => [] end.
Definition step1 (c : gcfg) (e : ent) (s : gst) : out := match e with Origin => init c s | User _ _ b => acts b s end.
Lemma inits_fst c e arr s : fst (inits c (e :: arr) s) =
  (if g_log c then [EMsg (MCall e) (passes s)] else []) ++ ECall e :: fst (andthen (step1 c e s) (inits c arr)).
Proof.
  cbn [inits]. unfold csay. destruct (g_log c); [rewrite andthen_fst; cbn [fst snd say]|rewrite andthen_ret; cbn [app]].
  - rewrite andthen_fst. cbn [fst snd app]. reflexivity.
  - rewrite andthen_fst. reflexivity.
Qed.
Lemma inits_snd c e arr s : snd (inits c (e :: arr) s) = snd (andthen (step1 c e s) (inits c arr)).
Proof.
  cbn [inits]. unfold csay. destruct (g_log c); [rewrite andthen_snd; cbn [fst snd say]|rewrite andthen_ret]; rewrite andthen_snd; reflexivity.
Qed.

(** Before origin's entry: nothing is recorded, nothing installed. *)
Lemma inits_off c l : forall s, slot s = None -> Forall is_user l -> (forall e, In e l -> ~ In UInstall (body e) /\ ~ In UEnd (body e)) ->
  (exists s', snd (inits c l s) = Some s' /\ slot s' = None) /\
  (forall m r, In (EMsg m r) (fst (inits c l s)) -> r = false) /\
  (forall k, ~ In (EInstalled k) (fst (inits c l s))) /\ ~ In EMain (fst (inits c l s)) /\ ~ In EAbort (fst (inits c l s)) /\
  (forall e, In (ECall e) (fst (inits c l s)) <-> In e l).
Proof.
  induction l as [|e l IH]; intros s S U H.
  - repeat split; try (intros; contradiction); auto. exists s. auto.
  - inversion U as [|? ? U1 U2]; subst. destruct (H e (or_introl eq_refl)) as [H1 H2].
    destruct e as [|id p b]; [contradiction|]. cbn [body] in H1, H2.
    destruct (snd (acts b s)) as [s1|] eqn:E1; [|exfalso; apply H2, acts_end with (s := s); exact E1].
    destruct (acts_slot _ _ _ E1) as (_ & B & _). specialize (B H1).
    destruct (IH s1) as ((s' & A1 & A2) & A3 & A4 & A5 & A6 & A7); [congruence|exact U2|intros; apply H; right; assumption|].
    rewrite inits_snd. rewrite inits_fst, andthen_snd. cbn [step1]. rewrite E1.
    assert (F : fst (andthen (acts b s) (inits c l)) = fst (acts b s) ++ fst (inits c l s1)) by (rewrite andthen_fst, E1; reflexivity). rewrite F.
    split; [exists s'; auto|].
    assert (G : forall x, In x ((if g_log c then [EMsg (MCall (User id p b)) (passes s)] else []) ++ ECall (User id p b) :: fst (acts b s) ++ fst (inits c l s1)) ->
       x = EMsg (MCall (User id p b)) (passes s) \/ x = ECall (User id p b) \/ In x (fst (acts b s)) \/ In x (fst (inits c l s1))).
    { intros x K. apply in_app_or in K. destruct K as [K|[K|K]]; [|auto|apply in_app_or in K; tauto]. destruct (g_log c); [destruct K as [K|[]]; auto|contradiction]. }
    split; [|split; [|split; [|split]]].
    + intros m r K. destruct (G _ K) as [K'|[K'|[K'|K']]]; [injection K' as _ ->; unfold passes; rewrite S; reflexivity|discriminate|exact (acts_off b s m r S H1 K')|exact (A3 _ _ K')].
    + intros k K. destruct (G _ K) as [K'|[K'|[K'|K']]]; try discriminate; [exact (acts_noinst b s k S H1 K')|exact (A4 k K')].
    + intros K. destruct (G _ K) as [K'|[K'|[K'|K']]]; try discriminate; [apply acts_events in K'; contradiction|exact (A5 K')].
    + intros K. destruct (G _ K) as [K'|[K'|[K'|K']]]; try discriminate; [apply acts_events in K'; contradiction|exact (A6 K')].
    + intros e. split.
      * intros K. destruct (G _ K) as [K'|[K'|[K'|K']]]; [discriminate|injection K' as ->; left; reflexivity|apply acts_events in K'; contradiction|right; apply A7; exact K'].
      * intros [<-|K]; apply in_or_app; right; [left; reflexivity|]. right. apply in_or_app. right. apply A7. exact K.
Qed.

(** After it: everything is recorded. *)
Lemma inits_on c l : forall s, slot s <> None -> tron s = true -> Forall is_user l -> (forall e, In e l -> ~ In (ULevel false) (body e)) ->
  (forall m r, In (EMsg m r) (fst (inits c l s)) -> r = true) /\ (forall s', snd (inits c l s) = Some s' -> slot s' <> None /\ tron s' = true).
Proof.
  induction l as [|e l IH]; intros s S T U H.
  - split; [intros ? ? []|]. intros s' K. injection K as <-. auto.
  - inversion U as [|? ? U1 U2]; subst. pose proof (H e (or_introl eq_refl)) as H1. destruct e as [|id p b]; [contradiction|]. cbn [body] in H1.
    rewrite inits_snd, inits_fst, andthen_snd. cbn [step1].
    assert (F : fst (andthen (acts b s) (inits c l)) = fst (acts b s) ++ match snd (acts b s) with Some s1 => fst (inits c l s1) | None => [] end) by (rewrite andthen_fst; reflexivity). rewrite F.
    assert (Q : forall s1, snd (acts b s) = Some s1 -> (forall m r, In (EMsg m r) (fst (inits c l s1)) -> r = true) /\ (forall s', snd (inits c l s1) = Some s' -> slot s' <> None /\ tron s' = true)).
    { intros s1 E1. destruct (acts_slot _ _ _ E1) as (A & _ & C). apply IH; auto; [rewrite (A S); exact S|intros; apply H; right; assumption]. }
    split.
    + intros m r K. apply in_app_or in K. destruct K as [K|[K|K]].
      * destruct (g_log c); [|contradiction]. destruct K as [K|[]]. injection K as _ <-. unfold passes. destruct (slot s); [exact T|congruence].
      * discriminate.
      * apply in_app_or in K. destruct K as [K|K]; [eapply acts_on; eauto|]. destruct (snd (acts b s)) as [s1|]; [|contradiction]. eapply (proj1 (Q s1 eq_refl)); eauto.
    + intros s' K. destruct (snd (acts b s)) as [s1|]; [|discriminate]. exact (proj2 (Q s1 eq_refl) s' K).
Qed.

(** Where origin's entry is. *)
Lemma linked_split c us arr : g_log c = true -> linked c us arr ->
  exists l1 l2, arr = l1 ++ Origin :: l2 /\ Forall is_user l1 /\ Forall is_user l2 /\ Permutation (l1 ++ l2) us /\
    (forall e, In e l1 -> before e Origin) /\ (forall e, In e l2 -> before Origin e).
Proof.
  intros L (U & P & S). rewrite L in P.
  assert (K : In Origin arr) by (eapply Permutation_in; [apply Permutation_sym; exact P|left; reflexivity]).
  apply in_split in K. destruct K as (l1 & l2 & ->). exists l1, l2. split; [reflexivity|].
  assert (P' : Permutation (l1 ++ l2) us) by (eapply Permutation_cons_inv; eapply Permutation_trans; [apply Permutation_middle|exact P]).
  assert (UU : Forall is_user (l1 ++ l2)) by (eapply Permutation_Forall; [apply Permutation_sym; exact P'|exact U]).
  apply Forall_app in UU. destruct UU as [U1 U2]. split; [exact U1|]. split; [exact U2|]. split; [exact P'|].
  clear - S. revert S. induction l1 as [|x l1 IH]; cbn; intros S; inversion S as [|? ? S1 S2]; subst.
  - split; [intros e []|]. intros e K. rewrite Forall_forall in S2. exact (S2 e K).
  - destruct (IH S1) as [A B]. split; [|exact B]. intros e [<-|K]; [|auto]. rewrite Forall_forall in S2. apply S2. apply in_or_app. right. left. reflexivity.
Qed.
