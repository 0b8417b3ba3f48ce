(** C80: logging at startup. *)
From Coq Require Import ZArith List Bool Arith Permutation Sorted Lia.
From Verif Require Import LogInitModel LogInitSpec LogInitProofs.
Import ListNotations.

(** *** Announcements and order *)
Definition ann_ok (tr : list lev) : Prop := forall a x b, tr = a ++ x :: b -> isrun x = true -> exists a' r, a = a' ++ [EMsg (announces x) r].
Lemma ann_app t1 t2 : ann_ok t1 -> ann_ok t2 -> ann_ok (t1 ++ t2).
Proof.
  intros A B a x b E R. apply app_eq_app in E. destruct E as (l & [[E1 E2]|[E1 E2]]).
  - destruct l as [|y l]; [cbn in E2; rewrite app_nil_r in E1; subst t1; destruct (B [] x b (eq_sym E2) R) as (a' & r & K); destruct a'; discriminate|].
    cbn in E2. injection E2 as -> E2. apply (A a y l E1 R).
  - destruct (B l x b E2 R) as (a' & r & ->). exists (t1 ++ a'), r. now rewrite E1, app_assoc.
Qed.
Lemma ann_none tr : (forall x, In x tr -> isrun x = false) -> ann_ok tr.
Proof. intros H a x b -> R. rewrite (H x) in R; [discriminate|]. apply in_or_app. right. left. reflexivity. Qed.
Lemma ann_pair x r : isrun x = true -> ann_ok [EMsg (announces x) r; x].
Proof.
  intros R a y b E Q. destruct a as [|a0 a]; injection E as <- E; [discriminate|]. destruct a as [|a1 a]; injection E as <- E; [exists [], r; reflexivity|]. destruct a; discriminate.
Qed.
Lemma acts_norun l s x : In x (fst (acts l s)) -> isrun x = false.
Proof. intros H. apply acts_events in H. destruct x; try reflexivity; contradiction. Qed.
Lemma init_norun c s x : In x (fst (init c s)) -> isrun x = false.
Proof.
  unfold init, backend, say, ret, andthen. destruct (g_dbg c), (g_env c), (slot s) eqn:S, (g_panics c Dbg), (g_panics c Env), (g_thread c); cbn; rewrite ?S; cbn;
    intros H; repeat (destruct H as [<-|H]; [reflexivity|]); contradiction.
Qed.
Lemma step1_norun c e s x : In x (fst (step1 c e s)) -> isrun x = false.
Proof. destruct e; [apply init_norun|apply acts_norun]. Qed.
Lemma inits_ann c l : g_log c = true -> forall s, ann_ok (fst (inits c l s)).
Proof.
  intros L. induction l as [|e l IH]; intros s; [apply ann_none; intros ? []|]. rewrite inits_fst, L.
  change ([EMsg (MCall e) (passes s)] ++ ECall e :: ?x) with ([EMsg (announces (ECall e)) (passes s); ECall e] ++ x). apply ann_app; [now apply ann_pair|].
  rewrite andthen_fst. apply ann_app; [apply ann_none; intros; eapply step1_norun; eauto|]. destruct (snd (step1 c e s)); [apply IH|apply ann_none; intros ? []].
Qed.

(** Each initializer, and origin_main, is announced immediately before it is
    called. *)
Theorem C80_announced : forall c arr main a x b, g_log c = true ->
  startup c arr main = a ++ x :: b -> isrun x = true -> exists a' r, a = a' ++ [EMsg (announces x) r].
Proof.
  intros c arr main a x b L. revert a x b. change (ann_ok (startup c arr main)). unfold startup, csay. rewrite L, andthen_fst. apply ann_app.
  - destruct (g_init_array c); [now apply inits_ann|apply ann_none; intros ? []].
  - destruct (snd _) as [s|]; [|apply ann_none; intros ? []]. rewrite andthen_fst. cbn [fst snd say]. rewrite andthen_fst. cbn [fst snd].
    change ([EMsg MCallMain (passes s)] ++ [EMain] ++ ?x) with ([EMsg (announces EMain) (passes s); EMain] ++ x). apply ann_app; [now apply ann_pair|].
    rewrite andthen_fst. apply ann_app; [apply ann_none, acts_norun|]. apply ann_none. intros x. destruct (snd (acts main s)); [|intros []]. rewrite andthen_fst. cbn. intros [<-|[<-|[]]]; reflexivity.
Qed.
Print Assumptions C80_announced.

Lemma runs_app a b : runs (a ++ b) = runs a ++ runs b.
Proof. apply filter_app. Qed.
Lemma runs_none tr : (forall x, In x tr -> isrun x = false) -> runs tr = [].
Proof. induction tr as [|x tr IH]; intros H; [reflexivity|]. cbn. rewrite (H x (or_introl eq_refl)). apply IH. intros; apply H; right; assumption. Qed.
Lemma init_stop c s : snd (init c s) = None -> In EAbort (fst (init c s)).
Proof.
  unfold init, backend, say, ret, andthen. destruct (g_dbg c), (g_env c), (slot s) eqn:S, (g_panics c Dbg), (g_panics c Env), (g_thread c); cbn; rewrite ?S; cbn; try discriminate; tauto.
Qed.
Lemma acts_stop l : forall s, snd (acts l s) = None -> In EEnd (fst (acts l s)).
Proof.
  induction l as [|a l IH]; intros s H; [discriminate|]. destruct a; cbn [acts] in *.
  - rewrite andthen_snd in H. rewrite andthen_fst. apply in_or_app. right. apply IH. exact H.
  - destruct (slot s); rewrite andthen_snd in H; rewrite andthen_fst; apply in_or_app; right; apply IH; exact H.
  - apply IH. exact H.
  - left. reflexivity.
Qed.
Definition ended (tr : list lev) : Prop := In EEnd tr \/ In EAbort tr.
Lemma ended_l a b : ended a -> ended (a ++ b).
Proof. intros [H|H]; [left|right]; apply in_or_app; auto. Qed.
Lemma ended_r a b : ended b -> ended (a ++ b).
Proof. intros [H|H]; [left|right]; apply in_or_app; auto. Qed.
Lemma step1_stop c e s : snd (step1 c e s) = None -> ended (fst (step1 c e s)).
Proof. destruct e; intros H; [right; now apply init_stop|left; now apply acts_stop]. Qed.
Lemma inits_runs c l : forall s, exists rest, runs (fst (inits c l s)) ++ rest = map ECall l /\
  match snd (inits c l s) with Some _ => rest = [] | None => ended (fst (inits c l s)) end.
Proof.
  induction l as [|e l IH]; intros s; [exists []; split; reflexivity|]. rewrite inits_snd, inits_fst, andthen_snd.
  assert (R0 : runs (if g_log c then [EMsg (MCall e) (passes s)] else []) = []) by (destruct (g_log c); reflexivity).
  rewrite runs_app, R0. cbn [app runs filter isrun].
  assert (F : fst (andthen (step1 c e s) (inits c l)) = fst (step1 c e s) ++ match snd (step1 c e s) with Some s1 => fst (inits c l s1) | None => [] end) by apply andthen_fst.
  rewrite F. fold (runs (fst (step1 c e s) ++ match snd (step1 c e s) with Some s1 => fst (inits c l s1) | None => [] end)). rewrite runs_app, (runs_none (fst (step1 c e s))) by apply step1_norun. cbn [app].
  destruct (snd (step1 c e s)) as [s1|] eqn:E.
  - destruct (IH s1) as (rest & A & B). exists rest. split; [cbn [map app]; now rewrite A|]. destruct (snd (inits c l s1)); [exact B|]. apply ended_r. change (ECall e :: ?x) with ([ECall e] ++ x). apply ended_r, ended_r. exact B.
  - exists (map ECall l). split; [reflexivity|]. apply ended_r. change (ECall e :: ?x) with ([ECall e] ++ x). apply ended_r, ended_l. now apply step1_stop.
Qed.

(** Initializers are called in the order the linker gave them, each once, then
    origin_main; all of them, unless one of them ends the process or panics. *)
Theorem C80_order : forall c arr main,
  exists rest, runs (startup c arr main) ++ rest = map ECall (if g_init_array c then arr else []) ++ [EMain] /\
    (rest = [] \/ In EEnd (startup c arr main) \/ In EAbort (startup c arr main)).
Proof.
  intros c arr main. unfold startup. rewrite andthen_fst.
  assert (K : exists rest, runs (fst ((if g_init_array c then inits c arr else ret) (GSt None false))) ++ rest = map ECall (if g_init_array c then arr else []) /\
    match snd ((if g_init_array c then inits c arr else ret) (GSt None false)) with Some _ => rest = [] | None => ended (fst ((if g_init_array c then inits c arr else ret) (GSt None false))) end).
  { destruct (g_init_array c); [apply inits_runs|exists []; split; reflexivity]. }
  destruct K as (rest & A & B). destruct (snd _) as [s|].
  - subst rest. rewrite app_nil_r in A. exists []. split; [|left; reflexivity]. rewrite app_nil_r, runs_app, A. f_equal.
    rewrite andthen_fst. unfold csay. assert (R0 : forall m, runs (fst (if g_log c then say m s else ret s)) = []) by (intros; destruct (g_log c); reflexivity).
    rewrite runs_app, R0. assert (R1 : forall m s0, snd (if g_log c then say m s0 else ret s0) = Some s0) by (intros; destruct (g_log c); reflexivity). rewrite R1.
    rewrite andthen_fst. cbn [fst snd app]. cbn [runs filter isrun]. f_equal. rewrite andthen_fst. fold (runs (fst (acts main s) ++ match snd (acts main s) with Some s0 => fst (andthen (if g_log c then say MMainReturned s0 else ret s0) (fun _ => ([EExit], None))) | None => [] end)).
    apply runs_none. intros x H. apply in_app_or in H. destruct H as [H|H]; [eapply acts_norun; eauto|]. destruct (snd (acts main s)); [|contradiction].
    rewrite andthen_fst in H. destruct (g_log c); cbn in H; repeat (destruct H as [<-|H]; [reflexivity|]); contradiction.
  - rewrite app_nil_r. exists (rest ++ [EMain]). rewrite app_assoc, A. split; [reflexivity|]. right. exact B.
Qed.
Print Assumptions C80_order.

(** *** The built-in logger *)

Lemma before_99 e : before e Origin <-> upto99 e.
Proof. destruct e as [|id [n|] b]; cbn; split; intros H; auto; exact (le_n _). Qed.

(** With `log` and one of the backends: the backend is installed, "Program
    started" is the first message recorded, and everything logged from then on,
    by origin or by user code, is recorded.  By then only initializers of
    priority 99 or less have run.  Conditions: initializers that early neither
    install a logger nor end the process, and nobody turns the level down. *)
Theorem C80_recorded_partial : forall c k us arr main, g_log c = true -> chosen c k -> features c -> linked c us arr ->
  (forall e, In e us -> upto99 e -> ~ does UInstall e /\ ~ does UEnd e) ->
  (forall e, In e us -> ~ does (ULevel false) e) -> ~ In (ULevel false) main ->
  exists pre post, startup c arr main = pre ++ EInstalled k :: EMsg MStarted true :: post /\
    (forall m r, In (EMsg m r) pre -> r = false) /\ (forall m r, In (EMsg m r) post -> r = true) /\
    (g_thread c = true -> exists post', post = EMsg MMainThread true :: post') /\
    (forall e, In (ECall e) pre -> upto99 e) /\ ~ In EMain pre /\ (forall k', ~ In (EInstalled k') pre).
Proof.
  intros c k us arr main L Ch Fe Li H1 H2 H3. setoid_rewrite <- before_99 in H1. setoid_rewrite <- before_99. destruct (linked_split _ _ _ L Li) as (l1 & l2 & -> & U1 & U2 & P & B1 & B2).
  assert (IA : g_init_array c = true) by (apply Fe; destruct Ch as [[(_ & ? & _)|(_ & ? & _)] _]; auto).
  assert (IN : forall e, In e l1 \/ In e l2 -> In e us) by (intros e K; eapply Permutation_in; [exact P|apply in_or_app; exact K]).
  assert (DB : forall a e, ~ does a e -> ~ In a (body e)) by (intros a [|id p b]; cbn; tauto).
  unfold startup. rewrite IA. rewrite inits_app, andthen_assoc.
  destruct (inits_off c l1 (GSt None false) eq_refl U1) as ((s1 & A1 & A2) & A3 & A4 & A5 & A6 & A7).
  { intros e K. destruct (H1 e (IN e (or_introl K)) (B1 e K)) as [X Y]. auto. }
  rewrite andthen_fst, A1. set (main_part := fun s : gst => andthen (csay c MCallMain s) (fun s => andthen ([EMain], Some s) (fun s => andthen (acts main s) (fun s => andthen (csay c MMainReturned s) (fun _ => ([EExit], None)))))).
  change (fst (andthen (inits c (Origin :: l2) s1) _)) with (fst (andthen (inits c (Origin :: l2) s1) main_part)).
  assert (QI : exists tl, init c s1 = (EInstalled k :: EMsg MStarted true :: tl, Some (GSt (Some k) true)) /\ (forall m r, In (EMsg m r) tl -> r = true) /\ (g_thread c = true -> tl = [EMsg MMainThread true])).
  { unfold init, backend, say, ret, andthen. destruct Ch as [[(-> & D & E)|(-> & D & E)] T]; rewrite D, E; cbn; rewrite A2; cbn; unfold passes; cbn; rewrite T; cbn;
      (destruct (g_thread c); eexists; (split; [reflexivity|]); (split; [|try discriminate; auto])); intros m r K; cbn in K; repeat (destruct K as [K|K]; [injection K as _ <-; reflexivity|]); contradiction. }
  destruct QI as (tl & QI & Q2 & Q3).
  rewrite andthen_fst, inits_fst, inits_snd, andthen_fst, andthen_snd. cbn [step1]. rewrite QI, L. cbn [fst snd].
  destruct (inits_on c l2 (GSt (Some k) true)) as [O1 O2]; [discriminate|reflexivity|exact U2|intros e K; apply DB, H2, IN; auto|].
  exists (fst (inits c l1 (GSt None false)) ++ [EMsg (MCall Origin) (passes s1); ECall Origin]).
  exists ((tl ++ fst (inits c l2 (GSt (Some k) true))) ++ match snd (inits c l2 (GSt (Some k) true)) with Some s => fst (main_part s) | None => [] end).
  split; [repeat (rewrite <- !app_assoc; cbn [app]); reflexivity|].
  assert (PR : forall x, In x (fst (inits c l1 (GSt None false)) ++ [EMsg (MCall Origin) (passes s1); ECall Origin]) -> In x (fst (inits c l1 (GSt None false))) \/ x = EMsg (MCall Origin) (passes s1) \/ x = ECall Origin).
  { intros x K. apply in_app_or in K. destruct K as [K|[K|[K|[]]]]; auto. }
  split; [|split; [|split; [|split; [|split]]]].
  - intros m r K. destruct (PR _ K) as [K'|[K'|K']]; [exact (A3 _ _ K')|injection K' as _ ->; unfold passes; now rewrite A2|discriminate].
  - intros m r K. apply in_app_or in K. destruct K as [K|K]; [apply in_app_or in K; destruct K as [K|K]; [exact (Q2 _ _ K)|exact (O1 _ _ K)]|].
    destruct (snd (inits c l2 (GSt (Some k) true))) as [s|] eqn:E; [|contradiction]. destruct (O2 s eq_refl) as [S T].
    assert (PS : forall s0, slot s0 <> None -> tron s0 = true -> passes s0 = true) by (intros s0 X Y; unfold passes; destruct (slot s0); [exact Y|congruence]).
    unfold main_part, csay in K. rewrite L in K. rewrite andthen_fst in K. cbn [fst snd say] in K. destruct K as [K|K]; [injection K as _ <-; auto|].
    rewrite andthen_fst in K. cbn [fst snd] in K. destruct K as [K|K]; [discriminate|]. cbn [app] in K. rewrite andthen_fst in K. apply in_app_or in K. destruct K as [K|K]; [exact (acts_on main s m r S T H3 K)|].
    destruct (snd (acts main s)) as [s2|] eqn:E2; [|contradiction]. destruct (acts_slot _ _ _ E2) as (X & _ & Y). rewrite andthen_fst in K. destruct K as [K|K]; [injection K as _ <-; apply PS; [rewrite (X S); exact S|auto]|].
    destruct K as [K|[]]. discriminate.
  - intros T. rewrite (Q3 T). eexists. reflexivity.
  - intros e K. destruct (PR _ K) as [K'|[K'|K']]; [apply B1, A7, K'|discriminate|injection K' as ->]. unfold before. cbn. apply le_n.
  - intros K. destruct (PR _ K) as [K'|[K'|K']]; [exact (A5 K')|discriminate|discriminate].
  - intros k' K. destruct (PR _ K) as [K'|[K'|K']]; [exact (A4 k' K')|discriminate|discriminate].
Qed.
Print Assumptions C80_recorded_partial.

(** So an initializer of a later priority, or of none, has its messages
    recorded (as origin_main has): it is not called before. *)
Corollary C80_later_partial : forall c k us arr main, g_log c = true -> chosen c k -> features c -> linked c us arr ->
  (forall e, In e us -> upto99 e -> ~ does UInstall e /\ ~ does UEnd e) ->
  (forall e, In e us -> ~ does (ULevel false) e) -> ~ In (ULevel false) main ->
  forall e a b, ~ upto99 e -> startup c arr main = a ++ ECall e :: b -> In (EMsg MStarted true) a /\ forall m r, In (EMsg m r) b -> r = true.
Proof.
  intros c k us arr main L Ch Fe Li H1 H2 H3 e a b N E.
  destruct (C80_recorded_partial c k us arr main L Ch Fe Li H1 H2 H3) as (pre & post & Q & _ & Q2 & _ & Q4 & _).
  rewrite Q in E. apply app_eq_app in E. destruct E as (l & [[E1 E2]|[E1 E2]]).
  - destruct l as [|y l]; [discriminate|]. cbn in E2. injection E2 as <- E2. exfalso. apply N, Q4. rewrite E1. apply in_or_app. right. left. reflexivity.
  - destruct l as [|y l]; [discriminate|]. cbn in E2. injection E2 as <- E2. destruct l as [|y l]; [discriminate|]. injection E2 as <- E2. split; [rewrite E1; apply in_or_app; right; right; left; reflexivity|].
    intros m r K. apply (Q2 m). rewrite E2. apply in_or_app. right. right. exact K.
Qed.
Print Assumptions C80_later_partial.

(** *** What is false *)

(** "Have origin call atomic_dbg::log::init() on startup": not without `log`,
    whatever the program: no backend is ever installed. *)
Theorem C80_no_log_refuted : forall c us arr main, g_log c = false -> linked c us arr ->
  ~ In (EInstalled Dbg) (startup c arr main) /\ ~ In (EInstalled Env) (startup c arr main).
Proof.
  intros c us arr main L (U & P & _). rewrite L in P. assert (UA : Forall is_user arr) by (eapply Permutation_Forall; [apply Permutation_sym; exact P|exact U]). clear P U.
  enough (K : forall x, In x (startup c arr main) -> x <> EInstalled Dbg /\ x <> EInstalled Env) by (split; intros H; apply K in H; tauto).
  assert (KA : forall l s x, In x (fst (acts l s)) -> x <> EInstalled Dbg /\ x <> EInstalled Env) by (intros l s x H; apply acts_events in H; destruct x as [| [] | | | | | |]; try contradiction; split; discriminate).
  assert (KI : forall l s x, Forall is_user l -> In x (fst (inits c l s)) -> x <> EInstalled Dbg /\ x <> EInstalled Env).
  { induction l as [|e l IH]; intros s x F H; [contradiction|]. inversion F; subst. rewrite inits_fst, L in H. cbn [app] in H. destruct H as [<-|H]; [split; discriminate|].
    rewrite andthen_fst in H. apply in_app_or in H. destruct H as [H|H]; [destruct e; [contradiction|]; eapply KA; eauto|]. destruct (snd (step1 c e s)); [|contradiction]. eapply IH; eauto. }
  intros x H. unfold startup, csay in H. rewrite L, andthen_fst in H. apply in_app_or in H. destruct H as [H|H].
  - destruct (g_init_array c); [eapply KI; eauto|contradiction].
  - destruct (snd _) as [s|]; [|contradiction]. rewrite andthen_ret, andthen_fst in H. cbn [fst snd] in H. destruct H as [<-|H]; [split; discriminate|].
    cbn [app] in H. rewrite andthen_fst in H. apply in_app_or in H. destruct H as [H|H]; [eapply KA; eauto|]. destruct (snd (acts main s)); [|contradiction]. rewrite andthen_ret in H. destruct H as [<-|[]]. split; discriminate.
Qed.
Print Assumptions C80_no_log_refuted.

(** With both backends and an env_logger that panics when the slot is taken
    (it does), origin_main is never called. *)
Theorem C80_both_refuted : forall c us arr main, g_log c = true -> g_dbg c = true -> g_env c = true -> g_panics c Env = true -> features c -> linked c us arr ->
  ~ In EMain (startup c arr main).
Proof.
  intros c us arr main L D E P Fe Li. destruct (linked_split _ _ _ L Li) as (l1 & l2 & -> & U1 & U2 & _).
  destruct (C80_order c (l1 ++ Origin :: l2) main) as (rest & R & _).
  enough (N : ~ In EMain (startup c (l1 ++ Origin :: l2) main)) by exact N. clear R rest.
  unfold startup. rewrite (Fe (or_introl D)), inits_app, andthen_assoc, andthen_fst. intros H. apply in_app_or in H.
  assert (NI : forall l s, ~ In EMain (fst (inits c l s))).
  { induction l as [|e l IH]; intros s K; [contradiction|]. rewrite inits_fst in K. apply in_app_or in K. destruct K as [K|[K|K]]; [destruct (g_log c); [destruct K as [K|[]]; discriminate|contradiction]|discriminate|].
    rewrite andthen_fst in K. apply in_app_or in K. destruct K as [K|K]; [apply step1_norun in K; discriminate|]. destruct (snd (step1 c e s)); [|contradiction]. exact (IH _ K). }
  destruct H as [H|H]; [exact (NI _ _ H)|]. destruct (snd (inits c l1 (GSt None false))) as [s|]; [|contradiction].
  rewrite andthen_fst in H. apply in_app_or in H. destruct H as [H|H]; [exact (NI _ _ H)|]. rewrite inits_snd, andthen_snd in H.
  assert (Z : snd (step1 c Origin s) = None).
  { cbn [step1]. unfold init, backend, say, ret, andthen. rewrite D, E, P. destruct (slot s) eqn:S, (g_panics c Dbg); cbn; rewrite ?S; cbn; reflexivity. }
  rewrite Z in H. exact H.
Qed.
Print Assumptions C80_both_refuted.

(** An initializer of an earlier priority installed a logger: env_logger's
    init panics and the program never starts. *)
Definition cfg_ex := GCfg true true true false true (fun _ => true) (fun _ => true).
Definition early : ent := User 0 (Some 50) [UInstall; ULevel true].
Theorem C80_taken_refuted : linked cfg_ex [early] [early; Origin] /\ chosen cfg_ex Env /\
  In EAbort (startup cfg_ex [early; Origin] []) /\ ~ In EMain (startup cfg_ex [early; Origin] []).
Proof.
  split; [|split; [split; [right; auto|reflexivity]|split; [vm_compute; tauto|vm_compute; intros K; repeat (destruct K as [K|K]; [discriminate|]); exact K]]].
  split; [repeat constructor|]. split; [apply perm_swap|]. repeat constructor.
Qed.

(** c-scape's initializer (98) logs nothing that is seen, one of a later
    priority does, and so does origin_main. *)
Definition cscape : ent := User 1 (Some 98) [USay 1].
Definition later : ent := User 2 None [USay 2].
Theorem C80_ex : linked cfg_ex [later; cscape] [cscape; Origin; later] /\ chosen cfg_ex Env /\ features cfg_ex /\
  startup cfg_ex [cscape; Origin; later] [USay 3] =
  [ EMsg (MCall cscape) false; ECall cscape; EMsg (MUser 1) false; EMsg (MCall Origin) false; ECall Origin;
    EInstalled Env; EMsg MStarted true; EMsg MMainThread true;
    EMsg (MCall later) true; ECall later; EMsg (MUser 2) true; EMsg MCallMain true; EMain; EMsg (MUser 3) true; EMsg MMainReturned true; EExit ].
Proof.
  split; [|split; [split; [right; auto|reflexivity]|split; [intros _; reflexivity|vm_compute; reflexivity]]].
  split; [repeat constructor|]. split.
  - cbn. apply Permutation_sym. eapply Permutation_trans; [apply perm_skip, perm_swap|]. apply perm_swap.
  - repeat constructor.
Qed.
