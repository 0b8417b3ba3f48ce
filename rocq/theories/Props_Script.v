(** C71: a program that runs functions in threads and joins them, registers exit
    functions and exits, behaves on every schedule as it reads. *)
From Coq Require Import ZArith List Bool Lia Arith.
From Verif Require Import Machine LayoutModel LayoutSpec ThreadModel ThreadPhase ByteModel ByteSpec BytePhase DtorsModel DtorsFacts DtorsInv DtorsPres Props_Dtors ProcModel Props_Proc Props_Byte Props_BytePhase ScriptModel ScriptSpec ScriptProofs ScriptChain ScriptTotal ScriptDet.
Import ListNotations.
Open Scope Z_scope.

(** * C71 *)
(** Every execution prints a prefix of what the program, read sequentially,
    prints; and when the process has ended, it has printed all of it and ended
    the way the program says. *)
Theorem C71_partial : forall {D} (c : dcfg) (fini : nat -> prog D) (main : prog D) (d0 : D) e tr s m os o,
  good_env e -> srun fini main d0 e c tr s m -> means c fini main d0 os o ->
  (exists rest, os = out m ++ rest) /\
  (forall o', term (fns s) = Some o' -> o' = o /\ out m = os).
Proof.
  intros D c fini main d0 e tr s m os o G R M. destruct (srun_J c fini main d0 e tr s m os o G R M) as (rest & -> & Hj).
  split; [eauto|]. intros o' T. destruct Hj as [[T' ->]|[T' _]]; [|congruence]. rewrite app_nil_r. split; [congruence|reflexivity].
Qed.

(** On any kernel, for programs that create no thread after one thread reclaimed
    another's memory. *)
Lemma srun_careful {D} c (fini : nat -> prog D) main d0 e tr s m : any_env e -> srun fini main d0 e c tr s m -> creates_first (lifes tr) ->
  srun fini main d0 (bcareful e) c tr s m.
Proof.
  intros W R. induction R as [b Hb|tr s m x s' m' R IH St F|tr s m t w g k r R IH T U P K]; intros C.
  - apply sr_init. exact Hb.
  - pose proof C as C'. rewrite lifes_snoc in C'. eapply sr_step; [apply IH; eapply creates_first_app; eauto| |exact F].
    eapply pcareful_step; eauto. eapply srun_prun; eauto.
  - eapply sr_do; eauto.
Qed.
Theorem C71_any_kernel : forall {D} (c : dcfg) (fini : nat -> prog D) (main : prog D) (d0 : D) e tr s m os o,
  any_env e -> srun fini main d0 e c tr s m -> creates_first (lifes tr) -> means c fini main d0 os o ->
  (exists rest, os = out m ++ rest) /\
  (forall o', term (fns s) = Some o' -> o' = o /\ out m = os).
Proof. intros D c fini main d0 e tr s m os o W R C. exact (C71_partial c fini main d0 _ tr s m os o (any_good e W) (srun_careful _ _ _ _ _ _ _ _ W R C)). Qed.

(** Every program that uses the features it was built with, and whose
    .fini_array functions do not register program exit functions or call exit,
    reads in exactly one way: its exit functions come to an end, whatever they
    register, and what it prints and how it ends is determined. *)
Theorem C71_meaning : forall {D} (c : dcfg) (fini : nat -> prog D) (main : prog D) (d0 : D),
  (forall k, uses c false (fini k)) -> uses c true main ->
  exists os o, means c fini main d0 os o /\ forall os' o', means c fini main d0 os' o' -> os' = os /\ o' = o.
Proof.
  intros D c fini main d0 F U. destruct (total c fini main d0 F U) as (os & o & M). exists os, o. split; [exact M|].
  intros os' o' M'. exact (means_det c fini main d0 os' o' os o M' M).
Qed.

(** So any two runs of such a program that end, end the same way with the same output. *)
Theorem C71_same_partial : forall {D} (c : dcfg) (fini : nat -> prog D) (main : prog D) (d0 : D) e e' tr s m tr' s' m' o o',
  (forall k, uses c false (fini k)) -> uses c true main -> good_env e -> good_env e' ->
  srun fini main d0 e c tr s m -> srun fini main d0 e' c tr' s' m' ->
  term (fns s) = Some o -> term (fns s') = Some o' -> o = o' /\ out m = out m'.
Proof.
  intros D c fini main d0 e e' tr s m tr' s' m' o o' F U G G' R R' T T'. destruct (total c fini main d0 F U) as (os & x & M).
  destruct (C71_partial c fini main d0 e tr s m os x G R M) as [_ A]. destruct (C71_partial c fini main d0 e' tr' s' m' os x G' R' M) as [_ B].
  destruct (A _ T) as [-> ->], (B _ T') as [-> ->]. auto.
Qed.

(** * Programs of the repository *)
(** Features on, any number of .fini_array functions that do nothing visible. *)
Definition on (n : nat) (a : arch) : dcfg := DCfg true true true true n a.
Definition quiet {D} : nat -> prog D := fun _ => Return 0.
Lemma quiet_finis {D} c h st n (u : @ust D) : finis c quiet h st n u [] (Exited st).
Proof. induction n as [|n IH]; [constructor|]. apply (F_fn c quiet h st n u [] 0 u []); [constructor|exact IH]. Qed.
Definition say {D} (n : Z) (k : prog D) : prog D := Do (fun d => (d, [n])) (fun _ => k).

Ltac mean := repeat first
  [ apply R_return | eapply R_do; [reflexivity|] | eapply R_at_thread_exit; [reflexivity|] | eapply R_at_program_exit; [reflexivity|reflexivity|]
  | eapply R_thread; [reflexivity|eapply T_run|] | eapply R_exit; eapply X_exit
  | apply D_nil; reflexivity | eapply D_fn; [reflexivity| |] | eapply P_nil; [reflexivity..|apply quiet_finis] | eapply P_fn; [reflexivity..| |] | cbn ].

(** example-crates/origin-start/src/main.rs: the messages are
    1 "Hello from main thread", 2 "Hello from a `program::at_exit` handler",
    3 "Hello from a main-thread `thread::at_exit` handler", 4 "Hello from child
    thread", 5 "Hello from child thread's `thread::at_exit` handler",
    6 "Goodbye from main". *)
Definition origin_start : prog unit :=
  say 1 (AtProgramExit (say 2 (Return 0)) (AtThreadExit (say 3 (Return 0))
    (CallThread (say 4 (AtThreadExit (say 5 (Return 0)) (Return 0))) (fun _ => say 6 (Exit 0))))).
Theorem C71_origin_start_partial : forall n a e tr s m, good_env e -> srun quiet origin_start tt e (on n a) tr s m ->
  (exists rest, [1; 4; 5; 6; 3; 2] = out m ++ rest) /\
  (forall o, term (fns s) = Some o -> o = Exited 0 /\ out m = [1; 4; 5; 6; 3; 2]).
Proof.
  intros n a e tr s m G R. apply (C71_partial (on n a) quiet origin_start tt e tr s m _ _ G R).
  eassert (M : means (on n a) quiet origin_start tt _ _) by (apply M_end; unfold origin_start, say; mean).
  exact M.
Qed.

(** The three test-crates/origin-start/src/bin/*-dtors-adding-dtors.rs; the
    static variable is FLAG; a failed assert! panics, which traps. *)
Definition check (b : bool) : prog bool := Do (fun d => (d, [])) (fun d => if Bool.eqb d b then Return 0 else Trap).
Definition store_true : prog bool := Do (fun _ => (true, [])) (fun _ => Return 0).
Definition adding (at_exit : prog bool -> prog bool -> prog bool) (k : prog bool) : prog bool :=
  at_exit (check true)
    (at_exit (at_exit (at_exit store_true (Return 0)) (Return 0))
       (at_exit (check false) k)).
Definition main_thread_dtors : prog bool := adding AtThreadExit (Return 0).
Definition program_dtors : prog bool := adding AtProgramExit (Return 0).
Definition thread_dtors : prog bool := CallThread (adding AtThreadExit (Return 0)) (fun _ => Return 0).

(** On every schedule, the asserts hold: the only way these programs end is exit(0). *)
Theorem C71_adding_partial : forall p n a e tr s m o, In p [main_thread_dtors; program_dtors; thread_dtors] ->
  good_env e -> srun quiet p false e (on n a) tr s m -> term (fns s) = Some o -> o = Exited 0.
Proof.
  intros p n a e tr s m o Hp G R T.
  assert (M : exists os, means (on n a) quiet p false os (Exited 0)).
  { destruct Hp as [<-|[<-|[<-|[]]]]; eexists; eapply M_return; try (eapply X_exit); unfold main_thread_dtors, program_dtors, thread_dtors, adding, check, store_true; mean. }
  destruct M as (os & M). apply (C71_partial (on n a) quiet p false e tr s m os _ G R M). exact T.
Qed.

(** * A concrete run *)
(** [follows] and the computing steps as functions, for the example. *)
Definition adv {D} (fini : nat -> prog D) (m : mach D) (x : pevent) : option (mach D) :=
  match x with
  | PUser | PDone _ _ _ => Some m
  | PLife (i, _, ECallJoin j) => match konts m i with UJoin w j' k :: r => if Nat.eqb j j' then Some (kset m i (UWait w j' k :: r)) else None | _ => None end
  | PLife (i, _, EJoin j v) => match konts m i with UWait w j' k :: r => if Nat.eqb j j' then Some (kset m i (URun w (k v) :: r)) else None | _ => None end
  | PLife (_, _, y) => if api_call y then None else Some m
  | PFns t (RegT f) => match konts m t with URun w (AtThreadExit q k) :: r => Some (rset (kset m t (URun w k :: r)) f q) | _ => None end
  | PFns t (BeginP f) => match konts m t with URun w (AtProgramExit q k) :: r => Some (rset (kset m t (URun w k :: r)) f q) | _ => None end
  | PFns t (CallT f) => Some (kset m t (URun (WT f) (reg m f) :: konts m t))
  | PFns t (CallP f) => Some (kset m t (URun (WP f) (reg m f) :: konts m t))
  | PFns t (CallF k) => Some (kset m t (URun (WF k) (fini k) :: konts m t))
  | PFns t (ExitCall st) =>
      match konts m t with
      | URun _ (Exit st') :: r => if Z.eqb st st' then Some (kset m t (UGone :: r)) else None
      | URun WMain (Return st') :: r => if Z.eqb st st' then Some (kset m t (UGone :: r)) else None
      | _ => None end
  | PFns t (Ret w) => match konts m t, w with
      | URun (WT f) (Return v) :: r, WT f' | URun (WP f) (Return v) :: r, WP f' | URun (WF f) (Return v) :: r, WF f' => if Nat.eqb f f' then Some (kset m t r) else None
      | _, _ => None end
  | PFns t y => match y with Nop | RegP _ | EndP | Lock | Take _ | Unlock | Empty | Term _ => Some m | _ => None end
  | PReturns t v => match konts m t with URun WThread (Return v') :: r => if Z.eqb v v' then Some (kset m t r) else None | _ => None end
  | PCreate i _ j => match konts m i with URun w (CallThread f k) :: r => Some (kset (kset m i (UJoin w j k :: r)) j [URun WThread f]) | _ => None end
  end.
Lemma adv_ok {D} (fini : nat -> prog D) m x m' : adv fini m x = Some m' -> follows fini m x m'.
Proof.
  intros H. destruct x as [|[[i ins] x]|t x|t v|i acc j|t acc v]; cbn in H.
  - injection H as <-. constructor.
  - destruct x; cbn in H; try discriminate; try (injection H as <-; apply f_life; [reflexivity|discriminate]);
      destruct (konts m i) as [|[] r] eqn:K; try discriminate; destruct (Nat.eqb_spec j j0); try discriminate; subst; injection H as <-; econstructor; eauto.
  - destruct x; cbn in H; try discriminate; try (injection H as <-; first [apply f_callt|apply f_callp|apply f_callf|apply f_fns; exact Logic.I]);
      destruct (konts m t) as [|[w0 p| | |] r] eqn:K; try discriminate.
    + destruct p; try discriminate. injection H as <-. eapply f_regt; eauto.
    + destruct p; try discriminate. injection H as <-. eapply f_regp; eauto.
    + destruct w0, p, w; try discriminate; destruct (Nat.eqb_spec f f0) || destruct (Nat.eqb_spec k k0); try discriminate; subst; injection H as <-; eapply f_ret; eauto.
    + destruct p, w0; try discriminate; match type of H with context [Z.eqb ?a ?b] => destruct (Z.eqb_spec a b) end; try discriminate; subst; injection H as <-; first [eapply f_main; eauto; fail|eapply f_exit; eauto].
  - destruct (konts m t) as [|[w0 p| | |] r] eqn:K; try discriminate. destruct w0, p; try discriminate. destruct (Z.eqb_spec v v0); try discriminate. subst. injection H as <-. eapply f_returns; eauto.
  - destruct (konts m i) as [|[w0 p| | |] r] eqn:K; try discriminate. destruct p; try discriminate. injection H as <-. eapply f_create; eauto.
  - injection H as <-. constructor.
Qed.

Definition dos {D} (m : mach D) (t : nat) : option (mach D) :=
  match konts m t with
  | URun w (Do g k) :: r => Some (Mach (dupd (konts m) t (URun w (k (fst (g (data m)))) :: r)) (reg m) (fst (g (data m))) (out m ++ snd (g (data m))))
  | _ => None end.
Definition got {A} (d : A) (o : option A) : A := match o with Some x => x | None => d end.
Definition has {A} (o : option A) : bool := match o with Some _ => true | None => false end.
Lemma got_ok {A} (d : A) o : has o = true -> o = Some (got d o).
Proof. destruct o; [reflexivity|discriminate]. Qed.

Section Play.
Context {D : Type} (fini : nat -> prog D) (main : prog D) (d0 : D) (e : benv) (c : dcfg).
Lemma s_lift tr s m x s' : srun fini main d0 e c tr s m -> pstep e c s x s' -> has (adv fini m x) = true ->
  srun fini main d0 e c (tr ++ [x]) s' (got m (adv fini m x)).
Proof. intros R St H. eapply sr_step; eauto. apply adv_ok. apply got_ok. exact H. Qed.
Lemma s_dos tr s m t : srun fini main d0 e c tr s m -> term (fns s) = None -> in_user (fns s) t -> t_pc (bT (life s) t) = Run -> has (dos m t) = true ->
  srun fini main d0 e c tr s (got m (dos m t)).
Proof.
  intros R T U P H. unfold dos in *. destruct (konts m t) as [|[w p| | |] r] eqn:K; try discriminate. destruct p; try discriminate. cbn [got].
  exact (sr_do fini main d0 e c tr s m t w g k r R T U P K).
Qed.
(** Exit functions and computing while the life cycle stands still: [inl (t, a)]
    a step of the exit-function part, [inr t] a computation. *)
Definition is_user (d : dst) (t : nat) : bool := match frames d t with FUser _ :: _ => true | _ => false end.
Fixpoint splay (b : bst) (l : list ((nat * action) + nat)) (d : dst) (m : mach D) : bool * (list pevent * dst * mach D) :=
  match l with
  | [] => (true, ([], d, m))
  | inl (t, a) :: l' =>
      let x := PFns t (devent c d t a) in
      let '(ok, (tr, d', m')) := splay b l' (dnext c d t a) (got m (adv fini m x)) in
      (dcan c d t a && fns_only (devent c d t a) && (match t_pc (bT b t) with Run => true | _ => false end) && has (adv fini m x) && ok, (x :: tr, d', m'))
  | inr t :: l' =>
      let '(ok, (tr, d', m')) := splay b l' d (got m (dos m t)) in
      (negb (has (term d)) && is_user d t && (match t_pc (bT b t) with Run => true | _ => false end) && has (dos m t) && ok, (tr, d', m'))
  end.
Lemma splay_ok b v l : forall tr d m tr' d' m', srun fini main d0 e c tr (PSt b d v) m -> splay b l d m = (true, (tr', d', m')) ->
  srun fini main d0 e c (tr ++ tr') (PSt b d' v) m'.
Proof.
  induction l as [|[[t a]|t] l IH]; intros tr d m tr' d' m' R H; cbn [splay] in H.
  - injection H as <- <- <-. now rewrite app_nil_r.
  - destruct (splay b l (dnext c d t a) (got m (adv fini m (PFns t (devent c d t a))))) as [ok [[tr1 d1] m1]] eqn:E.
    injection H as H <- <- <-. apply andb_prop in H as [H H5]. apply andb_prop in H as [H H4]. apply andb_prop in H as [H H3]. apply andb_prop in H as [H1 H2]. subst ok.
    change (PFns t (devent c d t a) :: tr1) with ([PFns t (devent c d t a)] ++ tr1). rewrite app_assoc. eapply IH; [|exact E].
    apply s_lift with (s := PSt b d v); [exact R| |exact H4]. refine (p_fns e c (PSt b d v) t a (devent c d t a) (dnext c d t a) _ H2 _).
    + apply dnext_ok; auto.
    + cbn [life]. destruct (t_pc (bT b t)); try discriminate; reflexivity.
  - destruct (splay b l d (got m (dos m t))) as [ok [[tr1 d1] m1]] eqn:E.
    injection H as H <- <- <-. apply andb_prop in H as [H H5]. apply andb_prop in H as [H H4]. apply andb_prop in H as [H H3]. apply andb_prop in H as [H1 H2]. subst ok.
    eapply IH; [|exact E]. apply s_dos; [exact R| | | |exact H4]; cbn [fns life].
    + destruct (term d); [discriminate H1|reflexivity].
    + unfold is_user in H2. unfold in_user. destruct (frames d t) as [|[] ?]; try discriminate. eauto.
    + destruct (t_pc (bT b t)); try discriminate; reflexivity.
Qed.
End Play.

(** Main runs a function in a thread and exits with its result minus 72; the
    thread registers two functions, that print 10 and 20, and returns 77; the two
    .fini_array functions print their index. *)
Definition sx_fini : nat -> prog unit := fun k => say (Z.of_nat k) (Return 0).
Definition sx_main : prog unit :=
  CallThread (AtThreadExit (say 10 (Return 0)) (AtThreadExit (say 20 (Return 0)) (Return 77))) (fun v => Return (v - 72)).
Definition sx_m0 : mach unit := Mach (dupd (fun _ => []) 0%nat [URun WMain sx_main]) (fun _ => Return 0) tt [].
Definition sx (m : mach unit) (x : pevent) := got m (adv sx_fini m x).
Definition sx_m1 := sx sx_m0 (PCreate 0 [0%nat] 1).
Definition sx_m2 := sx sx_m1 PUser.
Definition sx_l1 : list ((nat * action) + nat) := [inl (1%nat, ARegT); inl (1%nat, ARegT)].
Definition sx_l2 : list ((nat * action) + nat) := [inl (1%nat, AGo); inr 1%nat; inl (1%nat, ARet 0); inl (1%nat, AGo); inr 1%nat; inl (1%nat, ARet 0)].
Definition sx_l3 : list ((nat * action) + nat) :=
  [inl (0%nat, ARet 5); inl (0%nat, AGo); inl (0%nat, AGo); inl (0%nat, AGo); inl (0%nat, AGo); inr 0%nat; inl (0%nat, ARet 0); inl (0%nat, AGo); inr 0%nat; inl (0%nat, ARet 0); inl (0%nat, AGo)].
Definition pm {A B} (x : bool * (A * dst * B)) : B := snd (snd x).
Definition pd {A B} (x : bool * (A * dst * B)) : dst := snd (fst (snd x)).
Definition sx_p1 := splay sx_fini all_on ex_b2 sx_l1 ex_d1 sx_m2.
Definition sx_d3 := dnext all_on (pd sx_p1) 1 (ARet 0).
Definition sx_m4 := sx (pm sx_p1) (PReturns 1 77).
Definition sx_p2 := splay sx_fini all_on ex_b2 sx_l2 sx_d3 sx_m4.
Definition sx_d5 := dnext all_on (pd sx_p2) 1 AGo.
Definition sx_m6 := sx (pm sx_p2) (PDone 1 [1%nat] 77).
Definition sx_m7 := sx sx_m6 (PLife (0%nat, [0%nat], ECallJoin 1)).
Definition sx_m8 := sx sx_m7 (PLife (0%nat, [0%nat], EJoin 1 77)).
Definition sx_p3 := splay sx_fini all_on ex_b14 sx_l3 sx_d5 sx_m8.

Local Notation SR := (srun sx_fini sx_main tt ex_e all_on).
Local Notation SX s m := (exists tr, SR tr s m).
Lemma sx_life b d v m acc i ins x b' : SX (PSt b d v) m -> bstep ex_e b acc (Some (i, ins, x)) b' ->
  term d = None -> life_only x = true -> api_call x = false -> (forall j w, x <> EJoin j w) -> SX (PSt b' d v) m.
Proof. intros (tr & R) St T O A N. eexists. eapply sr_step; [exact R|exact (p_life ex_e all_on (PSt b d v) acc i ins x b' T St O ltac:(congruence))|apply f_life; auto]. Qed.
Lemma sx_lift s m x s' : SX s m -> pstep ex_e all_on s x s' -> has (adv sx_fini m x) = true -> SX s' (sx m x).
Proof. intros (tr & R) St H. eexists. eapply s_lift; eauto. Qed.
Lemma sx_play b v l d m : SX (PSt b d v) m -> fst (splay sx_fini all_on b l d m) = true ->
  SX (PSt b (pd (splay sx_fini all_on b l d m)) v) (pm (splay sx_fini all_on b l d m)).
Proof.
  intros (tr & R) H. destruct (splay sx_fini all_on b l d m) as [ok [[tr1 d1] m1]] eqn:E. cbn in *. subst. eexists. eapply splay_ok; eauto.
Qed.
Ltac vd := intros; discriminate.

Lemma sx_run1 : SX (PSt ex_b2 sx_d3 ex_v1) sx_m4.
Proof.
  assert (H : SX (PSt ex_b0 dinit ex_v0) sx_m0) by (eexists; apply sr_init; exact ex_start).
  assert (H1 := sx_lift _ _ _ _ H (p_create ex_e all_on (PSt ex_b0 dinit ex_v0) _ _ _ _ _ ex_d1 ex_step1 (dnext_ok all_on dinit 0 ASpawn (Spawn 1) ltac:(vr) ltac:(vr))) ltac:(vr)).
  assert (H2 := sx_lift _ _ _ _ H1 (p_user ex_e all_on (PSt ex_b1 ex_d1 ex_v0) _ _ ltac:(vr) ex_step2) ltac:(vr)).
  assert (H3 := sx_play _ _ sx_l1 _ _ H2 ltac:(vr)).
  exact (sx_lift _ _ _ _ H3 (p_returns ex_e all_on (PSt ex_b2 (pd sx_p1) ex_v0) 1 77 sx_d3 (dnext_ok all_on (pd sx_p1) 1 (ARet 0) (Ret WThread) ltac:(vr) ltac:(vr)) ltac:(vr) ltac:(unfold usize; cbn; lia)) ltac:(vr)).
Qed.
Lemma sx_run2 : SX (PSt ex_b3 sx_d5 ex_v1) sx_m6.
Proof.
  assert (H3 := sx_play _ _ sx_l2 _ _ sx_run1 ltac:(vr)).
  exact (sx_lift _ _ _ _ H3 (p_done ex_e all_on (PSt ex_b2 (pd sx_p2) ex_v1) [] 1 [1%nat] ex_b3 sx_d5 (dnext_ok all_on (pd sx_p2) 1 AGo ThreadDone ltac:(vr) ltac:(vr))
     (b_return ex_e ex_b2 1 77 ltac:(lia) ltac:(cbn; lia) ltac:(vr) ltac:(unfold usize; cbn; lia))) ltac:(vr)).
Qed.
Lemma sx_run3 : SX (PSt ex_b14 sx_d5 ex_v1) sx_m8.
Proof.
  pose proof sx_run2 as H3.
  pose proof (sx_life ex_b3 sx_d5 ex_v1 _ _ 1 _ ENone ex_b4 H3 (b_cas ex_e ex_b3 1 77 ltac:(vr) ltac:(vr)) ltac:(vr) ltac:(vr) ltac:(vr) ltac:(vd)) as H4. clear H3.
  pose proof (sx_life ex_b4 sx_d5 ex_v1 _ _ 1 _ ENone ex_b5 H4 (b_store ex_e ex_b4 1 77 ltac:(vr)) ltac:(vr) ltac:(vr) ltac:(vr) ltac:(vd)) as H5. clear H4.
  pose proof (sx_life ex_b5 sx_d5 ex_v1 _ _ 1 _ EExit ex_b6 H5 (b_exit ex_e ex_b5 1 ltac:(vr)) ltac:(vr) ltac:(vr) ltac:(vr) ltac:(vd)) as H6. clear H5.
  assert (U1 : api_call (ECallJoin 1) = true -> in_user sx_d5 0) by (intros _; do 2 eexists; vr).
  pose proof (sx_lift _ _ _ _ H6 (p_life ex_e all_on (PSt ex_b6 sx_d5 ex_v1) _ 0 _ (ECallJoin 1) ex_b7 ltac:(vr) (b_join ex_e ex_b6 0 1 ltac:(cbn; lia) ltac:(vr) ltac:(cbn; lia) ltac:(vr)) ltac:(vr) U1) ltac:(vr)) as H7. clear H6.
  pose proof (sx_life ex_b7 sx_d5 ex_v1 _ _ 0 _ ENone ex_b8 H7 (b_load ex_e ex_b7 0 KJoin 1 ltac:(vr) ltac:(vm_compute; discriminate)) ltac:(vr) ltac:(vr) ltac:(vr) ltac:(vd)) as H8. clear H7.
  pose proof (sx_life ex_b8 sx_d5 ex_v1 _ _ 0 _ ENone ex_b9 H8 (b_futex_sleep ex_e ex_b8 0 KJoin 1 77 ltac:(vr) ltac:(vr)) ltac:(vr) ltac:(vr) ltac:(vr) ltac:(vd)) as H9. clear H8.
  pose proof (sx_life ex_b9 sx_d5 ex_v1 _ _ 1 _ EKernelClear ex_b10 H9 (b_kclear ex_e ex_b9 1 ltac:(vr) ltac:(vr)) ltac:(vr) ltac:(vr) ltac:(vr) ltac:(vd)) as H10. clear H9.
  pose proof (sx_life ex_b10 sx_d5 ex_v1 _ _ 1 _ ENone ex_b11 H10 (b_kwake ex_e ex_b10 1 0 KJoin 1 (i_ctid (bI ex_b9 1%nat)) ltac:(vr) ltac:(vr) ltac:(vr)) ltac:(vr) ltac:(vr) ltac:(vr) ltac:(vd)) as H11. clear H10.
  pose proof (sx_life ex_b11 sx_d5 ex_v1 _ _ 0 _ ENone ex_b12 H11 (b_join_load ex_e ex_b11 0 1 ltac:(vr) ltac:(left; vr)) ltac:(vr) ltac:(vr) ltac:(vr) ltac:(vd)) as H12. clear H11.
  pose proof (sx_life ex_b12 sx_d5 ex_v1 _ _ 0 _ (EMunmap 0x700000 108312) ex_b13 H12 (b_free ex_e ex_b12 0 KJoin 1 77 _ ltac:(vr) eq_refl ltac:(vm_compute; discriminate) ltac:(vr)) ltac:(vr) ltac:(vr) ltac:(vr) ltac:(vd)) as H13. clear H12.
  assert (U2 : api_call (EJoin 1 77) = true -> in_user sx_d5 0) by (intros X; discriminate X).
  exact (sx_lift _ _ _ _ H13 (p_life ex_e all_on (PSt ex_b13 sx_d5 ex_v1) _ 0 _ (EJoin 1 77) ex_b14 ltac:(vr) (b_ret_join ex_e ex_b13 0 1 77 ltac:(vr)) ltac:(vr) U2) ltac:(vr)).
Qed.

(** The hypotheses of C71 are met by a run with a thread, exit functions and
    .fini_array functions that ends, and the program reads as it should. *)
Theorem C71_ex : exists tr s m, good_env ex_e /\ srun sx_fini sx_main tt ex_e all_on tr s m /\
  term (fns s) = Some (Exited 5) /\ out m = [20; 10; 1; 0] /\
  means all_on sx_fini sx_main tt [20; 10; 1; 0] (Exited 5) /\ (forall k, uses all_on false (sx_fini k)) /\ uses all_on true sx_main.
Proof.
  destruct (sx_play _ _ sx_l3 _ _ sx_run3 ltac:(vr)) as (tr & R). exists tr, (PSt ex_b14 (pd sx_p3) ex_v1), (pm sx_p3).
  split; [apply ex_env|]. split; [exact R|]. split; [vr|]. split; [vr|]. split; [|split].
  - eassert (M : means all_on sx_fini sx_main tt _ _).
    { eapply M_return; [|eapply X_exit]; unfold sx_main, say; mean. cbn. eapply P_nil; [reflexivity..|].
      cbn. eapply F_fn; [unfold sx_fini, say; mean|]. eapply F_fn; [unfold sx_fini, say; mean|]. apply F_nil. }
    exact M.
  - intros k. cbn. auto.
  - cbn. repeat split; auto.
Qed.
Print Assumptions C71_partial. Print Assumptions C71_any_kernel. Print Assumptions C71_meaning. Print Assumptions C71_same_partial.
Print Assumptions C71_origin_start_partial. Print Assumptions C71_adding_partial. Print Assumptions C71_ex.
