(** C62: whole programs, with threads, joins, detached threads and exit
    functions at once.  ProcModel.v: any interleaving of any number of threads;
    the vocabulary is that of C34 (events RegT, CallT, Ret) and C56. *)
From Coq Require Import ZArith List Bool Lia Arith.
From Verif Require Import Machine LayoutModel LayoutSpec ThreadModel ThreadSpec ThreadInv ThreadPres ThreadPres4 ThreadTop ThreadTop2 ByteModel ByteSpec ByteProofs ByteSim Props_Layout Props_Byte.
From Verif Require Import DtorsModel DtorsSpec DtorsFacts DtorsInv DtorsPres DtorsTop Props_Dtors ProcModel.
Import ListNotations.
Open Scope Z_scope.

Lemma lifes_snoc tr x : lifes (tr ++ [x]) = lifes tr ++ life_of x.
Proof. unfold lifes. rewrite flat_map_app. cbn. now rewrite app_nil_r. Qed.
Lemma exits_snoc tr x : exits (tr ++ [x]) = exits tr ++ fns_of x.
Proof. unfold exits. rewrite flat_map_app. cbn. now rewrite app_nil_r. Qed.

(** ** Every property of the parts is a property of the whole *)
Lemma brun_snoc e tr b acc l b' : brun e tr b -> bstep e b acc l b' -> brun e (tr ++ olist l) b'.
Proof. intros (b0 & H0 & H) St. exists b0. split; [exact H0|]. econstructor; eauto. Qed.

Lemma proj e c tr s : prun e c tr s -> brun e (lifes tr) (life s) /\ DtorsModel.exec c (exits tr) (fns s).
Proof.
  induction 1 as [b Hb|tr s x s' _ [IB ID] St].
  - split; [exists b; split; [exact Hb|constructor]|constructor].
  - rewrite lifes_snoc, exits_snoc. destruct St; cbn [life_of fns_of life fns]; rewrite ?app_nil_r; split; auto.
    + pose proof (brun_snoc _ _ _ _ _ _ IB H0) as X. cbn [olist] in X. rewrite app_nil_r in X. exact X.
    + exact (brun_snoc _ _ _ _ _ _ IB H0).
    + econstructor; eauto.
    + econstructor; eauto.
    + exact (brun_snoc _ _ _ _ _ _ IB H).
    + econstructor; eauto.
    + exact (brun_snoc _ _ _ _ _ _ IB H0).
    + econstructor; eauto.
Qed.

(** ** Frames and program counters go together *)

(** The thread is in its function or its exit functions, possibly inside a call
    of join or detach (or has panicked there). *)
Definition upc (p : pc) : bool :=
  match p with
  | Run | JLoad _ _ | JFutex _ _ _ | JSleep _ _ | JDone _ _ | JFree _ _ _ | JRet _ _ _ | DSwap _ | Panicked => true
  | _ => false end.

Lemma bstep_upc e b acc l b' t : bstep e b acc l b' -> upc (t_pc (bT b t)) = true ->
  (match l with Some (i, _, ECreate j) => t <> j | Some (i, _, EReturn _) => t <> i | _ => True end) -> upc (t_pc (bT b' t)) = true.
Proof.
  intros St U N. destruct St; cbn [bT bgoto btask bset_mem bset_loc bset_claim bmunmap] in *; unfold fupd in *; auto;
    repeat match goal with |- context [Nat.eqb ?x ?y] => destruct (Nat.eqb_spec x y) as [->|] end; cbn [t_pc set_pc set_clear set_block set_fin]; auto;
    repeat match goal with H : t_pc (bT b ?x) = _, U : context [t_pc (bT b ?x)] |- _ => rewrite H in U; try discriminate U end; try reflexivity; try contradiction.
Qed.
Lemma bstep_n e b acc l b' : bstep e b acc l b' ->
  bn b' = match l with Some (_, _, ECreate _) => S (bn b) | _ => bn b end /\
  (forall i ins j, l = Some (i, ins, ECreate j) -> j = bn b /\ t_pc (bT b' j) = Run).
Proof.
  intros St. destruct St; cbn [bn bT bgoto btask bset_mem bset_loc bset_claim bmunmap]; (split; [reflexivity|]); intros ? ? ? [=]; subst.
  split; [reflexivity|]. unfold fupd. rewrite Nat.eqb_refl. reflexivity.
Qed.

Record pinv (tr : list pevent) (s : pst) : Prop := {
  pi_n : bn (life s) = nthr (fns s);
  pi_upc : forall t, frames (fns s) t <> [] -> upc (t_pc (bT (life s) t)) = true;
  pi_ret : forall t v, In (PReturns t v) tr -> v = fval s t /\ ~ In (FUser WThread) (frames (fns s) t);
  pi_dtors : forall t, In FDtors (frames (fns s) t) -> exists v, In (PReturns t v) tr;
  pi_done : forall t acc v, In (PDone t acc v) tr -> In (PReturns t v) tr }.

Lemma exits_ret tr t v : In (PReturns t v) tr -> In (t, Ret WThread) (exits tr).
Proof. intros H. unfold exits. apply in_flat_map. exists (PReturns t v). split; [exact H|left; reflexivity]. Qed.

(** What a step of thread [t] does to the frames of any thread. *)
Lemma frames_step c tr d t act x d' u : DtorsInv.inv c tr d -> dstep c d t act = Some (x, d') ->
  (frames d' u <> [] -> frames d u <> [] \/ x = Spawn u) /\
  (In (FUser WThread) (frames d' u) -> In (FUser WThread) (frames d u) \/ x = Spawn u) /\
  (In FDtors (frames d' u) -> In FDtors (frames d u) \/ (x = Ret WThread /\ u = t)) /\
  (x = Ret WThread -> ~ In (FUser WThread) (frames d' t)) /\
  (x = Ret WThread -> In (FUser WThread) (frames d t)) /\
  (x = ThreadDone -> frames d' t = [] /\ In FDtors (frames d t)) /\
  (forall v, x = Spawn v -> v = nthr d /\ v <> t).
Proof.
  intros I D. pose proof (dstep_effect _ _ _ _ _ _ D) as [_ EL EO EF _ _ _ _ _ _ EG _].
  assert (TN : t <> nthr d).
  { intros ->. destruct (i_new _ _ _ I (nthr d)) as [X _]; [lia|]. contradiction. }
  specialize (EO TN). pose proof (i_stack _ _ _ I t) as [_ B].
  assert (FW : x = Ret WThread -> ~ In (FUser WThread) (frames d' t)).
  { intros ->. inversion EO; subst; try congruence.
    match goal with E : _ = frames d t |- _ => rewrite <- E in B end. cbn [based] in B. destruct B as [[->|B] _]; [|discriminate].
    intros [X|[]]; discriminate. }
  assert (OWN : (frames d' t <> [] -> frames d t <> []) /\
    (In (FUser WThread) (frames d' t) -> In (FUser WThread) (frames d t)) /\
    (In FDtors (frames d' t) -> In FDtors (frames d t) \/ x = Ret WThread)).
  { split; [auto|]. inversion EO; subst; cbn [In]; intuition (try congruence; try discriminate). }
  assert (OTH : u <> t -> frames d' u = frames d u \/ (x = Spawn u)).
  { intros N. rewrite (EF u N). destruct x; auto. destruct (Nat.eqb_spec u u0) as [->|]; auto. }
  assert (SP : forall v, x = Spawn v -> v = nthr d /\ v <> t) by (intros v ->; destruct EG as [-> _]; split; congruence).
  split; [|split; [|split; [|split; [exact FW|split; [|split; [|exact SP]]]]]].
  - destruct (Nat.eq_dec u t) as [->|N]; [intuition|]. destruct (OTH N) as [->|]; auto.
  - destruct (Nat.eq_dec u t) as [->|N]; [intuition|]. destruct (OTH N) as [->|]; auto.
  - destruct (Nat.eq_dec u t) as [->|N]; [intuition|]. destruct (OTH N) as [->|E2]; auto.
    rewrite (EF u N), E2, Nat.eqb_refl. intros [X|[]]; discriminate.
  - intros ->. inversion EO; subst; [left; reflexivity|congruence].
  - intros ->. inversion EO; subst. split; [reflexivity|left; reflexivity].
Qed.

Lemma prun_inv e c tr s : prun e c tr s -> pinv tr s.
Proof.
  induction 1 as [b Hb|tr s x s' R I St].
  - destruct Hb as (m0 & sp & ex & rl & rnd & an & tid & RR & len & map & _ & _ & _ & ->). constructor; cbn [life fns bn].
    + reflexivity.
    + intros t. cbn. unfold dupd. destruct t as [|t]; [reflexivity|]. cbn. congruence.
    + intros t v [].
    + intros t. cbn. unfold dupd. destruct (Nat.eqb t 0); cbn; [intros [X|[]]; discriminate|intros []].
    + intros t acc v [].
  - destruct (proj _ _ _ _ R) as [RB RD]. pose proof (exec_inv _ _ _ RD) as ID. destruct I as [I1 I2 I3 I4 I5].
    destruct St.
    + destruct (bstep_n _ _ _ _ _ H0) as [N _]. constructor; cbn [life fns fval].
      * now rewrite N.
      * intros t F. exact (bstep_upc _ _ _ _ _ t H0 (I2 t F) Logic.I).
      * intros t v Hi. apply in_app_iff in Hi as [Hi|[Hi|[]]]; [eauto|discriminate].
      * intros t F. destruct (I4 t F) as [v Hv]. exists v. apply in_app_iff. auto.
      * intros t ac v Hi. apply in_app_iff in Hi as [Hi|[Hi|[]]]; [|discriminate]. apply in_app_iff. eauto.
    + destruct (bstep_n _ _ _ _ _ H0) as [N _]. constructor; cbn [life fns fval].
      * rewrite N. destruct x; try discriminate; exact I1.
      * intros t F. apply (bstep_upc _ _ _ _ _ t H0 (I2 t F)). destruct x; try discriminate; exact Logic.I.
      * intros t v Hi. apply in_app_iff in Hi as [Hi|[Hi|[]]]; [eauto|discriminate].
      * intros t F. destruct (I4 t F) as [v Hv]. exists v. apply in_app_iff. auto.
      * intros t ac v Hi. apply in_app_iff in Hi as [Hi|[Hi|[]]]; [|discriminate]. apply in_app_iff. eauto.
    + pose proof (fun u => frames_step _ _ _ _ _ _ _ u ID H) as FS.
      assert (NS : forall u, x <> Spawn u) by (intros u ->; discriminate).
      assert (NR : x <> Ret WThread) by (intros ->; discriminate).
      constructor; cbn [life fns fval].
      * rewrite (e_nthr _ _ _ _ _ (dstep_effect _ _ _ _ _ _ H)). destruct x; try exact I1. discriminate.
      * intros u F. destruct (FS u) as (A & _). destruct (A F) as [X|X]; [auto|edestruct NS; eauto].
      * intros u v Hi. apply in_app_iff in Hi as [Hi|[Hi|[]]]; [|discriminate]. destruct (I3 u v Hi) as [-> W]. split; [reflexivity|].
        intros X. destruct (FS u) as (_ & A & _). destruct (A X) as [Y|Y]; [auto|edestruct NS; eauto].
      * intros u F. destruct (FS u) as (_ & _ & A & _). destruct (A F) as [Y|[Y _]]; [|contradiction].
        destruct (I4 u Y) as [v Hv]. exists v. apply in_app_iff. auto.
      * intros u ac v Hi. apply in_app_iff in Hi as [Hi|[Hi|[]]]; [|discriminate]. apply in_app_iff. eauto.
    + pose proof (fun u => frames_step _ _ _ _ _ _ _ u ID H) as FS.
      assert (NP : forall v', ~ In (PReturns t v') tr).
      { intros v' X. destruct (I3 _ _ X) as [_ W]. apply W. destruct (FS t) as (_ & _ & _ & _ & A & _). auto. }
      constructor; cbn [life fns fval].
      * rewrite (e_nthr _ _ _ _ _ (dstep_effect _ _ _ _ _ _ H)). exact I1.
      * intros u F. destruct (FS u) as (A & _). destruct (A F) as [X|X]; [auto|discriminate].
      * intros u v' Hi. unfold fupd. apply in_app_iff in Hi as [Hi|[Hi|[]]].
        -- destruct (Nat.eqb_spec u t) as [->|]; [edestruct NP; eauto|]. destruct (I3 u v' Hi) as [-> W]. split; [reflexivity|].
           intros X. destruct (FS u) as (_ & A & _). destruct (A X) as [Y|Y]; [auto|discriminate].
        -- injection Hi as -> ->. rewrite Nat.eqb_refl. split; [reflexivity|]. destruct (FS u) as (_ & _ & _ & A & _). auto.
      * intros u F. destruct (FS u) as (_ & _ & A & _). destruct (A F) as [Y|[_ ->]].
        -- destruct (I4 u Y) as [v' Hv]. exists v'. apply in_app_iff. auto.
        -- exists v. apply in_app_iff. right. left. reflexivity.
      * intros u ac v' Hi. apply in_app_iff in Hi as [Hi|[Hi|[]]]; [|discriminate]. apply in_app_iff. eauto.
    + pose proof (fun u => frames_step _ _ _ _ _ _ _ u ID H0) as FS. destruct (bstep_n _ _ _ _ _ H) as [N C].
      destruct (C _ _ _ eq_refl) as [-> RJ].
      constructor; cbn [life fns fval].
      * rewrite N, (e_nthr _ _ _ _ _ (dstep_effect _ _ _ _ _ _ H0)). f_equal. exact I1.
      * intros u F. destruct (Nat.eq_dec u (bn (life s))) as [->|NU]; [rewrite RJ; reflexivity|].
        destruct (FS u) as (A & _). destruct (A F) as [X|X]; [|injection X as X; congruence].
        exact (bstep_upc _ _ _ _ _ u H (I2 u X) NU).
      * intros u v Hi. apply in_app_iff in Hi as [Hi|[Hi|[]]]; [|discriminate]. destruct (I3 u v Hi) as [-> W]. split; [reflexivity|].
        intros X. destruct (FS u) as (_ & A & _). destruct (A X) as [Y|Y]; [auto|]. injection Y as <-.
        destruct (i_new _ _ _ ID (bn (life s))) as (_ & _ & O); [lia|]. pose proof (exits_ret _ _ _ Hi) as Z1. apply DtorsFacts.own_in in Z1. rewrite O in Z1. destruct Z1.
      * intros u F. destruct (FS u) as (_ & _ & A & _). destruct (A F) as [Y|[Y _]]; [|discriminate].
        destruct (I4 u Y) as [v Hv]. exists v. apply in_app_iff. auto.
      * intros u ac v Hi. apply in_app_iff in Hi as [Hi|[Hi|[]]]; [|discriminate]. apply in_app_iff. eauto.
    + pose proof (fun u => frames_step _ _ _ _ _ _ _ u ID H) as FS. destruct (bstep_n _ _ _ _ _ H0) as [N _].
      destruct (FS t) as (_ & _ & _ & _ & _ & A0 & _). destruct (A0 eq_refl) as [E0 D0].
      constructor; cbn [life fns fval].
      * rewrite N, (e_nthr _ _ _ _ _ (dstep_effect _ _ _ _ _ _ H)). exact I1.
      * intros u F. destruct (Nat.eq_dec u t) as [->|NU]; [contradiction|].
        destruct (FS u) as (A & _). destruct (A F) as [X|X]; [|discriminate].
        exact (bstep_upc _ _ _ _ _ u H0 (I2 u X) NU).
      * intros u v Hi. apply in_app_iff in Hi as [Hi|[Hi|[]]]; [|discriminate]. destruct (I3 u v Hi) as [-> W]. split; [reflexivity|].
        intros X. destruct (FS u) as (_ & A & _). destruct (A X) as [Y|Y]; [auto|discriminate].
      * intros u F. destruct (FS u) as (_ & _ & A & _). destruct (A F) as [Y|[Y _]]; [|discriminate].
        destruct (I4 u Y) as [v Hv]. exists v. apply in_app_iff. auto.
      * intros u ac v Hi. apply in_app_iff. left. apply in_app_iff in Hi as [Hi|[Hi|[]]]; [eauto|].
        injection Hi as <- _ <-. destruct (I4 t D0) as [v Hv]. destruct (I3 _ _ Hv) as [-> _]. exact Hv.
Qed.

Lemma prun_prefix e c a b s : prun e c (a ++ b) s -> exists s', prun e c a s'.
Proof.
  revert s. induction b as [|x b IH] using rev_ind; intros s H; [rewrite app_nil_r in H; eauto|].
  rewrite app_assoc in H. inversion H; subst; [destruct (a ++ b); discriminate|].
  apply app_inj_tail in H0 as [-> _]. eauto.
Qed.
Lemma life_labels e c tr s : prun e c tr s -> forall l, In (PLife l) tr -> life_only (snd l) = true.
Proof.
  induction 1 as [|tr s x s' _ IH St]; [intros l []|]. intros l Hi. apply in_app_iff in Hi as [Hi|[->|[]]]; [auto|].
  inversion St; subst. cbn. assumption.
Qed.
Lemma did_return e c tr s j v : prun e c tr s -> did (lifes tr) j (EReturn v) -> exists acc, In (PDone j acc v) tr.
Proof.
  intros R (acc & Hi). exists acc. unfold lifes in Hi. apply in_flat_map in Hi as (x & Hx & Hl).
  destruct x; cbn in Hl; try contradiction; destruct Hl as [E|[]]; try discriminate.
  - subst l. pose proof (life_labels _ _ _ _ R _ Hx) as X. discriminate X.
  - injection E as -> -> ->. exact Hx.
Qed.
Lemma fns_in c e tr s t x : prun e c tr s -> (forall u, x <> Spawn u) -> x <> ThreadDone -> x <> Ret WThread ->
  (In (t, x) (exits tr) <-> In (PFns t x) tr).
Proof.
  intros _ N1 N2 N3. unfold exits. rewrite in_flat_map. split.
  - intros (y & Hy & Hl). destruct y; cbn in Hl; try contradiction; destruct Hl as [E|[]]; injection E as -> <-; auto; try congruence.
  - intros H. exists (PFns t x). split; [exact H|left; reflexivity].
Qed.
Lemma done_all_returned e c tr s t acc v f : prun e c tr s -> In (PDone t acc v) tr -> In (PFns t (RegT f)) tr ->
  In (PFns t (CallT f)) tr /\ In (PFns t (Ret (WT f))) tr.
Proof.
  intros R Hd Hr. pose proof (fun x => fns_in c e tr s t x R) as FI.
  apply FI in Hr; try (intros; discriminate). rewrite <- !FI by (intros; discriminate). clear FI.
  apply in_split in Hd as (a & b & ->). destruct (proj _ _ _ _ R) as [_ X].
  assert (E : exits (a ++ PDone t acc v :: b) = exits a ++ (t, ThreadDone) :: exits b).
  { unfold exits. rewrite flat_map_app. reflexivity. }
  rewrite E in *. destruct (prun_prefix e c (a ++ [PDone t acc v]) b s) as [s' R']; [rewrite <- app_assoc; exact R|].
  destruct (proj _ _ _ _ R') as [_ X']. rewrite exits_snoc in X'. cbn [fns_of] in X'.
  assert (Ha : In (t, RegT f) (exits a)).
  { apply in_app_iff in Hr as [Hr|[Hr|Hr]]; [exact Hr|discriminate|]. apply DtorsFacts.own_in in Hr. rewrite (C34_nothing_after _ _ _ _ _ X) in Hr. destruct Hr. }
  destruct (C34_all_before_exit _ _ _ _ X' f Ha). rewrite !in_app_iff. auto.
Qed.

(** In the record-level life cycle: a thread past its function has a result. *)
Lemma late_fin cc tr s : 0 < c_page cc -> c_reuse cc = false -> run cc tr s ->
  forall j, (j < n s)%nat -> upc (P s j) = false -> t_fin (T s j) <> None.
Proof.
  intros Hp Hr. revert tr s.
  apply (run_ind' cc (fun _ s => forall j, (j < n s)%nat -> upc (P s j) = false -> t_fin (T s j) <> None)); auto.
  - intros s (tid & sk & g & ta & b & len & _ & _ & ->). cbn. intros j L U. destruct j; [discriminate U|lia].
  - intros tr s l s' _ I I' IH St j.
    assert (OUT : forall j, P s j <> Dead -> (j < n s)%nat) by (intros; eapply actor_lt; eauto).
    destruct St; unf; unfold munmap; cbn [n T]; fu1; intros L U; auto; try discriminate U; try discriminate;
      try match goal with H : t_pc (T s ?x) = _ |- t_fin (T s ?x) <> None => apply IH; [apply OUT; congruence|rewrite H; reflexivity] end;
      try (apply IH; auto; lia).
Qed.

(** * C62 *)
Section props.
  Variables (e : benv) (c : dcfg).
  Local Notation a := (be_arch e). Local Notation td := (be_td e).

  (** A whole program's life-cycle history is one of C56, its exit-function
      history one of C34-C38, of the same threads. *)
  Theorem C62_parts : forall tr s, prun e c tr s ->
    brun e (lifes tr) (life s) /\ DtorsModel.exec c (exits tr) (fns s) /\ bn (life s) = nthr (fns s).
  Proof. intros tr s R. destruct (proj _ _ _ _ R). split; [auto|split; [auto|]]. exact (pi_n _ _ (prun_inv _ _ _ _ R)). Qed.

  (** When join(j) returns: the value is the one j's function returned, and every
      function j ever registered has been called on j and has returned. *)
  Theorem C62_join_partial : forall tr i acc j rv s, good_env e -> prun e c (tr ++ [PLife (i, acc, EJoin j rv)]) s ->
    (forall v, In (PReturns j v) tr <-> v = rv) /\
    (forall f, In (PFns j (RegT f)) tr -> In (PFns j (CallT f)) tr /\ In (PFns j (Ret (WT f))) tr) /\
    (exists acc', In (PDone j acc' rv) tr) /\ frames (fns s) j = [].
  Proof.
    intros tr i acc j rv s G R. destruct (proj _ _ _ _ R) as [RB RD]. rewrite lifes_snoc in RB.
    destruct (C56_join_partial e _ _ _ _ _ _ G RB) as [V F].
    destruct (prun_prefix _ _ _ _ _ R) as [s' R']. pose proof (prun_inv _ _ _ _ R') as PI. pose proof (prun_inv _ _ _ _ R) as PI2.
    destruct (did_return _ _ _ _ j rv R') as [acc' D]; [apply V; reflexivity|].
    pose proof (pi_done _ _ PI _ _ _ D) as Pr. split; [|split; [|split]].
    - intros v. split; [|intros ->; exact Pr]. intros X. destruct (pi_ret _ _ PI _ _ X) as [-> _]. destruct (pi_ret _ _ PI _ _ Pr) as [-> _]. reflexivity.
    - intros f Hf. eapply done_all_returned; eauto.
    - eauto.
    - destruct (frames (fns s) j) eqn:E; [reflexivity|]. exfalso. assert (U : upc (t_pc (bT (life s) j)) = true) by (apply (pi_upc _ _ PI2); congruence).
      destruct F as [F|[x F]]; rewrite F in U; discriminate.
  Qed.

  (** While any of a thread's code runs or waits to be resumed (its function, its
      exit functions, calls inside them), its mapping exists, current() is its
      handle and current_id() its kernel tid. *)
  Theorem C62_alive_partial : forall tr s t, good_env e -> prun e c tr s -> frames (fns s) t <> [] ->
    bmapped (life s) t /\ ~ bfinished (life s) t /\
    current a td (bmem (life s)) (i_tp (bI (life s) t)) = i_t (bI (life s) t) /\
    id_of td (bmem (life s)) (i_t (bI (life s) t)) = t_tid (bT (life s) t) /\ 0 < t_tid (bT (life s) t).
  Proof.
    intros tr s t G R F. destruct (proj _ _ _ _ R) as [RB RD]. pose proof (prun_inv _ _ _ _ R) as PI.
    pose proof (pi_upc _ _ PI t F) as U.
    assert (L : (t < bn (life s))%nat).
    { destruct (le_lt_dec (nthr (fns s)) t) as [X|X]; [|rewrite (pi_n _ _ PI); lia].
      destruct (i_new _ _ _ (exec_inv _ _ _ RD) t X) as [Y _]. contradiction. }
    assert (M : bmapped (life s) t).
    { pose proof (page_pos _ G) as Hp. destruct (G) as [W Hr]. destruct (brun_sim e W Hr _ _ RB) as (ss & Rs & Rl).
      pose proof (run_inv _ _ _ Hp Hr Rs) as Iv. split; [exact L|]. destruct (rl_geo _ _ _ Rl t) as (_ & _ & <-).
      eapply user_mapped; eauto; [rewrite (rl_n _ _ _ Rl); exact L| |]; rewrite (rl_T _ _ _ Rl t);
        destruct (t_pc (bT (life s) t)); try discriminate U; reflexivity. }
    assert (NF : ~ bfinished (life s) t).
    { intros [X|[x X]]; rewrite X in U; discriminate. }
    destruct (C56_record_partial e _ _ t G RB M) as (A & B & _). destruct (B NF). auto 6.
  Qed.

  (** A thread's stack and thread-local memory are given back only when its
      function has returned, and every function it registered has been called and
      has returned; nothing of it is left to run. *)
  Theorem C62_unmapped_partial : forall tr s j, good_env e -> prun e c tr s -> (j < bn (life s))%nat -> ~ bmapped (life s) j ->
    (exists v, In (PReturns j v) tr) /\
    (forall f, In (PFns j (RegT f)) tr -> In (PFns j (CallT f)) tr /\ In (PFns j (Ret (WT f))) tr) /\
    frames (fns s) j = [].
  Proof.
    intros tr s j G R L NM. destruct (proj _ _ _ _ R) as [RB RD]. pose proof (prun_inv _ _ _ _ R) as PI.
    assert (FR : frames (fns s) j = []).
    { destruct (frames (fns s) j) eqn:E; [reflexivity|]. exfalso. apply NM. apply (C62_alive_partial tr s j G R). congruence. }
    pose proof (page_pos _ G) as Hp. destruct (G) as [W Hr]. destruct (brun_sim e W Hr _ _ RB) as (ss & Rs & Rl).
    pose proof (run_inv _ _ _ Hp Hr Rs) as Iv.
    assert (Ls : (j < n ss)%nat) by (rewrite (rl_n _ _ _ Rl); exact L).
    assert (Ms : r_mapped (ThreadModel.R ss j) = false).
    { destruct (rl_geo _ _ _ Rl j) as (_ & _ & E). rewrite E. destruct (i_mapd (bI (life s) j)) eqn:X; [|reflexivity]. edestruct NM. split; auto. }
    assert (U : upc (P ss j) = false).
    { destruct (i_mapped _ _ Iv j Ls Ms) as [X|[_ X]]; destruct (P ss j); try discriminate X; reflexivity. }
    destruct (fin_history _ _ _ Hp Hr Rs) as (_ & _ & F3).
    destruct (t_fin (T ss j)) as [v|] eqn:FN; [|edestruct (late_fin _ _ _ Hp Hr Rs j Ls U); exact FN].
    apply F3 in FN. destruct (did_return _ _ _ _ _ _ R FN) as [acc D]. pose proof (pi_done _ _ PI _ _ _ D).
    split; [eauto|]. split; [|exact FR]. intros f Hf. eapply done_all_returned; eauto.
  Qed.

  (** After the process has ended, nothing happens. *)
  Theorem C62_end : forall tr s x s', prun e c tr s -> term (fns s) <> None -> ~ pstep e c s x s'.
  Proof.
    intros tr s x s' R T St. destruct St; try contradiction;
      match goal with H : dstep _ _ _ _ = Some _ |- _ => pose proof (e_alive _ _ _ _ _ (dstep_effect _ _ _ _ _ _ H)); contradiction end.
  Qed.
End props.

(** * A concrete program *)
(** Main creates thread 1 and asks for its id; thread 1 registers function 0,
    registers function 1, returns 77; functions 1 and 0 are called; it exits
    while main sleeps in join; main gets 77 and returns 5 from its own main; the
    exit path runs the two .fini_array functions; the process ends with 5. *)
Definition dnext (c : dcfg) (d : dst) (t : nat) (a : action) : dst :=
  match dstep c d t a with Some (_, d') => d' | None => d end.
Definition devent (c : dcfg) (d : dst) (t : nat) (a : action) : DtorsModel.event :=
  match dstep c d t a with Some (x, _) => x | None => Nop end.
Definition dcan (c : dcfg) (d : dst) (t : nat) (a : action) : bool :=
  match dstep c d t a with Some _ => true | None => false end.
Lemma dnext_ok c d t a x : dcan c d t a = true -> devent c d t a = x -> dstep c d t a = Some (x, dnext c d t a).
Proof. unfold dcan, devent, dnext. destruct (dstep c d t a) as [[y d']|]; [intros _ ->; reflexivity|discriminate]. Qed.

Fixpoint dplay (c : dcfg) (d : dst) (l : list (nat * action)) : dst :=
  match l with [] => d | (t, a) :: l' => dplay c (dnext c d t a) l' end.
Fixpoint dtrace (c : dcfg) (d : dst) (l : list (nat * action)) : list pevent :=
  match l with [] => [] | (t, a) :: l' => PFns t (devent c d t a) :: dtrace c (dnext c d t a) l' end.
Fixpoint dplays (c : dcfg) (d : dst) (r : nat -> bool) (l : list (nat * action)) : bool :=
  match l with
  | [] => true
  | (t, a) :: l' => dcan c d t a && fns_only (devent c d t a) && r t && dplays c (dnext c d t a) r l' end.
Lemma play_fns e c b v l : forall tr d,
  prun e c tr (PSt b d v) -> dplays c d (fun t => match t_pc (bT b t) with Run => true | _ => false end) l = true ->
  prun e c (tr ++ dtrace c d l) (PSt b (dplay c d l) v).
Proof.
  induction l as [|[t a] l IH]; intros tr d R H; cbn [dtrace dplay]; [rewrite app_nil_r; exact R|].
  cbn [dplays] in H. apply andb_prop in H as [H H4]. apply andb_prop in H as [H H3]. apply andb_prop in H as [H1 H2].
  change (PFns t (devent c d t a) :: dtrace c (dnext c d t a) l) with ([PFns t (devent c d t a)] ++ dtrace c (dnext c d t a) l).
  rewrite app_assoc. apply IH; [|exact H4]. econstructor; [exact R|]. refine (p_fns e c (PSt b d v) t a (devent c d t a) (dnext c d t a) _ H2 _).
  - apply dnext_ok; auto.
  - cbn [life]. destruct (t_pc (bT b t)); try discriminate; reflexivity.
Qed.

Definition ex_c1 : list (nat * action) := [(1, ARegT); (1, ARegT)]%nat.
Definition ex_c2 : list (nat * action) := [(1, AGo); (1, ARet 0); (1, AGo); (1, ARet 0)]%nat.
Definition ex_c3 : list (nat * action) := [(0, ARet 5); (0, AGo); (0, AGo); (0, AGo); (0, AGo); (0, ARet 0); (0, AGo); (0, ARet 0); (0, AGo)]%nat.
Definition ex_d1 := dnext all_on dinit 0 ASpawn.
Definition ex_d2 := dplay all_on ex_d1 ex_c1.
Definition ex_d3 := dnext all_on ex_d2 1 (ARet 0).
Definition ex_d4 := dplay all_on ex_d3 ex_c2.
Definition ex_d5 := dnext all_on ex_d4 1 AGo.
Definition ex_d6 := dplay all_on ex_d5 ex_c3.
Definition ex_v0 : nat -> Z := fun _ => 0.
Definition ex_v1 := fupd ex_v0 1 77.
Definition ex_ptr1 : list pevent := [
  PCreate 0 [0%nat] 1; PUser; PLife (0%nat, [0%nat; 1%nat], EId 1 77); PFns 1 (RegT 0%nat); PFns 1 (RegT 1%nat); PReturns 1 77;
  PFns 1 (CallT 1%nat); PFns 1 (Ret (WT 1%nat)); PFns 1 (CallT 0%nat); PFns 1 (Ret (WT 0%nat)); PDone 1 [1%nat] 77;
  PLife (1%nat, [1%nat], ENone); PLife (1%nat, [1%nat], ENone); PLife (1%nat, [1%nat], EExit);
  PLife (0%nat, [0%nat], ECallJoin 1); PLife (0%nat, [0%nat; 1%nat], ENone); PLife (0%nat, [0%nat; 1%nat], ENone);
  PLife (1%nat, [1%nat], EKernelClear); PLife (1%nat, [], ENone); PLife (0%nat, [0%nat; 1%nat], ENone); PLife (0%nat, [0%nat; 1%nat], EMunmap 0x700000 108312)].
Definition ex_ptr2 : list pevent := [
  PFns 0 (ExitCall 5); PFns 0 Nop; PFns 0 Lock; PFns 0 Empty; PFns 0 (CallF 1%nat); PFns 0 (Ret (WF 1%nat)); PFns 0 (CallF 0%nat); PFns 0 (Ret (WF 0%nat));
  PFns 0 (Term (Exited 5))].

Lemma life_step e c tr b d v acc i ins x b' : prun e c tr (PSt b d v) -> bstep e b acc (Some (i, ins, x)) b' ->
  term d = None -> life_only x = true -> (api_call x = true -> in_user d i) ->
  prun e c (tr ++ [PLife (i, ins, x)]) (PSt b' d v).
Proof. intros R St T O A. econstructor; [exact R|]. exact (p_life e c (PSt b d v) acc i ins x b' T St O A). Qed.
Ltac nu := let X := fresh in intros X; discriminate X.
Ltac lf H s := exact (life_step _ _ _ _ _ _ _ _ _ _ _ H s ltac:(vr) ltac:(vr) ltac:(nu)).

Lemma ex_prun1 : prun ex_e all_on (ex_ptr1 ++ [PLife (0%nat, [0%nat], EJoin 1 77)]) (PSt ex_b14 ex_d5 ex_v1).
Proof.
  pose proof (pr_init ex_e all_on ex_b0 ex_start) as H. fold ex_v0 in H.
  pose proof (pr_step _ _ _ _ _ _ H (p_create ex_e all_on (PSt ex_b0 dinit ex_v0) _ _ _ _ _ ex_d1 ex_step1 (dnext_ok all_on dinit 0 ASpawn (Spawn 1) ltac:(vr) ltac:(vr)))) as H1.
  pose proof (pr_step _ _ _ _ _ _ H1 (p_user ex_e all_on (PSt ex_b1 ex_d1 ex_v0) _ _ ltac:(vr) ex_step2)) as H2.
  assert (U0 : api_call (EId 1 77) = true -> in_user ex_d1 0) by (intros _; do 2 eexists; vr).
  pose proof (life_step ex_e all_on _ ex_b2 ex_d1 ex_v0 _ (0%nat) _ (EId 1 77) _ H2 (b_id ex_e ex_b2 0 1 ltac:(cbn; lia) ltac:(vr) ltac:(cbn; lia) ltac:(vr)) ltac:(vr) ltac:(vr) U0) as H2'.
  pose proof (play_fns ex_e all_on ex_b2 ex_v0 ex_c1 _ ex_d1 H2' ltac:(vr)) as H2a.
  pose proof (pr_step _ _ _ _ _ _ H2a (p_returns ex_e all_on (PSt ex_b2 ex_d2 ex_v0) 1 77 ex_d3 (dnext_ok all_on ex_d2 1 (ARet 0) (Ret WThread) ltac:(vr) ltac:(vr)) ltac:(vr) ltac:(unfold usize; cbn; lia))) as H2b.
  pose proof (play_fns ex_e all_on ex_b2 ex_v1 ex_c2 _ ex_d3 H2b ltac:(vr)) as H2c. clear H H1 H2 H2' H2a H2b U0.
  pose proof (pr_step _ _ _ _ _ _ H2c (p_done ex_e all_on (PSt ex_b2 ex_d4 ex_v1) [] 1 [1%nat] ex_b3 ex_d5 (dnext_ok all_on ex_d4 1 AGo ThreadDone ltac:(vr) ltac:(vr))
     (b_return ex_e ex_b2 1 77 ltac:(lia) ltac:(cbn; lia) ltac:(vr) ltac:(unfold usize; cbn; lia)))) as H3. clear H2c.
  pose proof (life_step ex_e all_on _ ex_b3 ex_d5 ex_v1 _ (1%nat) _ (ENone) ex_b4 H3 (b_cas ex_e ex_b3 1 77 ltac:(vr) ltac:(vr)) ltac:(vr) ltac:(vr) ltac:(nu)) as H4. clear H3.
  pose proof (life_step ex_e all_on _ ex_b4 ex_d5 ex_v1 _ (1%nat) _ (ENone) ex_b5 H4 (b_store ex_e ex_b4 1 77 ltac:(vr)) ltac:(vr) ltac:(vr) ltac:(nu)) as H5. clear H4.
  pose proof (life_step ex_e all_on _ ex_b5 ex_d5 ex_v1 _ (1%nat) _ (EExit) ex_b6 H5 (b_exit ex_e ex_b5 1 ltac:(vr)) ltac:(vr) ltac:(vr) ltac:(nu)) as H6. clear H5.
  assert (U1 : api_call (ECallJoin 1) = true -> in_user ex_d5 0) by (intros _; do 2 eexists; vr).
  pose proof (life_step ex_e all_on _ ex_b6 ex_d5 ex_v1 _ (0%nat) _ (ECallJoin 1) ex_b7 H6 (b_join ex_e ex_b6 0 1 ltac:(cbn; lia) ltac:(vr) ltac:(cbn; lia) ltac:(vr)) ltac:(vr) ltac:(vr) U1) as H7. clear H6.
  pose proof (life_step ex_e all_on _ ex_b7 ex_d5 ex_v1 _ (0%nat) _ (ENone) ex_b8 H7 (b_load ex_e ex_b7 0 KJoin 1 ltac:(vr) ltac:(vm_compute; discriminate)) ltac:(vr) ltac:(vr) ltac:(nu)) as H8. clear H7.
  pose proof (life_step ex_e all_on _ ex_b8 ex_d5 ex_v1 _ (0%nat) _ (ENone) ex_b9 H8 (b_futex_sleep ex_e ex_b8 0 KJoin 1 77 ltac:(vr) ltac:(vr)) ltac:(vr) ltac:(vr) ltac:(nu)) as H9. clear H8.
  pose proof (life_step ex_e all_on _ ex_b9 ex_d5 ex_v1 _ (1%nat) _ (EKernelClear) ex_b10 H9 (b_kclear ex_e ex_b9 1 ltac:(vr) ltac:(vr)) ltac:(vr) ltac:(vr) ltac:(nu)) as H10. clear H9.
  pose proof (life_step ex_e all_on _ ex_b10 ex_d5 ex_v1 _ (1%nat) _ (ENone) ex_b11 H10 (b_kwake ex_e ex_b10 1 0 KJoin 1 (i_ctid (bI ex_b9 1%nat)) ltac:(vr) ltac:(vr) ltac:(vr)) ltac:(vr) ltac:(vr) ltac:(nu)) as H11. clear H10.
  pose proof (life_step ex_e all_on _ ex_b11 ex_d5 ex_v1 _ (0%nat) _ (ENone) ex_b12 H11 (b_join_load ex_e ex_b11 0 1 ltac:(vr) ltac:(left; vr)) ltac:(vr) ltac:(vr) ltac:(nu)) as H12. clear H11.
  pose proof (life_step ex_e all_on _ ex_b12 ex_d5 ex_v1 _ (0%nat) _ (EMunmap 0x700000 108312) ex_b13 H12 (b_free ex_e ex_b12 0 KJoin 1 77 _ ltac:(vr) eq_refl ltac:(vm_compute; discriminate) ltac:(vr)) ltac:(vr) ltac:(vr) ltac:(nu)) as H13. clear H12.
  pose proof (life_step ex_e all_on _ ex_b13 ex_d5 ex_v1 _ (0%nat) _ (EJoin 1 77) ex_b14 H13 (b_ret_join ex_e ex_b13 0 1 77 ltac:(vr)) ltac:(vr) ltac:(vr) ltac:(nu)) as H14. clear H13.
  match type of H14 with prun _ _ ?tr _ => assert (E : tr = ex_ptr1 ++ [PLife (0%nat, [0%nat], EJoin 1 77)]) by vr end. rewrite <- E. exact H14.
Qed.

Theorem C62_ex : good_env ex_e /\
  prun ex_e all_on (ex_ptr1 ++ [PLife (0%nat, [0%nat], EJoin 1 77)]) (PSt ex_b14 ex_d5 ex_v1) /\
  prun ex_e all_on ((ex_ptr1 ++ [PLife (0%nat, [0%nat], EJoin 1 77)]) ++ ex_ptr2) (PSt ex_b14 ex_d6 ex_v1) /\
  frames ex_d5 0 <> [] /\ (1 < bn ex_b14)%nat /\ ~ bmapped ex_b14 1 /\ In (PFns 1 (RegT 0%nat)) ex_ptr1 /\
  term ex_d6 = Some (Exited 5).
Proof.
  split; [apply ex_env|]. split; [apply ex_prun1|]. split; [|split; [|split; [|split; [|split]]]].
  - pose proof (play_fns ex_e all_on ex_b14 ex_v1 ex_c3 _ ex_d5 ex_prun1 ltac:(vr)) as H.
    assert (E : dtrace all_on ex_d5 ex_c3 = ex_ptr2) by vr. rewrite E in H. exact H.
  - vm_compute. discriminate.
  - change (bn ex_b14) with 2%nat. lia.
  - intros [_ X]. revert X. vm_compute. discriminate.
  - unfold ex_ptr1. cbn [In]. tauto.
  - vr.
Qed.
Print Assumptions C62_parts. Print Assumptions C62_join_partial. Print Assumptions C62_alive_partial.
Print Assumptions C62_unmapped_partial. Print Assumptions C62_end. Print Assumptions C62_ex.
