(** C68 on bytes: on every fair schedule, and whatever user code writes into
    memory that is its own, a thread whose function returned goes away, every
    detach returns, every join of a thread whose function returns, returns that
    value, and the mapping of a joined or detached thread disappears. *)
From Coq Require Import ZArith List Bool Lia Arith.
From Verif Require Import Machine LayoutModel LayoutSpec Props_Layout ThreadModel ThreadInv ThreadPres ThreadPres4 ThreadSpec ThreadTop ThreadTop2 ThreadPhase FairSpec FairCore.
From Verif Require Import ByteModel ByteSpec ByteProofs ByteSim BytePhase Props_Byte Props_BytePhase ByteFairSpec.
Import ListNotations.
Open Scope Z_scope.

Section Fair.
Variables (e : benv) (bi : nat -> bst) (la : nat -> option label).
Hypothesis W : good_env e.
Hypothesis F : bfair e bi la.
Let c := be_cfg e.

(** FairCore.v has the argument; the thread states of moment [k] are those that
    describe the memory of moment [k]. *)
Lemma bq0 : exists s, initial s /\ rel e (bi 0%nat) s.
Proof. destruct W as [W1 W2]. apply (bstarts_rel e W1 W2). apply (bf_start _ _ _ F). Qed.
Lemma bq1 k s : rel e (bi k) s -> inv c s ->
  match la k with Some l => exists s', step c s l s' /\ rel e (bi (S k)) s' | None => rel e (bi (S k)) s end.
Proof.
  intros Rl Iv. destruct W as [W1 W2]. destruct (bf_step _ _ _ F k) as [(-> & ->)|(acc & St)]; [exact Rl|].
  destruct (bsim e W1 W2 _ _ _ _ _ Rl Iv St) as [_ X]. exact X.
Qed.
Lemma bq2 k s : rel e (bi k) s -> (forall i, t_pc (T s i) = t_pc (bT (bi k) i)) /\ n s = bn (bi k) /\ (forall i, bmapped (bi k) i -> mapped s i).
Proof.
  intros Rl. split; [intros i; now rewrite (rl_T _ _ _ Rl)|]. split; [apply (rl_n _ _ _ Rl)|].
  intros i (L & M). unfold mapped. destruct (rl_geo _ _ _ Rl i) as (_ & _ & ->). auto.
Qed.
Lemma bq3 i k : exists k', (k <= k')%nat /\ (moves la i k' \/ idlep (t_pc (bT (bi k') i))).
Proof. destruct (bf_fair _ _ _ F i k) as (k' & L & D). exists k'. split; [exact L|exact D]. Qed.

Let Hp : 0 < c_page c := page_pos e W.
Let Hr : c_reuse c = false := proj2 W.

Theorem C68_byte_exit_partial : forall k j v, at_step la k j (EReturn v) ->
  exists k', (k < k')%nat /\ forall k'', (k' <= k'')%nat -> bexited (bi k'') j.
Proof. exact (core_exit c (fun k => rel e (bi k)) (fun k i => t_pc (bT (bi k) i)) (fun k => bn (bi k)) (fun k => bmapped (bi k)) la Hp Hr bq0 bq1 bq2 bq3). Qed.

Hypothesis G : forall k, bguards_ok e (bi k).
Lemma bq4 k s : rel e (bi k) s -> guards_ok c s.
Proof. intros Rl. eapply guards_of; eauto. Qed.

Theorem C68_byte_join_partial : forall k1 k2 i j v, at_step la k1 i (ECallJoin j) -> at_step la k2 j (EReturn v) ->
  exists k3, (k1 < k3)%nat /\ at_step la k3 i (EJoin j v).
Proof. exact (core_join c (fun k => rel e (bi k)) (fun k i => t_pc (bT (bi k) i)) (fun k => bn (bi k)) (fun k => bmapped (bi k)) la Hp Hr bq0 bq1 bq2 bq3 bq4). Qed.

Theorem C68_byte_detach_partial : forall k i j, at_step la k i (ECallDetach j) ->
  exists k', (k < k')%nat /\ at_step la k' i (EDetach j).
Proof. exact (core_detach c (fun k => rel e (bi k)) (fun k i => t_pc (bT (bi k) i)) (fun k => bn (bi k)) (fun k => bmapped (bi k)) la Hp Hr bq0 bq1 bq2 bq3 bq4). Qed.

Theorem C68_byte_freed_partial : forall k1 k2 i j v, at_step la k1 i (ECallJoin j) \/ at_step la k1 i (ECallDetach j) ->
  at_step la k2 j (EReturn v) ->
  exists k3, forall k, (k3 <= k)%nat -> bexited (bi k) j /\ ~ bmapped (bi k) j.
Proof. exact (core_freed c (fun k => rel e (bi k)) (fun k i => t_pc (bT (bi k) i)) (fun k => bn (bi k)) (fun k => bmapped (bi k)) la Hp Hr bq0 bq1 bq2 bq3 bq4). Qed.
End Fair.
Print Assumptions C68_byte_exit_partial.
Print Assumptions C68_byte_join_partial.
Print Assumptions C68_byte_detach_partial.
Print Assumptions C68_byte_freed_partial.

(** Any kernel, for programs that create no thread after one thread reclaimed
    another's memory. *)
Lemma bfair_run e bi la k : bfair e bi la -> brun e (upto la k) (bi k).
Proof.
  intros F. induction k as [|k (b0 & H0 & E)]; [exists (bi 0%nat); split; [apply (bf_start _ _ _ F)|constructor]|].
  exists b0. split; [exact H0|]. cbn [upto]. destruct (bf_step _ _ _ F k) as [(-> & ->)|(acc & St)]; [now rewrite app_nil_r|].
  eapply (bexec_snoc e b0 (upto la k) (bi k) acc (la k)); eauto.
Qed.
Lemma bfair_careful e bi la : any_env e -> bfair e bi la -> (forall k, creates_first (upto la k)) -> bfair (bcareful e) bi la.
Proof.
  intros W F Cf. constructor; [apply (bf_start _ _ _ F)| |apply (bf_fair _ _ _ F)].
  intros k. destruct (bf_step _ _ _ F k) as [X|(acc & St)]; [left; exact X|right]. exists acc.
  eapply (bcareful_next e (upto la k)); eauto; [apply bfair_run; auto|]. exact (Cf (S k)).
Qed.

Theorem C68_byte_any_kernel : forall e bi la, any_env e -> bfair e bi la ->
  (forall k, creates_first (upto la k)) -> (forall k, bguards_ok e (bi k)) ->
  (forall k j v, at_step la k j (EReturn v) -> exists k', (k < k')%nat /\ forall k'', (k' <= k'')%nat -> bexited (bi k'') j) /\
  (forall k1 k2 i j v, at_step la k1 i (ECallJoin j) -> at_step la k2 j (EReturn v) ->
     exists k3, (k1 < k3)%nat /\ at_step la k3 i (EJoin j v)) /\
  (forall k i j, at_step la k i (ECallDetach j) -> exists k', (k < k')%nat /\ at_step la k' i (EDetach j)) /\
  (forall k1 k2 i j v, at_step la k1 i (ECallJoin j) \/ at_step la k1 i (ECallDetach j) -> at_step la k2 j (EReturn v) ->
     exists k3, forall k, (k3 <= k)%nat -> bexited (bi k) j /\ ~ bmapped (bi k) j).
Proof.
  intros e bi la W F Cf G. pose proof (bfair_careful e bi la W F Cf) as F'. pose proof (any_good e W) as W'.
  split; [|split; [|split]].
  - exact (C68_byte_exit_partial (bcareful e) bi la W' F').
  - exact (C68_byte_join_partial (bcareful e) bi la W' F' G).
  - exact (C68_byte_detach_partial (bcareful e) bi la W' F' G).
  - exact (C68_byte_freed_partial (bcareful e) bi la W' F' G).
Qed.
Print Assumptions C68_byte_any_kernel.

(** Fairness demands nothing impossible: a thread that is not idle can move,
    whatever is in memory. *)
Theorem C68_byte_never_stuck : forall e b i,
  bidle b i \/ exists acc a ev b', ev <> ESignal /\ bstep e b acc (Some (i, a, ev)) b'.
Proof.
  intros e b i. unfold bidle.
  destruct (t_pc (bT b i)) as [|k j|k j v|k j|k j|k j rv|k j rv|j|rv|rv| | | | | | |a| |] eqn:E; auto; right.
  - destruct (Z.eq_dec (ld_tid e (bmem b) (i_t (bI b j))) 0); do 4 eexists; (split; [|first [eapply b_load0; eauto; fail|eapply b_load; eauto; fail]]); discriminate.
  - do 4 eexists; (split; [|eapply b_futex_intr; eauto]); discriminate.
  - destruct k; [|do 4 eexists; (split; [|eapply b_detach_done; eauto]); discriminate].
    destruct (Z.eq_dec (ld_det e (bmem b) (i_t (bI b j))) ABANDONED); [do 4 eexists; (split; [|eapply b_join_load; eauto]); discriminate|].
    destruct (c_debug (be_cfg e)) eqn:DB; do 4 eexists; (split; [|first [eapply b_join_assert; eauto; fail|eapply b_join_load; eauto; fail]]); discriminate.
  - destruct (Z.eq_dec (snd (unmap_request e (bmem b) (i_t (bI b j)))) 0); [do 4 eexists; (split; [|eapply b_free_none; eauto]); discriminate|].
    destruct (bmunmap_ok (c_page (be_cfg e)) (unmap_request e (bmem b) (i_t (bI b j)))) eqn:M;
      do 4 eexists; (split; [|first [eapply b_free; eauto; fail|eapply b_free_einval; eauto; fail]]); discriminate.
  - destruct k; do 4 eexists; (split; [|first [eapply b_ret_join; eauto; fail|eapply b_ret_detach; eauto; fail]]); discriminate.
  - destruct (Z.eq_dec (ld_det e (bmem b) (i_t (bI b j))) ABANDONED); do 4 eexists; (split; [|first [eapply b_swap; eauto; fail|eapply b_swap_running; eauto; fail]]); discriminate.
  - destruct (Z.eq_dec (ld_det e (bmem b) (own e b i)) INITIAL); [do 4 eexists; (split; [|eapply b_cas; eauto]); discriminate|].
    assert (D : (ld_det e (bmem b) (own e b i) <> DETACHED /\ c_debug (be_cfg e) = true) \/ (ld_det e (bmem b) (own e b i) = DETACHED \/ c_debug (be_cfg e) = false)).
    { destruct (Z.eq_dec (ld_det e (bmem b) (own e b i)) DETACHED); [auto|]. destruct (c_debug (be_cfg e)); auto. }
    destruct D as [(D1 & D2)|D]; [do 4 eexists; (split; [|eapply b_cas_assert; eauto]); discriminate|].
    destruct (Z.eq_dec (snd (unmap_request e (bmem b) (own e b i))) 0); do 4 eexists; (split; [|first [eapply b_cas_nomap; eauto; fail|eapply b_cas_detached; eauto; fail]]); discriminate.
  - do 4 eexists; (split; [|eapply b_store; eauto]); discriminate.
  - do 4 eexists; (split; [|eapply b_exit; eauto]); discriminate.
  - do 4 eexists; (split; [|eapply b_dx_settid; eauto]); discriminate.
  - destruct (c_sig (be_cfg e)) eqn:Sg; do 4 eexists; (split; [|first [eapply b_dx_block; eauto; fail|eapply b_dx_noblock; eauto; fail]]); discriminate.
  - destruct (bmunmap_ok (c_page (be_cfg e)) (i_loc (bI b i))) eqn:M; do 4 eexists; (split; [|first [eapply b_dx_munmap; eauto; fail|eapply b_dx_munmap_einval; eauto; fail]]); discriminate.
  - do 4 eexists; (split; [|eapply b_dx_exit; eauto]); discriminate.
  - destruct (t_clear (bT b i)) eqn:Cl; do 4 eexists; (split; [|first [eapply b_kclear; eauto; fail|eapply b_kclear_null; eauto; fail]]); discriminate.
  - assert (D : forall m, (exists w k j, (w < m)%nat /\ t_pc (bT b w) = JSleep k j /\ i_t (bI b j) + o_tid (be_td e) = a) \/
      (forall w k j, (w < m)%nat -> t_pc (bT b w) = JSleep k j -> i_t (bI b j) + o_tid (be_td e) <> a)).
    { induction m as [|m [(w & k & j & L & X)|IH]]; [right; intros; lia|left; exists w, k, j; split; [lia|auto]|].
      assert (O : (exists k j, t_pc (bT b m) = JSleep k j /\ i_t (bI b j) + o_tid (be_td e) = a) \/ ~ (exists k j, t_pc (bT b m) = JSleep k j /\ i_t (bI b j) + o_tid (be_td e) = a)).
      { destruct (t_pc (bT b m)) as [| | |k j| | | | | | | | | | | | | | |] eqn:Em; try (right; intros (? & ? & ? & _); discriminate).
        destruct (Z.eq_dec (i_t (bI b j) + o_tid (be_td e)) a); [left; eauto|right; intros (k' & j' & X & Y); injection X as -> ->; contradiction]. }
      destruct O as [(k & j & X & Y)|O]; [left; exists m, k, j; split; [lia|auto]|].
      right. intros w k j L X Y. destruct (Nat.eq_dec w m) as [->|]; [apply O; eauto|]. eapply (IH w); eauto. lia. }
    destruct (D (bn b)) as [(w & k & j & L & X & Y)|X].
    + do 4 eexists; (split; [|eapply b_kwake; eauto]); discriminate.
    + do 4 eexists; (split; [|eapply b_kwake_none; eauto]); discriminate.
Qed.
Print Assumptions C68_byte_never_stuck.

(** ** The hypotheses are met *)
Lemma bexec_seq e b tr b' : bexec e b tr b' -> exists m bi la, bi 0%nat = b /\
  (forall k, (la k = None /\ bi (S k) = bi k) \/ exists acc, bstep e (bi k) acc (la k) (bi (S k))) /\
  (forall k, (m <= k)%nat -> bi k = b' /\ la k = None) /\ upto la m = tr /\
  (forall k, exists t2, bexec e (bi k) t2 b').
Proof.
  induction 1 as [b|b tr b1 acc l b2 E (m & bi & la & H0 & H1 & H2 & H3 & H4) St].
  - exists 0%nat, (fun _ => b), (fun _ => None). split; [reflexivity|]. split; [auto|]. split; [auto|]. split; [reflexivity|].
    intros k. exists []. constructor.
  - exists (S m), (fun k => if (k <=? m)%nat then bi k else b2), (fun k => if (k =? m)%nat then l else la k).
    assert (U : forall x, (x <= m)%nat -> upto (fun k => if (k =? m)%nat then l else la k) x = upto la x).
    { induction x as [|x IH]; intros L; [reflexivity|]. cbn [upto]. rewrite IH by lia. destruct (Nat.eqb_spec x m); [lia|reflexivity]. }
    split; [destruct m; exact H0|]. split; [|split; [|split]].
    + intros k. destruct (Nat.eqb_spec k m) as [->|N].
      * rewrite Nat.leb_refl. destruct (Nat.leb_spec (S m) m); [lia|]. right. exists acc.
        destruct (H2 m ltac:(lia)) as (-> & _). exact St.
      * destruct (Nat.leb_spec k m); destruct (Nat.leb_spec (S k) m); try lia; try apply (H1 k).
        destruct (H2 k ltac:(lia)) as (_ & ->). left. auto.
    + intros k L. destruct (Nat.leb_spec k m); [lia|]. destruct (Nat.eqb_spec k m); [lia|]. split; [reflexivity|]. apply H2. lia.
    + cbn [upto]. rewrite U by lia. rewrite H3, Nat.eqb_refl. reflexivity.
    + intros k. destruct (Nat.leb_spec k m).
      * destruct (H4 k) as (t2 & E2). exists (t2 ++ olist l). econstructor; eauto.
      * exists []. constructor.
Qed.

Lemma brun_fair e tr b : good_env e -> brun e tr b -> (forall i, bidle b i) -> bguards_ok e b ->
  exists m bi la, bfair e bi la /\ upto la m = tr /\ (forall k, (m <= k)%nat -> bi k = b /\ la k = None) /\ (forall k, bguards_ok e (bi k)).
Proof.
  intros We (b0 & Hb & E) Id Gd. destruct (bexec_seq _ _ _ _ E) as (m & bi & la & H0 & H1 & H2 & H3 & H4).
  assert (F : bfair e bi la).
  { constructor; [now rewrite H0|exact H1|]. intros i k. exists (Nat.max k m). split; [lia|]. right.
    destruct (H2 (Nat.max k m) ltac:(lia)) as (-> & _). apply Id. }
  exists m, bi, la. split; [exact F|]. split; [exact H3|]. split; [exact H2|].
  intros k. destruct (H4 k) as (t2 & E2). pose proof (page_pos e We) as Hp. destruct We as [W1 W2].
  destruct (brun_sim e W1 W2 _ _ (bfair_run _ _ _ k F)) as (s & Rs & Rl). pose proof (run_inv _ _ _ Hp W2 Rs) as Iv.
  destruct (bexec_sim e W1 W2 _ _ _ _ Iv Rl E2) as (s' & Ex & Rl').
  pose proof (guards_back (be_cfg e) s t2 s' Hp W2 Iv Ex (guards_of e b s' Rl' Gd)) as Gs.
  intros j Hj. rewrite <- (rl_n _ _ _ Rl) in Hj. rewrite <- (rl_guard _ _ _ Rl j Hj). apply Gs. exact Hj.
Qed.

(** The run of C56's example, on bytes: thread 1 is joined by main, which
    sleeps until it is gone. *)
Lemma ex_idle : forall i, bidle ex_b14 i.
Proof. intros [|[|i]]; [vm_compute; exact Logic.I..|]. unfold bidle. cbn. exact Logic.I. Qed.
Lemma ex_guards : bguards_ok ex_e ex_b14.
Proof. intros j Hj. assert (j = 1%nat) by (change (bn ex_b14) with 2%nat in Hj; lia). subst j. vm_compute. reflexivity. Qed.
Theorem C68_byte_ex : exists bi la, good_env ex_e /\ bfair ex_e bi la /\ (forall k, bguards_ok ex_e (bi k)) /\
  (forall k, creates_first (upto la k)) /\
  exists k1 k2, at_step la k1 0 (ECallJoin 1) /\ at_step la k2 1 (EReturn 77).
Proof.
  destruct (brun_fair ex_e ex_tr ex_b14 ex_env ex_run ex_idle ex_guards) as (m & bi & la & F & U & N & G).
  exists bi, la. split; [apply ex_env|]. split; [exact F|]. split; [exact G|]. split.
  - assert (C : creates_first (upto la m)) by (rewrite U; apply (cf_sound _ false); vm_compute; reflexivity).
    assert (V : forall k, exists t, upto la m = upto la k ++ t).
    { intros k. destruct (le_lt_dec k m) as [L|L].
      - clear - L. induction L as [|m L (t & IH)]; [exists []; now rewrite app_nil_r|]. cbn [upto]. rewrite IH. eexists. now rewrite <- app_assoc.
      - exists []. rewrite app_nil_r. assert (L' : (m <= k)%nat) by lia. clear - L' N. induction L' as [|k L IH]; [reflexivity|].
        cbn [upto]. destruct (N k L) as (_ & ->). now rewrite app_nil_r. }
    intros k. destruct (V k) as (t & Et). rewrite Et in C. eapply creates_first_app; eauto.
  - assert (D : did ex_tr 0 (ECallJoin 1) /\ did ex_tr 1 (EReturn 77)) by (unfold did, ex_tr; split; eexists; cbn [In]; tauto).
    rewrite <- U in D. destruct D as (D1 & D2). apply did_upto in D1 as (k1 & _ & D1), D2 as (k2 & _ & D2). exists k1, k2. auto.
Qed.
Print Assumptions C68_byte_ex.
