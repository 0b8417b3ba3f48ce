(** C69: a function registered with program::at_exit sees everything its
    registrar did before registering it, on whichever thread it is called, and
    the list of functions is free of data races. *)
From Coq Require Import ZArith List Bool Lia Arith Permutation.
From Verif Require Import LayoutModel DtorsModel DtorsSpec DtorsFacts DtorsInv DtorsPres DtorsTop DtorsTop2 DtorsTop3 Props_Dtors SeenSpec.
Import ListNotations.

Lemma nth_snoc {A} (l : list A) x p y : nth_error (l ++ [x]) p = Some y <-> nth_error l p = Some y \/ (p = length l /\ y = x).
Proof.
  destruct (lt_eq_lt_dec p (length l)) as [[L|L]|L].
  - rewrite nth_error_app1 by auto. split; [auto|intros [H|[-> _]]; [auto|lia]].
  - subst. rewrite nth_error_app2, Nat.sub_diag by lia. cbn. split; [intros H; injection H as ->; auto|].
    intros [H|[_ ->]]; auto. assert (length l < length l)%nat by (apply nth_error_Some; congruence). lia.
  - rewrite nth_error_app2 by lia. destruct (p - length l)%nat eqn:E; [lia|]. cbn. destruct n; (split; [discriminate|]).
    all: intros [H|[-> _]]; [|lia]; assert (p < length l)%nat by (apply nth_error_Some; congruence); lia.
Qed.
Lemma nth_lt {A} (l : list A) p y : nth_error l p = Some y -> (p < length l)%nat.
Proof. intros H. apply nth_error_Some. congruence. Qed.

Lemma before_more tr tr2 p q : before tr p q -> before (tr ++ tr2) p q.
Proof.
  assert (M : forall p x, nth_error tr p = Some x -> nth_error (tr ++ tr2) p = Some x).
  { intros i x H. rewrite nth_error_app1; [exact H|]. eapply nth_lt; eauto. }
  induction 1; [eapply b_thread|eapply b_spawn|eapply b_mutex|eapply b_trans]; eauto.
Qed.
Definition le_before tr p q := p = q \/ before tr p q.
Lemma le_more tr tr2 p q : le_before tr p q -> le_before (tr ++ tr2) p q.
Proof. intros [->|H]; [left; auto|right; apply before_more; auto]. Qed.
Lemma le_lt_before tr p q r : le_before tr p q -> before tr q r -> before tr p r.
Proof. intros [->|H] H'; [auto|eapply b_trans; eauto]. Qed.

(** At events of the registry, where the lock is. *)
Lemma lock_at c tr s t a e s' : exec c tr s -> dstep c s t a = Some (e, s') -> c_thread c = true ->
  (touches e -> lk s = Some t) /\ (releases e -> lk s = Some t) /\ (e = Lock -> lk s = None).
Proof.
  intros H D Hc. pose proof (exec_inv _ _ _ H) as I. apply dstep_inv in D as (_ & D).
  assert (HT : forall x l, frames s t = x :: l -> holds_top x = true -> lk s = Some t).
  { intros x l E X. apply (i_hold _ _ _ I Hc). rewrite E. unfold holds. now rewrite X. }
  assert (TL : forall s1, try_lock c s t = Some s1 -> lk s = None).
  { unfold try_lock. rewrite Hc. destruct (lk s); [discriminate|auto]. }
  destruct D; cbn [touches releases]; (split; [|split]); intros X; try contradiction; try discriminate; eauto.
Qed.

Lemma lk_after c tr s t a e s' : exec c tr s -> dstep c s t a = Some (e, s') -> c_thread c = true ->
  lk s' = match e with Lock => Some t | Unlock | EndP => None | _ => lk s end.
Proof.
  intros H D Hc. pose proof (exec_inv _ _ _ H) as I. pose proof (exec_inv _ _ _ (ex_step _ _ _ _ _ _ _ H D)) as I'.
  rewrite (i_lk _ _ _ I' Hc), holder_snoc, <- (i_lk _ _ _ I Hc). unfold holder_step. cbn. reflexivity.
Qed.

(** Every access to the list is ordered before the lock's last release or
    before something its holder did. *)
Lemma chain c tr s : exec c tr s -> c_thread c = true -> forall p x e, nth_error tr p = Some (x, e) -> touches e ->
  match lk s with
  | None => exists r t d, nth_error tr r = Some (t, d) /\ releases d /\ le_before tr p r
  | Some t => exists r d, nth_error tr r = Some (t, d) /\ le_before tr p r
  end.
Proof.
  intros H Hc. induction H as [|tr s t a e s' H IH D]; intros p x d Hn Ht; [destruct p; discriminate|].
  destruct (lock_at c tr s t a e s' H D Hc) as (L1 & L2 & L3).
  rewrite (lk_after c tr s t a e s' H D Hc).
  assert (New : nth_error (tr ++ [(t, e)]) (length tr) = Some (t, e)) by (apply nth_snoc; auto).
  assert (Old : forall r y, nth_error tr r = Some y -> nth_error (tr ++ [(t, e)]) r = Some y) by (intros; apply nth_snoc; auto).
  assert (Po : forall r d0, nth_error tr r = Some (t, d0) -> before (tr ++ [(t, e)]) r (length tr)).
  { intros r d0 Hr. eapply b_thread; [eapply nth_lt; eauto|eapply Old; eauto|exact New]. }
  apply nth_snoc in Hn as [Hn|(-> & Hx)].
  - specialize (IH p x d Hn Ht).
    destruct (lk s) as [h|] eqn:El.
    + destruct IH as (r & d0 & Hr & Le).
      assert (K : exists r d1, nth_error (tr ++ [(t, e)]) r = Some (h, d1) /\ le_before (tr ++ [(t, e)]) p r)
        by (exists r, d0; split; [auto|now apply le_more]).
      assert (Rl : releases e -> exists r t0 d1, nth_error (tr ++ [(t, e)]) r = Some (t0, d1) /\ releases d1 /\ le_before (tr ++ [(t, e)]) p r).
      { intros X. assert (h = t) by (specialize (L2 X); congruence). subst h. exists (length tr), t, e. split; [auto|]. split; [auto|].
        right. eapply le_lt_before; [apply le_more; eauto|eapply Po; eauto]. }
      destruct e; try exact K; try (apply Rl; exact Logic.I). specialize (L3 eq_refl). discriminate.
    + destruct IH as (r & t0 & d0 & Hr & Hrel & Le).
      assert (K : exists r t0 d1, nth_error (tr ++ [(t, e)]) r = Some (t0, d1) /\ releases d1 /\ le_before (tr ++ [(t, e)]) p r)
        by (exists r, t0, d0; split; [auto|split; [auto|now apply le_more]]).
      destruct e; try exact K. exists (length tr), Lock. split; [exact New|]. right.
      eapply le_lt_before; [apply le_more; eauto|]. eapply b_mutex; [eapply nth_lt; eauto|eapply Old; eauto|exact Hrel|exact New].
  - injection Hx as -> ->. specialize (L1 Ht). rewrite L1.
    assert (K : exists r d1, nth_error (tr ++ [(t, e)]) r = Some (t, d1) /\ le_before (tr ++ [(t, e)]) (length tr) r)
      by (exists (length tr), e; split; [exact New|left; reflexivity]).
    destruct e; try contradiction; exact K.
Qed.

(** Without the `thread` feature there is one thread. *)
Lemma one_thread c tr s : exec c tr s -> c_thread c = false -> nthr s = 1%nat /\ forall p t e, nth_error tr p = Some (t, e) -> t = 0%nat.
Proof.
  intros H Hc. induction H as [|tr s t a e s' H (N & IH) D]; [split; [reflexivity|intros [|p]; discriminate]|].
  pose proof (exec_inv _ _ _ H) as I. apply dstep_inv in D as (_ & D).
  assert (t = 0%nat).
  { destruct t; auto. destruct (i_new _ _ _ I (S t)) as (E & _); [lia|]. destruct D; congruence. }
  subst t. split.
  - destruct D; cbn; auto; try congruence;
      try (match goal with X : try_lock _ _ _ = Some _ |- _ => unfold try_lock in X; rewrite Hc in X; injection X as <-; exact N end);
      unfold unlock; rewrite Hc; exact N.
  - intros p t e0 Hp. apply nth_snoc in Hp as [Hp|(_ & Hp)]; [eauto|]. injection Hp as -> ->. reflexivity.
Qed.

(** The list is never accessed by two threads without one access being ordered
    before the other, and the order is that of the history. *)
Theorem C69_list : forall c tr s p q t u d e, exec c tr s -> (p < q)%nat ->
  nth_error tr p = Some (t, d) -> nth_error tr q = Some (u, e) -> touches d -> touches e -> before tr p q.
Proof.
  intros c tr s p q t u d e H L Hp Hq Td Te. destruct (c_thread c) eqn:Hc.
  - induction H as [|tr s v a e' s' H IH D]; [destruct p; discriminate|].
    apply nth_snoc in Hq as [Hq|(-> & Hq)].
    + apply nth_snoc in Hp as [Hp|(-> & _)]; [apply before_more; auto|]. apply nth_lt in Hq. lia.
    + injection Hq as -> ->. apply nth_snoc in Hp as [Hp|(-> & _)]; [|lia].
      destruct (lock_at c tr s v a e' s' H D Hc) as (L1 & _). pose proof (chain c tr s H Hc p t d Hp Td) as X.
      rewrite (L1 Te) in X. destruct X as (r & d0 & Hr & Le).
      eapply le_lt_before; [apply le_more; eauto|]. eapply b_thread; [eapply nth_lt; eauto|apply nth_snoc; eauto|apply nth_snoc; auto].
  - destruct (one_thread c tr s H Hc) as (_ & O). pose proof (O _ _ _ Hp). pose proof (O _ _ _ Hq). subst. eapply b_thread; eauto.
Qed.
Print Assumptions C69_list.

Lemma in_nth {A} (l : list A) x : In x l -> exists p, nth_error l p = Some x.
Proof. apply In_nth_error. Qed.

(** The push follows the call of at_exit, the pop the push, the call the pop. *)
Lemma push_begin c tr s p t f : exec c tr s -> nth_error tr p = Some (t, RegP f) -> exists b, (b < p)%nat /\ nth_error tr b = Some (t, BeginP f).
Proof.
  intros H Hp. apply nth_error_split in Hp as (l1 & l2 & -> & <-).
  replace (l1 ++ (t, RegP f) :: l2) with ((l1 ++ [(t, RegP f)]) ++ l2) in H by (rewrite <- app_assoc; reflexivity).
  destruct (exec_prefix _ _ _ _ H) as (s0 & H0). pose proof (exec_inv _ _ _ H0) as I.
  assert (X : In (t, BeginP f) (l1 ++ [(t, RegP f)])) by (apply (i_regp _ _ _ I); apply in_or_app; right; left; reflexivity).
  apply in_app_iff in X as [X|[X|[]]]; [|discriminate]. apply in_nth in X as (b & Hb). exists b.
  split; [eapply nth_lt; eauto|]. rewrite nth_error_app1; [exact Hb|]. eapply nth_lt; eauto.
Qed.
Lemma take_push c tr s p u f : exec c tr s -> nth_error tr p = Some (u, Take f) -> exists b t, (b < p)%nat /\ nth_error tr b = Some (t, RegP f).
Proof.
  intros H Hp. apply nth_error_split in Hp as (l1 & l2 & -> & <-).
  replace (l1 ++ (u, Take f) :: l2) with ((l1 ++ [(u, Take f)]) ++ l2) in H by (rewrite <- app_assoc; reflexivity).
  destruct (exec_prefix _ _ _ _ H) as (s0 & H0). pose proof (exec_inv _ _ _ H0) as I.
  assert (X : In f (pick g_regp (l1 ++ [(u, Take f)]))).
  { eapply Permutation_in; [apply Permutation_sym, (i_permp _ _ _ I)|]. apply in_or_app. left. rewrite pick_snoc. apply in_or_app. right. left. reflexivity. }
  apply pick_in in X as (t & e & X & Y). destruct e; try contradiction. destruct Y as [->|[]].
  apply in_app_iff in X as [X|[X|[]]]; [|discriminate]. apply in_nth in X as (b & Hb). exists b, t.
  split; [eapply nth_lt; eauto|]. rewrite nth_error_app1; [exact Hb|]. eapply nth_lt; eauto.
Qed.
Lemma call_take c tr s p u f : exec c tr s -> nth_error tr p = Some (u, CallP f) -> exists b, (b < p)%nat /\ nth_error tr b = Some (u, Take f).
Proof.
  intros H Hp. apply nth_error_split in Hp as (l1 & l2 & -> & <-).
  replace (l1 ++ (u, CallP f) :: l2) with ((l1 ++ [(u, CallP f)]) ++ l2) in H by (rewrite <- app_assoc; reflexivity).
  destruct (exec_prefix _ _ _ _ H) as (s0 & H0). destruct (call_taken _ _ _ _ _ H0) as (pre & E).
  assert (X : In (u, Take f) l1) by (apply own_in; rewrite E; apply in_or_app; right; left; reflexivity).
  apply in_nth in X as (b & Hb). exists b. split; [eapply nth_lt; eauto|]. rewrite nth_error_app1; [exact Hb|]. eapply nth_lt; eauto.
Qed.

(** Every call of a registered function has a registration that comes before it
    in happens-before; so has everything the registrar did until then, and
    everything the function does comes after. *)
Theorem C69_sees : forall c tr s q u f, exec c tr s -> nth_error tr q = Some (u, CallP f) ->
  exists p t, nth_error tr p = Some (t, BeginP f) /\ before tr p q /\
    forall p0 d q0 e, (p0 <= p)%nat -> nth_error tr p0 = Some (t, d) ->
      (q <= q0)%nat -> nth_error tr q0 = Some (u, e) -> before tr p0 q0.
Proof.
  intros c tr s q u f H Hq.
  destruct (call_take c tr s q u f H Hq) as (k & Lk & Hk).
  destruct (take_push c tr s k u f H Hk) as (r & t & Lr & Hr).
  destruct (push_begin c tr s r t f H Hr) as (p & Lp & Hb).
  assert (B : before tr p q).
  { eapply b_trans; [eapply (b_thread tr p r); eauto|]. eapply b_trans; [eapply (C69_list c tr s r k); eauto; exact Logic.I|].
    eapply (b_thread tr k q); eauto. }
  exists p, t. split; [exact Hb|]. split; [exact B|].
  intros p0 d q0 e L1 E1 L2 E2.
  assert (B1 : before tr p0 q).
  { destruct (Nat.eq_dec p0 p) as [->|N]; [exact B|]. eapply b_trans; [|exact B]. eapply (b_thread tr p0 p); eauto. lia. }
  destruct (Nat.eq_dec q q0) as [<-|N]; [exact B1|]. eapply b_trans; [exact B1|]. eapply (b_thread tr q q0); eauto. lia.
Qed.
Print Assumptions C69_sees.

(** .fini_array functions run after, and see, every registration that was ever
    completed. *)
Lemma fini_empty c tr s : exec c tr s -> c_pae c = true -> forall t, existsb isfini (frames s t) = true -> In (t, Empty) tr.
Proof.
  induction 1 as [|tr s t a e s' H IH D]; intros Hp u Hu.
  - cbn in Hu. unfold dupd in Hu. destruct (Nat.eqb u 0); discriminate.
  - pose proof (exec_inv _ _ _ H) as I. apply dstep_effect in D. specialize (IH Hp). apply in_or_app.
    destruct (Nat.eq_dec u t) as [->|Hne].
    + pose proof (fs _ _ _ _ _ _ I D) as F. specialize (IH t). remember (frames s t) as l1. remember (frames s' t) as l2.
      destruct F; simpl in *; auto; unfold first_phase, after_t in Hu; rewrite ?Hp in Hu;
        try (destruct (c_tae c); simpl in Hu; auto); try discriminate.
    + destruct (fr_other _ _ _ _ _ _ I D u Hne) as [Q|[_ [_ [Q _]]]]; rewrite Q in Hu; [auto|discriminate].
Qed.

Theorem C69_fini : forall c tr s p q t u f k, c_thread c = true -> c_pae c = true -> exec c tr s ->
  nth_error tr p = Some (t, RegP f) -> nth_error tr q = Some (u, CallF k) -> before tr p q.
Proof.
  intros c tr s p q t u f k Hc Hp H Ep Eq.
  assert (X : exists r, (r < q)%nat /\ nth_error tr r = Some (u, Empty)).
  { pose proof Eq as Eq'. apply nth_error_split in Eq' as (l1 & l2 & -> & <-).
    replace (l1 ++ (u, CallF k) :: l2) with ((l1 ++ [(u, CallF k)]) ++ l2) in H by (rewrite <- app_assoc; reflexivity).
    destruct (exec_prefix _ _ _ _ H) as (s0 & H0). destruct (exec_snoc _ _ _ _ H0) as (s1 & a & H1 & D).
    apply dstep_inv in D as (_ & D). cbn [fst snd] in D. inversion D; subst.
    assert (In (u, Empty) l1) as X.
    { apply (fini_empty c l1 s1 H1 Hp). match goal with E : frames s1 u = _ |- _ => rewrite E end. reflexivity. }
    apply in_nth in X as (b & Hb). exists b. split; [eapply nth_lt; eauto|]. rewrite nth_error_app1; [exact Hb|]. eapply nth_lt; eauto. }
  destruct X as (r & Lr & Er).
  destruct (lt_eq_lt_dec p r) as [[L| ->]|L].
  - eapply b_trans; [eapply (C69_list c tr s p r); eauto; exact Logic.I|]. eapply (b_thread tr r q); eauto.
  - congruence.
  - exfalso. apply nth_error_split in Er as (l1 & l2 & -> & <-).
    destruct (C36_closed c u l1 l2 s Hc Hp H t f) as (N & _). apply N.
    rewrite nth_error_app2 in Ep by lia. destruct (p - length l1)%nat eqn:E; [lia|]. cbn in Ep. eapply nth_error_In; eauto.
Qed.
Print Assumptions C69_fini.

(** ** A concrete history *)
(** Threads 1 and 2 register, thread 1 goes on computing, thread 0 exits and
    calls both functions and .fini_array. *)
Definition l_C69_ex := ([(0, ASpawn); (0, ASpawn); (1, ANop); (1, ARegP)] ++ go 1 3 ++ [(1, ANop); (2, ARegP)] ++ go 2 3 ++
  [(0, AExit 0)] ++ go 0 5 ++ [(0, ANop); (0, ARet 0)] ++ go 0 4 ++ [(0, ARet 0)] ++ go 0 3 ++ [(0, ARet 0)] ++ go 0 1 ++ [(0, ARet 0)] ++ go 0 1)%nat.
Definition tr_C69_ex : trace := Eval vm_compute in trace_of all_on l_C69_ex.
Theorem C69_ex : exists tr s, exec all_on tr s /\
  nth_error tr 2 = Some (1, Nop)%nat /\ nth_error tr 3 = Some (1, BeginP 0)%nat /\ nth_error tr 5 = Some (1, RegP 0)%nat /\
  nth_error tr 17 = Some (0, CallP 1)%nat /\ nth_error tr 23 = Some (0, CallP 0)%nat /\ nth_error tr 27 = Some (0, CallF 1)%nat /\
  before tr 2 23 /\ before tr 5 27.
Proof.
  destruct (played all_on l_C69_ex tr_C69_ex) as [s H]; [vm_compute; reflexivity|].
  exists tr_C69_ex, s. split; [exact H|]. do 6 (split; [reflexivity|]). split.
  - destruct (C69_sees all_on tr_C69_ex s 23%nat 0%nat 0%nat H eq_refl) as (p & t & E & _ & B).
    assert (p = 3%nat /\ t = 1%nat) as [-> ->].
    { clear B. do 34 (destruct p as [|p]; [first [discriminate E|vm_compute in E; injection E as <-; auto]|]). destruct p; discriminate E. }
    eapply (B 2%nat Nop 23%nat (CallP 0%nat)); try reflexivity; lia.
  - eapply (C69_fini all_on tr_C69_ex s 5%nat 27%nat); try exact H; reflexivity.
Qed.

(** The order is not a matter of course: what thread 1 does after registering
    (event 7) is not ordered before the exit functions. *)
Definition edge (tr : trace) (p q : nat) : bool :=
  match nth_error tr p, nth_error tr q with
  | Some (t, d), Some (u, e) => Nat.ltb p q && (Nat.eqb t u ||
      match d with Spawn v => Nat.eqb v u | EndP | Unlock => match e with Lock => true | _ => false end | _ => false end)
  | _, _ => false
  end.
Lemma before_closed tr (S : nat -> bool) :
  forallb (fun p => forallb (fun q => implb (S p && edge tr p q) (S q)) (seq 0 (length tr))) (seq 0 (length tr)) = true ->
  forall p q, before tr p q -> S p = true -> S q = true.
Proof.
  intros H.
  assert (E : forall p q, edge tr p q = true -> S p = true -> S q = true).
  { intros p q Hpq Hp. assert (Lp : (p < length tr)%nat) by (unfold edge in Hpq; destruct (nth_error tr p) eqn:X; [eapply nth_lt; eauto|discriminate]).
    assert (Lq : (q < length tr)%nat) by (unfold edge in Hpq; destruct (nth_error tr p) as [[]|]; [|discriminate]; destruct (nth_error tr q) eqn:X; [eapply nth_lt; eauto|discriminate]).
    rewrite forallb_forall in H. specialize (H p ltac:(apply in_seq; lia)). rewrite forallb_forall in H. specialize (H q ltac:(apply in_seq; lia)).
    rewrite Hp, Hpq in H. exact H. }
  intros p q B. induction B as [p q t d e L X Y|p q t u e L X Y|p q t u e L X R Y|p q r B1 IH1 B2 IH2]; [| | |auto]; intros Hp; apply (E p q); auto; unfold edge; rewrite X, Y; apply Nat.ltb_lt in L; rewrite L; cbn [andb].
  - now rewrite Nat.eqb_refl.
  - now rewrite Nat.eqb_refl, orb_true_r.
  - destruct e; try contradiction; now rewrite orb_true_r.
Qed.
Theorem C69_not_all_ordered : exists tr s, exec all_on tr s /\ nth_error tr 7 = Some (1, Nop)%nat /\
  nth_error tr 23 = Some (0, CallP 0)%nat /\ ~ before tr 7 23.
Proof.
  destruct (played all_on l_C69_ex tr_C69_ex) as [s H]; [vm_compute; reflexivity|].
  exists tr_C69_ex, s. split; [exact H|]. split; [reflexivity|]. split; [reflexivity|].
  intros B. pose proof (before_closed tr_C69_ex (fun p => Nat.eqb p 7) ltac:(vm_compute; reflexivity) 7%nat 23%nat B eq_refl). discriminate.
Qed.
Print Assumptions C69_ex.
Print Assumptions C69_not_all_ordered.
