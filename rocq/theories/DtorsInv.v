(** Invariants of the exit-function model. *)
From Coq Require Import ZArith List Bool Lia Arith Permutation.
From Verif Require Import LayoutModel DtorsModel DtorsSpec DtorsFacts.
Import ListNotations.

Definition opick {A} (g : event -> list A) (t : nat) (tr : trace) : list A := flat_map g (own t tr).
Definition g_alloc e := match e with RegT f | BeginP f => [f] | _ => [] end.
Definition g_regt e := match e with RegT f => [f] | _ => [] end.
Definition g_callt e := match e with CallT f => [f] | _ => [] end.
Definition g_begin e := match e with BeginP f => [f] | _ => [] end.
Definition g_regp e := match e with RegP f => [f] | _ => [] end.
Definition g_take e := match e with Take f => [f] | _ => [] end.
Definition g_callp e := match e with CallP f => [f] | _ => [] end.

Lemma opick_snoc {A} (g : event -> list A) t tr u e :
  opick g t (tr ++ [(u, e)]) = if Nat.eqb u t then opick g t tr ++ g e else opick g t tr.
Proof.
  unfold opick. rewrite own_app, own_one. destruct (Nat.eqb u t).
  - rewrite flat_map_app. simpl. rewrite app_nil_r. reflexivity.
  - rewrite app_nil_r. reflexivity.
Qed.
Lemma opick_in {A} (g : event -> list A) t tr x : In x (opick g t tr) <-> exists e, In (t, e) tr /\ In x (g e).
Proof.
  unfold opick. rewrite in_flat_map. split; intros [e [H1 H2]]; exists e; split; auto; apply own_in; assumption.
Qed.
Lemma pick_in {A} (g : event -> list A) tr x : In x (pick g tr) <-> exists t e, In (t, e) tr /\ In x (g e).
Proof.
  unfold pick. rewrite in_flat_map. split.
  - intros [[t e] [H1 H2]]. exists t, e. auto.
  - intros [t [e [H1 H2]]]. exists (t, e). auto.
Qed.
Lemma opick_sub {A} (g : event -> list A) t tr x : In x (opick g t tr) -> In x (pick g tr).
Proof. rewrite opick_in, pick_in. intros [e H]. exists t, e. assumption. Qed.

Lemma opick_cons {A} (g : event -> list A) t u e tr :
  opick g t ((u, e) :: tr) = (if Nat.eqb u t then g e else []) ++ opick g t tr.
Proof.
  unfold opick. rewrite own_cons, flat_map_app. destruct (Nat.eqb u t); simpl; rewrite ?app_nil_r; reflexivity.
Qed.
Lemma pick_cons {A} (g : event -> list A) u e tr : pick g ((u, e) :: tr) = g e ++ pick g tr.
Proof. reflexivity. Qed.

(** One event per function: duplicates in no thread's projection, and the
    thread is unique. *)
Lemma NoDup_app_inv {A} (a b : list A) : NoDup (a ++ b) -> NoDup a /\ NoDup b /\ forall x, In x a -> ~ In x b.
Proof.
  induction a as [|x a IH]; simpl; intros H.
  - repeat split; auto. constructor.
  - inversion H as [|? ? H1 H2]; subst. destruct (IH H2) as [I1 [I2 I3]]. repeat split; auto.
    + constructor; auto. intros Hx. apply H1. apply in_or_app; auto.
    + intros y [ <- | Hy ] Hb; [apply H1, in_or_app; auto|exact (I3 y Hy Hb)].
Qed.
Lemma NoDup_app_intro {A} (a b : list A) : NoDup a -> NoDup b -> (forall x, In x a -> ~ In x b) -> NoDup (a ++ b).
Proof.
  induction a as [|x a IH]; simpl; intros Ha Hb D; auto.
  inversion Ha as [|? ? H1 H2]; subst. constructor.
  - rewrite in_app_iff. intros [H|H]; [auto|]. apply (D x); auto.
  - apply IH; auto.
Qed.
Lemma pick_nodup_own {A} (g : event -> list A) t tr : NoDup (pick g tr) -> NoDup (opick g t tr).
Proof.
  induction tr as [|[u e] tr IH]; intros H.
  - constructor.
  - rewrite pick_cons in H. apply NoDup_app_inv in H. destruct H as [H1 [H2 H3]].
    rewrite opick_cons. destruct (Nat.eqb u t); [|exact (IH H2)].
    apply NoDup_app_intro; auto. intros x Hx Hy. apply (H3 x Hx). eapply opick_sub; eauto.
Qed.
Lemma pick_nodup_thread {A} (g : event -> list A) tr x t u :
  NoDup (pick g tr) -> In x (opick g t tr) -> In x (opick g u tr) -> t = u.
Proof.
  induction tr as [|[v e] tr IH]; intros H Ht Hu.
  - destruct Ht.
  - rewrite pick_cons in H. apply NoDup_app_inv in H. destruct H as [H1 [H2 H3]].
    rewrite opick_cons in Ht, Hu. apply in_app_or in Ht. apply in_app_or in Hu.
    destruct (Nat.eqb_spec v t) as [Et|Nt]; destruct (Nat.eqb_spec v u) as [Eu|Nu]; try congruence.
    + destruct Hu as [[]|Hu]. destruct Ht as [Ht|Ht]; [|apply IH; assumption].
      exfalso. apply (H3 x Ht). eapply opick_sub; eauto.
    + destruct Ht as [[]|Ht]. destruct Hu as [Hu|Hu]; [|apply IH; assumption].
      exfalso. apply (H3 x Hu). eapply opick_sub; eauto.
    + destruct Hu as [[]|Hu]. destruct Ht as [[]|Ht]. apply IH; assumption.
Qed.

(** ** Frames *)
Definition lower (fr : frame) : Prop :=
  match fr with
  | FUser _ | FDtors | FX _ XT | FX _ XLock | FX _ (XFini _) => True
  | _ => False
  end.
Definition isbase (fr : frame) : bool :=
  match fr with FUser WMain | FUser WThread | FDtors => true | _ => false end.
Fixpoint based (l : list frame) : Prop :=
  match l with [] => True | x :: l' => (l' = [] \/ isbase x = false) /\ based l' end.
Definition stack_ok (l : list frame) : Prop := Forall lower (tl l) /\ based l.

Definition isfini (fr : frame) : bool := match fr with FX _ (XFini _) => true | _ => false end.
Definition holds_top (fr : frame) : bool :=
  match fr with FPush _ | FUnlock | FX _ XPop | FX _ (XUnlock _) => true | _ => false end.
Definition holds (c : dcfg) (l : list frame) : bool :=
  (match l with x :: _ => holds_top x | [] => false end) || (c_pae c && existsb isfini l).

(** Frames that exist only with the `program-at-exit` feature. *)
Definition paeframe (fr : frame) : bool :=
  match fr with
  | FLock _ | FPush _ | FUnlock | FX _ XLock | FX _ XPop | FX _ (XUnlock _) | FX _ (XCall _) => true
  | _ => false
  end.
(** A thread that still holds the leaked lock is not in a locked region. *)
Definition excl (l : list frame) : Prop :=
  match l with x :: l' => holds_top x = true -> existsb isfini l' = false | [] => True end.

Definition inflight (l : list frame) : list fid :=
  match l with FX _ (XUnlock f) :: _ | FX _ (XCall f) :: _ => [f] | _ => [] end.
Definition pushing (l : list frame) : list fid :=
  match l with FLock f :: _ | FPush f :: _ => [f] | _ => [] end.

Record inv (c : dcfg) (tr : trace) (s : dst) : Prop := {
  i_new : forall t, (nthr s <= t)%nat -> frames s t = [] /\ tdt s t = [] /\ own t tr = [];
  i_stack : forall t, stack_ok (frames s t);
  i_done : forall t, In (t, ThreadDone) tr -> frames s t = [];
  i_term : forall t o, In (t, Term o) tr -> term s = Some o;
  i_alloc : pick g_alloc tr = seq 0 (nextf s);
  i_permt : forall t, Permutation (opick g_regt t tr) (opick g_callt t tr ++ tdt s t);
  i_wt : forall t, tdt s t = waiting t tr;
  i_push : forall t f, In f (pushing (frames s t)) -> In (t, BeginP f) tr /\ ~ In f (pick g_regp tr);
  i_regp : forall t f, In (t, RegP f) tr -> In (t, BeginP f) tr;
  i_nodupp : NoDup (pick g_regp tr);
  i_permp : Permutation (pick g_regp tr) (pick g_take tr ++ pdt s);
  i_wp : pdt s = listed tr;
  i_take : forall t, opick g_take t tr = opick g_callp t tr ++ inflight (frames s t);
  i_lk : c_thread c = true -> lk s = holder tr;
  i_nolk : c_thread c = false -> lk s = None;
  i_hold : c_thread c = true -> forall t, lk s = Some t <-> holds c (frames s t) = true;
  i_pae : c_pae c = false -> forall t, existsb paeframe (frames s t) = false;
  i_excl : c_thread c = true -> c_pae c = true -> forall t, excl (frames s t);
  i_retT : forall t f, In (t, CallT f) tr -> In (t, Ret (WT f)) tr \/ In (FUser (WT f)) (frames s t);
  i_retP : forall t f, In (t, CallP f) tr -> In (t, Ret (WP f)) tr \/ In (FUser (WP f)) (frames s t);
  i_retF : forall t k, In (t, CallF k) tr -> In (t, Ret (WF k)) tr \/ In (FUser (WF k)) (frames s t);
  i_tae : c_tae c = false -> forall t, tdt s t = []
}.

