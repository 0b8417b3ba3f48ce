(** The invariant of the thread life cycle (for [c_reuse = false]). *)
From Coq Require Import ZArith List Bool Lia Arith.
From Verif Require Import ThreadModel.
Import ListNotations.
Open Scope Z_scope.

(** Phases of a thread's life. *)
Definition pre (p : pc) : bool :=
  match p with
  | Run | JLoad _ _ | JFutex _ _ _ | JSleep _ _ | JDone _ _ | JFree _ _ _ | JRet _ _ _
  | DSwap _ | XCas _ | Panicked => true | _ => false end.
(** finishing as joinable: somebody else frees *)
Definition jn (t : task) : bool :=
  match t_pc t with XStore _ | XExit | KWake _ => true | KClear | Dead => t_clear t | _ => false end.
(** finishing as detached: frees itself *)
Definition self (t : task) : bool :=
  match t_pc t with DxSetTid | DxBlock | DxMunmap | DxExit => true
  | KClear | Dead => negb (t_clear t) | _ => false end.
Definition gone (p : pc) : bool := match p with KWake _ | Dead => true | _ => false end.
Definition sfreed (p : pc) : bool := match p with DxExit | KClear | Dead => true | _ => false end.

(** [waits p k j]: p is inside join/detach of j, before its memory is freed. *)
Definition waits (p : pc) (k : kind) (j : nat) : Prop :=
  match p with
  | JLoad k' j' | JFutex k' j' _ | JSleep k' j' | JDone k' j' | JFree k' j' _ => k' = k /\ j' = j
  | _ => False end.
Definition woken (p : pc) (j : nat) : Prop :=
  match p with JDone _ j' | JFree _ j' _ | JRet _ j' _ => j' = j | _ => False end.
Definition xval (p : pc) : option Z := match p with XCas v | XStore v => Some v | _ => None end.
Definition stored (p : pc) : bool := match p with XExit | KClear | KWake _ | Dead => true | _ => false end.
Definition jval (p : pc) (j : nat) : option Z :=
  match p with JFree KJoin j' v | JRet KJoin j' v => if Nat.eqb j' j then Some v else None | _ => None end.
Definition clear_of (p : pc) (b : bool) : bool :=
  match p with DxBlock | DxMunmap | DxExit => negb b | KClear | Dead => true | _ => b end.

Notation P s i := (t_pc (T s i)).

Record inv (c : cfg) (s : st) : Prop := Inv {
  i_n : (0 < n s)%nat;
  i_out : forall i, (n s <= i)%nat -> P s i = Dead /\ claim s i = None /\ r_mapped (R s i) = false;
  i_clear : forall j, clear_of (P s j) (t_clear (T s j)) = true;
  i_init : forall j, (j < n s)%nat -> r_det (R s j) = Initial -> pre (P s j) = true;
  i_aband : forall j, (j < n s)%nat -> r_det (R s j) = Abandoned -> jn (T s j) = true;
  i_det : forall j, (j < n s)%nat -> r_det (R s j) = Detached ->
      exists i, claim s j = Some (KDetach, i) /\ P s i <> DSwap j /\
        (jn (T s j) = true -> r_mapped (R s j) = true -> waits (P s i) KDetach j \/ P s i = Panicked);
  i_self : forall j, (j < n s)%nat -> self (T s j) = true -> r_det (R s j) = Detached;
  i_waits : forall i k j, waits (P s i) k j ->
      claim s j = Some (k, i) /\ r_mapped (R s j) = true /\
      (k = KDetach -> r_det (R s j) = Detached /\ jn (T s j) = true);
  i_dswap : forall i j, P s i = DSwap j ->
      claim s j = Some (KDetach, i) /\ r_mapped (R s j) = true /\ r_det (R s j) <> Detached;
  i_jret : forall i k j rv, P s i = JRet k j rv -> claim s j = Some (k, i) /\ r_mapped (R s j) = false;
  i_claim_lt : forall j k i, claim s j = Some (k, i) -> (j < n s)%nat /\ (i < n s)%nat;
  i_claim_j : forall j i, claim s j = Some (KJoin, i) -> r_mapped (R s j) = true ->
      waits (P s i) KJoin j \/ P s i = Panicked;
  i_claim_d : forall j i, claim s j = Some (KDetach, i) -> r_det (R s j) <> Detached -> P s i = DSwap j;
  i_mapped_none : forall j, (j < n s)%nat -> claim s j = None -> r_mapped (R s j) = true;
  i_mapped : forall j, (j < n s)%nat -> r_mapped (R s j) = false ->
      gone (P s j) = true \/ (self (T s j) = true /\ sfreed (P s j) = true);
  i_freed : forall j, (j < n s)%nat -> self (T s j) = true -> sfreed (P s j) = true ->
      munmap_ok c (R s j) = true -> r_mapped (R s j) = false;
  i_tid0 : forall j, (j < n s)%nat -> jn (T s j) = true -> gone (P s j) = true -> r_tid (R s j) = 0;
  i_tid : forall j, (j < n s)%nat -> jn (T s j) && gone (P s j) = false ->
      r_tid (R s j) = t_tid (T s j);
  i_tpos : forall j, (j < n s)%nat -> 0 < t_tid (T s j);
  i_xval : forall j v, xval (P s j) = Some v -> t_fin (T s j) = Some v;
  i_ret : forall j, (j < n s)%nat -> jn (T s j) = true -> stored (P s j) = true ->
      t_fin (T s j) = Some (r_ret (R s j));
  i_jval : forall i j v, jval (P s i) j = Some v -> t_fin (T s j) = Some v;
  i_woken : forall i j, woken (P s i) j -> jn (T s j) = true /\ gone (P s j) = true;
  i_sleep : forall i k j, P s i = JSleep k j -> r_tid (R s j) <> 0 \/ P s j = KWake (r_taddr (R s j));
  i_futex : forall i k j v, P s i = JFutex k j v -> v <> 0;
  i_wake : forall j a, P s j = KWake a -> a = r_taddr (R s j);
  i_wake_d : forall j a k, P s j = KWake a -> k <> j -> (k < n s)%nat -> r_mapped (R s k) = true -> r_taddr (R s k) <> a;
  i_geo : forall j, (j < n s)%nat ->
      r_base (R s j) <= r_taddr (R s j) < r_base (R s j) + r_len (R s j) /\
      ((0 < j)%nat -> r_base (R s j) mod c_page c = 0 /\ 0 <= r_guard (R s j) /\ 0 < r_map (R s j) /\ r_map (R s j) = r_len (R s j) /\
        r_stack (R s j) = r_base (R s j) + (r_guard (R s j) + c_page c - 1) / c_page c * c_page c);
  i_disj : forall j k, (j < n s)%nat -> (k < n s)%nat -> j <> k -> r_mapped (R s j) = true -> r_mapped (R s k) = true ->
      overlaps (r_base (R s j)) (r_len (R s j)) (R s k) = false;
  i_main : pre (P s 0%nat) = true /\ xval (P s 0%nat) = None;
  i_block : forall j, c_sig c = true -> (match P s j with DxMunmap | DxExit => True | KClear => t_clear (T s j) = false | _ => False end) -> t_block (T s j) = true
}.

Lemma munmap_base c s j : 0 < c_page c -> inv c s -> (0 < j < n s)%nat -> munmap_ok c (R s j) = true ->
  munmap_addr (R s j) = r_base (R s j) /\ r_map (R s j) = r_len (R s j).
Proof.
  intros Hp I Hj M. destruct (i_geo _ _ I j ltac:(lia)) as (_ & G). destruct (G ltac:(lia)) as (G1 & G2 & G3 & G4 & G5).
  split; [|exact G4]. unfold munmap_ok, munmap_addr in *. apply Z.eqb_eq in M. rewrite G5 in *.
  set (g := r_guard (R s j)) in *. set (p := c_page c) in *. set (b := r_base (R s j)) in *.
  assert (E : g = p * ((b + (g + p - 1) / p * p) / p) - p * ((b + (g + p - 1) / p * p - g) / p)).
  { pose proof (Z.div_mod (b + (g + p - 1) / p * p - g) p ltac:(lia)).
    assert (X : (b + (g + p - 1) / p * p) mod p = 0) by (rewrite Z.mod_add by lia; exact G1).
    pose proof (Z.div_mod (b + (g + p - 1) / p * p) p ltac:(lia)). lia. }
  set (q := (b + (g + p - 1) / p * p) / p - (b + (g + p - 1) / p * p - g) / p).
  assert (Eg : g = q * p) by (subst q; lia).
  assert ((g + p - 1) / p = q).
  { rewrite Eg. replace (q * p + p - 1) with ((p - 1) + q * p) by lia. rewrite Z.div_add by lia. rewrite Z.div_small; lia. }
  rewrite H. lia.
Qed.

(** Pointwise equal states. *)
Definition same (s s' : st) : Prop :=
  n s = n s' /\ (forall i, T s i = T s' i) /\ (forall i, R s i = R s' i) /\ (forall i, claim s i = claim s' i).

Lemma inv_ext c s s' : same s s' -> inv c s -> inv c s'.
Proof.
  intros (En & ET & ER & EC) [].
  constructor; intros; rewrite <- ?En, <- ?ET, <- ?ER, <- ?EC in *; eauto 2.
  - destruct (i_det0 _ H H0) as (i & A & B & D). exists i. rewrite <- ?ET. auto.
Qed.

Lemma munmap_same c s j : 0 < c_page c -> inv c s -> (0 < j < n s)%nat -> munmap_ok c (R s j) = true ->
  r_mapped (R s j) = true ->
  same (with_rec s j (unmap (R s j))) (munmap s (munmap_addr (R s j)) (r_map (R s j))).
Proof.
  intros Hp I Hj M Mj. destruct (munmap_base c s j Hp I Hj M) as (E1 & E2).
  destruct (i_geo _ _ I j ltac:(lia)) as (_ & G). destruct (G ltac:(lia)) as (_ & _ & G3 & _ & _).
  unfold same, with_rec, munmap; cbn [n T R claim]. repeat split; auto.
  intros k. unfold fupd. rewrite E1, E2.
  destruct (Nat.eqb_spec k j) as [->|D].
  - replace (overlaps _ _ _) with true; [reflexivity|]. symmetry. unfold overlaps. apply andb_true_intro; split; apply Z.ltb_lt; lia.
  - destruct (overlaps _ _ (R s k)) eqn:O; [|reflexivity].
    destruct (r_mapped (R s k)) eqn:Mk.
    + destruct (le_lt_dec (n s) k) as [L|L].
      * destruct (i_out _ _ I k L) as (_ & _ & X). congruence.
      * exfalso. rewrite (i_disj _ _ I j k) in O; auto; try lia; discriminate.
    + unfold unmap. destruct (R s k); cbn in *. congruence.
Qed.

Lemma same_goto s s' i p : same s s' -> same (goto s i p) (goto s' i p).
Proof.
  intros (En & ET & ER & EC). unfold same, goto; cbn. repeat split; auto.
  intros k. unfold fupd. destruct (Nat.eqb k i); auto. now rewrite ET.
Qed.

Lemma actor_lt c s i : inv c s -> P s i <> Dead -> (i < n s)%nat.
Proof.
  intros I H. destruct (le_lt_dec (n s) i) as [L|L]; auto. destruct (i_out _ _ I i L) as (X & _). contradiction.
Qed.

Lemma init_inv c s : initial s -> inv c s.
Proof.
  intros (tid & sk & g & ta & b & len & H1 & H2 & ->). unfold init.
  constructor; cbn [n T R claim]; intros; 
    repeat match goal with
    | |- context [match ?x with O => _ | S _ => _ end] => destruct x; cbn in *
    | H : context [match ?x with O => _ | S _ => _ end] |- _ => destruct x; cbn in *
    end; auto; try lia; try discriminate; try contradiction; try tauto.
Qed.
