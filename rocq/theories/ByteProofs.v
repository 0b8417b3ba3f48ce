(** The byte-level life cycle (ByteModel.v) refines the abstract one
    (ThreadModel.v). *)
From Coq Require Import ZArith List Bool Lia Arith ZifyBool ZifyNat.
From Verif Require Import Machine MachineFacts LayoutModel LayoutSpec LayoutFacts LayoutProofs
  LayoutTop LayoutTop2 LayoutTop3 LayoutTop4 ThreadModel ThreadSpec ThreadInv ThreadPres4 ThreadTop ByteModel.
Import ListNotations.
Open Scope Z_scope.

Definition dcode (d : det) : Z := match d with Initial => INITIAL | Detached => DETACHED | Abandoned => ABANDONED end.

Lemma fop_inv {A} (Q : A -> A -> Prop) x l : ForallOrdPairs Q (x :: l) -> Forall (Q x) l /\ ForallOrdPairs Q l.
Proof. intros H. inversion H. auto. Qed.

Lemma fop_nodup l : ForallOrdPairs (fun f g => apart (fst f) (snd f) (fst g) (snd g)) l -> Forall (fun f => 0 < snd f) l ->
  NoDup (map fst l).
Proof.
  induction l as [|x l IH]; intros H P; [constructor|]. apply fop_inv in H. destruct H as [H1 H2].
  apply Forall_cons_iff in P. destruct P as [P1 P2]. cbn. constructor; [|auto].
  intros Hin. apply in_map_iff in Hin. destruct Hin as (y & E & Hy).
  rewrite Forall_forall in H1, P2. specialize (H1 _ Hy). specialize (P2 _ Hy). unfold apart in H1. lia.
Qed.

Section byte.
  Variable e : benv.
  Notation a := (be_arch e).
  Notation td := (be_td e).
  Notation c := (be_cfg e).
  Hypothesis Hwf : wf_env a td (be_tls e) (c_page c).

  (** the bytes of [x]'s record encode [r] *)
  Record enc (m : mem) (x : inst) (r : trec) : Prop := {
    en_tid : ld_tid e m (i_t x) = r_tid r;
    en_det : ld_det e m (i_t x) = dcode (r_det r);
    en_ret : ld_ret e m (i_t x) = r_ret r;
    en_map : ld_map e m (i_t x) = r_map r;
    en_stack : load_le m (i_t x + o_stack_addr td) (word a) = r_stack r;
    en_guard : load_le m (i_t x + o_guard_size td) (word a) = r_guard r;
    en_cur : current a td m (i_tp x) = i_t x }.
  Record placed (x : inst) : Prop := {
    pl_lo : i_base x <= i_t x;
    pl_hi : i_t x + td_size td <= i_base x + i_len x;
    pl_tp : tls_below a = true -> i_base x <= i_tp x /\ i_tp x + wsz a <= i_base x + i_len x /\
            apart (i_tp x) (wsz a) (i_t x) (td_size td);
    pl_ctid : i_ctid x = i_t x + o_tid td }.

  Record rel (b : bst) (s : st) : Prop := {
    rl_n : n s = bn b;
    rl_T : forall i, T s i = bT b i;
    rl_c : forall j, claim s j = bclaim b j;
    rl_geo : forall j, r_base (R s j) = i_base (bI b j) /\ r_len (R s j) = i_len (bI b j) /\ r_mapped (R s j) = i_mapd (bI b j);
    rl_place : forall j, (j < n s)%nat -> placed (bI b j) /\ r_taddr (R s j) = i_ctid (bI b j);
    rl_enc : forall j, (j < n s)%nat -> r_mapped (R s j) = true -> enc (bmem b) (bI b j) (R s j);
    rl_guard : forall j, (0 < j < n s)%nat -> r_guard (R s j) = i_g (bI b j);
    rl_range : forall j, (0 < j < n s)%nat -> 0 <= munmap_addr (R s j) < modulus (wsz a);
    rl_val : forall i v, xval (P s i) = Some v -> usize a v;
    rl_loc : forall i, match P s i with DxSetTid | DxBlock | DxMunmap => True | _ => False end ->
        i_loc (bI b i) = (munmap_addr (R s i), r_map (R s i)) }.

  Let Htd : wf_td a td := wf_env_td _ _ _ _ Hwf.

  Lemma keeps_load m m' x o k : keeps e m m' x -> In (o, Z.of_nat k) (td_fields a td) ->
    load_le m' (i_t x + o) k = load_le m (i_t x + o) k.
  Proof.
    intros [K _] Hin. apply load_le_ext. intros z Hz. specialize (K _ Hin). cbn [fst snd] in K. apply K. lia.
  Qed.
  Lemma wsz_nat : wsz a = Z.of_nat (word a).
  Proof. symmetry. apply wsz_word. Qed.
  Lemma in_fields o k : In (o, k) [(o_tid td, 4%nat); (o_detached td, 1%nat); (o_stack_addr td, word a); (o_stack_size td, word a);
     (o_guard_size td, word a); (o_map_size td, word a); (o_retval td, word a)] -> In (o, Z.of_nat k) (td_fields a td).
  Proof.
    unfold td_fields. rewrite wsz_nat. cbn [In]. intros H.
    repeat destruct H as [H|H]; try contradiction; inversion H; subst; cbn; tauto.
  Qed.

  Lemma keeps_enc m m' x r : keeps e m m' x -> enc m x r -> enc m' x r.
  Proof.
    intros K [E1 E2 E3 E4 E5 E6 E7].
    constructor; unfold ld_tid, ld_det, ld_ret, ld_map in *;
      try (rewrite (keeps_load m m' x _ _ K); [assumption|apply in_fields; cbn; tauto]).
    transitivity (current a td m (i_tp x)); [|exact E7]. unfold current. f_equal. unfold current_metadata. f_equal. unfold thread_pointer.
    destruct (tls_below a) eqn:TB; [|reflexivity].
    apply load_le_ext. intros z Hz. destruct K as [_ K]. specialize (K TB). apply K. rewrite wsz_nat. lia.
  Qed.

  Lemma field_in o k : In (o, k) (td_fields a td) -> 0 <= o /\ o + k <= td_size td.
  Proof. intros H. exact (proj1 (Forall_forall _ _) (wf_td_in _ _ Htd) _ H). Qed.

  (** a store inside another thread's record, or mapping, keeps this one *)
  Lemma store_keeps m x y p k v : placed y -> (i_base x <= p /\ p + Z.of_nat k <= i_base x + i_len x) ->
    apart (i_base x) (i_len x) (i_base y) (i_len y) -> keeps e m (store_le m p k v) y.
  Proof.
    intros [L H TP _] Hp Ap. unfold apart in Ap. split.
    - intros [o w] Hin z Hz. cbn [fst snd] in Hz. pose proof (field_in _ _ Hin). apply store_apart. unfold inside. lia.
    - intros TB z Hz. destruct (TP TB) as (A1 & A2 & _). apply store_apart. unfold inside. lia.
  Qed.

  Lemma fields_apart f g : In f (td_fields a td) -> In g (td_fields a td) -> f <> g -> apart (fst f) (snd f) (fst g) (snd g).
  Proof.
    intros Hf Hg D. destruct (ForallOrdPairs_In (wf_td_apart _ _ Htd) _ _ Hf Hg) as [E|[E|E]]; [contradiction|exact E|].
    apply apart_sym. exact E.
  Qed.

  (** the loads of x's record after a store to one of its fields *)
  Lemma store_own m x o k v o' k' : placed x -> In (o, Z.of_nat k) (td_fields a td) -> In (o', Z.of_nat k') (td_fields a td) ->
    (o, Z.of_nat k) <> (o', Z.of_nat k') -> load_le (store_le m (i_t x + o) k v) (i_t x + o') k' = load_le m (i_t x + o') k'.
  Proof.
    intros Pl H1 H2 D. apply load_store_apart. pose proof (fields_apart _ _ H1 H2 D) as A. unfold apart in *. cbn [fst snd] in A. lia.
  Qed.
  Lemma store_cur m x o k v : placed x -> In (o, Z.of_nat k) (td_fields a td) ->
    current a td (store_le m (i_t x + o) k v) (i_tp x) = current a td m (i_tp x).
  Proof.
    intros [L H TP _] Hin. unfold current, current_metadata, thread_pointer. destruct (tls_below a) eqn:TB; [|reflexivity].
    destruct (TP eq_refl) as (_ & _ & Ap). rewrite load_store_apart; [reflexivity|].
    pose proof (field_in _ _ Hin). rewrite <- wsz_nat. unfold apart in *. lia.
  Qed.
  Lemma wpos : 0 < wsz a.
  Proof. destruct (wsz_cases a); lia. Qed.
  Lemma ne_pair f g : In f (td_fields a td) -> In g (td_fields a td) -> 0 < snd f -> 0 < snd g ->
     fst f = fst g -> f <> g -> False.
  Proof. intros H1 H2 P1 P2 E D. pose proof (fields_apart _ _ H1 H2 D) as A. unfold apart in A. lia. Qed.

  (** offsets of two different fields differ *)
  Lemma offs_ne : NoDup [o_tid td; o_detached td; o_stack_addr td; o_stack_size td; o_guard_size td; o_map_size td; o_retval td].
  Proof.
    change (NoDup (map fst (td_fields a td))). apply fop_nodup; [apply (wf_td_apart _ _ Htd)|].
    pose proof wpos. unfold td_fields. repeat (apply Forall_cons; [cbn; lia|]). apply Forall_nil.
  Qed.

  Ltac offs := let N := fresh "N" in pose proof offs_ne as N;
    repeat match goal with H : NoDup (_ :: _) |- _ => inversion H; clear H; subst end; cbn [In] in *; intuition congruence.

  Lemma mod_small_byte v : 0 <= v < 256 -> v mod 2 ^ (8 * Z.of_nat 1) = v.
  Proof. intros. apply Z.mod_small. cbn. lia. Qed.

  Ltac own_other := rewrite store_own; [assumption|assumption|apply in_fields; cbn; tauto|apply in_fields; cbn; tauto|
    let X := fresh in intros X; inversion X; offs].

  Lemma enc_det m x r d : placed x -> enc m x r -> enc (st_det e m (i_t x) (dcode d)) x (set_det r d).
  Proof.
    intros Pl [E1 E2 E3 E4 E5 E6 E7]. unfold st_det.
    constructor; unfold ld_tid, ld_det, ld_ret, ld_map in *; cbn [set_det r_tid r_det r_ret r_map r_stack r_guard]; try own_other.
    - rewrite load_store_same. apply mod_small_byte. destruct d; cbv; split; congruence.
    - rewrite store_cur; [assumption|assumption|apply in_fields; cbn; tauto].
  Qed.
  Lemma enc_ret m x r v : placed x -> usize a v -> enc m x r -> enc (st_ret e m (i_t x) v) x (set_ret r v).
  Proof.
    intros Pl Hv [E1 E2 E3 E4 E5 E6 E7]. unfold st_ret.
    constructor; unfold ld_tid, ld_det, ld_ret, ld_map in *; cbn [set_ret r_tid r_det r_ret r_map r_stack r_guard]; try own_other.
    - rewrite load_store_same. rewrite pow_word. apply Z.mod_small. exact Hv.
    - rewrite store_cur; [assumption|assumption|apply in_fields; cbn; tauto].
  Qed.
  Lemma enc_tid0 m x r : placed x -> enc m x r -> enc (store_le m (i_ctid x) 4 0) x (set_tid r 0).
  Proof.
    intros Pl [E1 E2 E3 E4 E5 E6 E7]. rewrite (pl_ctid _ Pl).
    constructor; unfold ld_tid, ld_det, ld_ret, ld_map in *; cbn [set_tid r_tid r_det r_ret r_map r_stack r_guard]; try own_other.
    - rewrite load_store_same. reflexivity.
    - rewrite store_cur; [assumption|assumption|apply in_fields; cbn; tauto].
  Qed.

  Lemma fu_same {A} (f : nat -> A) i v : fupd f i v i = v.
  Proof. unfold fupd. now rewrite Nat.eqb_refl. Qed.
  Lemma fu_other {A} (f : nat -> A) i v j : j <> i -> fupd f i v j = f j.
  Proof. intros. unfold fupd. destruct (Nat.eqb_spec j i); congruence. Qed.
  Lemma fu_ext {A} (f g : nat -> A) i v w : (forall j, f j = g j) -> v = w -> forall j, fupd f i v j = fupd g i w j.
  Proof. intros H -> j. unfold fupd. destruct (Nat.eqb j i); auto. Qed.

  (** ** Preservation *)
  Definition dx (p : pc) : Prop := match p with DxSetTid | DxBlock | DxMunmap => True | _ => False end.

  Lemma rel_task b s i t : rel b s -> (forall v, xval (t_pc t) = Some v -> usize a v) ->
    (dx (t_pc t) -> i_loc (bI b i) = (munmap_addr (R s i), r_map (R s i))) ->
    rel (btask b i t) (with_task s i t).
  Proof.
    intros [] Hv Hd. constructor; cbn [n T R claim with_task btask bn bT bI bclaim bmem]; auto.
    - intros. apply fu_ext; auto.
    - intros j v. unfold fupd. destruct (Nat.eqb j i); auto. apply rl_val0.
    - intros j. unfold fupd. destruct (Nat.eqb_spec j i) as [->|]; [apply Hd|apply rl_loc0].
  Qed.
  Lemma rel_goto b s i p : rel b s -> (forall v, xval p = Some v -> usize a v) ->
    (dx p -> i_loc (bI b i) = (munmap_addr (R s i), r_map (R s i))) ->
    rel (bgoto b i p) (goto s i p).
  Proof.
    intros Rl Hv Hd. unfold bgoto, goto. rewrite (rl_T _ _ Rl i). apply (rel_task b s i (set_pc (bT b i) p) Rl); auto.
  Qed.
  Lemma rel_claim b s j k : rel b s -> rel (bset_claim b j k) (with_claim s j k).
  Proof. intros []. constructor; cbn; auto. intros. apply fu_ext; auto. Qed.
  Lemma rel_loc b s i : rel b s -> rel (bset_loc b i (munmap_addr (R s i), r_map (R s i))) s.
  Proof.
    intros []. constructor; cbn [bset_loc bn bT bI bclaim bmem]; auto.
    - intros j. unfold fupd. destruct (Nat.eqb_spec j i) as [->|]; auto. apply rl_geo0.
    - intros j Hj. unfold fupd. destruct (Nat.eqb_spec j i) as [->|]; [|auto].
      destruct (rl_place0 i Hj) as [[] E]. split; [constructor; auto|exact E].
    - intros j Hj M. unfold fupd. destruct (Nat.eqb_spec j i) as [->|]; [|auto].
      destruct (rl_enc0 i Hj M). constructor; auto.
    - intros j Hj. rewrite rl_guard0 by auto. unfold fupd. destruct (Nat.eqb_spec j i) as [->|]; auto.
    - intros j. unfold fupd. destruct (Nat.eqb_spec j i) as [->|]; [reflexivity|apply rl_loc0].
  Qed.
  Lemma rel_write b s m' : rel b s ->
    (forall j, (j < bn b)%nat -> i_mapd (bI b j) = true -> keeps e (bmem b) m' (bI b j)) -> rel (bset_mem b m') s.
  Proof.
    intros [] K. constructor; cbn [bset_mem bn bT bI bclaim bmem]; auto.
    intros j Hj M. apply (keeps_enc (bmem b)); auto. apply K; [lia|]. destruct (rl_geo0 j) as (_ & _ & E). congruence.
  Qed.
  (** a store to a field of j's record *)
  Lemma rel_store b s j m' r' p k v : rel b s -> inv c s -> (j < n s)%nat -> r_mapped (R s j) = true ->
    m' = store_le (bmem b) p k v ->
    (i_base (bI b j) <= p /\ p + Z.of_nat k <= i_base (bI b j) + i_len (bI b j)) ->
    enc m' (bI b j) r' ->
    (r_base r' = r_base (R s j) /\ r_len r' = r_len (R s j) /\ r_mapped r' = r_mapped (R s j) /\ r_taddr r' = r_taddr (R s j) /\
     munmap_addr r' = munmap_addr (R s j) /\ r_map r' = r_map (R s j) /\ r_guard r' = r_guard (R s j)) ->
    rel (bset_mem b m') (with_rec s j r').
  Proof.
    intros [] Iv Hj M -> Hp En (Q1 & Q2 & Q3 & Q4 & Q5 & Q6 & Q7).
    constructor; cbn [bset_mem bn bT bI bclaim bmem with_rec n T R claim]; auto.
    - intros q. unfold fupd. destruct (Nat.eqb_spec q j) as [->|]; [|auto]. rewrite Q1, Q2, Q3. apply rl_geo0.
    - intros q Hq. unfold fupd. destruct (Nat.eqb_spec q j) as [->|]; [|auto]. rewrite Q4. auto.
    - intros q Hq Mq. destruct (Nat.eqb_spec q j) as [->|D]; [rewrite fu_same; exact En|].
      rewrite fu_other in * by auto. eapply keeps_enc; [|apply rl_enc0; auto].
      apply store_keeps with (x := bI b j); auto; [apply rl_place0; auto|].
      pose proof (i_disj _ _ Iv j q Hj Hq ltac:(auto) M Mq) as O.
      destruct (rl_geo0 j) as (<- & <- & _), (rl_geo0 q) as (<- & <- & _). unfold overlaps in O. unfold apart. lia.
    - intros q Hq. unfold fupd. destruct (Nat.eqb_spec q j) as [->|]; [rewrite Q7; auto|auto].
    - intros q Hq. unfold fupd. destruct (Nat.eqb_spec q j) as [->|]; [rewrite Q5; auto|auto].
    - intros q. unfold fupd. destruct (Nat.eqb_spec q j) as [->|]; [rewrite Q5, Q6; apply rl_loc0|apply rl_loc0].
  Qed.
  Lemma rel_munmap b s p len : rel b s -> rel (bmunmap b (p, len)) (munmap s p len).
  Proof.
    intros []. assert (O : forall j, boverlaps (p, len) (bI b j) = overlaps p len (R s j)).
    { intros j. unfold boverlaps, overlaps. cbn [fst snd]. destruct (rl_geo0 j) as (-> & -> & _). reflexivity. }
    constructor; cbn [bmunmap bn bT bI bclaim bmem munmap n T R claim]; auto.
    - intros j. rewrite O. destruct (overlaps p len (R s j)); cbn; [|auto]. destruct (rl_geo0 j) as (-> & -> & _). auto.
    - intros j Hj. rewrite O. destruct (rl_place0 j Hj) as [[] E]. destruct (overlaps p len (R s j)); cbn; split; auto; constructor; auto.
    - intros j Hj M. rewrite O. destruct (overlaps p len (R s j)); [discriminate|auto].
    - intros j Hj. rewrite O. specialize (rl_guard0 j Hj). destruct (overlaps p len (R s j)); auto.
    - intros j Hj. specialize (rl_range0 j Hj). destruct (overlaps p len (R s j)); auto.
    - intros j Hj. rewrite O. specialize (rl_loc0 j Hj). destruct (overlaps p len (R s j)); auto.
  Qed.

  (** the munmap request of a mapped thread *)
  Lemma req_of b s j : rel b s -> inv c s -> (j < n s)%nat -> r_mapped (R s j) = true ->
    snd (unmap_request e (bmem b) (i_t (bI b j))) = r_map (R s j) /\
    (r_map (R s j) <> 0 -> (0 < j)%nat -> unmap_request e (bmem b) (i_t (bI b j)) = (munmap_addr (R s j), r_map (R s j))).
  Proof.
    intros Rl Iv Hj M. destruct (rl_enc _ _ Rl j Hj M). unfold unmap_request, ld_map in *. cbn [snd].
    split; [assumption|]. intros N J. rewrite en_stack0, en_guard0. f_equal; [|assumption].
    unfold wrapping_sub. apply Z.mod_small. apply (rl_range _ _ Rl j). lia.
  Qed.

  Lemma own_of b s i : rel b s -> (i < n s)%nat -> r_mapped (R s i) = true -> own e b i = i_t (bI b i).
  Proof. intros Rl Hi M. destruct (rl_enc _ _ Rl i Hi M). exact en_cur0. Qed.

  Lemma dcode_inj d d' : dcode d = dcode d' -> d = d'.
  Proof. destruct d, d'; cbn; congruence || discriminate. Qed.
  Lemma mapped_main s : inv c s -> r_mapped (R s 0%nat) = true.
  Proof.
    intros Iv. destruct (r_mapped (R s 0%nat)) eqn:M; auto.
    destruct (i_main _ _ Iv) as [A B]. destruct (i_mapped _ _ Iv 0%nat (i_n _ _ Iv) M) as [G|[G _]];
      unfold self in *; destruct (P s 0%nat); discriminate.
  Qed.

  (** ** create *)
  Lemma create_facts ck m tpreg ans fn args s g t log m' len map sp p ctid tp nargs tid :
    successful_create ck a td (be_tls e) (c_page c) m tpreg ans fn args s g t log m' ->
    In (SMmap len (Some map)) log -> In (SClone sp p ctid tp fn nargs tid) log -> 0 < tid < 2 ^ 31 ->
    let r := TRec tid Initial 0 (map + (g + c_page c - 1) / c_page c * c_page c) g len ctid map len true in
    placed (Inst t tp ctid map len true (0, 0) g) /\
    enc m' (Inst t tp ctid map len true (0, 0) g) r /\
    map mod c_page c = 0 /\ 0 <= g /\ 0 < len /\ map <= ctid < map + len /\
    0 <= munmap_addr r < modulus (wsz a) /\ len <= page_ceil (c_page c) len /\
    (forall y, placed y -> apart map len (i_base y) (i_len y) -> keeps e m m' y).
  Proof.
    intros SC Hm Hc Ht r.
    destruct (created_tp _ _ _ _ _ _ _ _ _ _ _ _ _ _ _ _ _ _ _ _ _ _ SC Hc) as (CU & _ & TID & _).
    destruct (sc_created _ _ _ _ _ _ _ _ _ _ _ _ _ _ _ SC) as (map' & sp' & C).
    pose proof (sc_bounds _ _ _ _ _ _ _ _ _ _ _ _ _ _ _ SC _ _ C) as B.
    pose proof (sc_good _ _ _ _ _ _ _ _ _ _ _ _ _ _ _ SC) as G.
    pose proof (fun o v => td_word _ _ _ _ _ _ _ _ _ _ _ _ _ _ _ SC map' sp' o v C) as TW'.
    pose proof (ideal_top a td (be_tls e) (c_page c) s g) as [IT1 IT2].
    set (L := ideal a td (be_tls e) (c_page c) s g) in *.
    destruct C. fold L in cr_log, cr_fields, cr_thread, cr_frame, cr_sp_lo, cr_sp_hi.
    rewrite cr_log in Hm, Hc.
    destruct Hm as [E|[E|[E|[]]]]; inversion E; subst map' len. clear E.
    destruct Hc as [E|[E|[E|[]]]]; inversion E; subst sp' p ctid tp nargs tid. clear E.
    destruct G as [G1 G2 G3 G4 G5 G6 G7 G8 G9 G10].
    pose proof (parts_in a td Htd (map + l_header L)) as (P1 & P2 & P3 & P4 & P5).
    rewrite <- cr_thread in *.
    assert (TI : 0 <= o_tid td /\ o_tid td + 4 <= td_size td) by (apply field_in; cbn; tauto).
    pose proof (sc_guard _ _ _ _ _ _ _ _ _ _ _ _ _ _ _ SC) as Ug. pose proof (sc_stack _ _ _ _ _ _ _ _ _ _ _ _ _ _ _ SC) as Us.
    pose proof (meta_size_bounds a td Htd) as MS. pose proof (td_size_pos a td Htd) as TS.
    assert (D0 : load_le m' (t + o_detached td) 1 = 0).
    { rewrite (cr_fields (t + o_detached td) 1%nat 0); [reflexivity| |].
      - unfold flds. apply in_or_app. right. rewrite <- cr_thread. unfold thread_flds. cbn. tauto.
      - intros X. pose proof offs_ne as N. inversion N. subst. cbn [In] in *. intuition lia. }
    assert (RA : map + l_stack_bottom L = map + (g + c_page c - 1) / c_page c * c_page c) by (rewrite IT1; reflexivity).
    unfold usize in *. destruct B as (B1 & B2 & B3 & B4 & B5 & B6 & B7 & B8 & B9 & B10 & B11 & B12).
    split; [|split; [|split; [|split; [|split; [|split; [|split; [|split]]]]]]].
    - constructor; cbn [i_base i_t i_len i_tp i_ctid]; try lia.
      intros TB. rewrite tp_val. rewrite abi_size_val in *.
      assert (X : match a with X86_64 | X86 => 0 | Aarch64 => 8 | Arm => 4 | Riscv64 => 16 end = 0) by (destruct a; try discriminate; reflexivity).
      rewrite X. assert (Y : 0 < wsz a) by apply wpos. unfold apart in *.
      assert (Z : wsz a <= match a with X86_64 => 48 | X86 => 24 | Aarch64 => 24 | Arm => 16 | Riscv64 => 16 end) by (destruct a; try discriminate; cbn; lia).
      destruct a; try discriminate; cbn in *; lia.
    - constructor; cbn [i_t i_tp r_tid r_det r_ret r_map r_stack r_guard r]; unfold ld_tid, ld_det, ld_ret, ld_map.
      + unfold id_of in TID. rewrite TID. apply Z.mod_small. lia.
      + exact D0.
      + rewrite (TW' _ 0) by (cbn; tauto). reflexivity.
      + rewrite (TW' _ (l_map_size L)) by (cbn; tauto). apply Z.mod_small. lia.
      + rewrite (TW' _ (map + l_stack_bottom L)) by (cbn; tauto). rewrite Z.mod_small by lia. exact RA.
      + rewrite (TW' _ g) by (cbn; tauto). apply Z.mod_small. lia.
      + exact CU.
    - apply Z.mod_divide; [lia|auto].
    - lia.
    - lia.
    - lia.
    - unfold munmap_addr. cbn [r_stack r_guard r]. rewrite <- RA. lia.
    - rewrite page_ceil_align. lia.
    - intros y [Y1 Y2 Y3 _] Ap. unfold apart in Ap.
      pose proof (wf_tls_file _ _ (wf_env_tls _ _ _ _ Hwf)) as F.
      split.
      + intros [o w] Hin z Hz. cbn [fst snd] in Hz. pose proof (field_in _ _ Hin). apply cr_frame; unfold inside; lia.
      + intros TB z Hz. destruct (Y3 TB) as (A1 & A2 & _). apply cr_frame; unfold inside; lia.
  Qed.

  Lemma main_facts ck m sp ee rl random ans tid Rr len map :
    successful_main ck a td (be_tls e) (c_page c) m sp ee rl random ans tid Rr -> 0 < tid < 2 ^ 31 ->
    In (SMmapRW len (Some map)) (mr_log Rr) ->
    let x := Inst (mr_thread Rr) (mr_tp Rr) (mr_thread Rr + o_tid td) map len true (0, 0) (c_page c) in
    exists stack guard, placed x /\
      enc (mr_mem Rr) x (TRec tid Initial 0 stack guard 0 (mr_thread Rr + o_tid td) map len true) /\
      map <= mr_thread Rr + o_tid td < map + len.
  Proof.
    intros SM Ht Hin x.
    destruct (main_tp _ _ _ _ _ _ _ _ _ _ _ _ _ SM) as (CU & _ & TID & _).
    destruct SM as [E C M G Tm].
    destruct (main_ok a td (be_tls e) (c_page c) E ck m sp ee rl random ans tid Rr C M G Tm) as (new & k & tb & h & X).
    destruct X. rewrite mn_log in Hin. destruct Hin as [Q|[]]; inversion Q; subst new k. clear Q.
    pose proof (parts_in a td Htd (map + h)) as (P1 & P2 & P3 & P4 & P5). rewrite <- mn_thread in *.
    destruct mn_fields as (sb & lim & _ & _ & FL).
    assert (TI : 0 <= o_tid td /\ o_tid td + 4 <= td_size td) by (apply field_in; cbn; tauto).
    assert (W : forall o v, In (o, v) [(o_stack_addr td, sb - lim); (o_guard_size td, c_page c); (o_map_size td, 0); (o_retval td, 0)] ->
       load_le (mr_mem Rr) (mr_thread Rr + o) (word a) = v mod modulus (wsz a)).
    { intros o v Hin. rewrite <- pow_word. apply FL.
      - unfold flds. apply in_or_app. right. rewrite <- mn_thread. unfold thread_flds. cbn in Hin.
        repeat destruct Hin as [Hin|Hin]; try contradiction; inversion Hin; subst; cbn; tauto.
      - intros Y. eapply (td_ne_tid a td Htd) with (o := o); [|lia]. cbn in Hin.
        repeat destruct Hin as [Hin|Hin]; try contradiction; inversion Hin; subst; cbn; tauto. }
    assert (D0 : load_le (mr_mem Rr) (mr_thread Rr + o_detached td) 1 = 0).
    { rewrite (FL (mr_thread Rr + o_detached td) 1%nat 0); [reflexivity| |].
      - unfold flds. apply in_or_app. right. rewrite <- mn_thread. unfold thread_flds. cbn. tauto.
      - intros Y. pose proof offs_ne as N. inversion N. subst. cbn [In] in *. intuition lia. }
    pose proof (wf_page_bounds _ (wf_env_page _ _ _ _ E)) as [PB _].
    exists ((sb - lim) mod modulus (wsz a)), (c_page c mod modulus (wsz a)). split; [|split].
    - constructor; cbn [i_base i_t i_len i_tp i_ctid x]; try lia.
      intros TB. rewrite mn_tp, tp_val. rewrite abi_size_val in *. unfold apart in *.
      destruct a; try discriminate; cbn in *; lia.
    - constructor; cbn [i_t i_tp r_tid r_det r_ret r_map r_stack r_guard x]; unfold ld_tid, ld_det, ld_ret, ld_map; auto.
      + unfold id_of in TID. rewrite TID. apply Z.mod_small. lia.
      + rewrite (W _ 0) by (cbn; tauto). reflexivity.
      + rewrite (W _ 0) by (cbn; tauto). reflexivity.
      + apply (W _ (sb - lim)). cbn. tauto.
      + apply (W _ (c_page c)). cbn. tauto.
    - lia.
  Qed.
End byte.
