(** Property theorems C44, C54: libc mode.
    Vocabulary: [LibcSpec.v]; model: [LibcModel.v]. *)
From Verif Require Import Machine MachineFacts LayoutModel LayoutSpec LayoutProofs LibcModel LibcSpec LibcProofs.

(** * C44 *)
Lemma begun_prefix a q p t ls : begun a q p t = Some ls ->
  exists v, prefix (setup a q p ++ stores (wsz a) p (pack q) ++ LSpawn p 0 :: ls) (script a q p v).
Proof.
  intros B.
  assert (E0 : slot_at a p 0 = p) by (unfold slot_at; lia).
  assert (E1 : slot_at a p 1 = p + wsz a) by (unfold slot_at; lia).
  assert (E2 : slot_at a p 2 = p + 2 * wsz a) by (unfold slot_at; lia).
  assert (R : forall v r, LSpawn p 0 :: ls ++ r =
      [LSpawn p 0; LLoad p; LLoad (p + wsz a); LCall (q_fn q) (p + 2 * wsz a) (Z.of_nat (length (q_args q))); LRet v; LFree p; LReturn v] ->
      prefix (setup a q p ++ stores (wsz a) p (pack q) ++ LSpawn p 0 :: ls) (script a q p v)).
  { intros v r E. exists r. unfold script. rewrite <- E. unfold setup, pack_size, pack. rewrite <- !app_assoc. reflexivity. }
  unfold begun in B. rewrite E0, E1, E2 in B.
  destruct t; try discriminate.
  - injection B as <-. exists 0. eapply R. reflexivity.
  - destruct (_ =? _); [|discriminate]. injection B as <-. exists 0. eapply R. reflexivity.
  - destruct (_ && _); [|discriminate]. injection B as <-. exists 0. eapply R. reflexivity.
  - injection B as <-. exists 0. eapply R. reflexivity.
  - injection B as <-. exists v. eapply R. reflexivity.
  - injection B as <-. exists v. eapply R. reflexivity.
  - injection B as <-. exists v. eapply R. reflexivity.
Qed.

Lemma stores_app w : forall l1 l2 p, exists r, stores w p (l1 ++ l2) = stores w p l1 ++ r.
Proof.
  induction l1 as [|x l1 IH]; intros l2 p; [eexists; reflexivity|].
  cbn [app stores]. destruct (IH l2 (p + w)) as [r E]. rewrite E. exists r. reflexivity.
Qed.

(** In every interleaving of any number of calls, threads and user code, with
    any answers of libc: what one `create` call and its thread have done so far
    is an initial part of the script for that call, or the script up to a libc
    call that failed, whose error `create` then returns. *)
Theorem C44_script a m0 tr s i : lrun a m0 tr s -> own i tr <> [] ->
  exists q, hd_error (own i tr) = Some (LCreate q) /\
  ((exists p v, prefix (own i tr) (script a q p v) /\ forall e, create_result s i <> Some (Some e)) \/
   (exists e, failed a q e (own i tr) /\ create_result s i = Some (Some e))).
Proof.
  intros R N. destruct (lrun_inv _ _ _ _ R) as [I1 _]. specialize (I1 i).
  destruct (rec s i) as [r|] eqn:E; [|contradiction]. destruct I1 as (W & S & _).
  exists (k_req r). unfold create_result. rewrite E. unfold story_ok in S.
  destruct (k_pc r) eqn:Epc.
  - destruct S as (-> & _). split; [reflexivity|]. left. exists 0, 0. split; [eexists; reflexivity|congruence].
  - destruct S as (-> & _). split; [reflexivity|]. left. exists 0, 0. split; [eexists; reflexivity|congruence].
  - destruct S as (-> & _). split; [reflexivity|]. left. exists 0, 0. split; [eexists; reflexivity|congruence].
  - destruct S as (-> & _). split; [reflexivity|]. left. exists 0, 0. split; [eexists; reflexivity|congruence].
  - destruct S as (Hk & -> & _). split; [reflexivity|]. left. exists (k_arg r), 0. split; [|congruence].
    unfold script. destruct (stores_app (wsz a) (firstn k (pack (k_req r))) (skipn k (pack (k_req r))) (k_arg r)) as [q Eq].
    rewrite firstn_skipn in Eq. unfold pack in Eq at 1. rewrite Eq. unfold prefix, setup, pack_size. eexists. rewrite <- !app_assoc. reflexivity.
  - destruct S as (t & B & -> & _). split; [reflexivity|]. left. destruct (begun_prefix _ _ _ _ _ B) as (v & P).
    exists (k_arg r), v. split; [exact P|congruence].
  - destruct S as (_ & S).
    assert (H : hd_error (own i tr) = Some (LCreate (k_req r))).
    { destruct S as [(_ & ->)|[(_ & ->)|[(_ & ->)|[(_ & ->)|(_ & -> & _)]]]]; reflexivity. }
    split; [exact H|]. right. exists e. split; [|reflexivity]. unfold failed.
    destruct S as [S|[S|[S|[(-> & S)|(S1 & S & _)]]]]; [tauto|tauto|tauto| |].
    + right; right; right; left. split; [reflexivity|exact S].
    + right; right; right; right. split; [exact S1|]. exists (k_arg r). exact S.
Qed.
Print Assumptions C44_script.

Lemma at_t_inv a m0 tr s i r : lrun a m0 tr s -> rec s i = Some r -> k_t r <> TNone ->
  k_pc r = KOk /\ (exists t, begun a (k_req r) (k_arg r) (k_t r) = Some t /\
     own i tr = setup a (k_req r) (k_arg r) ++ stores (wsz a) (k_arg r) (pack (k_req r)) ++ LSpawn (k_arg r) 0 :: t /\
     k_live r = match k_t r with TFreed _ | TExit _ => false | _ => true end) /\
  (k_live r = true -> forall k v, (k < intact r)%nat -> nth_error (pack (k_req r)) k = Some v ->
     load_le (lmem s) (slot_at a (k_arg r) k) (word a) = v).
Proof.
  intros R E T. destruct (lrun_inv _ _ _ _ R) as [I1 _]. specialize (I1 i). rewrite E in I1. destruct I1 as (W & S & M).
  assert (Pc : k_pc r = KOk) by (eapply t_ok; eassumption). unfold story_ok in S. rewrite Pc in S. auto.
Qed.

(** The function is called with a slice that holds the arguments at that moment. *)
Theorem C44_arguments a m0 tr s i f ptr len s' : lrun a m0 tr s -> lstep a s i (LCall f ptr len) s' ->
  exists q, hd_error (own i tr) = Some (LCreate q) /\ f = q_fn q /\ len = Z.of_nat (length (q_args q)) /\
  forall k v, nth_error (q_args q) k = Some v -> load_le (lmem s') (ptr + Z.of_nat k * wsz a) (word a) = v.
Proof.
  intros R St. inversion St as [| | | | | | | | | |i' r n f' Er Et| | | | | |]; subst.
  destruct (at_t_inv _ _ _ _ _ _ R Er ltac:(congruence)) as (Pc & (t & B & El & L) & M). rewrite Et in B, L.
  cbn [begun] in B. destruct ((n =? _) && _) eqn:En; [|discriminate]. apply andb_true_iff in En. destruct En as [En Ef]. apply Z.eqb_eq in En, Ef. subst.
  exists (k_req r). split; [rewrite El; reflexivity|]. split; [reflexivity|]. split; [lia|].
  intros k v Hk. replace (slot_at a (k_arg r) 2 + Z.of_nat k * wsz a) with (slot_at a (k_arg r) (S (S k))) by (unfold slot_at; lia).
  cbn [setrec lmem]. apply M; [exact L| |exact Hk]. unfold intact. rewrite Pc, Et, pack_length.
  assert (k < length (q_args (k_req r)))%nat by (apply nth_error_Some; congruence). lia.
Qed.
Print Assumptions C44_arguments.

(** join returns what the function returned; by then the whole script was run. *)
Theorem C44_join a m0 tr s i v s' : lrun a m0 tr s -> lstep a s i (LJoin v) s' ->
  exists q p, own i tr = script a q p v.
Proof.
  intros R St. inversion St as [| | | | | | | | | | | | | |i' r v' Er Et Ej| |]; subst.
  destruct (at_t_inv _ _ _ _ _ _ R Er ltac:(congruence)) as (Pc & (t & B & El & L) & M). rewrite Et in B. injection B as <-.
  exists (k_req r), (k_arg r). rewrite El. unfold script, setup, pack_size, pack, slot_at. cbn [Z.of_nat Pos.of_succ_nat Pos.succ]. rewrite Z.mul_0_l, Z.add_0_r, Z.mul_1_l. reflexivity.
Qed.
Print Assumptions C44_join.

(** Packs allocated and not yet freed never overlap, so no call's stores and
    loads meet another's pack. *)
Lemma live_rec a m0 tr s i n p : lrun a m0 tr s -> In (LMalloc n p) (own i tr) -> p <> 0 -> ~ In (LFree p) (own i tr) ->
  exists r, rec s i = Some r /\ k_live r = true /\ k_arg r = p /\ n = pack_size a (k_req r).
Proof.
  intros R Hm Hp Hf. destruct (lrun_inv _ _ _ _ R) as [I1 _]. specialize (I1 i).
  destruct (rec s i) as [r|] eqn:E; [|rewrite I1 in Hm; destruct Hm]. exists r. split; [reflexivity|].
  destruct I1 as (W & S & _). unfold story_ok in S.
  assert (NS : forall w q vs, ~ In (LMalloc n p) (stores w q vs)).
  { intros w q vs. revert q. induction vs; cbn; [tauto|]. intros q [H|H]; [discriminate|]. eapply IHvs; eauto. }
  assert (SU : forall q p' rest, In (LMalloc n p) (setup a q p' ++ stores (wsz a) p' (pack q) ++ rest) -> ~ In (LMalloc n p) rest -> p' = p /\ n = pack_size a q).
  { intros q p' rest H Nr. apply in_app_iff in H. destruct H as [H|H].
    - cbn in H. destruct H as [H|[H|[H|[H|[H|[]]]]]]; try discriminate. injection H as <- <-. auto.
    - apply in_app_iff in H. destruct H as [H|H]; [destruct (NS _ _ _ H)|contradiction]. }
  destruct (k_pc r).
  - destruct S as (S & _). rewrite S in Hm. cbn in Hm. intuition discriminate.
  - destruct S as (S & _). rewrite S in Hm. cbn in Hm. intuition discriminate.
  - destruct S as (S & _). rewrite S in Hm. cbn in Hm. intuition discriminate.
  - destruct S as (S & _). rewrite S in Hm. cbn in Hm. intuition discriminate.
  - destruct S as (_ & S & _ & L). split; [exact L|]. rewrite S in Hm. apply in_app_iff in Hm. destruct Hm as [H|H]; [|destruct (NS _ _ _ H)].
    cbn in H. destruct H as [H|[H|[H|[H|[H|[]]]]]]; try discriminate. injection H as <- <-. auto.
  - destruct S as (t & B & S & L). rewrite S in Hm, Hf.
    assert (Nt : ~ In (LMalloc n p) (LSpawn (k_arg r) 0 :: t)).
    { cbn [In]. intros [H|H]; [discriminate|]. unfold begun in B. destruct (k_t r); try discriminate;
        try (destruct (_ =? _) in B; [|discriminate]); try (destruct (_ && _) in B; [|discriminate]);
        injection B as <-; cbn in H; intuition discriminate. }
    destruct (SU _ _ _ Hm Nt) as [<- ->]. split; [|auto]. rewrite L. unfold begun in B.
    destruct (k_t r); try reflexivity; injection B as <-; destruct Hf; apply in_app_iff; right; apply in_app_iff; right; cbn; auto 10.
  - destruct S as (_ & [(_ & S)|[(_ & S)|[(_ & S)|[(_ & S)|(_ & S & L)]]]]); rewrite S in Hm; try (cbn in Hm; intuition discriminate).
    + cbn in Hm. destruct Hm as [H|[H|[H|[H|[H|[]]]]]]; try discriminate. injection H as <- <-. congruence.
    + split; [exact L|]. apply SU in Hm; [tauto|]. cbn. intuition discriminate.
Qed.
Theorem C44_apart a m0 tr s i j n p n' p' : lrun a m0 tr s -> i <> j ->
  In (LMalloc n p) (own i tr) -> p <> 0 -> ~ In (LFree p) (own i tr) ->
  In (LMalloc n' p') (own j tr) -> p' <> 0 -> ~ In (LFree p') (own j tr) ->
  p + n <= p' \/ p' + n' <= p.
Proof.
  intros R N H1 H2 H3 H4 H5 H6.
  destruct (live_rec _ _ _ _ _ _ _ R H1 H2 H3) as (r & E & L & <- & ->). destruct (live_rec _ _ _ _ _ _ _ R H4 H5 H6) as (r' & E' & L' & <- & ->).
  destruct (lrun_inv _ _ _ _ R) as [_ I2]. exact (I2 _ _ _ _ N E E' L L').
Qed.
Print Assumptions C44_apart.

(** After a failed `create` nothing runs ... *)
Theorem C44_failed a q e ls f ptr len : failed a q e ls -> ~ In (LCall f ptr len) ls /\ ~ In (LSpawn ptr 0) ls.
Proof.
  intros H.
  assert (NS : forall l w q vs, In l (stores w q vs) -> exists x y, l = LStore x y).
  { intros l w q0 vs. revert q0. induction vs; cbn; [tauto|]. intros q0 [<-|H']; [eauto|]. eapply IHvs; eauto. }
  destruct H as [(_ & ->)|[(_ & ->)|[(_ & ->)|[(_ & ->)|(Ne & p & ->)]]]]; try (cbn; split; intuition congruence).
  split; intros H; apply in_app_iff in H; destruct H as [H|H]; try (cbn in H; intuition discriminate);
    apply in_app_iff in H; destruct H as [H|H]; try (destruct (NS _ _ _ _ H) as (x & y & ?); discriminate); cbn in H; destruct H as [H|[]]; congruence.
Qed.
(** ... but the pack of a call whose pthread_create failed is never freed,
    whatever happens afterwards: a leak. *)
Lemma in_stores l w vs : forall q, In l (stores w q vs) -> exists x y, l = LStore x y.
Proof. induction vs; cbn; [tauto|]. intros q [<-|H]; [eauto|]. eapply IHvs; eauto. Qed.

Theorem C44_never_freed a m0 tr s i p e : lrun a m0 tr s -> e <> 0 -> In (LSpawn p e) (own i tr) ->
  (exists n, In (LMalloc n p) (own i tr)) /\ forall x, ~ In (LFree x) (own i tr).
Proof.
  intros R Ne H. assert (N : own i tr <> []) by (intros E; rewrite E in H; destruct H).
  destruct (C44_script _ _ _ _ _ R N) as (q & _ & [(p' & v & (r & P) & _)|(e' & F & _)]).
  - exfalso. assert (H' : In (LSpawn p e) (script a q p' v)) by (rewrite P; apply in_app_iff; auto).
    unfold script in H'. apply in_app_iff in H'. destruct H' as [H'|H']; [cbn in H'; intuition discriminate|].
    apply in_app_iff in H'. destruct H' as [H'|H']; [destruct (in_stores _ _ _ _ H') as (x & y & ?); discriminate|].
    cbn in H'. destruct H' as [H'|H']; [injection H' as _ <-; congruence|intuition discriminate].
  - destruct F as [(_ & F)|[(_ & F)|[(_ & F)|[(_ & F)|(Ne' & p' & F)]]]]; rewrite F in H |- *; try (cbn in H; intuition discriminate).
    assert (p' = p) as ->.
    { apply in_app_iff in H. destruct H as [H|H]; [cbn in H; intuition discriminate|].
      apply in_app_iff in H. destruct H as [H|H]; [destruct (in_stores _ _ _ _ H) as (x & y & ?); discriminate|].
      cbn in H. destruct H as [H|[]]. injection H as H _. exact H. }
    split.
    + eexists. apply in_app_iff. left. cbn. auto 10.
    + intros x Hx. apply in_app_iff in Hx. destruct Hx as [Hx|Hx]; [cbn in Hx; intuition discriminate|].
      apply in_app_iff in Hx. destruct Hx as [Hx|Hx]; [destruct (in_stores _ _ _ _ Hx) as (y & z & ?); discriminate|].
      cbn in Hx. intuition discriminate.
Qed.
Print Assumptions C44_never_freed.

(** Concrete runs: one that leaks, one that completes and is joined. *)
Definition ex_q : creq := CReq 0x4000 [7; 0] 0x10000 0x1000.
Lemma ex_wf : wf_req X86_64 ex_q.
Proof.
  unfold wf_req. change (modulus (wsz X86_64)) with 18446744073709551616. unfold ex_q. cbn [q_fn q_args]. split; [split; [discriminate|reflexivity]|].
  split; [intros v [<-|[<-|[]]]; split; (discriminate || reflexivity)|]. vm_compute. reflexivity.
Qed.
Lemma ex_spawning m0 err : exists tr s r, lrun X86_64 m0 tr s /\
  own 0 tr = setup X86_64 ex_q 0x9000 ++ stores 8 0x9000 (pack ex_q) ++ [LSpawn 0x9000 err] /\
  rec s 0%nat = Some r /\ k_t r = (if err =? 0 then TStart else TNone) /\ k_arg r = 0x9000 /\ k_join r = (err =? 0) /\
  k_req r = ex_q.
Proof.
  eexists _, _, _. split.
  - eapply lr_step. eapply lr_step. eapply lr_step. eapply lr_step. eapply lr_step. eapply lr_step.
    eapply lr_step. eapply lr_step. eapply lr_step. eapply lr_step. apply lr_nil.
    + apply (s_create X86_64 _ 0%nat ex_q); [reflexivity|apply ex_wf].
    + eapply (s_init X86_64 _ 0%nat _ 0); reflexivity.
    + eapply (s_stack X86_64 _ 0%nat _ 0); reflexivity.
    + eapply (s_guard X86_64 _ 0%nat _ 0); reflexivity.
    + eapply (s_malloc X86_64 _ 0%nat _ 0x9000); [reflexivity|reflexivity|lia|vm_compute; discriminate|].
      intros j r. cbn. destruct j; cbn; [|discriminate]. intros E; injection E as <-. discriminate.
    + eapply (s_store X86_64 _ 0%nat _ 0 2); reflexivity.
    + eapply (s_store X86_64 _ 0%nat _ 1 0x4000); reflexivity.
    + eapply (s_store X86_64 _ 0%nat _ 2 7); reflexivity.
    + eapply (s_store X86_64 _ 0%nat _ 3 0); reflexivity.
    + eapply (s_spawn X86_64 _ 0%nat _ 4 err); reflexivity.
  - split; [reflexivity|]. split; [cbn [setrec rec Nat.eqb]; reflexivity|]. destruct (err =? 0); repeat split.
Qed.
Theorem C44_leak_refuted m0 : exists tr s n, lrun X86_64 m0 tr s /\ In (LMalloc n 0x9000) (own 0 tr) /\ create_result s 0 = Some (Some 11) /\
  forall new s', lrun X86_64 m0 (new ++ tr) s' -> forall x, ~ In (LFree x) (own 0 (new ++ tr)).
Proof.
  destruct (ex_spawning m0 11) as (tr & s & r & R & O & Er & Et & _).
  assert (Hs : In (LSpawn 0x9000 11) (own 0 tr)) by (rewrite O; cbn; auto 20).
  assert (N11 : 11 <> 0) by lia.
  exists tr, s. destruct (C44_never_freed _ _ _ _ _ _ _ R N11 Hs) as ((n & Hn) & _). exists n.
  split; [exact R|]. split; [exact Hn|]. split.
  - assert (N : own 0 tr <> []) by (rewrite O; discriminate).
    destruct (C44_script _ _ _ _ _ R N) as (q & Hq & [(p & v & (r' & P) & _)|(e & F & C)]).
    + exfalso. assert (H' : In (LSpawn 0x9000 11) (script X86_64 q p v)) by (rewrite P; apply in_app_iff; auto).
      unfold script in H'. apply in_app_iff in H'. destruct H' as [H'|H']; [cbn in H'; intuition discriminate|].
      apply in_app_iff in H'. destruct H' as [H'|H']; [destruct (in_stores _ _ _ _ H') as (x & y & ?); discriminate|]. cbn in H'. intuition discriminate.
    + rewrite C. do 2 f_equal. rewrite O in F, Hq.
      destruct F as [(_ & F)|[(_ & F)|[(_ & F)|[(_ & F)|(Ne' & p' & F)]]]]; try discriminate.
      injection Hq as <-. injection F. intros. congruence.
  - intros new s' R'. assert (Hs' : In (LSpawn 0x9000 11) (own 0 (new ++ tr))).
    { unfold own in Hs |- *. rewrite <- in_rev in Hs |- *. apply in_map_iff in Hs. destruct Hs as (e & Ee & He).
      apply in_map_iff. exists e. split; [exact Ee|]. rewrite filter_app. apply in_app_iff. right. exact He. }
    exact (proj2 (C44_never_freed _ _ _ _ _ _ _ R' N11 Hs')).
Qed.
Theorem C44_ex m0 v : exists tr s s', lrun X86_64 m0 tr s /\ lstep X86_64 s 0 (LJoin v) s'.
Proof.
  destruct (ex_spawning m0 0) as (tr & s & r & R & O & Er & Et & Ea & Ej & Eq). cbn in Et, Ej.
  eexists _, _, _. split.
  - eapply lr_step. eapply lr_step. eapply lr_step. eapply lr_step. eapply lr_step. eapply lr_step. exact R.
    + eapply (s_count _ _ 0%nat); eassumption.
    + eapply (s_fn _ _ 0%nat); reflexivity.
    + eapply (s_call _ _ 0%nat); reflexivity.
    + eapply (s_ret _ _ 0%nat _ v); reflexivity.
    + eapply (s_free _ _ 0%nat); reflexivity.
    + eapply (s_return _ _ 0%nat); reflexivity.
  - eapply (s_join _ _ 0%nat); [reflexivity|reflexivity|exact Ej].
Qed.

(** * C54 exit functions in libc mode *)
(** libc calls the pairs it was given, most recent first, each once.  Then, in
    every history (registrations from any thread at any time, also from exit
    functions), on each list origin calls the registered closures most recent
    first, each at most once, and never uses a box it has freed. *)
Theorem C54_exit_functions tr s : erun tr s ->
  (forall l box, ~ In (EDouble l box) tr) /\ forall l, exists fs, waiting l tr = Some fs /\ length fs = length (regs_of s l).
Proof.
  intros R. pose proof (erun_einv _ _ R) as (_ & _ & _ & I4). split.
  - intros l box H. destruct (I4 l) as (fs & W & _). clear I4 R. revert fs W H.
    induction tr as [|e tr IH]; intros fs W H; [destruct H|]. destruct H as [->|H]; [discriminate|].
    cbn [waiting] in W. destruct e as [k f x|k f x|k x]; [| |discriminate].
    + destruct (same_list l k); [|eauto]. destruct (waiting l tr) eqn:E; [|discriminate]. eauto.
    + destruct (same_list l k); [|eauto]. destruct (waiting l tr) eqn:E; [|discriminate]. eauto.
  - intros l. destruct (I4 l) as (fs & W & M). exists fs. split; [exact W|].
    apply (f_equal (@length _)) in M. rewrite !map_length in M. congruence.
Qed.
Print Assumptions C54_exit_functions.
Theorem C54_ex : exists tr s, erun tr s /\ waiting None tr = Some [1%nat] /\ length tr = 5%nat.
Proof.
  eexists _, _. split.
  - eapply er_step. eapply er_step. eapply er_step. eapply er_step. eapply er_step. apply er_nil.
    + apply (e_reg _ None 1%nat 0x100). reflexivity.
    + apply (e_reg _ None 2%nat 0x200). reflexivity.
    + apply (e_reg _ (Some 3%nat) 7%nat 0x300). reflexivity.
    + apply (e_call _ None 0x200 [0x100] 2%nat); reflexivity.
    + apply (e_call _ (Some 3%nat) 0x300 [] 7%nat); reflexivity.
  - split; reflexivity.
Qed.

(** `trap`: with the default disposition the first SIGILL ends the process ... *)
Theorem C54_trap d k : d 0%nat = true -> trap_libc d 0 (S k) = (1%nat, true).
Proof. intros H. cbn. rewrite H. reflexivity. Qed.
(** ... but it loops for ever, raising signals, while SIGILL is ignored or handled. *)
Theorem C54_trap_loops d : (forall n, d n = false) -> forall k, trap_libc d 0 k = (k, false).
Proof. intros H k. rewrite trap_libc_spec by auto. reflexivity. Qed.
