(** An executable scheduler for ThreadModel, to exhibit concrete runs.  It is
    sound for [step] ([sim_sound]); nothing else depends on it. *)
From Coq Require Import ZArith List Bool Lia Arith.
From Verif Require Import ThreadModel.
Import ListNotations.
Open Scope Z_scope.

Inductive act :=
| ACreate (i : nat) (base guard map tid taddr : Z)
| AJoin (i j : nat) | ADetach (i j : nat) | AId (i j : nat)
| AReturn (i : nat) (v : Z)
| ASleepIntr (i : nat) | ASignal (i : nat)
| AWake (i w : nat)
| AStep (i : nat).

Definition pc_run (p : pc) : bool := match p with Run => true | _ => false end.
Definition none {A} (o : option A) : bool := match o with None => true | _ => false end.
Definition all (m : nat) (f : nat -> bool) : bool := forallb f (seq 0 m).
Definition is_init (d : det) := match d with Initial => true | _ => false end.
Definition is_det (d : det) := match d with Detached => true | _ => false end.
Definition is_ab (d : det) := match d with Abandoned => true | _ => false end.

Definition do_act (c : cfg) (s : st) (a : act) : option (label * st) :=
  match a with
  | ACreate i base guard map tid taddr =>
      if Nat.ltb i (n s) && pc_run (t_pc (T s i)) && (0 <? tid) &&
         all (n s) (fun k => negb (alive (t_pc (T s k))) || negb (t_tid (T s k) =? tid)) &&
         (base mod c_page c =? 0) && (0 <=? guard) && (0 <? map) &&
         all (n s) (fun k => negb (r_mapped (R s k)) || negb (overlaps base map (R s k))) &&
         (base <=? taddr) && (taddr <? base + map) &&
         (c_reuse c || all (n s) (fun k => match t_pc (T s k) with KWake a => negb (a =? taddr) | _ => true end))
      then Some ((i, [i], ECreate (n s)),
        (St (S (n s))
          (fupd (T s) (n s) (Task Run tid true false None))
          (fupd (R s) (n s)
             (TRec tid Initial 0 (base + (guard + c_page c - 1) / c_page c * c_page c) guard map taddr base map true))
          (fupd (claim s) (n s) None)))
      else None
  | AJoin i j =>
      if Nat.ltb i (n s) && pc_run (t_pc (T s i)) && Nat.ltb j (n s) && none (claim s j)
      then Some ((i, [i], ECallJoin j), goto (with_claim s j (KJoin, i)) i (JLoad KJoin j)) else None
  | ADetach i j =>
      if Nat.ltb i (n s) && pc_run (t_pc (T s i)) && Nat.ltb j (n s) && none (claim s j)
      then Some ((i, [i], ECallDetach j), goto (with_claim s j (KDetach, i)) i (DSwap j)) else None
  | AId i j =>
      if Nat.ltb i (n s) && pc_run (t_pc (T s i)) && Nat.ltb j (n s) && (none (claim s j) || Nat.eqb j i)
      then Some ((i, [i; j], EId j (r_tid (R s j))), s) else None
  | AReturn i v =>
      if Nat.ltb 0 i && Nat.ltb i (n s) && pc_run (t_pc (T s i))
      then Some ((i, [i], EReturn v), with_task s i (set_fin (T s i) (XCas v) v)) else None
  | ASleepIntr i => match t_pc (T s i) with JSleep k j => Some ((i, [i], ENone), goto s i (JLoad k j)) | _ => None end
  | ASignal i =>
      if Nat.ltb i (n s) && c_handlers c && negb (t_block (T s i)) && user_pc (t_pc (T s i))
      then Some ((i, [i], ESignal), s) else None
  | AWake i w =>
      match t_pc (T s i), t_pc (T s w) with
      | KWake a, JSleep k j => if r_taddr (R s j) =? a then Some ((i, [], ENone), goto (goto s i Dead) w (JDone k j)) else None
      | _, _ => None end
  | AStep i =>
      match t_pc (T s i) with
      | JLoad k j => if r_tid (R s j) =? 0 then Some ((i, [i; j], ENone), goto s i (JDone k j))
                     else Some ((i, [i; j], ENone), goto s i (JFutex k j (r_tid (R s j))))
      | JFutex k j v => if r_tid (R s j) =? v then Some ((i, [i; j], ENone), goto s i (JSleep k j))
                        else Some ((i, [i; j], ENone), goto s i (JLoad k j))
      | JDone KJoin j => if is_ab (r_det (R s j)) || negb (c_debug c)
                         then Some ((i, [i; j], ENone), goto s i (JFree KJoin j (r_ret (R s j))))
                         else Some ((i, [i; j], ENone), goto s i Panicked)
      | JDone KDetach j => Some ((i, [i; j], ENone), goto s i (JFree KDetach j 0))
      | JFree k j rv => if r_map (R s j) =? 0 then Some ((i, [i; j], ENone), goto s i (JRet k j rv))
          else if munmap_ok c (R s j)
          then Some ((i, [i; j], EMunmap (munmap_addr (R s j)) (r_map (R s j))),
                     goto (munmap s (munmap_addr (R s j)) (r_map (R s j))) i (JRet k j rv))
          else Some ((i, [i; j], ENone), goto s i Panicked)
      | JRet KJoin j rv => Some ((i, [i], EJoin j rv), goto s i Run)
      | JRet KDetach j rv => Some ((i, [i], EDetach j), goto s i Run)
      | DSwap j => if is_ab (r_det (R s j))
          then Some ((i, [i; j], ENone), goto (with_rec s j (set_det (R s j) Detached)) i (JLoad KDetach j))
          else Some ((i, [i; j], EDetach j), goto (with_rec s j (set_det (R s j) Detached)) i Run)
      | XCas rv =>
          if is_init (r_det (R s i)) then Some ((i, [i], ENone), goto (with_rec s i (set_det (R s i) Abandoned)) i (XStore rv))
          else if is_det (r_det (R s i)) && negb (r_map (R s i) =? 0) then Some ((i, [i], ENone), goto s i DxSetTid) else None
      | XStore rv => Some ((i, [i], ENone), goto (with_rec s i (set_ret (R s i) rv)) i XExit)
      | XExit => Some ((i, [i], EExit), goto s i KClear)
      | DxSetTid => Some ((i, [i], ESetTidNull), with_task s i (set_clear (T s i) DxBlock false))
      | DxBlock => if c_sig c then Some ((i, [i], EBlockAll), with_task s i (set_block (T s i) DxMunmap))
                   else Some ((i, [i], ENone), goto s i DxMunmap)
      | DxMunmap => if munmap_ok c (R s i)
          then Some ((i, [i], EMunmap (munmap_addr (R s i)) (r_map (R s i))),
                     goto (munmap s (munmap_addr (R s i)) (r_map (R s i))) i DxExit)
          else Some ((i, [i], ENone), goto s i DxExit)
      | DxExit => Some ((i, [], EExit), goto s i KClear)
      | KClear => if t_clear (T s i)
          then Some ((i, [i], EKernelClear), goto (with_rec s i (set_tid (R s i) 0)) i (KWake (r_taddr (R s i))))
          else Some ((i, [], ENone), goto s i Dead)
      | KWake a => if all (n s) (fun w => match t_pc (T s w) with JSleep k j => negb (r_taddr (R s j) =? a) | _ => true end)
          then Some ((i, [], ENone), goto s i Dead) else None
      | _ => None
      end
  end.

Lemma all_spec m f : all m f = true -> forall k, (k < m)%nat -> f k = true.
Proof. unfold all. rewrite forallb_forall. intros H k L. apply H. apply in_seq. lia. Qed.

Ltac bools := repeat match goal with
  | H : _ && _ = true |- _ => apply andb_true_iff in H as [? ?]
  | H : Nat.ltb _ _ = true |- _ => apply Nat.ltb_lt in H
  | H : (_ <? _) = true |- _ => apply Z.ltb_lt in H
  | H : (_ <=? _) = true |- _ => apply Z.leb_le in H
  | H : (_ =? _) = true |- _ => apply Z.eqb_eq in H
  | H : (_ =? _) = false |- _ => apply Z.eqb_neq in H
  | H : negb _ = true |- _ => apply negb_true_iff in H
  | H : pc_run ?p = true |- _ => assert (p = Run) by (destruct p; cbn in H; congruence); clear H
  | H : none ?p = true |- _ => assert (p = None) by (destruct p; cbn in H; congruence); clear H
  | H : all _ _ = true |- _ => let X := fresh in pose proof (all_spec _ _ H) as X; cbv beta in X; clear H
  end.

Lemma do_act_sound c s a l s' : do_act c s a = Some (l, s') -> step c s l s'.
Proof.
  destruct a; cbn [do_act]; intros H.
  - match type of H with (if ?b then _ else _) = _ => destruct b eqn:B; [|discriminate] end. injection H as <- <-. bools.
    apply s_create; auto.
    + intros k L A. match goal with Q : forall k, _ -> negb (alive _) || _ = true |- _ => pose proof (Q k L) as X end.
      cbv beta in X. rewrite A in X. cbn in X. apply negb_true_iff, Z.eqb_neq in X. auto.
    + intros k L A. match goal with Q : forall k, _ -> negb (r_mapped _) || _ = true |- _ => pose proof (Q k L) as X end.
      cbv beta in X. rewrite A in X. cbn in X. now apply negb_true_iff in X.
    + intros C k a L E. match goal with Q : c_reuse c || _ = true |- _ => rewrite C in Q; cbn in Q; pose proof (all_spec _ _ Q k L) as X end.
      cbv beta in X. rewrite E in X. apply negb_true_iff, Z.eqb_neq in X. auto.
  - match type of H with (if ?b then _ else _) = _ => destruct b eqn:B; [|discriminate] end. injection H as <- <-. bools. apply s_join; auto.
  - match type of H with (if ?b then _ else _) = _ => destruct b eqn:B; [|discriminate] end. injection H as <- <-. bools. apply s_detach; auto.
  - match type of H with (if ?b then _ else _) = _ => destruct b eqn:B; [|discriminate] end. injection H as <- <-. bools. apply s_id; auto.
    match goal with H : _ || _ = true |- _ => apply orb_true_iff in H as [X|X] end; [left|right; now apply Nat.eqb_eq].
    destruct (claim s j); cbn in X; congruence.
  - match type of H with (if ?b then _ else _) = _ => destruct b eqn:B; [|discriminate] end. injection H as <- <-. bools. apply s_return; auto.
  - destruct (t_pc (T s i)) eqn:E; try discriminate. injection H as <- <-. now apply s_sleep_intr.
  - match type of H with (if ?b then _ else _) = _ => destruct b eqn:B; [|discriminate] end. injection H as <- <-. bools. apply s_signal; auto.
  - destruct (t_pc (T s i)) eqn:E; try discriminate. destruct (t_pc (T s w)) eqn:E2; try discriminate.
    destruct (r_taddr (R s j) =? addr) eqn:Q; [|discriminate]. injection H as <- <-. bools. eapply s_kwake; eauto.
  - destruct (t_pc (T s i)) eqn:E; try discriminate.
    + destruct (r_tid (R s j) =? 0) eqn:B; injection H as <- <-; bools; [apply s_load0|apply s_load]; auto.
    + destruct (r_tid (R s j) =? v) eqn:B; injection H as <- <-; bools; [eapply s_futex_sleep|eapply s_futex_again]; eauto.
    + destruct k.
      * destruct (is_ab (r_det (R s j)) || negb (c_debug c)) eqn:B; injection H as <- <-.
        -- apply s_join_load; auto. apply orb_true_iff in B as [B|B]; [left; destruct (r_det (R s j)); cbn in B; congruence|right; now apply negb_true_iff].
        -- apply orb_false_iff in B as (B1 & B2). apply s_join_assert; auto; [intros X; rewrite X in B1; discriminate|now apply negb_false_iff].
      * injection H as <- <-. now apply s_detach_done.
    + destruct (r_map (R s j) =? 0) eqn:B; [injection H as <- <-; bools; now apply s_free_none|].
      destruct (munmap_ok c (R s j)) eqn:M; injection H as <- <-; bools; [apply s_free|eapply s_free_einval]; eauto.
    + destruct k; injection H as <- <-; [apply s_ret_join|eapply s_ret_detach]; eauto.
    + destruct (is_ab (r_det (R s j))) eqn:B; injection H as <- <-; [apply s_swap|apply s_swap_running]; auto;
      destruct (r_det (R s j)); cbn in B; congruence.
    + destruct (is_init (r_det (R s i))) eqn:B; [injection H as <- <-; apply s_cas; auto; destruct (r_det (R s i)); cbn in B; congruence|].
      destruct (is_det (r_det (R s i)) && negb (r_map (R s i) =? 0)) eqn:M; [|discriminate]. injection H as <- <-. bools.
      assert (D : r_det (R s i) = Detached) by (destruct (r_det (R s i)); cbn in *; congruence).
      eapply s_cas_detached; eauto. congruence.
    + injection H as <- <-. now apply s_store.
    + injection H as <- <-. now apply s_exit.
    + injection H as <- <-. now apply s_dx_settid.
    + destruct (c_sig c) eqn:B; injection H as <- <-; [apply s_dx_block|apply s_dx_noblock]; auto.
    + destruct (munmap_ok c (R s i)) eqn:M; injection H as <- <-; [apply s_dx_munmap|apply s_dx_munmap_einval]; auto.
    + injection H as <- <-. now apply s_dx_exit.
    + destruct (t_clear (T s i)) eqn:B; injection H as <- <-; [apply s_kclear|apply s_kclear_null]; auto.
    + match type of H with (if ?b then _ else _) = _ => destruct b eqn:B; [|discriminate] end. injection H as <- <-.
      eapply s_kwake_none; eauto. intros w k j L X. pose proof (all_spec _ _ B w L) as Y. cbv beta in Y.
      rewrite X in Y. now apply negb_true_iff, Z.eqb_neq in Y.
Qed.

Fixpoint sim (c : cfg) (s : st) (tr : list label) (acts : list act) : option (list label * st) :=
  match acts with
  | [] => Some (tr, s)
  | a :: acts' => match do_act c s a with Some (l, s') => sim c s' (tr ++ [l]) acts' | None => None end
  end.
Lemma sim_exec c s0 acts : forall s tr tr' s', exec c s0 tr s -> sim c s tr acts = Some (tr', s') -> exec c s0 tr' s'.
Proof.
  induction acts as [|a acts IH]; cbn; intros s tr tr' s' E H.
  - injection H as <- <-. exact E.
  - destruct (do_act c s a) as [[l s1]|] eqn:D; [|discriminate]. eapply IH; [|exact H]. econstructor; [exact E|eapply do_act_sound; exact D].
Qed.

(** a concrete start: main thread with tid 100 *)
Definition s0 : st := init 100 8192 0 50 0 16384.
Lemma s0_initial : initial s0.
Proof. unfold initial, s0. exists 100, 8192, 0, 50, 0, 16384. repeat split; lia. Qed.

Definition simres (c : cfg) (acts : list act) : list label * st :=
  match sim c s0 [] acts with Some r => r | None => ([], s0) end.
Definition simok (c : cfg) (acts : list act) : bool := match sim c s0 [] acts with Some _ => true | None => false end.
Lemma sim_run c acts : simok c acts = true -> run c (fst (simres c acts)) (snd (simres c acts)).
Proof.
  unfold simok, simres. destruct (sim c s0 [] acts) as [[tr s]|] eqn:E; [|discriminate]. intros _. cbn [fst snd].
  exists s0. split; [exact s0_initial|]. eapply sim_exec; [constructor|exact E].
Qed.
