(** Lemmas closing the statements of Props_Layout.v. *)
From Coq Require Import ZifyBool ZifyNat.
From Verif Require Import Machine MachineFacts LayoutModel LayoutSpec LayoutFacts LayoutProofs LayoutTop LayoutTop2 LayoutTop3.

Section cr.
  Variables (ck : bool) (a : arch) (td : td_layout) (tls : tls_info) (page : Z).
  Variables (m : mem) (tpreg : Z) (ans : answers) (fn : Z) (args : list Z) (s g t : Z) (log : list sysev) (m' : mem).
  Hypothesis SC : successful_create ck a td tls page m tpreg ans fn args s g t log m'.
  Let Hwf := sc_env _ _ _ _ _ _ _ _ _ _ _ _ _ _ _ SC.
  Let Htd := wf_env_td _ _ _ _ Hwf.
  Let L := ideal a td tls page s g.

  Lemma sc_created : exists map sp, created a td tls page ck m tpreg ans fn args s g t log m' map sp.
  Proof. destruct SC. apply created_ok; auto. Qed.
  Lemma sc_good : good_layout tls page s g (meta_size a td) L.
  Proof. destruct SC. apply ideal_good; auto. Qed.

  Lemma td_word map sp o v : created a td tls page ck m tpreg ans fn args s g t log m' map sp ->
    In (o, v) [(o_stack_addr td, map + l_stack_bottom L); (o_stack_size td, s); (o_guard_size td, g); (o_map_size td, l_map_size L); (o_retval td, 0)] ->
    load_le m' (t + o) (word a) = v mod modulus (wsz a).
  Proof.
    intros C Hin. destruct C. fold L in cr_fields, cr_thread.
    rewrite <- pow_word. apply cr_fields.
    - unfold flds. apply in_or_app. right. rewrite <- cr_thread. unfold thread_flds.
      cbn in Hin. repeat destruct Hin as [Hin|Hin]; try contradiction; inversion Hin; subst; cbn; tauto.
    - intros E. eapply (td_ne_tid a td Htd) with (o := o); [|lia].
      cbn in Hin |- *. repeat destruct Hin as [Hin|Hin]; try contradiction; inversion Hin; subst; tauto.
  Qed.

  Lemma sc_bounds map sp : created a td tls page ck m tpreg ans fn args s g t log m' map sp ->
    0 < map /\ 4096 <= page <= 65536 /\ (page | map) /\ (page | map + l_stack_bottom L) /\
    map + l_map_size L <= modulus (wsz a) /\ l_stack_top L < l_map_size L /\ 0 <= g /\ 0 <= s /\
    align_to (l_map_size L) page < l_map_size L + page /\ l_map_size L <= align_to (l_map_size L) page /\
    map + align_to (l_map_size L) page <= modulus (wsz a) /\ (page | l_stack_bottom L).
  Proof.
    intros C. destruct C. fold L in cr_map. destruct cr_map as (P1 & P2 & P3).
    pose proof (al_facts a td tls page Hwf) as (_ & _ & PG & _).
    pose proof (align_to_bounds (l_map_size L) page ltac:(lia)) as AB. rewrite page_ceil_align in *.
    pose proof sc_good as []. destruct SC. unfold usize in *.
    pose proof (meta_size_bounds a td Htd) as MS. pose proof (td_size_pos a td Htd) as TS.
    repeat split; auto; try lia. apply Z.divide_add_r; auto.
  Qed.

  Lemma sc_stack_of : exists addr, stack_of a td m' t = (addr, s, g) /\
    (forall map sp, created a td tls page ck m tpreg ans fn args s g t log m' map sp -> addr = map + l_stack_bottom L).
  Proof.
    destruct sc_created as (map & sp & C). pose proof (sc_bounds _ _ C) as B.
    pose proof (ideal_good a td tls page Hwf s g (sc_stack _ _ _ _ _ _ _ _ _ _ _ _ _ _ _ SC) (sc_guard _ _ _ _ _ _ _ _ _ _ _ _ _ _ _ SC)) as G.
    fold L in G. destruct G.
    destruct (sc_stack _ _ _ _ _ _ _ _ _ _ _ _ _ _ _ SC), (sc_guard _ _ _ _ _ _ _ _ _ _ _ _ _ _ _ SC).
    exists (map + l_stack_bottom L). split.
    - unfold stack_of. rewrite (td_word map sp _ (map + l_stack_bottom L) C) by (cbn; tauto).
      rewrite (td_word map sp _ s C) by (cbn; tauto). rewrite (td_word map sp _ g C) by (cbn; tauto).
      rewrite !Z.mod_small by lia. reflexivity.
    - intros map' sp' C'. destruct C, C'. congruence.
  Qed.

  Lemma covered_in addr len x : (page | addr) -> 0 < page -> addr <= x < addr + align_to len page -> covered page addr len x = true.
  Proof.
    intros D P H. unfold covered. rewrite page_ceil_align.
    apply Z.mod_divide in D; [|lia]. rewrite D. destruct (Z.leb_spec addr x), (Z.ltb_spec x (addr + align_to len page)); cbn; try reflexivity; lia.
  Qed.
  Lemma covered_out addr len x : ~ (addr <= x < addr + align_to len page) -> covered page addr len x = false.
  Proof.
    intros H. unfold covered. rewrite page_ceil_align.
    destruct (addr mod page =? 0), (Z.leb_spec addr x), (Z.ltb_spec x (addr + align_to len page)); cbn; try reflexivity; lia.
  Qed.

  Lemma sc_prot p0 map sp : created a td tls page ck m tpreg ans fn args s g t log m' map sp ->
    (forall x, map + l_stack_bottom L <= x < map + l_map_size L -> prot_after page p0 log x = ReadWrite) /\
    (forall x, map <= x < map + l_stack_bottom L -> prot_after page p0 log x = NoAccess).
  Proof.
    intros C. pose proof (sc_bounds _ _ C) as B. destruct C. fold L in cr_log.
    rewrite cr_log. cbn [prot_after fold_left].
    pose proof (align_to_bounds (l_map_size L - l_stack_bottom L) page ltac:(lia)) as AB.
    unfold prot_after. cbn [fold_left prot_step].
    split; intros x Hx.
    - rewrite (covered_in (map + l_stack_bottom L)) by (try tauto; lia). reflexivity.
    - rewrite (covered_out (map + l_stack_bottom L)) by lia.
      rewrite (covered_in map) by (try tauto; pose proof sc_good as []; lia). reflexivity.
  Qed.
End cr.

(** C18 *)
Lemma stack_truthful ck a td tls page m tpreg ans fn args s g t log m' p0 :
  successful_create ck a td tls page m tpreg ans fn args s g t log m' ->
  exists addr, stack_of a td m' t = (addr, s, g) /\
    (forall x, addr <= x < addr + s -> prot_after page p0 log x = ReadWrite) /\
    (forall x, addr - g <= x < addr -> prot_after page p0 log x = NoAccess).
Proof.
  intros SC. destruct (sc_stack_of _ _ _ _ _ _ _ _ _ _ _ _ _ _ _ SC) as (addr & E & EA).
  destruct (sc_created _ _ _ _ _ _ _ _ _ _ _ _ _ _ _ SC) as (map & sp & C).
  pose proof (sc_prot _ _ _ _ _ _ _ _ _ _ _ _ _ _ _ SC p0 _ _ C) as [P1 P2].
  pose proof (sc_bounds _ _ _ _ _ _ _ _ _ _ _ _ _ _ _ SC _ _ C) as B.
  pose proof (sc_good _ _ _ _ _ _ _ _ _ _ _ _ _ _ _ SC) as [].
  rewrite (EA _ _ C) in *. exists (map + l_stack_bottom (ideal a td tls page s g)).
  split; [exact E|]. split; intros x Hx; [apply P1; lia|apply P2; lia].
Qed.

(** C19 *)
Lemma args_reach ck a td tls page m tpreg ans fn args s g t log m' p0 :
  successful_create ck a td tls page m tpreg ans fn args s g t log m' ->
  (forall v, In v args -> usize a v) ->
  exists sp ptid ctid tp r addr,
    In (SClone sp ptid ctid tp fn (Z.of_nat (length args)) r) log /\
    stack_of a td m' t = (addr, s, g) /\ addr <= sp /\
    (forall i v, nth_error args i = Some v -> load_le m' (sp + Z.of_nat i * wsz a) (word a) = v) /\
    (forall x, sp <= x < sp + Z.of_nat (length args) * wsz a -> prot_after page p0 log x = ReadWrite) /\
    (STACK_ALIGNMENT a | sp).
Proof.
  intros SC Hv. destruct (sc_stack_of _ _ _ _ _ _ _ _ _ _ _ _ _ _ _ SC) as (addr & E & EA).
  destruct (sc_created _ _ _ _ _ _ _ _ _ _ _ _ _ _ _ SC) as (map & sp & C).
  pose proof (sc_prot _ _ _ _ _ _ _ _ _ _ _ _ _ _ _ SC p0 _ _ C) as [P1 P2].
  pose proof (sc_bounds _ _ _ _ _ _ _ _ _ _ _ _ _ _ _ SC _ _ C) as B.
  pose proof (sc_good _ _ _ _ _ _ _ _ _ _ _ _ _ _ _ SC) as [].
  rewrite (EA _ _ C) in *. destruct C.
  pose proof (sa_facts a) as (S1 & S2 & S3 & S4).
  set (L := ideal a td tls page s g) in *.
  exists sp, (t + o_tid td), (t + o_tid td), (abi_at a td (map + l_header L) ThreadPointee), (ans_clone ans), (map + l_stack_bottom L).
  split; [rewrite cr_log; right; right; left; reflexivity|].
  split; [exact E|]. split; [exact cr_sp_lo|]. split; [|split].
  - intros i v Hi. rewrite (cr_args i v Hi). apply Z.mod_small. apply Hv. eapply nth_error_In; eauto.
  - intros x Hx. apply P1. lia.
  - rewrite cr_sp. apply Z.divide_sub_r; [|apply align_to_div].
    apply Z.divide_add_r; [|eapply Z.divide_trans; eauto].
    eapply Z.divide_trans; [exact S4|]. eapply Z.divide_trans; [|apply B].
    destruct (wf_page_bounds page (wf_env_page _ _ _ _ (sc_env _ _ _ _ _ _ _ _ _ _ _ _ _ _ _ SC))) as [PB1 PB2].
    apply pow2_le_div; auto using p16. lia.
Qed.

(** C20 *)
Lemma created_tls_fresh ck a td tls page m tpreg ans fn args s g t log m' L len map :
  successful_create ck a td tls page m tpreg ans fn args s g t log m' ->
  create_layout ck a td tls page s g = Some L -> In (SMmap len (Some map)) log ->
  fresh_tls tls m m' (map + l_tls L) /\
  exists sp, map + l_stack_bottom L <= sp /\ sp + Z.of_nat (length args) * wsz a <= map + l_stack_top L /\
    forall x, ~ inside (map + l_tls L) (tls_memsz tls) x -> ~ inside (map + l_header L) (meta_size a td) x ->
      ~ inside sp (Z.of_nat (length args) * wsz a) x -> m' x = m x.
Proof.
  intros SC EL Hin. destruct (sc_created _ _ _ _ _ _ _ _ _ _ _ _ _ _ _ SC) as (map' & sp & C). destruct C.
  assert (L = ideal a td tls page s g) by congruence. subst L.
  rewrite cr_log in Hin. destruct Hin as [E|[E|[E|[]]]]; inversion E; subst map'.
  split; [exact cr_fresh|]. exists sp. auto.
Qed.

Lemma main_tls_fresh ck a td tls page m sp ee rl random ans tid R :
  successful_main ck a td tls page m sp ee rl random ans tid R ->
  exists new n tb h, mr_log R = [SMmapRW n (Some new)] /\ mr_tp R = abi_at a td (new + h) ThreadPointee /\
    new <= new + tb /\ new + tb + tls_memsz tls <= new + n /\ new <= new + h /\ new + h + meta_size a td <= new + n /\
    fresh_tls tls m (mr_mem R) (new + tb) /\ (tls_align tls | new + tb) /\
    (forall x, ~ inside (new + tb) (tls_memsz tls) x -> ~ inside (new + h) (meta_size a td) x -> mr_mem R x = m x).
Proof.
  intros [E C M G T]. destruct (main_ok a td tls page E ck m sp ee rl random ans tid R C M G T) as (new & n & tb & h & X).
  destruct X. exists new, n, tb, h. repeat split; auto; try lia; try apply mn_fresh.
  destruct mn_map as (_ & D & _). apply Z.divide_add_r; [|auto].
  destruct E as [_ [W1 W2 W3] P]. apply wf_page_bounds in P. destruct P.
  eapply Z.divide_trans; [|exact D]. apply pow2_le_div; auto; lia.
Qed.

(** C23 *)
Lemma created_tp ck a td tls page m tpreg ans fn args s g t log m' sp p c tp f n r :
  successful_create ck a td tls page m tpreg ans fn args s g t log m' ->
  In (SClone sp p c tp f n r) log ->
  current a td m' tp = t /\ thread_pointer a m' tp = tp /\ id_of td m' t = r mod 2 ^ 32 /\
  load_le m' (canary_addr a tp) (word a) = load_le m (abi_at a td (current_metadata a td m tpreg) Canary) (word a) mod modulus (wsz a).
Proof.
  intros SC Hin. destruct (sc_created _ _ _ _ _ _ _ _ _ _ _ _ _ _ _ SC) as (map & sp' & C).
  pose proof (sc_bounds _ _ _ _ _ _ _ _ _ _ _ _ _ _ _ SC _ _ C) as B.
  pose proof (sc_good _ _ _ _ _ _ _ _ _ _ _ _ _ _ _ SC) as [].
  pose proof (wf_env_td _ _ _ _ (sc_env _ _ _ _ _ _ _ _ _ _ _ _ _ _ _ SC)) as Htd.
  set (L := ideal a td tls page s g) in *.
  destruct C. fold L in cr_log, cr_fields, cr_thread.
  rewrite cr_log in Hin. destruct Hin as [E|[E|[E|[]]]]; inversion E; subst sp p c tp f n r. clear E.
  assert (TH : tls_below a = true -> load_le m' (abi_at a td (map + l_header L) ThreadPointee) (word a) =
     abi_at a td (map + l_header L) ThreadPointee mod modulus (wsz a)).
  { intros TB. rewrite <- this_at at 1 by auto. rewrite <- pow_word. apply cr_fields; [apply flds_this; auto|].
    rewrite cr_thread. eapply (abi_ne_tid a td Htd) with (canary := 0). right. right. rewrite TB. left. reflexivity. }
  repeat split.
  - rewrite cr_thread. apply current_val; auto; lia.
  - apply tp_read; auto; lia.
  - exact cr_tid.
  - rewrite <- canary_at, <- pow_word. apply cr_fields; [apply flds_canary|].
    rewrite cr_thread. eapply (abi_ne_tid a td Htd) with (canary := 0). left. reflexivity.
Qed.

Lemma main_tp ck a td tls page m sp ee rl random ans tid R :
  successful_main ck a td tls page m sp ee rl random ans tid R ->
  current a td (mr_mem R) (mr_tp R) = mr_thread R /\ thread_pointer a (mr_mem R) (mr_tp R) = mr_tp R /\
  id_of td (mr_mem R) (mr_thread R) = tid mod 2 ^ 32 /\
  load_le (mr_mem R) (canary_addr a (mr_tp R)) (word a) = mr_guard R mod modulus (wsz a).
Proof.
  intros [E C M G T]. destruct (main_ok a td tls page E ck m sp ee rl random ans tid R C M G T) as (new & n & tb & h & X).
  pose proof (wf_env_td _ _ _ _ E) as Htd. destruct X. destruct mn_map as (P1 & P2 & P3).
  pose proof (wf_page_bounds _ (wf_env_page _ _ _ _ E)) as [PB _].
  pose proof (align_to_bounds n page ltac:(lia)) as AB. rewrite page_ceil_align in *.
  destruct mn_fields as (sb & lim & _ & _ & FL).
  assert (TH : tls_below a = true -> load_le (mr_mem R) (abi_at a td (new + h) ThreadPointee) (word a) =
     abi_at a td (new + h) ThreadPointee mod modulus (wsz a)).
  { intros TB. rewrite <- this_at at 1 by auto. rewrite <- pow_word. apply FL; [apply flds_this; auto|].
    rewrite mn_thread. eapply (abi_ne_tid a td Htd) with (canary := 0). right. right. rewrite TB. left. reflexivity. }
  rewrite mn_tp, mn_thread. repeat split.
  - apply current_val; auto; lia.
  - apply tp_read; auto; lia.
  - rewrite <- mn_thread. exact mn_tid.
  - rewrite <- canary_at, <- pow_word. apply FL; [apply flds_canary|].
    rewrite mn_thread. eapply (abi_ne_tid a td Htd) with (canary := 0). left. reflexivity.
Qed.
