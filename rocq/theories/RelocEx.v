(** A concrete static-PIE image and stack, used by the examples of
    Props_Reloc.v and Props_Start.v. *)
From Verif Require Import Machine MachineFacts LayoutModel RelocModel RelocSpec RelocFacts.

Definition poke (m : mem) (w : Z * nat * Z) : mem := store_le m (fst (fst w)) (snd (fst w)) (snd w).
Definition mem_of (l : list (Z * nat * Z)) : mem := fold_left poke l (fun _ => 0).
Fixpoint row (p : Z) (l : list Z) : list (Z * nat * Z) :=
  match l with [] => [] | w :: l => (p, 8%nat, w) :: row (p + 8) l end.

Lemma wf_mem_of l : wf_mem (mem_of l).
Proof.
  unfold mem_of. assert (H : forall m, wf_mem m -> wf_mem (fold_left poke l m)).
  { induction l as [|w l IH]; intros m W; cbn; auto. apply IH. apply wf_store_le. exact W. }
  apply H. intros x. lia.
Qed.

Fixpoint words_atb (a : arch) (m : mem) (p : Z) (l : list Z) : bool :=
  match l with
  | [] => true
  | w :: r => (load_le m (p mod modulus (wsz a)) (word a) =? w) && words_atb a m (p + wsz a) r
  end.
Lemma words_atb_ok a m : forall l p, words_atb a m p l = true -> words_at a m p l.
Proof.
  induction l as [|w l IH]; intros p H.
  - intros i w Hi. destruct i; discriminate.
  - cbn in H. apply andb_prop in H. destruct H as [H1 H2]. apply words_cons. split; [apply Z.eqb_eq; exact H1|auto].
Qed.

Definition apartb (p n q k : Z) : bool := (p + n <=? q) || (q + k <=? p).
Lemma apartb_ok p n q k : apartb p n q k = true -> apart p n q k.
Proof. unfold apartb, apart. intros H. apply orb_prop in H. destruct H as [H|H]; apply Z.leb_le in H; auto. Qed.
Definition keepsb (a : arch) (fx : list (Z * Z)) (p n : Z) : bool := forallb (fun f => apartb (fst f) (wsz a) p n) fx.
Lemma keepsb_ok a fx p n : keepsb a fx p n = true -> keeps a fx p n.
Proof. intros H f Hf. apply apartb_ok. unfold keepsb in H. rewrite forallb_forall in H. apply (H f Hf). Qed.
Definition keeps_wordsb (a : arch) (fx : list (Z * Z)) (p : Z) (n : nat) : bool :=
  forallb (fun i => keepsb a fx ((p + Z.of_nat i * wsz a) mod modulus (wsz a)) (wsz a)) (seq 0 n).
Lemma keeps_wordsb_ok a fx p n : keeps_wordsb a fx p n = true -> keeps_words a fx p n.
Proof.
  intros H i Hi. apply keepsb_ok. unfold keeps_wordsb in H. rewrite forallb_forall in H. apply H.
  apply in_seq. lia.
Qed.
Definition aloneb (a : arch) (fx : list (Z * Z)) (i : nat) : bool :=
  match nth_error fx i with
  | None => true
  | Some f => forallb (fun j => (j =? i)%nat || match nth_error fx j with
                 Some f' => apartb (fst f) (wsz a) (fst f') (wsz a) | None => true end) (seq 0 (length fx))
  end.
Lemma aloneb_ok a fx i : aloneb a fx i = true -> alone a fx i.
Proof.
  unfold aloneb, alone. intros H j f f' H1 H2 Hj. rewrite H1 in H. rewrite forallb_forall in H.
  assert (L : (j < length fx)%nat) by (apply nth_error_Some; congruence).
  specialize (H j). rewrite in_seq in H. specialize (H ltac:(lia)). rewrite H2 in H.
  apply orb_prop in H. destruct H as [H|H]; [apply Nat.eqb_eq in H; congruence|]. apply apartb_ok. exact H.
Qed.

(** Static PIE, x86_64, linked at [l] with entry [l + 0x1100], loaded at [b];
    [info] is the r_info of the REL entry, [rv], [rz] the relro header. *)
Definition pie (l b info rv rz : Z) : image := Img
  [0x5000; 0x5008]
  [(3, b + 0x40); (AT_PAGESZ, 4096); (AT_ENTRY, b + 0x1100)]
  [(DT_RELA, l + 0x3000); (DT_RELASZ, 48); (DT_RELAENT, 24);
   (DT_REL, l + 0x3100); (DT_RELSZ, 16); (DT_RELR, l + 0x3200); (DT_RELRSZ, 16)]
  [(l + 0x4000, 8, l + 0x1100); (l + 0x4008, 8, l + 7)]
  [(l + 0x4010, info)]
  [l + 0x4020; 11]
  (l + 0x1100) (l + 64) 56
  [(PT_DYNAMIC, l + 0x2000, 0x100); (PT_GNU_RELRO, rv, rz)].

Definition pie_mem (l b info rv rz : Z) : mem :=
  let g := pie l b info rv rz in
  mem_of (row 0x1000 (g_env g ++ [0] ++ pairs (g_aux g) ++ [0]) ++
    row (b + 0x2000) (pairs (g_dyn g) ++ [0]) ++
    row (b + 0x3000) (triples (g_rela g)) ++
    row (b + 0x3100) (pairs (g_rel g)) ++
    row (b + 0x3200) (g_relr g) ++
    [(b + 24, 8%nat, l + 0x1100); (b + 32, 8%nat, l + 64); (b + 54, 2%nat, 56); (b + 56, 2%nat, 2);
     (b + 64, 4%nat, PT_DYNAMIC); (b + 64 + 16, 8%nat, l + 0x2000); (b + 64 + 40, 8%nat, 0x100);
     (b + 120, 4%nat, PT_GNU_RELRO); (b + 120 + 16, 8%nat, rv); (b + 120 + 40, 8%nat, rz)] ++
    row (b + 0x4000) [l + 0x1100; 99; 5; 0; 6; 0x30; 0x31; 0x32]).

Definition ex_image (b : Z) : image := pie 0 b 8 0x4000 0x1000.
Definition ex_mem (b : Z) : mem := pie_mem 0 b 8 0x4000 0x1000.
Definition ex_env (b : Z) (dbg : bool) : renv := RE X86_64 dbg 0x1000 b (b + 0x2000) (b + 0x4000) 4096 0.

Definition ex_ok (e : renv) (m : mem) (g : image) : bool :=
  let a := e_arch e in
  let fx := fixups a m g in
  words_atb a m (e_envp e) (g_env g ++ [0] ++ pairs (g_aux g) ++ [0]) &&
  forallb (fun w => negb (w =? 0)) (g_env g) &&
  forallb (fun r => (0 <? fst r) && (fst r <? 2 ^ 32)) (g_aux g) &&
  words_atb a m (e_dynv e) (pairs (g_dyn g) ++ [0]) &&
  forallb (fun r => negb (fst r =? 0)) (g_dyn g) &&
  keeps_wordsb a fx (bias a g + value_of DT_RELA (g_dyn g)) (length (triples (g_rela g))) &&
  keeps_wordsb a fx (bias a g + value_of DT_REL (g_dyn g)) (length (pairs (g_rel g))) &&
  keeps_wordsb a fx (bias a g + value_of DT_RELR (g_dyn g)) (length (g_relr g)) &&
  keepsb a fx (e_ehdr e) 64 &&
  forallb (fun i => keepsb a fx (phdr_addr a (bias a g) g i) (sizeof_phdr a)) (seq 0 (length (g_phdrs g))).

Lemma ex_ok_spec e m g : ex_ok e m g = true ->
  stack_at (e_arch e) m (e_envp e) (g_env g) (g_aux g) /\
  (words_at (e_arch e) m (e_dynv e) (pairs (g_dyn g) ++ [0]) /\ Forall (fun r => fst r <> 0) (g_dyn g)) /\
  tables_kept e m g.
Proof.
  unfold ex_ok. intros H. repeat (apply andb_prop in H; destruct H as [H ?]).
  split; [|split].
  - split; [apply words_atb_ok; auto|split].
    + rewrite Forall_forall. intros w Hw. rewrite forallb_forall in H8. specialize (H8 w Hw).
      apply negb_true_iff, Z.eqb_neq in H8. exact H8.
    + rewrite Forall_forall. intros r Hw. rewrite forallb_forall in H7. specialize (H7 r Hw).
      apply andb_prop in H7. destruct H7 as [A B]. apply Z.ltb_lt in A, B. auto.
  - split; [apply words_atb_ok; auto|].
    rewrite Forall_forall. intros w Hw. rewrite forallb_forall in H5. specialize (H5 w Hw).
    apply negb_true_iff, Z.eqb_neq in H5. exact H5.
  - split; [apply keeps_wordsb_ok; auto|]. split; [apply keeps_wordsb_ok; auto|].
    split; [apply keeps_wordsb_ok; auto|]. split; [apply keepsb_ok; auto|].
    intros i Hi. apply keepsb_ok. rewrite forallb_forall in H0. apply H0. apply in_seq. lia.
Qed.

Definition tablesb (e : renv) (m : mem) (g : image) : bool :=
  let a := e_arch e in
  let t := fun tp ts l => (value_of ts (g_dyn g) =? Z.of_nat (length l) * wsz a) && (value_of ts (g_dyn g) <? modulus (wsz a)) &&
     existsb (fun r => fst r =? tp) (g_dyn g) && words_atb a m (bias a g + value_of tp (g_dyn g)) l in
  t DT_RELA DT_RELASZ (triples (g_rela g)) && t DT_REL DT_RELSZ (pairs (g_rel g)) && t DT_RELR DT_RELRSZ (g_relr g) &&
  match g_relr g with w :: _ => Z.even w | [] => true end &&
  (load_le m (e_ehdr e + o_e_entry) (word a) =? g_entry g) &&
  (load_le m (e_ehdr e + o_e_phoff a) (word a) =? g_phoff g) &&
  (load_le m (e_ehdr e + o_e_phentsize a) 2 =? g_phentsize g) &&
  (load_le m (e_ehdr e + o_e_phnum a) 2 =? Z.of_nat (length (g_phdrs g))) &&
  (0 <? g_phentsize g) &&
  forallb (fun i => match nth_error (g_phdrs g) i with None => true | Some h =>
     let p := phdr_addr a (bias a g) g i in
     (load_le m p 4 =? fst (fst h)) && (load_le m (p + o_p_vaddr a) (word a) =? snd (fst h)) &&
     (load_le m (p + o_p_memsz a) (word a) =? snd h) end) (seq 0 (length (g_phdrs g))).

Lemma table_b a m base dyn tp ts l :
  (value_of ts dyn =? Z.of_nat (length l) * wsz a) && (value_of ts dyn <? modulus (wsz a)) &&
     existsb (fun r => fst r =? tp) dyn && words_atb a m (base + value_of tp dyn) l = true ->
  table_at a m base dyn tp ts l.
Proof.
  intros H. repeat (apply andb_prop in H; destruct H as [H ?]).
  split; [apply Z.eqb_eq; auto|]. split; [apply Z.ltb_lt; auto|]. right. split; [|apply words_atb_ok; auto].
  apply existsb_exists in H1. destruct H1 as (r & I & E). apply Z.eqb_eq in E. apply in_map_iff. eauto.
Qed.

Lemma tablesb_spec e m g : wf_mem m -> ex_ok e m g = true -> tablesb e m g = true -> loaded e m g /\ tables_kept e m g.
Proof.
  intros W H1 H. destruct (ex_ok_spec e m g H1) as (S1 & S2 & S3). split; auto.
  unfold tablesb in H. do 9 (apply andb_prop in H; destruct H as [H ?]).
  split; [exact W|]. split; [exact S1|]. split; [exact S2|].
  split; [apply table_b; assumption|]. split; [apply table_b; assumption|]. split; [apply table_b; assumption|].
  split; [destruct (g_relr g); auto|].
  split; [apply Z.eqb_eq; assumption|]. split; [apply Z.eqb_eq; assumption|]. split; [apply Z.eqb_eq; assumption|].
  split; [apply Z.eqb_eq; assumption|]. split; [apply Z.ltb_lt; assumption|].
  intros i h Hi. rewrite forallb_forall in H0.
  assert (L : (i < length (g_phdrs g))%nat) by (apply nth_error_Some; congruence).
  specialize (H0 i). rewrite in_seq in H0. specialize (H0 ltac:(lia)). rewrite Hi in H0. cbv zeta in H0.
  apply andb_prop in H0. destruct H0 as [H0 H0c]. apply andb_prop in H0. destruct H0 as [H0a H0b].
  split; [|split]; apply Z.eqb_eq; auto.
Qed.
