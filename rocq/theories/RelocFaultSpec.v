(** Vocabulary for C76: the bytes startup relocation is entitled to touch. *)
From Verif Require Import Machine LayoutModel RelocModel RelocSpec RelocFault.

(** The [n] bytes at [p] satisfy [P]. *)
Definition can (P : Z -> bool) (p n : Z) : Prop := forall x, p <= x < p + n -> P x = true.
(** The [k] words at [p] (addresses wrap) satisfy [P]. *)
Definition can_words (a : arch) (P : Z -> bool) (p : Z) (k : nat) : Prop :=
  forall i, (i < k)%nat -> can P ((p + Z.of_nat i * wsz a) mod modulus (wsz a)) (wsz a).

(** The kernel's initial stack from the environment to the end of the auxv
    (its AT_NULL entry included), and the program's own STATIC_START, can be
    read. *)
Definition start_readable (ac : access) (e : renv) (env : list Z) (aux : list (Z * Z)) : Prop :=
  can_words (e_arch e) (ac_r ac) (e_envp e) (length env + 1 + 2 * (length aux + 1)) /\
  can (ac_r ac) (e_static e) (wsz (e_arch e)).

(** sizeof(Elf_Ehdr). *)
Definition sizeof_ehdr (a : arch) : Z := if wsz a =? 8 then 64 else 52.

(** The image's headers and tables can be read: ELF header, dynamic section
    (DT_NULL included), relocation tables, program headers. *)
Definition tables_readable (ac : access) (e : renv) (g : image) : Prop :=
  let a := e_arch e in
  let r := ac_r ac in
  can r (e_ehdr e) (sizeof_ehdr a) /\
  can_words a r (e_dynv e) (2 * (length (g_dyn g) + 1)) /\
  can_words a r (bias a g + value_of DT_RELA (g_dyn g)) (3 * length (g_rela g)) /\
  can_words a r (bias a g + value_of DT_REL (g_dyn g)) (2 * length (g_rel g)) /\
  can_words a r (bias a g + value_of DT_RELR (g_dyn g)) (length (g_relr g)) /\
  forall i, (i < length (g_phdrs g))%nat -> can r (phdr_addr a (bias a g) g i) (sizeof_phdr a).

(** The words to relocate can be written; those whose addend is in place can
    also be read. *)
Definition places_writable (ac : access) (e : renv) (m : mem) (g : image) : Prop :=
  let a := e_arch e in
  (forall f, In f (fixups a m g) -> can (ac_w ac) (fst f) (wsz a)) /\
  (forall f, In f (rel_fixups a m (bias a g) (g_rel g) ++ relr_fixups a m (bias a g) (g_relr g)) ->
     can (ac_r ac) (fst f) (wsz a)).

Definition accessible (ac : access) (e : renv) (m : mem) (g : image) : Prop :=
  start_readable ac e (g_env g) (g_aux g) /\ tables_readable ac e g /\ places_writable ac e m g.

(** Relocation of a process that starts with memory [m] runs into a page fault. *)
Definition faults (ac : access) (e : renv) (m : mem) : Prop :=
  exists n, frelocate ac n e (start m) = None.
(** It comes to an end, without one, with result [r]. *)
Definition foutcome (ac : access) (e : renv) (m : mem) (r : res rst) : Prop :=
  r <> Running /\ exists n, frelocate ac n e (start m) = Some r.
