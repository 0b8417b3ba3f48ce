(** Vocabulary for C09, C12-C16: what an initial stack and an ELF image look
    like in memory, which words the relocation tables denote, and the pages of
    a segment.  Written from the ELF gABI (Rela/Rel/Relr sections, program
    headers), not from the code. *)
From Verif Require Import Machine LayoutModel RelocModel.

(** The consecutive words [l] are in memory at [p] (addresses wrap). *)
Definition words_at (a : arch) (m : mem) (p : Z) (l : list Z) : Prop :=
  forall i w, nth_error l i = Some w ->
    load_le m ((p + Z.of_nat i * wsz a) mod modulus (wsz a)) (word a) = w.

Definition pairs (l : list (Z * Z)) : list Z := flat_map (fun r => [fst r; snd r]) l.
Definition triples (l : list (Z * Z * Z)) : list Z := flat_map (fun r => [fst (fst r); snd (fst r); snd r]) l.

(** The value of the last record of type [t]; 0 if there is none. *)
Definition value_of (t : Z) (l : list (Z * Z)) : Z :=
  match find (fun r => fst r =? t) (rev l) with Some r => snd r | None => 0 end.

(** An image and initial stack, decoded. *)
Record image := Img {
  g_env : list Z;                (* environment string pointers *)
  g_aux : list (Z * Z);          (* auxv before AT_NULL *)
  g_dyn : list (Z * Z);          (* dynamic section before DT_NULL *)
  g_rela : list (Z * Z * Z);     (* r_offset, r_info, r_addend *)
  g_rel : list (Z * Z);          (* r_offset, r_info *)
  g_relr : list Z;
  g_entry : Z;                   (* e_entry *)
  g_phoff : Z;
  g_phentsize : Z;
  g_phdrs : list (Z * Z * Z) }.  (* p_type, p_vaddr, p_memsz *)

(** The environment pointers, NULL, the auxv, AT_NULL, at [p]. *)
Definition stack_at (a : arch) (m : mem) (p : Z) (env : list Z) (aux : list (Z * Z)) : Prop :=
  words_at a m p (env ++ [0] ++ pairs aux ++ [0]) /\
  Forall (fun w => w <> 0) env /\
  Forall (fun r => 0 < fst r < 2 ^ 32) aux.

(** A table of [n] bytes made of the words [l], at [base + ptr]; [tag_ptr] and
    [tag_sz] are the dynamic tags that announce it. *)
Definition table_at (a : arch) (m : mem) (base : Z) (dyn : list (Z * Z)) (tag_ptr tag_sz : Z) (l : list Z) : Prop :=
  value_of tag_sz dyn = Z.of_nat (length l) * wsz a /\
  value_of tag_sz dyn < modulus (wsz a) /\
  (l = [] \/ In tag_ptr (map fst dyn) /\ words_at a m (base + value_of tag_ptr dyn) l).

(** Address of program header [i]. *)
Definition phdr_addr (a : arch) (base : Z) (g : image) (i : nat) : Z :=
  (base + g_phoff g + Z.of_nat i * g_phentsize g) mod modulus (wsz a).

Definition phdr_at (a : arch) (m : mem) (p : Z) (h : Z * Z * Z) : Prop :=
  load_le m p 4 = fst (fst h) /\
  load_le m (p + o_p_vaddr a) (word a) = snd (fst h) /\
  load_le m (p + o_p_memsz a) (word a) = snd h.

(** The load bias: AT_BASE when nonzero (running as the dynamic linker),
    otherwise how far the entry point was moved. *)
Definition bias (a : arch) (g : image) : Z :=
  if value_of AT_BASE (g_aux g) =? 0
  then (value_of AT_ENTRY (g_aux g) - g_entry g) mod modulus (wsz a)
  else value_of AT_BASE (g_aux g).

(** [m] is the memory of a process in which image [g] has just been loaded. *)
Definition loaded (e : renv) (m : mem) (g : image) : Prop :=
  let a := e_arch e in
  wf_mem m /\
  stack_at a m (e_envp e) (g_env g) (g_aux g) /\
  (words_at a m (e_dynv e) (pairs (g_dyn g) ++ [0]) /\ Forall (fun r => fst r <> 0) (g_dyn g)) /\
  table_at a m (bias a g) (g_dyn g) DT_RELA DT_RELASZ (triples (g_rela g)) /\
  table_at a m (bias a g) (g_dyn g) DT_REL DT_RELSZ (pairs (g_rel g)) /\
  table_at a m (bias a g) (g_dyn g) DT_RELR DT_RELRSZ (g_relr g) /\
  match g_relr g with e0 :: _ => Z.even e0 = true | [] => True end /\
  load_le m (e_ehdr e + o_e_entry) (word a) = g_entry g /\
  load_le m (e_ehdr e + o_e_phoff a) (word a) = g_phoff g /\
  load_le m (e_ehdr e + o_e_phentsize a) 2 = g_phentsize g /\
  load_le m (e_ehdr e + o_e_phnum a) 2 = Z.of_nat (length (g_phdrs g)) /\
  0 < g_phentsize g /\
  forall i h, nth_error (g_phdrs g) i = Some h -> phdr_at a m (phdr_addr a (bias a g) g i) h.

(** ** What the relocation tables denote *)

(** ELF32_R_TYPE / ELF64_R_TYPE = relative relocation of the target. *)
Definition relative (a : arch) (info : Z) : bool :=
  match a with
  | X86_64 => info mod 2 ^ 32 =? 8
  | Aarch64 => info mod 2 ^ 32 =? 1027
  | Riscv64 => info mod 2 ^ 32 =? 3
  | X86 => info mod 2 ^ 8 =? 8
  | Arm => info mod 2 ^ 8 =? 23
  end.

(** gABI SHT_RELR: an even word is an offset to relocate; an odd word is a
    bitmap: bit i+1 says whether the i-th of the next 8*ws-1 words following
    the last one covered is to be relocated. *)
Fixpoint relr_offsets (ws next : Z) (l : list Z) : list Z :=
  match l with
  | [] => []
  | w :: rest =>
    if Z.even w then w :: relr_offsets ws (w + ws) rest
    else map (fun i => next + Z.of_nat i * ws)
           (filter (fun i => Z.testbit w (Z.of_nat i + 1)) (seq 0 (Z.to_nat (8 * ws - 1))))
         ++ relr_offsets ws (next + (8 * ws - 1) * ws) rest
  end.

(** A fixup: the address of a word and the value it must end up with. *)
Definition rela_fixups (a : arch) (base : Z) (l : list (Z * Z * Z)) : list (Z * Z) :=
  map (fun r => ((base + fst (fst r)) mod modulus (wsz a), (base + snd r) mod modulus (wsz a)))
    (filter (fun r => relative a (snd (fst r))) l).

Definition moved (a : arch) (m : mem) (base off : Z) : Z * Z :=
  let p := (base + off) mod modulus (wsz a) in
  (p, (base + load_le m p (word a)) mod modulus (wsz a)).

Definition rel_fixups (a : arch) (m : mem) (base : Z) (l : list (Z * Z)) : list (Z * Z) :=
  map (fun r => moved a m base (fst r)) (filter (fun r => relative a (snd r)) l).

Definition relr_fixups (a : arch) (m : mem) (base : Z) (l : list Z) : list (Z * Z) :=
  map (moved a m base) (relr_offsets (wsz a) 0 l).

Definition fixups (a : arch) (m : mem) (g : image) : list (Z * Z) :=
  rela_fixups a (bias a g) (g_rela g) ++
  rel_fixups a m (bias a g) (g_rel g) ++
  relr_fixups a m (bias a g) (g_relr g).

(** Byte [x] belongs to no fixed-up word. *)
Definition outside (a : arch) (fx : list (Z * Z)) (x : Z) : Prop :=
  forall f, In f fx -> ~ (fst f <= x < fst f + wsz a).

Definition apart (p n q k : Z) : Prop := p + n <= q \/ q + k <= p.

(** No fixup writes into the tables that relocation is still going to read:
    relocation tables, ELF header, program headers. *)
Definition keeps (a : arch) (fx : list (Z * Z)) (p n : Z) : Prop :=
  forall f, In f fx -> apart (fst f) (wsz a) p n.
Definition keeps_words (a : arch) (fx : list (Z * Z)) (p : Z) (n : nat) : Prop :=
  forall i, (i < n)%nat -> keeps a fx ((p + Z.of_nat i * wsz a) mod modulus (wsz a)) (wsz a).

Definition sizeof_phdr (a : arch) : Z := if wsz a =? 8 then 56 else 32.

Definition tables_kept (e : renv) (m : mem) (g : image) : Prop :=
  let a := e_arch e in
  let fx := fixups a m g in
  keeps_words a fx (bias a g + value_of DT_RELA (g_dyn g)) (length (triples (g_rela g))) /\
  keeps_words a fx (bias a g + value_of DT_REL (g_dyn g)) (length (pairs (g_rel g))) /\
  keeps_words a fx (bias a g + value_of DT_RELR (g_dyn g)) (length (g_relr g)) /\
  keeps a fx (e_ehdr e) 64 /\
  forall i, (i < length (g_phdrs g))%nat -> keeps a fx (phdr_addr a (bias a g) g i) (sizeof_phdr a).

(** Every RELA and REL entry is of the relative kind. *)
Definition all_relative (a : arch) (g : image) : Prop :=
  Forall (fun r => relative a (snd (fst r)) = true) (g_rela g) /\
  Forall (fun r => relative a (snd r) = true) (g_rel g).

(** The image needs relocating: the word STATIC_START, which the static linker
    filled with the unrelocated address of _start, is not the entry address. *)
Definition unrelocated (e : renv) (m : mem) (g : image) : Prop :=
  load_le m (e_static e) (word (e_arch e)) <> value_of AT_ENTRY (g_aux g).

(** ** Pages of the relro segment (the last PT_GNU_RELRO header), if any *)
Definition relro_of (g : image) : option (Z * Z) :=
  match find (fun h => fst (fst h) =? PT_GNU_RELRO) (rev (g_phdrs g)) with
  | Some (_, vaddr, memsz) => if memsz =? 0 then None else Some (vaddr, memsz)
  | None => None
  end.

(** Address [x] is in a page (of size [pg]) that meets [lo, lo+len). *)
Definition in_pages (pg lo len x : Z) : Prop :=
  exists y, lo <= y < lo + len /\ x / pg = y / pg.

Definition start (m : mem) : rst := RS m [] [] (fun _ => false).

(** How a run of relocation ends ([r] is not [Running]). *)
Definition outcome (e : renv) (m : mem) (r : res rst) : Prop :=
  r <> Running /\ exists n, relocate n e (start m) = r.

(** Fixup number [i] shares no byte with any other fixup. *)
Definition alone (a : arch) (fx : list (Z * Z)) (i : nat) : Prop :=
  forall j f f', nth_error fx i = Some f -> nth_error fx j = Some f' -> j <> i ->
    apart (fst f) (wsz a) (fst f') (wsz a).

(** Pointers handed to the code are addresses. *)
Definition addresses_ok (e : renv) : Prop :=
  0 <= e_envp e < modulus (wsz (e_arch e)) /\ 0 <= e_dynv e < modulus (wsz (e_arch e)).

(** ** Sanity of an image, as checked by debug builds *)

(** The entry sizes announced in the dynamic section are those of the ABI. *)
Definition entry_sizes (a : arch) (dyn : list (Z * Z)) : Prop :=
  Forall (fun r => (fst r = DT_RELAENT -> snd r = 3 * wsz a) /\
                   (fst r = DT_RELENT -> snd r = 2 * wsz a) /\
                   (fst r = DT_RELRENT -> snd r = wsz a)) dyn.

(** Every place the RELR words describe, and the one after, lies below the end
    of the address space. *)
Fixpoint relr_fits (M ws base next : Z) (l : list Z) : Prop :=
  match l with
  | [] => True
  | w :: rest =>
    if Z.even w then base + w + ws < M /\ relr_fits M ws base (w + ws) rest
    else base + next + (8 * ws - 1) * ws < M /\ relr_fits M ws base (next + (8 * ws - 1) * ws) rest
  end.

(** A PT_DYNAMIC header describes the dynamic section. *)
Definition dynamic_described (e : renv) (base : Z) (l : list (Z * Z * Z)) : Prop :=
  Forall (fun h => fst (fst h) = PT_DYNAMIC -> (base + snd (fst h)) mod modulus (wsz (e_arch e)) = e_dynv e) l.

Definition consistent (e : renv) (m : mem) (g : image) : Prop :=
  let a := e_arch e in
  entry_sizes a (g_dyn g) /\
  relr_fits (modulus (wsz a)) (wsz a) (bias a g) 0 (g_relr g) /\
  (exists k, 0 <= k < 8 * wsz a /\ value_of AT_PAGESZ (g_aux g) = 2 ^ k /\ bias a g mod 2 ^ k = 0) /\
  (value_of AT_BASE (g_aux g) = 0 ->
   exists i, nth_error (fixups a m g) i = Some (e_static e, value_of AT_ENTRY (g_aux g)) /\ alone a (fixups a m g) i) /\
  dynamic_described e (bias a g) (g_phdrs g).

(** A freshly loaded image that does need relocation, with tables of the
    relative kind only. *)
Definition static_pie (e : renv) (m : mem) (g : image) : Prop :=
  loaded e m g /\ addresses_ok e /\ unrelocated e m g /\ tables_kept e m g /\ all_relative (e_arch e) g.
