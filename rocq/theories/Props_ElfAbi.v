(** The ELF structures and numbers used by the relocation and startup models
    and in their specifications, against the ELF gABI: offsets are computed from
    the structures' fields with the C layout rule, not copied.  (For C12, C17:
    linux_raw_sys::elf and ::general, as used by src/relocate.rs:36-386,
    src/thread/linux_raw.rs:225-287.) *)
From Coq Require Import ZArith List Bool String.
From Verif Require Import Machine LayoutModel RelocModel RelocSpec StartModel.
Import ListNotations.
Open Scope Z_scope.
Open Scope string_scope.

(** A field: name, size, alignment. *)
Definition field := (string * Z * Z)%type.
Definition round_up (x al : Z) : Z := (x + al - 1) / al * al.
Fixpoint c_offset (l : list field) (at_ : Z) (f : string) : option Z :=
  match l with
  | [] => None
  | (n, sz, al) :: l => let o := round_up at_ al in if String.eqb n f then Some o else c_offset l (o + sz) f
  end.
Fixpoint c_end (l : list field) (at_ : Z) : Z :=
  match l with [] => at_ | (_, sz, al) :: l => c_end l (round_up at_ al + sz) end.
Definition c_align (l : list field) : Z := fold_right (fun f m => Z.max (snd f) m) 1 l.
Definition c_size (l : list field) : Z := round_up (c_end l 0) (c_align l).

(** The gABI's types. *)
Definition bits64 (a : arch) : bool := match a with X86_64 | Aarch64 | Riscv64 => true | X86 | Arm => false end.
Definition half (n : string) : field := (n, 2, 2).
Definition word4 (n : string) : field := (n, 4, 4).
Definition native (a : arch) (n : string) : field := if bits64 a then (n, 8, 8) else (n, 4, 4). (* Addr, Off, Xword/Word *)

Definition Ehdr (a : arch) : list field :=
  [("e_ident", 16, 1); half "e_type"; half "e_machine"; word4 "e_version"; native a "e_entry"; native a "e_phoff"; native a "e_shoff";
   word4 "e_flags"; half "e_ehsize"; half "e_phentsize"; half "e_phnum"; half "e_shentsize"; half "e_shnum"; half "e_shstrndx"].
Definition Phdr (a : arch) : list field :=
  if bits64 a
  then [word4 "p_type"; word4 "p_flags"; native a "p_offset"; native a "p_vaddr"; native a "p_paddr"; native a "p_filesz"; native a "p_memsz"; native a "p_align"]
  else [word4 "p_type"; native a "p_offset"; native a "p_vaddr"; native a "p_paddr"; native a "p_filesz"; native a "p_memsz"; word4 "p_flags"; native a "p_align"].
Definition Dyn (a : arch) : list field := [native a "d_tag"; native a "d_un"].
Definition Rel (a : arch) : list field := [native a "r_offset"; native a "r_info"].
Definition Rela (a : arch) : list field := [native a "r_offset"; native a "r_info"; native a "r_addend"].
Definition Relr (a : arch) : list field := [native a "r_entry"].
Definition Auxv (a : arch) : list field := [native a "a_type"; native a "a_val"].

(** Structures. *)
Theorem C12_elf_layout : forall a,
  c_offset (Ehdr a) 0 "e_entry" = Some o_e_entry /\ c_offset (Ehdr a) 0 "e_phoff" = Some (o_e_phoff a) /\
  c_offset (Ehdr a) 0 "e_phentsize" = Some (o_e_phentsize a) /\ c_offset (Ehdr a) 0 "e_phnum" = Some (o_e_phnum a) /\
  c_size (Ehdr a) = (if bits64 a then 64 else 52) /\
  c_offset (Phdr a) 0 "p_type" = Some 0 /\ c_offset (Phdr a) 0 "p_vaddr" = Some (o_p_vaddr a) /\
  c_offset (Phdr a) 0 "p_filesz" = Some (o_p_filesz a) /\ c_offset (Phdr a) 0 "p_memsz" = Some (o_p_memsz a) /\
  c_offset (Phdr a) 0 "p_align" = Some (o_p_align a) /\ c_size (Phdr a) = sizeof_phdr a /\
  c_offset (Dyn a) 0 "d_un" = Some (wsz a) /\ c_size (Dyn a) = 2 * wsz a /\
  c_offset (Auxv a) 0 "a_val" = Some (wsz a) /\ c_size (Auxv a) = 2 * wsz a /\
  c_offset (Rela a) 0 "r_info" = Some (wsz a) /\ c_offset (Rela a) 0 "r_addend" = Some (2 * wsz a) /\ c_size (Rela a) = sizeof_rela a /\
  c_offset (Rel a) 0 "r_info" = Some (wsz a) /\ c_size (Rel a) = sizeof_rel a /\ c_size (Relr a) = sizeof_relr a.
Proof. intros []; repeat split; vm_compute; reflexivity. Qed.

(** Numbers: the psABI's relocation type that only adds the load bias, how it is
    packed in r_info (ELF64_R_TYPE, ELF32_R_TYPE), tags of the dynamic section,
    of the auxiliary vector and of segments. *)
Theorem C12_elf_numbers : forall a,
  R_RELATIVE a = match a with X86_64 => 8 | X86 => 8 | Aarch64 => 0x403 | Arm => 0x17 | Riscv64 => 3 end /\
  (forall sym ty, 0 <= ty < (if bits64 a then 2 ^ 32 else 2 ^ 8) -> r_type a (sym * (if bits64 a then 2 ^ 32 else 2 ^ 8) + ty) = ty) /\
  [DT_NULL; DT_RELA; DT_RELASZ; DT_RELAENT; DT_REL; DT_RELSZ; DT_RELENT; DT_RELRSZ; DT_RELR; DT_RELRENT] = [0; 7; 8; 9; 17; 18; 19; 35; 36; 37] /\
  [PT_DYNAMIC; PT_PHDR; PT_TLS; PT_GNU_STACK; PT_GNU_RELRO] = [2; 6; 7; 0x6474e551; 0x6474e552] /\
  [AT_NULL; AT_PHDR; AT_PHENT; AT_PHNUM; AT_PAGESZ; AT_BASE; AT_ENTRY; AT_HWCAP; AT_RANDOM; AT_HWCAP2; AT_EXECFN; AT_MINSIGSTKSZ]
    = [0; 3; 4; 5; 6; 7; 9; 16; 25; 26; 31; 51].
Proof.
  assert (L : forall n sym ty, 0 <= n -> 0 <= ty < 2 ^ n -> Z.land (sym * 2 ^ n + ty) (Z.ones n) = ty).
  { intros n sym ty Hn H. rewrite Z.land_ones by exact Hn. rewrite Z.add_comm, Z.mod_add by (apply Z.pow_nonzero; [discriminate|exact Hn]). apply Z.mod_small. exact H. }
  intros a. split; [destruct a; reflexivity|]. split; [|repeat split].
  intros sym ty H. destruct a; cbn [bits64] in *; unfold r_type; cbn [wsz Z.eqb Pos.eqb]; (exact (L 32 sym ty ltac:(discriminate) H) || exact (L 8 sym ty ltac:(discriminate) H)).
Qed.

(** The padding rule matters: on a 32-bit target the flags come late. *)
Example C12_elf_ex : c_offset (Phdr X86_64) 0 "p_flags" = Some 4 /\ c_offset (Phdr Arm) 0 "p_flags" = Some 24 /\ r_type X86_64 0x500000008 = 8 /\ r_type Arm 0x517 = 0x17.
Proof. repeat split. Qed.
Print Assumptions C12_elf_layout. Print Assumptions C12_elf_numbers. Print Assumptions C12_elf_ex.
