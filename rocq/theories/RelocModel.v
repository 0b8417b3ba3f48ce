(** Model of startup relocation: src/relocate.rs and the relocation helpers of
    src/arch/*.rs.

    Pointer arithmetic (`add`, `byte_add`) is modelled as wrapping address
    arithmetic; a dereference is a little-endian load of the field.  Loops of
    unbounded length take a fuel argument: [Running] (or [None]) means "not
    finished within that many iterations", nothing else produces it.  The ELF
    struct layouts and constants are those of the ELF gABI for 32- and 64-bit
    little-endian targets (the code takes them from linux-raw-sys).  Page
    faults are in RelocFault.v. *)
From Verif Require Import Machine LayoutModel.

(** ELF and auxv constants (linux_raw_sys::general, linux_raw_sys::elf;
    relocate.rs:31-34 for the RELR tags). *)
Definition AT_NULL := 0.
Definition AT_PAGESZ := 6.
Definition AT_BASE := 7.
Definition AT_ENTRY := 9.
Definition DT_NULL := 0.
Definition DT_RELA := 7.
Definition DT_RELASZ := 8.
Definition DT_RELAENT := 9.
Definition DT_REL := 17.
Definition DT_RELSZ := 18.
Definition DT_RELENT := 19.
Definition DT_RELRSZ := 35.
Definition DT_RELR := 36.
Definition DT_RELRENT := 37.
Definition PT_DYNAMIC := 2.
Definition PT_GNU_RELRO := 0x6474e552.

(** R_RELATIVE of each target: R_X86_64_RELATIVE, R_386_RELATIVE,
    R_AARCH64_RELATIVE, R_ARM_RELATIVE, R_RISCV_RELATIVE. *)
Definition R_RELATIVE (a : arch) : Z :=
  match a with X86_64 => 8 | X86 => 8 | Aarch64 => 1027 | Arm => 23 | Riscv64 => 3 end.

(** `Elf_Rela::type_`, `Elf_Rel::type_`: ELF64_R_TYPE / ELF32_R_TYPE. *)
Definition r_type (a : arch) (info : Z) : Z :=
  if wsz a =? 8 then Z.land info 0xffffffff else Z.land info 0xff.

(** Field offsets in Elf_Ehdr and Elf_Phdr, size_of::<Elf_Phdr>(). *)
Definition o_e_entry : Z := 24.
Definition o_e_phoff (a : arch) : Z := if wsz a =? 8 then 32 else 28.
Definition o_e_phentsize (a : arch) : Z := if wsz a =? 8 then 54 else 42.
Definition o_e_phnum (a : arch) : Z := if wsz a =? 8 then 56 else 44.
Definition o_p_vaddr (a : arch) : Z := if wsz a =? 8 then 16 else 8.
Definition o_p_filesz (a : arch) : Z := if wsz a =? 8 then 32 else 16.
Definition o_p_memsz (a : arch) : Z := if wsz a =? 8 then 40 else 20.
Definition o_p_align (a : arch) : Z := if wsz a =? 8 then 48 else 28.

(** usize load. *)
Definition ldw (a : arch) (m : mem) (p : Z) : Z := load_le m p (word a).
(** Pointer and usize addition, wrapping. *)
Definition padd (a : arch) (p k : Z) : Z := wrapping_add (wsz a) p k.

(** What the function sees of its surroundings: target, debug build or not,
    the arguments and link-time addresses, and the kernel's side of mprotect
    ([e_kpage]: the kernel's page size; [e_kerr]: the error it would report for
    a well-formed request, 0 for none). *)
Record renv := RE {
  e_arch : arch;
  e_debug : bool;
  e_envp : Z;
  e_ehdr : Z;    (* ehdr_addr(): __ehdr_start *)
  e_dynv : Z;    (* dynamic_table_addr(): _DYNAMIC *)
  e_static : Z;  (* address of STATIC_START, relocate.rs:383-385 *)
  e_kpage : Z;
  e_kerr : Z }.

(** Memory, the stores and mprotect calls made so far (newest first), and
    which addresses are read-only because of them. *)
Record rst := RS {
  rm : mem;
  stores : list (Z * Z);
  prots : list (Z * Z);
  ro : Z -> bool }.

Inductive res (A : Type) :=
| Ok (x : A)
| Trapped (s : rst)   (* arch::trap() *)
| Panicked (s : rst)  (* a core panic, debug builds only *)
| Running.
Arguments Ok {A}. Arguments Trapped {A}. Arguments Panicked {A}. Arguments Running {A}.

Definition rbind {A B} (r : res A) (f : A -> res B) : res B :=
  match r with
  | Ok x => f x
  | Trapped s => Trapped s
  | Panicked s => Panicked s
  | Running => Running
  end.
Notation "'do' x '<-' r 'in' k" := (rbind r (fun x => k)) (at level 200, x pattern, r at level 100).

(** arch/x86_64.rs:141-148 relocation_store (aarch64.rs:142, riscv64.rs:160,
    x86.rs:170, arm.rs:154): one word-sized store. *)
Definition relocation_store (a : arch) (p v : Z) (s : rst) : rst :=
  RS (store_le (rm s) p (word a) v) ((p, v) :: stores s) (prots s) (ro s).
(** arch/x86_64.rs:109-123 relocation_load (aarch64.rs:111, riscv64.rs:106,
    x86.rs:139, arm.rs:123): one word-sized load. *)
Definition relocation_load (a : arch) (p : Z) (s : rst) : Z := ldw a (rm s) p.

(** Linux mprotect(addr, len, PROT_READ), len <> 0: -EINVAL for an address
    that is not page-aligned, -ENOMEM for a range that wraps, otherwise
    [e_kerr]; the range is extended to whole pages. *)
Definition page_ceil (pg n : Z) : Z := (n + pg - 1) / pg * pg.
Definition k_mprotect (e : renv) (addr len : Z) : Z :=
  if negb (addr mod e_kpage e =? 0) then -22
  else if modulus (wsz (e_arch e)) <=? addr + page_ceil (e_kpage e) len then -12
  else e_kerr e.

(** arch/x86_64.rs:169-192 relocation_mprotect_readonly (aarch64.rs:170,
    riscv64.rs:188, x86.rs:198, arm.rs:182). *)
Definition relocation_mprotect_readonly (e : renv) (addr len : Z) (s : rst) : res rst :=
  let r0 := k_mprotect e addr len in
  let s1 := RS (rm s) (stores s) ((addr, len) :: prots s) (ro s) in
  if negb (r0 =? 0) then Trapped s1
  else Ok (RS (rm s1) (stores s1) (prots s1)
             (fun x => ((addr <=? x) && (x <? addr + page_ceil (e_kpage e) len)) || ro s x)).

(** relocate.rs:360-369 compute_auxp: the loop, then `add(1)`. *)
Fixpoint skip_env (fuel : nat) (a : arch) (m : mem) (auxp : Z) : option Z :=
  match fuel with
  | O => None
  | S f => if ldw a m auxp =? 0 then Some (padd a auxp (wsz a))
           else skip_env f a m (padd a auxp (wsz a))
  end.

(** relocate.rs:91-103: the auxv loop.  `a_type as _` is matched against u32
    constants, so only the low 32 bits of a_type are looked at. *)
Record auxinfo := AI { auxv_base : Z; auxv_page_size : Z; auxv_entry : Z }.
Fixpoint scan_aux (fuel : nat) (a : arch) (m : mem) (p : Z) (i : auxinfo) : option auxinfo :=
  match fuel with
  | O => None
  | S f =>
    let a_type := ldw a m p in
    let a_val := ldw a m (padd a p (wsz a)) in
    let p' := padd a p (2 * wsz a) in
    let t := a_type mod 2 ^ 32 in
    if t =? AT_BASE then scan_aux f a m p' (AI a_val (auxv_page_size i) (auxv_entry i))
    else if t =? AT_PAGESZ then scan_aux f a m p' (AI (auxv_base i) a_val (auxv_entry i))
    else if t =? AT_ENTRY then scan_aux f a m p' (AI (auxv_base i) (auxv_page_size i) a_val)
    else if t =? AT_NULL then Some i
    else scan_aux f a m p' i
  end.

(** relocate.rs:81-103: locate and read the auxv. *)
Definition read_aux (fuel : nat) (a : arch) (m : mem) (envp : Z) : option auxinfo :=
  match skip_env fuel a m envp with
  | None => None
  | Some auxp => scan_aux fuel a m auxp (AI 0 0 0)
  end.

(** relocate.rs:174-206: the dynamic-section loop. *)
Record dyninfo := DI { rela_ptr : Z; rela_sz : Z; rel_ptr : Z; rel_sz : Z; relr_ptr : Z; relr_sz : Z }.
Definition sizeof_rela (a : arch) : Z := 3 * wsz a.
Definition sizeof_rel (a : arch) : Z := 2 * wsz a.
Definition sizeof_relr (a : arch) : Z := wsz a.

Fixpoint scan_dyn (fuel : nat) (e : renv) (s : rst) (base p : Z) (d : dyninfo) : res dyninfo :=
  match fuel with
  | O => Running
  | S f =>
    let a := e_arch e in
    let tag := ldw a (rm s) p in
    let v := ldw a (rm s) (padd a p (wsz a)) in
    let p' := padd a p (2 * wsz a) in
    let next := fun d => scan_dyn f e s base p' d in
    if tag =? DT_RELA then next (DI (padd a base v) (rela_sz d) (rel_ptr d) (rel_sz d) (relr_ptr d) (relr_sz d))
    else if tag =? DT_RELASZ then next (DI (rela_ptr d) v (rel_ptr d) (rel_sz d) (relr_ptr d) (relr_sz d))
    else if e_debug e && (tag =? DT_RELAENT) then
      if v =? sizeof_rela a then next d else Trapped s
    else if tag =? DT_REL then next (DI (rela_ptr d) (rela_sz d) (padd a base v) (rel_sz d) (relr_ptr d) (relr_sz d))
    else if tag =? DT_RELSZ then next (DI (rela_ptr d) (rela_sz d) (rel_ptr d) v (relr_ptr d) (relr_sz d))
    else if e_debug e && (tag =? DT_RELENT) then
      if v =? sizeof_rel a then next d else Trapped s
    else if tag =? DT_RELR then next (DI (rela_ptr d) (rela_sz d) (rel_ptr d) (rel_sz d) (padd a base v) (relr_sz d))
    else if tag =? DT_RELRSZ then next (DI (rela_ptr d) (rela_sz d) (rel_ptr d) (rel_sz d) (relr_ptr d) v)
    else if e_debug e && (tag =? DT_RELRENT) then
      if v =? sizeof_relr a then next d else Trapped s
    else if tag =? DT_NULL then Ok d
    else next d
  end.

(** relocate.rs:208-229: the rela loop. *)
Fixpoint do_rela (fuel : nat) (a : arch) (offset p pend : Z) (s : rst) : res rst :=
  match fuel with
  | O => Running
  | S f =>
    if p =? pend then Ok s
    else
      let r_offset := ldw a (rm s) p in
      let r_info := ldw a (rm s) (padd a p (wsz a)) in
      let r_addend := ldw a (rm s) (padd a p (2 * wsz a)) in
      let p' := padd a p (sizeof_rela a) in
      let reloc_addr := wrapping_add (wsz a) r_offset offset in
      if r_type a r_info =? R_RELATIVE a then
        do_rela f a offset p' pend (relocation_store a reloc_addr (wrapping_add (wsz a) r_addend offset) s)
      else Trapped s
  end.

(** relocate.rs:231-252: the rel loop. *)
Fixpoint do_rel (fuel : nat) (a : arch) (offset p pend : Z) (s : rst) : res rst :=
  match fuel with
  | O => Running
  | S f =>
    if p =? pend then Ok s
    else
      let r_offset := ldw a (rm s) p in
      let r_info := ldw a (rm s) (padd a p (wsz a)) in
      let p' := padd a p (sizeof_rel a) in
      let reloc_addr := wrapping_add (wsz a) r_offset offset in
      if r_type a r_info =? R_RELATIVE a then
        let addend := relocation_load a reloc_addr s in
        do_rel f a offset p' pend (relocation_store a reloc_addr (wrapping_add (wsz a) addend offset) s)
      else Trapped s
  end.

(** `x + y` on usize: a panic on overflow in debug builds, wrapping otherwise. *)
Definition radd (e : renv) (s : rst) (x y : Z) : res Z :=
  if x + y <? modulus (wsz (e_arch e)) then Ok (x + y)
  else if e_debug e then Panicked s else Ok ((x + y) mod modulus (wsz (e_arch e))).

(** relocate.rs:268-270, 288-290: add the offset to the word at [p]. *)
Definition add_offset (a : arch) (offset p : Z) (s : rst) : rst :=
  relocation_store a p (wrapping_add (wsz a) (relocation_load a p s) offset) s.

(** relocate.rs:277-294: the loop over one bitmap word.  [i] stays below
    usize::BITS, so `i += 1` and `i * size` cannot overflow. *)
Fixpoint do_bits (fuel : nat) (e : renv) (offset reloc_addr entry i : Z) (s : rst) : res rst :=
  match fuel with
  | O => Running
  | S f =>
    let a := e_arch e in
    let entry := shr_usize entry 1 in
    if entry =? 0 then Ok s
    else if negb (Z.land entry 1 =? 0) then
      do p <- radd e s reloc_addr (i * wsz a) in
      do_bits f e offset reloc_addr entry (i + 1) (add_offset a offset p s)
    else do_bits f e offset reloc_addr entry (i + 1) s
  end.

(** relocate.rs:254-299: the relr loop. *)
Fixpoint do_relr (fuel : nat) (e : renv) (offset p pend reloc_addr : Z) (s : rst) : res rst :=
  match fuel with
  | O => Running
  | S f =>
    let a := e_arch e in
    if p =? pend then Ok s
    else
      let entry := ldw a (rm s) p in
      let p' := padd a p (sizeof_relr a) in
      if Z.land entry 1 =? 0 then
        do reloc_addr <- radd e s offset entry in
        let s := add_offset a offset reloc_addr s in
        do reloc_addr <- radd e s reloc_addr (wsz a) in
        do_relr f e offset p' pend reloc_addr s
      else
        do s <- do_bits fuel e offset reloc_addr entry 0 s in
        do reloc_addr <- radd e s reloc_addr ((wsz a * 8 - 1) * wsz a) in
        do_relr f e offset p' pend reloc_addr s
  end.

(** relocate.rs:330-350: the program-header loop; the result is
    (relro, relro_size).  In debug builds a PT_DYNAMIC header that does not
    describe _DYNAMIC panics (`assert_eq!` is core's). *)
Fixpoint scan_phdrs (fuel : nat) (e : renv) (base phentsize p pend : Z) (s : rst) (r : Z * Z) : res (Z * Z) :=
  match fuel with
  | O => Running
  | S f =>
    let a := e_arch e in
    if p =? pend then Ok r
    else
      let p_type := load_le (rm s) p 4 in
      let p_vaddr := ldw a (rm s) (p + o_p_vaddr a) in
      let p_memsz := ldw a (rm s) (p + o_p_memsz a) in
      let p' := padd a p phentsize in
      if e_debug e && (p_type =? PT_DYNAMIC) then
        if e_dynv e =? padd a base p_vaddr then scan_phdrs f e base phentsize p' pend s r
        else Panicked s
      else if p_type =? PT_GNU_RELRO then scan_phdrs f e base phentsize p' pend s (p_vaddr, p_memsz)
      else scan_phdrs f e base phentsize p' pend s r
  end.

(** relocate.rs:381-391 load_static_start. *)
Definition load_static_start (e : renv) (s : rst) : Z := relocation_load (e_arch e) (e_static e) s.

(** usize::is_power_of_two. *)
Definition is_power_of_two (x : Z) : bool := negb (x =? 0) && (Z.land x (x - 1) =? 0).

(** relocate.rs:305-320: the debug-build checks.  `debug_assert!` is core's
    (panics), `debug_assert_eq!` is the file's own (traps), relocate.rs:39-46. *)
Definition debug_checks (e : renv) (i : auxinfo) (offset : Z) (s : rst) : res rst :=
  if e_debug e then
    if negb (is_power_of_two (auxv_page_size i)) then Panicked s
    else if negb (Z.land offset (auxv_page_size i - 1) =? 0) then Trapped s
    else if (auxv_base i =? 0) && negb (load_static_start e s =? auxv_entry i) then Trapped s
    else Ok s
  else Ok s.

(** relocate.rs:131-147: base, from the ELF header or AT_BASE. *)
Definition compute_base (e : renv) (i : auxinfo) (s : rst) : Z :=
  if auxv_base i =? 0
  then wrapping_sub (wsz (e_arch e)) (auxv_entry i) (ldw (e_arch e) (rm s) (e_ehdr e + o_e_entry))
  else auxv_base i.

(** relocate.rs:305-356: everything after the three loops. *)
Definition finish (fuel : nat) (e : renv) (i : auxinfo) (base : Z) (s : rst) : res rst :=
  let a := e_arch e in
  do s <- debug_checks e i base s in
  let phentsize := load_le (rm s) (e_ehdr e + o_e_phentsize a) 2 in
  let phnum := load_le (rm s) (e_ehdr e + o_e_phnum a) 2 in
  let first := padd a base (ldw a (rm s) (e_ehdr e + o_e_phoff a)) in
  let pend := padd a first (phnum * phentsize) in
  do r <- scan_phdrs fuel e base phentsize first pend s (0, 0) in
  let '(relro, relro_size) := r in
  if negb (relro_size =? 0) then
    let mprotect_addr := Z.land (wrapping_add (wsz a) relro base) (wrapping_neg (wsz a) (auxv_page_size i)) in
    relocation_mprotect_readonly e mprotect_addr relro_size s
  else Ok s.

(** relocate.rs:80-357 relocate. *)
Definition relocate (fuel : nat) (e : renv) (s : rst) : res rst :=
  let a := e_arch e in
  match read_aux fuel a (rm s) (e_envp e) with
  | None => Running
  | Some i =>
    if load_static_start e s =? auxv_entry i then Ok s
    else
      let base := compute_base e i s in
      do d <- scan_dyn fuel e s base (e_dynv e) (DI 0 0 0 0 0 0) in
      do s <- do_rela fuel a base (rela_ptr d) (padd a (rela_ptr d) (rela_sz d)) s in
      do s <- do_rel fuel a base (rel_ptr d) (padd a (rel_ptr d) (rel_sz d)) s in
      do s <- do_relr fuel e base (relr_ptr d) (padd a (relr_ptr d) (relr_sz d)) 0 s in
      finish fuel e i base s
  end.
