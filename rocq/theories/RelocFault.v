(** Startup relocation (src/relocate.rs) on a machine with page faults: the
    same code as RelocModel.v, with every load and store in the order in which
    the code makes it, each of which faults ([None]) if one of its bytes is not
    accessible.  Where the code takes a reference to a struct (`&*current_dyn`,
    `&*current_rela`, `&*current_phdr`) only the fields it goes on to use are
    loaded; `let Elf_auxv_t { a_type, a_val } = *current_aux` loads both. *)
From Verif Require Import Machine LayoutModel RelocModel.

(** Which bytes the process may read and write. *)
Record access := Acc { ac_r : Z -> bool; ac_w : Z -> bool }.

(** [None]: page fault. *)
Definition fres (A : Type) := option (res A).

Definition fbind {A B} (r : fres A) (f : A -> fres B) : fres B :=
  match r with
  | None => None
  | Some (Ok x) => f x
  | Some (Trapped s) => Some (Trapped s)
  | Some (Panicked s) => Some (Panicked s)
  | Some Running => Some Running
  end.
Notation "'run' x '<-' r 'in' k" := (fbind r (fun x => k)) (at level 200, x pattern, r at level 100).
Notation "'need' b 'in' k" := (if b then k else None) (at level 200, b at level 100).

(** A load of [n] bytes at [p] is permitted. *)
Definition may_read (ac : access) (p : Z) (n : nat) : bool :=
  forallb (fun i => ac_r ac (p + Z.of_nat i)) (seq 0 n).
(** A store of [n] bytes at [p] is permitted: writable, and not made read-only
    by an earlier mprotect of the run. *)
Definition may_write (ac : access) (s : rst) (p : Z) (n : nat) : bool :=
  forallb (fun i => ac_w ac (p + Z.of_nat i) && negb (ro s (p + Z.of_nat i))) (seq 0 n).

Section F.
Context (ac : access).

(** relocate.rs:360-369. *)
Fixpoint fskip_env (fuel : nat) (a : arch) (m : mem) (auxp : Z) : option (option Z) :=
  match fuel with
  | O => Some None
  | S f =>
    need may_read ac auxp (word a) in
    if ldw a m auxp =? 0 then Some (Some (padd a auxp (wsz a)))
    else fskip_env f a m (padd a auxp (wsz a))
  end.

(** relocate.rs:91-103. *)
Fixpoint fscan_aux (fuel : nat) (a : arch) (m : mem) (p : Z) (i : auxinfo) : option (option auxinfo) :=
  match fuel with
  | O => Some None
  | S f =>
    need may_read ac p (word a) && may_read ac (padd a p (wsz a)) (word a) in
    let a_type := ldw a m p in
    let a_val := ldw a m (padd a p (wsz a)) in
    let p' := padd a p (2 * wsz a) in
    let t := a_type mod 2 ^ 32 in
    if t =? AT_BASE then fscan_aux f a m p' (AI a_val (auxv_page_size i) (auxv_entry i))
    else if t =? AT_PAGESZ then fscan_aux f a m p' (AI (auxv_base i) a_val (auxv_entry i))
    else if t =? AT_ENTRY then fscan_aux f a m p' (AI (auxv_base i) (auxv_page_size i) a_val)
    else if t =? AT_NULL then Some (Some i)
    else fscan_aux f a m p' i
  end.

(** relocate.rs:81-103. *)
Definition fread_aux (fuel : nat) (a : arch) (m : mem) (envp : Z) : option (option auxinfo) :=
  match fskip_env fuel a m envp with
  | None => None
  | Some None => Some None
  | Some (Some auxp) => fscan_aux fuel a m auxp (AI 0 0 0)
  end.

(** relocate.rs:174-206.  The value field is loaded only for the tags that use
    it. *)
Fixpoint fscan_dyn (fuel : nat) (e : renv) (s : rst) (base p : Z) (d : dyninfo) : fres dyninfo :=
  match fuel with
  | O => Some Running
  | S f =>
    let a := e_arch e in
    need may_read ac p (word a) in
    let tag := ldw a (rm s) p in
    let v := ldw a (rm s) (padd a p (wsz a)) in
    let vok := may_read ac (padd a p (wsz a)) (word a) in
    let p' := padd a p (2 * wsz a) in
    let next := fun d => fscan_dyn f e s base p' d in
    if tag =? DT_RELA then need vok in next (DI (padd a base v) (rela_sz d) (rel_ptr d) (rel_sz d) (relr_ptr d) (relr_sz d))
    else if tag =? DT_RELASZ then need vok in next (DI (rela_ptr d) v (rel_ptr d) (rel_sz d) (relr_ptr d) (relr_sz d))
    else if e_debug e && (tag =? DT_RELAENT) then
      need vok in if v =? sizeof_rela a then next d else Some (Trapped s)
    else if tag =? DT_REL then need vok in next (DI (rela_ptr d) (rela_sz d) (padd a base v) (rel_sz d) (relr_ptr d) (relr_sz d))
    else if tag =? DT_RELSZ then need vok in next (DI (rela_ptr d) (rela_sz d) (rel_ptr d) v (relr_ptr d) (relr_sz d))
    else if e_debug e && (tag =? DT_RELENT) then
      need vok in if v =? sizeof_rel a then next d else Some (Trapped s)
    else if tag =? DT_RELR then need vok in next (DI (rela_ptr d) (rela_sz d) (rel_ptr d) (rel_sz d) (padd a base v) (relr_sz d))
    else if tag =? DT_RELRSZ then need vok in next (DI (rela_ptr d) (rela_sz d) (rel_ptr d) (rel_sz d) (relr_ptr d) v)
    else if e_debug e && (tag =? DT_RELRENT) then
      need vok in if v =? sizeof_relr a then next d else Some (Trapped s)
    else if tag =? DT_NULL then Some (Ok d)
    else next d
  end.

(** relocate.rs:208-229. *)
Fixpoint fdo_rela (fuel : nat) (a : arch) (offset p pend : Z) (s : rst) : fres rst :=
  match fuel with
  | O => Some Running
  | S f =>
    if p =? pend then Some (Ok s)
    else
      need may_read ac p (word a) && may_read ac (padd a p (wsz a)) (word a) in
      let r_offset := ldw a (rm s) p in
      let r_info := ldw a (rm s) (padd a p (wsz a)) in
      let p' := padd a p (sizeof_rela a) in
      let reloc_addr := wrapping_add (wsz a) r_offset offset in
      if r_type a r_info =? R_RELATIVE a then
        need may_read ac (padd a p (2 * wsz a)) (word a) in
        let r_addend := ldw a (rm s) (padd a p (2 * wsz a)) in
        need may_write ac s reloc_addr (word a) in
        fdo_rela f a offset p' pend (relocation_store a reloc_addr (wrapping_add (wsz a) r_addend offset) s)
      else Some (Trapped s)
  end.

(** relocate.rs:231-252. *)
Fixpoint fdo_rel (fuel : nat) (a : arch) (offset p pend : Z) (s : rst) : fres rst :=
  match fuel with
  | O => Some Running
  | S f =>
    if p =? pend then Some (Ok s)
    else
      need may_read ac p (word a) && may_read ac (padd a p (wsz a)) (word a) in
      let r_offset := ldw a (rm s) p in
      let r_info := ldw a (rm s) (padd a p (wsz a)) in
      let p' := padd a p (sizeof_rel a) in
      let reloc_addr := wrapping_add (wsz a) r_offset offset in
      if r_type a r_info =? R_RELATIVE a then
        need may_read ac reloc_addr (word a) in
        let addend := relocation_load a reloc_addr s in
        need may_write ac s reloc_addr (word a) in
        fdo_rel f a offset p' pend (relocation_store a reloc_addr (wrapping_add (wsz a) addend offset) s)
      else Some (Trapped s)
  end.

(** relocate.rs:268-270, 288-290. *)
Definition fadd_offset (a : arch) (offset p : Z) (s : rst) : fres rst :=
  need may_read ac p (word a) in
  need may_write ac s p (word a) in
  Some (Ok (relocation_store a p (wrapping_add (wsz a) (relocation_load a p s) offset) s)).

(** relocate.rs:277-294. *)
Fixpoint fdo_bits (fuel : nat) (e : renv) (offset reloc_addr entry i : Z) (s : rst) : fres rst :=
  match fuel with
  | O => Some Running
  | S f =>
    let a := e_arch e in
    let entry := shr_usize entry 1 in
    if entry =? 0 then Some (Ok s)
    else if negb (Z.land entry 1 =? 0) then
      run p <- Some (radd e s reloc_addr (i * wsz a)) in
      run s <- fadd_offset a offset p s in
      fdo_bits f e offset reloc_addr entry (i + 1) s
    else fdo_bits f e offset reloc_addr entry (i + 1) s
  end.

(** relocate.rs:254-299. *)
Fixpoint fdo_relr (fuel : nat) (e : renv) (offset p pend reloc_addr : Z) (s : rst) : fres rst :=
  match fuel with
  | O => Some Running
  | S f =>
    let a := e_arch e in
    if p =? pend then Some (Ok s)
    else
      need may_read ac p (word a) in
      let entry := ldw a (rm s) p in
      let p' := padd a p (sizeof_relr a) in
      if Z.land entry 1 =? 0 then
        run reloc_addr <- Some (radd e s offset entry) in
        run s <- fadd_offset a offset reloc_addr s in
        run reloc_addr <- Some (radd e s reloc_addr (wsz a)) in
        fdo_relr f e offset p' pend reloc_addr s
      else
        run s <- fdo_bits fuel e offset reloc_addr entry 0 s in
        run reloc_addr <- Some (radd e s reloc_addr ((wsz a * 8 - 1) * wsz a)) in
        fdo_relr f e offset p' pend reloc_addr s
  end.

(** relocate.rs:330-350. *)
Fixpoint fscan_phdrs (fuel : nat) (e : renv) (base phentsize p pend : Z) (s : rst) (r : Z * Z) : fres (Z * Z) :=
  match fuel with
  | O => Some Running
  | S f =>
    let a := e_arch e in
    if p =? pend then Some (Ok r)
    else
      need may_read ac p 4 in
      let p_type := load_le (rm s) p 4 in
      let p_vaddr := ldw a (rm s) (p + o_p_vaddr a) in
      let p_memsz := ldw a (rm s) (p + o_p_memsz a) in
      let p' := padd a p phentsize in
      if e_debug e && (p_type =? PT_DYNAMIC) then
        need may_read ac (p + o_p_vaddr a) (word a) in
        if e_dynv e =? padd a base p_vaddr then fscan_phdrs f e base phentsize p' pend s r
        else Some (Panicked s)
      else if p_type =? PT_GNU_RELRO then
        need may_read ac (p + o_p_vaddr a) (word a) && may_read ac (p + o_p_memsz a) (word a) in
        fscan_phdrs f e base phentsize p' pend s (p_vaddr, p_memsz)
      else fscan_phdrs f e base phentsize p' pend s r
  end.

(** relocate.rs:381-391. *)
Definition fload_static_start (e : renv) (s : rst) : fres Z :=
  need may_read ac (e_static e) (word (e_arch e)) in Some (Ok (load_static_start e s)).

(** relocate.rs:305-320. *)
Definition fdebug_checks (e : renv) (i : auxinfo) (offset : Z) (s : rst) : fres rst :=
  if e_debug e then
    if negb (is_power_of_two (auxv_page_size i)) then Some (Panicked s)
    else if negb (Z.land offset (auxv_page_size i - 1) =? 0) then Some (Trapped s)
    else if auxv_base i =? 0 then
      run st <- fload_static_start e s in
      if st =? auxv_entry i then Some (Ok s) else Some (Trapped s)
    else Some (Ok s)
  else Some (Ok s).

(** relocate.rs:131-147. *)
Definition fcompute_base (e : renv) (i : auxinfo) (s : rst) : fres Z :=
  if auxv_base i =? 0
  then need may_read ac (e_ehdr e + o_e_entry) (word (e_arch e)) in Some (Ok (compute_base e i s))
  else Some (Ok (auxv_base i)).

(** relocate.rs:305-356. *)
Definition ffinish (fuel : nat) (e : renv) (i : auxinfo) (base : Z) (s : rst) : fres rst :=
  let a := e_arch e in
  run s <- fdebug_checks e i base s in
  need may_read ac (e_ehdr e + o_e_phentsize a) 2 && may_read ac (e_ehdr e + o_e_phoff a) (word a)
       && may_read ac (e_ehdr e + o_e_phnum a) 2 in
  let phentsize := load_le (rm s) (e_ehdr e + o_e_phentsize a) 2 in
  let phnum := load_le (rm s) (e_ehdr e + o_e_phnum a) 2 in
  let first := padd a base (ldw a (rm s) (e_ehdr e + o_e_phoff a)) in
  let pend := padd a first (phnum * phentsize) in
  run r <- fscan_phdrs fuel e base phentsize first pend s (0, 0) in
  let '(relro, relro_size) := r in
  if negb (relro_size =? 0) then
    let mprotect_addr := Z.land (wrapping_add (wsz a) relro base) (wrapping_neg (wsz a) (auxv_page_size i)) in
    Some (relocation_mprotect_readonly e mprotect_addr relro_size s)
  else Some (Ok s).

(** relocate.rs:80-357. *)
Definition frelocate (fuel : nat) (e : renv) (s : rst) : fres rst :=
  let a := e_arch e in
  match fread_aux fuel a (rm s) (e_envp e) with
  | None => None
  | Some None => Some Running
  | Some (Some i) =>
    run st <- fload_static_start e s in
    if st =? auxv_entry i then Some (Ok s)
    else
      run base <- fcompute_base e i s in
      run d <- fscan_dyn fuel e s base (e_dynv e) (DI 0 0 0 0 0 0) in
      run s <- fdo_rela fuel a base (rela_ptr d) (padd a (rela_ptr d) (rela_sz d)) s in
      run s <- fdo_rel fuel a base (rel_ptr d) (padd a (rel_ptr d) (rel_sz d)) s in
      run s <- fdo_relr fuel e base (relr_ptr d) (padd a (relr_ptr d) (relr_sz d)) 0 s in
      ffinish fuel e i base s
  end.
End F.
