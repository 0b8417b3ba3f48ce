(** Program startup and thread creation on a machine with page faults: the
    functions of StartModel.v and LayoutModel.v that read or write memory, with
    every load and store in the order of the code, each of which faults if one
    of its bytes is not accessible.  Statics of the crate (STARTUP_TLS_INFO,
    STARTUP_STACK_SIZE, __stack_chk_guard) and the machine stack of the running
    code are not part of it. *)
From Verif Require Import Machine LayoutModel RelocModel RelocSpec StartModel RelocFault.

(** What a run did, and how it ended; [None]: page fault. *)
Definition frun : Type := list ev * option fin.
Definition femit (e : ev) (r : frun) : frun := (e :: fst r, snd r).
Definition fault : frun := ([], None).
Definition fends (f : fin) : frun := ([], Some f).

(** The [n] bytes at [p] are readable / writable. *)
Definition reads (ac : access) (p n : Z) : bool := may_read ac p (Z.to_nat n).
Definition writes (ac : access) (p n : Z) : bool :=
  forallb (fun i => ac_w ac (p + Z.of_nat i)) (seq 0 (Z.to_nat n)).

(** mmap(READ | WRITE) and mprotect(READ | WRITE): the [n] bytes at [p] become
    accessible.  (The kernel grants whole pages; the code may count only on
    what it asked for.) *)
Definition grant (ac : access) (p n : Z) : access :=
  let new := fun x => (p <=? x) && (x <? p + n) in
  Acc (fun x => new x || ac_r ac x) (fun x => new x || ac_w ac x).
(** mmap(PROT_NONE). *)
Definition revoke (ac : access) (p n : Z) : access :=
  let new := fun x => (p <=? x) && (x <? p + n) in
  Acc (fun x => negb (new x) && ac_r ac x) (fun x => negb (new x) && ac_w ac x).
(** After the mprotect(READ) calls of relocation. *)
Definition after_ro (ac : access) (s : rst) : access :=
  Acc (ac_r ac) (fun x => ac_w ac x && negb (ro s x)).

(** program/linux_raw.rs:183-197 compute_args; the inner [None] is a panic. *)
Definition fcompute_args (ac : access) (ck : bool) (a : arch) (m : mem) (sp : Z) : option (option (Z * Z * Z)) :=
  need may_read ac sp (word a) in
  let kernel_argc := ldw a m sp in
  let argc := to_i32 kernel_argc in
  let argv := padd a sp (wsz a) in
  match uadd ck a (to_u32 argc) 1 with
  | None => Some None
  | Some n =>
    let envp := padd a argv (n * wsz a) in
    let last := padd a argv (i32_to_usize a argc * wsz a) in
    if ck then
      if (0 <=? argc) && (kernel_argc =? i32_to_usize a argc) then
        need may_read ac last (word a) in
        if ldw a m last =? 0 then Some (Some (argc, argv, envp)) else Some None
      else Some None
    else Some (Some (argc, argv, envp))
  end.

(** rustix::param::init: skips the environment, then loads auxv records, both
    fields of each, up to and including AT_NULL (contract, see StartModel.v). *)
Fixpoint faux_list (ac : access) (fuel : nat) (a : arch) (m : mem) (p : Z) : option (option (list (Z * Z))) :=
  match fuel with
  | O => Some None
  | S f =>
    need may_read ac p (word a) && may_read ac (padd a p (wsz a)) (word a) in
    let t := ldw a m p in
    if t =? AT_NULL then Some (Some [])
    else match faux_list ac f a m (padd a p (2 * wsz a)) with
         | Some (Some l) => Some (Some ((t, ldw a m (padd a p (wsz a))) :: l))
         | r => r
         end
  end.
Definition fparam_init (ac : access) (fuel : nat) (a : arch) (m : mem) (envp : Z) : option (option (list (Z * Z))) :=
  match fskip_env ac fuel a m envp with
  | None => None
  | Some None => Some None
  | Some (Some auxp) => faux_list ac fuel a m auxp
  end.
(** linux_execfn().to_bytes_with_nul(): a byte at a time. *)
Fixpoint fcstr_end (ac : access) (fuel : nat) (m : mem) (p : Z) : option (option Z) :=
  match fuel with
  | O => Some None
  | S f => need ac_r ac p in if m p =? 0 then Some (Some (p + 1)) else fcstr_end ac f m (p + 1)
  end.

(** thread/linux_raw.rs:263-281: the program-header loop.  Only the fields used
    are loaded. *)
Fixpoint fscan_info (ac : access) (fuel : nat) (a : arch) (m : mem) (first phent dynv p pend : Z) (s : phscan)
  : option (option phscan) :=
  match fuel with
  | O => Some None
  | S f =>
    if p =? pend then Some (Some s)
    else
      need may_read ac p 4 in
      let p_type := load_le m p 4 in
      let p_vaddr := ldw a m (p + o_p_vaddr a) in
      let p_memsz := ldw a m (p + o_p_memsz a) in
      let next := fscan_info ac f a m first phent dynv (padd a p phent) pend in
      if p_type =? PT_PHDR then
        need may_read ac (p + o_p_vaddr a) (word a) in next (PS (ph_tls s) (ph_stack s) (wrapping_sub (wsz a) first p_vaddr))
      else if p_type =? PT_DYNAMIC then
        need may_read ac (p + o_p_vaddr a) (word a) in next (PS (ph_tls s) (ph_stack s) (wrapping_sub (wsz a) dynv p_vaddr))
      else if p_type =? PT_TLS then next (PS p (ph_stack s) (ph_off s))
      else if p_type =? PT_GNU_STACK then
        need may_read ac (p + o_p_memsz a) (word a) in next (PS (ph_tls s) p_memsz (ph_off s))
      else next s
  end.

(** Lines 283-304. *)
Definition fstartup_values (ac : access) (a : arch) (m : mem) (s : phscan) : option (tls_info * Z) :=
  if ph_tls s =? 0 then Some (startup_values a m s)
  else
    need may_read ac (ph_tls s + o_p_vaddr a) (word a) && may_read ac (ph_tls s + o_p_memsz a) (word a) &&
         may_read ac (ph_tls s + o_p_filesz a) (word a) && may_read ac (ph_tls s + o_p_align a) (word a) in
    Some (startup_values a m s).

(** thread/linux_raw.rs:241-305 initialize_startup_info. *)
Definition finitialize_startup_info (ac : access) (fuel : nat) (ck : bool) (a : arch) (aux : list (Z * Z)) (dynv : Z) (m : mem)
  : option (sres (tls_info * Z)) :=
  let '(first, phent, phnum) := exe_phdrs aux in
  if ck && (modulus (wsz a) <=? phnum * phent) then Some SPanic
  else
    let pend := padd a first ((phnum * phent) mod modulus (wsz a)) in
    match fscan_info ac fuel a m first phent dynv first pend (PS 0 0 0) with
    | None => None
    | Some None => Some SMore
    | Some (Some s) =>
      match fstartup_values ac a m s with
      | None => None
      | Some v => Some (SOk v)
      end
    end.

(** thread/linux_raw.rs:430-473 initialize_tls: the record as a whole
    (metadata.write), then the initialised part of the TLS block, then the
    zeros.  The inner [None]: mem_size - file_size underflows. *)
Definition finitialize_tls (ac : access) (a : arch) (td : td_layout) (tls : tls_info) (m : mem)
    (tls_data metadata canary stack_least stack_size guard_size map_size : Z)
  : option (option (mem * Z * Z)) :=
  need writes ac metadata (meta_size a td) in
  need reads ac (tls_addr tls) (tls_filesz tls) && writes ac tls_data (tls_filesz tls) in
  if tls_filesz tls <=? tls_memsz tls then
    need writes ac (tls_data + tls_filesz tls) (tls_memsz tls - tls_filesz tls) in
    Some (initialize_tls a td tls m tls_data metadata canary stack_least stack_size guard_size map_size)
  else Some None.

(** thread/linux_raw.rs:326-384 initialize_main; the inner [None] is a panic.
    On success also the access rights afterwards. *)
Definition finitialize_main (ac : access) (ck : bool) (a : arch) (td : td_layout) (tls : tls_info) (page : Z)
    (m : mem) (sp execfn_end : Z) (rlim : option Z) (random : Z) (ans : option Z) (tid : Z)
  : option (option (access * main_res)) :=
  match round_up ck a execfn_end page with
  | None => Some None
  | Some stack_base =>
    match rlim with
    | None => Some None
    | Some stack_map_size =>
      let stack_least := stack_base - stack_map_size in
      let stack_size := (stack_least - sp) mod modulus (wsz a) in
      need may_read ac random (word a) in
      let canary := load_le m random (word a) in
      match calculate_tls_size ck a td tls page 0 with
      | None => Some None
      | Some (alloc_size, tls_data_bottom, header) =>
        match ans with
        | None => Some None
        | Some new =>
          let ac := grant ac new alloc_size in
          if ck && negb (new mod Z.max (tls_align tls) (meta_align a td) =? 0) then Some None
          else
            match finitialize_tls ac a td tls m (new + tls_data_bottom) (new + header) canary stack_least stack_size page 0 with
            | None => None
            | Some None => Some None
            | Some (Some (m1, newtls, tidp)) =>
              need writes ac tidp 4 in
              Some (Some (ac, MainRes (store_le m1 tidp 4 tid) newtls canary (thread_at a td (new + header)) [SMmapRW alloc_size (Some new)]))
            end
        end
      end
    end
  end.

(** program/linux_raw.rs:206-219 init_runtime, then [k]. *)
Definition finit_runtime (ac : access) (fuel : nat) (c : cfg) (l : link) (w : world) (sp envp : Z) (m : mem)
    (k : access -> mem -> frun) : frun :=
  let a := f_arch c in
  if has_param c then
    match fparam_init ac fuel a m envp with
    | None => fault
    | Some None => fends More
    | Some (Some aux) =>
      femit (ParamInit envp)
      (if f_thread c then
         match finitialize_startup_info ac fuel (f_debug c) a aux (l_dynv l) m with
         | None => fault
         | Some SMore => fends More
         | Some SPanic => fends PanicEnd
         | Some (SOk (tls, stack)) =>
           femit (StartupInfo tls stack)
           (match fcstr_end ac fuel m (value_of AT_EXECFN aux) with
            | None => fault
            | Some None => fends More
            | Some (Some execfn_end) =>
              femit (MainThread sp)
              (match finitialize_main ac (f_debug c) a (l_td l) tls (value_of AT_PAGESZ aux) m sp execfn_end
                       (w_rlimit w) (value_of AT_RANDOM aux) (w_mmap w) (w_tid w) with
               | None => fault
               | Some None => fends PanicEnd
               | Some (Some (ac, r)) => k ac (mr_mem r)
               end)
            end)
         end
       else k ac m)
    end
  else k ac m.

(** program/linux_raw.rs:128-142.  User functions are as in StartModel.v; the
    rights to .init_array do not change. *)
Fixpoint finit_loop (ac : access) (fuel : nat) (a : arch) (w : world) (args : Z * Z * Z) (n : nat) (init init_end : Z) (m : mem)
    (k : mem -> frun) : frun :=
  match fuel with
  | O => fends More
  | S f =>
    if init =? init_end then k m
    else
      let '(argc, argv, envp) := args in
      if may_read ac init (word a) then
        let fn := ldw a m init in
        femit (InitFn fn argc argv envp)
        (match w_init w n fn argc argv envp m with
         | None => fends UserStopped
         | Some m' => finit_loop ac f a w args (S n) (padd a init (wsz a)) init_end m' k
         end)
      else fault
  end.

(** program/linux_raw.rs:145-163. *)
Definition fcall_main (a : arch) (w : world) (args : Z * Z * Z) (m : mem) : frun :=
  (fst (call_main a w args m), Some (snd (call_main a w args m))).

(** program/linux_raw.rs:103-163. *)
Definition fafter_relocate (ac : access) (fuel : nat) (c : cfg) (l : link) (w : world) (sp : Z) (args : Z * Z * Z) (m : mem) : frun :=
  finit_runtime ac fuel c l w sp (snd args) m (fun ac m =>
    if f_init_array c
    then finit_loop ac fuel (f_arch c) w args 0 (l_init_start l) (l_init_end l) m (fcall_main (f_arch c) w args)
    else fcall_main (f_arch c) w args m).

(** program/linux_raw.rs:50-164 entry. *)
Definition fentry (ac : access) (fuel : nat) (c : cfg) (l : link) (w : world) (sp : Z) (m : mem) : frun :=
  if negb (mem_checks c sp) then fends PanicEnd
  else
    match fcompute_args ac (f_debug c) (f_arch c) m sp with
    | None => fault
    | Some None => fends PanicEnd
    | Some (Some args) =>
      if f_relocate c && f_origin_start c then
        femit (Relocate (snd args))
        (match frelocate ac fuel (reloc_env c l w (snd args)) (RelocSpec.start m) with
         | None => fault
         | Some (Ok s) => fafter_relocate (after_ro ac s) fuel c l w sp args (rm s)
         | Some (Trapped _) => fends TrapEnd
         | Some (Panicked _) => fends PanicEnd
         | Some Running => fends More
         end)
      else fafter_relocate ac fuel c l w sp args m
    end.

(** thread/linux_raw.rs:484-614 create, called on a thread whose
    thread-pointer register is [tpreg]; [None]: page fault. *)
Definition fcreate (ac : access) (ck : bool) (a : arch) (td : td_layout) (tls : tls_info) (page : Z)
    (m : mem) (tpreg : Z) (ans : answers) (fn : Z) (args : list Z) (stack_size guard_size : Z)
  : option (cres * list sysev * mem) :=
  match create_layout ck a td tls page stack_size guard_size with
  | None => Some (CPanic, [], m)
  | Some l =>
    match ans_mmap ans with
    | None => Some (CErr, [SMmap (l_map_size l) None], m)
    | Some map =>
      let ac := revoke ac map (l_map_size l) in
      let e1 := SMmap (l_map_size l) (Some map) in
      let e2 := SMprotectRW (map + l_stack_bottom l) (l_map_size l - l_stack_bottom l) (ans_mprotect ans) in
      if negb (ans_mprotect ans) then Some (CErr, [e1; e2], m)
      else
        let ac := grant ac (map + l_stack_bottom l) (l_map_size l - l_stack_bottom l) in
        let stack := map + l_stack_top l in
        need negb (tls_below a) || may_read ac tpreg (word a) in      (* thread_pointer *)
        let canaryp := abi_at a td (current_metadata a td m tpreg) Canary in
        need may_read ac canaryp (word a) in
        match finitialize_tls ac a td tls m (map + l_tls l) (map + l_header l) (load_le m canaryp (word a))
                (map + l_stack_bottom l) stack_size guard_size (l_map_size l) with
        | None => None
        | Some None => Some (CPanic, [e1; e2], m)
        | Some (Some (m1, newtls, tidp)) =>
          let sp := child_sp a stack (Z.of_nat (length args)) in
          need writes ac sp (Z.of_nat (length args) * wsz a) in
          let m2 := store_words m1 sp (word a) args in
          let e3 := SClone sp tidp tidp newtls fn (Z.of_nat (length args)) (ans_clone ans) in
          if 0 <=? ans_clone ans
          then (* the kernel's own store of the tid: EFAULT, i.e. nothing stored, is not a fault *)
            Some (COk (thread_at a td (map + l_header l)), [e1; e2; e3], store_le m2 tidp 4 (ans_clone ans))
          else Some (CErr, [e1; e2; e3], m2)
        end
    end
  end.
