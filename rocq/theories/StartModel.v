(** Model of program startup: src/program/linux_raw.rs entry, start,
    compute_args, init_runtime; src/thread/linux_raw.rs
    initialize_startup_info; src/getauxval.rs.

    Conventions as in RelocModel.v (wrapping pointer arithmetic, fuel for
    loops, no page faults: those are in StartFault.v).  Left out: log messages,
    and the extra checks of `nightly` debug builds on frame and return addresses
    (program/linux_raw.rs:60-91): those are in EntryModel.v. *)
From Verif Require Import Machine LayoutModel RelocModel RelocSpec.

(** ** Constants (linux_raw_sys::general, linux_raw_sys::elf) *)
Definition AT_PHDR := 3.
Definition AT_PHENT := 4.
Definition AT_PHNUM := 5.
Definition AT_HWCAP := 16.
Definition AT_RANDOM := 25.
Definition AT_HWCAP2 := 26.
Definition AT_EXECFN := 31.
Definition AT_MINSIGSTKSZ := 51.
Definition PT_PHDR := 6.
Definition PT_TLS := 7.
Definition PT_GNU_STACK := 0x6474e551.

(** ** Casts *)
(** `x as c_int`. *)
Definition to_i32 (x : Z) : Z := let y := x mod 2 ^ 32 in if y <? 2 ^ 31 then y else y - 2 ^ 32.
(** `x as c_uint` on c_int. *)
Definition to_u32 (x : Z) : Z := x mod 2 ^ 32.
(** `x as usize` on c_int: sign extension. *)
Definition i32_to_usize (a : arch) (x : Z) : Z := x mod modulus (wsz a).

(** ** The rustix dependency: `rustix::param`
    Not code of this repository.  Its documented contract: `init(envp)` reads
    the auxv that follows the environment, and `exe_phdrs`, `linux_hwcap`,
    `linux_minsigstksz`, `linux_execfn`, `page_size` then report what the
    records of the corresponding types say (the last one of each, as it stores
    them while scanning; 0 if there is none). *)
Fixpoint aux_list (fuel : nat) (a : arch) (m : mem) (p : Z) : option (list (Z * Z)) :=
  match fuel with
  | O => None
  | S f =>
    let t := ldw a m p in
    if t =? AT_NULL then Some []
    else match aux_list f a m (padd a p (2 * wsz a)) with
         | None => None
         | Some l => Some ((t, ldw a m (padd a p (wsz a))) :: l)
         end
  end.
Definition param_init (fuel : nat) (a : arch) (m : mem) (envp : Z) : option (list (Z * Z)) :=
  match skip_env fuel a m envp with
  | None => None
  | Some auxp => aux_list fuel a m auxp
  end.
(** rustix::runtime::exe_phdrs *)
Definition exe_phdrs (aux : list (Z * Z)) : Z * Z * Z :=
  (value_of AT_PHDR aux, value_of AT_PHENT aux, value_of AT_PHNUM aux).
Definition linux_hwcap (aux : list (Z * Z)) : Z * Z := (value_of AT_HWCAP aux, value_of AT_HWCAP2 aux).
Definition linux_minsigstksz (aux : list (Z * Z)) : Z := value_of AT_MINSIGSTKSZ aux.
(** The address just past the NUL of `linux_execfn()`. *)
Fixpoint cstr_end (fuel : nat) (m : mem) (p : Z) : option Z :=
  match fuel with
  | O => None
  | S f => if m p =? 0 then Some (p + 1) else cstr_end f m (p + 1)
  end.

(** ** src/getauxval.rs:21-30 _getauxval; `None` is the `todo!` panic.
    `type_ as _` is matched against u32 constants: only the low 32 bits of
    [type_] are looked at.  getauxval (lines 11-13) and __getauxval (lines
    15-19, aarch64) are this function. *)
Definition getauxval (aux : list (Z * Z)) (type_ : Z) : option Z :=
  let t := type_ mod 2 ^ 32 in
  if t =? AT_HWCAP then Some (fst (linux_hwcap aux))
  else if t =? AT_HWCAP2 then Some (snd (linux_hwcap aux))
  else if t =? AT_MINSIGSTKSZ then Some (linux_minsigstksz aux)
  else None.

(** ** thread/linux_raw.rs:241-305 initialize_startup_info *)

(** Lines 242-244: the local variables; [ph_tls] is `tls_phdr`, 0 = null. *)
Record phscan := PS { ph_tls : Z; ph_stack : Z; ph_off : Z }.

(** Lines 263-281: the program-header loop. *)
Fixpoint scan_info (fuel : nat) (a : arch) (m : mem) (first phent dynv p pend : Z) (s : phscan) : option phscan :=
  match fuel with
  | O => None
  | S f =>
    if p =? pend then Some s
    else
      let p_type := load_le m p 4 in
      let p_vaddr := ldw a m (p + o_p_vaddr a) in
      let p_memsz := ldw a m (p + o_p_memsz a) in
      let next := scan_info f a m first phent dynv (padd a p phent) pend in
      if p_type =? PT_PHDR then next (PS (ph_tls s) (ph_stack s) (wrapping_sub (wsz a) first p_vaddr))
      else if p_type =? PT_DYNAMIC then next (PS (ph_tls s) (ph_stack s) (wrapping_sub (wsz a) dynv p_vaddr))
      else if p_type =? PT_TLS then next (PS p (ph_stack s) (ph_off s))
      else if p_type =? PT_GNU_STACK then next (PS (ph_tls s) p_memsz (ph_off s))
      else next s
  end.

Inductive sres (A : Type) := SOk (x : A) | SPanic | SMore.
Arguments SOk {A}. Arguments SPanic {A}. Arguments SMore {A}.

(** Lines 283-304: STARTUP_TLS_INFO and STARTUP_STACK_SIZE.
    `NonNull::<c_void>::dangling()` is address 1. *)
Definition startup_values (a : arch) (m : mem) (s : phscan) : tls_info * Z :=
  (if ph_tls s =? 0 then Tls 1 0 0 1
   else Tls (wrapping_add (wsz a) (ph_off s) (ldw a m (ph_tls s + o_p_vaddr a)))
            (ldw a m (ph_tls s + o_p_memsz a))
            (ldw a m (ph_tls s + o_p_filesz a))
            (ldw a m (ph_tls s + o_p_align a)),
   ph_stack s).

Definition initialize_startup_info (fuel : nat) (ck : bool) (a : arch) (aux : list (Z * Z)) (dynv : Z) (m : mem)
  : sres (tls_info * Z) :=
  let '(first, phent, phnum) := exe_phdrs aux in
  if ck && (modulus (wsz a) <=? phnum * phent) then SPanic     (* `phnum * phent` *)
  else
    let pend := padd a first ((phnum * phent) mod modulus (wsz a)) in
    match scan_info fuel a m first phent dynv first pend (PS 0 0 0) with
    | None => SMore
    | Some s => SOk (startup_values a m s)
    end.

(** ** The build and the world *)

(** Feature configuration.  [f_relocate] stands for the feature
    "experimental-relocate" and relocation_model "pic"; `thread` implies
    `param` (Cargo.toml:85). *)
Record cfg := Cfg {
  f_arch : arch;
  f_debug : bool;
  f_origin_start : bool;  (* otherwise "external-start" *)
  f_relocate : bool;
  f_param : bool;
  f_thread : bool;
  f_init_array : bool }.
Definition has_param (c : cfg) : bool := f_param c || f_thread c.

(** Addresses chosen by the linker, and the layout of ThreadData. *)
Record link := Link {
  l_ehdr : Z; l_dynv : Z; l_static : Z;
  l_init_start : Z;  (* __init_array_start *)
  l_init_end : Z;    (* __init_array_end *)
  l_td : td_layout }.

(** The kernel and the user's code.  User functions are arbitrary: they get
    their arguments and the memory and may change it; [None] = they do not
    return (they exit, loop, panic or are killed). *)
Record world := World {
  w_kpage : Z; w_kerr : Z;            (* mprotect, see RelocModel *)
  w_rlimit : option Z;                (* getrlimit(Stack).current *)
  w_mmap : option Z;                  (* answer to mmap in initialize_main *)
  w_tid : Z;
  w_init : nat -> Z -> Z -> Z -> Z -> mem -> option mem;   (* call number, function, argc, argv, envp *)
  w_main : Z -> Z -> Z -> mem -> option (mem * Z) }.

(** What happens, in order. *)
Inductive ev :=
| Relocate (envp : Z)
| ParamInit (envp : Z)
| StartupInfo (tls : tls_info) (stack : Z)
| MainThread (sp : Z)
| InitFn (f argc argv envp : Z)
| OriginMain (argc argv envp : Z)
| Exit (status : Z).

Inductive fin :=
| Exited (status : Z)   (* program::exit(status) called; see DtorsModel.v *)
| UserStopped           (* user code did not return *)
| TrapEnd
| PanicEnd
| More.                 (* out of fuel *)

Definition run : Type := list ev * fin.
Definition emit (e : ev) (r : run) : run := (e :: fst r, snd r).

(** ** program/linux_raw.rs:183-197 compute_args; `None` is a panic (debug
    builds).  `argc as c_uint as usize + 1` can overflow only where usize is 32
    bits wide. *)
Definition compute_args (ck : bool) (a : arch) (m : mem) (sp : Z) : option (Z * Z * Z) :=
  let kernel_argc := ldw a m sp in
  let argc := to_i32 kernel_argc in
  let argv := padd a sp (wsz a) in
  let* n := uadd ck a (to_u32 argc) 1 in
  let envp := padd a argv (n * wsz a) in
  if ck && negb ((0 <=? argc) && (kernel_argc =? i32_to_usize a argc) &&
                 (ldw a m (padd a argv (i32_to_usize a argc * wsz a)) =? 0))
  then None else Some (argc, argv, envp).

(** program/linux_raw.rs:54-58: debug checks on `mem`. *)
Definition mem_checks (c : cfg) (sp : Z) : bool :=
  if f_debug c && f_origin_start c then negb (sp =? 0) && (Z.land sp 0xf =? 0) else true.

(** program/linux_raw.rs:206-219 init_runtime, then [k] on the resulting
    memory. *)
Definition init_runtime (fuel : nat) (c : cfg) (l : link) (w : world) (sp envp : Z) (m : mem) (k : mem -> run) : run :=
  let a := f_arch c in
  if has_param c then
    match param_init fuel a m envp with
    | None => ([], More)
    | Some aux =>
      emit (ParamInit envp)
      (if f_thread c then
         match initialize_startup_info fuel (f_debug c) a aux (l_dynv l) m with
         | SMore => ([], More)
         | SPanic => ([], PanicEnd)
         | SOk (tls, stack) =>
           emit (StartupInfo tls stack)
           (match cstr_end fuel m (value_of AT_EXECFN aux) with
            | None => ([], More)
            | Some execfn_end =>
              emit (MainThread sp)
              (match initialize_main (f_debug c) a (l_td l) tls (value_of AT_PAGESZ aux) m sp execfn_end
                       (w_rlimit w) (value_of AT_RANDOM aux) (w_mmap w) (w_tid w) with
               | None => ([], PanicEnd)
               | Some r => k (mr_mem r)
               end)
            end)
         end
       else k m)
    end
  else k m.

(** program/linux_raw.rs:128-142: the .init_array loop. *)
Fixpoint init_loop (fuel : nat) (a : arch) (w : world) (args : Z * Z * Z) (n : nat) (init init_end : Z) (m : mem)
    (k : mem -> run) : run :=
  match fuel with
  | O => ([], More)
  | S f =>
    if init =? init_end then k m
    else
      let '(argc, argv, envp) := args in
      let fn := ldw a m init in
      emit (InitFn fn argc argv envp)
      (match w_init w n fn argc argv envp m with
       | None => ([], UserStopped)
       | Some m' => init_loop f a w args (S n) (padd a init (wsz a)) init_end m' k
       end)
  end.

(** program/linux_raw.rs:145-163: origin_main, exit. *)
Definition call_main (a : arch) (w : world) (args : Z * Z * Z) (m : mem) : run :=
  let '(argc, argv, envp) := args in
  let argc := i32_to_usize a argc in
  emit (OriginMain argc argv envp)
  (match w_main w argc argv envp m with
   | None => ([], UserStopped)
   | Some (_, status) => ([Exit status], Exited status)
   end).

(** program/linux_raw.rs:103-163: everything after relocation. *)
Definition after_relocate (fuel : nat) (c : cfg) (l : link) (w : world) (sp : Z) (args : Z * Z * Z) (m : mem) : run :=
  init_runtime fuel c l w sp (snd args) m (fun m =>
    if f_init_array c
    then init_loop fuel (f_arch c) w args 0 (l_init_start l) (l_init_end l) m (call_main (f_arch c) w args)
    else call_main (f_arch c) w args m).

Definition reloc_env (c : cfg) (l : link) (w : world) (envp : Z) : renv :=
  RE (f_arch c) (f_debug c) envp (l_ehdr l) (l_dynv l) (l_static l) (w_kpage w) (w_kerr w).

(** program/linux_raw.rs:50-164 entry; `start` (173-176) is the same. *)
Definition entry (fuel : nat) (c : cfg) (l : link) (w : world) (sp : Z) (m : mem) : run :=
  if negb (mem_checks c sp) then ([], PanicEnd)
  else
    match compute_args (f_debug c) (f_arch c) m sp with
    | None => ([], PanicEnd)
    | Some args =>
      if f_relocate c && f_origin_start c then
        emit (Relocate (snd args))
        (match relocate fuel (reloc_env c l w (snd args)) (RelocSpec.start m) with
         | Ok s => after_relocate fuel c l w sp args (rm s)
         | Trapped _ => ([], TrapEnd)
         | Panicked _ => ([], PanicEnd)
         | Running => ([], More)
         end)
      else after_relocate fuel c l w sp args m
    end.
