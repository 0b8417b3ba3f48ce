(** Vocabulary for C08, C10, C11, C46: what the kernel leaves on the initial
    stack, the order of startup, program headers.  Written from the System V
    ABI (initial process stack) and the ELF gABI, not from the code. *)
From Verif Require Import Machine LayoutModel RelocModel RelocSpec StartModel.

(** The initial stack at [sp]: argc, the argument pointers, NULL, the
    environment pointers, NULL, the auxv, AT_NULL. *)
Definition kernel_stack (a : arch) (m : mem) (sp : Z) (args env : list Z) (aux : list (Z * Z)) : Prop :=
  words_at a m sp ([Z.of_nat (length args)] ++ args ++ [0] ++ env ++ [0] ++ pairs aux ++ [0]) /\
  Z.of_nat (length args) < 2 ^ 31 /\
  Forall (fun w => w <> 0) env /\
  Forall (fun r => 0 < fst r < 2 ^ 32) aux /\
  0 <= sp < modulus (wsz a).

(** Where the argument and environment pointers are. *)
Definition argv_of (a : arch) (sp : Z) : Z := (sp + wsz a) mod modulus (wsz a).
Definition envp_of (a : arch) (sp : Z) (args : list Z) : Z :=
  (sp + wsz a + (Z.of_nat (length args) + 1) * wsz a) mod modulus (wsz a).

(** What origin's runtime does before any user code, in order. *)
Definition runtime_setup (c : cfg) (sp envp : Z) (tls : tls_info) (stack : Z) : list ev :=
  (if f_relocate c && f_origin_start c then [Relocate envp] else []) ++
  (if f_param c || f_thread c then [ParamInit envp] else []) ++
  (if f_thread c then [StartupInfo tls stack; MainThread sp] else []).

(** The functions of .init_array in order, then origin_main, then exit. *)
Definition user_calls (fns : list Z) (argc argv envp status : Z) : list ev :=
  map (fun f => InitFn f argc argv envp) fns ++ [OriginMain argc argv envp; Exit status].

Definition prefix {A} (l l' : list A) : Prop := exists r, l' = l ++ r.

Definition is_user (e : ev) : Prop :=
  match e with InitFn _ _ _ _ | OriginMain _ _ _ => True | _ => False end.

(** The memory once relocation is over. *)
Definition relocated (c : cfg) (l : link) (w : world) (envp : Z) (m m1 : mem) : Prop :=
  if f_relocate c && f_origin_start c
  then exists s, outcome (reloc_env c l w envp) m (Ok s) /\ m1 = rm s
  else m1 = m.

(** How a startup run ends. *)
Definition ends (c : cfg) (l : link) (w : world) (sp : Z) (m : mem) (r : run) : Prop :=
  snd r <> More /\ exists n, entry n c l w sp m = r.

(** ** Program headers *)
Record phdr := Ph { p_type : Z; p_vaddr : Z; p_filesz : Z; p_memsz : Z; p_align : Z }.

Definition phdr_in (a : arch) (m : mem) (p : Z) (h : phdr) : Prop :=
  load_le m p 4 = p_type h /\
  load_le m (p + o_p_vaddr a) (word a) = p_vaddr h /\
  load_le m (p + o_p_filesz a) (word a) = p_filesz h /\
  load_le m (p + o_p_memsz a) (word a) = p_memsz h /\
  load_le m (p + o_p_align a) (word a) = p_align h.

(** The auxv announces the headers [hs], which are in memory. *)
Definition headers (a : arch) (m : mem) (aux : list (Z * Z)) (hs : list phdr) : Prop :=
  let first := value_of AT_PHDR aux in
  let ent := value_of AT_PHENT aux in
  value_of AT_PHNUM aux = Z.of_nat (length hs) /\
  0 < first /\ 0 < ent /\ first + Z.of_nat (length hs) * ent < modulus (wsz a) /\
  forall i h, nth_error hs i = Some h -> phdr_in a m (first + Z.of_nat i * ent) h.

(** The program is loaded [base] bytes above its link address: every header
    with a known run-time address says so; without any, the program is not
    relocatable and [base] is 0. *)
Definition loaded_at (a : arch) (base first dynv : Z) (hs : list phdr) : Prop :=
  Forall (fun h => (p_type h = 6 -> (base + p_vaddr h) mod modulus (wsz a) = first) /\
                   (p_type h = 2 -> (base + p_vaddr h) mod modulus (wsz a) = dynv)) hs /\
  (Exists (fun h => p_type h = 6 \/ p_type h = 2) hs \/ base = 0).

Definition last_of (t : Z) (hs : list phdr) : option phdr := find (fun h => p_type h =? t) (rev hs).

(** The TLS template: PT_TLS at its run-time address; empty without PT_TLS. *)
Definition template_is (a : arch) (base : Z) (hs : list phdr) (t : tls_info) : Prop :=
  match last_of 7 hs with
  | Some h => t = Tls ((base + p_vaddr h) mod modulus (wsz a)) (p_memsz h) (p_filesz h) (p_align h)
  | None => tls_memsz t = 0 /\ tls_filesz t = 0 /\ tls_align t = 1 /\ tls_addr t <> 0
  end.
Definition stack_request (hs : list phdr) : Z :=
  match last_of 0x6474e551 hs with Some h => p_memsz h | None => 0 end.

(** ** .init_array *)
Definition init_array_at (a : arch) (l : link) (m : mem) (fns : list Z) : Prop :=
  l_init_end l = (l_init_start l + Z.of_nat (length fns) * wsz a) mod modulus (wsz a) /\
  0 <= l_init_start l < modulus (wsz a) /\
  Z.of_nat (length fns) * wsz a < modulus (wsz a) /\
  words_at a m (l_init_start l) fns.

(** [m'] has the same .init_array as [m]. *)
Definition same_array (a : arch) (l : link) (n : nat) (m m' : mem) : Prop :=
  forall i, (i < n)%nat ->
    let p := (l_init_start l + Z.of_nat i * wsz a) mod modulus (wsz a) in
    load_le m' p (word a) = load_le m p (word a).

(** The init functions leave .init_array alone. *)
Definition inits_keep (a : arch) (l : link) (w : world) (n : nat) : Prop :=
  forall k f argc argv envp m m', w_init w k f argc argv envp m = Some m' -> same_array a l n m m'.

(** ** The main thread's setup
    [main_setup t R]: initialising the main thread with TLS template [t] on
    memory [m] succeeded with result [R]. *)
Definition main_setup (c : cfg) (l : link) (w : world) (sp : Z) (aux : list (Z * Z)) (m : mem) (t : tls_info) (R : main_res) : Prop :=
  exists e, (exists n, cstr_end n m (value_of AT_EXECFN aux) = Some e) /\
    initialize_main (f_debug c) (f_arch c) (l_td l) t (value_of AT_PAGESZ aux) m sp e
      (w_rlimit w) (value_of AT_RANDOM aux) (w_mmap w) (w_tid w) = Some R.

(** ** Order of startup: how a run [r] relates to the sequence "runtime setup,
    init functions [fns] in order, origin_main, exit", each exactly once:
    - a run that exits made the whole sequence;
    - one that ends in user code that does not return made it up to that call;
    - one that traps or panics had not reached user code;
    - one that is still going on has made a prefix of it. *)
Definition order_ok (c : cfg) (sp argc argv envp : Z) (fns : list Z) (r : run) : Prop :=
  exists tls stack status,
  let setup := runtime_setup c sp envp tls stack in
  let calls := user_calls fns argc argv envp status in
  match snd r with
  | Exited st => st = status /\ fst r = setup ++ calls
  | UserStopped => exists u e, fst r = setup ++ u ++ [e] /\ is_user e /\ prefix (u ++ [e]) calls
  | TrapEnd | PanicEnd => prefix (fst r) setup
  | More => prefix (fst r) (setup ++ calls)
  end.

(** With the init-array feature the array is [fns]; without it nothing is
    called. *)
Definition array_ok (c : cfg) (l : link) (m : mem) (fns : list Z) : Prop :=
  if f_init_array c then init_array_at (f_arch c) l m fns else fns = [].
