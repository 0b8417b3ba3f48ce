(** Vocabulary for C77: the memory program startup and thread creation are
    entitled to touch. *)
From Verif Require Import Machine LayoutModel LayoutSpec RelocModel RelocSpec StartModel StartSpec RelocFault RelocFaultSpec StartFault.

(** The kernel's initial stack can be read: argc, the arguments and their NULL,
    the environment and its NULL, the auxv with its AT_NULL record. *)
Definition stack_readable (ac : access) (a : arch) (sp : Z) (args env : list Z) (aux : list (Z * Z)) : Prop :=
  can_words a (ac_r ac) sp (1 + (length args + 1) + (length env + 1) + 2 * (length aux + 1)).

(** The program headers the auxv announces can be read. *)
Definition headers_readable (ac : access) (a : arch) (aux : list (Z * Z)) (n : nat) : Prop :=
  forall i, (i < n)%nat -> can (ac_r ac) (value_of AT_PHDR aux + Z.of_nat i * value_of AT_PHENT aux) (sizeof_phdr a).

(** So can the NUL-terminated string at [p]. *)
Definition string_readable (ac : access) (m : mem) (p : Z) : Prop :=
  exists n, 0 <= n /\ m (p + n) = 0 /\ can (ac_r ac) p (n + 1).

(** What setting up the main thread may read, with memory [m]: the headers
    [hs] of a program loaded at [base], the AT_EXECFN string, the 16 AT_RANDOM
    bytes and the TLS template; and the environment's sizes are sane. *)
Definition thread_readable (ac : access) (c : cfg) (l : link) (aux : list (Z * Z)) (m : mem) (hs : list phdr) (base : Z) : Prop :=
  let a := f_arch c in
  let page := value_of AT_PAGESZ aux in
  headers a m aux hs /\ loaded_at a base (value_of AT_PHDR aux) (l_dynv l) hs /\
  headers_readable ac a aux (length hs) /\
  string_readable ac m (value_of AT_EXECFN aux) /\
  can (ac_r ac) (value_of AT_RANDOM aux) 16 /\
  forall t, template_is a base hs t ->
    wf_env a (l_td l) t page /\ checked_or_fits (f_debug c) a (l_td l) t page 0 0 /\
    can (ac_r ac) (tls_addr t) (tls_filesz t).

(** .init_array has [n] words and can be read. *)
Definition array_readable (ac : access) (a : arch) (l : link) (n : nat) : Prop :=
  l_init_end l = (l_init_start l + Z.of_nat n * wsz a) mod modulus (wsz a) /\
  0 <= l_init_start l < modulus (wsz a) /\ Z.of_nat n * wsz a < modulus (wsz a) /\
  can_words a (ac_r ac) (l_init_start l) n.

(** Startup runs into a page fault. *)
Definition startup_faults (ac : access) (c : cfg) (l : link) (w : StartModel.world) (sp : Z) (m : mem) : Prop :=
  exists n, snd (fentry ac n c l w sp m) = None.

(** ** create *)

(** The mapping mmap returned, of [len] bytes at [map], is away from the [n]
    bytes at [p]. *)
Definition fresh_for (log : list sysev) (p n : Z) : Prop :=
  forall len map, In (SMmap len (Some map)) log -> LayoutSpec.apart p n map len.

(** The calling thread, whose thread-pointer register is [tpreg], can read its
    own canary (and, on x86, the self pointer it finds it with), which are not
    in the new mapping. *)
Definition caller_readable (ac : access) (a : arch) (td : td_layout) (m : mem) (tpreg : Z) (log : list sysev) : Prop :=
  let tp := thread_pointer a m tpreg in
  meta_size a td <= tp < modulus (wsz a) /\
  can (ac_r ac) (canary_addr a tp) (wsz a) /\ fresh_for log (canary_addr a tp) (wsz a) /\
  (tls_below a = true -> can (ac_r ac) tpreg (wsz a) /\ fresh_for log tpreg (wsz a)).
