(** Specification vocabulary for thread memory (C17-C27, C45, C47): the
    environment the code runs in (page size, ELF TLS segment, compiler-chosen
    record layout, the kernel's mmap/mprotect/munmap), and what the platform
    ABIs require.  Nothing here depends on how `create` computes offsets. *)
From Verif Require Import Machine LayoutModel.

(** * Environment *)

(** [n] is a power of two. *)
Definition pow2 (n : Z) : Prop := exists k, 0 <= k /\ n = 2 ^ k.

(** Two byte ranges do not overlap. *)
Definition apart (a n b k : Z) : Prop := a + n <= b \/ b + k <= a.

(** The compiler's layout of the private thread record: its fields are inside
    the record and do not overlap; its alignment is that of its most aligned
    fields (pointers and `usize`), and its size a multiple of that. *)
(** (errno, which user code may write, is not among them) *)
Definition td_fields (a : arch) (td : td_layout) : list (Z * Z) :=
  [(o_tid td, 4); (o_detached td, 1); (o_stack_addr td, wsz a); (o_stack_size td, wsz a);
   (o_guard_size td, wsz a); (o_map_size td, wsz a); (o_retval td, wsz a)].

Record wf_td (a : arch) (td : td_layout) : Prop := {
  wf_td_align : td_align td = wsz a;
  wf_td_size : (wsz a | td_size td);
  wf_td_pos : 0 < td_size td;
  wf_td_in : Forall (fun f => 0 <= fst f /\ fst f + snd f <= td_size td) (td_fields a td);
  wf_td_apart : ForallOrdPairs (fun f g => apart (fst f) (snd f) (fst g) (snd g)) (td_fields a td);
  wf_td_errno : forall o, o_errno td = Some o -> 0 <= o /\ o + 4 <= td_size td /\
    Forall (fun f => apart o 4 (fst f) (snd f)) (td_fields a td) }.

(** The ELF TLS segment: p_align is a power of two no larger than a page,
    p_filesz does not exceed p_memsz. *)
Record wf_tls (page : Z) (tls : tls_info) : Prop := {
  wf_tls_align : pow2 (tls_align tls);
  wf_tls_align_page : tls_align tls <= page;
  wf_tls_file : 0 <= tls_filesz tls <= tls_memsz tls }.

(** Page sizes: powers of two from 4 KiB to 64 KiB. *)
Definition wf_page (page : Z) : Prop := exists k, 12 <= k <= 16 /\ page = 2 ^ k.

Record wf_env (a : arch) (td : td_layout) (tls : tls_info) (page : Z) : Prop := {
  wf_env_td : wf_td a td; wf_env_tls : wf_tls page tls; wf_env_page : wf_page page }.

(** A `usize`. *)
Definition usize (a : arch) (x : Z) : Prop := 0 <= x < modulus (wsz a).

(** The requested sizes, the TLS segment and the record fit the address space
    together, with some pages to spare for rounding. *)
Definition fits (a : arch) (td : td_layout) (tls : tls_info) (page stack_size guard_size : Z) : Prop :=
  guard_size + stack_size + tls_memsz tls + td_size td + 8 * page < modulus (wsz a).

(** Either a build with overflow checks, or the request fits. *)
Definition checked_or_fits (ck : bool) a td tls page stack_size guard_size : Prop :=
  ck = true \/ fits a td tls page stack_size guard_size.

(** * The kernel's side of the memory system calls *)

Inductive prot := Unmapped | NoAccess | ReadWrite.

(** Mappings and protections cover whole pages; an unaligned address is
    rejected (EINVAL) and changes nothing. *)
Definition page_ceil (page n : Z) : Z := (n + page - 1) / page * page.
Definition covered (page addr len x : Z) : bool :=
  (addr mod page =? 0) && (addr <=? x) && (x <? addr + page_ceil page len).

Definition prot_step (page : Z) (p : Z -> prot) (e : sysev) : Z -> prot :=
  fun x =>
    match e with
    | SMmap len (Some b) => if covered page b len x then NoAccess else p x
    | SMmapRW len (Some b) => if covered page b len x then ReadWrite else p x
    | SMprotectRW addr len true => if covered page addr len x then ReadWrite else p x
    | SMunmap addr len true => if covered page addr len x then Unmapped else p x
    | _ => p x
    end.
(** Protection of address [x] after the calls in [log], starting from [p]. *)
Definition prot_after (page : Z) (p : Z -> prot) (log : list sysev) : Z -> prot :=
  fold_left (prot_step page) log p.

(** A mapping of [len] bytes that mmap may return: page aligned, not null,
    inside the address space. *)
Definition good_map (a : arch) (page len map : Z) : Prop :=
  0 < map /\ (page | map) /\ map + page_ceil page len <= modulus (wsz a).

(** The answer to `create`'s mmap, if any, is good for the length asked. *)
Definition good_answer (a : arch) (page : Z) (log : list sysev) : Prop :=
  forall len map, In (SMmap len (Some map)) log \/ In (SMmapRW len (Some map)) log -> good_map a page len map.

(** The TLS template is not inside a mapping the kernel has just made. *)
Definition template_apart (page : Z) (tls : tls_info) (log : list sysev) : Prop :=
  forall len map, In (SMmap len (Some map)) log \/ In (SMmapRW len (Some map)) log ->
    apart (tls_addr tls) (tls_filesz tls) map (page_ceil page len).

(** * Platform ABIs *)

(** Stack alignment at a public interface: psABI x86-64, i386, AAPCS64, RISC-V
    16 bytes; AAPCS (arm) 8 bytes. *)
Definition abi_stack_align (a : arch) : Z := match a with Arm => 8 | _ => 16 end.

(** Well-known words around the thread pointer: offset of the stack-protector
    canary, and whether the word at offset 0 is the pointer to itself. *)
Definition abi_canary (a : arch) : option Z :=
  match a with X86_64 => Some 0x28 | X86 => Some 0x14 | _ => None end.

(** The address of byte [off] of the executable's TLS block in the local-exec
    model, relative to the thread pointer (ELF TLS ABI, variants I and II). *)
Definition abi_tls_addr (a : arch) (tls : tls_info) (tp off : Z) : Z :=
  let up n := (n + tls_align tls - 1) / tls_align tls * tls_align tls in
  match a with
  | X86_64 | X86 => tp - up (tls_memsz tls) + off
  | Aarch64 => tp + up 16 + off
  | Arm => tp + up 8 + off
  | Riscv64 => tp + off
  end.

(** The bias of the offsets handed to __tls_get_addr (RISC-V psABI: 0x800). *)
Definition abi_dtp_bias (a : arch) : Z := match a with Riscv64 => 0x800 | _ => 0 end.

(** * Vocabulary for the statements *)

(** Memory [m] holds, at [b], a fresh image of the TLS segment whose template
    was in [m0]. *)
Definition fresh_tls (tls : tls_info) (m0 m : mem) (b : Z) : Prop :=
  (forall i, 0 <= i < tls_filesz tls -> m (b + i) = m0 (tls_addr tls + i)) /\
  (forall i, tls_filesz tls <= i < tls_memsz tls -> m (b + i) = 0).

Definition inside (b n x : Z) : Prop := b <= x < b + n.

(** C17: guard [0, bottom), stack [bottom, top), TLS block and thread record
    (of [rec] bytes) in a mapping of [l_map_size] bytes. *)
Record good_layout (tls : tls_info) (page stack_size guard_size rec : Z) (L : layout) : Prop := {
  gl_guard : guard_size <= l_stack_bottom L;
  gl_bottom_aligned : (page | l_stack_bottom L);
  gl_stack : l_stack_bottom L + stack_size <= l_stack_top L;
  gl_top_aligned : (16 | l_stack_top L);
  gl_tls_above : l_stack_top L <= l_tls L;
  gl_rec_above : l_stack_top L <= l_header L;
  gl_apart : apart (l_tls L) (tls_memsz tls) (l_header L) rec;
  gl_tls_in : l_tls L + tls_memsz tls <= l_map_size L;
  gl_rec_in : l_header L + rec <= l_map_size L;
  gl_tls_aligned : (tls_align tls | l_tls L) }.

(** Where the stack-protector canary lives relative to the thread pointer:
    fixed by the psABI on x86-64 and i386, private to this crate elsewhere. *)
Definition canary_addr (a : arch) (tp : Z) : Z :=
  match a with
  | X86_64 => tp + 0x28
  | X86 => tp + 0x14
  | Aarch64 | Arm => tp - wsz a
  | Riscv64 => tp - 2 * wsz a
  end.

(** * Histories of thread creation (C24, C45) *)

Record thr := Thr { th_tp : Z; th_map : Z; th_len : Z; th_raw : Z }.
Record world := World { w_mem : mem; w_live : list thr; w_guard : Z }.

Section history.
  Variables (ck : bool) (a : arch) (td : td_layout) (tls : tls_info) (page : Z).

  (** User code may write anything but the canary words of live threads and,
      on x86, the self pointer at thread-pointer offset 0. *)
  Definition respects (live : list thr) (m m' : mem) : Prop :=
    forall u, In u live ->
      load_le m' (canary_addr a (th_tp u)) (word a) = load_le m (canary_addr a (th_tp u)) (word a) /\
      (tls_below a = true -> load_le m' (th_tp u) (word a) = load_le m (th_tp u) (word a)).

  Definition fresh_map (live : list thr) (log : list sysev) : Prop :=
    forall len map u, In (SMmap len (Some map)) log -> In u live ->
      apart map (page_ceil page len) (th_map u) (page_ceil page (th_len u)).

  Inductive wstep (w : world) : world -> Prop :=
  | WCreate u ans fn args s g t log m' sp ptid ctid tp n r len map :
      In u (w_live w) -> usize a s -> usize a g -> checked_or_fits ck a td tls page s g ->
      Z.of_nat (length args) * wsz a <= s ->
      create ck a td tls page (w_mem w) (th_tp u) ans fn args s g = (COk t, log, m') ->
      good_answer a page log -> template_apart page tls log -> fresh_map (w_live w) log ->
      In (SMmap len (Some map)) log -> In (SClone sp ptid ctid tp fn n r) log ->
      wstep w (World m' (Thr tp map len t :: w_live w) (w_guard w))
  | WCreateFails u ans fn args s g res log m' :
      In u (w_live w) -> usize a s -> usize a g -> checked_or_fits ck a td tls page s g ->
      Z.of_nat (length args) * wsz a <= s ->
      create ck a td tls page (w_mem w) (th_tp u) ans fn args s g = (res, log, m') ->
      (forall t, res <> COk t) ->
      good_answer a page log -> template_apart page tls log -> fresh_map (w_live w) log ->
      wstep w (World m' (w_live w) (w_guard w))
  | WExit l1 u l2 :
      w_live w = l1 ++ u :: l2 -> wstep w (World (w_mem w) (l1 ++ l2) (w_guard w))
  | WWrite m' :
      respects (w_live w) (w_mem w) m' -> wstep w (World m' (w_live w) (w_guard w)).

  (** The process starts by initialising its main thread. *)
  Definition starts (m0 : mem) (random : Z) (w : world) : Prop :=
    exists sp execfn_end rlim ans tid R len map,
      initialize_main ck a td tls page m0 sp execfn_end rlim random ans tid = Some R /\
      checked_or_fits ck a td tls page 0 0 /\
      good_answer a page (mr_log R) /\ template_apart page tls (mr_log R) /\
      In (SMmapRW len (Some map)) (mr_log R) /\
      w = World (mr_mem R) [Thr (mr_tp R) map len (mr_thread R)] (mr_guard R).

  Inductive reachable (m0 : mem) (random : Z) : world -> Prop :=
  | r_start w : starts m0 random w -> reachable m0 random w
  | r_step w w' : reachable m0 random w -> wstep w w' -> reachable m0 random w'.
End history.

(** A call of `create` that returned the thread [t]: the environment is well
    formed, the kernel behaved, and the arguments fit the requested stack. *)
Record successful_create (ck : bool) (a : arch) (td : td_layout) (tls : tls_info) (page : Z)
    (m : mem) (tpreg : Z) (ans : answers) (fn : Z) (args : list Z) (s g t : Z) (log : list sysev) (m' : mem) : Prop := {
  sc_env : wf_env a td tls page;
  sc_stack : usize a s;
  sc_guard : usize a g;
  sc_ck : checked_or_fits ck a td tls page s g;
  sc_call : create ck a td tls page m tpreg ans fn args s g = (COk t, log, m');
  sc_map : good_answer a page log;
  sc_template : template_apart page tls log;
  sc_args : Z.of_nat (length args) * wsz a <= s }.

(** The main thread's initialisation succeeded, with a well-behaved kernel. *)
Record successful_main (ck : bool) (a : arch) (td : td_layout) (tls : tls_info) (page : Z)
    (m : mem) (sp execfn_end : Z) (rlim : option Z) (random : Z) (ans : option Z) (tid : Z) (R : main_res) : Prop := {
  sm_env : wf_env a td tls page;
  sm_ck : checked_or_fits ck a td tls page 0 0;
  sm_call : initialize_main ck a td tls page m sp execfn_end rlim random ans tid = Some R;
  sm_map : good_answer a page (mr_log R);
  sm_template : template_apart page tls (mr_log R) }.
