(** Model of thread memory layout, TLS initialisation, `create`,
    `initialize_main`, `current*`, `stack`, `current_tls_addr`:
    src/thread/linux_raw.rs, and the per-architecture constants of src/arch. *)
From Verif Require Import Machine.

(** * Architectures *)
Inductive arch := X86_64 | X86 | Aarch64 | Arm | Riscv64.

(** size_of::<usize>(). *)
Definition wsz (a : arch) : Z :=
  match a with X86_64 | Aarch64 | Riscv64 => 8 | X86 | Arm => 4 end.
Definition word (a : arch) : nat :=
  match a with X86_64 | Aarch64 | Riscv64 => 8%nat | X86 | Arm => 4%nat end.

(** linux_raw.rs:403-424: TLS below (variant II) or above (variant I) the TCB. *)
Definition tls_below (a : arch) : bool :=
  match a with X86_64 | X86 => true | _ => false end.

(** arch/x86_64.rs:196, x86.rs:223, aarch64.rs:195, arm.rs:207, riscv64.rs:213. *)
Definition STACK_ALIGNMENT (a : arch) : Z := match a with Arm => 4 | _ => 16 end.
(** arch/x86_64.rs:277 TLS_OFFSET, x86.rs:365, aarch64.rs:269, arm.rs:283, riscv64.rs:288. *)
Definition TLS_OFFSET (a : arch) : Z := match a with Riscv64 => 0x800 | _ => 0 end.

(** * Checked/wrapping usize arithmetic
    [ck = true] is a build with overflow checks and debug assertions (a panic
    is [None]); [ck = false] is a release build (wrap-around, no assertions). *)
Definition uadd (ck : bool) (a : arch) (x y : Z) : option Z :=
  if x + y <? modulus (wsz a) then Some (x + y)
  else if ck then None else Some ((x + y) mod modulus (wsz a)).
Definition usub (ck : bool) (a : arch) (x y : Z) : option Z :=
  if y <=? x then Some (x - y)
  else if ck then None else Some ((x - y) mod modulus (wsz a)).

Definition bind {A B} (o : option A) (f : A -> option B) : option B :=
  match o with Some x => f x | None => None end.
Notation "'let*' x ':=' o 'in' k" := (bind o (fun x => k)) (at level 200, x pattern, o at level 100).

(** linux_raw.rs:1105-1107 round_up. *)
Definition round_up (ck : bool) (a : arch) (addr boundary : Z) : option Z :=
  let* b1 := usub ck a boundary 1 in
  let* s := uadd ck a addr b1 in
  Some (Z.land s (wrapping_neg (wsz a) boundary)).

(** * Struct layouts *)

(** repr(C): each field at the next multiple of its alignment; fields are
    (name, size, align).  The size is rounded up to the struct alignment. *)
Definition align_to (n al : Z) : Z := (n + al - 1) / al * al.

Fixpoint c_offset {F} (eqb : F -> F -> bool) (f : F) (cur : Z) (fs : list (F * Z * Z)) : Z :=
  match fs with
  | [] => cur
  | (g, sz, al) :: rest =>
    let o := align_to cur al in
    if eqb f g then o else c_offset eqb f (o + sz) rest
  end.
Fixpoint c_end {F} (cur : Z) (fs : list (F * Z * Z)) : Z :=
  match fs with
  | [] => cur
  | (_, sz, al) :: rest => c_end (align_to cur al + sz) rest
  end.
Fixpoint c_align {F} (fs : list (F * Z * Z)) : Z :=
  match fs with [] => 1 | (_, _, al) :: rest => Z.max al (c_align rest) end.

Inductive abi_field := ThreadPointee | Canary | Dtv | Pad | This.
Definition abi_eqb (f g : abi_field) : bool :=
  match f, g with
  | ThreadPointee, ThreadPointee | Canary, Canary | Dtv, Dtv | Pad, Pad | This, This => true
  | _, _ => false
  end.

(** linux_raw.rs:153-203 `struct Abi` (repr(C)). *)
Definition abi_fields (a : arch) : list (abi_field * Z * Z) :=
  let w := wsz a in
  match a with
  | X86 | X86_64 =>
    [(ThreadPointee, 0, 1); (This, w, w); (Dtv, w, w); (Pad, 3 * w, w); (Canary, w, w)]
  | Aarch64 | Arm =>
    [(Canary, w, w); (ThreadPointee, 0, 1); (Dtv, w, w); (Pad, w, w)]
  | Riscv64 =>
    [(Canary, w, w); (Dtv, w, w); (ThreadPointee, 0, 1); (Pad, 0, w)]
  end.
(** linux_raw.rs:154: repr(align(8)) on arm. *)
Definition abi_align (a : arch) : Z :=
  match a with Arm => Z.max 8 (c_align (abi_fields a)) | _ => c_align (abi_fields a) end.
Definition abi_size (a : arch) : Z := align_to (c_end 0 (abi_fields a)) (abi_align a).
Definition abi_off (a : arch) (f : abi_field) : Z := c_offset abi_eqb f 0 (abi_fields a).

(** linux_raw.rs:92-106 `struct ThreadData` is not repr(C): its layout is a
    parameter.  Offsets of the fields the model reads and writes; `errno_val` is
    there with the feature unstable-errno; `dtors` is not represented as bytes. *)
Record td_layout := TD {
  td_size : Z; td_align : Z;
  o_tid : Z;       (* thread_id: AtomicI32 *)
  o_detached : Z;  (* detached: AtomicU8 *)
  o_stack_addr : Z; o_stack_size : Z; o_guard_size : Z; o_map_size : Z; o_retval : Z;
  o_errno : option Z  (* errno_val: Cell<i32> *) }.

(** linux_raw.rs:133-149 `struct Metadata` (repr(C)): thread before abi on
    variant I targets, after it on variant II. *)
Inductive meta_field := FThread | FAbi.
Definition meta_eqb (f g : meta_field) : bool :=
  match f, g with FThread, FThread | FAbi, FAbi => true | _, _ => false end.
Definition meta_fields (a : arch) (td : td_layout) : list (meta_field * Z * Z) :=
  if tls_below a
  then [(FAbi, abi_size a, abi_align a); (FThread, td_size td, td_align td)]
  else [(FThread, td_size td, td_align td); (FAbi, abi_size a, abi_align a)].
Definition meta_align (a : arch) (td : td_layout) : Z := c_align (meta_fields a td).
Definition meta_size (a : arch) (td : td_layout) : Z :=
  align_to (c_end 0 (meta_fields a td)) (meta_align a td).
Definition meta_off (a : arch) (td : td_layout) (f : meta_field) : Z :=
  c_offset meta_eqb f 0 (meta_fields a td).

(** linux_raw.rs:219-231 StartupTlsInfo. *)
Record tls_info := Tls { tls_addr : Z; tls_memsz : Z; tls_filesz : Z; tls_align : Z }.

(** * Layout computation *)

(** linux_raw.rs:386-428 calculate_tls_size; returns the new map_size,
    tls_data_bottom and header.  [page] is `page_size()`. *)
Definition calculate_tls_size (ck : bool) (a : arch) (td : td_layout) (tls : tls_info) (page map_size : Z)
  : option (Z * Z * Z) :=
  let metadata_align := Z.max (tls_align tls) (meta_align a td) in
  if ck && negb (metadata_align <=? page) then None           (* debug_assert! *)
  else
    let* map_size := round_up ck a map_size metadata_align in
    if tls_below a then
      let tls_data_bottom := map_size in
      let* r := round_up ck a (tls_memsz tls) (tls_align tls) in
      let* map_size := uadd ck a map_size r in
      let header := map_size in
      let* map_size := uadd ck a map_size (meta_size a td) in
      Some (map_size, tls_data_bottom, header)
    else
      let header := map_size in
      let* map_size := uadd ck a map_size (meta_size a td) in
      let* map_size := round_up ck a map_size (tls_align tls) in
      let tls_data_bottom := map_size in
      let* r := round_up ck a (tls_memsz tls) (tls_align tls) in
      let* map_size := uadd ck a map_size r in
      Some (map_size, tls_data_bottom, header).

Record layout := Layout {
  l_stack_bottom : Z; l_stack_top : Z; l_tls : Z; l_header : Z; l_map_size : Z }.

(** linux_raw.rs:490-506 (first part of `create`): offsets in the mapping. *)
Definition create_layout (ck : bool) (a : arch) (td : td_layout) (tls : tls_info) (page stack_size guard_size : Z)
  : option layout :=
  let* g := round_up ck a guard_size page in
  let* stack_bottom := uadd ck a 0 g in
  let* st := round_up ck a stack_size 16 in
  let* stack_top := uadd ck a stack_bottom st in
  let* t := calculate_tls_size ck a td tls page stack_top in
  let '(map_size, tls_data_bottom, header) := t in
  Some (Layout stack_bottom stack_top tls_data_bottom header map_size).

(** * Writing the thread record and the TLS block *)

(** `slice::copy_from_slice`: bytes at [dst] become those at [src]. *)
Definition copy_bytes (m : mem) (dst src n : Z) : mem :=
  fun x => if (dst <=? x) && (x <? dst + n) then m (src + (x - dst)) else m x.
(** `slice::fill(0)`. *)
Definition zero_bytes (m : mem) (dst n : Z) : mem :=
  fun x => if (dst <=? x) && (x <? dst + n) then 0 else m x.

(** Address of a field of the record at [metadata]. *)
Definition abi_at (a : arch) (td : td_layout) (metadata : Z) (f : abi_field) : Z :=
  metadata + meta_off a td FAbi + abi_off a f.
Definition thread_at (a : arch) (td : td_layout) (metadata : Z) : Z :=
  metadata + meta_off a td FThread.

(** linux_raw.rs:113-130 ThreadData::new, as the stores it amounts to. *)
Definition write_thread_data (a : arch) (td : td_layout) (m : mem) (t stack_addr stack_size guard_size map_size : Z) : mem :=
  let w := word a in
  let m := store_le m (t + o_tid td) 4 0 in
  let m := store_le m (t + o_detached td) 1 0 in
  let m := store_le m (t + o_stack_addr td) w stack_addr in
  let m := store_le m (t + o_stack_size td) w stack_size in
  let m := store_le m (t + o_guard_size td) w guard_size in
  let m := store_le m (t + o_map_size td) w map_size in
  let m := store_le m (t + o_retval td) w 0 in
  match o_errno td with Some o => store_le m (t + o) 4 0 | None => m end.

(** linux_raw.rs:441-452: metadata.write (padding bytes are left alone). *)
Definition write_metadata (a : arch) (td : td_layout) (m : mem) (metadata newtls canary stack_least stack_size guard_size map_size : Z) : mem :=
  let w := word a in
  let m := store_le m (abi_at a td metadata Canary) w canary in
  let m := store_le m (abi_at a td metadata Dtv) w 0 in
  let m := if tls_below a then store_le m (abi_at a td metadata This) w newtls else m in
  write_thread_data a td m (thread_at a td metadata) stack_least stack_size guard_size map_size.

(** linux_raw.rs:430-473 initialize_tls.  [None]: mem_size - file_size
    underflows (panic or undefined behaviour).  Returns memory, newtls and the
    address of thread_id. *)
Definition initialize_tls (a : arch) (td : td_layout) (tls : tls_info) (m : mem)
    (tls_data metadata canary stack_least stack_size guard_size map_size : Z)
  : option (mem * Z * Z) :=
  let newtls := abi_at a td metadata ThreadPointee in
  let m := write_metadata a td m metadata newtls canary stack_least stack_size guard_size map_size in
  if tls_filesz tls <=? tls_memsz tls then
    let m := copy_bytes m tls_data (tls_addr tls) (tls_filesz tls) in
    let m := zero_bytes m (tls_data + tls_filesz tls) (tls_memsz tls - tls_filesz tls) in
    Some (m, newtls, thread_at a td metadata + o_tid td)
  else None.

(** * current thread *)

(** arch/*.rs thread_pointer: x86 reads the self pointer stored at offset 0
    from the segment base; the others read the register.  [tpreg] is the
    register (fs/gs base, tpidr_el0, tp). *)
Definition thread_pointer (a : arch) (m : mem) (tpreg : Z) : Z :=
  if tls_below a then load_le m tpreg (word a) else tpreg.

(** linux_raw.rs:942-946 current_metadata. *)
Definition current_metadata (a : arch) (td : td_layout) (m : mem) (tpreg : Z) : Z :=
  wrapping_sub (wsz a) (thread_pointer a m tpreg) (meta_off a td FAbi + abi_off a ThreadPointee).

(** linux_raw.rs:951-955 current. *)
Definition current (a : arch) (td : td_layout) (m : mem) (tpreg : Z) : Z :=
  thread_at a td (current_metadata a td m tpreg).

(** linux_raw.rs:963-972 current_id / 1051-1054 id: the thread_id word of the
    record at [t] (0, i.e. `None`, once the thread has exited). *)
Definition id_of (td : td_layout) (m : mem) (t : Z) : Z := load_le m (t + o_tid td) 4.

(** linux_raw.rs:1064-1067 stack. *)
Definition stack_of (a : arch) (td : td_layout) (m : mem) (t : Z) : Z * Z * Z :=
  (load_le m (t + o_stack_addr td) (word a),
   load_le m (t + o_stack_size td) (word a),
   load_le m (t + o_guard_size td) (word a)).

(** linux_raw.rs:1017-1043 current_tls_addr; [None] is the assert failure. *)
Definition current_tls_addr (a : arch) (tls : tls_info) (tp module offset : Z) : option Z :=
  if negb (module =? 1) then None
  else if tls_below a
  then Some (wrapping_add (wsz a) (wrapping_add (wsz a) (wrapping_sub (wsz a) tp (tls_memsz tls)) (TLS_OFFSET a)) offset)
  else Some (wrapping_add (wsz a) (wrapping_add (wsz a) (wrapping_add (wsz a) tp (abi_size a - abi_off a ThreadPointee)) (TLS_OFFSET a)) offset).

(** linux_raw.rs:1072-1078 default_stack_size; [startup] is STARTUP_STACK_SIZE. *)
Definition default_stack_size (startup : Z) : Z := Z.max 0x20000 startup.
(** linux_raw.rs:1083-1086 default_guard_size. *)
Definition default_guard_size (ck : bool) (a : arch) (page : Z) : option Z :=
  if page * 4 <? modulus (wsz a) then Some (page * 4)
  else if ck then None else Some (page * 4 mod modulus (wsz a)).

(** * create *)

(** System calls made, oldest first, with the kernel's answer where it
    matters.  A mapping is made PROT_NONE; `mprotect` makes it read-write. *)
Inductive sysev :=
| SMmap (len : Z) (res : option Z)            (* mmap(NULL, len, PROT_NONE, PRIVATE|STACK) *)
| SMmapRW (len : Z) (res : option Z)          (* mmap(NULL, len, READ|WRITE, PRIVATE) *)
| SMprotectRW (addr len : Z) (ok : bool)
| SClone (stack ptid ctid newtls fn nargs : Z) (res : Z)
| SMunmap (addr len : Z) (ok : bool).

Inductive cres := CPanic | CErr | COk (thread : Z).

(** The kernel's answers to the three calls `create` makes. *)
Record answers := Answers { ans_mmap : option Z; ans_mprotect : bool; ans_clone : Z }.

Fixpoint store_words (m : mem) (addr : Z) (w : nat) (vs : list Z) : mem :=
  match vs with
  | [] => m
  | v :: rest => store_words (store_le m addr w v) (addr + Z.of_nat w) w rest
  end.

(** linux_raw.rs:547-551: the child's stack pointer. *)
Definition child_sp (a : arch) (stack_top_addr nargs : Z) : Z :=
  Z.land (stack_top_addr - nargs * wsz a) (wrapping_neg (wsz a) (STACK_ALIGNMENT a)).

(** linux_raw.rs:484-614 create, called on a thread whose thread-pointer
    register is [tpreg].  Error returns (`?`, lines 517, 525, and the end) do not
    undo anything. *)
Definition create (ck : bool) (a : arch) (td : td_layout) (tls : tls_info) (page : Z)
    (m : mem) (tpreg : Z) (ans : answers) (fn : Z) (args : list Z) (stack_size guard_size : Z)
  : cres * list sysev * mem :=
  match create_layout ck a td tls page stack_size guard_size with
  | None => (CPanic, [], m)
  | Some l =>
    match ans_mmap ans with
    | None => (CErr, [SMmap (l_map_size l) None], m)
    | Some map =>
      let e1 := SMmap (l_map_size l) (Some map) in
      let e2 := SMprotectRW (map + l_stack_bottom l) (l_map_size l - l_stack_bottom l) (ans_mprotect ans) in
      if negb (ans_mprotect ans) then (CErr, [e1; e2], m)
      else
        let stack := map + l_stack_top l in
        let stack_least := map + l_stack_bottom l in
        let tls_data := map + l_tls l in
        let metadata := map + l_header l in
        let canary := load_le m (abi_at a td (current_metadata a td m tpreg) Canary) (word a) in
        match initialize_tls a td tls m tls_data metadata canary stack_least stack_size guard_size (l_map_size l) with
        | None => (CPanic, [e1; e2], m)
        | Some (m1, newtls, tidp) =>
          let sp := child_sp a stack (Z.of_nat (length args)) in
          let m2 := store_words m1 sp (word a) args in
          let e3 := SClone sp tidp tidp newtls fn (Z.of_nat (length args)) (ans_clone ans) in
          if 0 <=? ans_clone ans
          then (* PARENT_SETTID | CHILD_SETTID: the kernel stores the tid *)
            (COk (thread_at a td metadata), [e1; e2; e3], store_le m2 tidp 4 (ans_clone ans))
          else (CErr, [e1; e2; e3], m2)
        end
    end
  end.

(** * The main thread *)

(** linux_raw.rs:326-384 initialize_main.  Inputs: [sp] = `mem`, the initial
    stack pointer; [execfn_end] = address just past AT_EXECFN's NUL; [rlim] =
    the soft RLIMIT_STACK ([None] = unlimited); [random] = address of the
    AT_RANDOM bytes; [ans] = mmap's answer; [tid] = set_tid_address's answer.
    Result: memory, thread-pointer register, __stack_chk_guard. *)
Record main_res := MainRes { mr_mem : mem; mr_tp : Z; mr_guard : Z; mr_thread : Z; mr_log : list sysev }.

Definition initialize_main (ck : bool) (a : arch) (td : td_layout) (tls : tls_info) (page : Z)
    (m : mem) (sp execfn_end : Z) (rlim : option Z) (random : Z) (ans : option Z) (tid : Z)
  : option main_res :=
  let* stack_base := round_up ck a execfn_end page in
  let* stack_map_size := rlim in                                (* current.unwrap() *)
  let stack_least := stack_base - stack_map_size in             (* ptr::sub *)
  let stack_size := (stack_least - sp) mod modulus (wsz a) in   (* offset_from(..) as usize *)
  let guard_size := page in
  let canary := load_le m random (word a) in
  let* t := calculate_tls_size ck a td tls page 0 in
  let '(alloc_size, tls_data_bottom, header) := t in
  let* new := ans in                                            (* mmap(..).unwrap() *)
  if ck && negb (new mod Z.max (tls_align tls) (meta_align a td) =? 0) then None
  else
    let* r := initialize_tls a td tls m (new + tls_data_bottom) (new + header) canary stack_least stack_size guard_size 0 in
    let '(m1, newtls, tidp) := r in
    let m2 := store_le m1 tidp 4 tid in
    Some (MainRes m2 newtls canary (thread_at a td (new + header)) [SMmapRW alloc_size (Some new)]).

(** linux_raw.rs:43-87 Thread conversions: the handle is the address of the
    thread's record; [None] is `unwrap` on null. *)
Definition from_raw (raw : Z) : option Z := if raw =? 0 then None else Some raw.
Definition from_raw_unchecked (raw : Z) : Z := raw.
Definition from_raw_non_null (raw : Z) : Z := raw.
Definition to_raw (t : Z) : Z := t.
Definition to_raw_non_null (t : Z) : Z := t.
