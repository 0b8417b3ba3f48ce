(** Model of libc mode (no `take-charge`): src/thread/libc.rs create, start,
    join, detach, at_exit and src/program/libc.rs at_exit, exit, trap.

    Every `create` call has an index; the steps of all calls, of the threads
    they create and of user code interleave freely.  libc itself is the
    environment: its answers are part of the steps' labels.  Not modelled:
    threads that never return from their function (pthread_exit,
    cancellation), signals, and the functions that only wrap one libc call
    (current, current_id, stack, default_*, yield_current). *)
From Verif Require Import Machine LayoutModel.

(** A call `create(fn_, args, stack_size, guard_size)` (thread/libc.rs:97-102);
    pointers as words, None as 0. *)
Record creq := CReq { q_fn : Z; q_args : list Z; q_stack : Z; q_guard : Z }.

(** Every call has this form: words, and a slice of [n] words occupies at most
    half the address space (Rust's limit on object sizes). *)
Definition wf_req (a : arch) (q : creq) : Prop :=
  0 <= q_fn q < modulus (wsz a) /\ (forall v, In v (q_args q) -> 0 <= v < modulus (wsz a)) /\
  Z.of_nat (length (q_args q)) * wsz a < modulus (wsz a) / 2.

(** Where the call is (thread/libc.rs:131-177): before pthread_attr_init (133),
    setstacksize (137), setguardsize (141), malloc (149), after storing [k]
    words of the pack (153-159), before pthread_create (162) is [KPack] with
    all words stored; [KOk], [KErr e]: returned. *)
Inductive cpc := KInit | KStack | KGuard | KMalloc | KPack (k : nat) | KOk | KErr (e : Z).

(** Where the new thread is, in `start` (105-129): not running, entered, read
    the count (109-112), read the function (114-115), in fn (119), fn returned
    [v] (119), freed the pack (122), returned (125-128). *)
Inductive tpc := TNone | TStart | TCount (n : Z) | TFn (n f : Z) | TRun | TRet (v : Z) | TFreed (v : Z) | TExit (v : Z).

(** [k_arg]: the pack's address once allocated; [k_live]: allocated and not
    freed; [k_attr]: attr initialised and not destroyed (never is);
    [k_join]: the thread may still be joined or detached. *)
Record crec := CRec { k_req : creq; k_pc : cpc; k_arg : Z; k_live : bool; k_attr : bool; k_t : tpc; k_join : bool }.
Record lst := LSt { lmem : mem; rec : nat -> option crec }.

Definition setrec (s : lst) (i : nat) (r : crec) : lst :=
  LSt (lmem s) (fun j => if Nat.eqb j i then Some r else rec s j).
Definition setmem (s : lst) (m : mem) : lst := LSt m (rec s).
Definition at_pc (r : crec) (pc : cpc) : crec := CRec (k_req r) pc (k_arg r) (k_live r) (k_attr r) (k_t r) (k_join r).
Definition at_t (r : crec) (t : tpc) : crec := CRec (k_req r) (k_pc r) (k_arg r) (k_live r) (k_attr r) t (k_join r).

(** 153-159: the words of the pack: NonNull::new(args.len()) (None, i.e. 0, for
    no arguments), the function, the arguments. *)
Definition pack (q : creq) : list Z := Z.of_nat (length (q_args q)) :: q_fn q :: q_args q.
(** 149: (args.len() + 2) * size_of::<*mut c_void>(). *)
Definition pack_size (a : arch) (q : creq) : Z := (Z.of_nat (length (q_args q)) + 2) * wsz a.
Definition slot_at (a : arch) (p : Z) (k : nat) : Z := p + Z.of_nat k * wsz a.

Inductive llabel :=
| LCreate (q : creq)                    (* user calls create *)
| LAttrInit (err : Z)                   (* pthread_attr_init's answer *)
| LSetStack (size err : Z) | LSetGuard (size err : Z)
| LMalloc (n : Z) (res : Z)             (* 0 = null *)
| LStore (addr v : Z)                   (* create stores a word *)
| LSpawn (arg err : Z)                  (* pthread_create(start, arg) *)
| LLoad (addr : Z)                      (* start reads a word *)
| LCall (f ptr len : Z)                 (* start calls f on the slice (ptr, len) *)
| LRet (v : Z)                          (* f returns *)
| LFree (p : Z)
| LReturn (v : Z)                       (* start returns v to libc *)
| LJoin (v : Z) | LDetach               (* join(t) = v, detach(t) *)
| LUser (x : Z).                        (* user code writes byte x *)

(** A block is clear of the live packs (malloc's promise). *)
Definition clear_of (a : arch) (s : lst) (p n : Z) : Prop :=
  forall j r, rec s j = Some r -> k_live r = true ->
    p + n <= k_arg r \/ k_arg r + pack_size a (k_req r) <= p.

(** Bytes user code may write: anything outside the live packs, and, while fn
    runs, the argument slice fn was given. *)
Definition user_may (a : arch) (s : lst) (x : Z) : Prop :=
  forall j r, rec s j = Some r -> k_live r = true ->
    k_arg r <= x < k_arg r + pack_size a (k_req r) -> k_t r = TRun /\ slot_at a (k_arg r) 2 <= x.

Inductive lstep (a : arch) (s : lst) : nat -> llabel -> lst -> Prop :=
| s_create i q : rec s i = None -> wf_req a q -> lstep a s i (LCreate q) (setrec s i (CRec q KInit 0 false false TNone false))
| s_init i r err : rec s i = Some r -> k_pc r = KInit -> (* 131-136 *)
    lstep a s i (LAttrInit err)
      (setrec s i (if err =? 0 then CRec (k_req r) KStack (k_arg r) (k_live r) true (k_t r) (k_join r) else at_pc r (KErr err)))
| s_stack i r err : rec s i = Some r -> k_pc r = KStack -> (* 137-140 *)
    lstep a s i (LSetStack (q_stack (k_req r)) err) (setrec s i (at_pc r (if err =? 0 then KGuard else KErr err)))
| s_guard i r err : rec s i = Some r -> k_pc r = KGuard -> (* 141-144 *)
    lstep a s i (LSetGuard (q_guard (k_req r)) err) (setrec s i (at_pc r (if err =? 0 then KMalloc else KErr err)))
| s_malloc_null i r : rec s i = Some r -> k_pc r = KMalloc -> (* 149-152: Errno::NOMEM = 12 *)
    lstep a s i (LMalloc (pack_size a (k_req r)) 0) (setrec s i (at_pc r (KErr 12)))
| s_malloc i r p : rec s i = Some r -> k_pc r = KMalloc -> (* 149 *)
    0 < p -> p + pack_size a (k_req r) <= modulus (wsz a) -> clear_of a s p (pack_size a (k_req r)) ->
    lstep a s i (LMalloc (pack_size a (k_req r)) p)
      (setrec s i (CRec (k_req r) (KPack 0) p true (k_attr r) (k_t r) (k_join r)))
| s_store i r k v : rec s i = Some r -> k_pc r = KPack k -> nth_error (pack (k_req r)) k = Some v -> (* 157-159 *)
    lstep a s i (LStore (slot_at a (k_arg r) k) v)
      (setrec (setmem s (store_le (lmem s) (slot_at a (k_arg r) k) (word a) v)) i (at_pc r (KPack (S k))))
| s_spawn i r k err : rec s i = Some r -> k_pc r = KPack k -> nth_error (pack (k_req r)) k = None -> (* 162-167 *)
    lstep a s i (LSpawn (k_arg r) err)
      (setrec s i (if err =? 0 then CRec (k_req r) KOk (k_arg r) (k_live r) (k_attr r) TStart true else at_pc r (KErr err)))
| s_count i r : rec s i = Some r -> k_t r = TStart -> (* 109-112 *)
    lstep a s i (LLoad (slot_at a (k_arg r) 0)) (setrec s i (at_t r (TCount (load_le (lmem s) (slot_at a (k_arg r) 0) (word a)))))
| s_fn i r n : rec s i = Some r -> k_t r = TCount n -> (* 113-115 *)
    lstep a s i (LLoad (slot_at a (k_arg r) 1)) (setrec s i (at_t r (TFn n (load_le (lmem s) (slot_at a (k_arg r) 1) (word a)))))
| s_call i r n f : rec s i = Some r -> k_t r = TFn n f -> (* 116-119: &mut thread_args[2..] of num_args + 2 words *)
    lstep a s i (LCall f (slot_at a (k_arg r) 2) (n + 2 - 2)) (setrec s i (at_t r TRun))
| s_ret i r v : rec s i = Some r -> k_t r = TRun -> lstep a s i (LRet v) (setrec s i (at_t r (TRet v)))
| s_free i r v : rec s i = Some r -> k_t r = TRet v -> (* 122 *)
    lstep a s i (LFree (k_arg r))
      (setrec s i (CRec (k_req r) (k_pc r) (k_arg r) false (k_attr r) (TFreed v) (k_join r)))
| s_return i r v : rec s i = Some r -> k_t r = TFreed v -> (* 125-128 *)
    lstep a s i (LReturn v) (setrec s i (at_t r (TExit v)))
| s_join i r v : rec s i = Some r -> k_t r = TExit v -> k_join r = true -> (* 213-220 *)
    lstep a s i (LJoin v) (setrec s i (CRec (k_req r) (k_pc r) (k_arg r) (k_live r) (k_attr r) (k_t r) false))
| s_detach i r : rec s i = Some r -> k_pc r = KOk -> k_join r = true -> (* 197-201 *)
    lstep a s i LDetach (setrec s i (CRec (k_req r) (k_pc r) (k_arg r) (k_live r) (k_attr r) (k_t r) false))
| s_user i x b : user_may a s x -> 0 <= b < 256 -> lstep a s i (LUser x) (setmem s (upd (lmem s) x b)).

(** Executions, newest step first. *)
Inductive lrun (a : arch) (m0 : mem) : list (nat * llabel) -> lst -> Prop :=
| lr_nil : lrun a m0 [] (LSt m0 (fun _ => None))
| lr_step tr s i l s' : lrun a m0 tr s -> lstep a s i l s' -> lrun a m0 ((i, l) :: tr) s'.

(** * Exit functions (thread/libc.rs:223-240, program/libc.rs:36-58) *)
(** Each registration boxes the closure again and gives libc the pair
    (call, address of that box); `call(arg)` takes the box back, runs the
    closure and frees the box.  [boxes x = Some f]: a live box at address [x]
    holding closure [f].  libc's lists: one per thread and one per process
    ([None]). *)
Record est := ESt { boxes : Z -> option nat; regs_of : option nat -> list Z }.
Inductive elabel :=
| ERegister (l : option nat) (f : nat) (box : Z)   (* at_exit(f) *)
| ECalled (l : option nat) (f : nat) (box : Z)     (* libc calls call(box), which runs f *)
| EDouble (l : option nat) (box : Z).              (* libc calls call(box) on a freed box *)
Definition setl (f : option nat -> list Z) (l : option nat) (v : list Z) : option nat -> list Z :=
  fun k => match k, l with
           | None, None => v
           | Some x, Some y => if Nat.eqb x y then v else f k
           | _, _ => f k end.
Definition setbox (b : Z -> option nat) (x : Z) (v : option nat) : Z -> option nat := fun y => if y =? x then v else b y.
Inductive estep (s : est) : elabel -> est -> Prop :=
| e_reg l f x : boxes s x = None -> (* Box::new returns an address not in use *)
    estep s (ERegister l f x) (ESt (setbox (boxes s) x (Some f)) (setl (regs_of s) l (x :: regs_of s l)))
(* libc pops the most recent registration and calls it *)
| e_call l x q f : regs_of s l = x :: q -> boxes s x = Some f ->
    estep s (ECalled l f x) (ESt (setbox (boxes s) x None) (setl (regs_of s) l q))
| e_double l x q : regs_of s l = x :: q -> boxes s x = None ->
    estep s (EDouble l x) (ESt (boxes s) (setl (regs_of s) l q)).
Inductive erun : list elabel -> est -> Prop :=
| er_nil : erun [] (ESt (fun _ => None) (fun _ => []))
| er_step tr s l s' : erun tr s -> estep s l s' -> erun (l :: tr) s'.

(** program/libc.rs:84-92 trap: raise SIGILL again and again.  [d n] is the
    effect of the n-th raise: [true] if it terminates the process (default
    disposition), [false] if it returns.  Result after at most [k] raises: the
    number of signals raised and whether the process has ended. *)
Fixpoint trap_libc (d : nat -> bool) (n k : nat) : nat * bool :=
  match k with
  | O => (n, false)
  | S k' => if d n then (S n, true) else trap_libc d (S n) k'
  end.
