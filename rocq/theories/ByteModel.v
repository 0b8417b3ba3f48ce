(** The thread life cycle at the level of bytes.

    ThreadModel.v keeps one abstract record per thread.  Here the records are
    the bytes that `create` and `initialize_main` wrote (LayoutModel.v), every
    access of join, detach, exit, id and current_id is a load or store at the
    address the code computes (through the handle, or through the thread
    pointer for the calling thread's own record), and user code may overwrite
    all memory that is not a field of a live thread record.

    Control flow, futexes, the kernel's exit actions and the conventions for
    naming threads by their creation index are those of ThreadModel.v: the
    index in a program counter only says which handle the call was given.
    Each step also lists the byte ranges of thread records it accesses. *)
From Coq Require Import ZArith List Bool Lia Arith.
From Verif Require Import Machine LayoutModel LayoutSpec ThreadModel.
Import ListNotations.
Open Scope Z_scope.

(** linux_raw.rs:108-111. *)
Definition INITIAL : Z := 0.
Definition DETACHED : Z := 1.
Definition ABANDONED : Z := 2.

(** What belongs to a thread outside its record: its handle (the address of
    its ThreadData), its thread-pointer register, its clear-child-tid address,
    the mapping its memory lives in and whether it is still mapped, and the
    locals of `exit` (713-742): the munmap request.  Ghost: [i_g] = the guard
    size `create` was called with (page size for the main thread). *)
Record inst := Inst {
  i_t : Z; i_tp : Z; i_ctid : Z; i_base : Z; i_len : Z; i_mapd : bool; i_loc : Z * Z; i_g : Z }.
Definition set_mapped (x : inst) (b : bool) := Inst (i_t x) (i_tp x) (i_ctid x) (i_base x) (i_len x) b (i_loc x) (i_g x).
Definition set_loc (x : inst) (l : Z * Z) := Inst (i_t x) (i_tp x) (i_ctid x) (i_base x) (i_len x) (i_mapd x) l (i_g x).

(** Build, target and program: everything constant during a run. *)
Record benv := BEnv { be_ck : bool; be_arch : arch; be_td : td_layout; be_tls : tls_info; be_cfg : cfg }.

Record bst := BSt { bn : nat; bT : nat -> task; bI : nat -> inst; bclaim : nat -> option (kind * nat); bmem : mem }.

Section ops.
  Variable e : benv.
  Let a := be_arch e.
  Let td := be_td e.

  (** Field accesses of the record at [t]. *)
  Definition ld_tid (m : mem) (t : Z) : Z := load_le m (t + o_tid td) 4.
  Definition ld_det (m : mem) (t : Z) : Z := load_le m (t + o_detached td) 1.
  Definition ld_ret (m : mem) (t : Z) : Z := load_le m (t + o_retval td) (word a).
  Definition ld_map (m : mem) (t : Z) : Z := load_le m (t + o_map_size td) (word a).
  Definition st_det (m : mem) (t v : Z) : mem := store_le m (t + o_detached td) 1 v.
  Definition st_ret (m : mem) (t v : Z) : mem := store_le m (t + o_retval td) (word a) v.

  (** linux_raw.rs:713-742, 916-926: `stack_addr.byte_sub(guard_size)` and map_size. *)
  Definition unmap_request (m : mem) (t : Z) : Z * Z :=
    let map_size := load_le m (t + o_map_size td) (word a) in
    let stack_addr := load_le m (t + o_stack_addr td) (word a) in
    let guard_size := load_le m (t + o_guard_size td) (word a) in
    (wrapping_sub (wsz a) stack_addr guard_size, map_size).

  (** Byte ranges. *)
  Definition a_tid (t : Z) : Z * Z := (t + o_tid td, 4).
  Definition a_det (t : Z) : Z * Z := (t + o_detached td, 1).
  Definition a_ret (t : Z) : Z * Z := (t + o_retval td, wsz a).
  Definition a_req (t : Z) : list (Z * Z) :=
    [(t + o_map_size td, wsz a); (t + o_stack_addr td, wsz a); (t + o_guard_size td, wsz a)].

  (** The calling thread's own record: current() (951-955). *)
  Definition own (b : bst) (i : nat) : Z := current a td (bmem b) (i_tp (bI b i)).
End ops.

Definition bgoto (b : bst) (i : nat) (p : pc) : bst :=
  BSt (bn b) (fupd (bT b) i (set_pc (bT b i) p)) (bI b) (bclaim b) (bmem b).
Definition btask (b : bst) (i : nat) (t : task) : bst := BSt (bn b) (fupd (bT b) i t) (bI b) (bclaim b) (bmem b).
Definition bset_mem (b : bst) (m : mem) : bst := BSt (bn b) (bT b) (bI b) (bclaim b) m.
Definition bset_loc (b : bst) (i : nat) (l : Z * Z) : bst :=
  BSt (bn b) (bT b) (fupd (bI b) i (set_loc (bI b i) l)) (bclaim b) (bmem b).
Definition bset_claim (b : bst) (j : nat) (c : kind * nat) : bst :=
  BSt (bn b) (bT b) (bI b) (fupd (bclaim b) j (Some c)) (bmem b).

(** The kernel's munmap(addr, len): EINVAL unless addr is page aligned, else
    every mapping it overlaps is gone (as in ThreadModel.v). *)
Definition bmunmap_ok (page : Z) (r : Z * Z) : bool := fst r mod page =? 0.
Definition boverlaps (r : Z * Z) (x : inst) : bool :=
  (fst r <? i_base x + i_len x) && (i_base x <? fst r + snd r).
Definition bmunmap (b : bst) (r : Z * Z) : bst :=
  BSt (bn b) (bT b) (fun k => if boverlaps r (bI b k) then set_mapped (bI b k) false else bI b k) (bclaim b) (bmem b).

(** Two memories agree on a byte range. *)
Definition agree (m m' : mem) (p n : Z) : Prop := forall x, p <= x < p + n -> m' x = m x.

(** What user code must leave alone of the record of a live thread: the fields
    modelled here, and the self pointer at the thread pointer on x86. *)
Definition keeps (e : benv) (m m' : mem) (x : inst) : Prop :=
  (forall f, In f (td_fields (be_arch e) (be_td e)) -> agree m m' (i_t x + fst f) (snd f)) /\
  (tls_below (be_arch e) = true -> agree m m' (i_tp x) (wsz (be_arch e))).

(** [bstep e b acc l b']: [acc] = byte ranges of thread records accessed, [l] =
    the label ThreadModel.v gives the step ([None]: user code only). *)
Inductive bstep (e : benv) (b : bst) : list (Z * Z) -> option label -> bst -> Prop :=
(** user code writes memory *)
| b_write m' :
    (forall j, (j < bn b)%nat -> i_mapd (bI b j) = true -> keeps e (bmem b) m' (bI b j)) ->
    bstep e b [] None (bset_mem b m')
(** create returns a thread; the kernel chose the mapping and the tid *)
| b_create i ans fn args s g t log m' sp p ctid tp nargs tid len map :
    (i < bn b)%nat -> t_pc (bT b i) = Run ->
    usize (be_arch e) s -> usize (be_arch e) g ->
    checked_or_fits (be_ck e) (be_arch e) (be_td e) (be_tls e) (c_page (be_cfg e)) s g ->
    Z.of_nat (length args) * wsz (be_arch e) <= s ->
    create (be_ck e) (be_arch e) (be_td e) (be_tls e) (c_page (be_cfg e)) (bmem b) (i_tp (bI b i)) ans fn args s g
      = (COk t, log, m') ->
    good_answer (be_arch e) (c_page (be_cfg e)) log -> template_apart (c_page (be_cfg e)) (be_tls e) log ->
    In (SMmap len (Some map)) log -> In (SClone sp p ctid tp fn nargs tid) log ->
    0 < tid < 2 ^ 31 ->
    (forall k, (k < bn b)%nat -> alive (t_pc (bT b k)) = true -> t_tid (bT b k) <> tid) ->
    (forall k, (k < bn b)%nat -> i_mapd (bI b k) = true ->
       apart map (page_ceil (c_page (be_cfg e)) len) (i_base (bI b k)) (i_len (bI b k))) ->
    (c_reuse (be_cfg e) = false -> forall k a, (k < bn b)%nat -> t_pc (bT b k) = KWake a -> a <> ctid) ->
    bstep e b [] (Some (i, [i], ECreate (bn b)))
      (BSt (S (bn b)) (fupd (bT b) (bn b) (Task Run tid true false None))
           (fupd (bI b) (bn b) (Inst t tp ctid map len true (0, 0) g))
           (fupd (bclaim b) (bn b) None) m')
| b_join i j : (i < bn b)%nat -> t_pc (bT b i) = Run -> (j < bn b)%nat -> bclaim b j = None ->
    bstep e b [] (Some (i, [i], ECallJoin j)) (bgoto (bset_claim b j (KJoin, i)) i (JLoad KJoin j))
| b_detach i j : (i < bn b)%nat -> t_pc (bT b i) = Run -> (j < bn b)%nat -> bclaim b j = None ->
    bstep e b [] (Some (i, [i], ECallDetach j)) (bgoto (bset_claim b j (KDetach, i)) i (DSwap j))
(** id(thread) (1051-1054) *)
| b_id i j : (i < bn b)%nat -> t_pc (bT b i) = Run -> (j < bn b)%nat -> bclaim b j = None ->
    bstep e b [a_tid e (i_t (bI b j))] (Some (i, [i; j], EId j (ld_tid e (bmem b) (i_t (bI b j))))) b
(** current_id() (963-972) *)
| b_current_id i : (i < bn b)%nat -> t_pc (bT b i) = Run ->
    bstep e b [a_tid e (own e b i)] (Some (i, [i; i], EId i (ld_tid e (bmem b) (own e b i)))) b
| b_return i v : (0 < i)%nat -> (i < bn b)%nat -> t_pc (bT b i) = Run -> usize (be_arch e) v ->
    bstep e b [] (Some (i, [i], EReturn v)) (btask b i (set_fin (bT b i) (XCas v) v))
(** wait_for_exit (872-896) *)
| b_load0 i k j : t_pc (bT b i) = JLoad k j -> ld_tid e (bmem b) (i_t (bI b j)) = 0 ->
    bstep e b [a_tid e (i_t (bI b j))] (Some (i, [i; j], ENone)) (bgoto b i (JDone k j))
| b_load i k j : t_pc (bT b i) = JLoad k j -> ld_tid e (bmem b) (i_t (bI b j)) <> 0 ->
    bstep e b [a_tid e (i_t (bI b j))] (Some (i, [i; j], ENone))
      (bgoto b i (JFutex k j (ld_tid e (bmem b) (i_t (bI b j)))))
| b_futex_again i k j v : t_pc (bT b i) = JFutex k j v -> ld_tid e (bmem b) (i_t (bI b j)) <> v ->
    bstep e b [a_tid e (i_t (bI b j))] (Some (i, [i; j], ENone)) (bgoto b i (JLoad k j))
| b_futex_intr i k j v : t_pc (bT b i) = JFutex k j v ->
    bstep e b [a_tid e (i_t (bI b j))] (Some (i, [i; j], ENone)) (bgoto b i (JLoad k j))
| b_futex_sleep i k j v : t_pc (bT b i) = JFutex k j v -> ld_tid e (bmem b) (i_t (bI b j)) = v ->
    bstep e b [a_tid e (i_t (bI b j))] (Some (i, [i; j], ENone)) (bgoto b i (JSleep k j))
| b_sleep_intr i k j : t_pc (bT b i) = JSleep k j ->
    bstep e b [] (Some (i, [i], ENone)) (bgoto b i (JLoad k j))
(** join (850-865) *)
| b_join_load i j : t_pc (bT b i) = JDone KJoin j ->
    ld_det e (bmem b) (i_t (bI b j)) = ABANDONED \/ c_debug (be_cfg e) = false ->
    bstep e b [a_det e (i_t (bI b j)); a_ret e (i_t (bI b j))] (Some (i, [i; j], ENone))
      (bgoto b i (JFree KJoin j (ld_ret e (bmem b) (i_t (bI b j)))))
| b_join_assert i j : t_pc (bT b i) = JDone KJoin j ->
    ld_det e (bmem b) (i_t (bI b j)) <> ABANDONED -> c_debug (be_cfg e) = true ->
    bstep e b [a_det e (i_t (bI b j))] (Some (i, [i; j], ENone)) (bgoto b i Panicked)
| b_detach_done i j : t_pc (bT b i) = JDone KDetach j ->
    bstep e b [] (Some (i, [i; j], ENone)) (bgoto b i (JFree KDetach j 0))
(** free_memory (911-928) *)
| b_free i k j rv r : t_pc (bT b i) = JFree k j rv -> r = unmap_request e (bmem b) (i_t (bI b j)) ->
    snd r <> 0 -> bmunmap_ok (c_page (be_cfg e)) r = true ->
    bstep e b (a_req e (i_t (bI b j))) (Some (i, [i; j], EMunmap (fst r) (snd r)))
      (bgoto (bmunmap b r) i (JRet k j rv))
| b_free_einval i k j rv r : t_pc (bT b i) = JFree k j rv -> r = unmap_request e (bmem b) (i_t (bI b j)) ->
    snd r <> 0 -> bmunmap_ok (c_page (be_cfg e)) r = false ->
    bstep e b (a_req e (i_t (bI b j))) (Some (i, [i; j], ENone)) (bgoto b i Panicked)
| b_free_none i k j rv r : t_pc (bT b i) = JFree k j rv -> r = unmap_request e (bmem b) (i_t (bI b j)) ->
    snd r = 0 ->
    bstep e b (a_req e (i_t (bI b j))) (Some (i, [i; j], ENone)) (bgoto b i (JRet k j rv))
| b_ret_join i j rv : t_pc (bT b i) = JRet KJoin j rv ->
    bstep e b [] (Some (i, [i], EJoin j rv)) (bgoto b i Run)
| b_ret_detach i j rv : t_pc (bT b i) = JRet KDetach j rv ->
    bstep e b [] (Some (i, [i], EDetach j)) (bgoto b i Run)
(** detach (816): swap(DETACHED) == ABANDONED *)
| b_swap i j : t_pc (bT b i) = DSwap j -> ld_det e (bmem b) (i_t (bI b j)) = ABANDONED ->
    bstep e b [a_det e (i_t (bI b j))] (Some (i, [i; j], ENone))
      (bgoto (bset_mem b (st_det e (bmem b) (i_t (bI b j)) DETACHED)) i (JLoad KDetach j))
| b_swap_running i j : t_pc (bT b i) = DSwap j -> ld_det e (bmem b) (i_t (bI b j)) <> ABANDONED ->
    bstep e b [a_det e (i_t (bI b j))] (Some (i, [i; j], EDetach j))
      (bgoto (bset_mem b (st_det e (bmem b) (i_t (bI b j)) DETACHED)) i Run)
(** exit (703-707): compare_exchange(INITIAL, ABANDONED) on one's own record *)
| b_cas i rv : t_pc (bT b i) = XCas rv -> ld_det e (bmem b) (own e b i) = INITIAL ->
    bstep e b [a_det e (own e b i)] (Some (i, [i], ENone))
      (bgoto (bset_mem b (st_det e (bmem b) (own e b i) ABANDONED)) i (XStore rv))
| b_cas_assert i rv : t_pc (bT b i) = XCas rv -> ld_det e (bmem b) (own e b i) <> INITIAL ->
    ld_det e (bmem b) (own e b i) <> DETACHED -> c_debug (be_cfg e) = true ->
    bstep e b (a_det e (own e b i) :: a_req e (own e b i)) (Some (i, [i], ENone)) (bgoto b i Panicked)
| b_cas_detached i rv r : t_pc (bT b i) = XCas rv -> ld_det e (bmem b) (own e b i) <> INITIAL ->
    ld_det e (bmem b) (own e b i) = DETACHED \/ c_debug (be_cfg e) = false ->
    r = unmap_request e (bmem b) (own e b i) -> snd r <> 0 ->
    bstep e b (a_det e (own e b i) :: a_req e (own e b i)) (Some (i, [i], ENone)) (bgoto (bset_loc b i r) i DxSetTid)
| b_cas_nomap i rv r : t_pc (bT b i) = XCas rv -> ld_det e (bmem b) (own e b i) <> INITIAL ->
    ld_det e (bmem b) (own e b i) = DETACHED \/ c_debug (be_cfg e) = false ->
    r = unmap_request e (bmem b) (own e b i) -> snd r = 0 ->
    bstep e b (a_det e (own e b i) :: a_req e (own e b i)) (Some (i, [i], ENone)) (bgoto b i XExit)
| b_store i rv : t_pc (bT b i) = XStore rv ->
    bstep e b [a_ret e (own e b i)] (Some (i, [i], ENone))
      (bgoto (bset_mem b (st_ret e (bmem b) (own e b i) rv)) i XExit)
| b_exit i : t_pc (bT b i) = XExit ->
    bstep e b [] (Some (i, [i], EExit)) (bgoto b i KClear)
| b_dx_settid i : t_pc (bT b i) = DxSetTid ->
    bstep e b [] (Some (i, [i], ESetTidNull)) (btask b i (set_clear (bT b i) DxBlock false))
| b_dx_block i : t_pc (bT b i) = DxBlock -> c_sig (be_cfg e) = true ->
    bstep e b [] (Some (i, [i], EBlockAll)) (btask b i (set_block (bT b i) DxMunmap))
| b_dx_noblock i : t_pc (bT b i) = DxBlock -> c_sig (be_cfg e) = false ->
    bstep e b [] (Some (i, [i], ENone)) (bgoto b i DxMunmap)
| b_dx_munmap i r : t_pc (bT b i) = DxMunmap -> r = i_loc (bI b i) -> bmunmap_ok (c_page (be_cfg e)) r = true ->
    bstep e b [] (Some (i, [i], EMunmap (fst r) (snd r))) (bgoto (bmunmap b r) i DxExit)
| b_dx_munmap_einval i r : t_pc (bT b i) = DxMunmap -> r = i_loc (bI b i) -> bmunmap_ok (c_page (be_cfg e)) r = false ->
    bstep e b [] (Some (i, [i], ENone)) (bgoto b i DxExit)
| b_dx_exit i : t_pc (bT b i) = DxExit ->
    bstep e b [] (Some (i, [], EExit)) (bgoto b i KClear)
(** the kernel's end of an exit: store 0 at the clear-child-tid address, wake it *)
| b_kclear i : t_pc (bT b i) = KClear -> t_clear (bT b i) = true ->
    bstep e b [(i_ctid (bI b i), 4)] (Some (i, [i], EKernelClear))
      (bgoto (bset_mem b (store_le (bmem b) (i_ctid (bI b i)) 4 0)) i (KWake (i_ctid (bI b i))))
| b_kclear_null i : t_pc (bT b i) = KClear -> t_clear (bT b i) = false ->
    bstep e b [] (Some (i, [], ENone)) (bgoto b i Dead)
| b_kwake i w k j ad : t_pc (bT b i) = KWake ad -> t_pc (bT b w) = JSleep k j ->
    i_t (bI b j) + o_tid (be_td e) = ad ->
    bstep e b [] (Some (i, [], ENone)) (bgoto (bgoto b i Dead) w (JDone k j))
| b_kwake_none i ad : t_pc (bT b i) = KWake ad ->
    (forall w k j, (w < bn b)%nat -> t_pc (bT b w) = JSleep k j -> i_t (bI b j) + o_tid (be_td e) <> ad) ->
    bstep e b [] (Some (i, [], ENone)) (bgoto b i Dead)
| b_signal i : (i < bn b)%nat -> c_handlers (be_cfg e) = true -> t_block (bT b i) = false -> user_pc (t_pc (bT b i)) = true ->
    bstep e b [] (Some (i, [i], ESignal)) b.

(** Process start: initialize_main (326-384) has run. *)
Definition bstarts (e : benv) (b : bst) : Prop :=
  exists m0 sp execfn_end rlim random ans tid R len map,
    successful_main (be_ck e) (be_arch e) (be_td e) (be_tls e) (c_page (be_cfg e)) m0 sp execfn_end rlim random ans tid R /\
    0 < tid < 2 ^ 31 /\
    In (SMmapRW len (Some map)) (mr_log R) /\
    b = BSt 1 (fun i => match i with O => Task Run tid true false None | _ => Task Dead 1 true false None end)
         (fun i => match i with
            | O => Inst (mr_thread R) (mr_tp R) (mr_thread R + o_tid (be_td e)) map len true (0, 0) (c_page (be_cfg e))
            | _ => Inst 0 0 0 0 0 false (0, 0) 0 end)
         (fun _ => None) (mr_mem R).

(** Executions: the labels in order (user writes give none), and the mmap calls
    of `create` with the thread they were made for. *)
Definition olist (l : option label) : list label := match l with Some x => [x] | None => [] end.
Inductive bexec (e : benv) : bst -> list label -> bst -> Prop :=
| bexec_nil b : bexec e b [] b
| bexec_snoc b tr b1 acc l b2 : bexec e b tr b1 -> bstep e b1 acc l b2 -> bexec e b (tr ++ olist l) b2.
Definition brun (e : benv) (tr : list label) (b : bst) : Prop := exists b0, bstarts e b0 /\ bexec e b0 tr b.
