(** Parallel programs without shared variables, run by the model of a whole
    program (ProcModel.v).

    A [fprog] is user code that touches origin in these ways: it creates
    threads and keeps their handles, joins or detaches them, registers
    thread::at_exit functions, prints and returns.  Unlike the programs of
    ScriptModel.v, whose threads run one at a time, everything created here
    runs at the same time as its creator.  Each thread makes the calls its
    program says ([gollows]), in any interleaving the model allows.

    User code, not code of the crate: the calls are thread::create
    (src/thread/linux_raw.rs:484), join (835), detach (803) and
    at_exit (932) as modelled in ProcModel.v, ByteModel.v and DtorsModel.v. *)
From Coq Require Import ZArith List Bool Arith.
From Verif Require Import ThreadModel ByteModel DtorsModel ProcModel.
Import ListNotations.
Open Scope Z_scope.

(** Handles are numbered in the order this activation created them. *)
Inductive fprog :=
| FReturn (v : Z)                       (* return v *)
| FPrint (z : Z) (k : fprog)            (* print z; k *)
| FAtThreadExit (f k : fprog)           (* thread::at_exit(Box::new(f)); k *)
| FCreate (f k : fprog)                 (* let t_n = thread::create(f, ..).unwrap(); k *)
| FJoin (n : nat) (k : Z -> fprog)      (* k(thread::join(t_n)) *)
| FDetach (n : nat) (k : fprog).        (* thread::detach(t_n); k *)

(** One activation of user code: of origin_main, a thread function or an exit
    function ([a_who]), what it still has to do, and its handles. *)
Record act := Act { a_who : who; a_prog : fprog; a_kids : list nat }.

(** The activation of each thread (a thread of such a program has at most one),
    the code of registered exit functions, the function each thread was created
    with, and everything printed so far with the thread that printed it. *)
Record fmach := FMach { acts : nat -> option act; freg : fid -> fprog; code : nat -> fprog; fout : list (nat * Z) }.
Definition aset (m : fmach) (t : nat) (a : option act) : fmach := FMach (dupd (acts m) t a) (freg m) (code m) (fout m).
Definition fset (m : fmach) (f : fid) (p : fprog) : fmach := FMach (acts m) (dupd (freg m) f p) (code m) (fout m).
Definition cset (m : fmach) (j : nat) (p : fprog) : fmach := FMach (acts m) (freg m) (dupd (code m) j p) (fout m).
Definition oput (m : fmach) (t : nat) (z : Z) : fmach := FMach (acts m) (freg m) (code m) (fout m ++ [(t, z)]).

Section Fork.
(** The code of .fini_array entries, and the main function. *)
Variables (fini : nat -> fprog) (main : fprog).

(** Events of the whole program that are calls, or returns, of user code. *)
Inductive gollows (m : fmach) : pevent -> fmach -> Prop :=
| g_user : gollows m PUser m
| g_calljoin i ins w n k hs j : acts m i = Some (Act w (FJoin n k) hs) -> nth_error hs n = Some j ->
    gollows m (PLife (i, ins, ECallJoin j)) m
| g_join i ins w n k hs j v : acts m i = Some (Act w (FJoin n k) hs) -> nth_error hs n = Some j ->
    gollows m (PLife (i, ins, EJoin j v)) (aset m i (Some (Act w (k v) hs)))
| g_calldetach i ins w n k hs j : acts m i = Some (Act w (FDetach n k) hs) -> nth_error hs n = Some j ->
    gollows m (PLife (i, ins, ECallDetach j)) m
| g_detach i ins w n k hs j : acts m i = Some (Act w (FDetach n k) hs) -> nth_error hs n = Some j ->
    gollows m (PLife (i, ins, EDetach j)) (aset m i (Some (Act w k hs)))
| g_life i ins x : api_call x = false -> (forall j v, x <> EJoin j v) -> (forall j, x <> EDetach j) ->
    gollows m (PLife (i, ins, x)) m
| g_regt t w q k hs f : acts m t = Some (Act w (FAtThreadExit q k) hs) ->
    gollows m (PFns t (RegT f)) (fset (aset m t (Some (Act w k hs))) f q)
| g_callt t f : gollows m (PFns t (CallT f)) (aset m t (Some (Act (WT f) (freg m f) [])))
| g_callf t k : gollows m (PFns t (CallF k)) (aset m t (Some (Act (WF k) (fini k) [])))
| g_ret t w v hs : acts m t = Some (Act w (FReturn v) hs) -> gollows m (PFns t (Ret w)) (aset m t None)
(* origin_main returned *)
| g_main t v hs : acts m t = Some (Act WMain (FReturn v) hs) -> gollows m (PFns t (ExitCall v)) (aset m t None)
(* steps of origin's own code *)
| g_fns t x : match x with Nop | RegP _ | EndP | Lock | Take _ | Unlock | Empty | Term _ => True | _ => False end ->
    gollows m (PFns t x) m
| g_returns t v hs : acts m t = Some (Act WThread (FReturn v) hs) -> gollows m (PReturns t v) (aset m t None)
| g_create i ins w f k hs j : acts m i = Some (Act w (FCreate f k) hs) ->
    gollows m (PCreate i ins j) (cset (aset (aset m i (Some (Act w k (hs ++ [j])))) j (Some (Act WThread f []))) j f)
| g_done t ins v : gollows m (PDone t ins v) m.

(** Executions of the program from process start; printing is a step of its own. *)
Inductive frun (e : benv) (c : dcfg) : list pevent -> pst -> fmach -> Prop :=
| fr_init b : bstarts e b ->
    frun e c [] (PSt b dinit (fun _ => 0)) (FMach (dupd (fun _ => None) 0%nat (Some (Act WMain main []))) (fun _ => FReturn 0) (dupd (fun _ => FReturn 0) 0%nat main) [])
| fr_step tr s m x s' m' : frun e c tr s m -> pstep e c s x s' -> gollows m x m' -> frun e c (tr ++ [x]) s' m'
| fr_print tr s m t w z k hs : frun e c tr s m -> term (fns s) = None -> in_user (fns s) t -> t_pc (bT (life s) t) = Run ->
    acts m t = Some (Act w (FPrint z k) hs) ->
    frun e c tr s (oput (aset m t (Some (Act w k hs))) t z).
End Fork.
