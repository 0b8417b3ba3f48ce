(** Parallel programs without shared variables that also register
    program::at_exit functions, run by the model of a whole program
    (ProcModel.v).  As ForkModel.v, plus program::at_exit.

    A [qprog] is user code that touches origin in these ways: it creates
    threads and keeps their handles, joins or detaches them, registers
    thread::at_exit and program::at_exit functions, prints and returns.  Unlike the programs of
    ScriptModel.v, whose threads run one at a time, everything created here
    runs at the same time as its creator.  Each thread makes the calls its
    program says ([qollows]), in any interleaving the model allows.

    User code, not code of the crate: the calls are thread::create
    (src/thread/linux_raw.rs:484), join (835), detach (803) and
    at_exit (932), and program::at_exit (src/program/linux_raw.rs:249), as modelled in ProcModel.v, ByteModel.v and DtorsModel.v. *)
From Coq Require Import ZArith List Bool Arith.
From Verif Require Import ThreadModel ByteModel DtorsModel ProcModel.
Import ListNotations.
Open Scope Z_scope.

(** Handles are numbered in the order this activation created them. *)
Inductive qprog :=
| QReturn (v : Z)                       (* return v *)
| QPrint (z : Z) (k : qprog)            (* print z; k *)
| QAtThreadExit (f k : qprog)           (* thread::at_exit(Box::new(f)); k *)
| QAtExit (f k : qprog)                 (* program::at_exit(Box::new(f)); k *)
| QCreate (f k : qprog)                 (* let t_n = thread::create(f, ..).unwrap(); k *)
| QJoin (n : nat) (k : Z -> qprog)      (* k(thread::join(t_n)) *)
| QDetach (n : nat) (k : qprog).        (* thread::detach(t_n); k *)

(** One activation of user code: of origin_main, a thread function or an exit
    function ([a_who]), what it still has to do, and its handles. *)
Record act := Act { a_who : who; a_prog : qprog; a_kids : list nat }.

(** The activation of each thread (a thread of such a program has at most one),
    the code of registered exit functions, the function each thread was created
    with, and everything printed so far with the thread that printed it. *)
Record qmach := QMach { acts : nat -> option act; freg : fid -> qprog; code : nat -> qprog; fout : list (nat * Z) }.
Definition aset (m : qmach) (t : nat) (a : option act) : qmach := QMach (dupd (acts m) t a) (freg m) (code m) (fout m).
Definition fset (m : qmach) (f : fid) (p : qprog) : qmach := QMach (acts m) (dupd (freg m) f p) (code m) (fout m).
Definition cset (m : qmach) (j : nat) (p : qprog) : qmach := QMach (acts m) (freg m) (dupd (code m) j p) (fout m).
Definition oput (m : qmach) (t : nat) (z : Z) : qmach := QMach (acts m) (freg m) (code m) (fout m ++ [(t, z)]).

Section Fork.
(** The code of .fini_array entries, and the main function. *)
Variables (fini : nat -> qprog) (main : qprog).

(** Events of the whole program that are calls, or returns, of user code. *)
Inductive qollows (m : qmach) : pevent -> qmach -> Prop :=
| q_user : qollows m PUser m
| q_calljoin i ins w n k hs j : acts m i = Some (Act w (QJoin n k) hs) -> nth_error hs n = Some j ->
    qollows m (PLife (i, ins, ECallJoin j)) m
| q_join i ins w n k hs j v : acts m i = Some (Act w (QJoin n k) hs) -> nth_error hs n = Some j ->
    qollows m (PLife (i, ins, EJoin j v)) (aset m i (Some (Act w (k v) hs)))
| q_calldetach i ins w n k hs j : acts m i = Some (Act w (QDetach n k) hs) -> nth_error hs n = Some j ->
    qollows m (PLife (i, ins, ECallDetach j)) m
| q_detach i ins w n k hs j : acts m i = Some (Act w (QDetach n k) hs) -> nth_error hs n = Some j ->
    qollows m (PLife (i, ins, EDetach j)) (aset m i (Some (Act w k hs)))
| q_life i ins x : api_call x = false -> (forall j v, x <> EJoin j v) -> (forall j, x <> EDetach j) ->
    qollows m (PLife (i, ins, x)) m
| q_regt t w q k hs f : acts m t = Some (Act w (QAtThreadExit q k) hs) ->
    qollows m (PFns t (RegT f)) (fset (aset m t (Some (Act w k hs))) f q)
(* the box exists from here on; RegP is the push, under the lock *)
| q_begp t w q k hs f : acts m t = Some (Act w (QAtExit q k) hs) ->
    qollows m (PFns t (BeginP f)) (fset (aset m t (Some (Act w k hs))) f q)
| q_callp t f : qollows m (PFns t (CallP f)) (aset m t (Some (Act (WP f) (freg m f) [])))
| q_callt t f : qollows m (PFns t (CallT f)) (aset m t (Some (Act (WT f) (freg m f) [])))
| q_callf t k : qollows m (PFns t (CallF k)) (aset m t (Some (Act (WF k) (fini k) [])))
| q_ret t w v hs : acts m t = Some (Act w (QReturn v) hs) -> qollows m (PFns t (Ret w)) (aset m t None)
(* origin_main returned *)
| q_main t v hs : acts m t = Some (Act WMain (QReturn v) hs) -> qollows m (PFns t (ExitCall v)) (aset m t None)
(* steps of origin's own code *)
| q_fns t x : match x with Nop | RegP _ | EndP | Lock | Take _ | Unlock | Empty | Term _ => True | _ => False end ->
    qollows m (PFns t x) m
| q_returns t v hs : acts m t = Some (Act WThread (QReturn v) hs) -> qollows m (PReturns t v) (aset m t None)
| q_create i ins w f k hs j : acts m i = Some (Act w (QCreate f k) hs) ->
    qollows m (PCreate i ins j) (cset (aset (aset m i (Some (Act w k (hs ++ [j])))) j (Some (Act WThread f []))) j f)
| q_done t ins v : qollows m (PDone t ins v) m.

(** Executions of the program from process start; printing is a step of its own. *)
Inductive qrun (e : benv) (c : dcfg) : list pevent -> pst -> qmach -> Prop :=
| qr_init b : bstarts e b ->
    qrun e c [] (PSt b dinit (fun _ => 0)) (QMach (dupd (fun _ => None) 0%nat (Some (Act WMain main []))) (fun _ => QReturn 0) (dupd (fun _ => QReturn 0) 0%nat main) [])
| qr_step tr s m x s' m' : qrun e c tr s m -> pstep e c s x s' -> qollows m x m' -> qrun e c (tr ++ [x]) s' m'
| qr_print tr s m t w z k hs : qrun e c tr s m -> term (fns s) = None -> in_user (fns s) t -> t_pc (bT (life s) t) = Run ->
    acts m t = Some (Act w (QPrint z k) hs) ->
    qrun e c tr s (oput (aset m t (Some (Act w k hs))) t z).
End Fork.
