(** A whole program: the thread life cycle (ByteModel.v: create, join, detach,
    id, exit at the level of bytes) and the exit functions (DtorsModel.v:
    thread::at_exit, program::at_exit, exit) of the same threads, run together.

    No new code is modelled, only how the two meet in src/thread/linux_raw.rs:
    - `create` (560-612) starts a thread in both;
    - `entry` (676-680) calls the thread's function, keeps its result in a
      local ([fval]) and calls `exit`;
    - `exit` (684-764) first calls the registered functions (698, FDtors), which
      are user code and may create, join, detach and register, and only then
      starts the life cycle's end (701: XCas), with the function's result;
    - a thread inside join or detach does nothing else;
    - once the process has ended (exit_group) nothing runs. *)
From Coq Require Import ZArith List Bool Arith.
From Verif Require Import Machine LayoutModel LayoutSpec ThreadModel ByteModel DtorsModel.
Import ListNotations.
Open Scope Z_scope.

Record pst := PSt { life : bst; fns : dst; fval : nat -> Z }.

(** What can be seen of a step: nothing (user code), a step of the life cycle, a
    step concerning exit functions, a thread's function returning a value (its
    exit functions come next), a thread being created, a thread having called
    its last exit function. *)
Inductive pevent :=
| PUser
| PLife (l : label)
| PFns (t : nat) (x : DtorsModel.event)
| PReturns (t : nat) (v : Z)
| PCreate (i : nat) (acc : list nat) (j : nat)
| PDone (t : nat) (acc : list nat) (v : Z).

(** API calls made by user code that the life cycle starts at [Run]. *)
Definition api_call (x : ThreadModel.event) : bool :=
  match x with ECallJoin _ | ECallDetach _ | EId _ _ => true | _ => false end.
Definition in_user (d : dst) (t : nat) : Prop := exists w fs, frames d t = FUser w :: fs.
(** Events of one part that are steps of both. *)
Definition life_only (x : ThreadModel.event) : bool :=
  match x with ECreate _ | EReturn _ => false | _ => true end.
Definition fns_only (x : DtorsModel.event) : bool :=
  match x with Spawn _ | ThreadDone | Ret WThread => false | _ => true end.

Inductive pstep (e : benv) (c : dcfg) (s : pst) : pevent -> pst -> Prop :=
| p_user acc b' : term (fns s) = None -> bstep e (life s) acc None b' ->
    pstep e c s PUser (PSt b' (fns s) (fval s))
| p_life acc i ins x b' : term (fns s) = None -> bstep e (life s) acc (Some (i, ins, x)) b' ->
    life_only x = true -> (api_call x = true -> in_user (fns s) i) ->
    pstep e c s (PLife (i, ins, x)) (PSt b' (fns s) (fval s))
| p_fns t act x d' : dstep c (fns s) t act = Some (x, d') -> fns_only x = true ->
    t_pc (bT (life s) t) = Run ->
    pstep e c s (PFns t x) (PSt (life s) d' (fval s))
(** 676-680 *)
| p_returns t v d' : dstep c (fns s) t (ARet 0) = Some (Ret WThread, d') ->
    t_pc (bT (life s) t) = Run -> usize (be_arch e) v ->
    pstep e c s (PReturns t v) (PSt (life s) d' (fupd (fval s) t v))
| p_create acc i ins j b' d' : bstep e (life s) acc (Some (i, ins, ECreate j)) b' ->
    dstep c (fns s) i ASpawn = Some (Spawn j, d') ->
    pstep e c s (PCreate i ins j) (PSt b' d' (fval s))
(** 698-706 *)
| p_done acc t ins b' d' : dstep c (fns s) t AGo = Some (ThreadDone, d') ->
    bstep e (life s) acc (Some (t, ins, EReturn (fval s t))) b' ->
    pstep e c s (PDone t ins (fval s t)) (PSt b' d' (fval s)).

(** From process start: main's record initialised, user code about to run. *)
Inductive prun (e : benv) (c : dcfg) : list pevent -> pst -> Prop :=
| pr_init b : bstarts e b -> prun e c [] (PSt b dinit (fun _ => 0))
| pr_step tr s x s' : prun e c tr s -> pstep e c s x s' -> prun e c (tr ++ [x]) s'.

(** The two histories contained in one. *)
Definition life_of (x : pevent) : list label :=
  match x with
  | PLife l => [l] | PCreate i ins j => [(i, ins, ECreate j)] | PDone t ins v => [(t, ins, EReturn v)]
  | _ => [] end.
Definition fns_of (x : pevent) : trace :=
  match x with
  | PFns t y => [(t, y)] | PReturns t _ => [(t, Ret WThread)] | PCreate i _ j => [(i, Spawn j)]
  | PDone t _ _ => [(t, ThreadDone)]
  | _ => [] end.
Definition lifes (tr : list pevent) : list label := flat_map life_of tr.
Definition exits (tr : list pevent) : trace := flat_map fns_of tr.
