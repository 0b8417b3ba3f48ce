(** libc mode: the queries of src/thread/libc.rs that go through a
    pthread_attr_t: stack (286-316), default_stack_size (319-330),
    default_guard_size (333-344).

    libc's part (POSIX / glibc manual): every thread has attributes (lowest stack
    address, stack size, guard size); the process has default sizes for threads
    created without explicit ones; pthread_getattr_np(t, &attr) either fails with
    a non-zero code or initialises attr with the attributes of the running thread
    t, in which case it may have allocated memory ([l_alloc] blocks: one in glibc,
    for the CPU set; none in musl) that only pthread_attr_destroy frees; the
    getters return 0 and the attribute, or a non-zero code. *)
From Coq Require Import ZArith List Bool Lia.
Import ListNotations.
Open Scope Z_scope.

Record tattr := TA { ta_addr : Z; ta_size : Z; ta_guard : Z }.
Record lst := LSt { attrs : nat -> tattr; l_default : Z * Z; l_alloc : nat; blocks : nat }.
Inductive res (A : Type) := Returns (v : A) | Panics.
Arguments Returns {A} v. Arguments Panics {A}.

(** The calls made, with the codes libc returned. *)
Definition getattr_np (s : lst) (t : nat) (code : Z) : option tattr * lst :=
  if code =? 0 then (Some (attrs s t), LSt (attrs s) (l_default s) (l_alloc s) (blocks s + l_alloc s)) else (None, s).

(** 286-316; assert_eq! panics on a non-zero code *)
Definition stack_ (s : lst) (t : nat) (c1 c2 c3 : Z) : res (Z * Z * Z) * lst :=
  match getattr_np s t c1 with
  | (Some a, s') => if c2 =? 0 then if c3 =? 0 then (Returns (ta_addr a, ta_size a, ta_guard a), s') else (Panics, s') else (Panics, s')
  | (None, s') => (Panics, s')
  end.
(** 319-330: pthread_self() is the calling thread [me] *)
Definition default_stack_size_ (s : lst) (me : nat) (c1 c2 : Z) : res Z * lst :=
  match getattr_np s me c1 with
  | (Some a, s') => if c2 =? 0 then (Returns (ta_size a), s') else (Panics, s')
  | (None, s') => (Panics, s')
  end.
(** 333-344 *)
Definition default_guard_size_ (s : lst) (me : nat) (c1 c2 : Z) : res Z * lst :=
  match getattr_np s me c1 with
  | (Some a, s') => if c2 =? 0 then (Returns (ta_guard a), s') else (Panics, s')
  | (None, s') => (Panics, s')
  end.

(** A history of calls: a thread being created with given sizes at a given stack
    address (thread/libc.rs create: pthread_attr_setstacksize, setguardsize with
    exactly the caller's sizes) or with the process's defaults (by C code), and
    the three queries. *)
Inductive call :=
| CCreate (t : nat) (addr size guard : Z)
| CCreateDefault (t : nat) (addr : Z)
| CStack (t : nat) (c1 c2 c3 : Z)
| CDefaultStack (me : nat) (c1 c2 : Z)
| CDefaultGuard (me : nat) (c1 c2 : Z).
Definition put (f : nat -> tattr) (t : nat) (a : tattr) : nat -> tattr := fun x => if Nat.eqb x t then a else f x.
Definition do_call (s : lst) (c : call) : lst :=
  match c with
  | CCreate t ad sz g => LSt (put (attrs s) t (TA ad sz g)) (l_default s) (l_alloc s) (blocks s)
  | CCreateDefault t ad => LSt (put (attrs s) t (TA ad (fst (l_default s)) (snd (l_default s)))) (l_default s) (l_alloc s) (blocks s)
  | CStack t c1 c2 c3 => snd (stack_ s t c1 c2 c3)
  | CDefaultStack me c1 c2 => snd (default_stack_size_ s me c1 c2)
  | CDefaultGuard me c1 c2 => snd (default_guard_size_ s me c1 c2)
  end.
Definition calls (s : lst) (l : list call) : lst := fold_left do_call l s.
