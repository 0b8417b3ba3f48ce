(** Specification vocabulary for the memory functions (C01-C07).  Nothing here
    mentions how the functions work; it only speaks about byte memory before
    and after a call, and about which addresses were accessed. *)
From Verif Require Import Machine.

(** An [n]-byte object at [a] that fits the address space of a [ws]-byte
    machine word: the size is a `usize` and the object does not wrap around the
    end of the address space. *)
Definition object (ws a n : Z) : Prop :=
  0 <= a /\ 0 <= n < 2 ^ (8 * ws) /\ a + n <= 2 ^ (8 * ws).

(** [b] is a byte of the [n]-byte object at [a]. *)
Definition inside (a n b : Z) : Prop := a <= b < a + n.

Definition disjoint (a b n : Z) : Prop := forall x, ~ (inside a n x /\ inside b n x).

(** Memory [m'] is [m] with the [n] bytes at [src] copied to [dest]. *)
Definition copied (m : mem) (dest src n : Z) (m' : mem) : Prop :=
  (forall i, 0 <= i < n -> m' (dest + i) = m (src + i)) /\
  (forall x, ~ inside dest n x -> m' x = m x).

(** Memory [m'] is [m] with the [n] bytes at [p] set to the byte [c]. *)
Definition filled (m : mem) (p c n : Z) (m' : mem) : Prop :=
  (forall i, 0 <= i < n -> m' (p + i) = c) /\
  (forall x, ~ inside p n x -> m' x = m x).

(** [r] is the C `memcmp` result for the two [n]-byte objects. *)
Definition compared (m : mem) (a b n r : Z) : Prop :=
  (r = 0 /\ forall i, 0 <= i < n -> m (a + i) = m (b + i)) \/
  (exists i, 0 <= i < n /\ (forall j, 0 <= j < i -> m (a + j) = m (b + j)) /\
             m (a + i) <> m (b + i) /\ r = m (a + i) - m (b + i)).

(** A NUL-terminated string of length [len] is stored at [p]. *)
Definition c_string (m : mem) (p len : Z) : Prop :=
  0 <= len /\ (forall i, 0 <= i < len -> m (p + i) <> 0) /\ m (p + len) = 0.

(** The state in which a call starts: memory [m], nothing accessed yet. *)
Definition start (m : mem) : mst := MSt m [] [].

(** The call's result state: same bytes as before. *)
Definition unchanged (m m' : mem) : Prop := forall x, m' x = m x.

(** All logged accesses touch only bytes inside the object. *)
Definition only_inside (a n : Z) (log : list (Z * Z)) : Prop :=
  forall x w, In (x, w) log -> a <= x /\ 0 < w /\ x + w <= a + n.

(** Every byte touched by a logged access lies on a page (of [P] bytes) that
    also holds a byte of the [n]-byte object at [a]. *)
Definition only_pages_of (P a n : Z) (log : list (Z * Z)) : Prop :=
  forall x w k, In (x, w) log -> 0 <= k < w ->
    exists b, inside a n b /\ b / P = (x + k) / P.

(** Each logged access is inside the object, or is naturally aligned, at most
    16 bytes wide and contains at least one byte of it. *)
Definition inside_or_aligned (a n : Z) (log : list (Z * Z)) : Prop :=
  forall x w, In (x, w) log ->
    0 < w /\ ((a <= x /\ x + w <= a + n) \/
              (In w [1; 2; 4; 8; 16] /\ x mod w = 0 /\ exists b, inside a n b /\ inside x w b)).

(** All logged accesses touch only bytes inside one of two [n]-byte objects. *)
Definition only_inside2 (a b n : Z) (log : list (Z * Z)) : Prop :=
  forall x w, In (x, w) log ->
    0 < w /\ ((a <= x /\ x + w <= a + n) \/ (b <= x /\ x + w <= b + n)).
