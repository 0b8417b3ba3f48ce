(** Machine words, byte memory and access logs shared by all models.

    Addresses and words are [Z]; every wrap-around of the code is written
    explicitly as [mod 2^(8*ws)], where [ws] is [size_of::<usize>()] in bytes
    (8 on x86_64/aarch64/riscv64, 4 on x86/arm).  This file contains only
    definitions; lemmas are in [MachineFacts.v]. *)
From Coq Require Export ZArith List Bool Lia.
Export ListNotations.
Open Scope Z_scope.

(** ** usize arithmetic (Rust `usize` of [ws] bytes). *)

(** [usize_bits ws] = `usize::BITS`. *)
Definition usize_bits (ws : Z) : Z := 8 * ws.

(** [modulus ws] = 2^(usize::BITS). *)
Definition modulus (ws : Z) : Z := 2 ^ (8 * ws).

(** Rust `usize::wrapping_add`, `wrapping_sub`, `wrapping_neg`. *)
Definition wrapping_add (ws a b : Z) : Z := (a + b) mod modulus ws.
Definition wrapping_sub (ws a b : Z) : Z := (a - b) mod modulus ws.
Definition wrapping_neg (ws a : Z) : Z := (- a) mod modulus ws.

(** Rust `!x` on usize. *)
Definition not_usize (ws a : Z) : Z := modulus ws - 1 - a.

(** Rust `x << k` and `x >> k` on usize, for 0 <= k < usize::BITS. *)
Definition shl_usize (ws a k : Z) : Z := (Z.shiftl a k) mod modulus ws.
Definition shr_usize (a k : Z) : Z := Z.shiftr a k.

(** ** Byte memory. *)

(** Total byte memory: address to byte value.  Faults are not represented in
    the memory itself but through the access log below. *)
Definition mem := Z -> Z.

(** Every byte of a memory is a byte. *)
Definition wf_mem (m : mem) : Prop := forall a, 0 <= m a < 256.

Definition upd (m : mem) (a v : Z) : mem := fun x => if x =? a then v else m x.

(** Multi-byte loads and stores, little- or big-endian ([be]); [n] is the
    number of bytes accessed. *)
Fixpoint load_le (m : mem) (a : Z) (n : nat) : Z :=
  match n with
  | O => 0
  | S k => m a + 256 * load_le m (a + 1) k
  end.

Fixpoint store_le (m : mem) (a : Z) (n : nat) (v : Z) : mem :=
  match n with
  | O => m
  | S k => upd (store_le m (a + 1) k (v / 256)) a (v mod 256)
  end.

Fixpoint load_be (m : mem) (a : Z) (n : nat) : Z :=
  match n with
  | O => 0
  | S k => load_be m a k * 256 + m (a + Z.of_nat k)
  end.

Fixpoint store_be (m : mem) (a : Z) (n : nat) (v : Z) : mem :=
  match n with
  | O => m
  | S k => upd (store_be m a k (v / 256)) (a + Z.of_nat k) (v mod 256)
  end.

Definition load_en (be : bool) (m : mem) (a : Z) (n : nat) : Z :=
  if be then load_be m a n else load_le m a n.
Definition store_en (be : bool) (m : mem) (a : Z) (n : nat) (v : Z) : mem :=
  if be then store_be m a n v else store_le m a n v.

(** ** Logged machine state: memory plus every load and every store made, as
    (address, width) pairs, newest first.  The logs let theorems speak about
    accesses that leave no trace in the final memory (over-reads, rewriting a
    byte with its old value). *)
Record mst := MSt { bytes : mem; rlog : list (Z * Z); wlog : list (Z * Z) }.

Definition load_n (be : bool) (n : nat) (a : Z) (s : mst) : Z * mst :=
  (load_en be (bytes s) a n,
   MSt (bytes s) ((a, Z.of_nat n) :: rlog s) (wlog s)).

Definition store_n (be : bool) (n : nat) (a v : Z) (s : mst) : mst :=
  MSt (store_en be (bytes s) a n v) (rlog s) ((a, Z.of_nat n) :: wlog s).

(** Single-byte accesses. *)
Definition load1 (a : Z) (s : mst) : Z * mst :=
  (bytes s a, MSt (bytes s) ((a, 1) :: rlog s) (wlog s)).

Definition store1 (a v : Z) (s : mst) : mst :=
  MSt (upd (bytes s) a v) (rlog s) ((a, 1) :: wlog s).
