(** Vocabulary for the byte-level life cycle (C56): everything is about traces
    (did, join_called, ..., munmaps of ThreadSpec.v), memory bytes and the
    mappings of threads. *)
From Coq Require Import ZArith List Bool.
From Verif Require Import Machine LayoutModel LayoutSpec ThreadModel ByteModel.
Import ListNotations.
Open Scope Z_scope.

(** thread j's mapping exists *)
Definition bmapped (b : bst) (j : nat) : Prop := (j < bn b)%nat /\ i_mapd (bI b j) = true.
(** the byte range (address, length) lies inside the mapping of a thread whose
    mapping exists *)
Definition in_mapping (b : bst) (x : Z * Z) : Prop :=
  exists j, bmapped b j /\ i_base (bI b j) <= fst x /\ fst x + snd x <= i_base (bI b j) + i_len (bI b j).
(** the kernel has cleared j's id / is completely done with j *)
Definition bfinished (b : bst) (j : nat) : Prop :=
  t_pc (bT b j) = Dead \/ exists a, t_pc (bT b j) = KWake a.
Definition bexited (b : bst) (j : nat) : Prop := t_pc (bT b j) = Dead.
(** every create call so far asked for a guard size that is a page multiple *)
Definition bguards_ok (e : benv) (b : bst) : Prop :=
  forall j, (0 < j < bn b)%nat -> i_g (bI b j) mod c_page (be_cfg e) = 0.
