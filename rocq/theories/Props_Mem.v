(** Property theorems C01-C07 (memory functions). *)
From Verif Require Import Machine MemModel MemSpec MemTop.

(** C01 *)
Theorem memcpy_correct :
  forall (v : variant) (m : mem) (dest src n : Z),
    variant_ok v -> wf_mem m ->
    object (variant_ws v) dest n -> object (variant_ws v) src n ->
    disjoint dest src n ->
    exists s', memcpy v dest src n (start m) = Some (dest, s') /\
      copied m dest src n (bytes s') /\
      only_inside dest n (wlog s') /\ inside_or_aligned src n (rlog s').
Proof. exact memcpy_all. Qed.
Print Assumptions memcpy_correct.

(** C02: no disjointness hypothesis. *)
Theorem memmove_correct :
  forall (v : variant) (m : mem) (dest src n : Z),
    variant_ok v -> wf_mem m ->
    object (variant_ws v) dest n -> object (variant_ws v) src n ->
    exists s', memmove v dest src n (start m) = Some (dest, s') /\
      copied m dest src n (bytes s') /\
      only_inside dest n (wlog s') /\ inside_or_aligned src n (rlog s').
Proof. exact memmove_all. Qed.
Print Assumptions memmove_correct.

(** C02: the x86-64 backward copy returns with the direction flag clear, as
    the ABI requires. *)
Theorem memmove_restores_direction_flag :
  forall dest src n s, fst (x64_copy_backward dest src n s) = false.
Proof. exact df_clear. Qed.
Print Assumptions memmove_restores_direction_flag.

(** C03: [c] is any C int; its low 8 bits are [c mod 256]. *)
Theorem memset_correct :
  forall (v : variant) (m : mem) (p c n : Z),
    variant_ok v -> object (variant_ws v) p n ->
    exists s', memset v p c n (start m) = Some (p, s') /\
      filled m p (c mod 256) n (bytes s') /\
      only_inside p n (wlog s') /\ rlog s' = [].
Proof. exact memset_all. Qed.
Print Assumptions memset_correct.

(** C04 *)
Theorem memcmp_correct :
  forall (v : variant) (m : mem) (a b n : Z),
    wf_mem m -> 0 <= n ->
    exists r s', memcmp v a b n (start m) = Some (r, s') /\
      compared m a b n r /\ unchanged m (bytes s') /\
      wlog s' = [] /\ only_inside2 a b n (rlog s').
Proof. exact memcmp_all. Qed.
Print Assumptions memcmp_correct.

Theorem bcmp_correct :
  forall (v : variant) (m : mem) (a b n : Z),
    wf_mem m -> 0 <= n ->
    exists r s', bcmp v a b n (start m) = Some (r, s') /\
      compared m a b n r /\ unchanged m (bytes s') /\
      wlog s' = [] /\ only_inside2 a b n (rlog s').
Proof. exact memcmp_all. Qed.
Print Assumptions bcmp_correct.

(** C05: the loop is unbounded, so the claim is for every iteration budget
    larger than the string. *)
Theorem strlen_correct :
  forall (v : variant) (m : mem) (p len : Z) (fuel : nat),
    wf_mem m -> c_string m p len -> (Z.to_nat len < fuel)%nat ->
    exists s', strlen v fuel p (start m) = Some (len, s') /\
      unchanged m (bytes s') /\ wlog s' = [] /\
      inside_or_aligned p (len + 1) (rlog s').
Proof. exact strlen_all. Qed.
Print Assumptions strlen_correct.

(** C06: [P] is the page size (any multiple of 16). *)
Theorem memcpy_footprint :
  forall (v : variant) (m : mem) (dest src n P : Z),
    variant_ok v -> wf_mem m ->
    object (variant_ws v) dest n -> object (variant_ws v) src n ->
    disjoint dest src n -> 0 < P -> (16 | P) ->
    exists s', memcpy v dest src n (start m) = Some (dest, s') /\
      only_inside dest n (wlog s') /\
      inside_or_aligned src n (rlog s') /\ only_pages_of P src n (rlog s').
Proof. exact memcpy_footprint_l. Qed.
Print Assumptions memcpy_footprint.

Theorem memmove_footprint :
  forall (v : variant) (m : mem) (dest src n P : Z),
    variant_ok v -> wf_mem m ->
    object (variant_ws v) dest n -> object (variant_ws v) src n ->
    0 < P -> (16 | P) ->
    exists s', memmove v dest src n (start m) = Some (dest, s') /\
      only_inside dest n (wlog s') /\
      inside_or_aligned src n (rlog s') /\ only_pages_of P src n (rlog s').
Proof. exact memmove_footprint_l. Qed.
Print Assumptions memmove_footprint.

Theorem strlen_footprint :
  forall (v : variant) (m : mem) (p len : Z) (fuel : nat) (P : Z),
    wf_mem m -> c_string m p len -> (Z.to_nat len < fuel)%nat ->
    0 < P -> (16 | P) ->
    exists s', strlen v fuel p (start m) = Some (len, s') /\ wlog s' = [] /\
      inside_or_aligned p (len + 1) (rlog s') /\
      only_pages_of P p (len + 1) (rlog s').
Proof. exact strlen_footprint_l. Qed.
Print Assumptions strlen_footprint.

(** C07: any two builds agree. *)
Theorem memcpy_variants_agree :
  forall (v1 v2 : variant) (m : mem) (dest src n : Z),
    variant_ok v1 -> variant_ok v2 -> wf_mem m ->
    object (variant_ws v1) dest n -> object (variant_ws v1) src n ->
    object (variant_ws v2) dest n -> object (variant_ws v2) src n ->
    disjoint dest src n ->
    exists r1 r2, memcpy v1 dest src n (start m) = Some r1 /\
      memcpy v2 dest src n (start m) = Some r2 /\
      fst r1 = fst r2 /\ unchanged (bytes (snd r1)) (bytes (snd r2)).
Proof. exact memcpy_agree_l. Qed.
Print Assumptions memcpy_variants_agree.

Theorem memmove_variants_agree :
  forall (v1 v2 : variant) (m : mem) (dest src n : Z),
    variant_ok v1 -> variant_ok v2 -> wf_mem m ->
    object (variant_ws v1) dest n -> object (variant_ws v1) src n ->
    object (variant_ws v2) dest n -> object (variant_ws v2) src n ->
    exists r1 r2, memmove v1 dest src n (start m) = Some r1 /\
      memmove v2 dest src n (start m) = Some r2 /\
      fst r1 = fst r2 /\ unchanged (bytes (snd r1)) (bytes (snd r2)).
Proof. exact memmove_agree_l. Qed.
Print Assumptions memmove_variants_agree.

Theorem memset_variants_agree :
  forall (v1 v2 : variant) (m : mem) (p c n : Z),
    variant_ok v1 -> variant_ok v2 ->
    object (variant_ws v1) p n -> object (variant_ws v2) p n ->
    exists r1 r2, memset v1 p c n (start m) = Some r1 /\
      memset v2 p c n (start m) = Some r2 /\
      fst r1 = fst r2 /\ unchanged (bytes (snd r1)) (bytes (snd r2)).
Proof. exact memset_agree_l. Qed.
Print Assumptions memset_variants_agree.

Theorem memcmp_variants_agree :
  forall (v1 v2 : variant) (m : mem) (a b n : Z),
    wf_mem m -> 0 <= n ->
    exists r1 r2, memcmp v1 a b n (start m) = Some r1 /\
      memcmp v2 a b n (start m) = Some r2 /\
      fst r1 = fst r2 /\ unchanged (bytes (snd r1)) (bytes (snd r2)).
Proof. exact memcmp_agree_l. Qed.
Print Assumptions memcmp_variants_agree.

Theorem strlen_variants_agree :
  forall (v1 v2 : variant) (m : mem) (p len : Z) (fuel : nat),
    wf_mem m -> c_string m p len -> (Z.to_nat len < fuel)%nat ->
    exists r1 r2, strlen v1 fuel p (start m) = Some r1 /\
      strlen v2 fuel p (start m) = Some r2 /\
      fst r1 = fst r2 /\ unchanged (bytes (snd r1)) (bytes (snd r2)).
Proof. exact strlen_agree_l. Qed.
Print Assumptions strlen_variants_agree.

(** ** Non-vacuity: concrete cases meeting the hypotheses, and what the model
    computes for them. *)
Definition ex_mem : mem := fun a => (7 * a + 3) mod 251.
Lemma ex_mem_wf : wf_mem ex_mem.
Proof.
  intros a. unfold ex_mem. pose proof (Z.mod_pos_bound (7 * a + 3) 251 ltac:(lia)). lia.
Qed.

Definition read_back (r : option (Z * mst)) (a : Z) : option Z :=
  match r with Some (_, s) => Some (bytes s a) | None => None end.

(** A misaligned 37-byte memcpy on a big-endian 32-bit machine without
    unaligned loads: the hypotheses of C01/C06/C07 hold and the bytes arrive. *)
Example memcpy_case :
  let v := Portable 4 true false in
  variant_ok v /\ wf_mem ex_mem /\ object (variant_ws v) 1001 37 /\
  object (variant_ws v) 2003 37 /\ disjoint 1001 2003 37 /\ 0 < 4096 /\ (16 | 4096) /\
  read_back (memcpy v 1001 2003 37 (start ex_mem)) 1037 = Some (ex_mem 2039) /\
  read_back (memcpy v 1001 2003 37 (start ex_mem)) 1038 = Some (ex_mem 1038).
Proof.
  cbn zeta. split; [left; reflexivity|]. split; [exact ex_mem_wf|].
  split; [unfold object; cbn; lia|]. split; [unfold object; cbn; lia|].
  split; [unfold disjoint, inside; lia|].
  split; [lia|]. split; [exists 256; reflexivity|]. vm_compute; auto.
Qed.

(** An overlapping backward memmove on x86-64. *)
Example memmove_case :
  let v := X64 false true in
  variant_ok v /\ wf_mem ex_mem /\ object (variant_ws v) 1005 40 /\
  object (variant_ws v) 1002 40 /\
  read_back (memmove v 1005 1002 40 (start ex_mem)) 1044 = Some (ex_mem 1041) /\
  read_back (memmove v 1005 1002 40 (start ex_mem)) 1005 = Some (ex_mem 1002).
Proof.
  cbn zeta. split; [right; reflexivity|]. split; [exact ex_mem_wf|].
  split; [unfold object; cbn; lia|]. split; [unfold object; cbn; lia|]. vm_compute; auto.
Qed.

(** memset with a negative C int. *)
Example memset_case :
  let v := Portable 8 false true in
  variant_ok v /\ object (variant_ws v) 1003 50 /\
  read_back (memset v 1003 (-2) 50 (start ex_mem)) 1052 = Some 254.
Proof.
  cbn zeta. split; [right; reflexivity|]. split; [unfold object; cbn; lia|]. vm_compute; auto.
Qed.

Definition ex_str : mem := fun a => if a =? 1020 then 0 else 65.
(** A 19-byte string starting at a misaligned address. *)
Example strlen_case :
  wf_mem ex_str /\ c_string ex_str 1001 19 /\ (Z.to_nat 19 < 100)%nat /\
  option_map fst (strlen (X64 true true) 100 1001 (start ex_str)) = Some 19 /\
  option_map fst (strlen (X64 true false) 100 1001 (start ex_str)) = Some 19.
Proof.
  split; [intros a; unfold ex_str; destruct (a =? 1020); lia|].
  split; [|split; [lia|vm_compute; auto]].
  repeat split; [lia|].
  intros i Hi. unfold ex_str. destruct (Z.eqb_spec (1001 + i) 1020); lia.
Qed.

(** memcmp finding a difference in byte 21 of 40. *)
Example memcmp_case :
  wf_mem ex_str /\ 0 <= 40 /\
  option_map fst (memcmp (X64 true true) 999 2000 40 (start ex_str)) = Some (-65).
Proof.
  split; [intros a; unfold ex_str; destruct (a =? 1020); lia|]. split; [lia|]. vm_compute; auto.
Qed.
