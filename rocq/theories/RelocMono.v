(** More fuel never changes an outcome. *)
From Verif Require Import Machine LayoutModel RelocModel.

Definition le_res {A} (x y : res A) : Prop := x = Running \/ x = y.

Lemma le_refl {A} (x : res A) : le_res x x.
Proof. now right. Qed.
Lemma le_bind {A B} (x y : res A) (f h : A -> res B) :
  le_res x y -> (forall v, le_res (f v) (h v)) -> le_res (rbind x f) (rbind y h).
Proof. intros [ -> | -> ] H; [now left|]. destruct y; cbn [rbind]; auto using le_refl. Qed.

Ltac ifs := repeat match goal with |- le_res (if ?b then _ else _) _ => destruct b end; auto using @le_refl.

Lemma skip_env_mono a m : forall n n' p x, (n <= n')%nat -> skip_env n a m p = Some x -> skip_env n' a m p = Some x.
Proof.
  induction n as [|n IH]; intros n' p x L H; [discriminate|]. destruct n' as [|n']; [lia|].
  cbn [skip_env] in *. destruct (_ =? 0); auto. apply IH; auto. lia.
Qed.
Lemma scan_aux_mono a m : forall n n' p i x, (n <= n')%nat -> scan_aux n a m p i = Some x -> scan_aux n' a m p i = Some x.
Proof.
  induction n as [|n IH]; intros n' p i x L H; [discriminate|]. destruct n' as [|n']; [lia|].
  cbn [scan_aux] in *. repeat match goal with |- (if ?b then _ else _) = _ => destruct b end; auto; apply IH; auto; lia.
Qed.
Lemma scan_dyn_mono e s b : forall n n' p d, (n <= n')%nat -> le_res (scan_dyn n e s b p d) (scan_dyn n' e s b p d).
Proof.
  induction n as [|n IH]; intros n' p d L; [now left|]. destruct n' as [|n']; [lia|].
  cbn [scan_dyn]. cbv zeta. ifs; apply IH; lia.
Qed.
Lemma do_rela_mono a b q : forall n n' p s, (n <= n')%nat -> le_res (do_rela n a b p q s) (do_rela n' a b p q s).
Proof.
  induction n as [|n IH]; intros n' p s L; [now left|]. destruct n' as [|n']; [lia|].
  cbn [do_rela]. cbv zeta. ifs; apply IH; lia.
Qed.
Lemma do_rel_mono a b q : forall n n' p s, (n <= n')%nat -> le_res (do_rel n a b p q s) (do_rel n' a b p q s).
Proof.
  induction n as [|n IH]; intros n' p s L; [now left|]. destruct n' as [|n']; [lia|].
  cbn [do_rel]. cbv zeta. ifs; apply IH; lia.
Qed.
Lemma do_bits_mono e b r : forall n n' w i s, (n <= n')%nat -> le_res (do_bits n e b r w i s) (do_bits n' e b r w i s).
Proof.
  induction n as [|n IH]; intros n' w i s L; [now left|]. destruct n' as [|n']; [lia|].
  cbn [do_bits]. cbv zeta. ifs; [|apply IH; lia]. apply le_bind; [apply le_refl|]. intros v. apply IH. lia.
Qed.
Lemma do_relr_mono e b q : forall n n' p r s, (n <= n')%nat -> le_res (do_relr n e b p q r s) (do_relr n' e b p q r s).
Proof.
  induction n as [|n IH]; intros n' p r s L; [now left|]. destruct n' as [|n']; [lia|].
  cbn [do_relr]. cbv zeta. ifs.
  - apply le_bind; [apply le_refl|]. intros v. apply le_bind; [apply le_refl|]. intros v'. apply IH. lia.
  - apply le_bind; [apply do_bits_mono; lia|]. intros v. apply le_bind; [apply le_refl|]. intros v'. apply IH. lia.
Qed.
Lemma scan_phdrs_mono e b z q s : forall n n' p r, (n <= n')%nat -> le_res (scan_phdrs n e b z p q s r) (scan_phdrs n' e b z p q s r).
Proof.
  induction n as [|n IH]; intros n' p r L; [now left|]. destruct n' as [|n']; [lia|].
  cbn [scan_phdrs]. cbv zeta. ifs; apply IH; lia.
Qed.

Lemma relocate_mono e s n n' : (n <= n')%nat -> le_res (relocate n e s) (relocate n' e s).
Proof.
  intros L. unfold relocate, read_aux. cbv zeta.
  destruct (skip_env n _ _ _) as [p|] eqn:E1; [|now left]. rewrite (skip_env_mono _ _ _ _ _ _ L E1).
  destruct (scan_aux n _ _ _ _) as [i|] eqn:E2; [|now left]. rewrite (scan_aux_mono _ _ _ _ _ _ _ L E2).
  ifs. apply le_bind; [apply scan_dyn_mono; auto|]. intros d.
  apply le_bind; [apply do_rela_mono; auto|]. intros s1.
  apply le_bind; [apply do_rel_mono; auto|]. intros s2.
  apply le_bind; [apply do_relr_mono; auto|]. intros s3.
  unfold finish. cbv zeta. apply le_bind; [apply le_refl|]. intros s4.
  apply le_bind; [apply scan_phdrs_mono; auto|]. intros r. apply le_refl.
Qed.

(** Whatever a run of any length ends with is what every long enough run ends with. *)
Lemma relocate_any e s n N r : relocate n e s = r -> r <> Running -> relocate (Nat.max n N) e s = r.
Proof.
  intros H Hr. destruct (relocate_mono e s n (Nat.max n N) ltac:(lia)) as [E|E]; congruence.
Qed.
