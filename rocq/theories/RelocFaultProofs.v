(** The faulting machine against the one of RelocModel.v. *)
From Verif Require Import Machine MachineFacts LayoutModel RelocModel RelocSpec RelocFacts RelocProofs RelocTop RelocMono RelocFault RelocFaultSpec.

(** ** It does what RelocModel does, or faults *)
Definition below {A} (x : fres A) (y : res A) : Prop := x = None \/ x = Some y.

Lemma below_some {A} (y : res A) : below (Some y) y.
Proof. now right. Qed.
Lemma below_none {A} (y : res A) : below None y.
Proof. now left. Qed.
Lemma below_bind {A B} (x : fres A) (y : res A) (f : A -> fres B) (h : A -> res B) :
  below x y -> (forall v, y = Ok v -> below (f v) (h v)) -> below (fbind x f) (rbind y h).
Proof.
  intros [ -> | -> ] H; [now left|]. destruct y; cbn [rbind fbind]; auto using @below_some.
Qed.

Ltac bifs := repeat match goal with
  | |- below (if ?b then _ else _) (if ?b then _ else _) => destruct b
  | |- below (if ?b then _ else None) _ => destruct b
  end; auto using @below_some, @below_none.

Section F.
Context (ac : access).

Lemma skip_below a m : forall n p, fskip_env ac n a m p = None \/ fskip_env ac n a m p = Some (skip_env n a m p).
Proof.
  induction n as [|n IH]; intros p; [now right|]. cbn [fskip_env skip_env].
  destruct (may_read _ _ _); [|now left]. destruct (_ =? 0); auto.
Qed.
Lemma aux_below a m : forall n p i, fscan_aux ac n a m p i = None \/ fscan_aux ac n a m p i = Some (scan_aux n a m p i).
Proof.
  induction n as [|n IH]; intros p i; [now right|]. cbn [fscan_aux scan_aux]. cbv zeta.
  destruct (_ && _); [|now left].
  repeat match goal with |- _ \/ (if ?b then _ else _) = _ => destruct b; auto end.
Qed.
Lemma read_below n a m p : fread_aux ac n a m p = None \/ fread_aux ac n a m p = Some (read_aux n a m p).
Proof.
  unfold fread_aux, read_aux. destruct (skip_below a m n p) as [ -> | -> ]; [now left|].
  destruct (skip_env _ _ _ _); [apply aux_below|now right].
Qed.
Lemma dyn_below e s b : forall n p d, below (fscan_dyn ac n e s b p d) (scan_dyn n e s b p d).
Proof.
  induction n as [|n IH]; intros p d; [now right|]. cbn [fscan_dyn scan_dyn]. cbv zeta.
  bifs.
Qed.
Lemma rela_below a b q : forall n p s, below (fdo_rela ac n a b p q s) (do_rela n a b p q s).
Proof. induction n as [|n IH]; intros p s; [now right|]. cbn [fdo_rela do_rela]. cbv zeta. bifs. Qed.
Lemma rel_below a b q : forall n p s, below (fdo_rel ac n a b p q s) (do_rel n a b p q s).
Proof. induction n as [|n IH]; intros p s; [now right|]. cbn [fdo_rel do_rel]. cbv zeta. bifs. Qed.
Lemma off_below a b p s : below (fadd_offset ac a b p s) (Ok (add_offset a b p s)).
Proof. unfold fadd_offset. bifs. Qed.
Lemma bits_below e b r : forall n w i s, below (fdo_bits ac n e b r w i s) (do_bits n e b r w i s).
Proof.
  induction n as [|n IH]; intros w i s; [now right|]. cbn [fdo_bits do_bits]. cbv zeta. bifs.
  apply below_bind; [apply below_some|]. intros v _.
  change (do_bits n e b r (shr_usize w 1) (i + 1) (add_offset (e_arch e) b v s))
    with (rbind (Ok (add_offset (e_arch e) b v s)) (fun s => do_bits n e b r (shr_usize w 1) (i + 1) s)).
  apply below_bind; [apply off_below|]. intros v' _. apply IH.
Qed.
Lemma relr_below e b q : forall n p r s, below (fdo_relr ac n e b p q r s) (do_relr n e b p q r s).
Proof.
  induction n as [|n IH]; intros p r s; [now right|]. cbn [fdo_relr do_relr]. cbv zeta. bifs.
  - apply below_bind; [apply below_some|]. intros v _.
    match goal with |- below (fbind _ ?f) (rbind (radd _ ?s1 _ _) ?h) =>
      change (below (fbind (fadd_offset ac (e_arch e) b v s) f)
        (rbind (Ok (add_offset (e_arch e) b v s)) (fun s => rbind (radd e s v (wsz (e_arch e))) (fun ra => do_relr n e b (padd (e_arch e) p (sizeof_relr (e_arch e))) q ra s)))) end.
    apply below_bind; [apply off_below|]. intros v' _. apply below_bind; [apply below_some|]. intros v2 _. apply IH.
  - apply below_bind; [apply bits_below|]. intros v _. apply below_bind; [apply below_some|]. intros v' _. apply IH.
Qed.
Lemma phdrs_below e b z q s : forall n p r, below (fscan_phdrs ac n e b z p q s r) (scan_phdrs n e b z p q s r).
Proof. induction n as [|n IH]; intros p r; [now right|]. cbn [fscan_phdrs scan_phdrs]. cbv zeta. bifs. Qed.
Lemma checks_below e i b s : below (fdebug_checks ac e i b s) (debug_checks e i b s).
Proof.
  unfold fdebug_checks, debug_checks, fload_static_start. bifs.
  destruct (auxv_base i =? 0); cbn [andb]; auto using @below_some.
  destruct (may_read _ _ _); cbn [fbind]; [|now left].
  destruct (_ =? auxv_entry i); apply below_some.
Qed.
Lemma finish_below n e i b s : below (ffinish ac n e i b s) (finish n e i b s).
Proof.
  unfold ffinish, finish. cbv zeta. apply below_bind; [apply checks_below|]. intros s1 _. bifs.
  apply below_bind; [apply phdrs_below|]. intros [v z] _. bifs.
Qed.

Lemma frelocate_below n e s : below (frelocate ac n e s) (relocate n e s).
Proof.
  unfold frelocate, relocate. cbv zeta.
  destruct (read_below n (e_arch e) (rm s) (e_envp e)) as [ -> | -> ]; [now left|].
  destruct (read_aux _ _ _ _) as [i|]; [|now right].
  unfold fload_static_start. destruct (may_read _ _ _); cbn [fbind]; [|now left].
  destruct (_ =? _); [now right|].
  unfold fcompute_base.
  assert (B : forall k : Z -> fres rst, forall k', (forall b, below (k b) (k' b)) ->
     below (fbind (if auxv_base i =? 0 then if may_read ac (e_ehdr e + o_e_entry) (word (e_arch e)) then Some (Ok (compute_base e i s)) else None else Some (Ok (auxv_base i))) k)
       (k' (compute_base e i s))).
  { intros k k' H. unfold compute_base. destruct (auxv_base i =? 0); cbn [fbind]; [|apply H].
    destruct (may_read _ _ _); cbn [fbind]; [apply H|now left]. }
  apply (B _ (fun base => do d <- scan_dyn n e s base (e_dynv e) (DI 0 0 0 0 0 0) in
      do s <- do_rela n (e_arch e) base (rela_ptr d) (padd (e_arch e) (rela_ptr d) (rela_sz d)) s in
      do s <- do_rel n (e_arch e) base (rel_ptr d) (padd (e_arch e) (rel_ptr d) (rel_sz d)) s in
      do s <- do_relr n e base (relr_ptr d) (padd (e_arch e) (relr_ptr d) (relr_sz d)) 0 s in
      finish n e i base s)).
  intros b. apply below_bind; [apply dyn_below|]. intros d _.
  apply below_bind; [apply rela_below|]. intros s1 _.
  apply below_bind; [apply rel_below|]. intros s2 _.
  apply below_bind; [apply relr_below|]. intros s3 _. apply finish_below.
Qed.

(** ** More fuel never changes a result *)
Definition fle {A} (x y : fres A) : Prop := x = Some Running \/ x = y.
Lemma fle_refl {A} (x : fres A) : fle x x.
Proof. now right. Qed.
Lemma fle_bind {A B} (x y : fres A) (f h : A -> fres B) :
  fle x y -> (forall v, fle (f v) (h v)) -> fle (fbind x f) (fbind y h).
Proof. intros [ -> | -> ] H; [now left|]. destruct y as [[]|]; cbn [fbind]; auto using @fle_refl. Qed.

Ltac fifs := repeat match goal with |- fle (if ?b then _ else _) _ => destruct b end; auto using @fle_refl.

Lemma fskip_mono a m : forall n n' p, (n <= n')%nat -> fskip_env ac n a m p = Some None \/ fskip_env ac n a m p = fskip_env ac n' a m p.
Proof.
  induction n as [|n IH]; intros n' p L; [now left|]. destruct n' as [|n']; [lia|]. cbn [fskip_env].
  destruct (may_read _ _ _); [|now right]. destruct (_ =? 0); [now right|]. apply IH; lia.
Qed.
Lemma faux_mono a m : forall n n' p i, (n <= n')%nat -> fscan_aux ac n a m p i = Some None \/ fscan_aux ac n a m p i = fscan_aux ac n' a m p i.
Proof.
  induction n as [|n IH]; intros n' p i L; [now left|]. destruct n' as [|n']; [lia|]. cbn [fscan_aux]. cbv zeta.
  destruct (_ && _); [|now right].
  repeat match goal with |- (if ?b then _ else _) = _ \/ _ => destruct b end; try (now right); apply IH; lia.
Qed.
Lemma fdyn_mono e s b : forall n n' p d, (n <= n')%nat -> fle (fscan_dyn ac n e s b p d) (fscan_dyn ac n' e s b p d).
Proof.
  induction n as [|n IH]; intros n' p d L; [now left|]. destruct n' as [|n']; [lia|].
  cbn [fscan_dyn]. cbv zeta. fifs; apply IH; lia.
Qed.
Lemma frela_mono a b q : forall n n' p s, (n <= n')%nat -> fle (fdo_rela ac n a b p q s) (fdo_rela ac n' a b p q s).
Proof.
  induction n as [|n IH]; intros n' p s L; [now left|]. destruct n' as [|n']; [lia|].
  cbn [fdo_rela]. cbv zeta. fifs; apply IH; lia.
Qed.
Lemma frel_mono a b q : forall n n' p s, (n <= n')%nat -> fle (fdo_rel ac n a b p q s) (fdo_rel ac n' a b p q s).
Proof.
  induction n as [|n IH]; intros n' p s L; [now left|]. destruct n' as [|n']; [lia|].
  cbn [fdo_rel]. cbv zeta. fifs; apply IH; lia.
Qed.
Lemma fbits_mono e b r : forall n n' w i s, (n <= n')%nat -> fle (fdo_bits ac n e b r w i s) (fdo_bits ac n' e b r w i s).
Proof.
  induction n as [|n IH]; intros n' w i s L; [now left|]. destruct n' as [|n']; [lia|].
  cbn [fdo_bits]. cbv zeta. fifs; [|apply IH; lia]. apply fle_bind; [apply fle_refl|]. intros v.
  apply fle_bind; [apply fle_refl|]. intros v'. apply IH. lia.
Qed.
Lemma frelr_mono e b q : forall n n' p r s, (n <= n')%nat -> fle (fdo_relr ac n e b p q r s) (fdo_relr ac n' e b p q r s).
Proof.
  induction n as [|n IH]; intros n' p r s L; [now left|]. destruct n' as [|n']; [lia|].
  cbn [fdo_relr]. cbv zeta. fifs.
  - apply fle_bind; [apply fle_refl|]. intros v. apply fle_bind; [apply fle_refl|]. intros v'.
    apply fle_bind; [apply fle_refl|]. intros v2. apply IH. lia.
  - apply fle_bind; [apply fbits_mono; lia|]. intros v. apply fle_bind; [apply fle_refl|]. intros v'. apply IH. lia.
Qed.
Lemma fphdrs_mono e b z q s : forall n n' p r, (n <= n')%nat -> fle (fscan_phdrs ac n e b z p q s r) (fscan_phdrs ac n' e b z p q s r).
Proof.
  induction n as [|n IH]; intros n' p r L; [now left|]. destruct n' as [|n']; [lia|].
  cbn [fscan_phdrs]. cbv zeta. fifs; apply IH; lia.
Qed.
Lemma frelocate_mono e s n n' : (n <= n')%nat -> fle (frelocate ac n e s) (frelocate ac n' e s).
Proof.
  intros L. unfold frelocate, fread_aux. cbv zeta.
  destruct (fskip_mono (e_arch e) (rm s) n n' (e_envp e) L) as [E|E]; rewrite E; [now left|].
  destruct (fskip_env ac n' _ _ _) as [[p|]|]; [|now right|now right].
  destruct (faux_mono (e_arch e) (rm s) n n' p (AI 0 0 0) L) as [E2|E2]; rewrite E2; [now left|].
  destruct (fscan_aux ac n' _ _ _ _) as [[i|]|]; [|now right|now right].
  apply fle_bind; [apply fle_refl|]. intros st. fifs.
  apply fle_bind; [apply fle_refl|]. intros b.
  apply fle_bind; [apply fdyn_mono; auto|]. intros d.
  apply fle_bind; [apply frela_mono; auto|]. intros s1.
  apply fle_bind; [apply frel_mono; auto|]. intros s2.
  apply fle_bind; [apply frelr_mono; auto|]. intros s3.
  unfold ffinish. cbv zeta. apply fle_bind; [apply fle_refl|]. intros s4.
  fifs. apply fle_bind; [apply fphdrs_mono; auto|]. intros r. apply fle_refl.
Qed.

(** ** Every store was permitted *)
Definition allowed (a : arch) (s : rst) : Prop :=
  forall p v, In (p, v) (stores s) -> can (ac_w ac) p (wsz a).

(** [P] of the value of a run that goes on, [Q] of the state of one that was
    stopped. *)
Definition fine {A} (P : A -> Prop) (Q : rst -> Prop) (r : fres A) : Prop :=
  match r with
  | Some (Ok x) => P x
  | Some (Trapped s) | Some (Panicked s) => Q s
  | _ => True
  end.

Lemma fine_bind {A B} (P : A -> Prop) (P' : B -> Prop) Q (x : fres A) f :
  fine P Q x -> (forall v, P v -> fine P' Q (f v)) -> fine P' Q (fbind x f).
Proof. intros Hx Hf. destruct x as [[x|x|x|]|]; cbn [fbind fine] in *; auto. Qed.

Lemma may_write_can s p n : may_write ac s p n = true -> can (ac_w ac) p (Z.of_nat n).
Proof.
  intros H x Hx. unfold may_write in H. rewrite forallb_forall in H.
  specialize (H (Z.to_nat (x - p))). rewrite Z2Nat.id in H by lia.
  replace (p + (x - p)) with x in H by lia.
  apply proj1 with (B := negb (ro s x) = true). apply andb_prop. apply H. apply in_seq. lia.
Qed.

Lemma allowed_store a p v s : allowed a s -> may_write ac s p (word a) = true -> allowed a (relocation_store a p v s).
Proof.
  intros H W q u I. cbn [stores relocation_store] in I. destruct I as [I|I]; [|eapply H; eauto].
  injection I as -> ->. rewrite <- wsz_word. eapply may_write_can; eauto.
Qed.

Ltac nofine := match goal with
  | |- fine _ _ (Some _) => cbn [fine]; (assumption || exact Logic.I)
  | |- fine _ _ None => exact Logic.I
  end.
Notation keeps_allowed a r := (fine (allowed a) (allowed a) r).

Lemma rela_allowed a b q : forall n p s, allowed a s -> keeps_allowed a (fdo_rela ac n a b p q s).
Proof.
  induction n as [|n IH]; intros p s H; cbn [fdo_rela]; cbv zeta; [nofine|].
  destruct (_ =? q); [nofine|]. destruct (_ && _); [|nofine]. destruct (_ =? _); [|nofine].
  destruct (may_read _ _ _); [|nofine]. destruct (may_write _ _ _ _) eqn:W; [|nofine].
  apply IH. apply allowed_store; auto.
Qed.
Lemma rel_allowed a b q : forall n p s, allowed a s -> keeps_allowed a (fdo_rel ac n a b p q s).
Proof.
  induction n as [|n IH]; intros p s H; cbn [fdo_rel]; cbv zeta; [nofine|].
  destruct (_ =? q); [nofine|]. destruct (_ && _); [|nofine]. destruct (_ =? _); [|nofine].
  destruct (may_read _ _ _); [|nofine]. destruct (may_write _ _ _ _) eqn:W; [|nofine].
  apply IH. apply allowed_store; auto.
Qed.
Lemma off_allowed a b p s : allowed a s -> keeps_allowed a (fadd_offset ac a b p s).
Proof.
  intros H. unfold fadd_offset. destruct (may_read _ _ _); [|nofine].
  destruct (may_write _ _ _ _) eqn:W; [|nofine].
  apply allowed_store; auto.
Qed.
Lemma radd_fine (Q : rst -> Prop) e s x y : Q s -> fine (fun _ => True) Q (Some (radd e s x y)).
Proof. intros H. unfold radd. destruct (_ <? _); [nofine|]. destruct (e_debug e); nofine. Qed.
Lemma dyn_fine (Q : rst -> Prop) e s b : Q s -> forall n p d, fine (fun _ => True) Q (fscan_dyn ac n e s b p d).
Proof.
  intros H. induction n as [|n IH]; intros p d; cbn [fscan_dyn]; cbv zeta; [nofine|].
  repeat match goal with |- fine _ _ (if ?b then _ else _) => destruct b end; auto; nofine.
Qed.
Lemma phdrs_fine (Q : rst -> Prop) e b z q s : Q s -> forall n p r, fine (fun _ => True) Q (fscan_phdrs ac n e b z p q s r).
Proof.
  intros H. induction n as [|n IH]; intros p r; cbn [fscan_phdrs]; cbv zeta; [nofine|].
  repeat match goal with |- fine _ _ (if ?b then _ else _) => destruct b end; auto; nofine.
Qed.
Lemma bits_allowed e b r : forall n w i s, allowed (e_arch e) s -> keeps_allowed (e_arch e) (fdo_bits ac n e b r w i s).
Proof.
  induction n as [|n IH]; intros w i s H; cbn [fdo_bits]; cbv zeta; [nofine|].
  destruct (_ =? 0); [nofine|]. destruct (negb _); [|apply IH; auto].
  eapply fine_bind; [apply radd_fine; exact H|]. intros v _. eapply fine_bind; [apply off_allowed; auto|]. intros s' H'. apply IH; auto.
Qed.
Lemma relr_allowed e b q : forall n p r s, allowed (e_arch e) s -> keeps_allowed (e_arch e) (fdo_relr ac n e b p q r s).
Proof.
  induction n as [|n IH]; intros p r s H; cbn [fdo_relr]; cbv zeta; [nofine|].
  destruct (_ =? q); [nofine|]. destruct (may_read _ _ _); [|nofine]. destruct (_ =? 0).
  - eapply fine_bind; [apply radd_fine; exact H|]. intros v _. eapply fine_bind; [apply off_allowed; auto|]. intros s' H'.
    eapply fine_bind; [apply radd_fine; exact H'|]. intros v2 _. apply IH; auto.
  - eapply fine_bind; [apply bits_allowed; auto|]. intros s' H'.
    eapply fine_bind; [apply radd_fine; exact H'|]. intros v2 _. apply IH; auto.
Qed.
Lemma finish_allowed n e i b s : allowed (e_arch e) s -> keeps_allowed (e_arch e) (ffinish ac n e i b s).
Proof.
  intros H. unfold ffinish. cbv zeta.
  assert (C : keeps_allowed (e_arch e) (fdebug_checks ac e i b s)).
  { unfold fdebug_checks, fload_static_start. destruct (e_debug e); [|nofine]. destruct (negb _); [nofine|]. destruct (negb _); [nofine|].
    destruct (_ =? 0); [|nofine]. destruct (may_read _ _ _); cbn [fbind]; [|nofine]. destruct (_ =? _); nofine. }
  eapply fine_bind; [exact C|]. clear s H C. intros s H. destruct (_ && _); [|nofine].
  eapply fine_bind; [apply phdrs_fine; exact H|]. intros [v z] _. destruct (negb _); [|nofine].
  unfold relocation_mprotect_readonly. cbv zeta. destruct (negb _); intros p u I; cbn [stores] in I; eapply H; eauto.
Qed.
Lemma frelocate_allowed n e s : allowed (e_arch e) s -> keeps_allowed (e_arch e) (frelocate ac n e s).
Proof.
  intros H. unfold frelocate. cbv zeta. destruct (fread_aux _ _ _ _ _) as [[i|]|]; [|nofine|nofine].
  unfold fload_static_start. destruct (may_read _ _ _); cbn [fbind]; [|nofine]. destruct (_ =? _); [nofine|].
  apply fine_bind with (P := fun _ => True).
  { unfold fcompute_base. destruct (_ =? 0); [destruct (may_read _ _ _)|]; nofine. }
  intros b _.
  eapply fine_bind; [apply dyn_fine; exact H|]. intros d _.
  eapply fine_bind; [apply rela_allowed; auto|]. intros s1 H1.
  eapply fine_bind; [apply rel_allowed; auto|]. intros s2 H2.
  eapply fine_bind; [apply relr_allowed; auto|]. intros s3 H3.
  apply finish_allowed; auto.
Qed.
End F.
