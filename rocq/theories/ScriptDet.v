(** A program of ScriptModel.v has at most one meaning (for C71). *)
From Coq Require Import ZArith List Bool.
From Verif Require Import DtorsModel ScriptModel ScriptSpec.
Import ListNotations.

Scheme runs_m := Minimality for runs Sort Prop
  with thread_m := Minimality for thread Sort Prop
  with drain_m := Minimality for drain Sort Prop
  with exits_m := Minimality for exits Sort Prop
  with pops_m := Minimality for pops Sort Prop
  with finis_m := Minimality for finis Sort Prop.
Combined Scheme script_ind from runs_m, thread_m, drain_m, exits_m, pops_m, finis_m.

Section Det.
Context {D : Type}.
Variables (c : dcfg) (fini : nat -> prog D).
Lemma det_all : forall h,
  (forall p u os r, runs c fini h p u os r -> forall os' r', runs c fini h p u os' r' -> os = os' /\ r = r') /\
  (forall p u os r, thread c fini h p u os r -> forall os' r', thread c fini h p u os' r' -> os = os' /\ r = r') /\
  (forall v u os r, drain c fini h v u os r -> forall os' r', drain c fini h v u os' r' -> os = os' /\ r = r') /\
  (forall v u os r, exits c fini h v u os r -> forall os' r', exits c fini h v u os' r' -> os = os' /\ r = r') /\
  (forall v u os r, pops c fini h v u os r -> forall os' r', pops c fini h v u os' r' -> os = os' /\ r = r') /\
  (forall v n u os r, finis c fini h v n u os r -> forall os' r', finis c fini h v n u os' r' -> os = os' /\ r = r').
Proof.
  apply (script_ind D c fini
    (fun h p u os r => forall os' r', runs c fini h p u os' r' -> os = os' /\ r = r')
    (fun h p u os r => forall os' r', thread c fini h p u os' r' -> os = os' /\ r = r')
    (fun h v u os r => forall os' r', drain c fini h v u os' r' -> os = os' /\ r = r')
    (fun h v u os r => forall os' r', exits c fini h v u os' r' -> os = os' /\ r = r')
    (fun h v u os r => forall os' r', pops c fini h v u os' r' -> os = os' /\ r = r')
    (fun h v n u os r => forall os' r', finis c fini h v n u os' r' -> os = os' /\ r = r')); intros.
  all: repeat match goal with IH : forall os' r', @?P os' r' -> ?a = os' /\ ?b = r' |- _ =>
      let T := eval cbv beta in (P a b) in match goal with H : T |- _ => clear H end end.
  all: match goal with H : _ _ _ _ _ _ ?o ?r |- _ = ?o /\ _ = ?r => inversion H; subst | H : _ _ _ _ _ _ _ ?o ?r |- _ = ?o /\ _ = ?r => inversion H; subst end; try congruence; auto.
  all: repeat match goal with
    | A : Back _ _ = Back _ _ |- _ => injection A; intros; subst; clear A
    | A : End _ = End _ |- _ => injection A; intros; subst; clear A
    | A : Back _ _ = End _ |- _ => discriminate A
    | A : End _ = Back _ _ |- _ => discriminate A
    | A : ?f ?x = _, B : ?f ?x = _ |- _ => rewrite A in B; (injection B as <- <- || injection B as <- || discriminate B)
    | IH : forall os' r', _ -> _ = os' /\ _ = r' |- _ =>
        match goal with H : _ |- _ => let X := fresh in let Y := fresh in destruct (IH _ _ H) as [X Y]; clear IH; try discriminate Y; subst end
    end; auto.
Qed.
Lemma means_det main d0 os o os' o' : means c fini main d0 os o -> means c fini main d0 os' o' -> os = os' /\ o = o'.
Proof.
  destruct (det_all false) as (A & _ & _ & B & _). intros H H'. inversion H; subst; inversion H'; subst.
  - destruct (A _ _ _ _ H0 _ _ H2) as [<- [= <- <-]]. destruct (B _ _ _ _ H1 _ _ H3) as [<- <-]. auto.
  - destruct (A _ _ _ _ H0 _ _ H2) as [_ X]. discriminate.
  - destruct (A _ _ _ _ H0 _ _ H1) as [_ X]. discriminate.
  - destruct (A _ _ _ _ H0 _ _ H1) as [<- [= <-]]. auto.
Qed.
End Det.
