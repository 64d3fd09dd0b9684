(** Vocabulary of the theorems on Term::operator< and Huge::pow (C84, C85). *)
From Coq Require Import ZArith QArith Reals List.
From Verif Require Import Base RationalModel RationalSpec RealModel RealSpec PolyModel PolySpec.
Import ListNotations.
Open Scope Z_scope.

(** the degree of a term: the sum of the exponents of its symbols *)
Definition degree (t : term) : Q := fold_right (fun p s => (qv (snd p) + s)%Q) 0%Q (syms t).
(** of terms of one degree the one with the smaller coefficient; a term of degree not 0 before one of degree 0; nothing else *)
Definition less (a b : term) : Prop := (degree a == degree b)%Q /\ (rv (tco a) < rv (tco b))%R \/ ~ (degree a == 0)%Q /\ (degree b == 0)%Q.
(** irreflexive, asymmetric and transitive on the elements in D, for a comparison that need not return *)
Definition strict_partial_order {A} (D : A -> Prop) (lt : A -> A -> res bool) : Prop :=
  (forall a, D a -> lt a a <> Ok true) /\
  (forall a b, D a -> D b -> lt a b = Ok true -> lt b a <> Ok true) /\
  (forall a b c, D a -> D b -> D c -> lt a b = Ok true -> lt b c = Ok true -> lt a c <> Ok false).
