(** Vocabulary of the theorems about floating-point conversions and the accuracy of numeric evaluation. *)
From Coq Require Import ZArith QArith Qreals Reals String Ascii List.
From Verif Require Import Base HugeModel RationalModel RationalSpec RealModel RealSpec PolyModel PolySpec ExprModel TextSpec.
Import ListNotations.
Open Scope Z_scope.

(** one unit of rounding error with p bits *)
Definition ulp (p : Z) : R := (/ IZR (2 ^ p))%R.
(** a and b are the same up to k factors between 1 - u and 1 / (1 - u) *)
Definition within (u : R) (k : nat) (a b : R) : Prop := (b * (1 - u) ^ k <= a /\ a * (1 - u) ^ k <= b)%R.

(** std::pow on doubles is accurate to 2 units, for any exponent *)
Definition pow_accurate (fpow : Q -> Q -> Q) : Prop :=
  forall x y, (0 < x)%Q -> (Rabs (Q2R (fpow x y) - Rpower (Q2R x) (Q2R y)) <= 2 * ulp 53 * Rpower (Q2R x) (Q2R y))%R.
(** std::pow on long doubles is accurate to m units, for integer exponents *)
Definition pow_within (p : Z) (m : nat) (lpow : Q -> Q -> Q) : Prop :=
  forall x y n, (0 < x)%Q -> (y == inject_Z n)%Q -> Z.abs n <= 2 ^ p -> within (ulp p) m (Q2R (lpow x y)) (powerRZ (Q2R x) n).

(** ** Expressions whose evaluation adds, multiplies and divides positive numbers only, and how many roundings that takes *)
Definition tame_term (p : Z) (t : term) : Prop :=
  rad (tco t) = Rat 1 1 /\ 0 < num (coe (tco t)) <= 2 ^ p /\ 0 < den (coe (tco t)) <= 2 ^ p /\ 0 < idx (tco t) /\
  Forall (fun q => den (snd q) = 1 /\ Z.abs (num (snd q)) <= 2 ^ p) (syms t).
Definition tame (p : Z) (f : frac) : Prop :=
  fnum f <> [] /\ fden f <> [] /\ Forall (tame_term p) (fnum f) /\ Forall (tame_term p) (fden f).
Definition term_steps (m : nat) (t : term) : nat := S (S ((m + 1) * length (syms t))).
Definition poly_steps (m : nat) (l : poly) : nat := length l + fold_right (fun t k => Nat.max (term_steps m t) k) 0%nat l.
Definition frac_steps (m : nat) (f : frac) : nat := S (poly_steps m (fnum f) + poly_steps m (fden f)).
Inductive steps (p : Z) (m : nat) : expr -> nat -> Prop :=
| steps_leaf f : tame p f -> steps p m (Leaf f) (frac_steps m f)
| steps_add l r a b : steps p m l a -> steps p m r b -> steps p m (Op "+" l r) (S (Nat.max a b))
| steps_mul l r a b : steps p m l a -> steps p m r b -> steps p m (Op "*" l r) (S (a + b))
| steps_div l r a b : steps p m l a -> steps p m r b -> steps p m (Op "/" l r) (S (a + b))
| steps_pow l n a : steps p m l a -> 0 < n <= 2 ^ p -> steps p m (Op "^" l (Leaf (leaf_int n))) (m + Z.to_nat n * a).
(** a rational number *)
Definition rational (v : R) : Prop := exists n d, d <> 0 /\ v = (IZR n / IZR d)%R.
