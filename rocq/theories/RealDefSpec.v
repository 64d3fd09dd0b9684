(** Vocabulary of the theorems on when Real operations return. *)
From Coq Require Import ZArith List.
From Verif Require Import Base RationalModel RealModel.
Open Scope Z_scope.

(** the factorisation of every number up to N ends *)
Definition fac_ready (E : env) (N : Z) : Prop := forall k, 1 <= k <= N -> exists l, efac E k = Ok l.
(** n is small enough for double and for a w-bit integer *)
Definition fits (w n : Z) : Prop := n <= 2 ^ 53 /\ n <= 2 ^ (w - 2).
(** c * (p/q)^(1/i) can be normalised: the radicand after clearing its denominator, p q^(i-1), and the power q^i that clears it are small,
    and so are the numerator of c times the radicand and the denominator of c times q *)
Definition room (w : Z) (c r : rat) (i : Z) : Prop :=
  fits w (num r * den r ^ (i - 1)) /\ fits w (den r ^ i) /\ Z.abs (num c) * (num r * den r ^ (i - 1)) < 2 ^ (w - 1) /\ Z.abs (den c) * den r < 2 ^ (w - 1).
