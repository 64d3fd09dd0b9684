(** Vocabulary of the termination theorem of factorize. *)
From Coq Require Import ZArith Znumtheory.
From Verif Require Import Base FactorizeModel.
Open Scope Z_scope.

(** a number in which every draw of a certain kind ends the search for a divisor of n: c shares a factor with n and n does not divide c^2;
    or n is the square of a prime p, and c + 2 is a multiple of p and not of n (for 25: c is 2, 12, 17 or 22) *)
Definition lucky (n c : Z) : Prop :=
  (1 < Z.gcd c n /\ ~ (n | c * c)) \/
  (exists p, prime p /\ p <> 5 /\ n = p * p /\ (p | c + 2) /\ ~ (n | c + 2)) \/
  (n = 25 /\ (c = 2 \/ c = 12 \/ c = 17 \/ c = 22)).

(** a source of random numbers that is lucky again and again, for every composite number *)
Definition fair (rnd : nat -> Z) : Prop :=
  forall n k, 4 < n -> ~ prime n -> exists k' c, (k <= k')%nat /\ random_digit rnd k' 1 (n - 2) = Ok c /\ lucky n c.
(** for instance one in which every value of every range comes up again and again (independent uniform draws: with probability one) *)
Definition all_values_recur (rnd : nat -> Z) : Prop :=
  forall a b v k, a <= v <= b -> exists k', (k <= k')%nat /\ random_digit rnd k' a b = Ok v.
