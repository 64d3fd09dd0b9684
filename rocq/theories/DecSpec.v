(** Vocabulary of the theorems about decimal literals. *)
From Coq Require Import ZArith QArith Qpower Ascii List.
From Verif Require Import Base RationalModel DecModel.
Import ListNotations.
Open Scope Z_scope.

(** the value of a row of decimal digits *)
Definition is_dec_digit (c : ascii) : Prop := 48 <= Z.of_N (N_of_ascii c) <= 57.
Fixpoint row_value (s : list ascii) : Z :=
  match s with [] => 0 | c :: s' => (Z.of_N (N_of_ascii c) - 48) * 10 ^ Z.of_nat (length s') + row_value s' end.
(** "i.f" denotes i + f / 10^(length of f); at least one digit *)
Definition literal_value (i f : list ascii) : Q := (inject_Z (row_value i) + (row_value f # pow10 (length f)))%Q.
Definition decimal_literal (s i f : list ascii) : Prop :=
  s = i ++ ["."%char] ++ f /\ Forall is_dec_digit (i ++ f) /\ i ++ f <> [].
(** the same number with as few decimal places as possible: m / 10^k *)
Definition shortest_decimal (x : Q) (m : Z) (k : nat) : Prop :=
  0 <= m /\ (x == m # pow10 k)%Q /\ (k = 0%nat \/ m mod 10 <> 0).

(** formats with enough bits and exponents for their own max_digits10 *)
Definition good_format (F : ffmt) : Prop :=
  24 <= fprec F /\ fprec F < femax F /\ femin F <= - 4 * Z.of_nat (fdig F) - 1 /\ 5 ^ (Z.of_nat (fdig F) + 1) <= 2 ^ fprec F.

(** numbers with at most p significant bits *)
Definition has_bits (p : Z) (y : Q) : Prop := exists n s, Z.abs n <= 2 ^ p /\ (y == inject_Z n * Qpower 2 s)%Q.
