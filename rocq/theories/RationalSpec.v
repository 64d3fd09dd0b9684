(** Vocabulary of the Rational theorems: the rational number a [rat] denotes, and what is assumed of the machine pow. *)
From Coq Require Import ZArith QArith Ascii List.
From Verif Require Import Base RationalModel.
Open Scope Z_scope.

(** the number num/den *)
Definition qv (r : rat) : Q := (inject_Z (num r) / inject_Z (den r))%Q.
Definition lowest_terms (r : rat) : Prop := Z.gcd (num r) (den r) = 1.

(** [fp b n d] = static_cast<T>(std::pow(double(b), double(n)/double(d))).  Assumed: when the exponent n/d is a non-negative integer e
    and b, n, d and b^e are exactly representable as doubles (magnitude up to 2^53), the result is exact. *)
Definition pow_exact (w : Z) (fp : Z -> Z -> Z -> res Z) : Prop :=
  forall b e d, d <> 0 -> 0 <= e -> Z.abs b <= 2 ^ 53 -> Z.abs (e * d) <= 2 ^ 53 -> Z.abs d <= 2 ^ 53 ->
    Z.abs (b ^ e) <= 2 ^ 53 -> - 2 ^ (w - 1) <= b ^ e < 2 ^ (w - 1) ->
    fp b (e * d) d = Ok (b ^ e).
(** a negative integer exponent of |b| >= 2 gives a double strictly between -1 and 1, which the cast truncates to 0; pow(1, e) is 1 *)
Definition pow_truncates (fp : Z -> Z -> Z -> res Z) : Prop :=
  (forall b e, 2 <= Z.abs b -> e < 0 -> fp b e 1 = Ok 0) /\ (forall n d, fp 1 n d = Ok 1).

(** the three ways an operation can end *)
Definition ok_or_ub {A} (x : res A) : Prop := (exists a, x = Ok a) \/ (exists u, x = Ub u).
Definition ok_ub_div {A} (x : res A) : Prop := ok_or_ub x \/ x = Throw division_by_zero.
(** components of magnitude at most B *)
Definition small (B : Z) (r : rat) : Prop := Z.abs (num r) <= B /\ Z.abs (den r) <= B.

(** histories: expressions over the public operations ([fd]: what reading a decimal text gives) *)
Inductive rexp :=
| EMake (n d : Z) | EInt (n : Z) | EText (s : list ascii)
| EAdd (a b : rexp) | ESub (a b : rexp) | EMul (a b : rexp) | EDiv (a b : rexp) | ENeg (a : rexp) | EInv (a : rexp).
Fixpoint run (w : Z) (fd : list ascii -> res rat) (e : rexp) : res rat :=
  match e with
  | EMake n d => rat_make w n d
  | EInt n => rat_of_int w n
  | EText s => rat_of_string w fd s
  | EAdd a b => x <- run w fd a ;; y <- run w fd b ;; rat_add w x y
  | ESub a b => x <- run w fd a ;; y <- run w fd b ;; rat_sub w x y
  | EMul a b => x <- run w fd a ;; y <- run w fd b ;; rat_mul w x y
  | EDiv a b => x <- run w fd a ;; y <- run w fd b ;; rat_div w x y
  | ENeg a => x <- run w fd a ;; rat_negate w x
  | EInv a => x <- run w fd a ;; rat_inverse w x
  end.
(** what the expression denotes; a text denotes what reading it gives *)
Fixpoint denotes (w : Z) (fd : list ascii -> res rat) (e : rexp) : Q :=
  match e with
  | EMake n d => (inject_Z n / inject_Z d)%Q
  | EInt n => inject_Z n
  | EText s => match rat_of_string w fd s with Ok r => qv r | _ => 0%Q end
  | EAdd a b => (denotes w fd a + denotes w fd b)%Q
  | ESub a b => (denotes w fd a - denotes w fd b)%Q
  | EMul a b => (denotes w fd a * denotes w fd b)%Q
  | EDiv a b => (denotes w fd a / denotes w fd b)%Q
  | ENeg a => (- denotes w fd a)%Q
  | EInv a => (/ denotes w fd a)%Q
  end.
Fixpoint no_text (e : rexp) : Prop :=
  match e with
  | EMake _ _ | EInt _ => True | EText _ => False
  | EAdd a b | ESub a b | EMul a b | EDiv a b => no_text a /\ no_text b
  | ENeg a | EInv a => no_text a
  end.
(** without division, inversion and text, denominators given positive stay positive *)
Fixpoint positive_only (e : rexp) : Prop :=
  match e with
  | EMake _ d => 0 < d | EInt _ => True | EText _ => False
  | EAdd a b | ESub a b | EMul a b => positive_only a /\ positive_only b
  | EDiv _ _ | EInv _ => False
  | ENeg a => positive_only a
  end.
