(** Vocabulary of the Real theorems: the real number a [real] denotes, well-formedness, the canonical form. *)
From Coq Require Import ZArith Znumtheory QArith Qreals Reals String List.
From Verif Require Import Base FactorizeModel RationalModel RationalSpec RealModel.
Open Scope Z_scope.

(** coe * radicand^(1/index) *)
Definition rv (x : real) : R := (Q2R (qv (coe x)) * Rpower (Q2R (qv (rad x))) (/ IZR (idx x)))%R.

(** a positive radicand, a positive index of type IndexT, nonzero denominators *)
Definition wf (w : Z) (x : real) : Prop :=
  1 <= idx x < 2 ^ w /\ 0 < num (rad x) /\ 0 < den (rad x) /\ den (coe x) <> 0.

(** the normal form: an integer radicand without index-th power factors that is not itself a d-th power for a divisor d > 1 of the index *)
Definition canonical (x : real) : Prop :=
  exists m, rad x = Rat m 1 /\ 1 <= m /\ 1 <= idx x /\ den (coe x) <> 0 /\
    (forall p, prime p -> ~ (p ^ idx x | m)) /\
    (forall d k, 1 < d -> (d | idx x) -> m <> k ^ d) /\
    (num (coe x) = 0 -> idx x = 1).

(** every multiset [efac] gives is one the modelled factorize can give *)
Definition fac_sound (E : env) : Prop :=
  forall n l, efac E n = Ok l -> exists i128 rnd fuel k k', factorize (ew E) i128 rnd fuel n nil k = Ok (l, k').

(** only primes come out of the factorisation (true below 9006401: C20_prime_factorization) *)
Definition fac_exact (E : env) : Prop := forall n l, efac E n = Ok l -> 1 <= n -> List.Forall prime l.
(** [wf], and a radicand that is 1 when the index is 1: holds for everything the operations return *)
Definition good (w : Z) (x : real) : Prop := wf w x /\ (idx x = 1 -> num (rad x) = den (rad x)).

(** the environment given by the modelled factorize on numbers below 9006401; outside nothing is claimed *)
Definition std_env (w : Z) (i128 : bool) (rnd : nat -> Z) (fuel : nat) (junk : Z) : env :=
  Env w (fun n => if n <? 9006401 then '(l, _) <- factorize w i128 rnd fuel n nil 0 ;; Ok l else Ub "range"%string) junk.

(** histories of Real operations *)
Inductive rlexp :=
| LMake (c r : rat) (i : Z)
| LAdd (a b : rlexp) | LSub (a b : rlexp) | LMul (a b : rlexp) | LDiv (a b : rlexp) | LNeg (a : rlexp) | LInv (a : rlexp) | LPow (a : rlexp) (e : Z).
Fixpoint lrun (E : env) (e : rlexp) : res real :=
  match e with
  | LMake c r i => real_make E c r i
  | LAdd a b => x <- lrun E a ;; y <- lrun E b ;; real_add E x y
  | LSub a b => x <- lrun E a ;; y <- lrun E b ;; real_sub E x y
  | LMul a b => x <- lrun E a ;; y <- lrun E b ;; real_mul E x y
  | LDiv a b => x <- lrun E a ;; y <- lrun E b ;; real_div E x y
  | LNeg a => x <- lrun E a ;; real_negate E x
  | LInv a => x <- lrun E a ;; real_inverse (ew E) x
  | LPow a e => x <- lrun E a ;; real_pow E x (Rat e 1)
  end.
Fixpoint ldenotes (e : rlexp) : R :=
  match e with
  | LMake c r i => rv (Real i r c)
  | LAdd a b => ldenotes a + ldenotes b
  | LSub a b => ldenotes a - ldenotes b
  | LMul a b => ldenotes a * ldenotes b
  | LDiv a b => ldenotes a / ldenotes b
  | LNeg a => - ldenotes a
  | LInv a => / ldenotes a
  | LPow a e => powerRZ (ldenotes a) e
  end%R.
(** the numbers put in are well-formed: positive radicand, positive index, nonzero denominators *)
Fixpoint lwf (w : Z) (e : rlexp) : Prop :=
  match e with
  | LMake c r i => wf w (Real i r c)
  | LAdd a b | LSub a b | LMul a b | LDiv a b => lwf w a /\ lwf w b
  | LNeg a | LInv a | LPow a _ => lwf w a
  end.
(** histories whose every step ends in a normalisation *)
Fixpoint lnormal (e : rlexp) : Prop :=
  match e with
  | LMake _ _ _ => True
  | LAdd a b | LSub a b | LMul a b | LDiv a b => lnormal a /\ lnormal b
  | LNeg a => lnormal a
  | LInv _ | LPow _ _ => False
  end.
(** histories of positive denominators and without division (the reciprocal of a negative number has a negative denominator) *)
Fixpoint lpositive (e : rlexp) : Prop :=
  match e with
  | LMake c _ _ => 0 < den c
  | LAdd a b | LSub a b | LMul a b => lpositive a /\ lpositive b
  | LNeg a => lpositive a
  | LDiv _ _ | LInv _ | LPow _ _ => False
  end.
(** a factorisation that returns, runs out of fuel or is undefined, but does not throw *)
Definition fac_quiet (E : env) : Prop := forall n m, efac E n <> Throw m.
(** the value of the radical part alone *)
Definition radical (x : real) : R := Rpower (Q2R (qv (rad x))) (/ IZR (idx x)).
(** numerator and denominator are w-bit integers *)
Definition in_w (w : Z) (r : rat) : Prop := - 2 ^ (w - 1) <= num r < 2 ^ (w - 1) /\ - 2 ^ (w - 1) <= den r < 2 ^ (w - 1).
(** the same machine, another value behind the iterator of an empty map *)
Definition with_junk (E : env) (j : Z) : env := Env (ew E) (efac E) j.
