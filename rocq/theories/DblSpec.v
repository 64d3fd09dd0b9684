(** Vocabulary of the theorems about the double arithmetic inside Real. *)
From Coq Require Import ZArith QArith Qabs List.
From Verif Require Import Base RationalModel RealModel RealSpec DecModel DecSpec DblModel.
Import ListNotations.
Open Scope Z_scope.

(** the integers a double can hold: at most 53 significant bits *)
Definition double_int (z : Z) : Prop := exists m k, 0 <= k /\ Z.abs m <= 2 ^ 53 /\ z = m * 2 ^ k.
(** std::pow on integers a double holds: the result is a double, it is the power itself if that is a double, and it is off by one unit in the last
    place at most (glibc states less) *)
Definition pow_faithful (f : Q -> Q -> Q) : Prop :=
  forall b e x y, (x == inject_Z b)%Q -> (y == inject_Z e)%Q -> Z.abs b <= 2 ^ 53 -> 0 <= e <= 2 ^ 53 ->
    has_bits 53 (f x y) /\ (double_int (b ^ e) -> f x y == inject_Z (b ^ e))%Q /\ (Qabs (f x y - inject_Z (b ^ e)) * inject_Z (2 ^ 52) <= inject_Z (Z.abs (b ^ e)))%Q.
(** long double holds every double *)
Definition good_double (X : denv) : Prop := pow_faithful (fpow X) /\ 53 <= fprec (fld X).

(** r' does what r does wherever r says what happens *)
Definition agrees {A} (r r' : res A) : Prop := match r with Ok x => r' = Ok x | Throw m => r' = Throw m | _ => True end.

(** the history of Real operations [e] with double arithmetic *)
Fixpoint lrun_d (X : denv) (e : rlexp) : res real :=
  match e with
  | LMake c r i => real_make_d X c r i
  | LAdd a b => x <- lrun_d X a ;; y <- lrun_d X b ;; real_add_d X x y
  | LSub a b => x <- lrun_d X a ;; y <- lrun_d X b ;; real_sub_d X x y
  | LMul a b => x <- lrun_d X a ;; y <- lrun_d X b ;; real_mul_d X x y
  | LDiv a b => x <- lrun_d X a ;; y <- lrun_d X b ;; real_div_d X x y
  | LNeg a => x <- lrun_d X a ;; real_negate_d X x
  | LInv a => x <- lrun_d X a ;; real_inverse (ew (de X)) x
  | LPow a e => x <- lrun_d X a ;; real_pow_d X x (Rat e 1)
  end.
(** a correctly rounded power of integers: one function that is faithful *)
Definition nearest_pow (x y : Q) : Q := rnd 53 (inject_Z (ftrunc x ^ ftrunc y)).
