(** Model of the conversions to floating-point and integer types: Huge::to<U> for a floating-point U and Huge::pow (include/symxx/huge.hpp),
    Rational::to<U> and Real::to<U> (include/symxx/num.hpp), and of long double as the type the command line evaluates with.
    Floating-point numbers are as in DecModel.v: exact values in Q and rounding [rnd p] to p bits, ties to even, with unbounded exponents (so
    overflow to infinity and underflow are left out) and without infinities: a division by zero is 0 here, and no theorem divides by zero.
    std::pow is a parameter. *)
From Coq Require Import ZArith QArith Qabs String Ascii Lia Bool List.
From Verif Require Import Base AdapterModel HugeModel RationalModel RealModel PolyModel ExprModel ParserModel CliModel DecModel.
Import ListNotations.
Open Scope Z_scope.

(** huge.hpp 781-792 pow(double), pow(const Huge &): the computation is commented out, the result is Huge of an empty vector *)
Definition huge_pow_double (x : huge) (h : Q) : huge := mkHuge [] true.
Definition huge_pow (x h : huge) : huge := mkHuge [] true.

(** huge.hpp 946-953: through abs().to<unsigned long long>().  The comparison at 950 converts tmp to U; [fmax] is std::numeric_limits<U>::max() *)
Definition fmax (F : ffmt) : Q := dyadic (2 ^ fprec F - 1) (femax F - fprec F).
Definition huge_to_float (F : ffmt) (x : huge) : res Q :=
  tmp <- huge_to 64 false (huge_abs x) ;;
  let f := rnd (fprec F) (inject_Z tmp) in
  if negb (Qle_bool f (fmax F)) then Throw "The Huge is too big." else
  Ok (fmul (fprec F) f (if is_positive x then 1 else -1)).

(** num.hpp 274-278 Rational::to<U>, U with p bits *)
Definition rat_to_float (p : Z) (r : rat) : Q := fdiv p (rnd p (inject_Z (num r))) (rnd p (inject_Z (den r))).
(** the same for an integer type U of [w] bits, signed or not: both parts are converted first (modularly); the quotient of two ints of a U
    narrower than int is converted back *)
Definition rat_to_int (w : Z) (sg : bool) (r : rat) : res Z :=
  let n := cast w sg (num r) in let d := cast w sg (den r) in
  if d =? 0 then Ub "division by zero" else
  if (sg && (32 <=? w) && (umax w sg <? n ÷ d))%bool then Ub "signed overflow" else Ok (cast w sg (n ÷ d)).

(** num.hpp 672-677 Real::to<U>, U with p bits; [fpow] is std::pow on doubles (53 bits) *)
Definition real_to_float (p : Z) (fpow : Q -> Q -> Q) (a : real) : Q :=
  fmul p (rat_to_float p (coe a)) (rnd p (fpow (rat_to_float 53 (rad a)) (fdiv 53 1 (rnd 53 (inject_Z (idx a)))))).

(** long double with p bits, for the evaluation of frac.hpp / expr.hpp (CliModel.v); [lpow] is std::pow on long doubles *)
Definition fadd (p : Z) (x y : Q) : Q := rnd p (x + y).
Definition float_ops (p : Z) (fpow lpow : Q -> Q -> Q) (show : Q -> text) (read : text -> res Q) (root : rat -> Z -> res Z) : fops :=
  FOps Q (rat_to_float p) (real_to_float p fpow) 0%Q (fadd p) (fsub p) (fmul p) (fdiv p) lpow show read root.
