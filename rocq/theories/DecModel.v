(** Model of the floating-point construction of Rational<T> (include/symxx/num.hpp 32-56, 97-125, 133; all citations are to that file) for a
    machine integer T, i.e. what a decimal literal such as "0.53" is read as.

    A finite floating-point number is its exact value, a rational number; every operation of the C++ type is the exact operation followed by
    [rnd p], rounding to nearest, ties to even, with p bits.  The format [ffmt] is a parameter (x87 is the long double of x86-64 Linux).
    Simplifications:
    - exponents are not bounded, except that std::stold reports a result outside the normal range as std::out_of_range (glibc; it lets a
      subnormal number pass if it is exact, which takes a literal of thousands of digits);
    - std::stold is correctly rounded (glibc) and only decimal texts are modelled: sign, digits and dots.  Exponents, "inf", "nan" and
      hexadecimal texts, which the parser never passes, are [Ub] here;
    - std::pow(10, n) is exact for the n that occur (10^n is a double for n <= 22). *)
From Coq Require Import ZArith QArith Qround Qabs String Ascii Lia Bool List.
From Verif Require Import Base AdapterModel RationalModel ParserModel.
Import ListNotations.
Open Scope Z_scope.

(** std::numeric_limits of the floating-point type: digits, max_digits10, max_exponent, min_exponent - 1 *)
Record ffmt := FF { fprec : Z; fdig : nat; femax : Z; femin : Z }.
Definition x87 : ffmt := FF 64 21 16384 (-16382).
Definition binary64 : ffmt := FF 53 17 1024 (-1022).
Definition binary128 : ffmt := FF 113 36 16384 (-16382).

(** ** Rounding *)
(** a/b rounded to the nearest integer, ties to even (a >= 0, b > 0) *)
Definition rne (a b : Z) : Z :=
  let q := a / b in let r := a mod b in
  match 2 * r ?= b with Lt => q | Gt => q + 1 | Eq => if Z.even q then q else q + 1 end.
(** the exponent of a positive number n/d: 2^e <= n/d < 2^(e+1) *)
Definition ilog2 (n d : Z) : Z :=
  let e := Z.log2 n - Z.log2 d in
  if (if 0 <=? e then d * 2 ^ e <=? n else d <=? n * 2 ^ (- e)) then e else e - 1.
(** m * 2^s *)
Definition dyadic (m s : Z) : Q := if 0 <=? s then inject_Z (m * 2 ^ s) else m # Z.to_pos (2 ^ (- s)).
(** n/d rounded to p bits *)
Definition rnd_pos (p n d : Z) : Q :=
  let s := ilog2 n d - p + 1 in
  let m := if 0 <=? s then rne n (d * 2 ^ s) else rne (n * 2 ^ (- s)) d in
  dyadic m s.
Definition rnd (p : Z) (x : Q) : Q :=
  match Qnum x with
  | Z0 => 0%Q
  | Zpos n => rnd_pos p (Zpos n) (Zpos (Qden x))
  | Zneg n => Qopp (rnd_pos p (Zpos n) (Zpos (Qden x)))
  end.

(** the operations of the type *)
Definition fmul (p : Z) (x y : Q) : Q := rnd p (x * y).
Definition fsub (p : Z) (x y : Q) : Q := rnd p (x - y).
Definition fdiv (p : Z) (x y : Q) : Q := rnd p (x / y).
(** std::floor; std::round: half away from zero; the conversion to an integer type truncates *)
Definition ffloor (x : Q) : Q := inject_Z (Qfloor x).
Definition fround (x : Q) : Q := inject_Z (if Qle_bool 0 x then Qfloor (x + (1 # 2)) else - Qfloor (- x + (1 # 2))).
Definition ftrunc (x : Q) : Z := if Qle_bool 0 x then Qfloor x else - Qfloor (- x).
Definition flt (x y : Q) : bool := negb (Qle_bool y x).

(** 41-48 the loop of decimal_places; [n] is max_digits10 - count.  [fepsilon] is std::numeric_limits<T>::epsilon(), 2^(1-p) *)
Definition fepsilon (p : Z) : Q := dyadic 1 (1 - p).
Fixpoint decimal_loop (p : Z) (n : nat) (v c factor eps : Q) (count : nat) : nat :=
  if (flt eps c && flt c (fsub p 1 eps))%bool then
    match n with
    | O => count
    | S n' =>
        let c := fmul p v factor in
        let c := fsub p c (ffloor c) in
        let factor := fmul p factor 10 in
        let eps := fmul p (fmul p (fepsilon p) v) factor in
        decimal_loop p n' v c factor eps (S count)
    end
  else count.
(** 32-50 decimal_places *)
Definition decimal_places (F : ffmt) (x : Q) : nat :=
  let p := fprec F in
  let v := Qabs x in
  let c := fsub p v (ffloor v) in
  decimal_loop p (fdig F) v c 10 (fmul p (fepsilon p) c) 0.
(** 52-56 round_decplaces *)
Definition round_decplaces (p : Z) (value : Q) (n : nat) : Q :=
  let m := inject_Z (10 ^ Z.of_nat n) in
  fdiv p (fround (fmul p value m)) m.

(** std::numeric_limits<T>::digits10 of a signed type of [w] bits, which has w - 1 value bits (643/2136 is libstdc++'s log10 2) *)
Definition int_digits10 (w : Z) : nat := Z.to_nat ((w - 1) * 643 / 2136).
(** the conversion of the product to T: undefined outside the range.  101-125 Rational(long double), for a fundamental T *)
Definition rat_of_float (w : Z) (F : ffmt) (x : Q) : res rat :=
  let p := fprec F in
  let nd := decimal_places F x in
  let dg := int_digits10 w in
  let x := if (dg <? nd)%nat then round_decplaces p x dg else x in
  let d := 10 ^ Z.of_nat (Nat.min nd dg) in
  n <- chk w (ftrunc (fmul p x (inject_Z d))) ;;
  rat_normalize w (Rat n d).

(** ** std::stold *)
(** the digits read so far as an integer, and how many of them came after the dot *)
Definition digit_value (c : ascii) : Z := Z.of_N (N_of_ascii c) - 48.
Definition digits_value (s : list ascii) : Z := fold_left (fun a c => 10 * a + digit_value c) s 0.
(** the longest prefix of digits with at most one dot: the value m / 10^k *)
Definition scan_decimal (s : list ascii) : list ascii * list ascii * list ascii :=
  let (i, r) := span is_digit s in
  match r with
  | c :: r' => if is_dot c then let (f, r2) := span is_digit r' in (i, f, r2) else (i, [], r)
  | [] => (i, [], [])
  end.
(** what follows the number may change its meaning only if it is an exponent or the x of a hexadecimal number; whitespace, "inf", "nan" are the other
    starts of a number std::stold knows *)
Definition plain_rest (r : list ascii) : bool := match r with [] => true | c :: _ => (is_digit c || is_dot c)%bool end.
Definition pow10 (k : nat) : positive := Z.to_pos (10 ^ Z.of_nat k).
Definition out_of_normal_range (F : ffmt) (x : Q) : bool :=
  (negb (Qeq_bool x 0) && (Qle_bool (dyadic 1 (femax F)) x || flt x (dyadic 1 (femin F))))%bool.
Definition stold_unsigned (F : ffmt) (s : list ascii) : res Q :=
  let '(i, f, r) := scan_decimal s in
  if negb (plain_rest r) then Ub "stold: not modelled" else
  match i ++ f with
  | [] => Throw "invalid_argument"
  | ds => let x := rnd (fprec F) (digits_value ds # pow10 (length f)) in
          if out_of_normal_range F x then Throw "out_of_range" else Ok x
  end.
Definition stold (F : ffmt) (s : list ascii) : res Q :=
  match s with
  | c :: s' => if Ascii.eqb c "-" then x <- stold_unsigned F s' ;; Ok (- x)%Q
               else if Ascii.eqb c "+" then stold_unsigned F s' else stold_unsigned F s
  | [] => Throw "invalid_argument"
  end.

(** 133: Rational(std::stold(n)) *)
Definition dec_of (w : Z) (F : ffmt) (s : list ascii) : res rat := x <- stold F s ;; rat_of_float w F x.
