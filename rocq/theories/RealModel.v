(** Model of class Real<T> (include/symxx/num.hpp 346-723; all citations are to that file) for a machine integer T of [w] bits: the number
    coe * radicand^(1/index), index an unsigned w-bit integer.

    Environment [E]:
    - [efac n] is the multiset that factorize(n, factors) fills (FactorizeModel.v).  It is a function: two calls with the same number
      are taken to give the same multiset (below 9006401 the multiset is unique, C20_prime_factorization).  What the theorems assume
      of it is [fac_sound] (RealSpec.v): it is a possible result of [factorize].
    - [ejunk] is the value read through factors.begin() when the map is empty (567): undefined behaviour in the standard, an arbitrary
      number here; RealProps shows that nothing depends on it.

    Floating point: std::pow and the double product and quotient are modelled where they are exact, i.e. where operands and
    result are integers of magnitude at most 2^53 and the exponent is a non-negative integer; anywhere else the outcome is
    [Ub "inexact"], about which no theorem claims anything.  Not modelled: conversion to floating point (659-709: to, try_to). *)
From Coq Require Import ZArith String Ascii Lia Bool List.
From Verif Require Import Base AdapterModel RationalModel.
Import ListNotations.
Open Scope Z_scope.

Record env := Env { ew : Z; efac : Z -> res (list Z); ejunk : Z }.

Definition fits53 (x : Z) : bool := Z.abs x <=? 2 ^ 53.
(** std::pow(double(b), double(e)) as an integer *)
Definition dpow (b e : Z) : res Z :=
  if ((0 <=? e) && fits53 b && fits53 e && fits53 (b ^ e))%bool then Ok (b ^ e) else Ub "inexact".
(** static_cast<T>(std::pow(double(b), double(n) / double(d))): the parameter of [rat_pow] *)
Definition pow_cast (w b n d : Z) : res Z :=
  if d =? 0 then Ub "inexact" else
  if (fits53 n && fits53 d && (n mod d =? 0))%bool then x <- dpow b (n / d) ;; chk w x else Ub "inexact".
(** Rational<T>(std::pow(double(b), double(e))): the double constructor (97-125) on an integer below 2^53: no decimal places *)
Definition pow_rat (w b e : Z) : res rat := x <- dpow b e ;; n <- chk w x ;; rat_of_int w n.
(** x /= adapter_pow(b, e) on a T x: static_cast<T>(double(x) / pow) *)
Definition div_pow (w x b e : Z) : res Z :=
  p <- dpow b e ;;
  if (fits53 x && negb (p =? 0) && (x mod p =? 0))%bool then chk w (x / p) else Ub "inexact".
(** x *= adapter_pow(b, e) *)
Definition mul_pow (w x b e : Z) : res Z :=
  p <- dpow b e ;; if (fits53 x && fits53 (x * p))%bool then chk w (x * p) else Ub "inexact".
Definition rpow (w : Z) : rat -> rat -> res rat := rat_pow w (pow_cast w).

(** 347-376 decompose_radicand: std::map from exponent to the factors with that exponent; an ordered association list *)
Fixpoint map_add (e x : Z) (m : list (Z * list Z)) : list (Z * list Z) :=
  match m with
  | [] => [(e, [x])]
  | (k, vs) :: m' => if e =? k then (k, vs ++ [x]) :: m' else if e <? k then (e, [x]) :: m else (k, vs) :: map_add e x m'
  end.
Fixpoint decompose_loop (l : list Z) (exp : Z) (m : list (Z * list Z)) : list (Z * list Z) :=
  match l with
  | [] => m
  | x :: l' => match l' with
               | y :: _ => if x =? y then decompose_loop l' (exp + 1) m else decompose_loop l' 1 (map_add exp x m)
               | [] => map_add exp x m
               end
  end.
(** outside the range of the factorisation theorems (n > 2^(w-2)) nothing is claimed *)
Definition decompose (E : env) (n : Z) : res (list (Z * list Z)) :=
  if n <=? 2 ^ (ew E - 2) then l <- efac E n ;; Ok (decompose_loop l 1 []) else Ub "factorize".

(** 379-386 *)
Record real := Real { idx : Z; rad : rat; coe : rat }.

(** 551-559: while (exp >= index) *)
Fixpoint pull_vals (w i : Z) (vs : list Z) (st : Z * rat) : res (Z * rat) :=
  match vs with
  | [] => Ok st
  | v :: vs' =>
      let '(r, c) := st in
      r' <- div_pow w r v i ;; vr <- rat_of_int w v ;; c' <- rat_mul w c vr ;;
      pull_vals w i vs' (r', c')
  end.
Fixpoint pull_exp (w i : Z) (fuel : nat) (exp : Z) (vs : list Z) (st : Z * rat) : res (Z * rat) :=
  if exp <? i then Ok st else
  match fuel with
  | O => Fuel
  | S f => st' <- pull_vals w i vs st ;; pull_exp w i f (exp - i) vs st'
  end.
(** 548-560; the loop does not end for index 0 (the fuel runs out) *)
Fixpoint pull_all (w i : Z) (m : list (Z * list Z)) (st : Z * rat) : res (Z * rat) :=
  match m with
  | [] => Ok st
  | (e, vs) :: m' => st' <- pull_exp w i (Z.to_nat e) e vs st ;; pull_all w i m' st'
  end.
(** 574-581: the product of the factors with their exponents divided by g *)
Fixpoint mul_vals (w e : Z) (vs : list Z) (r : Z) : res Z :=
  match vs with [] => Ok r | v :: vs' => r' <- mul_pow w r v e ;; mul_vals w e vs' r' end.
Fixpoint mul_all (w g : Z) (m : list (Z * list Z)) (r : Z) : res Z :=
  match m with [] => Ok r | (e, vs) :: m' => r' <- mul_vals w (e / g) vs r ;; mul_all w g m' r' end.

(** 538-597 normalize *)
Definition real_normalize (E : env) (x : real) : res real :=
  let w := ew E in let i := idx x in
  '(c, rd) <- (if is_int (rad x) then Ok (coe x, rad x) else
               d <- rat_of_int w (den (rad x)) ;; c <- rat_div w (coe x) d ;;
               p <- pow_rat w (den (rad x)) i ;; r <- rat_mul w (rad x) p ;; Ok (c, r)) ;;
  m <- decompose E (num rd) ;;
  '(r, c) <- pull_all w i m (num rd, c) ;;
  '(rd, m) <- (if r =? num rd then Ok (rd, m) else m' <- decompose E r ;; Ok (Rat r (den rd), m')) ;;
  let g0 := match m with [] => ejunk E | (e, _) :: _ => e end in
  let g1 := fold_left (fun g p => Z.gcd (fst p) g) m g0 in
  let g := swrap w (Z.gcd i g1) in
  '(i, rd) <- (if g =? 1 then Ok (i, rd) else
               if g =? 0 then Ub "/ 0" else
               r <- mul_all w g m 1 ;; rd <- rat_of_int w r ;; Ok (i / g, rd)) ;;
  one <- rat_eq w rd (Rat 1 1) ;;
  let i := if one : bool then 1 else i in
  zero <- rat_eq w c (Rat 0 1) ;;
  if zero : bool then Ok (Real 1 (Rat 1 1) c) else Ok (Real i rd c).

(** 389-390 Real(c, r, i) *)
Definition real_make (E : env) (c r : rat) (i : Z) : res real := real_normalize E (Real i r c).
(** 392-396 Real(U c) *)
Definition real_of_int (E : env) (n : Z) : res real := c <- rat_of_int (ew E) n ;; real_make E c (Rat 1 1) 1.
Definition real_of_rat (E : env) (c : rat) : res real := real_make E c (Rat 1 1) 1.
(** 398 Real() *)
Definition real_zero : real := Real 1 (Rat 1 1) (Rat 0 1).
(** 719-723 nth_root(n, q) *)
Definition nth_root (E : env) (n : Z) (q : rat) : res real := real_make E (Rat 1 1) q n.

(** 400-409 is_equivalent_with *)
Definition is_equivalent (w : Z) (a b : real) : res bool :=
  same <- rat_eq w (rad a) (rad b) ;;
  one <- rat_eq w (rad a) (Rat 1 1) ;;
  if (same && one)%bool then Ok true else
  if ((idx a =? idx b) && (idx a =? 1))%bool then Ok true else
  Ok (same && (idx a =? idx b))%bool.
Definition radicands_differ : string := "radicand and index must be the same.".
(** 411-425 operator+= and + *)
Definition real_add (E : env) (a b : real) : res real :=
  eqv <- is_equivalent (ew E) a b ;;
  if eqv : bool then c <- rat_add (ew E) (coe a) (coe b) ;; real_normalize E (Real (idx a) (rad a) c)
  else Throw radicands_differ.
(** 599-602 negate *)
Definition real_negate (E : env) (a : real) : res real := c <- rat_negate (ew E) (coe a) ;; real_make E c (rad a) (idx a).
(** 427-439 operator-= and - *)
Definition real_sub (E : env) (a b : real) : res real :=
  nb <- real_negate E b ;; s <- real_add E a nb ;; real_normalize E s.
(** std::lcm of two unsigned w-bit numbers *)
Definition ulcm (w a b : Z) : res Z := if Z.lcm a b <? 2 ^ w then Ok (Z.lcm a b) else Ub "lcm".
(** Rational<T>(n) of an unsigned n: converted to T first *)
Definition rat_of_index (w n : Z) : res rat := rat_of_int w (swrap w n).
Definition uquot (a b : Z) : res Z := if b =? 0 then Ub "/ 0" else Ok (a / b).
(** 441-456 operator*= and * *)
Definition real_mul (E : env) (a b : real) : res real :=
  let w := ew E in
  l <- ulcm w (idx a) (idx b) ;;
  qa <- uquot l (idx a) ;; ea <- rat_of_index w qa ;; pa <- rpow w (rad a) ea ;;
  qb <- uquot l (idx b) ;; eb <- rat_of_index w qb ;; pb <- rpow w (rad b) eb ;;
  r <- rat_mul w pa pb ;;
  c <- rat_mul w (coe a) (coe b) ;;
  real_normalize E (Real l r c).
(** 609-615 inverse: not normalised *)
Definition real_inverse (w : Z) (a : real) : res real :=
  c <- rat_inverse w (coe a) ;; r <- rat_inverse w (rad a) ;; Ok (Real (idx a) r c).
(** 458-467 operator/= and / *)
Definition real_div (E : env) (a b : real) : res real := ib <- real_inverse (ew E) b ;; real_mul E a ib.

(** 469-491 pow *)
Definition real_pow_pos (E : env) (a : real) (p : rat) : res real :=
  let w := ew E in
  if is_int p then
    c <- rpow w (coe a) p ;; r <- rpow w (rad a) p ;; real_normalize E (Real (idx a) r c)
  else
    n <- rat_of_int w (num p) ;;
    r <- rpow w (rad a) n ;;
    let i := uwrap w (idx a * den p) in
    cb <- rpow w (coe a) n ;;
    b <- real_make E (Rat 1 1) cb (uwrap w (den p)) ;;
    x <- real_mul E (Real i r (Rat 1 1)) b ;;
    real_normalize E x.
(** p < 0 recurses with -p, which is not below 0 again except when the denominator was -1 (negate then moves the sign to the
    numerator: -5/-1 becomes -5/1), so three levels are enough *)
Fixpoint real_pow_fuel (fuel : nat) (E : env) (a : real) (p : rat) : res real :=
  let w := ew E in
  match fuel with
  | O => Fuel
  | S f =>
      z <- rat_eq w p (Rat 0 1) ;;
      if z : bool then real_of_int E 1 else
      o <- rat_eq w p (Rat 1 1) ;;
      if o : bool then Ok a else
      neg <- rat_lt w p (Rat 0 1) ;;
      if neg : bool then ia <- real_inverse w a ;; np <- rat_negate w p ;; real_pow_fuel f E ia np
      else real_pow_pos E a p
  end.
Definition real_pow (E : env) (a : real) (p : rat) : res real := real_pow_fuel 3 E a p.

(** 526-529 ==, 531 !=, 513-524 <, 533-536 > *)
Definition real_eq (w : Z) (a b : real) : res bool :=
  c <- rat_eq w (coe a) (coe b) ;;
  if negb c then Ok false else
  r <- rat_eq w (rad a) (rad b) ;;
  Ok (r && (idx a =? idx b))%bool.
Definition real_ne (w : Z) (a b : real) : res bool := e <- real_eq w a b ;; Ok (negb e).
(** coe.pow(index product) * radicand.pow(other index); the product of the indices wraps modulo 2^w *)
Definition power_form (w : Z) (c r : rat) (ij j : Z) : res rat :=
  e <- rat_of_index w ij ;; x <- rpow w c e ;; f <- rat_of_index w j ;; y <- rpow w r f ;; rat_mul w x y.
Definition real_lt (w : Z) (a b : real) : res bool :=
  e <- real_eq w a b ;;
  if e : bool then Ok false else
  al <- rat_le w (coe a) (Rat 0 1) ;; ag <- rat_ge w (coe a) (Rat 0 1) ;;
  bl <- rat_le w (coe b) (Rat 0 1) ;; bg <- rat_ge w (coe b) (Rat 0 1) ;;
  if (al && bg)%bool then Ok true else
  if (ag && bl)%bool then Ok false else
  let ij := uwrap w (idx b * idx a) in
  if (al && bl)%bool then
    ca <- rat_negate w (coe a) ;; cb <- rat_negate w (coe b) ;;
    x <- power_form w ca (rad a) ij (idx b) ;; y <- power_form w cb (rad b) ij (idx a) ;;
    rat_gt w x y
  else
    x <- power_form w (coe a) (rad a) ij (idx b) ;; y <- power_form w (coe b) (rad b) ij (idx a) ;;
    rat_lt w x y.
Definition real_gt (w : Z) (a b : real) : res bool :=
  l <- real_lt w a b ;; if l : bool then Ok false else e <- real_eq w a b ;; Ok (negb e).

(** 604-607 is_rational (short-circuit; every comparison is with 0 or 1) *)
Definition is_rational (w : Z) (a : real) : res bool :=
  c0 <- rat_eq w (coe a) (Rat 0 1) ;;
  if c0 : bool then Ok true else
  r1 <- rat_eq w (rad a) (Rat 1 1) ;;
  if r1 : bool then Ok true else
  r0 <- rat_eq w (rad a) (Rat 0 1) ;;
  if r0 : bool then Ok true else
  Ok ((idx a =? 1) || (idx a =? 0))%bool.
(** 679-684 to<Rational<T>>() *)
Definition real_to_rational (w : Z) (a : real) : res rat :=
  b <- is_rational w a ;; if b : bool then rat_mul w (coe a) (rad a) else Throw "Must be a rational.".

(** 617-636 to_string *)
Definition real_to_string (w : Z) (a : real) : res (list ascii) :=
  c0 <- rat_eq w (coe a) (Rat 0 1) ;;
  if c0 : bool then Ok ["0"%char] else
  q <- is_rational w a ;;
  if q : bool then Ok (rat_to_string (coe a)) else
  n1 <- rat_ne w (coe a) (Rat 1 1) ;;
  m1 <- rat_eq w (coe a) (Rat (-1) 1) ;;
  let pre := if n1 : bool then (if m1 : bool then ["-"%char] else rat_to_string (coe a)) else [] in
  Ok (pre ++ (if idx a =? 2 then list_ascii_of_string "_/" else "_"%char :: numeral (idx a) ++ ["/"%char]) ++ rat_to_string (rad a)).
(** 638-657 to_tex *)
Definition real_to_tex (w : Z) (a : real) : res (list ascii) :=
  c0 <- rat_eq w (coe a) (Rat 0 1) ;;
  if c0 : bool then Ok ["0"%char] else
  q <- is_rational w a ;;
  if q : bool then Ok (rat_to_tex (coe a)) else
  n1 <- rat_ne w (coe a) (Rat 1 1) ;;
  m1 <- rat_eq w (coe a) (Rat (-1) 1) ;;
  let pre := if n1 : bool then (if m1 : bool then ["-"%char] else rat_to_tex (coe a)) else [] in
  Ok (pre ++ (if idx a =? 2 then list_ascii_of_string "\sqrt{" else list_ascii_of_string "\sqrt[n" ++ numeral (idx a) ++ list_ascii_of_string "]{")
          ++ rat_to_tex (rad a) ++ ["}"%char]).
