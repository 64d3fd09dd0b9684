(** Real<T> with the arithmetic of double spelled out (include/symxx/num.hpp; all citations are to that file; T a machine integer of [w] bits).
    RealModel.v computes with exact integers and is [Ub "inexact"] where a double could be inexact; here every conversion to double, every double
    operation and every conversion back is what the code does:
    - a double is its exact value, and an operation rounds to 53 bits (DecModel.v); overflow to infinity is the out-of-range conversion that follows;
    - std::pow is the parameter [fpow] (on infinities and not-a-numbers, i.e. a negative power of 0 or a fractional power of a negative number, it is
      some number here; no theorem uses it there);
    - Rational(double) goes through long double (97-125), whose format is [fld].
    Everything else is as in RealModel.v. *)
From Coq Require Import ZArith QArith Qabs String Ascii Lia Bool List.
From Verif Require Import Base AdapterModel RationalModel RealModel DecModel NumModel.
Import ListNotations.
Open Scope Z_scope.

Record denv := DEnv { de : env; fpow : Q -> Q -> Q; fld : ffmt }.
(** the conversion T -> double, and back (undefined outside the range of T) *)
Definition to_double (x : Z) : Q := rnd 53 (inject_Z x).
Definition of_double (w : Z) (q : Q) : res Z := chk w (ftrunc q).
(** int_adapter.hpp adapter_pow(b, e): std::pow(double(b), e) *)
Definition pow_d (X : denv) (b : Z) (e : Q) : Q := fpow X (to_double b) e.
(** 224-225: static_cast<T>(adapter_pow(b, p.to<double>())) *)
Definition pow_cast_d (X : denv) (b n d : Z) : res Z :=
  if d =? 0 then Ub "0 as a double divisor" else of_double (ew (de X)) (pow_d X b (rat_to_float 53 (Rat n d))).
(** 543: Rational<T>(adapter_pow(b, e)) for an unsigned e *)
Definition pow_rat_d (X : denv) (b e : Z) : res rat := rat_of_float (ew (de X)) (fld X) (pow_d X b (to_double e)).
(** 555: x /= adapter_pow(b, e), 580: x *= adapter_pow(b, e) on a T x *)
Definition div_pow_d (X : denv) (x b e : Z) : res Z :=
  let p := pow_d X b (to_double e) in
  if Qeq_bool p 0 then Ub "division by zero" else of_double (ew (de X)) (fdiv 53 (to_double x) p).
Definition mul_pow_d (X : denv) (x b e : Z) : res Z := of_double (ew (de X)) (fmul 53 (to_double x) (pow_d X b (to_double e))).
(** 219-228 Rational::pow *)
Definition rpow_d (X : denv) : rat -> rat -> res rat := rat_pow (ew (de X)) (pow_cast_d X).

(** 551-559 *)
Fixpoint pull_vals_d (X : denv) (i : Z) (vs : list Z) (st : Z * rat) : res (Z * rat) :=
  match vs with
  | [] => Ok st
  | v :: vs' =>
      let '(r, c) := st in
      r' <- div_pow_d X r v i ;; vr <- rat_of_int (ew (de X)) v ;; c' <- rat_mul (ew (de X)) c vr ;;
      pull_vals_d X i vs' (r', c')
  end.
Fixpoint pull_exp_d (X : denv) (i : Z) (fuel : nat) (exp : Z) (vs : list Z) (st : Z * rat) : res (Z * rat) :=
  if exp <? i then Ok st else
  match fuel with
  | O => Fuel
  | S f => st' <- pull_vals_d X i vs st ;; pull_exp_d X i f (exp - i) vs st'
  end.
(** 548-560 *)
Fixpoint pull_all_d (X : denv) (i : Z) (m : list (Z * list Z)) (st : Z * rat) : res (Z * rat) :=
  match m with
  | [] => Ok st
  | (e, vs) :: m' => st' <- pull_exp_d X i (Z.to_nat e) e vs st ;; pull_all_d X i m' st'
  end.
(** 574-581 *)
Fixpoint mul_vals_d (X : denv) (e : Z) (vs : list Z) (r : Z) : res Z :=
  match vs with [] => Ok r | v :: vs' => r' <- mul_pow_d X r v e ;; mul_vals_d X e vs' r' end.
Fixpoint mul_all_d (X : denv) (g : Z) (m : list (Z * list Z)) (r : Z) : res Z :=
  match m with [] => Ok r | (e, vs) :: m' => r' <- mul_vals_d X (e / g) vs r ;; mul_all_d X g m' r' end.

(** 538-597 normalize *)
Definition real_normalize_d (X : denv) (x : real) : res real :=
  let E := de X in let w := ew E in let i := idx x in
  '(c, rd) <- (if is_int (rad x) then Ok (coe x, rad x) else
               d <- rat_of_int w (den (rad x)) ;; c <- rat_div w (coe x) d ;;
               p <- pow_rat_d X (den (rad x)) i ;; r <- rat_mul w (rad x) p ;; Ok (c, r)) ;;
  m <- decompose E (num rd) ;;
  '(r, c) <- pull_all_d X i m (num rd, c) ;;
  '(rd, m) <- (if r =? num rd then Ok (rd, m) else m' <- decompose E r ;; Ok (Rat r (den rd), m')) ;;
  let g0 := match m with [] => ejunk E | (e, _) :: _ => e end in
  let g1 := fold_left (fun g p => Z.gcd (fst p) g) m g0 in
  let g := swrap w (Z.gcd i g1) in
  '(i, rd) <- (if g =? 1 then Ok (i, rd) else
               if g =? 0 then Ub "/ 0" else
               r <- mul_all_d X g m 1 ;; rd <- rat_of_int w r ;; Ok (i / g, rd)) ;;
  one <- rat_eq w rd (Rat 1 1) ;;
  let i := if one : bool then 1 else i in
  zero <- rat_eq w c (Rat 0 1) ;;
  if zero : bool then Ok (Real 1 (Rat 1 1) c) else Ok (Real i rd c).
(** 389-396 *)
Definition real_make_d (X : denv) (c r : rat) (i : Z) : res real := real_normalize_d X (Real i r c).
Definition real_of_int_d (X : denv) (n : Z) : res real := c <- rat_of_int (ew (de X)) n ;; real_make_d X c (Rat 1 1) 1.
(** 411-425 += and +, 599-602 negate, 427-439 -= and - *)
Definition real_add_d (X : denv) (a b : real) : res real :=
  let w := ew (de X) in
  eqv <- is_equivalent w a b ;;
  if eqv : bool then c <- rat_add w (coe a) (coe b) ;; real_normalize_d X (Real (idx a) (rad a) c)
  else Throw radicands_differ.
Definition real_negate_d (X : denv) (a : real) : res real := c <- rat_negate (ew (de X)) (coe a) ;; real_make_d X c (rad a) (idx a).
Definition real_sub_d (X : denv) (a b : real) : res real :=
  nb <- real_negate_d X b ;; s <- real_add_d X a nb ;; real_normalize_d X s.
(** 441-456 *= and *, 458-467 /= and / *)
Definition real_mul_d (X : denv) (a b : real) : res real :=
  let w := ew (de X) in
  l <- ulcm w (idx a) (idx b) ;;
  qa <- uquot l (idx a) ;; ea <- rat_of_index w qa ;; pa <- rpow_d X (rad a) ea ;;
  qb <- uquot l (idx b) ;; eb <- rat_of_index w qb ;; pb <- rpow_d X (rad b) eb ;;
  r <- rat_mul w pa pb ;;
  c <- rat_mul w (coe a) (coe b) ;;
  real_normalize_d X (Real l r c).
Definition real_div_d (X : denv) (a b : real) : res real := ib <- real_inverse (ew (de X)) b ;; real_mul_d X a ib.
(** 469-491 pow *)
Definition real_pow_pos_d (X : denv) (a : real) (p : rat) : res real :=
  let w := ew (de X) in
  if is_int p then
    c <- rpow_d X (coe a) p ;; r <- rpow_d X (rad a) p ;; real_normalize_d X (Real (idx a) r c)
  else
    n <- rat_of_int w (num p) ;;
    r <- rpow_d X (rad a) n ;;
    let i := uwrap w (idx a * den p) in
    cb <- rpow_d X (coe a) n ;;
    b <- real_make_d X (Rat 1 1) cb (uwrap w (den p)) ;;
    x <- real_mul_d X (Real i r (Rat 1 1)) b ;;
    real_normalize_d X x.
Fixpoint real_pow_fuel_d (fuel : nat) (X : denv) (a : real) (p : rat) : res real :=
  let w := ew (de X) in
  match fuel with
  | O => Fuel
  | S f =>
      z <- rat_eq w p (Rat 0 1) ;;
      if z : bool then real_of_int_d X 1 else
      o <- rat_eq w p (Rat 1 1) ;;
      if o : bool then Ok a else
      neg <- rat_lt w p (Rat 0 1) ;;
      if neg : bool then ia <- real_inverse w a ;; np <- rat_negate w p ;; real_pow_fuel_d f X ia np
      else real_pow_pos_d X a p
  end.
Definition real_pow_d (X : denv) (a : real) (p : rat) : res real := real_pow_fuel_d 3 X a p.
(** 513-524 <, 533-536 > *)
Definition power_form_d (X : denv) (c r : rat) (ij j : Z) : res rat :=
  let w := ew (de X) in e <- rat_of_index w ij ;; x <- rpow_d X c e ;; f <- rat_of_index w j ;; y <- rpow_d X r f ;; rat_mul w x y.
Definition real_lt_d (X : denv) (a b : real) : res bool :=
  let w := ew (de X) in
  e <- real_eq w a b ;;
  if e : bool then Ok false else
  al <- rat_le w (coe a) (Rat 0 1) ;; ag <- rat_ge w (coe a) (Rat 0 1) ;;
  bl <- rat_le w (coe b) (Rat 0 1) ;; bg <- rat_ge w (coe b) (Rat 0 1) ;;
  if (al && bg)%bool then Ok true else
  if (ag && bl)%bool then Ok false else
  let ij := uwrap w (idx b * idx a) in
  if (al && bl)%bool then
    ca <- rat_negate w (coe a) ;; cb <- rat_negate w (coe b) ;;
    x <- power_form_d X ca (rad a) ij (idx b) ;; y <- power_form_d X cb (rad b) ij (idx a) ;;
    rat_gt w x y
  else
    x <- power_form_d X (coe a) (rad a) ij (idx b) ;; y <- power_form_d X (coe b) (rad b) ij (idx a) ;;
    rat_lt w x y.
Definition real_gt_d (X : denv) (a b : real) : res bool :=
  l <- real_lt_d X a b ;; if l : bool then Ok false else e <- real_eq (ew (de X)) a b ;; Ok (negb e).
