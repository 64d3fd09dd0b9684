(** Model of class Rational<T> (include/symxx/num.hpp 58-327; all citations are to that file) for a machine integer type T of [w] bits
    (AdapterModel.v).  Rational(double), Rational(long double) and decimal_places/round_decplaces (33-56, 97-125), which
    are floating point, are in DecModel.v; [of_string] takes what they do with a text that contains '.' as a parameter.

    std::pow on doubles is a parameter [fp]: [fp b n d] is static_cast<T>(std::pow(double(b), double(n) / double(d))).  What the theorems
    assume of it is [pow_exact] (RationalSpec.v). *)
From Coq Require Import ZArith String Ascii Lia Bool List.
From Verif Require Import Base AdapterModel.
Import ListNotations.
Open Scope Z_scope.

(** 65-66 *)
Record rat := Rat { num : Z; den : Z }.

(** 254-264 normalize *)
Definition rat_normalize (w : Z) (r : rat) : res rat :=
  a <- adapter_abs w (num r) ;; b <- adapter_abs w (den r) ;;
  g <- adapter_gcd w a b ;;
  n <- quot_w w (num r) g ;;
  d <- quot_w w (den r) g ;;
  if d =? -1 then n' <- chk w (- n) ;; Ok (Rat n' 1) else Ok (Rat n d).

(** 69-80 Rational(n, d) *)
Definition rat_make (w n d : Z) : res rat :=
  if d =? 0 then Throw division_by_zero else rat_normalize w (Rat n d).
(** 82-90 Rational(n) *)
Definition rat_of_int (w n : Z) : res rat := rat_normalize w (Rat n 1).
(** 92-95 *)
Definition rat_zero : rat := Rat 0 1.

(** 127-159 Rational(const std::string &): no normalize; [from_decimal] stands for Rational(std::stold(n)) *)
Fixpoint find_char (c : ascii) (s : list ascii) : option (list ascii * list ascii) :=
  match s with
  | [] => None
  | x :: s' => if Ascii.eqb x c then Some ([], s') else
               match find_char c s' with Some (a, b) => Some (x :: a, b) | None => None end
  end.
Definition map_std_exn {A} (r : res A) : res A :=
  match r with
  | Throw e => if String.eqb e "invalid_argument" then Throw "Invaild string."
               else if String.eqb e "out_of_range" then Throw "The number is out of range." else Throw e
  | x => x
  end.
Definition rat_of_string (w : Z) (from_decimal : list ascii -> res rat) (s : list ascii) : res rat :=
  r <- map_std_exn
         (match find_char "." s with
          | Some _ => from_decimal s
          | None => match find_char "/" s with
                    | None => n <- adapter_to_int w s ;; Ok (Rat n 1)
                    | Some (a, b) => n <- adapter_to_int w a ;; d <- adapter_to_int w b ;; Ok (Rat n d)
                    end
          end) ;;
  if den r =? 0 then Throw division_by_zero else Ok r.

(** 168-175 operator+= (and 161-166 operator+) *)
Definition rat_add (w : Z) (a b : rat) : res rat :=
  l <- adapter_lcm w (den a) (den b) ;;
  qa <- quot_w w l (den a) ;; x <- chk w (num a * qa) ;;
  qb <- quot_w w l (den b) ;; y <- chk w (num b * qb) ;;
  s <- chk w (x + y) ;;
  rat_normalize w (Rat s l).
(** 247-250 negate *)
Definition rat_negate (w : Z) (a : rat) : res rat := n <- chk w (- num a) ;; rat_make w n (den a).
(** 177-188 operator-= / operator- *)
Definition rat_sub (w : Z) (a b : rat) : res rat := nb <- rat_negate w b ;; rat_add w a nb.
(** 190-206 operator*= / operator* *)
Definition rat_mul (w : Z) (a b : rat) : res rat :=
  g1 <- adapter_gcd w (num a) (den b) ;;
  g2 <- adapter_gcd w (num b) (den a) ;;
  n1 <- quot_w w (num a) g1 ;; n2 <- quot_w w (num b) g2 ;; n <- chk w (n1 * n2) ;;
  d1 <- quot_w w (den a) g2 ;; d2 <- quot_w w (den b) g1 ;; d <- chk w (d1 * d2) ;;
  if d =? 0 then Throw division_by_zero else Ok (Rat n d).
(** 252 inverse *)
Definition rat_inverse (w : Z) (a : rat) : res rat := rat_make w (den a) (num a).
(** 208-217 operator/ and operator/= *)
Definition rat_div (w : Z) (a b : rat) : res rat := ib <- rat_inverse w b ;; rat_mul w a ib.

(** 230-243 <=>, !=, == *)
Definition rat_cmp (w : Z) (a b : rat) : res comparison :=
  x <- chk w (num a * den b) ;; y <- chk w (num b * den a) ;; Ok (x ?= y).
Definition rat_eq (w : Z) (a b : rat) : res bool :=
  x <- chk w (num a * den b) ;; y <- chk w (num b * den a) ;; Ok (x =? y).
Definition rat_ne (w : Z) (a b : rat) : res bool :=
  x <- chk w (num a * den b) ;; y <- chk w (num b * den a) ;; Ok (negb (x =? y)).
(** a < b and so on are rewritten to (a <=> b) < 0 *)
Definition rat_lt (w : Z) (a b : rat) : res bool := c <- rat_cmp w a b ;; Ok (match c with Lt => true | _ => false end).
Definition rat_gt (w : Z) (a b : rat) : res bool := c <- rat_cmp w a b ;; Ok (match c with Gt => true | _ => false end).
Definition rat_le (w : Z) (a b : rat) : res bool := c <- rat_cmp w a b ;; Ok (match c with Gt => false | _ => true end).
Definition rat_ge (w : Z) (a b : rat) : res bool := c <- rat_cmp w a b ;; Ok (match c with Lt => false | _ => true end).
(** 245 is_int *)
Definition is_int (a : rat) : bool := den a =? 1.
(** 295-298 to_t *)
Definition rat_to_t (w : Z) (a : rat) : res Z := quot_w w (num a) (den a).

(** 219-228 pow: [fp] is the machine pow followed by the cast to T; p == 0 and p == 1 compare with Rational(0), Rational(1) *)
Definition rat_pow (w : Z) (fp : Z -> Z -> Z -> res Z) (r p : rat) : res rat :=
  z <- rat_eq w p (Rat 0 1) ;;
  if z : bool then rat_of_int w 1 else
  o <- rat_eq w p (Rat 1 1) ;;
  if o : bool then Ok r else
  n <- fp (num r) (num p) (den p) ;;
  d <- fp (den r) (num p) (den p) ;;
  rat_normalize w (Rat n d).

(** 300-312 to_string, 314-326 to_tex *)
Definition rat_to_string (r : rat) : list ascii :=
  if negb (den r =? 1) then adapter_to_string (num r) ++ ["/"%char] ++ adapter_to_string (den r) else adapter_to_string (num r).
Definition rat_to_tex (r : rat) : list ascii :=
  if negb (den r =? 1)
  then list_ascii_of_string "\frac{" ++ adapter_to_string (num r) ++ list_ascii_of_string "}{" ++ adapter_to_string (den r) ++ ["}"%char]
  else adapter_to_string (num r).
