(** Model of include/symxx/int_adapter.hpp (all citations are to that file) for the machine integer types T.

    A value of T is an unbounded [Z]; [w] is the number of bits of T (32 for int, 64 for long, 128 for __int128_t; nothing below
    depends on these particular values, T is signed and at least as wide as int, so there is no promotion).
    Every arithmetic result of a signed type goes through [chk w]: outside the range it is undefined behaviour. *)
From Coq Require Import ZArith String Ascii Lia Bool List.
From Verif Require Import Base HugeModel.
Import ListNotations.
Open Scope Z_scope.

(** signed w-bit result of +, -, *, unary minus *)
Definition in_range (w x : Z) : bool := ((- 2 ^ (w - 1) <=? x) && (x <? 2 ^ (w - 1)))%bool.
Definition chk (w x : Z) : res Z := if in_range w x then Ok x else Ub "signed overflow".
(** built-in / and %: truncation; undefined on a zero divisor and on min / -1 *)
Definition quot_w (w a b : Z) : res Z := if b =? 0 then Ub "/ 0" else chk w (Z.quot a b).
Definition rem_w (w a b : Z) : res Z :=
  if b =? 0 then Ub "% 0" else q <- chk w (Z.quot a b) ;; Ok (Z.rem a b).
(** signed << is modular in C++20 *)
Definition shl1_w (w a : Z) : Z := swrap w (2 * a).

(** 43-47 adapter_abs on T: std::abs, undefined on the minimum *)
Definition adapter_abs (w x : Z) : res Z := chk w (Z.abs x).

(** 61-74 adapter_mulmod.  One round per bit of [a]; a negative [a] never becomes 0 under >>= (it sticks at -1), so the loop does not
    end and the fuel (bits of |a| + 1) runs out. *)
Fixpoint mulmod_loop (w : Z) (fuel : nat) (a b m r : Z) : res Z :=
  if a =? 0 then Ok r else
  match fuel with
  | O => Fuel
  | S f =>
      r' <- (if Z.odd a then s <- chk w (r + b) ;; rem_w w s m else Ok r) ;;
      b' <- rem_w w (shl1_w w b) m ;;
      mulmod_loop w f (Z.shiftr a 1) b' m r'
  end.
Definition bits_fuel (a : Z) : nat := S (Z.to_nat (Z.log2 (Z.abs a) + 1)).
Definition adapter_mulmod (w a b m : Z) : res Z := mulmod_loop w (bits_fuel a) a b m 0.

(** 76-90 adapter_modpow; the last squaring is done even though its value is not used *)
Fixpoint modpow_loop (w : Z) (fuel : nat) (base exp m r : Z) : res Z :=
  if exp <=? 0 then Ok r else
  match fuel with
  | O => Fuel
  | S f =>
      r' <- (if Z.odd exp then s <- chk w (r * base) ;; rem_w w s m else Ok r) ;;
      b2 <- chk w (base * base) ;;
      b' <- rem_w w b2 m ;;
      modpow_loop w f b' (Z.shiftr exp 1) m r'
  end.
Definition adapter_modpow (w base exp m : Z) : res Z :=
  b <- rem_w w base m ;; modpow_loop w (bits_fuel exp) b exp m 1.

(** 92-102 adapter_gcd / adapter_lcm: std::gcd and std::lcm of two T.
    [numeric.ops.gcd]: undefined if |m| or |n| is not representable; lcm also if the result is not representable. *)
Definition adapter_gcd (w a b : Z) : res Z :=
  a' <- chk w (Z.abs a) ;; b' <- chk w (Z.abs b) ;; Ok (Z.gcd a b).
Definition adapter_lcm (w a b : Z) : res Z :=
  a' <- chk w (Z.abs a) ;; b' <- chk w (Z.abs b) ;; chk w (Z.lcm a b).

(** ** text <-> integer *)
(** std::to_string / decimal numeral of a non-negative integer (least significant first, then reversed) *)
Fixpoint udigits (fuel : nat) (n : Z) : list ascii :=
  match fuel with
  | O => []
  | S f => if n <? 10 then [char_of_digit n] else char_of_digit (n mod 10) :: udigits f (n / 10)
  end.
Definition numeral (n : Z) : list ascii := rev (udigits (S (Z.to_nat (Z.log2 n))) n).
(** 31-35 adapter_to_string on int / long: std::to_string *)
Definition adapter_to_string (n : Z) : list ascii :=
  if n <? 0 then "-"%char :: numeral (- n) else numeral n.

(** std::isspace in the "C" locale *)
Definition isspace (c : ascii) : bool :=
  let n := nat_of_ascii c in (Nat.eqb n 32 || (Nat.leb 9 n && Nat.leb n 13))%bool.
Fixpoint skip_space (s : list ascii) : list ascii :=
  match s with c :: s' => if isspace c then skip_space s' else s | [] => [] end.
Fixpoint take_digits (s : list ascii) : list ascii :=
  match s with c :: s' => if isdigit c then c :: take_digits s' else [] | [] => [] end.
Fixpoint accum (acc : Z) (ds : list ascii) : Z :=
  match ds with [] => acc | c :: ds' => accum (acc * 10 + digit_of c) ds' end.
(** std::stoll (base 10): skips white space, optional sign, digits; ignores what follows.
    [Throw "invalid_argument"] / [Throw "out_of_range"] are the two standard exceptions. *)
Definition stoll (s : list ascii) : res Z :=
  let s1 := skip_space s in
  let '(neg, s2) := match s1 with
                    | c :: s' => if Ascii.eqb c "-" then (true, s') else if Ascii.eqb c "+" then (false, s') else (false, s1)
                    | [] => (false, []) end in
  let ds := take_digits s2 in
  match ds with
  | [] => Throw "invalid_argument"
  | _ => let v := if neg then - accum 0 ds else accum 0 ds in
         if in_range 64 v then Ok v else Throw "out_of_range"
  end.
(** 37-41 adapter_to_int<T>: stoll converted to T (modular) *)
Definition adapter_to_int (w : Z) (s : list ascii) : res Z := v <- stoll s ;; Ok (swrap w v).

(** ** __int128_t (SYMXX_ENABLE_INT128, 162-257) *)
(** 172-185 adapter_bit_width: std::abs of the minimum is undefined *)
Definition adapter_bit_width (d : Z) : res Z := t <- adapter_abs 128 d ;; Ok (if t =? 0 then 0 else Z.log2 t + 1).
(** 191, 208: static_cast<size_t>(bits / 3.32192809488736234) + 1.  Simplification: the double quotient is replaced by the exact
    quotient by the decimal constant; for bits <= 128 that quotient is at least 10^-3 away from every integer except at bits = 0,
    so the rounding of the constant and of the division cannot change the truncated value. *)
Definition size_estimate (bits : Z) : Z := bits * 100000000000000000 / 332192809488736234 + 1.
(** 195-198, 211-214: decimal digits, least significant first; nothing is written for 0 *)
Fixpoint dec_rev (fuel : nat) (rem : Z) : list ascii :=
  match fuel with
  | O => []
  | S f => if rem <=? 0 then [] else char_of_digit (rem mod 10) :: dec_rev f (rem / 10)
  end.
(** 200, 215: erase the first character if it is NUL *)
Definition erase_nul (s : list ascii) : list ascii :=
  match s with c :: s' => if Ascii.eqb c "000" then s' else s | [] => [] end.
Definition set_front (c : ascii) (s : list ascii) : list ascii := match s with [] => [] | _ :: s' => c :: s' end.
(** 187-202 adapter_to_string(__int128_t).  [place] (HugeModel): write right to left into [sz] NULs, undefined if too long. *)
Definition to_string128 (num : Z) : res (list ascii) :=
  bits <- adapter_bit_width num ;;
  let sz := size_estimate bits + (if num <? 0 then 1 else 0) in
  rem <- adapter_abs 128 num ;;
  s <- place (Z.to_nat sz) (dec_rev 129 rem) ;;
  Ok (erase_nul (if num <? 0 then set_front "-" s else s)).
(** 204-217 adapter_to_string(__uint128_t): the bit width is taken of num converted to __int128_t *)
Definition to_string_u128 (num : Z) : res (list ascii) :=
  bits <- adapter_bit_width (swrap 128 num) ;;
  s <- place (Z.to_nat (size_estimate bits)) (dec_rev 129 num) ;;
  Ok (erase_nul s).
(** 229-238 adapter_to_int128: char is signed *)
Fixpoint to_int128_loop (m : Z) (s : list ascii) : res Z :=
  match s with
  | [] => Ok m
  | c :: s' =>
      m1 <- chk 128 (m * 10) ;;
      m2 <- chk 128 (m1 + (swrap 8 (Z.of_nat (nat_of_ascii c)) - 48)) ;;
      to_int128_loop m2 s'
  end.
Definition adapter_to_int128 (s : list ascii) : res Z := to_int128_loop 0 s.
(** 240-249 adapter_to_uint128 *)
Fixpoint to_uint128_loop (m : Z) (s : list ascii) : Z :=
  match s with
  | [] => m
  | c :: s' => to_uint128_loop (uwrap 128 (uwrap 128 (m * 10) + (swrap 8 (Z.of_nat (nat_of_ascii c)) - 48))) s'
  end.
Definition adapter_to_uint128 (s : list ascii) : Z := to_uint128_loop 0 s.
