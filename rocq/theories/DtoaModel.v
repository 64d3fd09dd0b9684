(** Model of include/symxx/dtoa.hpp (all citations are to that file): printing a double.

    A double is its bit pattern b, 0 <= b < 2^64 (memcpy in 325-330).  uint64_t and uint32_t results are reduced with [u64], [u32]; int results
    here stay far inside the range of int and are not reduced.  A shift by a negative amount or by 64 and more is undefined behaviour.
    The double arithmetic of k_comp is that of IEEE 754 binary64, round to nearest even (Coq's SpecFloat).
    Text is a list of characters; loops have fuel, and the theorems show that it suffices. *)
From Coq Require Import ZArith String Ascii Lia Bool List.
From Coq Require Import SpecFloat.
From Verif Require Import Base DtoaTable.
Import ListNotations.
Open Scope Z_scope.

Definition text := list ascii.
(** static_cast<char> and the code of a character *)
Definition chr (z : Z) : ascii := ascii_of_N (Z.to_N (z mod 256)).
Definition code (c : ascii) : Z := Z.of_N (N_of_ascii c).

(** 32-41 constants *)
Definition significand_size : Z := 52.
Definition exponent_bias : Z := 0x3FF + significand_size.
Definition min_exponent : Z := - exponent_bias.
Definition exponent_mask : Z := 0x7FF0000000000000.
Definition significand_mask : Z := 0x000FFFFFFFFFFFFF.
Definition hidden_bit : Z := 0x0010000000000000.
Definition diy_size : Z := 64.
Definition sign_mask : Z := 0x8000000000000000.
(** 39: the double nearest to 0.30102999566398114 is 0x134413509f79fe * 2^-54 *)
Definition inv_log2_10 : spec_float := S754_finite false 0x134413509f79fe (-54).
Definition ten9 : Z := 1000000000.

(** 332-341 class DiyFp *)
Record diy := Diy { df : Z; de : Z }.
Definition shl64 (x n : Z) : res Z := if ((0 <=? n) && (n <? 64))%bool then Ok (u64 (Z.shiftl x n)) else Ub "shift".
Definition shr64 (x n : Z) : res Z := if ((0 <=? n) && (n <? 64))%bool then Ok (Z.shiftr x n) else Ub "shift".

(** 343-358 DiyFp(double) *)
Definition diy_of_bits (b : Z) : diy :=
  let biased_e := Z.shiftr (Z.land b exponent_mask) significand_size in
  let significand := Z.land b significand_mask in
  if negb (biased_e =? 0) then Diy (u64 (significand + hidden_bit)) (biased_e - exponent_bias)
  else Diy significand (min_exponent + 1).
(** 360-364 operator- *)
Definition diy_sub (x y : diy) : res diy :=
  if ((de x =? de y) && (df y <=? df x))%bool then Ok (Diy (u64 (df x - df y)) (de x)) else Throw "These DiyFps can not minus.".
(** 366-381 operator* *)
Definition M32 : Z := 0xFFFFFFFF.
Definition diy_mul (x y : diy) : diy :=
  let a := Z.shiftr (df x) 32 in let b := Z.land (df x) M32 in
  let c := Z.shiftr (df y) 32 in let d := Z.land (df y) M32 in
  let ac := u64 (a * c) in let bc := u64 (b * c) in let ad := u64 (a * d) in let bd := u64 (b * d) in
  let tmp := u64 (u64 (Z.shiftr bd 32 + Z.land ad M32) + Z.land bc M32) in
  let tmp := u64 (tmp + 2 ^ 31) in
  Diy (u64 (u64 (u64 (ac + Z.shiftr ad 32) + Z.shiftr bc 32) + Z.shiftr tmp 32)) (de x + de y + 64).
(** 386-390, 399-403: the loop that shifts left until the bit [bit] is set *)
Fixpoint shift_up (fuel : nat) (bit : Z) (x : diy) : res diy :=
  if negb (Z.land (df x) bit =? 0) then Ok x else
  match fuel with O => Fuel | S n => shift_up n bit (Diy (u64 (Z.shiftl (df x) 1)) (de x - 1)) end.
(** 383-394 normalize *)
Definition normalize (x : diy) : res diy :=
  r <- shift_up 64 hidden_bit x ;;
  let n := diy_size - significand_size - 1 in
  f <- shl64 (df r) n ;; Ok (Diy f (de r - n)).
(** 396-407 normalize_boundary *)
Definition normalize_boundary (x : diy) : res diy :=
  r <- shift_up 64 (Z.shiftl hidden_bit 1) x ;;
  let n := diy_size - significand_size - 2 in
  f <- shl64 (df r) n ;; Ok (Diy f (de r - n)).
(** 409-429 normalized_boundaries: lower, upper *)
Definition normalized_boundaries (x : diy) : res (diy * diy) :=
  pl <- normalize_boundary (Diy (u64 (u64 (Z.shiftl (df x) 1) + 1)) (de x - 1)) ;;
  let mi := if df x =? hidden_bit then Diy (u64 (u64 (Z.shiftl (df x) 2) - 1)) (de x - 2)
            else Diy (u64 (u64 (Z.shiftl (df x) 1) - 1)) (de x - 1) in
  f <- shl64 (df mi) (de mi - de pl) ;;
  Ok (Diy f (de pl), pl).

(** 432-435 cached_power: operator[] outside the table is undefined behaviour *)
Definition cached_power (k : Z) : res diy :=
  if 343 + k <? 0 then Ub "index" else
  match nth_error powers_ten (Z.to_nat (343 + k)), nth_error powers_ten_e (Z.to_nat (343 + k)) with
  | Some f, Some e => Ok (Diy f e)
  | _, _ => Ub "index"
  end.
(** std::ceil of a finite double, as an integer *)
Definition ceil (x : spec_float) : Z :=
  match x with
  | S754_finite s m e => let v := if s then Z.neg m else Z.pos m in if 0 <=? e then v * 2 ^ e else - ((- v) / 2 ^ (- e))
  | _ => 0
  end.
(** 437-440 k_comp: the int is converted to double, multiplied, rounded up *)
Definition k_comp (e alpha : Z) : Z := ceil (SFmul 53 1024 (binary_normalize 53 1024 (alpha - e + 63) 0 false) inv_log2_10).

(** 442-452 grisu_round: --buffer.back() *)
Fixpoint dec_last (b : text) : res text :=
  match b with
  | [] => Ub "back of empty string"
  | [c] => Ok [chr (code c - 1)]
  | c :: b' => r <- dec_last b' ;; Ok (c :: r)
  end.
Fixpoint grisu_round (fuel : nat) (buffer : text) (delta rest ten_kappa wp_w : Z) : res text :=
  if ((rest <? wp_w) && (ten_kappa <=? u64 (delta - rest))
      && ((u64 (rest + ten_kappa) <? wp_w) || (u64 (u64 (rest + ten_kappa) - wp_w) <? u64 (wp_w - rest))))%bool
  then match fuel with
       | O => Fuel
       | S n => b <- dec_last buffer ;; grisu_round n b delta (u64 (rest + ten_kappa)) ten_kappa wp_w
       end
  else Ok buffer.
Definition round_fuel : nat := 32.

(** 466-467, 487-488: a digit is appended unless it is a leading zero *)
Definition put_digit (buffer : text) (d : Z) : text :=
  if (negb (d =? 0) || match buffer with [] => false | _ => true end)%bool then buffer ++ [chr (48 + d)] else buffer.
(** 454-498 digit_gen; [ne] is -one.e = -Mp.e.  The result is the buffer and the final K. *)
Fixpoint fraction_digits (fuel : nat) (ne one wp_w : Z) (buffer : text) (p2 delta unit kappa K : Z) : res (text * Z) :=
  match fuel with
  | O => Fuel
  | S n =>
      let p2 := u64 (p2 * 10) in
      let delta := u64 (delta * 10) in
      let unit := u64 (unit * 10) in
      let buffer := put_digit buffer (Z.shiftr p2 ne) in
      let p2 := Z.land p2 (one - 1) in
      let kappa := kappa - 1 in
      if p2 <? delta then b <- grisu_round round_fuel buffer delta p2 one (u64 (wp_w * unit)) ;; Ok (b, K + kappa)
      else fraction_digits n ne one wp_w buffer p2 delta unit kappa K
  end.
(** 473-484: [kappa] counts the rounds left *)
Fixpoint integer_digits (kappa : nat) (ne one wp_w : Z) (buffer : text) (p1 p2 delta div K : Z) : res (text * Z) :=
  match kappa with
  | O => fraction_digits 32 ne one wp_w buffer p2 delta 1 0 K
  | S k =>
      let buffer := put_digit buffer (p1 / div) in
      let p1 := p1 mod div in
      let tmp := u64 (u64 (Z.shiftl p1 ne) + p2) in
      if tmp <=? delta then b <- grisu_round round_fuel buffer delta tmp (u64 (Z.shiftl div ne)) wp_w ;; Ok (b, K + Z.of_nat k)
      else integer_digits k ne one wp_w buffer p1 p2 delta (div / 10) K
  end.
Definition digit_gen (W Mp delta : diy) (buffer : text) (K : Z) : res (text * Z) :=
  let ne := - de Mp in
  one <- shl64 1 ne ;;
  wp_w <- diy_sub Mp W ;;
  p1 <- shr64 (df Mp) ne ;;
  integer_digits 10 ne one (df wp_w) buffer (u32 p1) (Z.land (df Mp) (one - 1)) (df delta) ten9 K.

(** 500-515 grisu2: the buffer and K *)
Definition grisu2 (v : Z) : res (text * Z) :=
  '(w_m, w_p) <- normalized_boundaries (diy_of_bits v) ;;
  w <- normalize (diy_of_bits v) ;;
  let mk := k_comp (de w_p + 64) (-59) in
  c_mk <- cached_power mk ;;
  let W := diy_mul w c_mk in
  let Wp := diy_mul w_p c_mk in
  let Wm := diy_mul w_m c_mk in
  let Wm := Diy (u64 (df Wm + 1)) (de Wm) in
  let Wp := Diy (u64 (df Wp - 1)) (de Wp) in
  delta <- diy_sub Wp Wm ;;
  digit_gen W Wp delta [] (- mk).

(** 517-541 fill_exponent, appended to the buffer *)
Definition fill_exponent (K : Z) (buffer : text) : text :=
  let (buffer, K) := if K <? 0 then (buffer ++ ["-"%char], - K) else (buffer, K) in
  if 100 <=? K then buffer ++ [chr (48 + Z.quot K 100); chr (48 + Z.quot (Z.rem K 100) 10); chr (48 + Z.rem (Z.rem K 100) 10)]
  else if 10 <=? K then buffer ++ [chr (48 + Z.quot K 10); chr (48 + Z.rem K 10)]
  else buffer ++ [chr (48 + K)].
(** string::insert(end, n, c): a negative count becomes a huge size_t *)
Definition zeros (n : Z) : res text := if n <? 0 then Throw "basic_string::insert" else Ok (repeat "0"%char (Z.to_nat n)).
(** 543-581 prettify_string *)
Definition prettify_string (buffer : text) (k : Z) : res text :=
  let nb_digits := Z.of_nat (length buffer) in
  let kk := nb_digits + k in
  if ((nb_digits <=? kk) && (kk <=? 21))%bool then
    z <- zeros (kk - 1) ;; Ok (buffer ++ z ++ list_ascii_of_string ".0")
  else if ((0 <? kk) && (kk <=? 21))%bool then
    Ok (firstn (Z.to_nat kk) buffer ++ list_ascii_of_string "." ++ skipn (Z.to_nat kk) buffer)
  else if ((-6 <? kk) && (kk <=? 0))%bool then
    z <- zeros (- kk) ;; Ok (list_ascii_of_string "0." ++ z ++ buffer)
  else if nb_digits =? 1 then
    Ok (fill_exponent (kk - 1) (buffer ++ list_ascii_of_string "e"))
  else
    match buffer with
    | [] => Ub "iterator past the end"
    | c :: r => Ok (fill_exponent (kk - 1) ([c] ++ list_ascii_of_string "." ++ r ++ list_ascii_of_string "e"))
    end.
(** 583-589 fill_double *)
Definition fill_double (v : Z) : res text := '(buffer, K) <- grisu2 v ;; prettify_string buffer K.
(** 591-605 dtoa; value == 0 for the patterns 0 and 2^63; value < 0: sign bit set, not zero, not NaN; std::abs clears the sign bit *)
Definition is_zero (v : Z) : bool := Z.land v 0x7FFFFFFFFFFFFFFF =? 0.
Definition is_nan (v : Z) : bool := ((Z.land v exponent_mask =? exponent_mask) && negb (Z.land v significand_mask =? 0))%bool.
Definition is_negative (v : Z) : bool := (negb (Z.land v sign_mask =? 0) && negb (is_zero v) && negb (is_nan v))%bool.
Definition fabs (v : Z) : Z := Z.land v 0x7FFFFFFFFFFFFFFF.
Definition dtoa (v : Z) : res text :=
  if (is_zero v && negb (Z.land v sign_mask =? 0))%bool then Ok (list_ascii_of_string "-0.0") else
  buffer <- (if is_zero v then Ok (list_ascii_of_string "0.0") else fill_double (fabs v)) ;;
  Ok (if is_negative v then list_ascii_of_string "-" ++ buffer else buffer).
