(** Model of include/symxx/huge.hpp (all citations are to that file).

    A [std::vector<digit>] / [std::span<const digit>] is a [list Z], least significant digit first.
    [digit] is uint32_t, [twodigits] is uint64_t, [sdigit] is int32_t: every place where the C++ type
    could wrap carries an explicit [u32]/[u64]/[swrap 32].
    Simplification (whole file): vector sizes are unbounded naturals, i.e. sizes are assumed to fit the
    [int]/[sdigit] casts at 130, 206, 299 (fewer than 2^30 digits); allocation never fails. *)
From Coq Require Import ZArith String Ascii Lia Bool List.
From Verif Require Import Base.
Import ListNotations.
Open Scope Z_scope.

(** 45-49 *)
Definition SHIFT : Z := 30.
Definition BASE : Z := 2 ^ 30.
Definition MASK : Z := BASE - 1.
Definition DEC_SHIFT : Z := 9.
Definition DEC_BASE : Z := 1000000000.

(** ** helpers (namespace helper, 53-135) *)

(** 57-67 [digits_left_shift z a m d]: the caller passes m = a.size(); returns (z, carry). *)
Fixpoint left_shift_loop (d carry : Z) (a : list Z) : list Z * Z :=
  match a with
  | [] => ([], carry)
  | x :: a' =>
      let acc := Z.lor (u64 (Z.shiftl x d)) carry in
      let z := Z.land (u32 acc) MASK in
      let c := u32 (Z.shiftr acc SHIFT) in
      let '(zs, cf) := left_shift_loop d c a' in (z :: zs, cf)
  end.
Definition digits_left_shift (a : list Z) (d : Z) : list Z * Z := left_shift_loop d 0 a.

(** 69-80 [digits_right_shift z a m d]: processes a[m-1] .. a[0]; here on the list a[0..m-1].
    Returns (z[0..m-1], carry out of the bottom). *)
Fixpoint right_shift_loop (d mask : Z) (a : list Z) : list Z * Z :=
  match a with
  | [] => ([], 0)
  | x :: a' =>
      let '(zs, carry) := right_shift_loop d mask a' in
      let acc := Z.lor (u64 (Z.shiftl carry SHIFT)) x in
      (u32 (Z.shiftr acc d) :: zs, Z.land (u32 acc) mask)
  end.
Definition digits_right_shift (a : list Z) (m : nat) (d : Z) : list Z * Z :=
  right_shift_loop d (u32 (u32 (Z.shiftl 1 d) - 1)) (firstn m a).

(** 82-90 [k_mul_split]: returns (high, low). *)
Definition k_mul_split (n : list Z) (size : nat) : list Z * list Z :=
  let k := Nat.min (length n) size in (skipn k n, firstn k n).

(** 93-107 [digits_inplace_add]: new contents of x and the carry. *)
Fixpoint inplace_add_loop (carry : Z) (x y : list Z) : list Z * Z :=
  match x with
  | [] => ([], carry)
  | xi :: x' =>
      let c1 := u32 (carry + xi) in
      let '(c2, y') := match y with [] => (c1, []) | yi :: y' => (u32 (c1 + yi), y') end in
      let '(r, cf) := inplace_add_loop (Z.shiftr c2 SHIFT) x' y' in
      (Z.land c2 MASK :: r, cf)
  end.
Definition digits_inplace_add (x y : list Z) : list Z * Z := inplace_add_loop 0 x y.

(** 109-124 [digits_inplace_sub]: new contents of x and the borrow. *)
Fixpoint inplace_sub_loop (borrow : Z) (x y : list Z) : list Z * Z :=
  match x with
  | [] => ([], borrow)
  | xi :: x' =>
      let b1 := u32 (xi - borrow) in
      let '(b2, y') := match y with [] => (b1, []) | yi :: y' => (u32 (b1 - yi), y') end in
      let '(r, bf) := inplace_sub_loop (Z.land (Z.shiftr b2 SHIFT) 1) x' y' in
      (Z.land b2 MASK :: r, bf)
  end.
Definition digits_inplace_sub (x y : list Z) : list Z * Z := inplace_sub_loop 0 x y.

(** 126-134 [digits_rem_by1]: division by zero is undefined. *)
Fixpoint rem_by1_loop (y : Z) (x : list Z) : Z :=
  match x with
  | [] => 0
  | xi :: x' => (Z.lor (u64 (Z.shiftl (rem_by1_loop y x') SHIFT)) xi) mod y
  end.
Definition digits_rem_by1 (x : list Z) (y : Z) : res (list Z) :=
  if y =? 0 then (match x with [] => Ok [] | _ => Ub "% 0" end)
  else let r := rem_by1_loop y x in
       Ok (if r =? 0 then [] else [u32 r]).

(** ** digit-vector arithmetic *)

(** 136-156 [digits_add]. *)
Fixpoint add_loop (carry : Z) (a b : list Z) : list Z :=
  match a with
  | [] => if carry =? 0 then [] else [carry]
  | x :: a' =>
      let c1 := u32 (carry + x) in
      let '(c2, b') := match b with [] => (c1, []) | y :: b' => (u32 (c1 + y), b') end in
      Z.land c2 MASK :: add_loop (Z.shiftr c2 SHIFT) a' b'
  end.
Definition digits_add (c d : list Z) : list Z :=
  let a := if Nat.ltb (length d) (length c) then c else d in
  let b := if Nat.ltb (length d) (length c) then d else c in
  add_loop 0 a b.

(** 158-174 [digits_sub]. *)
Fixpoint sub_loop (borrow : Z) (a b : list Z) : list Z :=
  match a with
  | [] => []
  | x :: a' =>
      let b1 := u32 (x - borrow) in
      let '(b2, b') := match b with [] => (b1, []) | y :: b' => (u32 (b1 - y), b') end in
      Z.land b2 MASK :: sub_loop (Z.land (Z.shiftr b2 SHIFT) 1) a' b'
  end.
Definition digits_sub (a b : list Z) : list Z := sub_loop 0 a b.

(** 195-198, 289-292, 397-398: [while (v.back() == 0) v.pop_back();]  ([back()] of an empty vector is undefined). *)
Fixpoint pop_zeros (r : list Z) : res (list Z) :=
  match r with
  | [] => Ub "back() on an empty vector"
  | x :: r' => if x =? 0 then pop_zeros r' else Ok r
  end.
Definition trim_back (v : list Z) : res (list Z) :=
  r <- pop_zeros (rev v) ;; Ok (rev r).

(** 182-193: inner loop of [digits_simple_mul]; [rt] is ret[i..]. Dereferencing past the end is undefined. *)
Fixpoint mul_row (ai carry : Z) (b rt : list Z) : res (list Z) :=
  match b with
  | [] =>
      if carry =? 0 then Ok rt
      else match rt with
           | [] => Ub "dereference of end iterator"
           | r :: rt' => Ok (u32 (r + u32 (Z.land carry MASK)) :: rt')
           end
  | y :: b' =>
      match rt with
      | [] => Ub "dereference of end iterator"
      | r :: rt' =>
          let c := u64 (carry + u64 (r + u64 (y * ai))) in
          rest <- mul_row ai (Z.shiftr c SHIFT) b' rt' ;;
          Ok (u32 (Z.land c MASK) :: rest)
      end
  end.
(** 180-194: outer loop over a. *)
Fixpoint mul_rows (a b rt : list Z) : res (list Z) :=
  match a with
  | [] => Ok rt
  | x :: a' =>
      rt1 <- mul_row x 0 b rt ;;
      match rt1 with
      | [] => Ub "iterator past end"
      | r :: rt2 => rest <- mul_rows a' b rt2 ;; Ok (r :: rest)
      end
  end.
(** 176-199 [digits_simple_mul]. *)
Definition digits_simple_mul (a b : list Z) : res (list Z) :=
  ret <- mul_rows a b (repeat 0 (length a + length b)) ;; trim_back ret.

(** 202-221 [digits_cmp]; the [for] loop at 210-217 runs from the top digit down and stops at the first difference. *)
Fixpoint cmp_loop (ra rb : list Z) : Z :=
  match ra, rb with
  | x :: ra', y :: rb' =>
      let diff := swrap 32 x - swrap 32 y in
      if diff =? 0 then cmp_loop ra' rb' else diff
  | _, _ => 0
  end.
Definition digits_cmp (a b : list Z) (apos bpos : bool) : Z :=
  let sign := (if apos then 1 else -1) * Z.of_nat (length a)
              - (if bpos then 1 else -1) * Z.of_nat (length b) in
  if sign =? 0 then
    let diff := cmp_loop (rev a) (rev b) in if apos then diff else - diff
  else sign.

(** std::copy(t.begin(), t.end(), ret.begin() + pos) at 267, 271: writing past the end is undefined. *)
Definition write_at (ret : list Z) (pos : nat) (t : list Z) : res (list Z) :=
  if Nat.leb (pos + length t) (length ret)
  then Ok (firstn pos ret ++ t ++ skipn (pos + length t) ret)
  else Ub "copy past the end".

(** 233-234 *)
Definition cut_off : nat := 70.
Definition square_cut_off : nat := 140.

(** 223-293 [digits_mul].  Recursion on fuel; [digits_mul] below supplies the length of the longer operand + 1. *)
Fixpoint digits_mul_fuel (fuel : nat) (c d : list Z) : res (list Z) :=
  match fuel with
  | O => Fuel
  | S fuel' =>
      if (Nat.eqb (length c) 0 || Nat.eqb (length d) 0)%bool then Ok [] else   (* 225-229 *)
      let a := if Nat.ltb (length c) (length d) then c else d in              (* 231 *)
      let b := if Nat.ltb (length c) (length d) then d else c in              (* 232 *)
      let eq := digits_cmp c d true true =? 0 in                              (* 235 *)
      let i := if eq then square_cut_off else cut_off in                      (* 236 *)
      if Nat.leb (length a) i then digits_simple_mul a b else                 (* 237-246 *)
      let shift := Nat.div (length b) 2 in                                    (* 250 *)
      let '(ah, al) := k_mul_split a shift in                                 (* 251 *)
      let '(bh, bl) := if eq then (ah, al) else k_mul_split b shift in        (* 252-263 *)
      let ret := repeat 0 (length a + length b) in                            (* 264 *)
      t1 <- digits_mul_fuel fuel' ah bh ;;                                    (* 266 *)
      ret <- write_at ret (shift * 2) t1 ;;                                   (* 267 *)
      t2 <- digits_mul_fuel fuel' al bl ;;                                    (* 270 *)
      ret <- write_at ret 0 t2 ;;                                             (* 271 *)
      let mid1 := fst (digits_inplace_sub (skipn shift ret) t2) in            (* 273-274 *)
      let mid2 := fst (digits_inplace_sub mid1 t1) in                         (* 275 *)
      let s1 := digits_add ah al in                                           (* 276 *)
      let s2 := if eq then s1 else digits_add bh bl in                        (* 277-284 *)
      t3 <- digits_mul_fuel fuel' s1 s2 ;;                                    (* 287 *)
      let mid3 := fst (digits_inplace_add mid2 t3) in                         (* 288 *)
      trim_back (firstn shift ret ++ mid3)                                    (* 289-292 *)
  end.
Definition digits_mul (c d : list Z) : res (list Z) :=
  digits_mul_fuel (S (Nat.max (length c) (length d))) c d.

(** 295-310 [digits_divrem_by1]: (quotient digits, final remd). *)
Fixpoint divrem_by1_loop (b : Z) (c : list Z) : list Z * Z :=
  match c with
  | [] => ([], 0)
  | x :: c' =>
      let '(qs, remd) := divrem_by1_loop b c' in
      let dividend := Z.lor (u64 (Z.shiftl remd SHIFT)) x in
      (u32 (dividend / b) :: qs, u32 (dividend mod b))
  end.
Definition digits_divrem_by1 (c : list Z) (b : Z) : res (list Z * list Z) :=
  if b =? 0 then Ub "/ 0"
  else let '(qs, remd) := divrem_by1_loop b c in
       Ok (qs, if remd =? 0 then [] else [remd]).

(** 341: SYMXX_HUGE_SHIFT - std::bit_width(b.back()). *)
Definition bit_width (x : Z) : Z := if x =? 0 then 0 else Z.log2 x + 1.

(** 361-370: quotient-digit correction loop.  At most two rounds are possible when the divisor's top digit is
    at least BASE/2 (proved); the fuel 4 is therefore never exhausted for canonical divisors. *)
Fixpoint qcorrect (fuel : nat) (wm1 wm2 vn2 q r : Z) : res Z :=
  match fuel with
  | O => Fuel
  | S fuel' =>
      if u64 (wm2 * q) >? Z.lor (u64 (Z.shiftl r SHIFT)) vn2 then
        let q' := u32 (q - 1) in
        let r' := u32 (r + wm1) in
        if r' >=? BASE then Ok q' else qcorrect fuel' wm1 wm2 vn2 q' r'
      else Ok q
  end.

(** 371-380: multiply and subtract; returns the new window and the final zhi. *)
Fixpoint mulsub_loop (q zhi : Z) (v w : list Z) : list Z * Z :=
  match v, w with
  | x :: v', y :: w' =>
      let z := swrap 32 x + zhi - q * y in
      let '(r, zf) := mulsub_loop q (swrap 32 (Z.shiftr z SHIFT)) v' w' in
      (Z.land (u32 z) MASK :: r, zf)
  | _, _ => ([], zhi)
  end.

(** 383-389: add back. *)
Fixpoint addback_loop (carry : Z) (v w : list Z) : list Z :=
  match v, w with
  | x :: v', y :: w' =>
      let c := u32 (carry + u32 (x + y)) in
      Z.land c MASK :: addback_loop (Z.shiftr c SHIFT) v' w'
  | _, _ => []
  end.

(** 356-392: one iteration of the main loop of [digits_divrem] with vk = v.begin() + j.
    Returns the quotient digit and the updated v. *)
Definition divrem_iter (w : list Z) (n : nat) (j : nat) (v : list Z) : res (Z * list Z) :=
  let wm1 := nth (n - 1) w 0 in
  let wm2 := nth (n - 2) w 0 in
  let vtop := nth (j + n) v 0 in
  let vv := Z.lor (u64 (Z.shiftl vtop SHIFT)) (nth (j + n - 1) v 0) in
  if wm1 =? 0 then Ub "/ 0" else
  let q0 := u32 (vv / wm1) in
  let r0 := u32 (vv mod wm1) in
  q <- qcorrect 4 wm1 wm2 (nth (j + n - 2) v 0) q0 r0 ;;
  let win := firstn n (skipn j v) in
  let '(win1, zhi) := mulsub_loop q 0 win w in
  let '(win2, q2) :=
    if swrap 32 vtop + zhi <? 0
    then (addback_loop 0 win1 w, u32 (q - 1))
    else (win1, q) in
  Ok (q2, firstn j v ++ win2 ++ skipn (j + n) v).

(** 354-393: the loop j = k-1 .. 0, writing res[j]. *)
Fixpoint divrem_loop (w : list Z) (n : nat) (k : nat) (v : list Z) (qs : list Z) : res (list Z * list Z) :=
  match k with
  | O => Ok (qs, v)
  | S j =>
      '(q, v') <- divrem_iter w n j v ;;
      divrem_loop w n j v' (q :: qs)
  end.

(** 312-399 [digits_divrem]: (res, rem).  The reads at 344/352/353 are in bounds because b.size() >= 2 and
    a.size() >= b.size() there (cmp > 0). *)
Definition digits_divrem (a b : list Z) : res (list Z * list Z) :=
  let cmp := digits_cmp a b true true in
  if cmp =? 0 then Ok ([1], [])
  else if cmp <? 0 then Ok ([], a)
  else match b with
  | [] => Ub "back() on an empty vector"                                  (* 341 with b empty *)
  | [b0] => digits_divrem_by1 a b0                                        (* 330-334 *)
  | _ =>
    let sz_b := length b in
    let d := SHIFT - bit_width (last b 0) in                              (* 341 *)
    let w := fst (digits_left_shift b d) in                               (* 342 *)
    let '(v0, carry) := digits_left_shift a d in                          (* 343 *)
    let grow := (negb (carry =? 0) || (nth (length a - 1) v0 0 >=? nth (sz_b - 1) w 0))%bool in
    let v := v0 ++ [if grow then carry else 0] in                         (* 339, 344-346 *)
    let sz_a := (if grow then length a + 1 else length a)%nat in           (* 347 *)
    let k := (sz_a - sz_b)%nat in                                         (* 350 *)
    '(qs, v') <- divrem_loop w sz_b k v [] ;;                             (* 354-393 *)
    rem <- trim_back (fst (digits_right_shift v' sz_b d)) ;;              (* 395-397 *)
    q <- trim_back qs ;;                                                  (* 398 *)
    Ok (q, rem)
  end.

(** 401-420 [digits_rem]. *)
Definition digits_rem (a b : list Z) : res (list Z) :=
  if digits_cmp a b true true <? 0 then Ok a
  else match b with
  | [b0] => digits_rem_by1 a b0
  | _ => '(_, rem) <- digits_divrem a b ;; Ok rem
  end.

(** 423-434 [digits_gcd] (recursion on fuel). *)
Fixpoint digits_gcd_fuel (fuel : nat) (a b : list Z) : res (list Z) :=
  match fuel with
  | O => Fuel
  | S fuel' =>
      match b with
      | [] => Ok a
      | _ => t <- digits_rem a b ;; digits_gcd_fuel fuel' b t
      end
  end.
Definition gcd_fuel (a b : list Z) : nat := (30 * (length a + length b) + 3)%nat.
Definition digits_gcd (a b : list Z) : res (list Z) := digits_gcd_fuel (gcd_fuel a b) a b.

(** 478-487 [digits_from_int], after the absolute value: u > 0; u is a value of a type of at most 64 bits,
    so three rounds always suffice. *)
Fixpoint from_int_loop (fuel : nat) (u : Z) : res (list Z) :=
  if u =? 0 then Ok [] else
  match fuel with
  | O => Fuel
  | S f => r <- from_int_loop f (Z.shiftr u SHIFT) ;; Ok (u32 (Z.land u MASK) :: r)
  end.
Definition digits_from_int (u : Z) : res (list Z) := from_int_loop 3 u.

(** ** class Huge (497-955) *)
Record huge := mkHuge { digits : list Z; is_positive : bool }.

(** 510-536 Huge(U val) for integral U of [w] bits: unsigned, or signed via std::abs (undefined on the minimum). *)
Definition huge_of_unsigned (val : Z) : res huge :=
  ds <- digits_from_int val ;; Ok (mkHuge ds (val >=? 0)).
Definition huge_of_signed (w : Z) (val : Z) : res huge :=
  if val =? - 2 ^ (w - 1) then Ub "std::abs of the minimum value"
  else ds <- digits_from_int (Z.abs val) ;; Ok (mkHuge ds (val >=? 0)).

(** std::isdigit in the "C" locale. *)
Definition isdigit (c : ascii) : bool :=
  let n := Z.of_nat (nat_of_ascii c) in ((48 <=? n) && (n <=? 57))%bool.
Definition digit_of (c : ascii) : Z := Z.of_nat (nat_of_ascii c) - 48.

(** 562: skip to the first digit or sign. *)
Fixpoint skip_prefix (s : list ascii) : list ascii :=
  match s with
  | [] => []
  | c :: s' => if (isdigit c || Ascii.eqb c "+" || Ascii.eqb c "-")%bool then s else skip_prefix s'
  end.

(** 584-595: continue a chunk up to 9 digits; [n] = digits that may still be read.
    Returns (c, i, rest of the string, stopped at a non-digit). *)
Fixpoint read_chunk (n : nat) (c i : Z) (s : list ascii) : Z * Z * list ascii * bool :=
  match n with
  | O => (c, i, s, false)
  | S n' =>
      match s with
      | [] => (c, i, [], false)
      | ch :: s' =>
          if isdigit ch then read_chunk n' (u64 (c * 10 + digit_of ch)) (i + 1) s'
          else (c, i, s, true)
      end
  end.

(** 597-604: convmult = 10^9 for a full chunk, else 10^i by repeated multiplication. *)
Fixpoint mul10 (n : nat) (m : Z) : Z := match n with O => m | S n' => mul10 n' (u64 (m * 10)) end.
Definition convmult (i : Z) : Z := if i =? 9 then 1000000000 else mul10 (Z.to_nat (i - 1)) 10.

(** 613-617: push the remaining carry. *)
Fixpoint push_carry (fuel : nat) (c : Z) : res (list Z) :=
  if c =? 0 then Ok [] else
  match fuel with
  | O => Fuel
  | S f => r <- push_carry f (Z.shiftr c SHIFT) ;; Ok (u32 (Z.land c MASK) :: r)
  end.
(** 607-617: digits := digits * convmult + c. *)
Fixpoint muladd_loop (mult c : Z) (ds : list Z) : res (list Z) :=
  match ds with
  | [] => push_carry 3 c
  | p :: ds' =>
      let c1 := u64 (c + u64 (p * mult)) in
      r <- muladd_loop mult (Z.shiftr c1 SHIFT) ds' ;;
      Ok (u32 (Z.land c1 MASK) :: r)
  end.

(** 579-618: main loop (one chunk per round; fuel = string length). *)
Fixpoint parse_loop (fuel : nat) (s : list ascii) (ds : list Z) : res (list Z) :=
  match s with
  | [] => Ok ds
  | ch :: s' =>
      if negb (isdigit ch) then Ok ds else
      match fuel with
      | O => Fuel
      | S f =>
          let '(c, i, rest, stop) := read_chunk 8 (digit_of ch) 1 s' in
          ds' <- muladd_loop (convmult i) c ds ;;
          if stop then Ok ds' else parse_loop f rest ds'
      end
  end.

(** 558-619 Huge(const std::string&).  Note 565/569: the sign is looked up at s[0], not at s[pos]. *)
Definition huge_of_string (s : list ascii) : res huge :=
  let p := skip_prefix s in
  match p, s with
  | [], _ => Throw "Invaild string."
  | _, c0 :: _ =>
      if Ascii.eqb c0 "+" then ds <- parse_loop (length s) (tl p) [] ;; Ok (mkHuge ds true)
      else if Ascii.eqb c0 "-" then ds <- parse_loop (length s) (tl p) [] ;; Ok (mkHuge ds false)
      else ds <- parse_loop (length s) p [] ;; Ok (mkHuge ds true)
  | _, [] => Throw "Invaild string."
  end.

(** 621-648 operator+= (operator+ at 650-655 is a copy followed by +=). *)
Definition huge_add (x h : huge) : huge :=
  if ((is_positive h && is_positive x) || (negb (is_positive h) && negb (is_positive x)))%bool
  then mkHuge (digits_add (digits x) (digits h)) (is_positive x)
  else
    let cmp := digits_cmp (digits x) (digits h) true true in
    if cmp =? 0 then mkHuge [] (is_positive x)
    else if cmp <? 0 then mkHuge (digits_sub (digits h) (digits x)) (negb (is_positive x))
    else mkHuge (digits_sub (digits x) (digits h)) (is_positive x).

(** 657-684 operator-= *)
Definition huge_sub (x h : huge) : huge :=
  let cmp := digits_cmp (digits x) (digits h) true true in
  if cmp =? 0 then mkHuge [] (is_positive x)
  else if ((is_positive h && negb (is_positive x)) || (negb (is_positive h) && is_positive x))%bool
  then mkHuge (digits_add (digits x) (digits h)) (is_positive x)
  else if cmp <? 0 then mkHuge (digits_sub (digits h) (digits x)) (negb (is_positive x))
  else mkHuge (digits_sub (digits x) (digits h)) (is_positive x).

(** 693-700 operator*= *)
Definition same_sign (x h : huge) : bool :=
  ((is_positive h && is_positive x) || (negb (is_positive h) && negb (is_positive x)))%bool.
Definition huge_mul (x h : huge) : res huge :=
  t <- digits_mul (digits x) (digits h) ;; Ok (mkHuge t (same_sign x h)).

(** 709-718 operator/= *)
Definition huge_div (x h : huge) : res huge :=
  match digits h with
  | [] => Throw division_by_zero
  | _ => '(q, _) <- digits_divrem (digits x) (digits h) ;; Ok (mkHuge q (same_sign x h))
  end.

(** 758-765 operator%= *)
Definition huge_mod (x h : huge) : res huge :=
  match digits h with
  | [] => Throw division_by_zero
  | _ => r <- digits_rem (digits x) (digits h) ;; Ok (mkHuge r (is_positive x))
  end.

(** 963-972 divrem *)
Definition huge_divrem (x h : huge) : res (huge * huge) :=
  match digits h with
  | [] => Throw division_by_zero
  | _ => '(q, r) <- digits_divrem (digits x) (digits h) ;;
         Ok (mkHuge q (same_sign x h), mkHuge r true)
  end.

(** 727-730, 804-807 unary minus / negate; 800-803 abs; 775-780 gcd *)
Definition huge_neg (x : huge) : huge := mkHuge (digits x) (negb (is_positive x)).
Definition huge_abs (x : huge) : huge := mkHuge (digits x) true.
Definition huge_gcd (x h : huge) : res huge :=
  g <- digits_gcd (digits x) (digits h) ;; Ok (mkHuge g true).

(** 732-756 ++ and --: += 1 / -= 1 where 1 is converted with Huge(int). *)
Definition huge_one : huge := mkHuge [1] true.
Definition huge_incr (x : huge) : huge := huge_add x huge_one.
Definition huge_decr (x : huge) : huge := huge_sub x huge_one.

(** 808-836 comparisons *)
Definition huge_cmp (x h : huge) : Z := digits_cmp (digits x) (digits h) (is_positive x) (is_positive h).
Definition huge_lt (x h : huge) : bool := huge_cmp x h <? 0.
Definition huge_gt (x h : huge) : bool := huge_cmp x h >? 0.
Definition huge_eq (x h : huge) : bool := huge_cmp x h =? 0.
Definition huge_ne (x h : huge) : bool := negb (huge_cmp x h =? 0).
Definition huge_le (x h : huge) : bool := huge_cmp x h <=? 0.
Definition huge_ge (x h : huge) : bool := huge_cmp x h >=? 0.

(** ** to_string (838-893) *)
(** 844-849: for (auto &j : out) *)
Fixpoint dec_loop (hi : Z) (out : list Z) : list Z * Z :=
  match out with
  | [] => ([], hi)
  | j :: out' =>
      let z := Z.lor (u64 (Z.shiftl j SHIFT)) hi in
      let hi' := u32 (z / DEC_BASE) in
      let j' := u32 (z - hi' * DEC_BASE) in
      let '(r, hf) := dec_loop hi' out' in (j' :: r, hf)
  end.
(** 850-854: while (hi != 0) ; hi < 2^32 so two rounds suffice *)
Fixpoint dec_push (fuel : nat) (hi : Z) : res (list Z) :=
  if hi =? 0 then Ok [] else
  match fuel with
  | O => Fuel
  | S f => r <- dec_push f (hi / DEC_BASE) ;; Ok (hi mod DEC_BASE :: r)
  end.
(** 841-855: from the most significant digit down. *)
Fixpoint dec_digits (ds : list Z) : res (list Z) :=
  match ds with
  | [] => Ok []
  | d :: ds' =>
      out <- dec_digits ds' ;;
      let '(out1, hi) := dec_loop d out in
      more <- dec_push 2 hi ;;
      Ok (out1 ++ more)
  end.
(** 862-868: number of extra characters for the top chunk *)
Fixpoint count_tenpow (fuel : nat) (rem tenpow : Z) : res nat :=
  match fuel with
  | O => Fuel
  | S f => if rem >=? tenpow
           then n <- count_tenpow f rem (u32 (tenpow * 10)) ;; Ok (S n)
           else Ok 0%nat
  end.
Definition char_of_digit (d : Z) : ascii := ascii_of_nat (Z.to_nat (48 + d)).
(** 875-879: nine characters, least significant first *)
Fixpoint fill9 (n : nat) (rem : Z) : list ascii :=
  match n with O => [] | S n' => char_of_digit (rem mod 10) :: fill9 n' (rem / 10) end.
(** 882-886: do ... while (rem != 0) *)
Fixpoint fill_top (fuel : nat) (rem : Z) : res (list ascii) :=
  match fuel with
  | O => Fuel
  | S f => let c := char_of_digit (rem mod 10) in
           if rem / 10 =? 0 then Ok [c] else r <- fill_top f (rem / 10) ;; Ok (c :: r)
  end.
(** 869-892: characters are written right to left into a string of [len] NULs; writing more than [len] is undefined *)
Definition place (len : nat) (filled : list ascii) : res (list ascii) :=
  if Nat.ltb len (length filled) then Ub "write before the beginning of the string"
  else Ok (repeat "000"%char (len - length filled) ++ rev filled).
Definition huge_to_string (x : huge) : res (list ascii) :=
  out0 <- dec_digits (digits x) ;;
  let out := match out0 with [] => [0] | _ => out0 end in                    (* 857-858 *)
  let top := last out 0 in
  extra <- count_tenpow 10 top 10 ;;
  let len := ((if is_positive x then 0 else 1) + 1 + (length out - 1) * 9 + extra)%nat in
  tops <- fill_top 10 top ;;
  let filled := flat_map (fill9 9) (removelast out) ++ tops
                ++ (if is_positive x then [] else ["-"%char]) in
  place len filled.

(** ** to<U>() for integral U (917-945); [w] bits, [sg] = signed. *)
Definition umax (w : Z) (sg : bool) : Z := if sg then 2 ^ (w - 1) - 1 else 2 ^ w - 1.
Definition ulow (w : Z) (sg : bool) : Z := if sg then - 2 ^ (w - 1) else 0.
Definition cast (w : Z) (sg : bool) (x : Z) : Z := if sg then swrap w x else uwrap w x.
(** 934-941: result |= digit; result <<= 30 (both modular in C++20) *)
Fixpoint to_loop (w : Z) (sg : bool) (result : Z) (rd : list Z) : Z :=
  match rd with
  | [] => result
  | d :: rd' =>
      let r1 := cast w sg (Z.lor result d) in
      match rd' with
      | [] => r1
      | _ => to_loop w sg (cast w sg (Z.shiftl r1 SHIFT)) rd'
      end
  end.
(** final multiplication by +-1 at 927/942: signed overflow is undefined (only possible for w >= 32;
    narrower types are promoted to int and converted back). *)
Definition times_sign (w : Z) (sg pos : bool) (r : Z) : res Z :=
  let p := if pos then r else - r in
  if sg then
    if ((32 <=? w) && (p >? umax w true))%bool then Ub "signed overflow" else Ok (cast w sg p)
  else Ok (cast w sg (r * cast w sg (if pos then 1 else -1))).
Definition huge_to (w : Z) (sg : bool) (x : huge) : res Z :=
  match digits x with
  | [] => Ok 0
  | d0 :: tl =>
      if negb (is_positive x || sg) then Throw "The Huge is negative but U is unsigned."
      else
        let one := match tl with [] => true | _ => false end in
        if (one && (d0 <=? umax w sg) && (swrap 32 d0 >=? ulow w sg))%bool
        then times_sign w sg (is_positive x) (cast w sg d0)
        else if (Z.of_nat (length (digits x)) - 1) * SHIFT <=? w
        then times_sign w sg (is_positive x) (to_loop w sg 0 (rev (digits x)))
        else Throw "The Huge is too big."
  end.
