(** std::stold (glibc's strtold in the C locale) on every text, and num.hpp 127-159, 101-125 Rational(const std::string &) with it.
    DecModel.v models std::stold on texts of digits and dots only (the parser passes no others); this is the whole grammar: leading
    whitespace, a sign, decimal and hexadecimal numbers with and without exponent, "inf" and "nan", and what follows is ignored.
    Simplifications as in DecModel.v (exponents are not bounded; a result outside the normal range is reported as std::out_of_range),
    and a hexadecimal number below the normal range, which can be an exact subnormal number, is [Ub "not modelled"]. *)
From Coq Require Import ZArith QArith String Ascii Lia Bool List.
From Verif Require Import Base AdapterModel RationalModel ParserModel DecModel.
Import ListNotations.
Open Scope Z_scope.

Definition lower (c : ascii) : ascii := if in_range 65 90 c then ascii_of_N (N_of_ascii c + 32) else c.
Definition is_hex (c : ascii) : bool := (is_digit c || in_range 97 102 (lower c))%bool.
Definition hex_digit_value (c : ascii) : Z := if is_digit c then digit_value c else Z.of_N (N_of_ascii (lower c)) - 87.
Definition hex_digits_value (s : list ascii) : Z := fold_left (fun a c => 16 * a + hex_digit_value c) s 0.
(** digits (of the kind [f]) with at most one dot *)
Definition scan_digits (f : ascii -> bool) (s : list ascii) : list ascii * list ascii * list ascii :=
  let (i, r) := span f s in
  match r with
  | c :: r' => if is_dot c then let (fr, r2) := span f r' in (i, fr, r2) else (i, [], r)
  | [] => (i, [], [])
  end.
(** the exponent after e or E (p or P): 0 when there are no digits after it *)
Definition scan_exponent (mark : ascii) (s : list ascii) : Z :=
  match s with
  | c :: s' =>
      if Ascii.eqb (lower c) mark then
        let '(neg, s2) := match s' with
                          | d :: t => if Ascii.eqb d "-" then (true, t) else if Ascii.eqb d "+" then (false, t) else (false, s')
                          | [] => (false, [])
                          end in
        let e := digits_value (fst (span is_digit s2)) in if neg then - e else e
      else 0
  | [] => 0
  end.
(** m * 10^-k * 10^e *)
Definition scale10 (m : Z) (k : nat) (e : Z) : Q :=
  let j := e - Z.of_nat k in if 0 <=? j then inject_Z (m * 10 ^ j) else m # pow10 (Z.to_nat (- j)).
Definition starts_with (p s : list ascii) : bool := if list_eq_dec ascii_dec (firstn (length p) (map lower s)) p then true else false.
(** 0x or 0X with at least one hexadecimal digit after it *)
Definition hex_parts (s : list ascii) : option (list ascii * list ascii * list ascii) :=
  match s with
  | z :: c :: s' => if (Ascii.eqb z "0" && Ascii.eqb (lower c) "x")%bool
                    then let '(i, f, r) := scan_digits is_hex s' in match i ++ f with [] => None | _ => Some (i, f, r) end else None
  | _ => None
  end.
(** the number after the sign; None: infinite or not a number *)
Definition stold_number (F : ffmt) (s : list ascii) : res (option Q) :=
  match hex_parts s with
  | Some (i, f, r) =>
      let x := rnd (fprec F) (dyadic (hex_digits_value (i ++ f)) (scan_exponent "p" r - 4 * Z.of_nat (length f))) in
      if out_of_normal_range F x then (if flt x (dyadic 1 (femin F)) then Ub "subnormal: not modelled" else Throw "out_of_range") else Ok (Some x)
  | None =>
      let '(i, f, r) := scan_digits is_digit s in
      match i ++ f with
      | [] => if (starts_with (list_ascii_of_string "inf") s || starts_with (list_ascii_of_string "nan") s)%bool then Ok None else Throw "invalid_argument"
      | ds => let x := rnd (fprec F) (scale10 (digits_value ds) (length f) (scan_exponent "e" r)) in
              if out_of_normal_range F x then Throw "out_of_range" else Ok (Some x)
      end
  end.
Definition stold_text (F : ffmt) (s : list ascii) : res (option Q) :=
  let s := snd (span is_space s) in
  match s with
  | c :: s' => if Ascii.eqb c "-" then x <- stold_number F s' ;; Ok (option_map Qopp x)
               else if Ascii.eqb c "+" then stold_number F s' else stold_number F s
  | [] => Throw "invalid_argument"
  end.
(** 133 Rational(std::stold(n)); an infinite number or nan has no decimal places (41: the comparisons are false) and 116 converts it to T *)
Definition dec_text (w : Z) (F : ffmt) (s : list ascii) : res rat :=
  x <- stold_text F s ;; match x with Some q => rat_of_float w F q | None => Ub "inf or nan converted to an integer" end.
(** 127-159 Rational(const std::string &) *)
Definition rat_of_text (w : Z) (F : ffmt) : list ascii -> res rat := rat_of_string w (dec_text w F).
