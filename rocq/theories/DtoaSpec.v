(** Vocabulary of the double printing theorems: doubles as numbers, decimal literals as numbers. *)
From Coq Require Import ZArith QArith Qabs String Ascii Bool List.
From Verif Require Import Base DtoaModel.
Import ListNotations.
Open Scope Z_scope.

Definition pow2 (e : Z) : Q := Qpower 2 e.
Definition pow10 (e : Z) : Q := Qpower 10 e.
Definition IQ (z : Z) : Q := inject_Z z.

(** The non-negative finite doubles are the bit patterns below 0x7ff0000000000000 (IEEE 754 binary64: 11 bits of exponent, 52 bits of fraction). *)
Definition finite (b : Z) : Prop := 0 <= b < 0x7ff * 2 ^ 52.
(** the number a pattern stands for (for the pattern one above the largest finite one: 2^1024) *)
Definition dbl (b : Z) : Q :=
  let e := b / 2 ^ 52 in let m := b mod 2 ^ 52 in
  if e =? 0 then (IQ m * pow2 (-1074))%Q else (IQ (2 ^ 52 + m) * pow2 (e - 1075))%Q.
(** b is the one double closest to x: reading x with correct rounding, whatever the rule for ties, gives b *)
Definition nearest (x : Q) (b : Z) : Prop := forall b', finite b' -> b' <> b -> (Qabs (x - dbl b) < Qabs (x - dbl b'))%Q.

(** decimal digits and their value *)
Definition digit (c : ascii) : Prop := 48 <= code c <= 57.
Definition is_digit (c : ascii) : bool := ((48 <=? code c) && (code c <=? 57))%bool.
Definition dval (s : text) : Z := fold_left (fun a c => 10 * a + (code c - 48)) s 0.
(** A reader of decimal literals  digits [ '.' digits ] [ 'e' ['-'] digits ]; at least one digit before the point and in the exponent. *)
Fixpoint cut (c : ascii) (s : text) : text * option text :=
  match s with [] => ([], None) | d :: s' => if Ascii.eqb d c then ([], Some s') else let (a, b) := cut c s' in (d :: a, b) end.
Definition all_digits (s : text) : bool := forallb is_digit s.
Definition some_digits (s : text) : bool := (all_digits s && match s with [] => false | _ => true end)%bool.
Definition read_exponent (s : option text) : option Z :=
  match s with
  | None => Some 0
  | Some s =>
      match s with
      | c :: s' => if Ascii.eqb c "-" then (if some_digits s' then Some (- dval s') else None) else (if some_digits s then Some (dval s) else None)
      | [] => None
      end
  end.
Definition read_decimal (s : text) : option Q :=
  let (m, ex) := cut "e" s in
  let (ip, fp) := cut "." m in
  let fp := match fp with Some f => f | None => [] end in
  match read_exponent ex with
  | Some x => if (some_digits ip && all_digits fp)%bool then Some (IQ (dval (ip ++ fp)) * pow10 (x - Z.of_nat (length fp)))%Q else None
  | None => None
  end.
