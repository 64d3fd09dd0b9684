(** Specification vocabulary for huge.hpp: what a digit vector and a Huge denote.
    Independent of the model's algorithms. *)
From Coq Require Import ZArith String Ascii Bool List.
From Verif Require Import HugeModel.
Import ListNotations.
Open Scope Z_scope.

(** The natural number denoted by little-endian base-2^30 digits. *)
Fixpoint dval (l : list Z) : Z :=
  match l with [] => 0 | d :: l' => d + 2 ^ 30 * dval l' end.

(** Every digit is a 30-bit digit. *)
Definition wf (l : list Z) : Prop := Forall (fun d => 0 <= d < 2 ^ 30) l.

(** Canonical: 30-bit digits and no leading zero digit (zero is the empty vector). *)
Definition canon (l : list Z) : Prop := wf l /\ (l <> [] -> last l 0 <> 0).

(** The integer denoted by a Huge, and canonical Huges (either sign flag is allowed for zero). *)
Definition hval (h : huge) : Z := if is_positive h then dval (digits h) else - dval (digits h).
Definition hcanon (h : huge) : Prop := canon (digits h).

(** Boolean version, for examples. *)
Definition canonb (l : list Z) : bool :=
  (forallb (fun d => (0 <=? d) && (d <? 2 ^ 30)) l
   && match l with [] => true | _ => negb (last l 0 =? 0) end)%bool.

(** ** Decimal numerals *)
Definition is_dec_digit (c : ascii) : Prop := (48 <= nat_of_ascii c <= 57)%nat.
Fixpoint dec_value_acc (acc : Z) (s : list ascii) : Z :=
  match s with
  | [] => acc
  | c :: s' => dec_value_acc (10 * acc + (Z.of_nat (nat_of_ascii c) - 48)) s'
  end.
(** Value of a string of decimal digits, most significant first. *)
Definition dec_value (s : list ascii) : Z := dec_value_acc 0 s.
(** Canonical numeral: nonempty, only digits, no leading zero unless it is "0". *)
Definition canonical_numeral (s : list ascii) : Prop :=
  s <> [] /\ Forall is_dec_digit s /\ (hd "0"%char s = "0"%char -> s = ["0"%char]).
