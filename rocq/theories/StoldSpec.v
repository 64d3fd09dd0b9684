(** Vocabulary of the theorems about std::stold on any text: how a number is written, what follows it, how texts that are no numbers look. *)
From Coq Require Import ZArith QArith Qpower String Ascii List.
From Verif Require Import Base RationalModel DecModel DecSpec.
Import ListNotations.
Open Scope Z_scope.

(** the whitespace of the C locale *)
Definition blank (c : ascii) : Prop := In (N_of_ascii c) [9; 10; 11; 12; 13; 32]%N.
Definition sign_text (sg : list ascii) : Prop := sg = [] \/ sg = ["-"%char] \/ sg = ["+"%char].
(** no exponent, or e (E), a sign or none, digits *)
Definition exponent_text (t : list ascii) (e : Z) : Prop :=
  (t = [] /\ e = 0) \/
  exists c sg ds, t = c :: sg ++ ds /\ (c = "e"%char \/ c = "E"%char) /\ Forall is_dec_digit ds /\ ds <> [] /\
    ((sg = [] \/ sg = ["+"%char]) /\ e = row_value ds \/ sg = ["-"%char] /\ e = - row_value ds).
(** the digits i, a dot and the digits f (or, without decimals, no dot), an exponent *)
Definition number_text (t i f ex : list ascii) (e : Z) : Prop :=
  (t = i ++ ["."%char] ++ f ++ ex \/ (f = [] /\ t = i ++ ex)) /\ Forall is_dec_digit (i ++ f) /\ i ++ f <> [] /\ exponent_text ex e.
(** its value: i.f * 10^e *)
Definition number_value (i f : list ascii) (e : Z) : Q := (literal_value i f * Qpower 10 e)%Q.
(** text after a number that does not continue it *)
Definition ends_here (t ex rest : list ascii) : Prop :=
  match rest with
  | [] => True
  | c :: _ => ~ is_dec_digit c /\ (ex = [] -> c <> "e"%char /\ c <> "E"%char /\ c <> "x"%char /\ c <> "X"%char /\ (~ In "."%char t -> c <> "."%char))
  end.
(** the letters [p] in upper or lower case *)
Definition same_letter (a b : ascii) : Prop := N_of_ascii b = N_of_ascii a \/ (N_of_ascii b + 32 = N_of_ascii a)%N.
Definition spelled (p : list ascii) (u : list ascii) : Prop := exists a r, u = a ++ r /\ Forall2 same_letter p a.
(** a text (after whitespace and sign) that begins like a number *)
Definition begins_number (u : list ascii) : Prop :=
  (exists c r, u = c :: r /\ is_dec_digit c) \/ (exists c r, u = "."%char :: c :: r /\ is_dec_digit c).

(** hexadecimal numbers: 0x, digits, a dot, digits, perhaps p and a decimal exponent of 2 *)
Definition hex_digit (c : ascii) (v : Z) : Prop :=
  let n := Z.of_N (N_of_ascii c) in (48 <= n <= 57 /\ v = n - 48) \/ (97 <= n <= 102 /\ v = n - 87) \/ (65 <= n <= 70 /\ v = n - 55).
Inductive hex_row : list ascii -> Z -> Prop :=
| hex_nil : hex_row [] 0
| hex_snoc s v c d : hex_row s v -> hex_digit c d -> hex_row (s ++ [c]) (16 * v + d).
Definition hex_exponent (t : list ascii) (e : Z) : Prop :=
  (t = [] /\ e = 0) \/
  exists c sg ds, t = c :: sg ++ ds /\ (c = "p"%char \/ c = "P"%char) /\ Forall is_dec_digit ds /\ ds <> [] /\
    ((sg = [] \/ sg = ["+"%char]) /\ e = row_value ds \/ sg = ["-"%char] /\ e = - row_value ds).
(** [t] is such a text; its value is h / 16^k * 2^e, h the digits without the dot, k of them after it *)
Definition hex_text (t : list ascii) (h : Z) (k : nat) (ex : list ascii) (e : Z) : Prop :=
  exists x i f, (x = "x"%char \/ x = "X"%char) /\ t = "0"%char :: x :: i ++ ["."%char] ++ f ++ ex /\ i ++ f <> [] /\ hex_row (i ++ f) h /\ k = List.length f /\ hex_exponent ex e.
Definition hex_value (h : Z) (k : nat) (e : Z) : Q := (inject_Z h * Qpower 2 (e - 4 * Z.of_nat k))%Q.
Definition hex_ends (ex rest : list ascii) : Prop :=
  match rest with [] => True | c :: _ => (forall v, ~ hex_digit c v) /\ (ex = [] -> c <> "p"%char /\ c <> "P"%char) /\ (ex <> [] -> ~ is_dec_digit c) end.
