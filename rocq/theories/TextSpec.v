(** Vocabulary of the round trip theorems (printing an expression and reading the text again). *)
From Coq Require Import ZArith String Ascii Bool List.
From Verif Require Import Base RationalModel RealModel PolyModel ExprModel ParserModel.
Import ListNotations.
Open Scope Z_scope.

(** the integer n, and the leaves that hold the integer n and the symbol k *)
Definition rint (n : Z) : real := Real 1 (Rat 1 1) (Rat n 1).
Definition leaf_int (n : Z) : frac := Frac [term_const (rint n)] [term_const (rint 1)].
Definition leaf_sym (k : string) : frac := Frac [term_sym (rint 1) k] [term_const (rint 1)].
(** a machine of 3 to 64 bits whose factorize(1) is empty and whose std::sort leaves a single element alone *)
Definition reads (P : penv) : Prop := 3 <= ew (pe P) <= 64 /\ efac (pe P) 1 = Ok [] /\ forall t, psort P [t] = Ok [t].
(** names the parser can read: one letter, or (written in braces) any other number of characters without '}' *)
Definition name_ok (k : string) : Prop :=
  (exists c, k = String c EmptyString /\ is_alpha c = true) \/ (String.length k <> 1%nat /\ Forall (fun d => d <> "}"%char) (list_ascii_of_string k)).
(** trees of +, -, *, /, ^ over symbols and non-negative integers of the machine *)
Fixpoint simple (w : Z) (e : expr) : Prop :=
  match e with
  | Leaf f => (exists n, 0 <= n < 2 ^ (w - 1) /\ f = leaf_int n) \/ (exists k, name_ok k /\ f = leaf_sym k)
  | Op c l r => is_opchar c = true /\ simple w l /\ simple w r
  end.
