(** Vocabulary of the theorems on quotients of polynomials (C71). *)
From Coq Require Import ZArith Reals String Ascii Bool List Sorted.
From Verif Require Import Base RationalModel RealModel PolyModel PolySpec ExprModel ExprSpec ParserModel TextSpec.
Import ListNotations.
Open Scope Z_scope.

(** trees of +, -, *, / and literal powers over symbols and non-negative integers of the machine, and symbols with a literal fractional power: (x+1)/(x-y)^2, x^(1/2) *)
Fixpoint rational_function (w : Z) (e : expr) : Prop :=
  match e with
  | Leaf f => (exists n, 0 <= n < 2 ^ (w - 1) /\ f = leaf_int n) \/ (exists k, name_ok k /\ f = leaf_sym k)
  | Op c l r =>
      ((c = "+" \/ c = "-" \/ c = "*" \/ c = "/")%char /\ rational_function w l /\ rational_function w r) \/
      (c = "^"%char /\ rational_function w l /\ exists n, 0 <= n /\ Z.of_nat (fact (Z.to_nat n)) < 2 ^ (w - 1) /\ r = Leaf (leaf_int n)) \/
      (c = "^"%char /\ exists k n m, name_ok k /\ l = Leaf (leaf_sym k) /\ 0 <= n < 2 ^ (w - 1) /\ 0 < m < 2 ^ (w - 1) /\ r = Op "/" (Leaf (leaf_int n)) (Leaf (leaf_int m)))
  end.
(** no divisor in the tree is 0 under s *)
Fixpoint has_value (s : string -> R) (e : expr) : Prop :=
  match e with
  | Leaf _ => True
  | Op c l r => has_value s l /\ has_value s r /\ (c = "/"%char -> ev s r <> 0%R)
  end.
(** a sum of rational multiples of products of powers of symbols, each product once, in descending order; the powers are reduced and not 0 *)
Definition power_product (m : smap) : Prop :=
  StronglySorted (fun a b => String.compare (fst a) (fst b) = Lt) m /\ Forall (fun p => name_ok (fst p) /\ 0 < den (snd p) /\ Z.gcd (num (snd p)) (den (snd p)) = 1 /\ num (snd p) <> 0) m.
Definition power_sum (l : poly) : Prop :=
  l <> [] /\ Forall (fun t => (exists q, tco t = Real 1 (Rat 1 1) q /\ den q <> 0) /\ power_product (syms t)) l /\ StronglySorted (fun a b => syms_cmp (syms a) (syms b) = Gt) l.
(** every coefficient is 0 *)
Definition no_terms (l : poly) : Prop := Forall (fun t => num (coe (tco t)) = 0) l.
(** the texts of zero: 0, 0/... and (0)/... *)
Definition zero_text (t : text) : Prop := t = txt "0" \/ exists d, t = txt "0/" ++ d \/ t = txt "(0)/" ++ d.
