(** Vocabulary of the theorems on polynomial expressions (C70). *)
From Coq Require Import ZArith Reals String Ascii Bool List Sorted.
From Verif Require Import Base RationalModel RealModel PolyModel PolySpec ExprModel ExprSpec ParserModel TextSpec PrintSpec.
Import ListNotations.
Open Scope Z_scope.

(** trees of +, -, * and literal powers over symbols and non-negative integers of the machine: a power n has n! below 2^(w-1), i.e. at most 20 for 64 bits, except that a symbol
    may have any exponent of the machine up to 2^53 *)
Fixpoint polynomial (w : Z) (e : expr) : Prop :=
  match e with
  | Leaf f => (exists n, 0 <= n < 2 ^ (w - 1) /\ f = leaf_int n) \/ (exists k, name_ok k /\ f = leaf_sym k)
  | Op c l r =>
      polynomial w l /\
      (((c = "+" \/ c = "-" \/ c = "*")%char /\ polynomial w r) \/
       (c = "^"%char /\ exists n, 0 <= n < 2 ^ (w - 1) /\ (Z.of_nat (fact (Z.to_nat n)) < 2 ^ (w - 1) \/ n <= 2 ^ 53 /\ exists k, l = Leaf (leaf_sym k)) /\ r = Leaf (leaf_int n)))
  end.
(** a monomial: each symbol once, in ascending order of the names, with positive integer exponents *)
Definition monomial (w : Z) (m : smap) : Prop :=
  StronglySorted (fun a b => String.compare (fst a) (fst b) = Lt) m /\
  Forall (fun p => name_ok (fst p) /\ den (snd p) = 1 /\ 0 < num (snd p) < 2 ^ (w - 1)) m.
(** a sum of integer multiples of monomials, each monomial once, in descending order, over the denominator 1 *)
Definition expanded (w : Z) (f : frac) : Prop :=
  undivided f /\ fnum f <> [] /\
  Forall (fun t => (exists n, tco t = rint n /\ - 2 ^ (w - 1) < n < 2 ^ (w - 1)) /\ monomial w (syms t)) (fnum f) /\
  StronglySorted (fun a b => syms_cmp (syms a) (syms b) = Gt) (fnum f).
(** the value of an expression with every symbol 1, every sign +, and 0 taken as 1 (also in exponents); and its degree, taken the same way *)
Definition literal (e : expr) : Z := match e with Leaf f => match fnum f with t :: _ => Z.max 1 (num (coe (tco t))) | [] => 1 end | Op _ _ _ => 1 end.
Fixpoint weight (e : expr) : Z :=
  match e with
  | Leaf _ => literal e
  | Op c l r => if Ascii.eqb c "^" then weight l ^ literal r else if Ascii.eqb c "*" then weight l * weight r else weight l + weight r
  end.
Fixpoint degree (e : expr) : Z :=
  match e with
  | Leaf f => if frac_no_symbols f then 0 else 1
  | Op c l r => if Ascii.eqb c "^" then literal r * degree l else if Ascii.eqb c "*" then degree l + degree r else Z.max (degree l) (degree r)
  end.
(** the sort returns whenever all comparisons it may make return *)
Definition sort_returns (P : penv) : Prop :=
  forall l, (forall a b, In a l -> In b l -> exists r, term_before (ew (pe P)) a b = Ok r) -> exists l', psort P l = Ok l'.
