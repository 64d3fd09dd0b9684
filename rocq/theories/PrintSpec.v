(** Vocabulary of the theorems on reading the printed text of polynomials, fractions and simplified expressions (C58). *)
From Coq Require Import ZArith QArith Reals String Ascii Bool List.
From Verif Require Import Base RationalModel RationalSpec RealModel RealSpec PolyModel PolySpec ExprModel ExprSpec ParserModel TextSpec.
Import ListNotations.
Open Scope Z_scope.

(** a number in normal form with a positive denominator, all of whose parts are below 2^(w-1) in magnitude *)
Definition plain_real (w : Z) (c : real) : Prop :=
  canonical c /\ qok (coe c) /\ Z.abs (num (coe c)) < 2 ^ (w - 1) /\ den (coe c) < 2 ^ (w - 1) /\ num (rad c) < 2 ^ (w - 1) /\ idx c < 2 ^ (w - 1).
(** a term with such a coefficient, names the parser can read, each symbol once, and positive integer exponents *)
Definition plain_term (w : Z) (t : term) : Prop :=
  plain_real w (tco t) /\ NoDup (map fst (syms t)) /\ Forall (fun p => name_ok (fst p) /\ den (snd p) = 1 /\ 0 < num (snd p) < 2 ^ (w - 1)) (syms t).
Definition plain_poly (w : Z) (l : poly) : Prop := Forall (plain_term w) l.

Definition positive (t : term) : Prop := 0 < num (coe (tco t)).
(** terms whose text is a single factor: a natural number, a root, a symbol, a power of a symbol *)
Definition factor_term (t : term) : Prop :=
  positive t /\ ((syms t = [] /\ den (coe (tco t)) = 1 /\ (idx (tco t) = 1 \/ num (coe (tco t)) = 1)) \/ (tco t = rint 1 /\ length (syms t) = 1%nat)).
(** a polynomial printed with parentheses around it unless it is one term; as a denominator it has to be a single factor then *)
Definition plain_denominator (d : poly) : Prop := match d with [t] => factor_term t | _ => True end.
Definition plain_frac (w : Z) (f : frac) : Prop := fnum f <> [] /\ plain_poly w (fnum f) /\ plain_poly w (fden f) /\ plain_denominator (fden f).

(** how tightly the text of a leaf binds.  A leaf with a denominator gets parentheses in a tree; one without does not, whatever it is *)
Definition undivided (f : frac) : Prop := fden f = [term_const (rint 1)].
(** how much of the text has to hold together at a place: a single factor, a product, a sum, or anything (also with a leading minus sign) *)
Inductive place := Single | Factors | Sums | Start.
Definition shape (p : place) (l : poly) : Prop :=
  l = [term_const (rint 0)] \/
  match p with
  | Single => exists t, l = [t] /\ factor_term t
  | Factors => exists t, l = [t] /\ positive t
  | Sums => exists t m, l = t :: m /\ positive t
  | Start => True
  end.
Definition binds (p : place) (f : frac) : Prop := ~ undivided f \/ shape p (fnum f).
(** which operands that are operator nodes are printed in parentheses *)
Definition paren_l (c lc : ascii) : bool := if is_md c then is_pm lc else Ascii.eqb c "^".
Definition paren_r (c rc : ascii) : bool :=
  if Ascii.eqb c "*" then is_pm rc else if Ascii.eqb c "/" then (is_pm rc || is_md rc)%bool else if Ascii.eqb c "-" then is_pm rc else Ascii.eqb c "^".
(** the operands of the tree bind as tightly as the text needs; [start]: the text of the tree begins the whole text or follows a '(' *)
Fixpoint fits (w : Z) (start : bool) (e : expr) : Prop :=
  match e with
  | Leaf f => plain_frac w f
  | Op c l r =>
      is_opchar c = true /\
      match l with
      | Leaf f => plain_frac w f /\ binds (if is_pm c then (if start then Start else Sums) else if is_md c then Factors else Single) f
      | Op lc _ _ => fits w (paren_l c lc || start) l
      end /\
      match r with
      | Leaf f => plain_frac w f /\ binds (if Ascii.eqb c "+" then Sums else if (Ascii.eqb c "-" || Ascii.eqb c "*")%bool then Factors else Single) f
      | Op rc _ _ => fits w (paren_r c rc) r
      end
  end.
