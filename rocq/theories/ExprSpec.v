(** Vocabulary of the expression theorems: the value of a tree under an assignment of real numbers to the symbols, and where it is defined. *)
From Coq Require Import ZArith QArith Qreals Reals String Ascii List.
From Verif Require Import Base RationalModel RationalSpec RealModel RealSpec PolyModel PolySpec ExprModel.
Import ListNotations.
Open Scope Z_scope.

(** x to the power y: for a positive x the usual real power, otherwise the power with an integer y *)
Definition epow (x y : R) : R := if Rlt_dec 0 x then Rpower x y else powerRZ x (Int_part y).
Fixpoint ev (s : string -> R) (e : expr) : R :=
  match e with
  | Leaf f => fv s f
  | Op c l r =>
      if Ascii.eqb c "+" then ev s l + ev s r else
      if Ascii.eqb c "-" then ev s l - ev s r else
      if Ascii.eqb c "*" then ev s l * ev s r else
      if Ascii.eqb c "/" then ev s l / ev s r else
      if Ascii.eqb c "^" then epow (ev s l) (ev s r) else 0
  end%R.

(** a leaf that has a value under s: numerator and denominator well-formed, all powers in them defined, the denominator not 0 *)
Definition leaf_defined (w : Z) (s : string -> R) (f : frac) : Prop :=
  pwf w (fnum f) /\ pwf w (fden f) /\ padm s (fnum f) /\ padm s (fden f) /\ pv s (fden f) <> 0%R.
(** the exponent q the code computes from the simplified exponent b *)
Definition computed_exponent (P : penv) (b : frac) (q : rat) : Prop :=
  exists p, exponent_of P b = Ok (Some p) /\ (frac_to_rational (ew (pe P)) b = Ok q \/ real_to_rational (ew (pe P)) p = Ok q).
(** a positive coefficient whose index stays below 2^w when multiplied by d *)
Definition root_fits (w : Z) (c : real) (d : Z) : Prop := 0 < num (coe c) /\ 0 < den (coe c) /\ idx c * d < 2 ^ w.
(** where raising the fraction a, of value x under s, to the power q is defined and the numbers fit the machine:
    - an integer exponent: not negative for x = 0; its factorial is representable, or numerator and denominator are single terms;
    - a fractional exponent: a positive number, or single terms with positive coefficients and positive symbols *)
Definition power_fits (P : penv) (s : string -> R) (a : frac) (x : R) (q : rat) : Prop :=
  den q = 1 /\ (x <> 0%R \/ 0 <= num q) /\
    (Z.of_nat (fact (Z.to_nat (num q))) < 2 ^ (ew (pe P) - 1) \/ length (fnum a) = 1%nat /\ length (fden a) = 1%nat) \/
  match frac_try_eval P a with
  | Ok (Some c) => root_fits (ew (pe P)) c (den q)
  | _ => (forall k, (0 < s k)%R) /\ exists t u, fnum a = [t] /\ fden a = [u] /\ root_fits (ew (pe P)) (tco t) (den q) /\ root_fits (ew (pe P)) (tco u) (den q)
  end.
(** the tree has a value under s: no division by zero; every power that gets computed has a reduced exponent with positive denominator and fits *)
Fixpoint edefined (P : penv) (s : string -> R) (e : expr) : Prop :=
  match e with
  | Leaf f => leaf_defined (ew (pe P)) s f
  | Op c l r =>
      edefined P s l /\ edefined P s r /\
      (c = "/"%char -> ev s r <> 0%R) /\
      (c = "^"%char -> forall a b q, expr_try_eval P l = Ok (Some a) -> expr_try_eval P r = Ok (Some b) -> computed_exponent P b q ->
                       0 < den q /\ lowest_terms q /\ power_fits P s a (ev s l) q)
  end.
(** the same for the steps of substitute: every leaf can be substituted, and the trees that get simplified are defined *)
Fixpoint sdefined (P : penv) (e : envmap) (s : string -> R) (t : expr) : Prop :=
  match t with
  | Leaf f => leaf_defined (ew (pe P)) (extend e s) f /\
              Forall (fun t => Forall (power_ok (ew (pe P)) e) (syms t)) (fnum f) /\ Forall (fun t => Forall (power_ok (ew (pe P)) e) (syms t)) (fden f)
  | Op c l r => sdefined P e s l /\ sdefined P e s r /\ (forall l' r', expr_subst P e l = Ok l' -> expr_subst P e r = Ok r' -> edefined P s (Op c l' r'))
  end.
