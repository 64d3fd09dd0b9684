(** Vocabulary of the Term/Poly/Frac theorems: the value under an assignment of real numbers to the symbols. *)
From Coq Require Import ZArith QArith Qreals Reals String List Permutation Sorted.
From Verif Require Import Base RationalModel RationalSpec RealModel RealSpec PolyModel.
Import ListNotations.
Open Scope Z_scope.

(** x to the power q: integer powers for every x, fractional ones as Rpower *)
Definition pwr (x : R) (q : rat) : R := if den q =? 1 then powerRZ x (num q) else Rpower x (Q2R (qv q)).
Definition sv (s : string -> R) (m : smap) : R := fold_right (fun p a => pwr (s (fst p)) (snd p) * a)%R 1%R m.
Definition tv (s : string -> R) (t : term) : R := (rv (tco t) * sv s (syms t))%R.
Definition pv (s : string -> R) (l : poly) : R := fold_right (fun t a => tv s t + a)%R 0%R l.
Definition fv (s : string -> R) (f : frac) : R := (pv s (fnum f) / pv s (fden f))%R.

(** exponents are reduced fractions with positive denominator *)
Definition qok (q : rat) : Prop := 0 < den q /\ lowest_terms q.
Definition swf (m : smap) : Prop := NoDup (map fst m) /\ Forall (fun p => qok (snd p)) m.
Definition twf (w : Z) (t : term) : Prop := good w (tco t) /\ swf (syms t).
Definition pwf (w : Z) (l : poly) : Prop := Forall (twf w) l.
(** where the power is defined: a positive base, or an integer exponent that is positive or of a nonzero base *)
Definition adm1 (x : R) (q : rat) : Prop := (0 < x)%R \/ (den q = 1 /\ (x <> 0%R \/ 0 < num q)).
Definition sadm (s : string -> R) (m : smap) : Prop := Forall (fun p => adm1 (s (fst p)) (snd p)) m.
Definition tadm (s : string -> R) (t : term) : Prop := sadm s (syms t).
Definition padm (s : string -> R) (l : poly) : Prop := Forall (tadm s) l.
(** no exponent is zero *)
Definition no_zero_exponent (m : smap) : Prop := Forall (fun p => num (snd p) <> 0) m.

(** the exponent of a symbol, 0 if absent *)
Definition exponent (k : string) (m : smap) : Q := match sfind k m with Some q => qv q | None => 0%Q end.

(** whatever std::sort does, it permutes *)
Definition sort_permutes (P : penv) : Prop := forall l l', psort P l = Ok l' -> Permutation l l'.
(** the order of the comparator on symbols (names byte-wise, then exponents), then index, then radicand *)
Definition qcmp (a b : rat) : comparison := num a * den b ?= num b * den a.
Fixpoint syms_cmp (a b : smap) : comparison :=
  match a, b with
  | [], [] => Eq
  | [], _ => Lt
  | _, [] => Gt
  | (k, v) :: a', (k', v') :: b' =>
      match String.compare k k' with Eq => match qcmp v v' with Eq => syms_cmp a' b' | c => c end | c => c end
  end.
Definition key_cmp (a b : term) : comparison :=
  match syms_cmp (syms a) (syms b) with
  | Eq => match idx (tco a) ?= idx (tco b) with Eq => qcmp (rad (tco a)) (rad (tco b)) | c => c end
  | c => c
  end.
(** what std::sort leaves: descending keys *)
Definition sort_orders (P : penv) : Prop :=
  forall l l', Forall (fun t => twf (ew (pe P)) t /\ canonical (tco t)) l -> psort P l = Ok l' -> StronglySorted (fun a b => key_cmp a b <> Lt) l'.
(** like terms: the same symbols with the same exponents, and the same radical *)
Definition like (a b : term) : Prop := syms a = syms b /\ radical (tco a) = radical (tco b).
(** the machine: word size, factorisations, sort *)
Definition machine (P : penv) : Prop := 1 < ew (pe P) /\ fac_sound (pe P) /\ fac_exact (pe P) /\ sort_permutes P.

(** the assignment extended by the substituted values *)
Definition extend (e : envmap) (s : string -> R) (k : string) : R := match efind k e with Some v => rv v | None => s k end.

(** a solution of a1 + ... + am = n in non-negative integers *)
Definition solution (n m : Z) (v : list Z) : Prop := Z.of_nat (length v) = m /\ Forall (fun a => 0 <= a) v /\ fold_right Z.add 0 v = n.

(** the value put for a symbol can be raised to the symbol's exponent: a well-formed number, the exponent an integer or the number positive with
    index * denominator representable *)
Definition power_ok (w : Z) (e : envmap) (p : string * rat) : Prop :=
  match efind (fst p) e with
  | Some v => good w v /\ (den (snd p) = 1 \/ 0 < num (coe v) /\ 0 < den (coe v) /\ idx v * den (snd p) < 2 ^ w)
  | None => True
  end.

(** histories of Frac operations *)
Inductive fexp :=
| FReal (c : real) | FSym (k : string)
| FAdd (a b : fexp) | FSub (a b : fexp) | FMul (a b : fexp) | FDiv (a b : fexp) | FNeg (a : fexp) | FInv (a : fexp) | FPow (a : fexp) (n : Z)
| FSubst (e : envmap) (a : fexp).
Fixpoint frun (P : penv) (e : fexp) : res frac :=
  match e with
  | FReal c => frac_of_real P c
  | FSym k => c <- real_of_int (pe P) 1 ;; frac_of_term P (term_sym c k)
  | FAdd a b => x <- frun P a ;; y <- frun P b ;; frac_add P x y
  | FSub a b => x <- frun P a ;; y <- frun P b ;; frac_sub P x y
  | FMul a b => x <- frun P a ;; y <- frun P b ;; frac_mul P x y
  | FDiv a b => x <- frun P a ;; y <- frun P b ;; frac_div P x y
  | FNeg a => x <- frun P a ;; frac_negate P x
  | FInv a => x <- frun P a ;; frac_inverse P x
  | FPow a n => x <- frun P a ;; frac_pow P x (Rat n 1)
  | FSubst e a => x <- frun P a ;; frac_subst P e x
  end.
Fixpoint fdenotes (s : string -> R) (e : fexp) : R :=
  match e with
  | FReal c => rv c
  | FSym k => s k
  | FAdd a b => fdenotes s a + fdenotes s b
  | FSub a b => fdenotes s a - fdenotes s b
  | FMul a b => fdenotes s a * fdenotes s b
  | FDiv a b => fdenotes s a / fdenotes s b
  | FNeg a => - fdenotes s a
  | FInv a => / fdenotes s a
  | FPow a n => powerRZ (fdenotes s a) n
  | FSubst e a => fdenotes (extend e s) a
  end%R.
(** no division by zero under the assignment *)
Fixpoint fdefined (s : string -> R) (e : fexp) : Prop :=
  match e with
  | FReal _ | FSym _ => True
  | FAdd a b | FSub a b | FMul a b => fdefined s a /\ fdefined s b
  | FDiv a b => fdefined s a /\ fdefined s b /\ fdenotes s b <> 0%R
  | FNeg a => fdefined s a
  | FInv a => fdefined s a /\ fdenotes s a <> 0%R
  | FPow a n => fdefined s a
  | FSubst e a => fdefined (extend e s) a
  end.
(** the numbers put in are well-formed; exponents are not negative and their factorial is representable (at most 20 for 64 bits) *)
Fixpoint fwf (w : Z) (e : fexp) : Prop :=
  match e with
  | FReal c => good w c
  | FSym _ => True
  | FAdd a b | FSub a b | FMul a b | FDiv a b => fwf w a /\ fwf w b
  | FNeg a | FInv a => fwf w a
  | FPow a n => fwf w a /\ 0 <= n /\ Z.of_nat (fact (Z.to_nat n)) < 2 ^ (w - 1)
  | FSubst e a => Forall (fun p => good w (snd p)) e /\ fwf w a
  end.
