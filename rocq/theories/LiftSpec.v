(** Vocabulary of the theorems about expressions with double arithmetic. *)
From Coq Require Import ZArith QArith String Ascii Bool List.
From Verif Require Import Base RationalModel RealModel PolyModel ExprModel ParserModel PolySpec ExprSpec DecModel NumModel DblModel DblSpec LiftModel.
Import ListNotations.
Open Scope Z_scope.

(** two std::sort that agree: what [sort] does where it says what happens, the other does *)
Definition sorts_alike (sort : poly -> res poly) (D : dpenv) : Prop := forall l, agrees (sort l) (dsort D l).
(** a machine with double arithmetic, and the machine of the exact models that goes with it *)
Definition exact_machine (sort : poly -> res poly) (D : dpenv) : penv := PEnv (de (dpe D)) sort.

(** a Real without a root *)
Definition rootless (c : real) : Prop := idx c = 1 /\ rad c = Rat 1 1.
Definition rootless_poly (l : poly) : Prop := Forall (fun t => rootless (tco t)) l.
Definition rootless_frac (f : frac) : Prop := rootless_poly (fnum f) /\ rootless_poly (fden f).
(** an expression with such numbers in its leaves, and an expression with no ^ *)
Fixpoint rootless_leaves (e : expr) : Prop := match e with Leaf f => rootless_frac f | Op _ l r => rootless_leaves l /\ rootless_leaves r end.
Fixpoint powerless (e : expr) : Prop := match e with Leaf _ => True | Op c l r => c <> "^"%char /\ powerless l /\ powerless r end.
(** two std::sort that are the same on polynomials without roots, and give such polynomials *)
Definition sorts_same (sort : poly -> res poly) (D : dpenv) : Prop :=
  forall l, rootless_poly l -> dsort D l = sort l /\ forall l', sort l = Ok l' -> rootless_poly l'.

(** the history of Frac operations [e] with double arithmetic *)
Fixpoint frun_d (D : dpenv) (e : fexp) : res frac :=
  match e with
  | FReal c => frac_of_real_d D c
  | FSym k => c <- real_of_int_d (dpe D) 1 ;; frac_of_term_d D (term_sym c k)
  | FAdd a b => x <- frun_d D a ;; y <- frun_d D b ;; frac_add_d D x y
  | FSub a b => x <- frun_d D a ;; y <- frun_d D b ;; frac_sub_d D x y
  | FMul a b => x <- frun_d D a ;; y <- frun_d D b ;; frac_mul_d D x y
  | FDiv a b => x <- frun_d D a ;; y <- frun_d D b ;; frac_div_d D x y
  | FNeg a => x <- frun_d D a ;; frac_negate_d D x
  | FInv a => x <- frun_d D a ;; frac_inverse_d D x
  | FPow a n => x <- frun_d D a ;; frac_pow_d D x (Rat n 1)
  | FSubst e a => x <- frun_d D a ;; frac_subst_d D e x
  end.
(** a history that starts from numbers without roots and takes no powers *)
Fixpoint rational_history (e : fexp) : Prop :=
  match e with
  | FReal c => rootless c
  | FSym _ => True
  | FAdd a b | FSub a b | FMul a b | FDiv a b => rational_history a /\ rational_history b
  | FNeg a | FInv a => rational_history a
  | FPow _ _ | FSubst _ _ => False
  end.

(** normalize, then to_string; normalize, then to_tex, with double arithmetic *)
Definition simplifies_to_d (D : dpenv) (e : expr) (t : text) : Prop := exists e', expr_normalize_d D e = Ok e' /\ expr_to_string_d (dpe D) e' = Ok t.
Definition typeset_as_d (D : dpenv) (e : expr) (t : text) : Prop := exists e', expr_normalize_d D e = Ok e' /\ expr_to_tex_d (dpe D) e' = Ok t.
(** a line, read, simplified and printed *)
Definition answers_d (D : dpenv) (dec : text -> res rat) (line t : text) : Prop := exists e, parse_d D dec line = Ok e /\ simplifies_to_d D e t.
Definition typesets_d (D : dpenv) (dec : text -> res rat) (line t : text) : Prop := exists e, parse_d D dec line = Ok e /\ typeset_as_d D e t.
