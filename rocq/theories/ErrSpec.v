(** Vocabulary of the theorems about exceptions. *)
From Coq Require Import ZArith String Ascii Bool List.
From Verif Require Import Base RationalModel RealModel PolyModel ExprModel CliModel.
Import ListNotations.
Open Scope Z_scope.

(** if [r] is an exception, it is a symxx::Error *)
Definition only_errors {A} (r : res A) : Prop := forall m, r = Throw m -> is_std m = false.
(** [r] is not an exception *)
Definition no_exception {A} (r : res A) : Prop := forall m, r <> Throw m.

(** no denominator is 0: true of everything the constructors build *)
Definition sane_rat (q : rat) : Prop := den q <> 0.
Definition sane_real (a : real) : Prop := sane_rat (coe a) /\ sane_rat (rad a).
Definition sane_syms (m : smap) : Prop := Forall (fun kv => sane_rat (snd kv)) m.
Definition sane_term (t : term) : Prop := sane_real (tco t) /\ sane_syms (syms t).
Definition sane_poly (l : poly) : Prop := Forall sane_term l.
Definition sane_frac (f : frac) : Prop := sane_poly (fnum f) /\ sane_poly (fden f).
Fixpoint sane_expr (e : expr) : Prop := match e with Leaf f => sane_frac f | Op _ l r => sane_expr l /\ sane_expr r end.
Definition sane_env (e : envmap) : Prop := Forall (fun kv => sane_real (snd kv)) e.

(** factorize and std::sort throw nothing, and std::sort only moves the elements *)
Definition calm (P : penv) : Prop :=
  (forall n, no_exception (efac (pe P) n)) /\
  (forall l, sane_poly l -> no_exception (psort P l)) /\
  (forall l l', sane_poly l -> psort P l = Ok l' -> forall t, In t l' -> In t l).
