(** Vocabulary of the theorems on the comparator of Poly::normalize (C81). *)
From Coq Require Import ZArith Reals List Permutation Sorted.
From Verif Require Import Base RationalModel RealModel RealSpec PolyModel PolySpec.
Import ListNotations.
Open Scope Z_scope.

(** what std::sort asks of its comparator ([alg.sorting.general]: a strict weak ordering), on the elements in D, for a comparator that need not return *)
Definition strict_weak_ordering {A} (D : A -> Prop) (lt : A -> A -> res bool) : Prop :=
  (forall a, D a -> lt a a <> Ok true) /\
  (forall a b, D a -> D b -> lt a b = Ok true -> lt b a <> Ok true) /\
  (forall a b c, D a -> D b -> D c -> lt a b = Ok true -> lt b c = Ok true -> lt a c <> Ok false) /\
  (forall a b c, D a -> D b -> D c -> lt a b = Ok false -> lt b a = Ok false -> lt b c = Ok false -> lt c b = Ok false -> lt a c <> Ok true /\ lt c a <> Ok true).
(** a term as the operations return it, its coefficient with a positive denominator and an index below 2^(w/2) *)
Definition plain_term (w : Z) (t : term) : Prop := twf w t /\ canonical (tco t) /\ 0 < den (coe (tco t)) /\ idx (tco t) * idx (tco t) < 2 ^ w.
(** a before b: more in the order of symbols and exponents, then of index, then of radicand, then of the number *)
Definition precedes (a b : term) : Prop := key_cmp a b = Gt \/ key_cmp a b = Eq /\ (rv (tco b) < rv (tco a))%R.
(** what std::sort promises: a permutation in which, of two neighbours, the comparator put the earlier one first or did not put the later one first *)
Definition sorts (P : penv) : Prop :=
  forall l l', psort P l = Ok l' -> Permutation l l' /\ Sorted (fun a b => term_before (ew (pe P)) a b = Ok true \/ term_before (ew (pe P)) b a = Ok false) l'.
