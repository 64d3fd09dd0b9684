(** Vocabulary of the theorems on compound assignment (C79, C80). *)
From Coq Require Import ZArith String Bool List.
From Verif Require Import Base HugeModel RationalModel RealModel PolyModel AliasModel ErrSpec.
Import ListNotations.
Open Scope Z_scope.

(** the object after the program, if it ended normally *)
Definition done {A} (p : A * res unit) : res A := match snd p with Ok _ => Ok (fst p) | Throw m => Throw m | Ub y => Ub y | Fuel => Fuel end.
(** a op= a does what { auto b = a; a op= b; } does *)
Definition copy_safe {A} (op : arg A -> prog A) : Prop := forall a, done (op Itself a) = done (op (Other a) a).
(** if the operation throws, the object is as before *)
Definition keeps {A} (p : prog A) (a : A) : Prop := forall m, snd (p a) = Throw m -> fst (p a) = a.
(** a std::map has every key once *)
Definition keyed (t : term) : Prop := NoDup (map fst (syms t)).
