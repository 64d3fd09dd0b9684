(** The built-in function fib of the symxx command line (apps/symxx.cpp): what the start state holds for it, and what it should compute *)
From Coq Require Import ZArith String Ascii List.
From Verif Require Import Base RationalModel RealModel PolyModel ExprModel TextSpec.
Import ListNotations. Open Scope Z_scope.
(** the Fibonacci numbers *)
Fixpoint fib (n : nat) : Z := match n with O => 0 | S O => 1 | S (S k as m) => fib m + fib k end.
(** the number c * sqrt 5 and the integer n, as terms *)
Definition sqrt5 (c : Z) : term := Term (Real 2 (Rat 5 1) (Rat c 1)) [].
Definition whole (n : Z) : term := Term (rint n) [].
(** sqrt 5 / 5 * (((sqrt 5 + 1) / 2)^n - ((-sqrt 5 + 1) / 2)^n): the simplified form of the source's ((1/5)^0.5)*(((1+5^0.5)/2)^n-((1-5^0.5)/2)^n) *)
Definition fib_tree : expr :=
  Op "*" (Leaf (Frac [sqrt5 1] [whole 5]))
         (Op "-" (Op "^" (Leaf (Frac [sqrt5 1; whole 1] [whole 2])) (Leaf (leaf_sym "n")))
                 (Op "^" (Leaf (Frac [sqrt5 (-1); whole 1] [whole 2])) (Leaf (leaf_sym "n")))).
