(** C81: std::sort asks that its comparator be a strict weak ordering.  The comparator of Poly::normalize is one on terms whose numbers have positive denominators, it orders by symbols and exponents, then index, then radicand, then value,
    and any sort that keeps std::sort's promise is a sort in the sense of the hypotheses of C33, C34, ...; it is none on terms a user can type.
    Vocabulary: SortSpec.v ([strict_weak_ordering], [plain_term], [precedes], [sorts]), PolySpec.v ([key_cmp], [sort_permutes], [sort_orders], [twf]). *)
From Coq Require Import ZArith Znumtheory Reals String Ascii Lia Bool List Permutation Sorted.
From Verif Require Import Base AdapterModel RationalModel RationalSpec RealModel RealSpec RealProofs6 PolyModel PolySpec PolyProofs6 ExprModel ParserModel TextSpec SortSpec SortProofs.
Import ListNotations.
Open Scope Z_scope.

Local Definition E64 : env := std_env 64 true (fun k => Z.of_nat k * Z.of_nat k * 3 + 1) 200 0.
Local Definition P64 : penv := PEnv E64 (isort 64).
Local Definition norm (s : string) : res expr := e <- parse P64 (fun _ => Throw "decimal") (txt s) ;; expr_normalize P64 e.

(** irreflexive, asymmetric, transitive, and incomparability is transitive *)
Theorem C81_strict_weak w : 1 < w ->
  (forall a, plain_term w a -> term_before w a a <> Ok true) /\
  (forall a b, plain_term w a -> plain_term w b -> term_before w a b = Ok true -> term_before w b a <> Ok true) /\
  (forall a b c, plain_term w a -> plain_term w b -> plain_term w c -> term_before w a b = Ok true -> term_before w b c = Ok true -> term_before w a c <> Ok false) /\
  (forall a b c, plain_term w a -> plain_term w b -> plain_term w c -> term_before w a b = Ok false -> term_before w b a = Ok false -> term_before w b c = Ok false -> term_before w c b = Ok false -> term_before w a c <> Ok true /\ term_before w c a <> Ok true).
Proof. exact (comparator_strict_weak w). Qed.
(** which order it is *)
Theorem C81_order w a b t : 1 < w -> plain_term w a -> plain_term w b -> term_before w a b = Ok t -> (t = true <-> precedes a b).
Proof. exact (before_precedes w a b t). Qed.
(** that order is total up to terms that agree in symbols, exponents, radical and number: their order does not matter *)
Theorem C81_ties w a b : 1 < w -> plain_term w a -> plain_term w b -> term_before w a b = Ok false -> term_before w b a = Ok false -> syms a = syms b /\ idx (tco a) = idx (tco b) /\ rad (tco a) = rad (tco b) /\ rv (tco a) = rv (tco b).
Proof. exact (ties w a b). Qed.
(** any sort that keeps std::sort's promise gives what the theorems on Poly, Frac and Expr ask of psort *)
Theorem C81_std_sort P : sorts P -> sort_permutes P /\ sort_orders P.
Proof. exact (sorts_orders P). Qed.
(** and there is one: the insertion sort of the examples *)
Theorem C81_insertion E : sorts (PEnv E (isort (ew E))).
Proof. exact (isort_sorts E). Qed.

Local Definition x (q : rat) : term := Term (Real 1 (Rat 1 1) (Rat 1 1)) [("x"%string, q)].
Local Definition root2 (q : rat) : term := Term (Real 2 (Rat 2 1) q) [].
(** not with exponents over a negative denominator: a cycle of three *)
Theorem C81_cycle_refuted : ~ strict_weak_ordering (fun t => t = x (Rat 1 1) \/ t = x (Rat (-2) (-1)) \/ t = x (Rat 3 1)) (term_before 64).
Proof. intros (_ & _ & T & _). specialize (T (x (Rat 1 1)) (x (Rat (-2) (-1))) (x (Rat 3 1))). apply T; auto. Qed.
(** which a user can type: 3/(0-2)+1/(0-2) leaves the denominator negative, and the three terms stay in cyclic order *)
Theorem C81_cycle_typed : exists d, norm "x+x^(0-3/(0-2)-1/(0-2))+x^3" = Ok (Leaf (Frac [x (Rat 1 1); x (Rat (-2) (-1)); x (Rat 3 1)] d)).
Proof. eexists. vm_compute. reflexivity. Qed.
(** nor with numbers over a negative denominator: each of two before the other *)
Theorem C81_symmetric_refuted : ~ strict_weak_ordering (fun t => t = root2 (Rat 1 2) \/ t = root2 (Rat 1 (-2))) (term_before 64).
Proof. intros (_ & A & _ & _). specialize (A (root2 (Rat 1 2)) (root2 (Rat 1 (-2)))). apply A; auto. Qed.
(** a denominator Rational's constructor keeps *)
Theorem C81_symmetric_made : rat_make 64 1 (-2) = Ok (Rat 1 (-2)). Proof. reflexivity. Qed.

(** the hypotheses hold: sqrt(2)/3 x y^(1/2) and -5 x *)
Local Definition t1 : term := Term (Real 2 (Rat 2 1) (Rat 1 3)) [("x"%string, Rat 1 1); ("y"%string, Rat 1 2)].
Local Definition t2 : term := Term (Real 1 (Rat 1 1) (Rat (-5) 1)) [("x"%string, Rat 1 1)].
Example C81_hyp1 : plain_term 64 t1.
Proof.
  split; [split; [unfold good; cbn; unfold wf, lowest_terms; cbn; repeat split; try lia; reflexivity|split; [cbn; repeat constructor; cbn; intuition discriminate|repeat constructor; cbn; reflexivity]]|].
  split; [exact (canonical_root2 (Rat 1 3) ltac:(discriminate) ltac:(discriminate))|]. cbn. lia.
Qed.
Example C81_order_ex : term_before 64 t1 t2 = Ok true /\ term_before 64 t2 t1 = Ok false /\ term_before 64 (root2 (Rat 1 3)) (root2 (Rat (-1) 3)) = Ok true /\ term_before 64 (root2 (Rat (-1) 3)) (root2 (Rat 1 3)) = Ok false.
Proof. vm_compute. auto. Qed.
Example C81_sort_ex : psort P64 [t2; t1; root2 (Rat 1 3)] = Ok [t1; t2; root2 (Rat 1 3)]. Proof. vm_compute. reflexivity. Qed.

Print Assumptions C81_strict_weak.
Print Assumptions C81_order.
Print Assumptions C81_ties.
Print Assumptions C81_std_sort.
Print Assumptions C81_insertion.
Print Assumptions C81_cycle_refuted.
Print Assumptions C81_cycle_typed.
Print Assumptions C81_symmetric_refuted.
Print Assumptions C81_symmetric_made.
