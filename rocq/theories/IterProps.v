(** C83: loops that walk over a container while they change it, with iterators as positions (IterModel.v; Outside: an iterator moved before the first or behind the end, or the end dereferenced or erased). *)
From Coq Require Import ZArith String Ascii Lia Bool List.
From Verif Require Import Base AdapterModel HugeModel RationalModel RealModel RealSpec PolyModel ExprModel ParserModel ScanModel DtoaModel DtoaSpec DtoaProps IterModel IterProofs.
Import ListNotations.
Open Scope Z_scope.

(** Poly::normalize: like terms merged in place, the second of each pair erased *)
Theorem C83_merge P l : normalize_at P l = Scan (poly_normalize P l).
Proof. exact (normalize_at_ok P l). Qed.
(** Term::normalize: symbols with exponent 0 erased *)
Theorem C83_erase w t : term_normalize_at w t = Scan (term_normalize w t).
Proof. exact (term_normalize_at_ok w t). Qed.
(** Term::substitute: values looked up in one map, symbols erased from the other *)
Theorem C83_substitute E e t : term_subst_at E e t = Scan (term_subst E e t).
Proof. exact (term_subst_at_ok E e t). Qed.
(** Term::operator*=: exponents looked up and added, missing symbols inserted *)
Theorem C83_multiply w b a : merge_syms_at w b a = Scan (merge_syms w b a).
Proof. exact (merge_syms_ok w b a). Qed.
(** decompose_radicand: each factor compared with the next one *)
Theorem C83_factors l : decompose_at (S (length l)) l 0 1 [] = Scan (Ok (decompose_loop l 1 [])).
Proof. exact (decompose_at_ok l). Qed.
(** prettify_string: the ranges of the digits *)
Theorem C83_digits buffer k : buffer <> [] -> prettify_at buffer k = Scan (prettify_string buffer k).
Proof. exact (prettify_at_ok buffer k). Qed.
(** no iterator ever leaves its container, for any contents *)
Theorem C83_inside P w E e t a b l n : normalize_at P l <> Outside /\ term_normalize_at w t <> Outside /\ term_subst_at E e t <> Outside /\ merge_syms_at w b a <> Outside /\ decompose_at (S (length n)) n 0 1 [] <> Outside.
Proof. rewrite C83_merge, C83_erase, C83_substitute, C83_multiply, C83_factors. repeat split; discriminate. Qed.
(** nor in the printing of any positive finite double *)
Theorem C83_inside_dtoa b : finite b -> 0 < b -> exists r K, grisu2 b = Ok (r, K) /\ prettify_at r K <> Outside.
Proof.
  intros F B. destruct (C46_interval b F B) as (r & K & G & _ & _ & _ & L & _). exists r, K. split; [exact G|]. rewrite C83_digits; [discriminate|]. intros ->. cbn in L. lia.
Qed.
(** of no digits at all it would form an iterator behind the end (the buffer of grisu2 is never empty) *)
Theorem C83_empty_refuted : prettify_at [] (-7) = Outside.
Proof. reflexivity. Qed.

Local Definition E64 : env := std_env 64 true (fun k => Z.of_nat k * Z.of_nat k * 3 + 1) 200 0.
Local Definition P64 : penv := PEnv E64 (isort 64).
Local Definition x (n : Z) : term := Term (Real 1 (Rat 1 1) (Rat n 1)) [("x"%string, Rat 1 1)].
Local Definition c (n : Z) : term := Term (Real 1 (Rat 1 1) (Rat n 1)) [].
(** 4 + 2x + x - 3x + 5 : three terms merged into one, two into another *)
Example C83_ex_merge : normalize_at P64 [c 4; x 2; x 1; x (-3); c 5] = Scan (Ok [x 0; c 9]) /\ normalize_at P64 [] = Scan (Ok []).
Proof. vm_compute. auto. Qed.
Example C83_ex_erase : term_normalize_at 64 (Term (tco (c 1)) [("a"%string, Rat 0 1); ("b"%string, Rat 2 1); ("c"%string, Rat 0 1)]) = Scan (Ok (Term (tco (c 1)) [("b"%string, Rat 2 1)])).
Proof. vm_compute. reflexivity. Qed.
Example C83_ex_substitute : term_subst_at E64 [("x"%string, Real 1 (Rat 1 1) (Rat 5 1)); ("z"%string, Real 1 (Rat 1 1) (Rat 7 1))] (x 3) = Scan (Ok (c 15)).
Proof. vm_compute. reflexivity. Qed.
Example C83_ex_multiply : merge_syms_at 64 [("a"%string, Rat 1 1); ("x"%string, Rat 1 2)] [("x"%string, Rat 1 2)] = Scan (Ok [("a"%string, Rat 1 1); ("x"%string, Rat 1 1)]).
Proof. vm_compute. reflexivity. Qed.
Example C83_ex_factors : decompose_at 8 [2; 2; 3; 5; 5; 5; 7] 0 1 [] = Scan (Ok [(1, [3; 7]); (2, [2]); (3, [5])]).
Proof. vm_compute. reflexivity. Qed.
Example C83_ex_digits : prettify_at (txt "12345") (-2) = Scan (Ok (txt "123.45")) /\ finite 0x3fb999999999999a.
Proof. split; vm_compute; intuition discriminate. Qed.

Print Assumptions C83_merge.
Print Assumptions C83_erase.
Print Assumptions C83_substitute.
Print Assumptions C83_multiply.
Print Assumptions C83_factors.
Print Assumptions C83_digits.
Print Assumptions C83_inside.
Print Assumptions C83_inside_dtoa.
Print Assumptions C83_empty_refuted.
