(** Public functions that nothing in the library calls: Term::operator< (include/symxx/frac.hpp) and the powers of Huge (include/symxx/huge.hpp). *)
From Coq Require Import ZArith String Ascii Lia Bool List.
From Verif Require Import Base AdapterModel HugeModel RationalModel RealModel PolyModel.
Import ListNotations.
Open Scope Z_scope.

(** frac.hpp 81-90: aindex += r.second for all symbols *)
Fixpoint sum_exponents (w : Z) (acc : rat) (m : smap) : res rat :=
  match m with [] => Ok acc | (_, q) :: m' => acc' <- rat_add w acc q ;; sum_exponents w acc' m' end.
(** frac.hpp 77-102 Term::operator<; the comparisons are with the int 0 *)
Definition term_lt (w : Z) (a b : term) : res bool :=
  za <- rat_of_int w 0 ;; zb <- rat_of_int w 0 ;;
  aindex <- sum_exponents w za (syms a) ;; bindex <- sum_exponents w zb (syms b) ;;
  e <- rat_eq w aindex bindex ;;
  if e : bool then real_lt w (tco a) (tco b) else
  a0 <- rat_eq w aindex (Rat 0 1) ;;
  bn <- (if a0 : bool then Ok true else rat_ne w bindex (Rat 0 1)) ;;
  if bn : bool then Ok false else
  an <- rat_ne w aindex (Rat 0 1) ;;
  b0 <- (if an : bool then Ok true else rat_eq w bindex (Rat 0 1)) ;;
  if b0 : bool then Ok true else rat_lt w aindex bindex.

(** huge.hpp 782-793 pow(double), pow(Huge): the call of digits_pow is commented out *)
Definition huge_pow (a h : huge) : huge := mkHuge [] true.
(** huge.hpp 442-466 digits_pow; the sign of the result is never written *)
Definition digits_pow (a b : list Z) : list Z :=
  match b with
  | [] => [1]
  | _ =>
      match a with
      | [] => []
      | _ =>
          if ((length b =? 1)%nat && (nth 0 b 0 =? 1))%bool then b else
          if ((length a =? 1)%nat && (nth 0 a 0 =? 1))%bool then [1] else []
      end
  end.
