(** Model of Term<T>, Poly<T>, Frac<T> (include/symxx/frac.hpp; all citations are to that file) for a machine integer T of [ew] bits.

    Simplifications:
    - std::map<std::string, Rational> is the list of its entries in key order; std::string's order is byte-wise (String.compare).
    - std::sort with the comparator of Poly::normalize (611-626) is the parameter [psort]: any function whose result is a permutation of
      its argument (theorems about values), or moreover sorted by the comparator [term_before] (theorems about like terms).  [isort] is an
      instance.
    - the long double evaluations (175-190, 531-546, 895-902) are not modelled; `Poly operator/(Real)` (458-464) does not compile when
      instantiated (Real has no try_eval) and is not modelled. *)
From Coq Require Import ZArith String Ascii Lia Bool List.
From Verif Require Import Base AdapterModel RationalModel RealModel.
Import ListNotations.
Open Scope Z_scope.

Definition smap := list (string * rat).
(** 34-35 *)
Record term := Term { tco : real; syms : smap }.
Definition poly := list term.
Record penv := PEnv { pe : env; psort : poly -> res poly }.

(** std::map find, insert (the key is not present), erase *)
Fixpoint sfind (k : string) (m : smap) : option rat :=
  match m with [] => None | (k', v) :: m' => if String.eqb k k' then Some v else sfind k m' end.
Fixpoint sinsert (k : string) (v : rat) (m : smap) : smap :=
  match m with
  | [] => [(k, v)]
  | (k', v') :: m' => match String.compare k k' with Lt => (k, v) :: m | _ => (k', v') :: sinsert k v m' end
  end.
Fixpoint supdate (k : string) (v : rat) (m : smap) : smap :=
  match m with [] => [] | (k', v') :: m' => if String.eqb k k' then (k', v) :: m' else (k', v') :: supdate k v m' end.
Fixpoint serase (k : string) (m : smap) : smap :=
  match m with [] => [] | (k', v) :: m' => if String.eqb k k' then m' else (k', v) :: serase k m' end.
(** std::map == : same size and entry-wise ==, in order, with short circuit *)
Fixpoint entries_eq (w : Z) (a b : smap) : res bool :=
  match a, b with
  | (k, v) :: a', (k', v') :: b' =>
      if String.eqb k k' then e <- rat_eq w v v' ;; if e : bool then entries_eq w a' b' else Ok false else Ok false
  | _, _ => Ok true
  end.
Definition smap_eq (w : Z) (a b : smap) : res bool := if Nat.eqb (length a) (length b) then entries_eq w a b else Ok false.
(** std::map > : lexicographic comparison of the entries, key first *)
Fixpoint smap_cmp (w : Z) (a b : smap) : res comparison :=
  match a, b with
  | [], [] => Ok Eq
  | [], _ => Ok Lt
  | _, [] => Ok Gt
  | (k, v) :: a', (k', v') :: b' =>
      match String.compare k k' with
      | Eq => c <- rat_cmp w v v' ;; match c with Eq => smap_cmp w a' b' | c => Ok c end
      | c => Ok c
      end
  end.

(** 216-225 Term::normalize: erase the symbols with exponent 0 *)
Fixpoint drop_zero (w : Z) (m : smap) : res smap :=
  match m with
  | [] => Ok []
  | (k, v) :: m' => z <- rat_eq w v (Rat 0 1) ;; r <- drop_zero w m' ;; Ok (if z : bool then r else (k, v) :: r)
  end.
Definition term_normalize (w : Z) (t : term) : res term := s <- drop_zero w (syms t) ;; Ok (Term (tco t) s).
(** 38-46 *)
Definition term_make (w : Z) (c : real) (s : smap) : res term := term_normalize w (Term c s).
(** 48-52; 227-230 no_symbols *)
Definition term_sym (c : real) (u : string) : term := Term c [(u, Rat 1 1)].
Definition term_const (c : real) : term := Term c [].
Definition no_symbols (t : term) : bool := match syms t with [] => true | _ => false end.

Definition envmap := list (string * real).
Fixpoint efind (k : string) (e : envmap) : option real :=
  match e with [] => None | (k', v) :: e' => if String.eqb k k' then Some v else efind k e' end.
(** 57-75 substitute *)
Fixpoint subst_coe (E : env) (e : envmap) (m : smap) (c : real) : res real :=
  match m with
  | [] => Ok c
  | (k, q) :: m' =>
      match efind k e with
      | Some v => p <- real_pow E v q ;; c' <- real_mul E c p ;; subst_coe E e m' c'
      | None => subst_coe E e m' c
      end
  end.
Definition term_subst (E : env) (e : envmap) (t : term) : res term :=
  c <- subst_coe E e (syms t) (tco t) ;; Ok (Term c (fold_left (fun m p => serase (fst p) m) e (syms t))).
(** 104-107 == *)
Definition term_eq (w : Z) (a b : term) : res bool :=
  c <- real_eq w (tco a) (tco b) ;; if c : bool then smap_eq w (syms a) (syms b) else Ok false.
(** 109-129 *=, * *)
Fixpoint merge_syms (w : Z) (b : smap) (a : smap) : res smap :=
  match b with
  | [] => Ok a
  | (k, q) :: b' =>
      match sfind k a with
      | None => merge_syms w b' (sinsert k q a)
      | Some q0 => q1 <- rat_add w q0 q ;; merge_syms w b' (supdate k q1 a)
      end
  end.
Definition term_mul (E : env) (a b : term) : res term :=
  s <- merge_syms (ew E) (syms b) (syms a) ;; c <- real_mul E (tco a) (tco b) ;; term_normalize (ew E) (Term c s).
(** 131-143 /= Real *)
Definition term_div (E : env) (a : term) (r : real) : res term := c <- real_div E (tco a) r ;; term_normalize (ew E) (Term c (syms a)).
(** 145-155 pow *)
Fixpoint scale_syms (w : Z) (q : rat) (m : smap) : res smap :=
  match m with [] => Ok [] | (k, v) :: m' => v' <- rat_mul w v q ;; r <- scale_syms w q m' ;; Ok ((k, v') :: r) end.
Definition term_pow (E : env) (a : term) (q : rat) : res term :=
  c <- real_pow E (tco a) q ;; s <- scale_syms (ew E) q (syms a) ;; term_normalize (ew E) (Term c s).
(** 157-160 negate *)
Definition term_negate (E : env) (a : term) : res term := c <- real_negate E (tco a) ;; term_make (ew E) c (syms a).
(** 169-173 eval, 192-197 try_eval *)
Definition has_symbols : string := "Term must not have symbols.".
Definition term_eval (a : term) : res real := if no_symbols a then Ok (tco a) else Throw has_symbols.
Definition term_try_eval (a : term) : option real := if no_symbols a then Some (tco a) else None.
(** 199 is_positive *)
Definition term_positive (E : env) (a : term) : res bool := z <- real_of_int E 0 ;; real_gt (ew E) (tco a) z.
(** 201-204 is_equivalent_with *)
Definition term_equivalent (w : Z) (a b : term) : res bool :=
  s <- smap_eq w (syms a) (syms b) ;; if s : bool then is_equivalent w (tco a) (tco b) else Ok false.

(** 335-344 solve_variable_eq_helper, 346-365 solve_variable_eq: m <= 1 recurses downwards for ever (fuel) *)
Definition solve_helper (w n : Z) : res (list (list Z)) :=
  k <- chk w (n + 1) ;; Ok (map (fun i => [Z.of_nat i; n - Z.of_nat i]) (seq 0 (Z.to_nat k))).
Fixpoint solve_variable_eq (w : Z) (fuel : nat) (n m : Z) : res (list (list Z)) :=
  if m =? 2 then solve_helper w n else
  match fuel with
  | O => Fuel
  | S f =>
      tmp <- solve_helper w n ;;
      (fix go (l : list (list Z)) : res (list (list Z)) :=
         match l with
         | [] => Ok []
         | r :: l' => t <- solve_variable_eq w f (nth 1 r 0) (m - 1) ;; rest <- go l' ;; Ok (map (fun a => nth 0 r 0 :: a) t ++ rest)
         end) tmp
  end.

(** 611-626 the comparator of Poly::normalize *)
Definition term_before (w : Z) (a b : term) : res bool :=
  e <- smap_eq w (syms a) (syms b) ;;
  if negb e then c <- smap_cmp w (syms a) (syms b) ;; Ok (match c with Gt => true | _ => false end) else
  if negb (idx (tco a) =? idx (tco b)) then Ok (idx (tco b) <? idx (tco a)) else
  r <- rat_ne w (rad (tco a)) (rad (tco b)) ;;
  if r : bool then rat_gt w (rad (tco a)) (rad (tco b)) else
  real_gt w (tco a) (tco b).
(** one possible std::sort: insertion *)
Fixpoint insert_term (w : Z) (t : term) (l : poly) : res poly :=
  match l with
  | [] => Ok [t]
  | u :: l' => b <- term_before w u t ;; if b : bool then r <- insert_term w t l' ;; Ok (u :: r) else Ok (t :: l)
  end.
Fixpoint isort (w : Z) (l : poly) : res poly := match l with [] => Ok [] | t :: l' => s <- isort w l' ;; insert_term w t s end.
(** 627-639: merge neighbours that are equivalent *)
Fixpoint merge_from (E : env) (a : term) (l : poly) : res poly :=
  match l with
  | [] => Ok [a]
  | b :: l' =>
      e <- term_equivalent (ew E) a b ;;
      if e : bool then c <- real_add E (tco a) (tco b) ;; t <- term_make (ew E) c (syms a) ;; merge_from E t l'
      else r <- merge_from E b l' ;; Ok (a :: r)
  end.
Definition merge_terms (E : env) (l : poly) : res poly := match l with [] => Ok [] | a :: l' => merge_from E a l' end.
(** 609-640 normalize *)
Definition poly_normalize (P : penv) (l : poly) : res poly := s <- psort P l ;; merge_terms (pe P) s.

Fixpoint mapr {A B} (f : A -> res B) (l : list A) : res (list B) :=
  match l with [] => Ok [] | a :: l' => b <- f a ;; r <- mapr f l' ;; Ok (b :: r) end.
(** 548-570 try_eval *)
Fixpoint try_sum (E : env) (acc : real) (l : poly) : res (option real) :=
  match l with
  | [] => Ok (Some acc)
  | t :: l' =>
      match term_try_eval t with
      | None => Ok None
      | Some c =>
          e <- is_equivalent (ew E) acc c ;;
          if e : bool then acc' <- real_add E acc c ;; try_sum E acc' l' else Ok None
      end
  end.
Definition poly_try_eval (E : env) (l : poly) : res (option real) := z <- real_of_int E 0 ;; try_sum E z l.
(** 521-529 eval *)
Fixpoint eval_sum (E : env) (acc : real) (l : poly) : res real :=
  match l with [] => Ok acc | t :: l' => c <- term_eval t ;; acc' <- real_add E acc c ;; eval_sum E acc' l' end.
Definition poly_eval (E : env) (l : poly) : res real := z <- real_of_int E 0 ;; eval_sum E z l.
(** 572-582 no_symbols *)
Definition poly_no_symbols (l : poly) : bool := forallb no_symbols l.
(** 596-599 == of vectors *)
Fixpoint terms_eq (w : Z) (a b : poly) : res bool :=
  match a, b with x :: a', y :: b' => e <- term_eq w x y ;; if e : bool then terms_eq w a' b' else Ok false | _, _ => Ok true end.
Definition poly_eq (w : Z) (a b : poly) : res bool := if Nat.eqb (length a) (length b) then terms_eq w a b else Ok false.
(** 601-607 substitute *)
Definition poly_subst (E : env) (e : envmap) (l : poly) : res poly := mapr (term_subst E e) l.
(** 642-652 is_zero *)
Fixpoint poly_is_zero (E : env) (l : poly) : res bool :=
  match l with
  | [] => Ok true
  | t :: l' => z <- real_of_int E 0 ;; n <- real_ne (ew E) (tco t) z ;; if n : bool then Ok false else poly_is_zero E l'
  end.
(** 373-384: constructors *)
Definition poly_make (P : penv) (l : poly) : res poly := poly_normalize P l.
Definition both (E : env) (a b : poly) : res (option (real * real)) :=
  x <- poly_try_eval E a ;; y <- poly_try_eval E b ;; Ok (match x, y with Some x, Some y => Some (x, y) | _, _ => None end).
(** 386-391 +=, 393-402 + *)
Definition poly_add_to (P : penv) (a b : poly) : res poly := poly_normalize P (a ++ b).
Definition poly_add (P : penv) (a b : poly) : res poly :=
  v <- both (pe P) a b ;;
  match v with Some (x, y) => s <- real_add (pe P) x y ;; poly_make P [term_const s] | None => poly_add_to P a b end.
(** 502-508 negate *)
Definition poly_negate (E : env) (a : poly) : res poly := mapr (term_negate E) a.
(** 404-409 -=, 411-420 - *)
Definition poly_sub_to (P : penv) (a b : poly) : res poly :=
  nb <- poly_negate (pe P) b ;; s <- poly_add_to P a nb ;; poly_normalize P s.
Definition poly_sub (P : penv) (a b : poly) : res poly :=
  v <- both (pe P) a b ;;
  match v with Some (x, y) => s <- real_sub (pe P) x y ;; poly_make P [term_const s] | None => poly_sub_to P a b end.
(** 422-435 *=, 437-446 * *)
Definition poly_mul_to (P : penv) (a b : poly) : res poly :=
  l <- mapr (fun x => mapr (term_mul (pe P) x) b) a ;; poly_normalize P (concat l).
Definition poly_mul (P : penv) (a b : poly) : res poly :=
  v <- both (pe P) a b ;;
  match v with Some (x, y) => s <- real_mul (pe P) x y ;; poly_make P [term_const s] | None => poly_mul_to P a b end.
(** 448-456 /= *)
Definition poly_div_to (P : penv) (a : poly) (r : real) : res poly := l <- mapr (fun t => term_div (pe P) t r) a ;; poly_normalize P l.
(** 477-481: the unsigned factorial, modulo 2^w *)
Fixpoint wfact (w : Z) (n : nat) : Z := match n with O => 1 | S k => uwrap w (Z.of_nat (S k) * wfact w k) end.
(** 484-491: q /= t for t = 1 .. x *)
Fixpoint div_fact (w : Z) (q : rat) (t : Z) (n : nat) : res rat :=
  match n with O => Ok q | S k => d <- rat_of_index w t ;; q' <- rat_div w q d ;; div_fact w q' (t + 1) k end.
Fixpoint div_facts (w : Z) (q : rat) (v : list Z) : res rat :=
  match v with [] => Ok q | x :: v' => q' <- div_fact w q 1 (Z.to_nat x) ;; div_facts w q' v' end.
(** 492-496: the product of the powers, starting from the constant q *)
Fixpoint mul_powers (E : env) (acc : term) (l : poly) (v : list Z) : res term :=
  match l, v with
  | t :: l', x :: v' => q <- rat_of_int (ew E) x ;; p <- term_pow E t q ;; acc' <- term_mul E acc p ;; mul_powers E acc' l' v'
  | _, _ => Ok acc
  end.
Definition multinomial (E : env) (a : poly) (fact : Z) (v : list Z) : res term :=
  q0 <- rat_of_index (ew E) fact ;; q <- div_facts (ew E) q0 v ;; c <- real_of_rat E q ;; mul_powers E (term_const c) a v.
(** 466-500 pow *)
Definition poly_pow (P : penv) (a : poly) (q : rat) : res poly :=
  let E := pe P in let w := ew E in
  z <- rat_eq w q (Rat 0 1) ;;
  if z : bool then c <- real_of_int E 1 ;; poly_make P [term_const c] else
  o <- rat_eq w q (Rat 1 1) ;;
  if o : bool then Ok a else
  match a with
  | [t] => p <- term_pow E t q ;; poly_make P [p]
  | _ =>
      v <- poly_try_eval E a ;;
      match v with
      | Some c => c' <- real_pow E c q ;; poly_make P [term_const c']
      | None =>
          if is_int q then
            n <- rat_to_t w q ;;
            vs <- solve_variable_eq w (length a) n (Z.of_nat (length a)) ;;
            l <- mapr (multinomial E a (wfact w (Z.to_nat (uwrap w n)))) vs ;;
            poly_make P l
          else Throw "Must be a int."
      end
  end.

(** 739-740 *)
Record frac := Frac { fnum : poly; fden : poly }.
Definition poly_one (P : penv) : res poly := c <- real_of_int (pe P) 1 ;; poly_make P [term_const c].
Fixpoint dens (w : Z) (m : Z) (l : poly) : res Z := match l with [] => Ok m | t :: l' => m' <- chk w (m * den (coe (tco t))) ;; dens w m' l' end.
(** 904-945 normalize *)
Fixpoint gcd_inner (w g n : Z) (ds : poly) : res (option Z) :=
  match ds with
  | [] => Ok (Some g)
  | d :: ds' =>
      b <- rat_to_t w (coe (tco d)) ;; ng <- adapter_gcd w n b ;;
      if ng =? 0 then Ub "% 0" else
      if Z.rem g ng =? 0 then gcd_inner w (Z.min g ng) n ds' else Ok None
  end.
Fixpoint gcd_outer (w g : Z) (ns ds : poly) : res (option Z) :=
  match ns with
  | [] => Ok (Some g)
  | t :: ns' =>
      match ds with [] => gcd_outer w g ns' ds | _ =>
        n <- rat_to_t w (coe (tco t)) ;; o <- gcd_inner w g n ds ;;
        match o with Some g' => gcd_outer w g' ns' ds | None => Ok None end
      end
  end.
Definition frac_normalize (P : penv) (f : frac) : res frac :=
  let E := pe P in let w := ew E in
  n <- poly_normalize P (fnum f) ;; d <- poly_normalize P (fden f) ;;
  m1 <- dens w 1 d ;; m <- dens w m1 n ;;
  n <- mapr (fun t => c <- real_of_int E m ;; term_mul E t (term_const c)) n ;;
  d <- mapr (fun t => c <- real_of_int E m ;; term_mul E t (term_const c)) d ;;
  match n, d with
  | n0 :: _, d0 :: ds =>
      a <- rat_to_t w (coe (tco n0)) ;; b <- rat_to_t w (coe (tco d0)) ;;
      g0 <- adapter_gcd w a b ;;
      o <- gcd_outer w g0 n ds ;;
      match o with
      | None => Ok (Frac n d)
      | Some g => gr <- real_of_int E g ;; n' <- poly_div_to P n gr ;; gr <- real_of_int E g ;; d' <- poly_div_to P d gr ;; Ok (Frac n' d')
      end
  | _, _ => Ub "vector[0]"
  end.
(** 743-753 Frac(Real), Frac(Term), 755-759 Frac(Poly), 761-766 Frac(Poly, Poly) *)
Definition frac_of_poly (P : penv) (n : poly) : res frac := d <- poly_one P ;; frac_normalize P (Frac n d).
Definition frac_of_term (P : penv) (t : term) : res frac := n <- poly_make P [t] ;; frac_of_poly P n.
Definition frac_of_real (P : penv) (c : real) : res frac := frac_of_term P (term_const c).
Definition frac_make (P : penv) (n d : poly) : res frac :=
  z <- poly_is_zero (pe P) d ;; if z : bool then Throw division_by_zero else frac_normalize P (Frac n d).
(** 777-798 += and + *)
Definition frac_add (P : penv) (a b : frac) : res frac :=
  e <- poly_eq (ew (pe P)) (fden a) (fden b) ;;
  if e : bool then n <- poly_add_to P (fnum a) (fnum b) ;; Ok (Frac n (fden a)) else
  x <- poly_mul P (fnum a) (fden b) ;; y <- poly_mul P (fnum b) (fden a) ;; n <- poly_add P x y ;;
  d <- poly_mul_to P (fden a) (fden b) ;; frac_normalize P (Frac n d).
(** 947-950 negate, 952 inverse *)
Definition frac_negate (P : penv) (a : frac) : res frac := n <- poly_negate (pe P) (fnum a) ;; frac_make P n (fden a).
Definition frac_inverse (P : penv) (a : frac) : res frac := frac_make P (fden a) (fnum a).
(** 800-805 -=, 807-810 - *)
Definition frac_sub_to (P : penv) (a b : frac) : res frac := nb <- frac_negate P b ;; s <- frac_add P a nb ;; frac_normalize P s.
Definition frac_sub (P : penv) (a b : frac) : res frac := nb <- frac_negate P b ;; frac_add P a nb.
(** 812-825 *= and * *)
Definition frac_mul (P : penv) (a b : frac) : res frac :=
  n <- poly_mul_to P (fnum a) (fnum b) ;; d <- poly_mul_to P (fden a) (fden b) ;; frac_normalize P (Frac n d).
(** 827-841 /= and / *)
Definition frac_div (P : penv) (a b : frac) : res frac :=
  z <- poly_is_zero (pe P) (fnum b) ;; if z : bool then Throw division_by_zero else
  n <- poly_mul_to P (fnum a) (fden b) ;; d <- poly_mul_to P (fden a) (fnum b) ;; frac_normalize P (Frac n d).
(** 883-893 try_eval, 878-881 eval *)
Definition frac_try_eval (P : penv) (a : frac) : res (option real) :=
  x <- poly_try_eval (pe P) (fnum a) ;; y <- poly_try_eval (pe P) (fden a) ;;
  match x, y with Some x, Some y => q <- real_div (pe P) x y ;; Ok (Some q) | _, _ => Ok None end.
Definition frac_eval (P : penv) (a : frac) : res real :=
  x <- poly_eval (pe P) (fnum a) ;; y <- poly_eval (pe P) (fden a) ;; real_div (pe P) x y.
(** 844-852 pow *)
Definition frac_pow (P : penv) (a : frac) (q : rat) : res frac :=
  v <- frac_try_eval P a ;;
  match v with
  | Some c => c' <- real_pow (pe P) c q ;; frac_of_real P c'
  | None => n <- poly_pow P (fnum a) q ;; d <- poly_pow P (fden a) q ;; frac_normalize P (Frac n d)
  end.
(** 854-860 substitute *)
Definition frac_subst (P : penv) (e : envmap) (a : frac) : res frac :=
  n <- poly_subst (pe P) e (fnum a) ;; d <- poly_subst (pe P) e (fden a) ;; f <- frac_normalize P (Frac n d) ;;
  z <- poly_is_zero (pe P) (fden f) ;; if z : bool then Throw division_by_zero else Ok f.
(** 862-865 *)
Definition frac_no_symbols (a : frac) : bool := (poly_no_symbols (fnum a) && poly_no_symbols (fden a))%bool.
