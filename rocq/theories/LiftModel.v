(** Term, Poly, Frac (include/symxx/frac.hpp), ExprNode (expr.hpp) and the parser (parser.hpp) with the arithmetic of double spelled out: the definitions of
    PolyModel.v, ExprModel.v and ParserModel.v, one by one, computing with the Real of DblModel.v instead of that of RealModel.v.  The two are compared in
    LiftProofs.v. *)
From Coq Require Import ZArith QArith String Ascii Lia Bool List.
From Verif Require Import Base AdapterModel RationalModel RealModel PolyModel ExprModel ParserModel DecModel NumModel DblModel.
Import ListNotations.
Open Scope Z_scope.

(** the machine: double arithmetic and std::sort *)
Record dpenv := DPEnv { dpe : denv; dsort : poly -> res poly }.
(** num.hpp 389-396 *)
Definition real_of_rat_d (X : denv) (c : rat) : res real := real_make_d X c (Rat 1 1) 1.
(** frac.hpp 57-75 substitute *)
Fixpoint subst_coe_d (X : denv) (e : envmap) (m : smap) (c : real) : res real :=
  match m with
  | [] => Ok c
  | (k, q) :: m' =>
      match efind k e with
      | Some v => p <- real_pow_d X v q ;; c' <- real_mul_d X c p ;; subst_coe_d X e m' c'
      | None => subst_coe_d X e m' c
      end
  end.
(** part of frac.hpp 57-75 substitute *)
Definition term_subst_d (X : denv) (e : envmap) (t : term) : res term :=
  c <- subst_coe_d X e (syms t) (tco t) ;; Ok (Term c (fold_left (fun m p => serase (fst p) m) e (syms t))).
(** part of frac.hpp 109-129 *=, * *)
Definition term_mul_d (X : denv) (a b : term) : res term :=
  s <- merge_syms (ew (de X)) (syms b) (syms a) ;; c <- real_mul_d X (tco a) (tco b) ;; term_normalize (ew (de X)) (Term c s).
(** frac.hpp 131-143 /= Real *)
Definition term_div_d (X : denv) (a : term) (r : real) : res term := c <- real_div_d X (tco a) r ;; term_normalize (ew (de X)) (Term c (syms a)).
(** part of frac.hpp 145-155 pow *)
Definition term_pow_d (X : denv) (a : term) (q : rat) : res term :=
  c <- real_pow_d X (tco a) q ;; s <- scale_syms (ew (de X)) q (syms a) ;; term_normalize (ew (de X)) (Term c s).
(** frac.hpp 157-160 negate *)
Definition term_negate_d (X : denv) (a : term) : res term := c <- real_negate_d X (tco a) ;; term_make (ew (de X)) c (syms a).
(** frac.hpp 199 is_positive *)
Definition term_positive_d (X : denv) (a : term) : res bool := z <- real_of_int_d X 0 ;; real_gt_d X (tco a) z.
(** frac.hpp 611-626 the comparator of Poly::normalize *)
Definition term_before_d (X : denv) (a b : term) : res bool :=
  e <- smap_eq (ew (de X)) (syms a) (syms b) ;;
  if negb e then c <- smap_cmp (ew (de X)) (syms a) (syms b) ;; Ok (match c with Gt => true | _ => false end) else
  if negb (idx (tco a) =? idx (tco b)) then Ok (idx (tco b) <? idx (tco a)) else
  r <- rat_ne (ew (de X)) (rad (tco a)) (rad (tco b)) ;;
  if r : bool then rat_gt (ew (de X)) (rad (tco a)) (rad (tco b)) else
  real_gt_d X (tco a) (tco b).
(** frac.hpp 611-626: one possible std::sort, insertion *)
Fixpoint insert_term_d (X : denv) (t : term) (l : poly) : res poly :=
  match l with
  | [] => Ok [t]
  | u :: l' => b <- term_before_d X u t ;; if b : bool then r <- insert_term_d X t l' ;; Ok (u :: r) else Ok (t :: l)
  end.
(** part of frac.hpp 611-626 the comparator of Poly::normalize *)
Fixpoint isort_d (X : denv) (l : poly) : res poly := match l with [] => Ok [] | t :: l' => s <- isort_d X l' ;; insert_term_d X t s end.
(** frac.hpp 627-639: merge neighbours that are equivalent *)
Fixpoint merge_from_d (X : denv) (a : term) (l : poly) : res poly :=
  match l with
  | [] => Ok [a]
  | b :: l' =>
      e <- term_equivalent (ew (de X)) a b ;;
      if e : bool then c <- real_add_d X (tco a) (tco b) ;; t <- term_make (ew (de X)) c (syms a) ;; merge_from_d X t l'
      else r <- merge_from_d X b l' ;; Ok (a :: r)
  end.
(** part of frac.hpp 627-639: merge neighbours that are equivalent *)
Definition merge_terms_d (X : denv) (l : poly) : res poly := match l with [] => Ok [] | a :: l' => merge_from_d X a l' end.
(** frac.hpp 609-640 normalize *)
Definition poly_normalize_d (D : dpenv) (l : poly) : res poly := s <- dsort D l ;; merge_terms_d (dpe D) s.
(** frac.hpp 548-570 try_eval *)
Fixpoint try_sum_d (X : denv) (acc : real) (l : poly) : res (option real) :=
  match l with
  | [] => Ok (Some acc)
  | t :: l' =>
      match term_try_eval t with
      | None => Ok None
      | Some c =>
          e <- is_equivalent (ew (de X)) acc c ;;
          if e : bool then acc' <- real_add_d X acc c ;; try_sum_d X acc' l' else Ok None
      end
  end.
(** part of frac.hpp 548-570 try_eval *)
Definition poly_try_eval_d (X : denv) (l : poly) : res (option real) := z <- real_of_int_d X 0 ;; try_sum_d X z l.
(** frac.hpp 521-529 eval *)
Fixpoint eval_sum_d (X : denv) (acc : real) (l : poly) : res real :=
  match l with [] => Ok acc | t :: l' => c <- term_eval t ;; acc' <- real_add_d X acc c ;; eval_sum_d X acc' l' end.
(** part of frac.hpp 521-529 eval *)
Definition poly_eval_d (X : denv) (l : poly) : res real := z <- real_of_int_d X 0 ;; eval_sum_d X z l.
(** frac.hpp 601-607 substitute *)
Definition poly_subst_d (X : denv) (e : envmap) (l : poly) : res poly := mapr (term_subst_d X e) l.
(** frac.hpp 642-652 is_zero *)
Fixpoint poly_is_zero_d (X : denv) (l : poly) : res bool :=
  match l with
  | [] => Ok true
  | t :: l' => z <- real_of_int_d X 0 ;; n <- real_ne (ew (de X)) (tco t) z ;; if n : bool then Ok false else poly_is_zero_d X l'
  end.
(** frac.hpp 373-384: constructors *)
Definition poly_make_d (D : dpenv) (l : poly) : res poly := poly_normalize_d D l.
(** part of frac.hpp 373-384: constructors *)
Definition both_d (X : denv) (a b : poly) : res (option (real * real)) :=
  x <- poly_try_eval_d X a ;; y <- poly_try_eval_d X b ;; Ok (match x, y with Some x, Some y => Some (x, y) | _, _ => None end).
(** frac.hpp 386-391 +=, 393-402 + *)
Definition poly_add_to_d (D : dpenv) (a b : poly) : res poly := poly_normalize_d D (a ++ b).
(** part of frac.hpp 386-391 +=, 393-402 + *)
Definition poly_add_d (D : dpenv) (a b : poly) : res poly :=
  v <- both_d (dpe D) a b ;;
  match v with Some (x, y) => s <- real_add_d (dpe D) x y ;; poly_make_d D [term_const s] | None => poly_add_to_d D a b end.
(** frac.hpp 502-508 negate *)
Definition poly_negate_d (X : denv) (a : poly) : res poly := mapr (term_negate_d X) a.
(** frac.hpp 404-409 -=, 411-420 - *)
Definition poly_sub_to_d (D : dpenv) (a b : poly) : res poly :=
  nb <- poly_negate_d (dpe D) b ;; s <- poly_add_to_d D a nb ;; poly_normalize_d D s.
(** part of frac.hpp 404-409 -=, 411-420 - *)
Definition poly_sub_d (D : dpenv) (a b : poly) : res poly :=
  v <- both_d (dpe D) a b ;;
  match v with Some (x, y) => s <- real_sub_d (dpe D) x y ;; poly_make_d D [term_const s] | None => poly_sub_to_d D a b end.
(** frac.hpp 422-435 *=, 437-446 * *)
Definition poly_mul_to_d (D : dpenv) (a b : poly) : res poly :=
  l <- mapr (fun x => mapr (term_mul_d (dpe D) x) b) a ;; poly_normalize_d D (concat l).
(** part of frac.hpp 422-435 *=, 437-446 * *)
Definition poly_mul_d (D : dpenv) (a b : poly) : res poly :=
  v <- both_d (dpe D) a b ;;
  match v with Some (x, y) => s <- real_mul_d (dpe D) x y ;; poly_make_d D [term_const s] | None => poly_mul_to_d D a b end.
(** frac.hpp 448-456 /= *)
Definition poly_div_to_d (D : dpenv) (a : poly) (r : real) : res poly := l <- mapr (fun t => term_div_d (dpe D) t r) a ;; poly_normalize_d D l.
(** frac.hpp 492-496: the product of the powers, starting from the constant q *)
Fixpoint mul_powers_d (X : denv) (acc : term) (l : poly) (v : list Z) : res term :=
  match l, v with
  | t :: l', x :: v' => q <- rat_of_int (ew (de X)) x ;; p <- term_pow_d X t q ;; acc' <- term_mul_d X acc p ;; mul_powers_d X acc' l' v'
  | _, _ => Ok acc
  end.
(** part of frac.hpp 492-496: the product of the powers, starting from the constant q *)
Definition multinomial_d (X : denv) (a : poly) (fact : Z) (v : list Z) : res term :=
  q0 <- rat_of_index (ew (de X)) fact ;; q <- div_facts (ew (de X)) q0 v ;; c <- real_of_rat_d X q ;; mul_powers_d X (term_const c) a v.
(** frac.hpp 466-500 pow *)
Definition poly_pow_d (D : dpenv) (a : poly) (q : rat) : res poly :=
  let X := dpe D in let w := ew (de X) in
  z <- rat_eq w q (Rat 0 1) ;;
  if z : bool then c <- real_of_int_d X 1 ;; poly_make_d D [term_const c] else
  o <- rat_eq w q (Rat 1 1) ;;
  if o : bool then Ok a else
  match a with
  | [t] => p <- term_pow_d X t q ;; poly_make_d D [p]
  | _ =>
      v <- poly_try_eval_d X a ;;
      match v with
      | Some c => c' <- real_pow_d X c q ;; poly_make_d D [term_const c']
      | None =>
          if is_int q then
            n <- rat_to_t w q ;;
            vs <- solve_variable_eq w (length a) n (Z.of_nat (length a)) ;;
            l <- mapr (multinomial_d X a (wfact w (Z.to_nat (uwrap w n)))) vs ;;
            poly_make_d D l
          else Throw "Must be a int."
      end
  end.
(** part of frac.hpp 739-740 *)
Definition poly_one_d (D : dpenv) : res poly := c <- real_of_int_d (dpe D) 1 ;; poly_make_d D [term_const c].
(** part of frac.hpp 904-945 normalize *)
Definition frac_normalize_d (D : dpenv) (f : frac) : res frac :=
  let X := dpe D in let w := ew (de X) in
  n <- poly_normalize_d D (fnum f) ;; d <- poly_normalize_d D (fden f) ;;
  m1 <- dens w 1 d ;; m <- dens w m1 n ;;
  n <- mapr (fun t => c <- real_of_int_d X m ;; term_mul_d X t (term_const c)) n ;;
  d <- mapr (fun t => c <- real_of_int_d X m ;; term_mul_d X t (term_const c)) d ;;
  match n, d with
  | n0 :: _, d0 :: ds =>
      a <- rat_to_t w (coe (tco n0)) ;; b <- rat_to_t w (coe (tco d0)) ;;
      g0 <- adapter_gcd w a b ;;
      o <- gcd_outer w g0 n ds ;;
      match o with
      | None => Ok (Frac n d)
      | Some g => gr <- real_of_int_d X g ;; n' <- poly_div_to_d D n gr ;; gr <- real_of_int_d X g ;; d' <- poly_div_to_d D d gr ;; Ok (Frac n' d')
      end
  | _, _ => Ub "vector[0]"
  end.
(** frac.hpp 743-753 Frac(Real), Frac(Term), 755-759 Frac(Poly), 761-766 Frac(Poly, Poly) *)
Definition frac_of_poly_d (D : dpenv) (n : poly) : res frac := d <- poly_one_d D ;; frac_normalize_d D (Frac n d).
(** part of frac.hpp 743-753 Frac(Real), Frac(Term), 755-759 Frac(Poly), 761-766 Frac(Poly, Poly) *)
Definition frac_of_term_d (D : dpenv) (t : term) : res frac := n <- poly_make_d D [t] ;; frac_of_poly_d D n.
(** part of frac.hpp 743-753 Frac(Real), Frac(Term), 755-759 Frac(Poly), 761-766 Frac(Poly, Poly) *)
Definition frac_of_real_d (D : dpenv) (c : real) : res frac := frac_of_term_d D (term_const c).
(** part of frac.hpp 743-753 Frac(Real), Frac(Term), 755-759 Frac(Poly), 761-766 Frac(Poly, Poly) *)
Definition frac_make_d (D : dpenv) (n d : poly) : res frac :=
  z <- poly_is_zero_d (dpe D) d ;; if z : bool then Throw division_by_zero else frac_normalize_d D (Frac n d).
(** frac.hpp 777-798 += and + *)
Definition frac_add_d (D : dpenv) (a b : frac) : res frac :=
  e <- poly_eq (ew (de (dpe D))) (fden a) (fden b) ;;
  if e : bool then n <- poly_add_to_d D (fnum a) (fnum b) ;; Ok (Frac n (fden a)) else
  x <- poly_mul_d D (fnum a) (fden b) ;; y <- poly_mul_d D (fnum b) (fden a) ;; n <- poly_add_d D x y ;;
  d <- poly_mul_to_d D (fden a) (fden b) ;; frac_normalize_d D (Frac n d).
(** frac.hpp 947-950 negate, 952 inverse *)
Definition frac_negate_d (D : dpenv) (a : frac) : res frac := n <- poly_negate_d (dpe D) (fnum a) ;; frac_make_d D n (fden a).
(** part of frac.hpp 947-950 negate, 952 inverse *)
Definition frac_inverse_d (D : dpenv) (a : frac) : res frac := frac_make_d D (fden a) (fnum a).
(** frac.hpp 800-805 -=, 807-810 - *)
Definition frac_sub_to_d (D : dpenv) (a b : frac) : res frac := nb <- frac_negate_d D b ;; s <- frac_add_d D a nb ;; frac_normalize_d D s.
(** part of frac.hpp 800-805 -=, 807-810 - *)
Definition frac_sub_d (D : dpenv) (a b : frac) : res frac := nb <- frac_negate_d D b ;; frac_add_d D a nb.
(** frac.hpp 812-825 *= and * *)
Definition frac_mul_d (D : dpenv) (a b : frac) : res frac :=
  n <- poly_mul_to_d D (fnum a) (fnum b) ;; d <- poly_mul_to_d D (fden a) (fden b) ;; frac_normalize_d D (Frac n d).
(** frac.hpp 827-841 /= and / *)
Definition frac_div_d (D : dpenv) (a b : frac) : res frac :=
  z <- poly_is_zero_d (dpe D) (fnum b) ;; if z : bool then Throw division_by_zero else
  n <- poly_mul_to_d D (fnum a) (fden b) ;; d <- poly_mul_to_d D (fden a) (fnum b) ;; frac_normalize_d D (Frac n d).
(** frac.hpp 883-893 try_eval, 878-881 eval *)
Definition frac_try_eval_d (D : dpenv) (a : frac) : res (option real) :=
  x <- poly_try_eval_d (dpe D) (fnum a) ;; y <- poly_try_eval_d (dpe D) (fden a) ;;
  match x, y with Some x, Some y => q <- real_div_d (dpe D) x y ;; Ok (Some q) | _, _ => Ok None end.
(** part of frac.hpp 883-893 try_eval, 878-881 eval *)
Definition frac_eval_d (D : dpenv) (a : frac) : res real :=
  x <- poly_eval_d (dpe D) (fnum a) ;; y <- poly_eval_d (dpe D) (fden a) ;; real_div_d (dpe D) x y.
(** frac.hpp 844-852 pow *)
Definition frac_pow_d (D : dpenv) (a : frac) (q : rat) : res frac :=
  v <- frac_try_eval_d D a ;;
  match v with
  | Some c => c' <- real_pow_d (dpe D) c q ;; frac_of_real_d D c'
  | None => n <- poly_pow_d D (fnum a) q ;; d <- poly_pow_d D (fden a) q ;; frac_normalize_d D (Frac n d)
  end.
(** frac.hpp 854-860 substitute *)
Definition frac_subst_d (D : dpenv) (e : envmap) (a : frac) : res frac :=
  n <- poly_subst_d (dpe D) e (fnum a) ;; d <- poly_subst_d (dpe D) e (fden a) ;; f <- frac_normalize_d D (Frac n d) ;;
  z <- poly_is_zero_d (dpe D) (fden f) ;; if z : bool then Throw division_by_zero else Ok f.
(** part of frac.hpp 237-274 Term::to_string: "x" or "{name}", with "(x**e)" or "({name}**e)" for an exponent e other than 1 *)
Definition term_to_string_d (X : denv) (t : term) : res text :=
  let w := ew (de X) in
  z <- real_of_int_d X 0 ;; e0 <- real_eq w (tco t) z ;;
  if e0 : bool then Ok (txt "0") else
  o <- real_of_int_d X 1 ;; n1 <- real_ne w (tco t) o ;;
  pre <- (if (n1 || no_symbols t)%bool then
            m <- real_of_int_d X (-1) ;; m1 <- real_eq w (tco t) m ;;
            if (m1 && negb (no_symbols t))%bool then Ok (txt "-") else real_to_string w (tco t)
          else Ok []) ;;
  s <- syms_text w (syms t) ;; Ok (pre ++ s).
(** part of frac.hpp 276-323 Term::to_tex *)
Definition term_to_tex_d (X : denv) (t : term) : res text :=
  let w := ew (de X) in
  z <- real_of_int_d X 0 ;; e0 <- real_eq w (tco t) z ;;
  if e0 : bool then Ok (txt "0") else
  o <- real_of_int_d X 1 ;; n1 <- real_ne w (tco t) o ;;
  pre <- (if (n1 || no_symbols t)%bool then
            m <- real_of_int_d X (-1) ;; m1 <- real_eq w (tco t) m ;;
            if (m1 && negb (no_symbols t))%bool then Ok (txt "-") else real_to_tex w (tco t)
          else Ok []) ;;
  s <- syms_tex w (syms t) ;; Ok (pre ++ s).
(** frac.hpp 658-693 Poly::to_string, 695-730 to_tex: zero terms are skipped; every term after the first gets its sign.  [f] prints a term. *)
Definition term_zero_d (X : denv) (t : term) : res bool := z <- real_of_int_d X 0 ;; real_eq (ew (de X)) (tco t) z.
(** part of frac.hpp 658-693 Poly::to_string, 695-730 to_tex: zero terms are skipped; every term after the first gets its sign.  [f] prints a term. *)
Fixpoint poly_text_d (X : denv) (f : term -> res text) (first : bool) (l : poly) : res text :=
  match l with
  | [] => Ok []
  | t :: l' =>
      z <- term_zero_d X t ;;
      if z : bool then poly_text_d X f first l' else
      s <- (if first then f t else
            p <- term_positive_d X t ;;
            if p : bool then s <- f t ;; Ok (txt "+" ++ s)
            else n <- term_negate_d X t ;; s <- f n ;; Ok (txt "-" ++ s)) ;;
      r <- poly_text_d X f false l' ;; Ok (s ++ r)
  end.
(** part of frac.hpp 658-693 Poly::to_string, 695-730 to_tex: zero terms are skipped; every term after the first gets its sign.  [f] prints a term. *)
Definition poly_print_d (X : denv) (f : term -> res text) (l : poly) : res text :=
  match l with
  | [] => Ok (txt "0")
  | _ => z <- poly_is_zero_d X l ;; if z : bool then Ok (txt "0") else poly_text_d X f true l
  end.
(** part of frac.hpp 658-693 Poly::to_string, 695-730 to_tex: zero terms are skipped; every term after the first gets its sign.  [f] prints a term. *)
Definition poly_to_string_d (X : denv) (l : poly) : res text := poly_print_d X (term_to_string_d X) l.
(** part of frac.hpp 658-693 Poly::to_string, 695-730 to_tex: zero terms are skipped; every term after the first gets its sign.  [f] prints a term. *)
Definition poly_to_tex_d (X : denv) (l : poly) : res text := poly_print_d X (term_to_tex_d X) l.
(** frac.hpp 954-962 Frac::output_need_paren, and the same test in 967-971, 998-1002 *)
Definition den_is_one_d (X : denv) (d : poly) : res bool :=
  match d with
  | [t] => o <- real_of_int_d X 1 ;; e <- real_eq (ew (de X)) (tco t) o ;; Ok (e && no_symbols t)%bool
  | _ => Ok false
  end.
(** part of frac.hpp 954-962 Frac::output_need_paren, and the same test in 967-971, 998-1002 *)
Definition output_need_paren_d (X : denv) (f : frac) : res bool := o <- den_is_one_d X (fden f) ;; Ok (negb o).
(** frac.hpp 964-993 Frac::to_string *)
Definition frac_to_string_d (X : denv) (f : frac) : res text :=
  match fnum f with
  | [] => Ok (txt "0")
  | _ =>
      o <- den_is_one_d X (fden f) ;;
      if o : bool then poly_to_string_d X (fnum f) else
      n <- poly_to_string_d X (fnum f) ;; d <- poly_to_string_d X (fden f) ;;
      Ok (in_parens (several (fnum f)) n ++ txt "/" ++ in_parens (several (fden f)) d)
  end.
(** frac.hpp 995-1004 Frac::to_tex *)
Definition frac_to_tex_d (X : denv) (f : frac) : res text :=
  match fnum f with
  | [] => Ok (txt "0")
  | _ =>
      o <- den_is_one_d X (fden f) ;;
      if o : bool then poly_to_tex_d X (fnum f) else
      n <- poly_to_tex_d X (fnum f) ;; d <- poly_to_tex_d X (fden f) ;;
      Ok (txt "\frac{" ++ n ++ txt "}{" ++ d ++ txt "}")
  end.
(** expr.hpp the switch on the operator in 107-129 and 183-213, except '^' *)
Definition apply_op_d (D : dpenv) (c : ascii) (a b : frac) : res frac :=
  if Ascii.eqb c "+" then frac_add_d D a b else
  if Ascii.eqb c "-" then frac_sub_d D a b else
  if Ascii.eqb c "*" then frac_mul_d D a b else
  if Ascii.eqb c "/" then frac_div_d D a b else
  unreachable "".
(** expr.hpp 116-122, 196-206: the exponent, if it evaluates to a rational *)
Definition exponent_of_d (D : dpenv) (b : frac) : res (option real) :=
  v <- frac_try_eval_d D b ;;
  match v with
  | None => Ok None
  | Some c => r <- is_rational (ew (de (dpe D))) c ;; Ok (if r : bool then Some c else None)
  end.
(** expr.hpp 98-132 try_eval *)
Fixpoint expr_try_eval_d (D : dpenv) (e : expr) : res (option frac) :=
  match e with
  | Leaf f => Ok (Some f)
  | Op c l r =>
      lv <- expr_try_eval_d D l ;; rv <- expr_try_eval_d D r ;;
      match lv, rv with
      | Some a, Some b =>
          if Ascii.eqb c "^" then
            p <- exponent_of_d D b ;;
            match p with
            | None => Ok None
            | Some _ => q <- frac_to_rational (ew (de (dpe D))) b ;; x <- frac_pow_d D a q ;; Ok (Some x)
            end
          else x <- apply_op_d D c a b ;; Ok (Some x)
      | _, _ => Ok None
      end
  end.
(** expr.hpp 168-217 normalize *)
Fixpoint expr_normalize_d (D : dpenv) (e : expr) : res expr :=
  match e with
  | Leaf f => Ok e
  | Op c l r =>
      lv <- expr_try_eval_d D l ;; rv <- expr_try_eval_d D r ;;
      match lv, rv with
      | Some a, Some b =>
          if Ascii.eqb c "^" then
            p <- exponent_of_d D b ;;
            match p with
            | None => l' <- expr_normalize_d D l ;; r' <- expr_normalize_d D r ;; Ok (Op c l' r')
            | Some p => q <- real_to_rational (ew (de (dpe D))) p ;; x <- frac_pow_d D a q ;; Ok (Leaf x)
            end
          else x <- apply_op_d D c a b ;; Ok (Leaf x)
      | _, _ => r' <- expr_normalize_d D r ;; l' <- expr_normalize_d D l ;; Ok (Op c l' r')
      end
  end.
(** expr.hpp 84-96 substitute *)
Fixpoint expr_subst_d (D : dpenv) (env : envmap) (e : expr) : res expr :=
  match e with
  | Leaf f => x <- frac_subst_d D env f ;; Ok (Leaf x)
  | Op c l r => l' <- expr_subst_d D env l ;; r' <- expr_subst_d D env r ;; expr_normalize_d D (Op c l' r')
  end.
(** part of expr.hpp 301-369 withparen, for the left and for the right operand of an operator node *)
Definition paren_left_d (X : denv) (c : ascii) (l : expr) : res bool :=
  match l with
  | Leaf f => output_need_paren_d X f
  | Op lc _ _ => Ok (if is_md c then is_pm lc else Ascii.eqb c "^")
  end.
(** part of expr.hpp 301-369 withparen, for the left and for the right operand of an operator node *)
Definition paren_right_d (X : denv) (c : ascii) (r : expr) : res bool :=
  match r with
  | Leaf f => output_need_paren_d X f
  | Op rc _ _ =>
      Ok (if Ascii.eqb c "*" then is_pm rc
          else if Ascii.eqb c "/" then (is_pm rc || is_md rc)%bool
          else if Ascii.eqb c "-" then is_pm rc
          else Ascii.eqb c "^")
  end.
(** expr.hpp 219-244 to_string *)
Fixpoint expr_to_string_d (X : denv) (e : expr) : res text :=
  match e with
  | Leaf f => frac_to_string_d X f
  | Op c l r =>
      pl <- paren_left_d X c l ;; sl <- expr_to_string_d X l ;;
      pr <- paren_right_d X c r ;; sr <- expr_to_string_d X r ;;
      Ok (in_parens pl sl ++ [c] ++ in_parens pr sr)
  end.
(** expr.hpp 246-298 to_tex *)
Fixpoint expr_to_tex_d (X : denv) (e : expr) : res text :=
  match e with
  | Leaf f => frac_to_tex_d X f
  | Op c l r =>
      pl <- paren_left_d X c l ;; sl <- expr_to_tex_d X l ;;
      pr <- paren_right_d X c r ;; sr <- expr_to_tex_d X r ;;
      let mid := if Ascii.eqb c "/" then txt "}{" else if is_pm c then [c] else if Ascii.eqb c "*" then txt "\times " else if Ascii.eqb c "^" then txt "^{" else [] in
      Ok ((if Ascii.eqb c "/" then txt "\frac{" else []) ++ in_parens pl sl ++ mid ++ in_parens pr sr
          ++ (if (Ascii.eqb c "/" || Ascii.eqb c "^")%bool then txt "}" else []))
  end.
(** parser.hpp 178-196, 241-293: Frac<T>{Rational<T>}, Rational -> Real -> Frac *)
Definition frac_of_rat_d (D : dpenv) (q : rat) : res frac := c <- real_of_rat_d (dpe D) q ;; frac_of_real_d D c.
(** parser.hpp 178-196, 241-293: the Frac of an integer and of a name *)
Definition frac_of_int_d (D : dpenv) (n : Z) : res frac := c <- real_of_int_d (dpe D) n ;; frac_of_real_d D c.
(** parser.hpp 178-196, 241-293: the Frac of an integer and of a name *)
Definition frac_of_sym_d (D : dpenv) (k : string) : res frac := c <- real_of_int_d (dpe D) 1 ;; frac_of_term_d D (term_sym c k).
(** parser.hpp 220-296 get_token: the token and the rest of the text *)
Definition get_token_d (D : dpenv) (dec : text -> res rat) (s0 : text) : res (tok * text) :=
  let w := ew (de (dpe D)) in
  match drop_spaces s0 with
  | [] => Ok (TEnd, [])
  | c :: s =>
      if Ascii.eqb c "_" then
        '(p, s1) <- (if Ascii.eqb (peek s) "/" then p <- rat_of_int w 2 ;; Ok (p, s)
                     else if (is_digit (peek s) || is_dot (peek s))%bool then let (n, s1) := scan_number s in p <- rat_of_string w dec n ;; Ok (p, s1)
                     else unreachable "Unexpected '_', needs a '/'") ;;
        q <- rat_inverse w p ;; Ok (TRad q, tl s1)
      else if (is_digit c || is_dot c)%bool then
        let (n, s1) := scan_number (c :: s) in q <- rat_of_string w dec n ;; f <- frac_of_rat_d D q ;; Ok (TNum f, s1)
      else if is_opchar c then
        if (Ascii.eqb c "*" && Ascii.eqb (peek s) "*")%bool then Ok (TOp "^", tl s) else Ok (TOp c, s)
      else if Ascii.eqb c "(" then Ok (TL, s)
      else if Ascii.eqb c ")" then Ok (TR, s)
      else if (is_alpha c || Ascii.eqb c "{")%bool then
        let (k, s1) := if Ascii.eqb c "{" then let (k, s1) := span (fun d => negb (Ascii.eqb d "}")) s in (k, tl s1) else ([c], s) in
        f <- frac_of_sym_d D (string_of_list_ascii k) ;; Ok (TSym f, s1)
      else unreachable ("unexpected '" ++ String c EmptyString ++ "'.")
  end.
(** parser.hpp 161-204: one round of get_all_tokens; [back :: acc] are the tokens so far, latest first *)
Definition add_token_d (D : dpenv) (back : tok) (acc : list tok) (t : tok) : res (list tok) :=
  if (starts_factor t && ends_factor back)%bool then Ok (t :: TOp "*" :: back :: acc) else
  match back with
  | TRad q =>
      match t with
      | TNum _ => f <- frac_of_rat_d D q ;; Ok (TR :: TNum f :: TOp "^" :: t :: TL :: acc)
      | _ => Throw "Radical needs a rational."
      end
  | TL | TBegin => if is_sign t then z <- frac_of_int_d D 0 ;; Ok (t :: TNum z :: back :: acc) else Ok (t :: back :: acc)
  | _ => Ok (t :: back :: acc)
  end.
(** part of parser.hpp 161-204: one round of get_all_tokens; [back :: acc] are the tokens so far, latest first *)
Definition push_token_d (D : dpenv) (acc : list tok) (t : tok) : res (list tok) :=
  match acc with [] => Ub "back of empty" | back :: acc' => add_token_d D back acc' t end.
(** parser.hpp 158-205 get_all_tokens *)
Fixpoint token_loop_d (D : dpenv) (dec : text -> res rat) (fuel : nat) (acc : list tok) (s : text) : res (list tok) :=
  match acc with
  | TEnd :: _ => Ok acc
  | _ =>
      match fuel with
      | O => Fuel
      | S f => '(t, s') <- get_token_d D dec s ;; acc' <- push_token_d D acc t ;; token_loop_d D dec f acc' s'
      end
  end.
(** part of parser.hpp 158-205 get_all_tokens *)
Definition get_all_tokens_d (D : dpenv) (dec : text -> res rat) (raw : text) : res (list tok) :=
  acc <- token_loop_d D dec (S (length raw)) [TBegin] raw ;; Ok (rev acc).
(** parser.hpp 76-154 parse *)
Definition parse_d (D : dpenv) (dec : text -> res rat) (raw : text) : res expr :=
  ts <- get_all_tokens_d D dec raw ;; parse_tokens (removelast (tl ts)).
