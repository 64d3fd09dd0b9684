(** Model of the text functions of Term, Poly and Frac (include/symxx/frac.hpp) and of ExprNode<T> (include/symxx/expr.hpp), for a machine
    integer T.  Texts are lists of characters.

    Simplifications: a tree is an immutable value, [normalize] and [substitute] return the changed tree (copying, destruction and sharing of
    nodes are modelled in OwnModel.v); the long double evaluation (expr.hpp 134-166) is not modelled. *)
From Coq Require Import ZArith String Ascii Lia Bool List.
From Verif Require Import Base AdapterModel RationalModel RealModel PolyModel.
Import ListNotations.
Open Scope Z_scope.

Definition text := list ascii.
Definition txt (s : string) : text := list_ascii_of_string s.

(** frac.hpp 237-274 Term::to_string: "x" or "{name}", with "(x**e)" or "({name}**e)" for an exponent e other than 1 *)
Definition name_text (k : string) : text := if Nat.eqb (String.length k) 1 then txt k else txt "{" ++ txt k ++ txt "}".
Fixpoint syms_text (w : Z) (m : smap) : res text :=
  match m with
  | [] => Ok []
  | (k, q) :: m' =>
      n1 <- rat_ne w q (Rat 1 1) ;;
      r <- syms_text w m' ;;
      Ok ((if n1 : bool then txt "(" ++ name_text k ++ txt "**" ++ rat_to_string q ++ txt ")" else name_text k) ++ r)
  end.
Definition term_to_string (E : env) (t : term) : res text :=
  let w := ew E in
  z <- real_of_int E 0 ;; e0 <- real_eq w (tco t) z ;;
  if e0 : bool then Ok (txt "0") else
  o <- real_of_int E 1 ;; n1 <- real_ne w (tco t) o ;;
  pre <- (if (n1 || no_symbols t)%bool then
            m <- real_of_int E (-1) ;; m1 <- real_eq w (tco t) m ;;
            if (m1 && negb (no_symbols t))%bool then Ok (txt "-") else real_to_string w (tco t)
          else Ok []) ;;
  s <- syms_text w (syms t) ;; Ok (pre ++ s).
(** 276-323 Term::to_tex *)
Fixpoint syms_tex (w : Z) (m : smap) : res text :=
  match m with
  | [] => Ok []
  | (k, q) :: m' =>
      n1 <- rat_ne w q (Rat 1 1) ;;
      r <- syms_tex w m' ;;
      let long := negb (Nat.eqb (String.length k) 1) in
      Ok ((if n1 : bool then (if long then txt "\" else []) ++ txt k ++ txt "^{" ++ rat_to_tex q ++ txt "}"
           else if long then txt "\" ++ txt k ++ txt " " else txt k) ++ r)
  end.
Definition term_to_tex (E : env) (t : term) : res text :=
  let w := ew E in
  z <- real_of_int E 0 ;; e0 <- real_eq w (tco t) z ;;
  if e0 : bool then Ok (txt "0") else
  o <- real_of_int E 1 ;; n1 <- real_ne w (tco t) o ;;
  pre <- (if (n1 || no_symbols t)%bool then
            m <- real_of_int E (-1) ;; m1 <- real_eq w (tco t) m ;;
            if (m1 && negb (no_symbols t))%bool then Ok (txt "-") else real_to_tex w (tco t)
          else Ok []) ;;
  s <- syms_tex w (syms t) ;; Ok (pre ++ s).

(** 658-693 Poly::to_string, 695-730 to_tex: zero terms are skipped; every term after the first gets its sign.  [f] prints a term. *)
Definition term_zero (E : env) (t : term) : res bool := z <- real_of_int E 0 ;; real_eq (ew E) (tco t) z.
Fixpoint poly_text (E : env) (f : term -> res text) (first : bool) (l : poly) : res text :=
  match l with
  | [] => Ok []
  | t :: l' =>
      z <- term_zero E t ;;
      if z : bool then poly_text E f first l' else
      s <- (if first then f t else
            p <- term_positive E t ;;
            if p : bool then s <- f t ;; Ok (txt "+" ++ s)
            else n <- term_negate E t ;; s <- f n ;; Ok (txt "-" ++ s)) ;;
      r <- poly_text E f false l' ;; Ok (s ++ r)
  end.
Definition poly_print (E : env) (f : term -> res text) (l : poly) : res text :=
  match l with
  | [] => Ok (txt "0")
  | _ => z <- poly_is_zero E l ;; if z : bool then Ok (txt "0") else poly_text E f true l
  end.
Definition poly_to_string (E : env) (l : poly) : res text := poly_print E (term_to_string E) l.
Definition poly_to_tex (E : env) (l : poly) : res text := poly_print E (term_to_tex E) l.

(** 954-962 Frac::output_need_paren, and the same test in 967-971, 998-1002 *)
Definition den_is_one (E : env) (d : poly) : res bool :=
  match d with
  | [t] => o <- real_of_int E 1 ;; e <- real_eq (ew E) (tco t) o ;; Ok (e && no_symbols t)%bool
  | _ => Ok false
  end.
Definition output_need_paren (E : env) (f : frac) : res bool := o <- den_is_one E (fden f) ;; Ok (negb o).
Definition in_parens (b : bool) (s : text) : text := if b then txt "(" ++ s ++ txt ")" else s.
Definition several (l : poly) : bool := negb (Nat.eqb (length l) 1).
(** 964-993 Frac::to_string *)
Definition frac_to_string (E : env) (f : frac) : res text :=
  match fnum f with
  | [] => Ok (txt "0")
  | _ =>
      o <- den_is_one E (fden f) ;;
      if o : bool then poly_to_string E (fnum f) else
      n <- poly_to_string E (fnum f) ;; d <- poly_to_string E (fden f) ;;
      Ok (in_parens (several (fnum f)) n ++ txt "/" ++ in_parens (several (fden f)) d)
  end.
(** 995-1004 Frac::to_tex *)
Definition frac_to_tex (E : env) (f : frac) : res text :=
  match fnum f with
  | [] => Ok (txt "0")
  | _ =>
      o <- den_is_one E (fden f) ;;
      if o : bool then poly_to_tex E (fnum f) else
      n <- poly_to_tex E (fnum f) ;; d <- poly_to_tex E (fden f) ;;
      Ok (txt "\frac{" ++ n ++ txt "}{" ++ d ++ txt "}")
  end.

(** 232-235 Term::is_rational, 584-594 Poly::is_rational, 867-870 Frac::is_rational *)
Definition term_is_rational (w : Z) (t : term) : res bool := if no_symbols t then is_rational w (tco t) else Ok false.
Fixpoint poly_is_rational (w : Z) (l : poly) : res bool :=
  match l with [] => Ok true | t :: l' => b <- term_is_rational w t ;; if b : bool then poly_is_rational w l' else Ok false end.
Definition frac_is_rational (w : Z) (f : frac) : res bool :=
  b <- poly_is_rational w (fnum f) ;; if b : bool then poly_is_rational w (fden f) else Ok false.
(** 162-167, 510-519, 872-876 to<Rational<T>>() *)
Definition term_to_rational (w : Z) (t : term) : res rat := if no_symbols t then real_to_rational w (tco t) else Throw has_symbols.
Fixpoint sum_rationals (w : Z) (acc : rat) (l : poly) : res rat :=
  match l with [] => Ok acc | t :: l' => q <- term_to_rational w t ;; acc' <- rat_add w acc q ;; sum_rationals w acc' l' end.
Definition poly_to_rational (w : Z) (l : poly) : res rat := z <- rat_of_int w 0 ;; sum_rationals w z l.
Definition frac_to_rational (w : Z) (f : frac) : res rat :=
  n <- poly_to_rational w (fnum f) ;; d <- poly_to_rational w (fden f) ;; rat_div w n d.

(** expr.hpp 33-40, 66-82: a tree *)
Inductive expr := Leaf (f : frac) | Op (c : ascii) (l r : expr).

Definition unreachable {A} (s : string) : res A := Throw ("Unreachable code: " ++ s)%string.
(** the switch on the operator in 107-129 and 183-213, except '^' *)
Definition apply_op (P : penv) (c : ascii) (a b : frac) : res frac :=
  if Ascii.eqb c "+" then frac_add P a b else
  if Ascii.eqb c "-" then frac_sub P a b else
  if Ascii.eqb c "*" then frac_mul P a b else
  if Ascii.eqb c "/" then frac_div P a b else
  unreachable "".
(** 116-122, 196-206: the exponent, if it evaluates to a rational *)
Definition exponent_of (P : penv) (b : frac) : res (option real) :=
  v <- frac_try_eval P b ;;
  match v with
  | None => Ok None
  | Some c => r <- is_rational (ew (pe P)) c ;; Ok (if r : bool then Some c else None)
  end.
(** 98-132 try_eval *)
Fixpoint expr_try_eval (P : penv) (e : expr) : res (option frac) :=
  match e with
  | Leaf f => Ok (Some f)
  | Op c l r =>
      lv <- expr_try_eval P l ;; rv <- expr_try_eval P r ;;
      match lv, rv with
      | Some a, Some b =>
          if Ascii.eqb c "^" then
            p <- exponent_of P b ;;
            match p with
            | None => Ok None
            | Some _ => q <- frac_to_rational (ew (pe P)) b ;; x <- frac_pow P a q ;; Ok (Some x)
            end
          else x <- apply_op P c a b ;; Ok (Some x)
      | _, _ => Ok None
      end
  end.
(** 168-217 normalize *)
Fixpoint expr_normalize (P : penv) (e : expr) : res expr :=
  match e with
  | Leaf f => Ok e
  | Op c l r =>
      lv <- expr_try_eval P l ;; rv <- expr_try_eval P r ;;
      match lv, rv with
      | Some a, Some b =>
          if Ascii.eqb c "^" then
            p <- exponent_of P b ;;
            match p with
            | None => l' <- expr_normalize P l ;; r' <- expr_normalize P r ;; Ok (Op c l' r')
            | Some p => q <- real_to_rational (ew (pe P)) p ;; x <- frac_pow P a q ;; Ok (Leaf x)
            end
          else x <- apply_op P c a b ;; Ok (Leaf x)
      | _, _ => r' <- expr_normalize P r ;; l' <- expr_normalize P l ;; Ok (Op c l' r')
      end
  end.
(** 84-96 substitute *)
Fixpoint expr_subst (P : penv) (env : envmap) (e : expr) : res expr :=
  match e with
  | Leaf f => x <- frac_subst P env f ;; Ok (Leaf x)
  | Op c l r => l' <- expr_subst P env l ;; r' <- expr_subst P env r ;; expr_normalize P (Op c l' r')
  end.

(** 301-369 withparen, for the left and for the right operand of an operator node *)
Definition is_pm (c : ascii) : bool := (Ascii.eqb c "+" || Ascii.eqb c "-")%bool.
Definition is_md (c : ascii) : bool := (Ascii.eqb c "*" || Ascii.eqb c "/")%bool.
Definition paren_left (E : env) (c : ascii) (l : expr) : res bool :=
  match l with
  | Leaf f => output_need_paren E f
  | Op lc _ _ => Ok (if is_md c then is_pm lc else Ascii.eqb c "^")
  end.
Definition paren_right (E : env) (c : ascii) (r : expr) : res bool :=
  match r with
  | Leaf f => output_need_paren E f
  | Op rc _ _ =>
      Ok (if Ascii.eqb c "*" then is_pm rc
          else if Ascii.eqb c "/" then (is_pm rc || is_md rc)%bool
          else if Ascii.eqb c "-" then is_pm rc
          else Ascii.eqb c "^")
  end.
(** 219-244 to_string *)
Fixpoint expr_to_string (E : env) (e : expr) : res text :=
  match e with
  | Leaf f => frac_to_string E f
  | Op c l r =>
      pl <- paren_left E c l ;; sl <- expr_to_string E l ;;
      pr <- paren_right E c r ;; sr <- expr_to_string E r ;;
      Ok (in_parens pl sl ++ [c] ++ in_parens pr sr)
  end.
(** 246-298 to_tex *)
Fixpoint expr_to_tex (E : env) (e : expr) : res text :=
  match e with
  | Leaf f => frac_to_tex E f
  | Op c l r =>
      pl <- paren_left E c l ;; sl <- expr_to_tex E l ;;
      pr <- paren_right E c r ;; sr <- expr_to_tex E r ;;
      let mid := if Ascii.eqb c "/" then txt "}{" else if is_pm c then [c] else if Ascii.eqb c "*" then txt "\times " else if Ascii.eqb c "^" then txt "^{" else [] in
      Ok ((if Ascii.eqb c "/" then txt "\frac{" else []) ++ in_parens pl sl ++ mid ++ in_parens pr sr
          ++ (if (Ascii.eqb c "/" || Ascii.eqb c "^")%bool then txt "}" else []))
  end.
