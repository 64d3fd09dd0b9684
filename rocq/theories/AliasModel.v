(** Model of the compound assignment operators as programs on the object they are called on: the statements in their order, each reading
    the object as it is at that moment (huge.hpp 621-765, num.hpp 168-217 and 411-462, frac.hpp 109-137, 386-456, 777-834, 904-945).

    The argument is a const reference.  It refers to another object, whose value does not change during the call, or to the object itself:
    then every read of the argument reads the object as the previous statements have left it.  The functions of the other models
    (HugeModel.v, RationalModel.v, RealModel.v, PolyModel.v) are pure: they compute a new value from two values.  Const member functions
    and operators that return a new object (negate, inverse, pow, binary + - * /) are taken from there.

    Simplifications: Real::normalize (num.hpp 538-597), Poly::normalize (frac.hpp 609-640) and Term::normalize (frac.hpp 216-225), which have
    no argument, are one statement each; so are the two loops `r *= Term{mult}` of Frac::normalize (919-926). *)
From Coq Require Import ZArith String Ascii Lia Bool List.
From Verif Require Import Base AdapterModel HugeModel RationalModel RealModel PolyModel.
Import ListNotations.
Open Scope Z_scope.

(** the argument: the object itself, or another object *)
Inductive arg (A : Type) := Itself | Other (a : A).
Arguments Itself {A}. Arguments Other {A} a.
(** what is read through the reference while the object is [this] *)
Definition at_arg {A} (x : arg A) (this : A) : A := match x with Itself => this | Other a => a end.
(** the same member of the argument *)
Definition member {A B} (f : A -> B) (x : arg A) : arg B := match x with Itself => Itself | Other a => Other (f a) end.

(** a program: the object afterwards, and how it ended *)
Definition prog (A : Type) := A -> A * res unit.
Definition failed {A} (r : res A) : res unit := match r with Ok _ => Ok tt | Throw m => Throw m | Ub y => Ub y | Fuel => Fuel end.
(** an assignment; if the right-hand side fails, nothing is assigned *)
Definition assign {A} (f : A -> res A) : prog A := fun s => match f s with Ok s' => (s', Ok tt) | r => (s, failed r) end.
Definition then_ {A} (c d : prog A) : prog A := fun s => let '(s', r) := c s in match r with Ok _ => d s' | _ => (s', r) end.
(** a local variable *)
Definition local {A B} (f : A -> res B) (k : B -> prog A) : prog A := fun s => match f s with Ok b => k b s | r => (s, failed r) end.
(** a program on a member *)
Definition inside {A B} (get : A -> B) (put : B -> A -> A) (c : prog B) : prog A := fun s => let '(b, r) := c (get s) in (put b s, r).
Definition skip {A} : prog A := fun s => (s, Ok tt).
Notation "c ;> d" := (then_ c d) (at level 62, right associativity).

(** ** Rational: num.hpp *)
Section Rational.
  Variable w : Z.
  Definition set_num (n : Z) (t : rat) : rat := Rat n (den t).
  Definition set_den (d : Z) (t : rat) : rat := Rat (num t) d.
  (** 254-264 normalize *)
  Definition rat_normalize_p : prog rat :=
    local (fun t => a <- adapter_abs w (num t) ;; b <- adapter_abs w (den t) ;; adapter_gcd w a b) (fun g =>
    assign (fun t => n <- quot_w w (num t) g ;; Ok (set_num n t)) ;>
    assign (fun t => d <- quot_w w (den t) g ;; Ok (set_den d t)) ;>
    local (fun t => Ok (den t)) (fun d => if d =? -1 then assign (fun t => n <- chk w (- num t) ;; Ok (set_num n t)) ;> assign (fun t => Ok (set_den 1 t)) else skip)).
  (** 168-175 += *)
  Definition rat_add_p (x : arg rat) : prog rat :=
    local (fun t => adapter_lcm w (den t) (den (at_arg x t))) (fun l =>
    assign (fun t => qa <- quot_w w l (den t) ;; a <- chk w (num t * qa) ;; qb <- quot_w w l (den (at_arg x t)) ;; b <- chk w (num (at_arg x t) * qb) ;; n <- chk w (a + b) ;; Ok (set_num n t)) ;>
    assign (fun t => Ok (set_den l t)) ;>
    rat_normalize_p).
  (** 184-188 -= *)
  Definition rat_sub_p (x : arg rat) : prog rat := local (fun t => rat_negate w (at_arg x t)) (fun n => rat_add_p (Other n)).
  (** 197-206 *= *)
  Definition rat_mul_p (x : arg rat) : prog rat :=
    local (fun t => adapter_gcd w (num t) (den (at_arg x t))) (fun g1 =>
    local (fun t => adapter_gcd w (num (at_arg x t)) (den t)) (fun g2 =>
    assign (fun t => a <- quot_w w (num t) g1 ;; b <- quot_w w (num (at_arg x t)) g2 ;; n <- chk w (a * b) ;; Ok (set_num n t)) ;>
    assign (fun t => a <- quot_w w (den t) g2 ;; b <- quot_w w (den (at_arg x t)) g1 ;; d <- chk w (a * b) ;; Ok (set_den d t)) ;>
    assign (fun t => if den t =? 0 then Throw division_by_zero else Ok t))).
  (** 213-217 /= *)
  Definition rat_div_p (x : arg rat) : prog rat := local (fun t => rat_inverse w (at_arg x t)) (fun i => rat_mul_p (Other i)).
End Rational.

(** ** Real: num.hpp *)
Section Real.
  Variable E : env.
  Definition set_coe (c : rat) (t : real) : real := Real (idx t) (rad t) c.
  Definition set_rad (r : rat) (t : real) : real := Real (idx t) r (coe t).
  Definition set_idx (i : Z) (t : real) : real := Real i (rad t) (coe t).
  (** 411-418 += *)
  Definition real_add_p (x : arg real) : prog real :=
    local (fun t => is_equivalent (ew E) t (at_arg x t)) (fun e =>
    if e : bool then inside coe set_coe (rat_add_p (ew E) (member coe x)) ;> assign (real_normalize E)
    else assign (fun _ => Throw radicands_differ)).
  (** 427-432 -= *)
  Definition real_sub_p (x : arg real) : prog real :=
    local (fun t => real_negate E (at_arg x t)) (fun n => real_add_p (Other n) ;> assign (real_normalize E)).
  (** 441-449 *= *)
  Definition real_mul_p (x : arg real) : prog real :=
    let w := ew E in
    local (fun t => ulcm w (idx t) (idx (at_arg x t))) (fun l =>
    assign (fun t => qa <- uquot l (idx t) ;; ea <- rat_of_index w qa ;; pa <- rpow w (rad t) ea ;;
                     qb <- uquot l (idx (at_arg x t)) ;; eb <- rat_of_index w qb ;; pb <- rpow w (rad (at_arg x t)) eb ;;
                     r <- rat_mul w pa pb ;; Ok (set_rad r t)) ;>
    assign (fun t => Ok (set_idx l t)) ;>
    inside coe set_coe (rat_mul_p w (member coe x)) ;>
    assign (real_normalize E)).
  (** 458-462 /= *)
  Definition real_div_p (x : arg real) : prog real := local (fun t => real_inverse (ew E) (at_arg x t)) (fun i => real_mul_p (Other i)).
End Real.

(** ** Term: frac.hpp *)
Section Term.
  Variable E : env.
  Definition set_tco (c : real) (t : term) : term := Term c (syms t).
  Definition set_syms (m : smap) (t : term) : term := Term (tco t) m.
  (** 111-118: for the entry of the argument with the key k; std::map iterators stay valid, and no key is inserted that is there *)
  Definition mul_key (x : arg term) (k : string) : prog term :=
    local (fun t => Ok (sfind k (syms (at_arg x t)))) (fun o =>
    match o with
    | None => skip
    | Some r =>
        local (fun t => Ok (sfind k (syms t))) (fun f =>
        match f with
        | None => assign (fun t => Ok (set_syms (sinsert k r (syms t)) t))
        | Some q0 => inside (fun t => match sfind k (syms t) with Some q => q | None => q0 end) (fun q t => set_syms (supdate k q (syms t)) t)
                       (rat_add_p (ew E) (match x with Itself => Itself | Other _ => Other r end))
        end)
    end).
  Fixpoint mul_keys (x : arg term) (ks : list string) : prog term := match ks with [] => skip | k :: ks' => mul_key x k ;> mul_keys x ks' end.
  (** 109-122 *= *)
  Definition term_mul_p (x : arg term) : prog term :=
    local (fun t => Ok (map fst (syms (at_arg x t)))) (fun ks =>
    mul_keys x ks ;> inside tco set_tco (real_mul_p E (member tco x)) ;> assign (term_normalize (ew E))).
  (** 131-136 /=; the argument may be the coefficient of the term *)
  Definition term_div_p (x : arg real) : prog term := inside tco set_tco (real_div_p E x) ;> assign (term_normalize (ew E)).
End Term.

(** ** Poly: frac.hpp *)
(** the argument of Poly /= : a Real elsewhere, or the coefficient of the k-th term of the polynomial *)
Inductive divisor := Coefficient (k : nat) | Elsewhere (r : real).
Section Poly.
  Variable P : penv.
  (** 386-391 +=: std::vector::insert of a range of the vector itself is undefined ([sequence.reqmts]: i and j are not iterators into a) *)
  Definition poly_add_p (x : arg poly) : prog poly :=
    assign (fun t => match x with Itself => Ub "vector::insert of its own range" | Other b => Ok (t ++ b) end) ;> assign (poly_normalize P).
  (** 404-409 -= *)
  Definition poly_sub_p (x : arg poly) : prog poly :=
    local (fun t => poly_negate (pe P) (at_arg x t)) (fun n => poly_add_p (Other n) ;> assign (poly_normalize P)).
  (** 422-435 *= *)
  Definition poly_mul_p (x : arg poly) : prog poly :=
    local (fun t => l <- mapr (fun a => mapr (term_mul (pe P) a) (at_arg x t)) t ;; Ok (concat l)) (fun tmp =>
    assign (fun _ => Ok tmp) ;> assign (poly_normalize P)).
  (** 448-456 /=: the terms one after the other *)
  Definition div_term (d : divisor) (i : nat) : prog poly :=
    fun l => match nth_error l i with
             | None => (l, Ok tt)
             | Some t =>
                 let x := match d with
                          | Elsewhere r => Other r
                          | Coefficient k => if Nat.eqb i k then Itself else match nth_error l k with Some u => Other (tco u) | None => Itself end
                          end in
                 let '(t', r) := term_div_p (pe P) x t in (firstn i l ++ t' :: skipn (S i) l, r)
             end.
  Fixpoint div_terms (d : divisor) (is : list nat) : prog poly := match is with [] => skip | i :: is' => div_term d i ;> div_terms d is' end.
  Definition poly_div_p (d : divisor) : prog poly := local (fun l => Ok (length l)) (fun n => div_terms d (seq 0 n) ;> assign (poly_normalize P)).
End Poly.

(** ** Frac: frac.hpp *)
Section Frac.
  Variable P : penv.
  Definition set_fnum (n : poly) (t : frac) : frac := Frac n (fden t).
  Definition set_fden (d : poly) (t : frac) : frac := Frac (fnum t) d.
  Definition on_num := inside fnum set_fnum.
  Definition on_den := inside fden set_fden.
  Definition scale_terms (m : Z) : prog poly := assign (mapr (fun t => c <- real_of_int (pe P) m ;; term_mul (pe P) t (term_const c))).
  (** 904-945 normalize; the conversion of g to Real is a temporary, once for each /= *)
  Definition frac_normalize_p : prog frac :=
    let E := pe P in let w := ew E in
    on_num (assign (poly_normalize P)) ;> on_den (assign (poly_normalize P)) ;>
    local (fun t => m1 <- dens w 1 (fden t) ;; dens w m1 (fnum t)) (fun m =>
    on_num (scale_terms m) ;> on_den (scale_terms m) ;>
    local (fun t => match fnum t, fden t with
                    | n0 :: _, d0 :: ds => a <- rat_to_t w (coe (tco n0)) ;; b <- rat_to_t w (coe (tco d0)) ;; g0 <- adapter_gcd w a b ;; gcd_outer w g0 (fnum t) ds
                    | _, _ => Ub "vector[0]"
                    end) (fun o =>
    match o with
    | None => skip
    | Some g => local (fun _ => real_of_int E g) (fun gr => on_num (poly_div_p P (Elsewhere gr))) ;>
                local (fun _ => real_of_int E g) (fun gr => on_den (poly_div_p P (Elsewhere gr)))
    end)).
  (** 777-791 += *)
  Definition frac_add_p (x : arg frac) : prog frac :=
    local (fun t => poly_eq (ew (pe P)) (fden t) (fden (at_arg x t))) (fun e =>
    if e : bool then on_num (poly_add_p P (member fnum x)) else
    assign (fun t => a <- poly_mul P (fnum t) (fden (at_arg x t)) ;; b <- poly_mul P (fnum (at_arg x t)) (fden t) ;; n <- poly_add P a b ;; Ok (set_fnum n t)) ;>
    on_den (poly_mul_p P (member fden x)) ;>
    frac_normalize_p).
  (** 800-805 -= *)
  Definition frac_sub_p (x : arg frac) : prog frac :=
    local (fun t => frac_negate P (at_arg x t)) (fun n => frac_add_p (Other n) ;> frac_normalize_p).
  (** 812-818 *= *)
  Definition frac_mul_p (x : arg frac) : prog frac :=
    on_num (poly_mul_p P (member fnum x)) ;> on_den (poly_mul_p P (member fden x)) ;> frac_normalize_p.
  (** 827-834 /=: the numerator is multiplied first, and read again for the denominator *)
  Definition frac_div_p (x : arg frac) : prog frac :=
    local (fun t => poly_is_zero (pe P) (fnum (at_arg x t))) (fun z =>
    if z : bool then assign (fun _ => Throw division_by_zero) else
    local (fun t => Ok (fden (at_arg x t))) (fun d => on_num (poly_mul_p P (Other d))) ;>
    local (fun t => Ok (fnum (at_arg x t))) (fun n => on_den (poly_mul_p P (Other n))) ;>
    frac_normalize_p).
End Frac.

(** ** Huge: huge.hpp; the digit functions write their result to a new vector *)
Definition set_digits (d : list Z) (t : huge) : huge := mkHuge d (HugeModel.is_positive t).
Definition set_sign (b : bool) (t : huge) : huge := mkHuge (digits t) b.
Definition positive_product (t h : huge) : bool :=
  ((HugeModel.is_positive h && HugeModel.is_positive t) || (negb (HugeModel.is_positive h) && negb (HugeModel.is_positive t)))%bool.
Definition assign_digits (f : huge -> res (list Z)) : prog huge := assign (fun t => d <- f t ;; Ok (set_digits d t)).
(** 621-648 += *)
Definition huge_add_p (x : arg huge) : prog huge :=
  local (fun t => Ok (positive_product t (at_arg x t))) (fun b =>
  if b : bool then assign_digits (fun t => Ok (digits_add (digits t) (digits (at_arg x t)))) else
  local (fun t => Ok (digits_cmp (digits t) (digits (at_arg x t)) true true)) (fun c =>
  if c =? 0 then assign_digits (fun _ => Ok []) else
  if c <? 0 then assign (fun t => Ok (set_sign (negb (HugeModel.is_positive t)) t)) ;> assign_digits (fun t => Ok (digits_sub (digits (at_arg x t)) (digits t)))
  else assign_digits (fun t => Ok (digits_sub (digits t) (digits (at_arg x t)))))).
(** 657-684 -= *)
Definition huge_sub_p (x : arg huge) : prog huge :=
  local (fun t => Ok (digits_cmp (digits t) (digits (at_arg x t)) true true)) (fun c =>
  if c =? 0 then assign_digits (fun _ => Ok []) else
  local (fun t => let h := at_arg x t in Ok ((HugeModel.is_positive h && negb (HugeModel.is_positive t)) || (negb (HugeModel.is_positive h) && HugeModel.is_positive t))%bool) (fun b =>
  if b : bool then assign_digits (fun t => Ok (digits_add (digits t) (digits (at_arg x t)))) else
  if c <? 0 then assign (fun t => Ok (set_sign (negb (HugeModel.is_positive t)) t)) ;> assign_digits (fun t => Ok (digits_sub (digits (at_arg x t)) (digits t)))
  else assign_digits (fun t => Ok (digits_sub (digits t) (digits (at_arg x t)))))).
(** 693-700 *= *)
Definition huge_mul_p (x : arg huge) : prog huge :=
  assign (fun t => Ok (set_sign (positive_product t (at_arg x t)) t)) ;> assign_digits (fun t => digits_mul (digits t) (digits (at_arg x t))).
(** 709-718 /= *)
Definition huge_div_p (x : arg huge) : prog huge :=
  assign (fun t => match digits (at_arg x t) with [] => Throw division_by_zero | _ => Ok t end) ;>
  assign (fun t => Ok (set_sign (positive_product t (at_arg x t)) t)) ;>
  assign_digits (fun t => '(q, _) <- digits_divrem (digits t) (digits (at_arg x t)) ;; Ok q).
(** 758-765 %= *)
Definition huge_mod_p (x : arg huge) : prog huge :=
  assign (fun t => match digits (at_arg x t) with [] => Throw division_by_zero | _ => Ok t end) ;>
  assign_digits (fun t => digits_rem (digits t) (digits (at_arg x t))).
(** 732-756 ++ and --; the postfix forms return a copy made before *)
Definition huge_incr_p : prog huge := huge_add_p (Other huge_one).
Definition huge_decr_p : prog huge := huge_sub_p (Other huge_one).
Definition postfix {A} (c : prog A) (s : A) : A * (A * res unit) := (s, c s).
