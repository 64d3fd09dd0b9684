(** C89: fractional powers of negative numbers.
    Vocabulary (RealSpec.v): [rv x] is the real number coe * radicand^(1/index); [good] positive radicand and index, nonzero denominators,
    and radicand 1 when the index is 1; [Rpower y q] is y^q for positive y.  [fac_sound E], [fac_exact E]: the factorisations used are ones
    factorize can return and consist of primes (below 9006401 always: C29_standard_environment).  [Ok x] is a run that returns x. *)
From Coq Require Import ZArith Znumtheory QArith Qreals Reals String Ascii Lia Lra Bool List.
From Verif Require Import Base AdapterModel FactorizeModel RationalModel RationalSpec RationalProofs RealModel RealSpec RealProofs4 RealProps PolyModel ExprModel ParserModel CliModel RingProofs11 NegPowProofs.
Import ListNotations. Open Scope Z_scope.

Local Definition E64 : env := std_env 64 true (fun k => Z.of_nat k * Z.of_nat k * 3 + 1) 200 0.
Local Definition power (n d p q : Z) : res (real * string) :=
  a <- real_make E64 (Rat n d) (Rat 1 1) 1 ;; x <- real_pow E64 a (Rat p q) ;; t <- real_to_string 64 x ;; Ok (x, string_of_list_ascii t).

(** ** a Real with a negative or zero integer radicand cannot be made *)
Theorem C89_radicand E c n i x : fac_sound E -> real_make E c (Rat n 1) i = Ok x -> 0 < n.
Proof. intros FS H. apply normalize_needs_positive in H; [exact H|assumption]. Qed.
Print Assumptions C89_radicand.

(** ** even numerator: |a|^p, exactly and in normal form *)
Theorem C89_even E a p x : 1 < ew E -> fac_sound E -> fac_exact E -> good (ew E) a -> num (coe a) < 0 -> 0 < den (coe a) ->
  1 < den p -> Z.gcd (num p) (den p) = 1 -> Z.even (num p) = true -> idx a * den p < 2 ^ ew E ->
  real_pow E a p = Ok x -> canonical x /\ rv x = Rpower (- rv a) (Q2R (qv p)).
Proof. intros W FS FE G N D P L V B H. exact (proj2 (neg_pow_even E a p x W FS FE G N D P L V B H)). Qed.
Print Assumptions C89_even.
(** the power of the absolute value is what the opposite number gives *)
Theorem C89_even_abs E a b p x y : 1 < ew E -> fac_sound E -> fac_exact E -> good (ew E) a -> num (coe a) < 0 -> 0 < den (coe a) ->
  1 < den p -> Z.gcd (num p) (den p) = 1 -> Z.even (num p) = true -> idx a * den p < 2 ^ ew E ->
  good (ew E) b -> 0 < num (coe b) -> 0 < den (coe b) -> idx b * den p < 2 ^ ew E -> rv b = (- rv a)%R ->
  real_pow E a p = Ok x -> real_pow E b p = Ok y -> rv x = rv y.
Proof.
  intros W FS FE G N D P L V B Gb Nb Db Bb R H K. apply C89_even in H as [_ ->]; try assumption. apply C30_pow_fraction in K; try assumption; [|lia]. now rewrite K, R.
Qed.
Print Assumptions C89_even_abs.

(** ** odd numerator: no value, except for a negative exponent with an even denominator and a numerator other than -1 *)
Theorem C89_odd E a p x : 1 < ew E -> fac_sound E -> num (coe a) < 0 -> 0 < den (coe a) -> 1 < den p < 2 ^ ew E -> Z.gcd (num p) (den p) = 1 -> Z.odd (num p) = true ->
  real_pow E a p = Ok x -> num p < 0 /\ Z.even (den p) = true /\ num (coe a) <> -1.
Proof. exact (neg_pow_odd E a p x). Qed.
Print Assumptions C89_odd.
(** so no root of a negative number (a square root, a cube root) is ever computed *)
Theorem C89_no_root E a n x : 1 < ew E -> fac_sound E -> num (coe a) < 0 -> 0 < den (coe a) -> 1 < n < 2 ^ ew E -> real_pow E a (Rat 1 n) <> Ok x.
Proof. intros W FS N D I H. apply C89_odd in H as (X & _); try assumption; [cbn in X; lia|cbn [num den]; apply Z.gcd_1_l|reflexivity]. Qed.
Print Assumptions C89_no_root.

(** ** refutation: the excepted case returns a number.  (-4)^(-1/2) comes out as -1/2, a rational number whose inverse square is 4,
    printed "1/-2"; (-3)^(-1/2) as a number with the radicand 3/-1; and the two that need no such case do not complete *)
Theorem C89_odd_refuted :
  power (-4) 1 (-1) 2 = Ok (Real 1 (Rat 1 1) (Rat 1 (-2)), "1/-2"%string) /\
  power (-4) 1 (-3) 2 = Ok (Real 1 (Rat 1 1) (Rat 1 (-8)), "1/-8"%string) /\
  power (-3) 1 (-1) 2 = Ok (Real 2 (Rat 3 (-1)) (Rat 1 (-3)), "1/-3_/3/-1"%string) /\
  (forall x, power (-4) 1 1 2 <> Ok x) /\ (forall x, power (-1) 1 (-1) 2 <> Ok x).
Proof. repeat split; try (vm_compute; reflexivity); intros x; vm_compute; discriminate. Qed.

(** (-4)^(-1/2) even depends on what normalize reads from the empty map of factors (num.hpp 567: the element at begin() of an empty map), which is
    harmless for positive radicands (C28_undefined_read_harmless): a 0 there gives -1/2, a 1 gives 1/-2 times the square root of 1/-1 *)
Local Definition power_reading (junk n d p q : Z) : res real :=
  let E := std_env 64 true (fun k => Z.of_nat k * Z.of_nat k * 3 + 1) 200 junk in a <- real_make E (Rat n d) (Rat 1 1) 1 ;; real_pow E a (Rat p q).
Theorem C89_undefined_read_refuted :
  power_reading 0 (-4) 1 (-1) 2 = Ok (Real 1 (Rat 1 1) (Rat 1 (-2))) /\ power_reading 1 (-4) 1 (-1) 2 = Ok (Real 2 (Rat 1 (-1)) (Rat 1 (-2))).
Proof. split; vm_compute; reflexivity. Qed.

(** on the command line the line (-4)^(-1/2)+1/2 prints 0/-1, as if (-4)^(-1/2) were the number -1/2 *)
Local Definition F0 : fops := FOps Z (fun _ => 0) (fun _ => 0) 0 Z.add Z.sub Z.mul Z.div Z.pow (fun n => txt "~" ++ adapter_to_string n) (fun t => Throw "invalid_argument"%string) (fun r i => Ok 1).
Local Definition C0 : cenv := CEnv (PEnv E64 (isort 64)) (fun _ => Throw "invalid_argument"%string) F0 (txt "long").
Local Definition see (line : string) : string * next :=
  let r := round C0 (txt line) (CState (C := C0) [] []) in (string_of_list_ascii (printed r), then_ r).
Theorem C89_line_refuted : fst (see "(-4)^(-1/2)+1/2") = ("symxx> 0/-1" ++ String (ascii_of_nat 10) "")%string.
Proof. vm_compute. reflexivity. Qed.

(** ** the hypotheses are met *)
Example C89_hyp_even : good 64 (Real 1 (Rat 1 1) (Rat (-8) 27)) /\ power (-8) 27 (-2) 3 = Ok (Real 1 (Rat 1 1) (Rat 9 4), "9/4"%string) /\ power (-8) 1 2 3 = Ok (Real 1 (Rat 1 1) (Rat 4 1), "4"%string) /\
  power (-3) 2 2 3 = Ok (Real 3 (Rat 18 1) (Rat 1 2), "1/2_3/18"%string).
Proof. split; [unfold good, wf; cbn; lia|]. vm_compute. auto. Qed.
Example C89_hyp_env : fac_sound E64 /\ fac_exact E64.
Proof. apply C29_standard_environment. lia. Qed.
