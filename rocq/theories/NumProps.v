(** C67: conversions to floating-point and integer types.  C68: the accuracy of numeric evaluation. *)
From Coq Require Import ZArith QArith Qabs Qround Qreals Qpower Reals String Ascii Lia Lqa Lra Bool List.
From Verif Require Import Base AdapterModel HugeModel HugeSpec HugeProofs1 RationalModel RationalSpec RealModel RealSpec PolyModel PolySpec ExprModel ExprSpec ParserModel TextSpec CliModel
  DecModel DecSpec DecProofs1 DecProps NumModel NumSpec NumProofs1 NumProofs2 NumProofs3 NumProofs4 NumProofs5 NumProofs6.
Import ListNotations.
Open Scope Z_scope.

(** ** C67 Huge::to<U> for a floating-point U *)
(** below 2^64: the nearest number of the type (C65_rounding says what [rnd] is), hence the number itself if it has at most p bits *)
Theorem C67_huge F x : 1 <= fprec F -> 66 <= femax F -> hcanon x -> Z.abs (hval x) < 2 ^ 64 ->
  exists f, huge_to_float F x = Ok f /\ (f == rnd (fprec F) (inject_Z (hval x)))%Q /\ (Z.abs (hval x) <= 2 ^ fprec F -> (f == inject_Z (hval x))%Q).
Proof.
  intros Hp He Hx HB. destruct (huge_to_float_value F x Hp He Hx HB) as (f & E & V). exists f. split; [exact E|]. split; [exact V|].
  intros L. rewrite V. apply rnd_int; [exact Hp|exact L|reflexivity].
Qed.
Print Assumptions C67_huge.
(** from 2^90 on it throws *)
Theorem C67_huge_too_big F x : hcanon x -> 2 ^ 90 <= Z.abs (hval x) -> huge_to_float F x = Throw "The Huge is too big.".
Proof. exact (huge_to_float_big F x). Qed.
Print Assumptions C67_huge_too_big.
(** in between the magnitude is taken modulo 2^64, with the sign of the number *)
Theorem C67_huge_between F x : 1 <= fprec F -> 66 <= femax F -> hcanon x -> 2 ^ 64 <= Z.abs (hval x) < 2 ^ 90 ->
  exists f, huge_to_float F x = Ok f /\ (f == rnd (fprec F) (inject_Z (Z.sgn (hval x) * (Z.abs (hval x) mod 2 ^ 64))))%Q.
Proof.
  intros Hp He Hx [HB HB']. destruct (huge_to_float_ok F x Hp He Hx HB') as (f & E & V). exists f. split; [exact E|]. rewrite V.
  assert (S : (if is_positive x then 1 else -1) = Z.sgn (hval x)); [|rewrite S; reflexivity].
  pose proof (hval_sign x Hx) as HS. destruct (is_positive x); [rewrite Z.sgn_pos by lia|rewrite Z.sgn_neg by lia]; reflexivity.
Qed.
Print Assumptions C67_huge_between.
Example C67_huge_ex : hcanon (mkHuge [5; 0; 1] false) /\ Z.abs (hval (mkHuge [5; 0; 1] false)) < 2 ^ 64 /\ 66 <= femax binary64 /\ huge_to_float binary64 (mkHuge [5; 0; 1] false) = Ok (- (inject_Z (2 ^ 60)))%Q.
Proof. split; [apply canonb_canon; reflexivity|]. split; [reflexivity|]. split; [discriminate|vm_compute; reflexivity]. Qed.
(** the value is wrong without notice: 2^64 + 1 is 1 *)
Theorem C67_huge_refuted : exists x f, hcanon x /\ hval x = 2 ^ 64 + 1 /\ huge_to_float x87 x = Ok f /\ (f == 1)%Q.
Proof. exists (mkHuge [1; 0; 16] true). eexists. split; [apply canonb_canon; reflexivity|]. split; [reflexivity|]. split; [vm_compute; reflexivity|reflexivity]. Qed.
Print Assumptions C67_huge_refuted.
(** Huge::pow is 0 whatever the arguments *)
Theorem C67_pow_refuted x h : hval (huge_pow x h) = 0 /\ forall e, hval (huge_pow_double x e) = 0.
Proof. split; reflexivity. Qed.
Print Assumptions C67_pow_refuted.
(** and the 0 it gives is the ordinary one: positive, printed as 0, without limbs, where Huge(0) has one *)
Theorem C67_pow_zero x h : is_positive (huge_pow x h) = true /\ huge_to_string (huge_pow x h) = Ok ["0"%char] /\ digits (huge_pow x h) = [] /\
  forall e, huge_pow_double x e = huge_pow x h.
Proof. repeat split. Qed.

(** ** C67 Rational::to<U> *)
(** numerator and denominator with at most p bits: no number of the type is nearer to the quotient *)
Theorem C67_rational_nearest p r : 1 <= p -> Z.abs (num r) <= 2 ^ p -> Z.abs (den r) <= 2 ^ p -> den r <> 0 ->
  has_bits p (rat_to_float p r) /\ forall y, has_bits p y -> (Qabs (qv r - rat_to_float p r) <= Qabs (qv r - y))%Q.
Proof.
  intros Hp Hn Hd D0. destruct (rat_to_float_nearest p r Hp Hn Hd D0) as (z & Ez & Er). rewrite Er. destruct (C65_rounding p z Hp) as [A B].
  split; [exact A|]. intros y Hy. rewrite <- Ez. exact (B y Hy).
Qed.
Print Assumptions C67_rational_nearest.
(** any numerator and denominator *)
Theorem C67_rational_error p r : 3 <= p -> den r <> 0 -> (Rabs (Q2R (rat_to_float p r) - IZR (num r) / IZR (den r)) <= 6 / IZR (2 ^ p) * Rabs (IZR (num r) / IZR (den r)))%R.
Proof. intros Hp Hd. rewrite <- qv_value by exact Hd. exact (rat_to_float_error p r Hp Hd). Qed.
Print Assumptions C67_rational_error.
(** to an integer type: truncation, if both parts fit and the quotient does *)
Theorem C67_rational_int w (sg : bool) r : 2 <= w -> den r <> 0 ->
  let fits x := if sg then - 2 ^ (w - 1) <= x < 2 ^ (w - 1) else 0 <= x < 2 ^ w in
  fits (num r) -> fits (den r) -> fits (num r ÷ den r) -> rat_to_int w sg r = Ok (num r ÷ den r).
Proof.
  intros Hw Hd fits H1 H2 H3. apply rat_to_int_fits; try assumption; try (unfold fits, ulow, umax in *; destruct sg; lia).
  intros (-> & A & B). unfold fits in H3. rewrite A, B in H3. change (-1) with (- (1)) in H3. rewrite Z.quot_opp_r, Z.quot_1_r in H3 by lia. lia.
Qed.
Print Assumptions C67_rational_int.
(** the one quotient that does not fit, the least number by -1: overflow in int and wider types, a wrapped result in narrower ones *)
Theorem C67_rational_int_least w : 2 <= w -> rat_to_int w true (Rat (- 2 ^ (w - 1)) (-1)) = if w <? 32 then Ok (- 2 ^ (w - 1)) else Ub "signed overflow"%string.
Proof.
  intros Hw. assert (P : 2 <= 2 ^ (w - 1)) by (change 2 with (2 ^ 1) at 1; apply Z.pow_le_mono_r; lia). assert (D : 2 ^ w = 2 * 2 ^ (w - 1)) by (replace w with (1 + (w - 1)) at 1 by lia; rewrite Z.pow_add_r by lia; reflexivity).
  unfold rat_to_int. cbn [num den]. rewrite !cast_id by (unfold ulow, umax; lia). change (-1 =? 0) with false. cbv iota. assert (Q : (- 2 ^ (w - 1) ÷ -1) = 2 ^ (w - 1)) by (change (-1) with (- (1)); rewrite Z.quot_opp_opp, Z.quot_1_r by lia; reflexivity). rewrite Q.
  unfold umax. replace (2 ^ (w - 1) - 1 <? 2 ^ (w - 1)) with true by (symmetry; apply Z.ltb_lt; lia). cbn [andb]. rewrite andb_true_r. rewrite Z.leb_antisym. destruct (w <? 32); cbn [negb]; [|reflexivity]. f_equal. unfold cast, swrap.
  rewrite Z.mod_small by lia. destruct (Z.ltb_spec (2 ^ (w - 1)) (2 ^ (w - 1))); lia.
Qed.
Print Assumptions C67_rational_int_least.
Example C67_rational_ex : rat_to_int 32 true (Rat (-7) 2) = Ok (-3) /\ rat_to_int 8 false (Rat 200 3) = Ok 66 /\ (rat_to_float 53 (Rat 3 8) == 3 # 8)%Q.
Proof. repeat split; vm_compute; reflexivity. Qed.
(** each part is reduced modulo 2^w on its own: 2^32 / 1 is 0, 1 / 2^32 divides by zero *)
Theorem C67_rational_int_refuted : rat_to_int 32 true (Rat (2 ^ 32) 1) = Ok 0 /\ is_ub (rat_to_int 32 true (Rat 1 (2 ^ 32))) = true /\ rat_to_int 32 true (Rat (2 ^ 32 + 6) (2 ^ 32 + 2)) = Ok 3.
Proof. repeat split; vm_compute; reflexivity. Qed.
Print Assumptions C67_rational_int_refuted.

(** ** C67 Real::to<U> *)
(** [H1]: std::pow(1, y) is 1 (C, annex F).  A Real that is a rational number is converted as that number *)
Theorem C67_real_rational p fpow i c : 1 <= p -> (forall x y, (x == 1)%Q -> (fpow x y == 1)%Q) -> (real_to_float p fpow (Real i (Rat 1 1) c) == rat_to_float p c)%Q.
Proof. exact (rational_real p fpow i c). Qed.
Print Assumptions C67_real_rational.
(** any Real; [j] bounds the logarithm of the radicand; std::pow on doubles is accurate to two units *)
Theorem C67_real_error p fpow a j : 53 <= p -> pow_accurate fpow -> den (coe a) <> 0 -> 0 < num (rad a) -> 0 < den (rad a) -> 1 <= idx a <= 2 ^ 53 ->
  (Rabs (ln (Q2R (qv (rad a)))) <= INR j)%R -> (2 * (11 + INR j) / IZR (2 ^ 53) <= 1)%R ->
  (Rabs (Q2R (real_to_float p fpow a) - rv a) <= 2 * (11 + INR j) / IZR (2 ^ 53) * Rabs (rv a))%R.
Proof. intros. apply real_close; assumption. Qed.
Print Assumptions C67_real_error.
(** the normal form with a radicand below 2^64: 45 bits are right, whatever the type *)
Theorem C67_real_45_bits p fpow a m : 53 <= p -> pow_accurate fpow -> den (coe a) <> 0 -> rad a = Rat m 1 -> 1 <= m < 2 ^ 64 -> 1 <= idx a <= 2 ^ 53 ->
  (Rabs (Q2R (real_to_float p fpow a) - rv a) <= / IZR (2 ^ 45) * Rabs (rv a))%R.
Proof.
  intros Hp HF Dc Hr Hm Hi.
  assert (B : (2 * (11 + INR 64) / IZR (2 ^ 53) <= / IZR (2 ^ 45))%R).
  { replace (INR 64) with 64%R by (rewrite INR_IZR_INZ; reflexivity). change (2 ^ 53)%Z with 9007199254740992%Z. change (2 ^ 45)%Z with 35184372088832%Z. Lra.lra. }
  assert (I : (/ IZR (2 ^ 45) <= 1)%R) by (change (2 ^ 45)%Z with 35184372088832%Z; Lra.lra).
  eapply Rle_trans; [apply (C67_real_error p fpow a 64 Hp HF Dc); try assumption; try (rewrite Hr; cbn [num den]; lia)|].
  - rewrite Hr. apply ln_int, Hm.
  - Lra.lra.
  - apply Rmult_le_compat_r; [apply Rabs_pos|exact B].
Qed.
Print Assumptions C67_real_45_bits.
(** 3 * 5^(1/2) as a long double, and a pow that meets the hypotheses *)
Example C67_real_ex : pow_accurate good_pow /\ (forall x y, (x == 1)%Q -> (good_pow x y == 1)%Q) /\
  (Rabs (Q2R (real_to_float 64 good_pow (Real 2 (Rat 5 1) (Rat 3 1))) - 3 * sqrt 5) <= / IZR (2 ^ 45) * Rabs (3 * sqrt 5))%R.
Proof.
  split; [exact good_pow_accurate|]. split; [exact good_pow_one|].
  assert (E : (rv (Real 2 (Rat 5 1) (Rat 3 1)) = 3 * sqrt 5)%R).
  { unfold rv. cbn [coe rad idx]. rewrite !qv_value by (cbn [den]; lia). cbn [num den]. replace (5 / 1)%R with 5%R by field. rewrite Rpower_sqrt by Lra.lra. field. }
  rewrite <- E. apply (C67_real_45_bits 64 good_pow _ 5); cbn [coe rad idx den]; try lia; [exact good_pow_accurate|reflexivity].
Qed.

(** ** C68 the accuracy of numeric evaluation *)
(** [steps p m e k]: every number in e is positive, e adds, multiplies, divides and raises to positive integer powers only, and that takes k roundings.
    [H1]: std::pow(1, y) is 1; [HL]: std::pow on long doubles errs by at most m roundings *)
Theorem C68_accuracy p m fpow lpow show read root v s e k x : 2 <= p -> (forall a y, (a == 1)%Q -> (fpow a y == 1)%Q) -> pow_within p m lpow ->
  (forall name y, mget name v = Some y -> (0 < y)%Q /\ s name = Q2R y) -> steps p m e k ->
  expr_ld (float_ops p fpow lpow show read root) v e = Ok (Some x) -> (2 * INR k <= IZR (2 ^ p))%R ->
  (0 < ev s e)%R /\ (Rabs (Q2R x - ev s e) <= 2 * INR k / IZR (2 ^ p) * ev s e)%R.
Proof.
  intros Hp H1 HL Hv HS E HK. destruct (expr_within p m fpow lpow show read root Hp H1 HL v s Hv e k HS x E) as [P W]. split; [exact P|].
  apply (within_error (ulp p) (Hu p Hp) k); try assumption. unfold ulp.
  assert (0 < IZR (2 ^ p))%R by (apply IZR_lt; apply Z.pow_pos_nonneg; lia). apply (Rmult_le_reg_r (IZR (2 ^ p))); [assumption|]. rewrite Rmult_assoc, Rinv_l by Lra.lra. Lra.lra.
Qed.
Print Assumptions C68_accuracy.
(** relative to the number of roundings: no hypothesis on k *)
Theorem C68_within p m fpow lpow show read root v s e k x : 2 <= p -> (forall a y, (a == 1)%Q -> (fpow a y == 1)%Q) -> pow_within p m lpow ->
  (forall name y, mget name v = Some y -> (0 < y)%Q /\ s name = Q2R y) -> steps p m e k ->
  expr_ld (float_ops p fpow lpow show read root) v e = Ok (Some x) ->
  (ev s e * (1 - / IZR (2 ^ p)) ^ k <= Q2R x /\ Q2R x * (1 - / IZR (2 ^ p)) ^ k <= ev s e)%R.
Proof. intros Hp H1 HL Hv HS E. exact (proj2 (expr_within p m fpow lpow show read root Hp H1 HL v s Hv e k HS x E)). Qed.
Print Assumptions C68_within.
(** (x + 3) / 7 * x^2 at x = 5/2 *)
Definition sample : expr :=
  Op "*" (Op "/" (Op "+" (Leaf (leaf_sym "x")) (Leaf (leaf_int 3))) (Leaf (leaf_int 7))) (Op "^" (Leaf (leaf_sym "x")) (Leaf (leaf_int 2))).
Definition pow_one (x y : Q) : Q := 1%Q.
Definition ld64 : fops := float_ops 64 pow_one (good_lpow 64) (fun _ => []) (fun _ => Throw "") (fun _ _ => Throw "").
Example C68_example : (forall a y, (a == 1)%Q -> (pow_one a y == 1)%Q) /\ pow_within 64 1 (good_lpow 64) /\ (exists k, steps 64 1 sample k /\ (k <= 100)%nat) /\
  exists x, expr_ld ld64 [("x"%string, (5 # 2)%Q)] sample = Ok (Some x).
Proof.
  split; [reflexivity|]. split; [apply good_lpow_within; lia|]. split.
  - assert (TI : forall n, 0 < n < 100 -> tame 64 (leaf_int n)).
    { intros n Hn. assert (B : 100 < 2 ^ 64) by reflexivity. split; [discriminate|]. split; [discriminate|].
      split; constructor; try constructor; try reflexivity; cbn [tco term_const rint coe num den idx]; repeat split; try lia; constructor. }
    assert (TS : tame 64 (leaf_sym "x")).
    { assert (B : 1 < 2 ^ 64) by reflexivity. split; [discriminate|]. split; [discriminate|].
      split; constructor; try constructor; try reflexivity; cbn [tco term_const rint coe num den idx]; repeat split; try lia; repeat constructor; cbn; lia. }
    eexists. split; [apply steps_mul; [apply steps_div; [apply steps_add|]|apply steps_pow]; try (apply steps_leaf; first [exact TS|apply TI; lia]); vm_compute; intuition discriminate|].
    vm_compute. lia.
  - eexists. vm_compute. reflexivity.
Qed.
(** with a subtraction nothing is left of the accuracy: (x + 1) - x at x = 2^64 is 0 *)
Theorem C68_cancellation_refuted :
  let e := Op "-" (Op "+" (Leaf (leaf_sym "x")) (Leaf (leaf_int 1))) (Leaf (leaf_sym "x")) in
  (forall s, ev s e = 1)%R /\ exists x, expr_ld ld64 [("x"%string, inject_Z (2 ^ 64))] e = Ok (Some x) /\ (x == 0)%Q.
Proof.
  split.
  - intros s. cbn [ev Ascii.eqb Bool.eqb]. rewrite fv_int. ring.
  - eexists. split; [vm_compute; reflexivity|]. vm_compute. reflexivity.
Qed.
Print Assumptions C68_cancellation_refuted.
