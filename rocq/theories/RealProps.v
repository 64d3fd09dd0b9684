(** C28-C32, C56: Real<T> for a machine integer T of [ew E] bits.
    Vocabulary (RealSpec.v): [rv x] is the real number coe * radicand^(1/index); [wf] positive radicand, positive index, nonzero
    denominators; [canonical] the normal form; [lrun E e] executes a history of public operations and [ldenotes e] is the real number
    the history stands for.  [fac_sound E]: the factorisations used are ones factorize can return; [fac_exact E]: they consist of
    primes (below 9006401 always: [C29_standard_environment]). *)
From Coq Require Import ZArith Znumtheory QArith Qreals Reals String Ascii Lia Lra Bool List.
From Verif Require Import Base AdapterModel FactorizeModel RationalModel RationalSpec RationalProofs RealModel RealSpec RealProofs3 RealProofs4 RealProofs5 RealProofs6 RealProofs7 RealProofs8.
Import ListNotations.
Open Scope Z_scope.

(** the examples: 64 bit, with a 128-bit type, some random source, 200 rounds *)
Local Definition E64 : env := std_env 64 true (fun k => Z.of_nat k * Z.of_nat k * 3 + 1) 200 0.
Local Definition txt (s : string) : list ascii := list_ascii_of_string s.

(** ** C28 normalisation preserves the number *)
Theorem C28_normalize_preserves E c r i x : 1 < ew E -> fac_sound E -> wf (ew E) (Real i r c) -> real_make E c r i = Ok x ->
  wf (ew E) x /\ rv x = rv (Real i r c).
Proof. exact (normalize_value E (Real i r c) x). Qed.
Print Assumptions C28_normalize_preserves.
(** the free function nth_root(n, q) is the positive n-th root of q *)
Theorem C28_nth_root E n q x : 1 < ew E -> fac_sound E -> wf (ew E) (Real n q (Rat 1 1)) -> nth_root E n q = Ok x ->
  wf (ew E) x /\ rv x = Rpower (Q2R (qv q)) (/ IZR n) /\ (rv x ^ Z.to_nat n)%R = Q2R (qv q).
Proof.
  intros Hw FS W H. destruct (normalize_value E (Real n q (Rat 1 1)) x Hw FS W H) as [W' V]. split; [exact W'|].
  assert (K : rv x = Rpower (Q2R (qv q)) (/ IZR n)).
  { rewrite V. unfold rv. cbn [idx rad coe]. replace (Q2R (qv (Rat 1 1))) with 1%R; [now rewrite Rmult_1_l|]. unfold Q2R, qv. cbn. lra. }
  split; [exact K|]. rewrite K. apply (root_npow (Q2R (qv q)) n); [exact (rad_pos _ _ W)|exact (proj1 (proj1 W))].
Qed.
Print Assumptions C28_nth_root.
(** the read through the iterator of an empty map (undefined in C++) cannot influence the result *)
Theorem C28_undefined_read_harmless E j c r i : 1 < ew E -> fac_sound E -> wf (ew E) (Real i r c) ->
  real_make (with_junk E j) c r i = real_make E c r i.
Proof. exact (normalize_junk E j (Real i r c)). Qed.
Print Assumptions C28_undefined_read_harmless.
Example C28_hyp : fac_sound E64 /\ wf 64 (Real 2 (Rat 72 1) (Rat 1 1)) /\ real_make E64 (Rat 1 1) (Rat 72 1) 2 = Ok (Real 2 (Rat 2 1) (Rat 6 1)) /\
  real_make E64 (Rat 2 3) (Rat 8 5) 6 = Ok (Real 6 (Rat 25000 1) (Rat 2 15)) /\ real_make E64 (Rat 7 2) (Rat 27 1) 6 = Ok (Real 2 (Rat 3 1) (Rat 7 2)).
Proof. split; [apply std_sound|]. split; [unfold wf; cbn; lia|]. vm_compute. auto. Qed.
Example C28_nth_root_hyp : wf 64 (Real 3 (Rat 16 1) (Rat 1 1)) /\ nth_root E64 3 (Rat 16 1) = Ok (Real 3 (Rat 2 1) (Rat 2 1)).
Proof. split; [unfold wf; cbn; lia|]. vm_compute. reflexivity. Qed.
(** index 0 never ends; a radicand that is not positive is undefined *)
Theorem C28_bad_arguments_refuted : real_make E64 (Rat 1 1) (Rat 3 1) 0 = Fuel /\ is_ub (real_make E64 (Rat 1 1) (Rat (-3) 1) 2) = true.
Proof. vm_compute. auto. Qed.
Theorem C28_index_zero_never_returns E c n x : 1 < ew E -> fac_sound E -> 2 <= n -> real_make E c (Rat n 1) 0 <> Ok x.
Proof. exact (index_zero E c n x). Qed.
Print Assumptions C28_index_zero_never_returns.

(** ** C29 the normal form *)
Theorem C29_canonical E c r i x : 1 < ew E -> fac_sound E -> fac_exact E -> wf (ew E) (Real i r c) -> real_make E c r i = Ok x -> canonical x.
Proof. exact (fun Hw FS FE W H => proj1 (proj2 (make_good E c r i x Hw FS FE W H))). Qed.
Print Assumptions C29_canonical.
Theorem C29_unique x y : canonical x -> canonical y -> rv x = rv y -> idx x = idx y /\ rad x = rad y /\ (qv (coe x) == qv (coe y))%Q.
Proof. exact (canonical_unique x y). Qed.
Print Assumptions C29_unique.
Theorem C29_standard_environment w i128 rnd fuel junk : 26 <= w -> fac_sound (std_env w i128 rnd fuel junk) /\ fac_exact (std_env w i128 rnd fuel junk).
Proof. exact (fun H => conj (std_sound w i128 rnd fuel junk) (std_exact w i128 rnd fuel junk H)). Qed.
Print Assumptions C29_standard_environment.
(** == decides equality of the numbers, for any two histories of operations *)
Theorem C29_eq_decides E a b x y t : 1 < ew E -> fac_sound E -> fac_exact E -> lwf (ew E) a -> lwf (ew E) b -> lnormal a -> lnormal b ->
  lrun E a = Ok x -> lrun E b = Ok y -> real_eq (ew E) x y = Ok t -> (t = true <-> ldenotes a = ldenotes b).
Proof.
  intros Hw FS FE Wa Wb Na Nb Hx Hy H. destruct (lrun_value E a Hw FS FE Wa x Hx) as [_ <-]. destruct (lrun_value E b Hw FS FE Wb y Hy) as [_ <-].
  exact (real_eq_value (ew E) x y t (lrun_canonical E a Hw FS FE Wa Na x Hx) (lrun_canonical E b Hw FS FE Wb Nb y Hy) H).
Qed.
Print Assumptions C29_eq_decides.
Theorem C29_ne_decides E a b x y t : 1 < ew E -> fac_sound E -> fac_exact E -> lwf (ew E) a -> lwf (ew E) b -> lnormal a -> lnormal b ->
  lrun E a = Ok x -> lrun E b = Ok y -> real_ne (ew E) x y = Ok t -> (t = true <-> ldenotes a <> ldenotes b).
Proof.
  intros Hw FS FE Wa Wb Na Nb Hx Hy H. unfold real_ne in H. apply bind_ok in H as (e & He & H). injection H as <-.
  apply (C29_eq_decides E a b x y e Hw FS FE Wa Wb Na Nb Hx Hy) in He. destruct e; cbn [negb]; split; try discriminate; try tauto. intros _ X. apply He in X. discriminate.
Qed.
Local Definition sqrt2 := LMake (Rat 1 1) (Rat 2 1) 2.
Local Definition one := LMake (Rat 1 1) (Rat 1 1) 1.
Example C29_hyp : let a := LMul (LMake (Rat 1 1) (Rat 6 1) 2) (LMake (Rat 1 1) (Rat 3 1) 2) in let b := LMake (Rat 3 1) (Rat 8 1) 6 in
  lwf 64 a /\ lwf 64 b /\ lnormal a /\ lnormal b /\ (x <- lrun E64 a ;; y <- lrun E64 b ;; real_eq 64 x y) = Ok true.
Proof. split; [unfold lwf, wf; cbn; lia|]. split; [unfold lwf, wf; cbn; lia|]. split; [cbn; auto|]. split; [cbn; auto|]. vm_compute. reflexivity. Qed.
(** inverse() and pow with a negative exponent return an unnormalised number: 1/sqrt(2) computed in two ways is not == itself *)
Theorem C29_inverse_refuted : exists x y, lrun E64 (LInv sqrt2) = Ok x /\ lrun E64 (LDiv one sqrt2) = Ok y /\ rv x = rv y /\ real_eq 64 x y = Ok false /\
  lrun E64 (LPow sqrt2 (-1)) = Ok x.
Proof.
  exists (Real 2 (Rat 1 2) (Rat 1 1)), (Real 2 (Rat 2 1) (Rat 1 2)).
  assert (A : lrun E64 (LInv sqrt2) = Ok (Real 2 (Rat 1 2) (Rat 1 1))) by (vm_compute; reflexivity).
  assert (B : lrun E64 (LDiv one sqrt2) = Ok (Real 2 (Rat 2 1) (Rat 1 2))) by (vm_compute; reflexivity).
  split; [exact A|]. split; [exact B|]. split; [|split; vm_compute; reflexivity].
  destruct (C29_standard_environment 64 true (fun k => Z.of_nat k * Z.of_nat k * 3 + 1) 200 0 ltac:(lia)) as [FS FE].
  assert (W1 : lwf 64 (LInv sqrt2)) by (unfold lwf, wf; cbn; lia). assert (W2 : lwf 64 (LDiv one sqrt2)) by (unfold lwf, wf; cbn; lia).
  destruct (lrun_value E64 (LInv sqrt2) eq_refl FS FE W1 _ A) as [_ ->]. destruct (lrun_value E64 (LDiv one sqrt2) eq_refl FS FE W2 _ B) as [_ ->].
  unfold one, sqrt2. cbn [ldenotes]. replace (rv (Real 1 (Rat 1 1) (Rat 1 1))) with 1%R by (symmetry; apply rv_one). unfold Rdiv. ring.
Qed.
Print Assumptions C29_inverse_refuted.

(** ** C30 products, quotients, powers *)
Theorem C30_mul E a b x : 1 < ew E -> fac_sound E -> fac_exact E -> wf (ew E) a -> wf (ew E) b -> real_mul E a b = Ok x -> rv x = (rv a * rv b)%R /\ canonical x.
Proof. exact (fun Hw FS FE A B H => let G := real_mul_good E a b x Hw FS FE A B H in conj (proj2 (proj2 G)) (proj1 (proj2 G))). Qed.
Theorem C30_div E a b x : 1 < ew E -> fac_sound E -> fac_exact E -> wf (ew E) a -> good (ew E) b -> real_div E a b = Ok x -> rv x = (rv a / rv b)%R /\ canonical x.
Proof. exact (fun Hw FS FE A B H => let G := real_div_value E a b x Hw FS FE A B H in conj (proj2 (proj2 G)) (proj1 (proj2 G))). Qed.
Theorem C30_inverse w a x : good w a -> real_inverse w a = Ok x -> rv a <> 0%R /\ rv x = (/ rv a)%R.
Proof.
  intros G H. destruct (real_inverse_value w a x G H) as (_ & N & V). split; [|exact V]. destruct G as [(_ & _ & _ & D) _]. rewrite rv_radical, qv_R by assumption.
  apply Rmult_integral_contrapositive_currified; [|pose proof (radical_pos a); lra]. apply Rmult_integral_contrapositive_currified; [now apply IZR_nz|]. apply Rinv_neq_0_compat. now apply IZR_nz.
Qed.
Theorem C30_pow_integer E a e x : 1 < ew E -> fac_sound E -> fac_exact E -> good (ew E) a -> real_pow E a (Rat e 1) = Ok x -> rv x = powerRZ (rv a) e.
Proof. intros Hw FS FE G H. exact (proj2 (proj2 (proj2 (pow_fuel_int E Hw FS FE _ a e x G H)))). Qed.
Print Assumptions C30_pow_integer.
Theorem C30_pow_fraction E a p x : 1 < ew E -> fac_sound E -> fac_exact E -> good (ew E) a -> 0 < num (coe a) -> 0 < den (coe a) -> 0 < den p ->
  idx a * den p < 2 ^ ew E -> real_pow E a p = Ok x -> rv x = Rpower (rv a) (Q2R (qv p)).
Proof. intros Hw FS FE G N D P B H. exact (proj2 (pow_fuel_frac E Hw FS FE _ a p x G N D P B H)). Qed.
Print Assumptions C30_pow_fraction.
(** any history of operations *)
Theorem C30_histories E e x : 1 < ew E -> fac_sound E -> fac_exact E -> lwf (ew E) e -> lrun E e = Ok x -> rv x = ldenotes e.
Proof. exact (fun Hw FS FE W H => proj2 (lrun_value E e Hw FS FE W x H)). Qed.
Print Assumptions C30_histories.
Theorem C30_zero_divisor w a : num (coe a) = 0 -> real_inverse w a = Throw division_by_zero.
Proof. intros H. unfold real_inverse, rat_inverse, rat_make. now rewrite H. Qed.
Example C30_hyp : lwf 64 (LPow (LDiv (LMake (Rat 1 2) (Rat 12 5) 2) (LMake (Rat (-1) 3) (Rat 3 1) 4)) 3) /\
  lrun E64 (LDiv (LMake (Rat 1 2) (Rat 12 5) 2) (LMake (Rat (-1) 3) (Rat 3 1) 4)) = Ok (Real 4 (Rat 75 1) (Rat (-3) 5)).
Proof. split; [unfold lwf, wf; cbn; lia|vm_compute; reflexivity]. Qed.
Example C30_hyp' : (x <- lrun E64 sqrt2 ;; real_pow E64 x (Rat 1 3)) = Ok (Real 6 (Rat 2 1) (Rat 1 1)) /\ (x <- lrun E64 sqrt2 ;; real_pow E64 x (Rat (-4) 3)) = Ok (Real 3 (Rat 2 1) (Rat 1 2)).
Proof. vm_compute. auto. Qed.
(** an exponent with a negative denominator (1/-2, a possible result of Rational division) is taken as positive: 4^(1/-2) is not 1/2
    but the (2^63-1)-th root of 2 *)
Theorem C30_negative_denominator_refuted : exists x, (a <- real_of_int E64 4 ;; real_pow E64 a (Rat 1 (-2))) = Ok x /\ idx x = 2 ^ 63 - 1 /\ rad x = Rat 2 1.
Proof. eexists. split; [vm_compute; reflexivity|]. vm_compute. auto. Qed.

(** ** C31 addition *)
Theorem C31_add_exact E a b x : 1 < ew E -> fac_sound E -> fac_exact E -> good (ew E) a -> good (ew E) b -> real_add E a b = Ok x -> rv x = (rv a + rv b)%R /\ canonical x.
Proof. exact (fun Hw FS FE A B H => let G := real_add_value E a b x Hw FS FE A B H in conj (proj2 (proj2 G)) (proj1 (proj2 G))). Qed.
Theorem C31_sub_exact E a b x : 1 < ew E -> fac_sound E -> fac_exact E -> good (ew E) a -> good (ew E) b -> real_sub E a b = Ok x -> rv x = (rv a - rv b)%R /\ canonical x.
Proof. exact (fun Hw FS FE A B H => let G := real_sub_value E a b x Hw FS FE A B H in conj (proj2 (proj2 G)) (proj1 (proj2 G))). Qed.
Print Assumptions C31_sub_exact.
(** refused only when the radical parts differ as real numbers, always refused then (unless arithmetic overflows) *)
Theorem C31_throws_only E a b m : fac_quiet E -> canonical a -> canonical b -> real_add E a b = Throw m -> m = "radicand and index must be the same."%string /\ radical a <> radical b.
Proof. exact (add_throws E a b m). Qed.
Print Assumptions C31_throws_only.
Theorem C31_throws_always E a b : canonical a -> canonical b -> radical a <> radical b -> real_add E a b = Throw "radicand and index must be the same."%string \/ exists u, real_add E a b = Ub u.
Proof. exact (add_refuses E a b). Qed.
Print Assumptions C31_throws_always.
Example C31_hyp : lwf 64 (LAdd (LMake (Rat 1 2) (Rat 12 5) 2) (LMake (Rat 1 3) (Rat 27 5) 2)) /\
  lrun E64 (LAdd (LMake (Rat 1 2) (Rat 12 5) 2) (LMake (Rat 1 3) (Rat 27 5) 2)) = Ok (Real 2 (Rat 15 1) (Rat 2 5)).
Proof. split; [unfold lwf, wf; cbn; lia|vm_compute; reflexivity]. Qed.
(** 0 + sqrt(2) is refused although the sum is representable *)
Theorem C31_zero_plus_root_refuted : real_add E64 real_zero (Real 2 (Rat 2 1) (Rat 1 1)) = Throw radicands_differ.
Proof. vm_compute. reflexivity. Qed.

(** ** C32 order *)
Theorem C32_lt E a b x y t : 1 < ew E -> fac_sound E -> fac_exact E -> lwf (ew E) a -> lwf (ew E) b -> lpositive a -> lpositive b ->
  lrun E a = Ok x -> lrun E b = Ok y -> idx x * idx y < 2 ^ ew E -> real_lt (ew E) x y = Ok t -> (t = true <-> (ldenotes a < ldenotes b)%R).
Proof. exact (lrun_order E a b x y t). Qed.
Print Assumptions C32_lt.
Theorem C32_gt w a b t : 1 < w -> good w a -> good w b -> canonical a -> canonical b -> 0 < den (coe a) -> 0 < den (coe b) -> idx a * idx b < 2 ^ w ->
  real_gt w a b = Ok t -> (t = true <-> (rv b < rv a)%R).
Proof. exact (real_gt_value w a b t). Qed.
Print Assumptions C32_gt.
(** un-normalised operands too, if only a zero coefficient comes with index 1 *)
Theorem C32_lt_values w a b t : 1 < w -> good w a -> good w b -> 0 < den (coe a) /\ (num (coe a) = 0 -> idx a = 1) -> 0 < den (coe b) /\ (num (coe b) = 0 -> idx b = 1) ->
  idx a * idx b < 2 ^ w -> real_lt w a b = Ok t -> (t = true <-> (rv a < rv b)%R).
Proof. exact (real_lt_value w a b t). Qed.
Print Assumptions C32_lt_values.
Example C32_hyp : let a := LNeg sqrt2 in let b := LMul (LMake (Rat (-1) 1) (Rat 3 1) 3) one in
  lwf 64 a /\ lwf 64 b /\ lpositive a /\ lpositive b /\ (x <- lrun E64 a ;; y <- lrun E64 b ;; real_lt 64 x y) = Ok false /\ (x <- lrun E64 a ;; y <- lrun E64 b ;; real_lt 64 y x) = Ok true.
Proof. split; [unfold lwf, wf; cbn; lia|]. split; [unfold lwf, wf; cbn; lia|]. split; [cbn; lia|]. split; [cbn; lia|]. vm_compute. auto. Qed.
(** a negative denominator inverts the comparison: 1/-2 (= -1/2) is not below 1 but above *)
Theorem C32_negative_denominator_refuted : real_lt 64 (Real 1 (Rat 1 1) (Rat 1 (-2))) (Real 1 (Rat 1 1) (Rat 1 1)) = Ok false /\
  (x <- lrun E64 (LInv (LMake (Rat (-2) 1) (Rat 1 1) 1)) ;; Ok (coe x)) = Ok (Rat 1 (-2)).
Proof. vm_compute. auto. Qed.

(** ** C56 text *)
Theorem C56_text_injective w x y s : 1 < w <= 64 -> canonical x -> canonical y -> in_w w (coe x) -> in_w w (coe y) ->
  real_to_string w x = Ok s -> real_to_string w y = Ok s -> rv x = rv y.
Proof. exact (real_text_injective w x y s). Qed.
Print Assumptions C56_text_injective.
Example C56_hyp : (x <- real_make E64 (Rat 1 2) (Rat 12 1) 2 ;; real_to_string 64 x) = Ok (txt "_/3") /\ (x <- real_make E64 (Rat (-2) 3) (Rat 5 1) 3 ;; real_to_string 64 x) = Ok (txt "-2/3_3/5").
Proof. vm_compute. auto. Qed.
(** the LaTeX text of a cube root has index "n3" *)
Theorem C56_tex_index_refuted : real_to_tex 64 (Real 3 (Rat 5 1) (Rat 1 1)) = Ok (txt "\sqrt[n3]{5}").
Proof. vm_compute. reflexivity. Qed.
