(** C75: the double arithmetic inside Real.  Vocabulary: DblSpec.v ([double_int], [good_double], [agrees], [lrun_d]), RealSpec.v ([lrun], [ldenotes], [rv], [lwf]). *)
From Coq Require Import ZArith QArith Qreals Reals String Ascii Lia Lra Bool List.
From Verif Require Import Base AdapterModel RationalModel RationalSpec RationalProofs FactorizeModel RealModel RealSpec RealProofs3 RealProps DecModel DecSpec NumModel DblModel DblSpec DblProofs1 DblProofs2.
Import ListNotations.
Open Scope Z_scope.

(** ** where the exact model says what happens, double arithmetic does the same *)
Theorem C75_exact_where_it_fits X e : good_double X -> agrees (lrun (de X) e) (lrun_d X e).
Proof. exact (fun G => run_agrees X G e). Qed.
Print Assumptions C75_exact_where_it_fits.
Theorem C75_value X e x : good_double X -> 1 < ew (de X) -> fac_sound (de X) -> fac_exact (de X) -> lwf (ew (de X)) e -> lrun (de X) e = Ok x -> lrun_d X e = Ok x /\ rv x = ldenotes e.
Proof. intros G Hw FS FE W H. split; [exact (agrees_ok _ _ _ (run_agrees X G e) H)|exact (C30_histories (de X) e x Hw FS FE W H)]. Qed.
Print Assumptions C75_value.
Theorem C75_order X a b : good_double X -> agrees (real_lt (ew (de X)) a b) (real_lt_d X a b) /\ agrees (real_gt (ew (de X)) a b) (real_gt_d X a b).
Proof. exact (fun G => conj (lt_agrees X G a b) (gt_agrees X G a b)). Qed.
Print Assumptions C75_order.
(** ** integer powers: the result is off by one part in 2^52 at most, and exact if and only if a double holds the power *)
Theorem C75_integer_power X n e : good_double X -> 2 <= ew (de X) -> efac (de X) 1 = Ok [] -> Z.abs n <= 2 ^ 53 -> 2 <= e <= 2 ^ 53 -> e < 2 ^ (ew (de X) - 1) ->
  (forall y, real_pow_d X (Real 1 (Rat 1 1) (Rat n 1)) (Rat e 1) = Ok y ->
     exists m, y = Real 1 (Rat 1 1) (Rat m 1) /\ Z.abs (m - n ^ e) * 2 ^ 52 <= Z.abs (n ^ e) /\ (m = n ^ e <-> double_int (n ^ e))) /\
  (Z.abs (n ^ e) * (2 ^ 52 + 1) < 2 ^ 52 * 2 ^ (ew (de X) - 1) -> exists y, real_pow_d X (Real 1 (Rat 1 1) (Rat n 1)) (Rat e 1) = Ok y).
Proof.
  intros G W F N L Lw. destruct (pow_int X G W n e F L Lw) as [A B]. cbv zeta in A, B.
  destruct (faithful_trunc (fpow X) n e (proj1 G) N ltac:(lia) (to_double n) (rat_to_float 53 (Rat e 1)) (to_double_int n N) (exponent_double X e ltac:(lia))) as [T1 T2]. fold (pow_d X n (rat_to_float 53 (Rat e 1))) in T1, T2.
  set (m := ftrunc _) in *. split.
  - intros y Y. exists m. rewrite (A (B y Y)) in Y. injection Y as <-. auto.
  - intros S. assert (M : Z.abs m < 2 ^ (ew (de X) - 1)) by (change (2 ^ 52) with 4503599627370496 in *; lia). eauto.
Qed.
Print Assumptions C75_integer_power.
(** so an odd number to a power beyond 2^53 is never right, whatever faithful pow the library has, and nothing says so *)
Theorem C75_odd_power_refuted X n e : good_double X -> 2 <= ew (de X) -> efac (de X) 1 = Ok [] -> Z.abs n <= 2 ^ 53 -> 2 <= e <= 2 ^ 53 -> e < 2 ^ (ew (de X) - 1) ->
  Z.odd n = true -> 2 ^ 53 < Z.abs (n ^ e) -> Z.abs (n ^ e) * (2 ^ 52 + 1) < 2 ^ 52 * 2 ^ (ew (de X) - 1) ->
  exists m, real_pow_d X (Real 1 (Rat 1 1) (Rat n 1)) (Rat e 1) = Ok (Real 1 (Rat 1 1) (Rat m 1)) /\ m <> n ^ e.
Proof.
  intros G W F N L Lw O B S. destruct (C75_integer_power X n e G W F N L Lw) as [A K]. destruct (K S) as [y Y]. destruct (A y Y) as (m & -> & _ & I). exists m. split; [exact Y|]. intros E. apply I in E. revert E. apply odd_double; [|exact B].
  rewrite Z.odd_pow by lia. exact O.
Qed.
Print Assumptions C75_odd_power_refuted.

(** ** cases: x87 long double and a correctly rounded pow, the factorisation of FactorizeModel with one stream of random numbers *)
Lemma half_power z : 0 < z -> (Rpower (IZR z / 1) (/ 2) * Rpower (IZR z / 1) (/ 2))%R = IZR z.
Proof. intros H. rewrite <- Rpower_plus. replace (/ 2 + / 2)%R with 1%R by field. replace (IZR z / 1)%R with (IZR z) by field. apply Rpower_1. now apply IZR_lt. Qed.
Definition raw_env (w : Z) (i128 : bool) (rnd : nat -> Z) (fuel : nat) (junk : Z) : env := Env w (fun n => '(l, _) <- factorize w i128 rnd fuel n nil 0 ;; Ok l) junk.
Lemma raw_sound w i128 rnd fuel junk : fac_sound (raw_env w i128 rnd fuel junk).
Proof. intros n l H. cbn [efac raw_env ew] in *. apply bind_ok in H as ([l' k'] & H & R). injection R as ->. exists i128, rnd, fuel, 0%nat, k'. assumption. Qed.
Definition Ed : env := raw_env 64 true (fun k => Z.of_nat k * Z.of_nat k * 3 + 1) 200 0.
Definition Xd : denv := DEnv Ed nearest_pow x87.
Lemma Xd_good : good_double Xd. Proof. split; [exact nearest_faithful|vm_compute; discriminate]. Qed.
Lemma Ed_sound : fac_sound Ed. Proof. apply raw_sound. Qed.
Example C75_hyp : good_double Xd /\ fac_sound Ed /\ efac Ed 1 = Ok [] /\ Z.odd 3 = true /\ 2 ^ 53 < Z.abs (3 ^ 34) /\ Z.abs (3 ^ 34) * (2 ^ 52 + 1) < 2 ^ 52 * 2 ^ 63 /\
  lrun Ed (LMake (Rat 1 1) (Rat 72 1) 2) = Ok (Real 2 (Rat 2 1) (Rat 6 1)) /\ lrun Ed (LPow (LMake (Rat 3 1) (Rat 1 1) 1) 33) = Ok (Real 1 (Rat 1 1) (Rat (3 ^ 33) 1)).
Proof.
  split; [exact Xd_good|]. split; [exact Ed_sound|].
  do 5 (apply conj; [vm_compute; reflexivity|]). vm_compute. reflexivity.
Qed.
(** 3^34 = 16677181699666569 *)
Example C75_power_refuted : lrun_d Xd (LPow (LMake (Rat 3 1) (Rat 1 1) 1) 34) = Ok (Real 1 (Rat 1 1) (Rat 16677181699666568 1)).
Proof. vm_compute. reflexivity. Qed.
(** the square root of 5^23 becomes a number whose square is 4 * 5^22 *)
Theorem C75_root_refuted : exists x, lrun_d Xd (LMake (Rat 1 1) (Rat (5 ^ 23) 1) 2) = Ok x /\ (rv x * rv x)%R = IZR (4 * 5 ^ 22) /\ (ldenotes (LMake (Rat 1 1) (Rat (5 ^ 23) 1) 2) * ldenotes (LMake (Rat 1 1) (Rat (5 ^ 23) 1) 2))%R = IZR (5 ^ 23).
Proof.
  exists (Real 1 (Rat 2 1) (Rat 48828125 1)). split; [vm_compute; reflexivity|]. split.
  - unfold rv. cbn [idx rad coe]. replace (/ 1)%R with 1%R by field. rewrite Rpower_1 by (rewrite qv_R by discriminate; cbn [num den]; lra). rewrite !qv_R by discriminate. cbn [num den]. change (4 * 5 ^ 22) with (97656250 * 97656250). rewrite mult_IZR. lra.
  - cbn [ldenotes]. unfold rv. cbn [idx rad coe]. rewrite !qv_R by discriminate. cbn [num den]. replace (IZR 1 / IZR 1)%R with 1%R by field. rewrite !Rmult_1_l. apply half_power. reflexivity.
Qed.
Print Assumptions C75_root_refuted.
(** with k = 94906267, k is taken to be less than sqrt(4 k^2 - 1) / 2 *)
Theorem C75_order_refuted : let k := 94906267 in exists a b,
  lrun_d Xd (LMake (Rat k 1) (Rat 1 1) 1) = Ok a /\ lrun_d Xd (LMake (Rat 1 2) (Rat (4 * k * k - 1) 1) 2) = Ok b /\ real_lt_d Xd a b = Ok true /\ (rv b < rv a)%R.
Proof.
  cbv zeta. exists (Real 1 (Rat 1 1) (Rat 94906267 1)), (Real 2 (Rat (4 * 94906267 * 94906267 - 1) 1) (Rat 1 2)). split; [vm_compute; reflexivity|]. split; [vm_compute; reflexivity|]. split; [vm_compute; reflexivity|].
  unfold rv. cbn [idx rad coe]. rewrite !qv_R by discriminate. cbn [num den]. set (k := 94906267). change (4 * k * k - 1) with (2 * k * (2 * k) - 1).
  replace (Rpower (IZR 1 / IZR 1) (/ IZR 1))%R with 1%R; [|replace (IZR 1 / IZR 1)%R with 1%R by field; unfold Rpower; now rewrite ln_1, Rmult_0_r, exp_0].
  pose proof (half_power (2 * k * (2 * k) - 1) ltac:(reflexivity)) as Y. set (y := Rpower (IZR (2 * k * (2 * k) - 1) / 1) (/ 2)) in *.
  assert (P : (0 < y)%R) by apply exp_pos. rewrite minus_IZR, !mult_IZR in Y. assert (K : (0 < IZR k)%R) by (apply IZR_lt; reflexivity). assert (y < 2 * IZR k)%R; [|lra]. destruct (Rle_lt_dec (2 * IZR k) y) as [L|L]; [|exact L]. exfalso. clear - Y L K P. nra.
Qed.
Print Assumptions C75_order_refuted.
