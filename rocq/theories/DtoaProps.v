(** C46-C48: printing a double.  Vocabulary (DtoaSpec.v): a double is its bit pattern b; [dbl b] its value; [finite b]: non-negative and finite;
    [nearest x b]: b is the one double closest to x; [dval] the number a digit string denotes; [read_decimal] reads a decimal literal. *)
From Coq Require Import ZArith QArith Qabs Qpower String Ascii Lia Lqa Bool List.
From Verif Require Import Base DtoaTable DtoaModel DtoaSpec DtoaProofs1 DtoaProofs2 DtoaProofs3 DtoaProofs4 DtoaProofs5.
Import ListNotations.
Open Scope Z_scope.

Local Definition show (b : Z) : res string := t <- dtoa b ;; Ok (string_of_list_ascii t).
Local Definition shortest (b : Z) : res (string * Z) := '(r, K) <- grisu2 b ;; Ok (string_of_list_ascii r, K).

(** ** C46 the digits read back as the same double *)
(** grisu2 ends for every positive finite double; digits times 10^K lie strictly between the midpoints to the two neighbours; 1 to 17 digits, the
    first one not 0 *)
Theorem C46_interval b : finite b -> 0 < b -> exists r K, grisu2 b = Ok (r, K) /\
  ((dbl (b - 1) + dbl b) / 2 < IQ (dval r) * pow10 K)%Q /\ (IQ (dval r) * pow10 K < (dbl b + dbl (b + 1)) / 2)%Q /\
  Forall digit r /\ (1 <= length r <= 17)%nat /\ (forall c s, r = c :: s -> c <> "0"%char).
Proof.
  intros F P. destruct (dtoa_positive b F P) as (r & K & t & q & G & _ & _ & _ & _ & A & B & C & N & L & U). exists r, K. repeat (split; [assumption|]).
  split; [split; [destruct r; [congruence|cbn [length]; lia]|exact N]|]. intros c s -> ->. apply B. reflexivity.
Qed.
Print Assumptions C46_interval.
(** so the decimal is nearer to b than to any other double *)
Theorem C46_nearest b : finite b -> 0 < b -> exists r K, grisu2 b = Ok (r, K) /\ nearest (IQ (dval r) * pow10 K) b.
Proof. intros F P. destruct (dtoa_positive b F P) as (r & K & t & q & G & _ & _ & _ & N & _). eauto. Qed.
Print Assumptions C46_nearest.
(** the text of dtoa, for a double that is not an integer, or above 10^21 *)
Theorem C46_text b : finite b -> 0 < b -> (forall z, ~ (dbl b == IQ z)%Q) \/ (pow10 21 < dbl b)%Q -> exists t q, dtoa b = Ok t /\ read_decimal t = Some q /\ nearest q b.
Proof.
  intros F P H. destruct (dtoa_positive b F P) as (r & K & t & q & G & T & R & Q & N & A & B & C & _ & L & U). exists t, q. split; [exact T|]. split; [exact R|].
  assert (S : shown (Z.of_nat (length r)) K = K).
  { unfold shown. destruct H as [H|H].
    - pose proof (fraction_K b r K F P H L U). replace (Z.of_nat (length r) <=? Z.of_nat (length r) + K) with false by (symmetry; apply Z.leb_gt; lia). reflexivity.
    - assert (E21 : (dbl 0x444B1AE4D6E2EF50 == pow10 21)%Q) by (vm_compute; reflexivity). rewrite <- E21 in H. unfold finite in F.
      assert (LT : 0x444B1AE4D6E2EF50 < b). { destruct (Z_lt_ge_dec 0x444B1AE4D6E2EF50 b) as [X|X]; [exact X|]. pose proof (dbl_mono b 0x444B1AE4D6E2EF50 ltac:(lia) ltac:(lia)) as M. exfalso. apply (Qlt_irrefl (dbl b)). eapply Qle_lt_trans; [exact M|exact H]. }
      pose proof (dbl_mono 0x444B1AE4D6E2EF50 (b - 1) ltac:(lia) ltac:(lia)) as M. destruct (magnitude r K A B C) as [_ M2].
      assert (X : (pow10 21 < pow10 (Z.of_nat (length r) + K))%Q). { eapply Qle_lt_trans; [|eapply Qlt_trans; [exact L|exact M2]]. apply Qle_shift_div_l; [reflexivity|]. rewrite E21 in M, H. set (x := pow10 21) in *. clearbody x. lra. }
      apply pow10_lt_inv in X. replace (Z.of_nat (length r) + K <=? 21) with false by (symmetry; apply Z.leb_gt; lia). now rewrite andb_false_r. }
  rewrite S in Q. intros b' F' N'. rewrite Q. now apply N.
Qed.
Print Assumptions C46_text.
(** a negative double prints as its absolute value with a '-' *)
Local Lemma with_sign b m : 0 <= b < 2 ^ 63 -> Z.land (2 ^ 63 + b) m = Z.lor (Z.land (2 ^ 63) m) (Z.land b m).
Proof.
  intros H. assert (D : Z.land (2 ^ 63) b = 0).
  { apply Z.bits_inj'. intros n Hn. rewrite Z.land_spec, Z.bits_0, Z.pow2_bits_eqb by lia. destruct (Z.eqb_spec 63 n) as [<-|]; [|reflexivity]. cbn [andb]. destruct (Z.eq_dec b 0) as [->|]; [apply Z.bits_0|]. apply Z.bits_above_log2; [lia|apply Z.log2_lt_pow2; lia]. }
  rewrite (Z.add_nocarry_lxor _ _ D), (Z.lxor_lor _ _ D). apply Z.land_lor_distr_l.
Qed.
Local Lemma not_nan b : finite b -> Z.land b exponent_mask <> exponent_mask.
Proof.
  intros [F0 F1] EQ. assert (S : Z.shiftr (Z.land b exponent_mask) 52 = 2047) by (rewrite EQ; reflexivity). rewrite Z.shiftr_land in S. change (Z.shiftr exponent_mask 52) with (2 ^ 11 - 1) in S. rewrite land_ones, shr_div in S by lia.
  rewrite Z.mod_small in S by (split; [apply Z.div_pos; lia|apply Z.div_lt_upper_bound; lia]). pose proof (Z.mul_div_le b (2 ^ 52) ltac:(lia)). lia.
Qed.
Local Lemma signed_bits b : finite b -> 0 < b -> is_zero (2 ^ 63 + b) = false /\ fabs (2 ^ 63 + b) = b /\ is_negative (2 ^ 63 + b) = true.
Proof.
  intros F P. destruct (positive_bits b F P) as (Z1 & _ & Z3 & Z4). pose proof (not_nan b F) as NN. unfold finite in F. assert (R : 0 <= b < 2 ^ 63) by lia.
  assert (A : Z.land (2 ^ 63 + b) 0x7FFFFFFFFFFFFFFF = b) by (rewrite with_sign by assumption; change (Z.land (2 ^ 63) 0x7FFFFFFFFFFFFFFF) with 0; rewrite Z.lor_0_l; exact Z3).
  assert (B : is_zero (2 ^ 63 + b) = false) by (unfold is_zero; rewrite A; apply Z.eqb_neq; lia). split; [exact B|]. split; [exact A|]. unfold is_negative. rewrite B.
  assert (S : Z.land (2 ^ 63 + b) sign_mask = 2 ^ 63) by (rewrite with_sign, Z4, Z.lor_0_r by assumption; reflexivity). rewrite S.
  assert (N : is_nan (2 ^ 63 + b) = false) by (unfold is_nan; rewrite !with_sign by assumption; change (Z.land (2 ^ 63) exponent_mask) with 0; rewrite Z.lor_0_l; apply Z.eqb_neq in NN; rewrite NN; reflexivity). rewrite N. reflexivity.
Qed.
Local Lemma dtoa_nonzero v : is_zero v = false -> dtoa v = (x <- fill_double (fabs v) ;; Ok (if is_negative v then "-"%char :: x else x)).
Proof. intros H. unfold dtoa. rewrite H. reflexivity. Qed.
Theorem C46_negative b t : finite b -> 0 < b -> dtoa b = Ok t -> dtoa (2 ^ 63 + b) = Ok ("-"%char :: t).
Proof.
  intros F P H. destruct (positive_bits b F P) as (Z1 & Z2 & Z3 & _). destruct (signed_bits b F P) as (S1 & S2 & S3). rewrite (dtoa_nonzero _ Z1), Z2, Z3 in H. rewrite (dtoa_nonzero _ S1), S2, S3.
  destruct (fill_double b) as [x| | |]; [|discriminate..]. injection H as ->. reflexivity.
Qed.
Print Assumptions C46_negative.
(** infinities and NaNs are printed as if they were numbers: the pattern is read as a larger exponent.  The sign of a NaN is lost, that of an infinity is not *)
Theorem C46_sign_of_not_finite b t : 2047 * 2 ^ 52 <= b < 2 ^ 63 -> dtoa b = Ok t -> dtoa (2 ^ 63 + b) = Ok (if b =? 2047 * 2 ^ 52 then "-"%char :: t else t).
Proof.
  intros R H. assert (R' : 0 <= b < 2 ^ 63) by lia.
  assert (E : Z.land b 0x7FFFFFFFFFFFFFFF = b) by (change 0x7FFFFFFFFFFFFFFF with (2 ^ 63 - 1); rewrite land_ones by lia; apply Z.mod_small; lia).
  assert (S : Z.land b sign_mask = 0). { change sign_mask with (2 ^ 63). apply Z.bits_inj'. intros m Hm. rewrite Z.land_spec, Z.bits_0, Z.pow2_bits_eqb by lia. destruct (Z.eqb_spec 63 m) as [<-|]; [|apply andb_false_r]. rewrite andb_true_r. apply Z.bits_above_log2; [lia|apply Z.log2_lt_pow2; lia]. }
  assert (A : Z.land (2 ^ 63 + b) 0x7FFFFFFFFFFFFFFF = b) by (rewrite with_sign by assumption; change (Z.land (2 ^ 63) 0x7FFFFFFFFFFFFFFF) with 0; rewrite Z.lor_0_l; exact E).
  assert (S' : Z.land (2 ^ 63 + b) sign_mask = 2 ^ 63) by (rewrite with_sign, S, Z.lor_0_r by assumption; reflexivity).
  set (c := b - 2047 * 2 ^ 52). assert (C : 0 <= c < 2 ^ 52) by (unfold c; lia). assert (B : b = Z.lor exponent_mask c).
  { replace b with (exponent_mask + c) by (unfold c; change exponent_mask with (2047 * 2 ^ 52); ring). assert (D : Z.land exponent_mask c = 0).
    { change exponent_mask with (Z.shiftl 2047 52). apply Z.bits_inj'. intros n Hn. rewrite Z.land_spec, Z.bits_0. destruct (Z_lt_ge_dec n 52); [rewrite Z.shiftl_spec_low by lia; reflexivity|]. replace (Z.testbit c n) with false; [apply andb_false_r|]. symmetry. destruct (Z.eq_dec c 0) as [->|]; [apply Z.bits_0|]. apply Z.bits_above_log2; [lia|]. apply Z.lt_le_trans with 52; [apply Z.log2_lt_pow2; lia|lia]. }
    rewrite (Z.add_nocarry_lxor _ _ D). apply Z.lxor_lor. exact D. }
  assert (M : Z.land b exponent_mask = exponent_mask).
  { rewrite B. apply Z.bits_inj'. intros n Hn. rewrite Z.land_spec, Z.lor_spec. destruct (Z.testbit exponent_mask n); [reflexivity|apply andb_false_r]. }
  assert (T : Z.land b significand_mask = c).
  { rewrite B, Z.land_lor_distr_l. change (Z.land exponent_mask significand_mask) with 0. rewrite Z.lor_0_l. change significand_mask with (2 ^ 52 - 1). rewrite land_ones by lia. apply Z.mod_small. lia. }
  assert (Z1 : is_zero b = false) by (unfold is_zero; rewrite E; apply Z.eqb_neq; lia). assert (Z2 : is_zero (2 ^ 63 + b) = false) by (unfold is_zero; rewrite A; apply Z.eqb_neq; lia).
  rewrite (dtoa_nonzero _ Z1) in H. rewrite (dtoa_nonzero _ Z2). unfold fabs in *. rewrite E in H. rewrite A. destruct (fill_double b) as [x| | |]; [|discriminate..]. cbn [bind] in *. unfold is_negative in *. rewrite S in H. change (0 =? 0) with true in H. cbn [negb andb] in H. injection H as ->. rewrite S', Z2.
  change (2 ^ 63 =? 0) with false. cbn [negb andb]. unfold is_nan. rewrite !with_sign, M, T by assumption. change (Z.land (2 ^ 63) exponent_mask) with 0. change (Z.land (2 ^ 63) significand_mask) with 0. rewrite !Z.lor_0_l, Z.eqb_refl. cbn [andb]. rewrite negb_involutive. unfold c.
  destruct (Z.eqb_spec (b - 2047 * 2 ^ 52) 0), (Z.eqb_spec b (2047 * 2 ^ 52)); try lia; reflexivity.
Qed.
Print Assumptions C46_sign_of_not_finite.
Theorem C46_not_finite_refuted : dtoa (2047 * 2 ^ 52) = Ok (list_ascii_of_string "1.797693134862316e308") /\ dtoa (2 ^ 63 + 2047 * 2 ^ 52) = Ok (list_ascii_of_string "-1.797693134862316e308") /\ dtoa (2047 * 2 ^ 52 + 2 ^ 51) = Ok (list_ascii_of_string "2.696539702293474e308").
Proof. split; [vm_compute; reflexivity|]. split; vm_compute; reflexivity. Qed.
Print Assumptions C46_not_finite_refuted.
(** two doubles with the same text of the kind covered above are equal *)
Theorem C46_injective b b' t : finite b -> finite b' -> 0 < b -> 0 < b' -> (forall z, ~ (dbl b == IQ z)%Q) -> (forall z, ~ (dbl b' == IQ z)%Q) -> dtoa b = Ok t -> dtoa b' = Ok t -> b = b'.
Proof.
  intros F F' P P' N N' E E'. destruct (C46_text b F P (or_introl N)) as (t1 & q & E1 & R & H). destruct (C46_text b' F' P' (or_introl N')) as (t2 & q' & E2 & R' & H').
  rewrite E in E1. injection E1 as <-. rewrite E' in E2. injection E2 as <-. rewrite R in R'. injection R' as <-. destruct (Z.eq_dec b b') as [|D]; [assumption|exfalso].
  specialize (H b' F' ltac:(congruence)). specialize (H' b F D). apply (Qlt_irrefl (Qabs (q - dbl b))). eapply Qlt_trans; [exact H|exact H'].
Qed.
Print Assumptions C46_injective.
Example C46_example_hypotheses : finite 0x3fb999999999999a /\ (forall z, ~ (dbl 0x3fb999999999999a == IQ z)%Q) /\ (pow10 21 < dbl 0x44b52d02c7e14af6)%Q.
Proof.
  split; [unfold finite; lia|]. split; [|vm_compute; reflexivity]. intros z H. assert (A : (IQ 0 < IQ z)%Q) by (rewrite <- H; vm_compute; reflexivity). assert (B : (IQ z < IQ 1)%Q) by (rewrite <- H; vm_compute; reflexivity).
  apply (proj2 (IQ_lt _ _)) in A, B. lia.
Qed.
Example C46_example_text : show 0x3fb999999999999a = Ok "0.1"%string /\ show 1 = Ok "5e-324"%string /\ show 0x7fefffffffffffff = Ok "1.7976931348623157e308"%string /\ show 0xc00921fb54442d18 = Ok "-3.141592653589793"%string.
Proof. vm_compute. repeat split. Qed.
(** not always the shortest: 17 digits for a double that 4160034236757514e29 denotes as well *)
Theorem C46_shortest_refuted : shortest 0x4932a77c2fa67955 = Ok ("41600342367575136"%string, 28) /\ nearest (IQ 4160034236757514 * pow10 29) 0x4932a77c2fa67955.
Proof. split; [vm_compute; reflexivity|]. apply nearest_between; [unfold finite; lia|lia|vm_compute; reflexivity|vm_compute; reflexivity]. Qed.
Print Assumptions C46_shortest_refuted.
(** infinity and NaN are printed as numbers *)
Theorem C46_infinity_refuted : show 0x7ff0000000000000 = Ok "1.797693134862316e308"%string /\ show 0x7ff8000000000000 = Ok "2.696539702293474e308"%string.
Proof. vm_compute. split; reflexivity. Qed.
Print Assumptions C46_infinity_refuted.

(** ** C47 the layout *)
(** digits r and exponent k are laid out as a literal of value r * 10^k, except for ... *)
Theorem C47_layout r k : Forall digit r -> r <> [] -> -999 <= Z.of_nat (length r) + k - 1 <= 999 -> k < 0 \/ 21 < Z.of_nat (length r) + k \/ length r = 1%nat ->
  exists t q, prettify_string r k = Ok t /\ read_decimal t = Some q /\ (q == IQ (dval r) * pow10 k)%Q.
Proof.
  intros A B H C. destruct (prettify_ok r k A B H) as (t & q & T & R & Q). exists t, q. split; [exact T|]. split; [exact R|]. assert (S : shown (Z.of_nat (length r)) k = k); [|rewrite S in Q; exact Q].
  unfold shown. destruct ((_ <=? _) && _)%bool eqn:E; [|reflexivity]. apply andb_true_iff in E as [E1 E2]. apply Z.leb_le in E1, E2. lia.
Qed.
Print Assumptions C47_layout.
(** ... integers below 10^21 with n > 1 digits, which come out 10^(n-1) times too large *)
Theorem C47_integers r k : Forall digit r -> r <> [] -> 0 <= k -> Z.of_nat (length r) + k <= 21 ->
  exists t q, prettify_string r k = Ok t /\ read_decimal t = Some q /\ (q == IQ (dval r) * pow10 k * pow10 (Z.of_nat (length r) - 1))%Q.
Proof.
  intros A B H C. assert (1 <= Z.of_nat (length r)) by (destruct r; [congruence|cbn [length]; lia]). destruct (prettify_ok r k A B ltac:(lia)) as (t & q & T & R & Q). exists t, q. split; [exact T|]. split; [exact R|]. rewrite Q.
  unfold shown. replace (Z.of_nat (length r) <=? Z.of_nat (length r) + k) with true by (symmetry; apply Z.leb_le; lia). replace (Z.of_nat (length r) + k <=? 21) with true by (symmetry; apply Z.leb_le; lia). cbn [andb].
  replace (Z.of_nat (length r) + k - 1) with (k + (Z.of_nat (length r) - 1)) by ring. rewrite pow10_add. ring.
Qed.
Print Assumptions C47_integers.
(** the part of the text behind 'e' *)
Theorem C47_exponent K : -999 <= K <= 999 -> read_exponent (Some (fill_exponent K [])) = Some K.
Proof. intros H. rewrite fill_exponent_text. now apply read_exp_text. Qed.
Print Assumptions C47_exponent.
Theorem C47_integer_refuted : show 0x4028000000000000 = Ok "120.0"%string /\ (dbl 0x4028000000000000 == 12)%Q.
Proof. vm_compute. split; reflexivity. Qed.
Print Assumptions C47_integer_refuted.
(** four digit exponents come out as other characters; the printer never needs them *)
Theorem C47_exponent_refuted : fill_exponent 1000 [] = list_ascii_of_string ":00". Proof. vm_compute. reflexivity. Qed.
Print Assumptions C47_exponent_refuted.
Example C47_example : (t <- prettify_string (list_ascii_of_string "12345") (-7) ;; Ok (string_of_list_ascii t)) = Ok "0.0012345"%string /\ Forall digit (list_ascii_of_string "12345").
Proof. split; [vm_compute; reflexivity|]. repeat constructor; unfold digit, code; cbn; lia. Qed.

(** ** C48 the table of powers *)
Theorem C48_table k : -343 <= k <= 343 -> exists f e, cached_power k = Ok (Diy f e) /\ 2 ^ 63 <= f < 2 ^ 64 /\ (Qabs (IQ f * pow2 e - pow10 k) <= (1 # 2) * pow2 e)%Q.
Proof. exact (table_ok k). Qed.
Print Assumptions C48_table.
Theorem C48_outside k : k < -343 \/ 343 < k -> is_ub (cached_power k) = true.
Proof.
  intros H. unfold cached_power. destruct (Z.ltb_spec (343 + k) 0); [reflexivity|]. destruct (nth_error powers_ten (Z.to_nat (343 + k))) eqn:E; [|reflexivity].
  assert (L : (Z.to_nat (343 + k) < 687)%nat) by (change 687%nat with (length powers_ten); apply nth_error_Some; congruence). lia.
Qed.
Print Assumptions C48_outside.
(** the entry chosen (in double arithmetic) exists and brings the product's exponent into -59..-56, for every exponent of a normalised boundary *)
Theorem C48_choice e : -1137 <= e <= 960 -> exists f c, cached_power (k_comp (e + 64) (-59)) = Ok (Diy f c) /\ -59 <= e + c + 64 <= -56.
Proof. intros H. destruct (kcomp_ok e H) as [R S]. destruct (table_ok _ R) as (f & c & E & _). exists f, c. split; [exact E|]. exact (S _ E). Qed.
Print Assumptions C48_choice.
(** the product of two DiyFps is the exact product rounded to nearest *)
Theorem C48_product x y : 0 <= df x < 2 ^ 64 -> 0 <= df y < 2 ^ 64 -> df (diy_mul x y) = (df x * df y + 2 ^ 63) / 2 ^ 64 /\ de (diy_mul x y) = de x + de y + 64.
Proof. exact (diy_mul_ok x y). Qed.
Print Assumptions C48_product.
Example C48_example : cached_power 0 = Ok (Diy (2 ^ 63) (-63)) /\ cached_power 2 = Ok (Diy (100 * 2 ^ 57) (-57)) /\ k_comp (-52 + 64) (-59) = -2.
Proof. vm_compute. repeat split. Qed.
(** the constant of k_comp is the double nearest to its literal *)
Example C48_example_constant : (Qabs (IQ 0x134413509f79fe * pow2 (-54) - (30102999566398114 # 100000000000000000)) < pow2 (-55))%Q. Proof. vm_compute. reflexivity. Qed.
