(** Proofs: fractional powers of negative numbers. *)
From Coq Require Import ZArith Znumtheory QArith Qreals Reals String Ascii Lia Lra Bool List.
From Verif Require Import Base AdapterModel AdapterProofs FactorizeModel FactorizeProofs2 FactorizeProps RationalModel RationalSpec RationalProofs RationalProofs2 RealModel RealSpec RealProofs1 RealProofs3 RealProofs4 RealProofs5.
Import ListNotations. Open Scope Z_scope.

(** ** only positive numbers are factorised *)
Lemma factorize_pos w i128 rnd fuel n ret k l : factorize w i128 rnd fuel n ret k = Ok l -> 1 <= n.
Proof.
  intros H. destruct (Z_le_gt_dec n 0) as [N|]; [exfalso|lia]. destruct fuel as [|[|fuel]]; [discriminate| |].
  - cbn [factorize] in H. destruct (Z.eqb_spec n 1); [lia|]. unfold pollard_rho in H. destruct (Z.eqb_spec n 4); [lia|]. unfold is_prime in H. destruct (Z.ltb_spec n 100000); [|lia]. cbn [bind] in H.
    unfold is_prime_slow_path in H. destruct (Z.ltb_spec n 2); [|lia]. discriminate.
  - destruct (C20_non_positive_refuted w i128 rnd fuel n ret k N) as [u E]. rewrite E in H. discriminate.
Qed.
Lemma decompose_pos E n m : fac_sound E -> decompose E n = Ok m -> 1 <= n.
Proof.
  intros FS H. unfold decompose in H. destruct (n <=? 2 ^ (ew E - 2)); [|discriminate]. apply bind_ok in H as (l & Hl & _). apply FS in Hl as (i & r & f & k & k' & F). now apply factorize_pos in F.
Qed.
Lemma pow_rat_inv w b e p : pow_rat w b e = Ok p -> p = Rat (b ^ e) 1.
Proof.
  unfold pow_rat, dpow. intros H. destruct (_ && _)%bool; [|discriminate]. cbn [bind] in H. apply bind_ok in H as (n & Hn & H). apply chk_inv in Hn as [-> _]. now apply of_int_inv in H.
Qed.
(** a radicand that is normalised: its numerator is positive, or, when it is no integer, it is after the denominator has been taken out of the root *)
Lemma normalize_needs_positive E x r : fac_sound E -> real_normalize E x = Ok r -> if is_int (rad x) then 0 < num (rad x) else 0 < num (rad x) * den (rad x) ^ idx x.
Proof.
  intros FS H. unfold real_normalize in H. cbv zeta in H. apply bind_ok in H as ([c rd] & H1 & H). apply bind_ok in H as (m & Hm & _). apply decompose_pos in Hm; [|assumption].
  destruct (is_int (rad x)); [injection H1 as <- <-; lia|]. apply bind_ok in H1 as (d & _ & H1). apply bind_ok in H1 as (c1 & _ & H1). apply bind_ok in H1 as (p & Hp & H1). apply bind_ok in H1 as (q & Hq & H1). injection H1 as <- <-.
  apply pow_rat_inv in Hp as ->. apply rat_mul_inv in Hq as (g1 & g2 & G1 & G2 & E1 & E2 & N & _). cbn [num] in N. pose proof (Z.gcd_nonneg (num (rad x)) (den (Rat (den (rad x) ^ idx x) 1))). pose proof (Z.gcd_nonneg (num (Rat (den (rad x) ^ idx x) 1)) (den (rad x))). nia.
Qed.

(** ** powers of a fraction *)
Lemma rpow_even w c d e : Z.even e = true -> rpow w (Rat (- c) d) (Rat e 1) = rpow w (Rat c d) (Rat e 1) /\ rpow w (Rat c (- d)) (Rat e 1) = rpow w (Rat c d) (Rat e 1).
Proof.
  intros V. assert (P : forall x, pow_cast w (- x) e 1 = pow_cast w x e 1).
  { intros x. unfold pow_cast. cbn [Z.eqb]. rewrite Z.div_1_r. unfold dpow, fits53. rewrite Z.abs_opp. apply Z.even_spec in V. now rewrite Z.pow_opp_even. }
  assert (N : e * 1 =? 1 * 1 = false). { apply Z.eqb_neq. intros E1. replace e with 1 in V by lia. discriminate. }
  unfold rpow, rat_pow. cbn [num den]. rewrite !P. unfold rat_eq. cbn [num den]. unfold chk. destruct (in_range w (e * 1)); [|split; reflexivity]. cbn [bind].
  destruct (in_range w (0 * 1)); [|split; reflexivity]. cbn [bind]. destruct (e * 1 =? 0 * 1); [split; reflexivity|]. destruct (in_range w (1 * 1)); [|split; reflexivity]. cbn [bind]. rewrite N. split; reflexivity.
Qed.
(** an odd power keeps the sign, which then is in the numerator or in the denominator *)
Lemma rpow_odd_sign w r e p : den r <> 0 -> num r * den r < 0 -> Z.odd e = true -> rpow w r (Rat e 1) = Ok p -> num p * den p < 0 /\ (0 < den r -> 0 < den p).
Proof.
  intros D S O H. apply rpow_inv in H as (P & Dp & Q & K & _); [|assumption]. split; [|exact K].
  assert (X : num r ^ e * den r ^ e < 0).
  { rewrite <- Z.pow_mul_l. apply Z.odd_spec in O as [k ->]. assert (0 <= k) by lia. rewrite Z.pow_add_r, Z.pow_1_r, Z.pow_mul_r by lia. assert (0 < ((num r * den r) ^ 2) ^ k) by (apply Z.pow_pos_nonneg; [nia|lia]). nia. }
  assert (den r ^ e <> 0) by (apply Z.pow_nonzero; lia). assert (0 < den p * den p) by nia. assert (num p * den p * (den r ^ e * den r ^ e) = num r ^ e * den r ^ e * (den p * den p)) by (transitivity ((num p * den r ^ e) * den p * den r ^ e); [ring|rewrite Q; ring]). nia.
Qed.
Lemma pow_pos_odd E a p x : 1 < ew E -> fac_sound E -> den (coe a) <> 0 -> num (coe a) * den (coe a) < 0 -> 1 < den p < 2 ^ ew E -> Z.odd (num p) = true -> real_pow_pos E a p = Ok x ->
  den (coe a) < 0 /\ Z.even (den p) = true.
Proof.
  intros W FS D S K O H. unfold real_pow_pos in H. assert (I : is_int p = false) by (unfold is_int; apply Z.eqb_neq; lia). rewrite I in H. apply bind_ok in H as (n & Hn & H). apply of_int_inv in Hn as ->.
  apply bind_ok in H as (r & _ & H). cbv zeta in H. apply bind_ok in H as (cb & Hcb & H). apply bind_ok in H as (b & Hb & _). apply rpow_odd_sign in Hcb as [Sc Pc]; try assumption.
  unfold real_make in Hb. apply normalize_needs_positive in Hb; [|assumption]. cbn [rad idx] in Hb. unfold uwrap in Hb. rewrite Z.mod_small in Hb by lia.
  destruct (is_int cb) eqn:Ic; [unfold is_int in Ic; apply Z.eqb_eq in Ic; rewrite Ic in Sc; lia|].
  destruct (Z_lt_le_dec 0 (den cb)) as [L|L]; [exfalso; assert (0 < den cb ^ den p) by (apply Z.pow_pos_nonneg; lia); nia|].
  assert (den cb <> 0) by (intros X; rewrite X, Z.mul_0_r in Sc; lia). assert (den cb < 0) by lia. assert (0 < num cb) by nia. split; [destruct (Z_lt_le_dec 0 (den (coe a))) as [X|X]; [specialize (Pc X); lia|lia]|].
  destruct (Z.even (den p)) eqn:V; [reflexivity|exfalso]. rewrite <- Z.negb_odd in V. apply negb_false_iff in V. apply Z.odd_spec in V as [k Ek]. assert (0 <= k) by lia.
  assert (den cb ^ den p < 0) by (rewrite Ek, Z.pow_add_r, Z.pow_1_r, Z.pow_mul_r by lia; assert (0 < (den cb ^ 2) ^ k) by (apply Z.pow_pos_nonneg; nia); nia). nia.
Qed.
Lemma pow_pos_even E a a' p : num p <> 0 -> Z.even (num p) = true -> is_int p = false -> idx a' = idx a -> rad a' = rad a -> num (coe a') = - num (coe a) /\ den (coe a') = den (coe a) \/ num (coe a') = num (coe a) /\ den (coe a') = - den (coe a) ->
  real_pow_pos E a' p = real_pow_pos E a p.
Proof.
  intros N V I E1 E2 E3. unfold real_pow_pos. rewrite I, E1, E2. unfold rat_of_int. destruct (rat_normalize (ew E) (Rat (num p) 1)) as [n|m|m|] eqn:Hn; try reflexivity. cbn [bind]. apply (of_int_inv (ew E) (num p)) in Hn as ->.
  destruct (rpow (ew E) (rad a) (Rat (num p) 1)); try reflexivity. cbn [bind]. cbv zeta.
  assert (R : rpow (ew E) (coe a') (Rat (num p) 1) = rpow (ew E) (coe a) (Rat (num p) 1)).
  { destruct (coe a) as [c d], (coe a') as [c' d']. cbn [num den] in E3. destruct E3 as [[-> ->]|[-> ->]]; apply rpow_even; assumption. }
  now rewrite R.
Qed.
(** ** the exponent *)
Lemma negate_lowest w p np : 0 < den p -> lowest_terms p -> rat_negate w p = Ok np -> np = Rat (- num p) (den p).
Proof.
  intros D L H. pose proof H as H2. apply negate_den in H2 as [[P1 P2] Pe]; [|assumption]. unfold rat_negate in H. apply bind_ok in H as (n & _ & H). apply rat_make_lowest in H.
  destruct np as [n' d']. cbn [num den] in *. assert (X : (den p | d')). { apply Z.gauss with (num p); [exists (- n'); lia|]. rewrite Z.gcd_comm. exact L. }
  assert (d' = den p) by (apply Z.divide_pos_le in X; lia). subst d'. f_equal. nia.
Qed.
Lemma inverse_coe w a x : den (coe a) <> 0 -> real_inverse w a = Ok x -> idx x = idx a /\ num (coe x) * num (coe a) = den (coe a) * den (coe x) /\ den (coe x) <> 0 /\ num (coe a) <> 0 /\ (num (coe a) = -1 -> den (coe x) = 1).
Proof.
  intros D H. unfold real_inverse in H. apply bind_ok in H as (c & Hc & H). apply bind_ok in H as (r & _ & H). injection H as <-. cbn [coe idx]. split; [reflexivity|].
  unfold rat_inverse in Hc. pose proof Hc as H2. apply rat_make_inv in Hc as [N Hc]. pose proof Hc as H3. apply rat_normalize_val in Hc as [Dc Hc]; [|exact N]. cbn [num den] in Hc. split; [lia|]. split; [assumption|]. split; [exact N|].
  intros E1. unfold rat_normalize in H3. cbn [num den] in H3. rewrite E1 in H3. apply bind_ok in H3 as (u & Hu & H3). apply chk_inv in Hu as [-> _]. apply bind_ok in H3 as (v & Hv & H3). apply chk_inv in Hv as [-> _].
  apply bind_ok in H3 as (g & Hg & H3). apply adapter_gcd_inv in Hg. change (Z.abs (-1)) with 1 in Hg. rewrite Z.gcd_1_r in Hg. subst g. apply bind_ok in H3 as (q & Hq & H3). apply bind_ok in H3 as (d & Hd & H3).
  apply quot_w_inv in Hd as (_ & -> & _). change (Z.quot (-1) 1) with (-1) in H3. change (-1 =? -1) with true in H3. cbv iota in H3. apply bind_ok in H3 as (n' & _ & H3). now injection H3 as <-.
Qed.
(** ** the number taken positive *)
Definition with_coe (a : real) (n d : Z) : real := Real (idx a) (rad a) (Rat n d).
Lemma rv_with_coe a n d : d <> 0 -> den (coe a) <> 0 -> n * den (coe a) = - num (coe a) * d -> rv (with_coe a n d) = (- rv a)%R.
Proof.
  intros D C H. rewrite !rv_root. cbn [with_coe coe rad idx]. rewrite (qv_R (Rat n d)) by (cbn; lia). rewrite (qv_R (coe a)) by assumption. cbn [num den].
  assert (X : (IZR n / IZR d = - (IZR (num (coe a)) / IZR (den (coe a))))%R).
  { apply (f_equal IZR) in H. rewrite !mult_IZR, opp_IZR in H. apply Rmult_eq_reg_r with (IZR d * IZR (den (coe a)))%R; [|apply Rmult_integral_contrapositive_currified; apply IZR_nz; lia].
    transitivity (IZR n * IZR (den (coe a)))%R; [field|rewrite H; field]; repeat split; apply IZR_nz; lia. }
  rewrite X. ring.
Qed.
(** the steps of pow before the power with a positive exponent *)
Lemma pow_unfold E a p x : 0 < den p -> 1 < den p -> num p <> 0 -> lowest_terms p -> real_pow E a p = Ok x ->
  (0 < num p /\ real_pow_pos E a p = Ok x) \/
  (num p < 0 /\ exists ia, real_inverse (ew E) a = Ok ia /\ real_pow_pos E ia (Rat (- num p) (den p)) = Ok x).
Proof.
  intros D D1 N L H.
  assert (step : forall f a p x, 1 < den p -> num p <> 0 -> Z.gcd (num p) (den p) = 1 -> real_pow_fuel (S f) E a p = Ok x ->
    (0 < num p /\ real_pow_pos E a p = Ok x) \/ (num p < 0 /\ exists ia np, real_inverse (ew E) a = Ok ia /\ rat_negate (ew E) p = Ok np /\ real_pow_fuel f E ia np = Ok x)).
  { clear. intros f a p x D N L H. cbn [real_pow_fuel] in H.
    apply bind_ok in H as (z & Hz & H). apply rat_eq_inv in Hz. cbn [num den] in Hz. rewrite Z.mul_1_r, Z.mul_0_l in Hz. destruct z; [symmetry in Hz; apply Z.eqb_eq in Hz; lia|].
    apply bind_ok in H as (o & Ho & H). apply rat_eq_inv in Ho. cbn [num den] in Ho. rewrite Z.mul_1_r, Z.mul_1_l in Ho. destruct o.
    { symmetry in Ho. apply Z.eqb_eq in Ho. rewrite Ho, Z.gcd_diag in L. lia. }
    apply bind_ok in H as (n & Hn & H). apply rat_lt0 in Hn; [|lia]. destruct n; symmetry in Hn; [apply Z.ltb_lt in Hn|apply Z.ltb_ge in Hn].
    - right. split; [assumption|]. apply bind_ok in H as (ia & Hi & H). apply bind_ok in H as (np & Hp & H). now exists ia, np.
    - left. split; [lia|assumption]. }
  apply step in H; try assumption. destruct H as [H|(Np & ia & np & Hi & Hp & H)]; [now left|right]. split; [assumption|]. exists ia. split; [assumption|].
  apply negate_lowest in Hp; try assumption. subst np. apply step in H; cbn [num den]; try assumption; try lia; [|rewrite Z.gcd_opp_l; exact L].
  destruct H as [[_ H]|[X _]]; [assumption|cbn [num] in X; lia].
Qed.
Lemma neg_pow_even E a p x : 1 < ew E -> fac_sound E -> fac_exact E -> good (ew E) a -> num (coe a) < 0 -> 0 < den (coe a) -> 1 < den p -> lowest_terms p -> Z.even (num p) = true ->
  idx a * den p < 2 ^ ew E -> real_pow E a p = Ok x -> good (ew E) x /\ canonical x /\ rv x = Rpower (- rv a) (Q2R (qv p)).
Proof.
  intros W FS FE [Wa Ga] Na Da Dp L V B H. pose proof Wa as (Ia & Nr & Dr & Dc).
  assert (N0 : num p <> 0). { intros X. unfold lowest_terms in L. rewrite X in L. cbn in L. lia. }
  assert (I : forall n, is_int (Rat n (den p)) = false) by (intros n; unfold is_int; apply Z.eqb_neq; cbn; lia).
  apply pow_unfold in H; try lia; try assumption. destruct H as [[Np H]|(Np & ia & Hi & H)].
  - set (a' := with_coe a (- num (coe a)) (den (coe a))).
    assert (H' : real_pow_pos E a' p = Ok x). { rewrite <- H. destruct p as [np dp]. apply pow_pos_even; try assumption; try reflexivity; [apply I|]. left. split; reflexivity. }
    apply pow_pos_frac in H' as (G & C & V'); try assumption; cbn [a' with_coe coe num den idx rad]; try lia.
    split; [assumption|]. split; [assumption|]. rewrite V'. unfold a'. rewrite rv_with_coe; [reflexivity|lia|lia|ring].
  - pose proof Hi as Hi2. apply inverse_coe in Hi2 as (Ei & Ec & Ed & _ & _); [|assumption]. pose proof Hi as Hv. apply real_inverse_value in Hv as (Gi & _ & Vi); [|split; assumption].
    assert (S : (num (coe ia) < 0 /\ 0 < den (coe ia)) \/ (0 < num (coe ia) /\ den (coe ia) < 0)).
    { assert (num (coe ia) <> 0) by (intros X; rewrite X, Z.mul_0_l in Ec; nia). nia. }
    destruct Gi as [Wi Gi]. pose proof Wi as (Ii & Nri & Dri & Dci).
    assert (K : exists n d, 0 < n /\ 0 < d /\ rv (with_coe ia n d) = (- rv ia)%R /\ real_pow_pos E (with_coe ia n d) (Rat (- num p) (den p)) = Ok x).
    { destruct S as [[S1 S2]|[S1 S2]].
      - exists (- num (coe ia)), (den (coe ia)). split; [lia|]. split; [lia|]. split; [apply rv_with_coe; try lia; ring|]. rewrite <- H. apply pow_pos_even; try reflexivity; cbn [num]; [lia|now rewrite Z.even_opp|apply I|left; split; reflexivity].
      - exists (num (coe ia)), (- den (coe ia)). split; [lia|]. split; [lia|]. split; [apply rv_with_coe; try lia; ring|]. rewrite <- H. apply pow_pos_even; try reflexivity; cbn [num]; [lia|now rewrite Z.even_opp|apply I|right; split; reflexivity]. }
    destruct K as (n & d & Hn & Hd & Vn & H'). apply pow_pos_frac in H' as (G & C & V'); try assumption; cbn [with_coe coe num den idx rad]; try lia.
    + split; [assumption|]. split; [assumption|]. rewrite V', Vn, Vi. pose proof (rv_with_coe a (- num (coe a)) (den (coe a)) ltac:(lia) ltac:(lia) ltac:(ring)) as RV.
      assert (P : (0 < - rv a)%R). { rewrite <- RV. apply (rv_positive (ew E)); cbn [with_coe coe num den]; try lia. split; cbn [with_coe coe num den idx rad]; auto. }
      replace (- / rv a)%R with (/ - rv a)%R by (field; lra). unfold Rpower. rewrite ln_Rinv by assumption. f_equal. rewrite !qv_R by (cbn; lia). cbn [num den]. rewrite opp_IZR. field. apply IZR_nz. lia.
    + split; cbn [with_coe coe num den idx rad]; repeat split; try assumption; lia.
Qed.
Lemma neg_pow_odd E a p x : 1 < ew E -> fac_sound E -> num (coe a) < 0 -> 0 < den (coe a) -> 1 < den p < 2 ^ ew E -> lowest_terms p -> Z.odd (num p) = true -> real_pow E a p = Ok x ->
  num p < 0 /\ Z.even (den p) = true /\ num (coe a) <> -1.
Proof.
  intros W FS Na Da Dp L O H. assert (N0 : num p <> 0) by (intros X; rewrite X in O; discriminate).
  apply pow_unfold in H; try lia; try assumption. destruct H as [[Np H]|(Np & ia & Hi & H)].
  - apply pow_pos_odd in H; try assumption; try lia; try nia.
  - split; [assumption|]. apply inverse_coe in Hi as (_ & Ec & Ed & _ & E1); [|lia]. apply pow_pos_odd in H; try assumption; cbn [num den]; try lia.
    + destruct H as [H1 H2]. split; [exact H2|]. intros X. specialize (E1 X). lia.
    + assert (num (coe ia) <> 0) by (intros X; rewrite X, Z.mul_0_l in Ec; nia). nia.
    + cbn [num]. now rewrite Z.odd_opp.
Qed.
