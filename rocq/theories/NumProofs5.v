(** Lemmas: the accuracy of Real::to<U>. *)
From Coq Require Import ZArith QArith Qabs Qround Qreals Reals Lia Lqa Lra Bool List.
From Verif Require Import Base RationalModel RationalSpec RealModel RealSpec DecModel DecSpec DecProofs1 DecProofs2 DecProofs3 DecProofs6 NumModel NumSpec NumProofs1 NumProofs2 NumProofs3 NumProofs4.
Import ListNotations.
Open Scope R_scope.

Lemma Rpower_ge_base c y : 0 < c <= 1 -> 0 <= y <= 1 -> c <= Rpower c y.
Proof.
  intros Hc Hy. assert (ln c <= 0). { destruct (Req_dec c 1) as [->|N]; [rewrite ln_1; lra|]. rewrite <- ln_1. left. apply ln_increasing; lra. }
  rewrite <- (exp_ln c) at 1 by lra. unfold Rpower. assert (ln c <= y * ln c) by nra. destruct (Req_dec (ln c) (y * ln c)) as [E|E]; [rewrite <- E; lra|left; apply exp_increasing; lra].
Qed.
Lemma Rpower_pos x y : 0 < Rpower x y. Proof. apply exp_pos. Qed.
Lemma within_Rpower u k x r y : 0 <= u < 1 -> 0 < r -> 0 <= y <= 1 -> within u k x r -> within u k (Rpower x y) (Rpower r y).
Proof.
  intros Hu Hr Hy W. assert (Hx := within_pos u Hu k x r Hr W). destruct W as [A B].
  assert (C := base_pos u Hu k). assert (C1 := base_le1 u Hu k). assert (D := Rpower_ge_base _ y (conj C C1) Hy).
  split.
  - apply Rle_trans with (Rpower (r * (1 - u) ^ k) y); [|apply Rle_Rpower_l; [lra|split; [nra|exact A]]].
    rewrite <- Rpower_mult_distr by lra. apply Rmult_le_compat_l; [left; apply Rpower_pos|exact D].
  - apply Rle_trans with (Rpower (x * (1 - u) ^ k) y); [|apply Rle_Rpower_l; [lra|split; [nra|exact B]]].
    rewrite <- Rpower_mult_distr by lra. apply Rmult_le_compat_l; [left; apply Rpower_pos|exact D].
Qed.
Lemma pow_le_exp u j : 0 <= u < 1 -> (1 - u) ^ j <= exp (- (INR j * u)).
Proof.
  intros Hu. induction j as [|j IH]; [rewrite pow_O; cbn [INR]; rewrite Rmult_0_l, Ropp_0, exp_0; lra|].
  rewrite S_INR. replace (- ((INR j + 1) * u)) with (- u + - (INR j * u)) by ring. rewrite exp_plus. cbn [pow].
  pose proof (exp_ineq1_le (- u)). apply Rmult_le_compat; [lra|apply pow_le; lra|lra|exact IH].
Qed.
Lemma exp_le a b : a <= b -> exp a <= exp b.
Proof. intros H. destruct (Req_dec a b) as [->|N]; [lra|left; apply exp_increasing; lra]. Qed.
Lemma within_exponent u j r y z : 0 <= u < 1 -> 0 < r -> Rabs (ln r) <= INR j -> Rabs (y - z) <= u -> within u j (Rpower r y) (Rpower r z).
Proof.
  intros Hu Hr L D. assert (K : forall a b, Rabs (a - b) <= u -> Rpower r b * (1 - u) ^ j <= Rpower r a).
  { intros a b Hab. apply Rle_trans with (Rpower r b * exp (- (INR j * u))).
    - apply Rmult_le_compat_l; [left; apply Rpower_pos|apply pow_le_exp, Hu].
    - unfold Rpower. rewrite <- exp_plus. apply exp_le. assert (Rabs ((a - b) * ln r) <= u * INR j) by (rewrite Rabs_mult; apply Rmult_le_compat; auto using Rabs_pos).
      apply Rabs_bounds in H. lra. }
  split; apply K; [exact D|rewrite Rabs_minus_sym; exact D].
Qed.
Lemma within_3 u a b : 0 <= u <= / 8 -> 0 < b -> Rabs (a - b) <= 2 * u * b -> within u 3 a b.
Proof.
  intros Hu Hb H. apply Rabs_bounds in H. split.
  - apply Rle_trans with (b * (1 - 2 * u)); [apply Rmult_le_compat_l; [lra|]; cbn [pow]; nra|lra].
  - apply Rle_trans with (b * (1 + 2 * u) * (1 - u) ^ 3); [apply Rmult_le_compat_r; [apply pow_le; lra|lra]|].
    rewrite Rmult_assoc. rewrite <- (Rmult_1_r b) at 2. apply Rmult_le_compat_l; [lra|]. cbn [pow]. nra.
Qed.

Notation u53 := (ulp 53).
Lemma u53_small : 0 <= u53 <= / 8.
Proof.
  pose proof (ulp_pos 53 ltac:(lia)). split; [lra|]. apply Rle_trans with (ulp 3); [apply ulp_le; lia|]. unfold ulp. change (2 ^ 3)%Z with 8%Z. lra.
Qed.
Lemma u53_lt1 : 0 <= u53 < 1. Proof. pose proof u53_small. lra. Qed.

(** 1 / index as a double *)
Definition expo (i : Z) : Q := fdiv 53 1 (rnd 53 (inject_Z i)).
Lemma expo_spec i : (1 <= i <= 2 ^ 53)%Z -> 0 <= Q2R (expo i) <= 1 /\ Rabs (Q2R (expo i) - / IZR i) <= u53.
Proof.
  intros Hi. unfold expo, fdiv. assert (Ei : (rnd 53 (inject_Z i) == inject_Z i)%Q) by (apply rnd_int; [lia|lia|reflexivity]).
  assert (Pi : (0 < inject_Z i)%Q) by (change 0%Q with (inject_Z 0); rewrite <- Zlt_Qlt; lia).
  assert (Hi1 : 1 <= IZR i) by (apply IZR_le; lia).
  set (z := (1 / rnd 53 (inject_Z i))%Q). assert (Ez : Q2R z = / IZR i).
  { unfold z. rewrite Q2R_quot by (intros C; rewrite Ei in C; rewrite C in Pi; Lqa.lra). rewrite (Qeq_eqR _ _ Ei), Q2R_Z, Q2R_1. field. lra. }
  assert (Pz : 0 < / IZR i) by (apply Rinv_0_lt_compat; lra). assert (z1 : / IZR i <= 1) by (rewrite <- Rinv_1; apply Rinv_le_contravar; lra).
  pose proof (rnd_err 53 z ltac:(lia)) as E. rewrite Ez, (Rabs_pos_eq (/ IZR i)) in E by lra. pose proof u53_small as US.
  assert (EU : Rabs (Q2R (rnd 53 z) - / IZR i) <= u53) by nra. split; [|exact EU]. apply Rabs_bounds in E.
  split; [nra|]. destruct (Z.eq_dec i 1) as [->|N].
  - assert (Z1 : (z == inject_Z 1)%Q) by (unfold z; rewrite Ei; change (inject_Z 1) with 1%Q; field).
    assert (R1 : (rnd 53 z == inject_Z 1)%Q) by (apply rnd_int; [lia|lia|exact Z1]). rewrite (Qeq_eqR _ _ R1), Q2R_Z. lra.
  - assert (H2 : 2 <= IZR i) by (apply IZR_le; lia). assert (/ IZR i <= / 2) by (apply Rinv_le_contravar; lra). nra.
Qed.

Lemma coe_opp p c r i : rat_to_float p (Rat (- num c) (den c)) = (- rat_to_float p c)%Q /\ rat_to_float p (Rat (num c) (- den c)) = (- rat_to_float p c)%Q /\
  (forall fpow, real_to_float p fpow (Real i r (Rat (- num c) (den c))) = (- real_to_float p fpow (Real i r c))%Q) /\
  (forall fpow, real_to_float p fpow (Real i r (Rat (num c) (- den c))) = (- real_to_float p fpow (Real i r c))%Q).
Proof.
  assert (IO : forall n, inject_Z (- n) = (- inject_Z n)%Q) by reflexivity.
  assert (A : rat_to_float p (Rat (- num c) (den c)) = (- rat_to_float p c)%Q). { unfold rat_to_float, fdiv. cbn [num den]. rewrite IO, rnd_opp, opp_div, rnd_opp. reflexivity. }
  assert (DI : forall a b, (a / - b)%Q = (- (a / b))%Q).
  { intros [a a'] [b b']. unfold Qdiv, Qinv, Qopp, Qmult. destruct b; cbn [Z.opp QArith_base.Qnum QArith_base.Qden]; f_equal; lia. }
  assert (B : rat_to_float p (Rat (num c) (- den c)) = (- rat_to_float p c)%Q). { unfold rat_to_float, fdiv. cbn [num den]. rewrite IO, rnd_opp, DI, rnd_opp. reflexivity. }
  split; [exact A|]. split; [exact B|]. split; intros fpow; unfold real_to_float; cbn [coe rad idx]; [rewrite A|rewrite B]; unfold fmul; rewrite opp_mul, rnd_opp; reflexivity.
Qed.

Section RealTo.
Context (p : Z) (fpow : Q -> Q -> Q) (Hp : (53 <= p)%Z) (HF : pow_accurate fpow).
Lemma ulp_up : 0 <= ulp p <= u53.
Proof. pose proof (ulp_pos p ltac:(lia)). split; [lra|]. apply ulp_le. lia. Qed.

Lemma root_close r i j : (0 < num r)%Z -> (0 < den r)%Z -> (1 <= i <= 2 ^ 53)%Z -> Rabs (ln (Q2R (qv r))) <= INR j ->
  within u53 (7 + j) (Q2R (rnd p (fpow (rat_to_float 53 r) (expo i)))) (Rpower (Q2R (qv r)) (/ IZR i)).
Proof.
  intros Hn Hd Hi HL. destruct (rat_to_float_close 53 r ltac:(lia) Hn Hd) as [P W]. destruct (expo_spec i Hi) as [Y E]. assert (U := u53_lt1).
  set (x := rat_to_float 53 r) in *. set (y := expo i) in *. assert (Px : 0 < Q2R x) by (apply (within_pos u53 U 3 _ _ P W)).
  set (t := fpow x y). assert (Wt : within u53 3 (Q2R t) (Rpower (Q2R x) (Q2R y))).
  { apply within_3; [exact u53_small|apply Rpower_pos|]. apply HF. apply Q2R_pos, Px. }
  assert (Pt : 0 < Q2R t) by (apply (within_pos u53 U 3 _ _ (Rpower_pos _ _) Wt)).
  assert (Wr : within u53 1 (Q2R (rnd p t)) (Q2R t)).
  { assert (W1 := within_rnd p t ltac:(lia) (proj2 (Q2R_pos t) Pt)). pose proof ulp_up as UP. assert (UL : 0 <= ulp p < 1) by lra.
    assert (P1 := within_pos (ulp p) UL 1 _ _ Pt W1). apply within_mono with (ulp p); try lra. exact W1. }
  replace (7 + j)%nat with (1 + (3 + (3 + j)))%nat by lia.
  apply within_trans with (Q2R t); [exact U|exact Wr|]. apply within_trans with (Rpower (Q2R x) (Q2R y)); [exact U|exact Wt|].
  apply within_trans with (Rpower (Q2R (qv r)) (Q2R y)); [exact U|apply within_Rpower; assumption|apply within_exponent; assumption].
Qed.
Lemma real_close_pos c r i j : (0 < num c)%Z -> (0 < den c)%Z -> (0 < num r)%Z -> (0 < den r)%Z -> (1 <= i <= 2 ^ 53)%Z -> Rabs (ln (Q2R (qv r))) <= INR j ->
  0 < rv (Real i r c) /\ within u53 (11 + j) (Q2R (real_to_float p fpow (Real i r c))) (rv (Real i r c)).
Proof.
  intros Hcn Hcd Hn Hd Hi HL. pose proof (root_close r i j Hn Hd Hi HL) as WR. destruct (rat_to_float_close p c ltac:(lia) Hcn Hcd) as [P W].
  assert (U := u53_lt1). pose proof ulp_up as UP. assert (UL : 0 <= ulp p < 1) by lra.
  unfold rv. cbn [coe rad idx]. assert (PR := Rpower_pos (Q2R (qv r)) (/ IZR i)). split; [apply Rmult_lt_0_compat; assumption|].
  unfold real_to_float. cbn [coe rad idx]. fold (expo i). set (a := rat_to_float p c) in *. set (b := rnd p (fpow (rat_to_float 53 r) (expo i))) in *.
  assert (Pa := within_pos _ UL _ _ _ P W). assert (Pb := within_pos _ U _ _ _ PR WR).
  assert (W' : within u53 3 (Q2R a) (Q2R (qv c))) by (apply within_mono with (ulp p); try lra; exact W).
  assert (Pab : (0 < a * b)%Q) by (apply Q2R_pos; rewrite Q2R_mult; apply Rmult_lt_0_compat; assumption).
  assert (W1 := within_rnd p _ ltac:(lia) Pab). assert (P1 := within_pos _ UL _ _ _ (proj1 (Q2R_pos _) Pab) W1).
  assert (W1' : within u53 1 (Q2R (rnd p (a * b))) (Q2R (a * b))) by (apply within_mono with (ulp p); try lra; [apply Rlt_le, Q2R_pos, Pab|exact W1]).
  unfold fmul. replace (11 + j)%nat with (1 + (3 + (7 + j)))%nat by lia. apply within_trans with (Q2R (a * b)); [exact U|exact W1'|].
  rewrite Q2R_mult. apply within_mul; assumption.
Qed.

Lemma real_close a j : den (coe a) <> 0%Z -> (0 < num (rad a))%Z -> (0 < den (rad a))%Z -> (1 <= idx a <= 2 ^ 53)%Z -> Rabs (ln (Q2R (qv (rad a)))) <= INR j ->
  2 * (11 + INR j) * u53 <= 1 ->
  Rabs (Q2R (real_to_float p fpow a) - rv a) <= 2 * (11 + INR j) * u53 * Rabs (rv a).
Proof.
  destruct a as [i r c]. cbn [coe rad idx]. intros Dc Hn Hd Hi HL HS.
  assert (J : INR (11 + j) = 11 + INR j) by (rewrite plus_INR; cbn; lra).
  assert (KP : forall c, (0 < num c)%Z -> (0 < den c)%Z -> Rabs (Q2R (real_to_float p fpow (Real i r c)) - rv (Real i r c)) <= 2 * (11 + INR j) * u53 * Rabs (rv (Real i r c))).
  { intros c0 A B. destruct (real_close_pos c0 r i j A B Hn Hd Hi HL) as [P W]. rewrite (Rabs_pos_eq (rv _)) by lra. rewrite <- J. apply within_error; [exact u53_lt1|exact P|exact W|rewrite J; exact HS]. }
  assert (RO : forall n d, d <> 0%Z -> rv (Real i r (Rat (- n) d)) = - rv (Real i r (Rat n d)) /\ rv (Real i r (Rat n (- d))) = - rv (Real i r (Rat n d))).
  { intros n d D0. unfold rv. cbn [coe rad idx]. assert (D1 : IZR d <> 0) by (apply not_0_IZR, D0).
    assert (EV : forall a b, b <> 0%Z -> Q2R (qv (Rat a b)) = IZR a / IZR b).
    { intros a b B. unfold qv. cbn [num den]. rewrite Q2R_quot; [rewrite !Q2R_Z; reflexivity|]. intros C. unfold Qeq, inject_Z in C. cbn in C. lia. }
    rewrite !EV by lia. rewrite !opp_IZR. split; field; assumption. }
  assert (OP : forall x y, Rabs (Q2R (- x) - - y) = Rabs (Q2R x - y)) by (intros x y; rewrite Q2R_opp, <- Rabs_Ropp; f_equal; ring).
  assert (KD : forall c, (0 < num c)%Z -> den c <> 0%Z -> Rabs (Q2R (real_to_float p fpow (Real i r c)) - rv (Real i r c)) <= 2 * (11 + INR j) * u53 * Rabs (rv (Real i r c))).
  { intros [n d] A B. cbn [num den] in *. destruct (Z_lt_le_dec 0 d) as [C|C]; [apply KP; assumption|].
    destruct (coe_opp p (Rat n (- d)) r i) as (_ & _ & _ & E). cbn [num den] in E. rewrite Z.opp_involutive in E. rewrite E.
    replace (rv (Real i r (Rat n d))) with (- rv (Real i r (Rat n (- d)))) by (rewrite (proj2 (RO n d B)); ring). rewrite OP, Rabs_Ropp. apply KP; cbn [num den]; lia. }
  destruct c as [n d]. cbn [den] in Dc. destruct (Z.lt_trichotomy n 0) as [C|[C|C]].
  - destruct (coe_opp p (Rat (- n) d) r i) as (_ & _ & E & _). cbn [num den] in E. rewrite Z.opp_involutive in E. rewrite E.
    replace (rv (Real i r (Rat n d))) with (- rv (Real i r (Rat (- n) d))) by (rewrite (proj1 (RO n d Dc)); ring). rewrite OP, Rabs_Ropp. apply KD; cbn [num den]; lia.
  - subst n. assert (E0 : (rat_to_float p (Rat 0 d) == 0)%Q). { unfold rat_to_float, fdiv. cbn [num den]. rewrite (rnd_0 p (inject_Z 0)) by reflexivity. rewrite rnd_0; [reflexivity|]. unfold Qdiv. ring. }
    assert (E1 : real_to_float p fpow (Real i r (Rat 0 d)) = 0%Q). { unfold real_to_float, fmul. cbn [coe]. apply rnd_0. rewrite E0. ring. }
    assert (E2 : rv (Real i r (Rat 0 d)) = 0). { unfold rv. cbn [coe rad idx]. replace (Q2R (qv (Rat 0 d))) with 0; [ring|]. unfold qv. cbn [num den]. rewrite <- Q2R_0. apply Qeq_eqR. change (inject_Z 0) with 0%Q. unfold Qdiv. ring. }
    rewrite E1, E2, Q2R_0. rewrite Rabs_R0, Rminus_0_r, Rabs_R0. lra.
  - apply KD; cbn [num den]; assumption.
Qed.
End RealTo.

Lemma ln_bound x : 0 < x -> (forall k : nat, exp (- INR k) <= x <= exp (INR k) -> Rabs (ln x) <= INR k).
Proof.
  intros Hx k [A B]. apply Rabs_le. split.
  - rewrite <- (ln_exp (- INR k)). destruct (Req_dec (exp (- INR k)) x) as [->|N]; [lra|left; apply ln_increasing; [apply exp_pos|lra]].
  - rewrite <- (ln_exp (INR k)). destruct (Req_dec x (exp (INR k))) as [->|N]; [lra|left; apply ln_increasing; lra].
Qed.
(** positive integers below 2^64 *)
Lemma ln_int m : (1 <= m < 2 ^ 64)%Z -> Rabs (ln (Q2R (qv (Rat m 1)))) <= INR 64.
Proof.
  intros Hm. assert (E : Q2R (qv (Rat m 1)) = IZR m). { rewrite <- Q2R_Z. apply Qeq_eqR. unfold qv. cbn [num den]. change (inject_Z 1) with 1%Q. field. }
  rewrite E. assert (M1 : 1 <= IZR m) by (apply IZR_le; lia). apply ln_bound; [lra|]. split.
  - apply Rle_trans with 1; [|exact M1]. rewrite <- exp_0. apply exp_le. pose proof (pos_INR 64). lra.
  - apply Rle_trans with (IZR (2 ^ 64)); [apply IZR_le; lia|]. change (2 ^ 64)%Z with (2 ^ Z.of_nat 64)%Z. rewrite <- pow_IZR.
    assert (K : forall n, 2 ^ n <= exp (INR n)). { induction n; [rewrite pow_O; cbn [INR]; rewrite exp_0; lra|]. rewrite S_INR, exp_plus. cbn [pow]. pose proof (exp_ineq1_le 1). pose proof (pow_le 2 n ltac:(lra)). nra. }
    apply K.
Qed.
