(** Lemmas: the error of Rational::to for any rational; library functions that meet the accuracy hypotheses. *)
From Coq Require Import ZArith QArith Qabs Qround Qreals Qpower Reals Lia Lqa Lra Bool List.
From Verif Require Import Base RationalModel RationalSpec RealModel RealSpec DecModel DecSpec DecProofs1 DecProofs2 DecProofs3 DecProofs6 NumModel NumSpec NumProofs1 NumProofs2 NumProofs3 NumProofs4 NumProofs5.
Import ListNotations.
Open Scope R_scope.

Lemma qv_value r : den r <> 0%Z -> Q2R (qv r) = IZR (num r) / IZR (den r).
Proof. intros B. unfold qv. rewrite Q2R_quot; [rewrite !Q2R_Z; reflexivity|]. intros C. unfold Qeq, inject_Z in C. cbn in C. lia. Qed.

Lemma rat_to_float_error p r : (3 <= p)%Z -> den r <> 0%Z -> Rabs (Q2R (rat_to_float p r) - Q2R (qv r)) <= 6 * ulp p * Rabs (Q2R (qv r)).
Proof.
  intros Hp Dr. assert (U : 0 <= ulp p < 1) by (apply Hu; lia).
  assert (S6 : 2 * INR 3 * ulp p <= 1). { pose proof (ulp_le 3 p ltac:(lia)) as L. unfold ulp in L at 2. change (2 ^ 3)%Z with 8%Z in L. cbn [INR]. lra. }
  assert (KP : forall c, (0 < num c)%Z -> (0 < den c)%Z -> Rabs (Q2R (rat_to_float p c) - Q2R (qv c)) <= 6 * ulp p * Rabs (Q2R (qv c))).
  { intros c A B. destruct (rat_to_float_close p c ltac:(lia) A B) as [P W]. rewrite (Rabs_pos_eq (Q2R (qv c))) by lra. replace 6 with (2 * INR 3) by (cbn [INR]; lra). apply within_error; assumption. }
  assert (RO : forall n d, d <> 0%Z -> Q2R (qv (Rat (- n) d)) = - Q2R (qv (Rat n d)) /\ Q2R (qv (Rat n (- d))) = - Q2R (qv (Rat n d))).
  { intros n d D0. rewrite !qv_value by (cbn [den]; lia). cbn [num den]. rewrite !opp_IZR. assert (IZR d <> 0) by (apply not_0_IZR, D0). split; field; assumption. }
  assert (OP : forall x y, Rabs (Q2R (- x) - - y) = Rabs (Q2R x - y)) by (intros x y; rewrite Q2R_opp, <- Rabs_Ropp; f_equal; ring).
  assert (KD : forall c, (0 < num c)%Z -> den c <> 0%Z -> Rabs (Q2R (rat_to_float p c) - Q2R (qv c)) <= 6 * ulp p * Rabs (Q2R (qv c))).
  { intros [n d] A B. cbn [num den] in *. destruct (Z_lt_le_dec 0 d) as [C|C]; [apply KP; assumption|].
    destruct (coe_opp p (Rat n (- d)) (Rat 1 1) 1) as (_ & E & _). cbn [num den] in E. rewrite Z.opp_involutive in E. rewrite E.
    replace (Q2R (qv (Rat n d))) with (- Q2R (qv (Rat n (- d)))) by (rewrite (proj2 (RO n d B)); ring). rewrite OP, Rabs_Ropp. apply KP; cbn [num den]; lia. }
  destruct r as [n d]. cbn [den] in Dr. destruct (Z.lt_trichotomy n 0) as [C|[C|C]].
  - destruct (coe_opp p (Rat (- n) d) (Rat 1 1) 1) as (E & _). cbn [num den] in E. rewrite Z.opp_involutive in E. rewrite E.
    replace (Q2R (qv (Rat n d))) with (- Q2R (qv (Rat (- n) d))) by (rewrite (proj1 (RO n d Dr)); ring). rewrite OP, Rabs_Ropp. apply KD; cbn [num den]; lia.
  - subst n. assert (E0 : (rat_to_float p (Rat 0 d) == 0)%Q). { unfold rat_to_float, fdiv. cbn [num den]. rewrite (rnd_0 p (inject_Z 0)) by reflexivity. rewrite rnd_0; [reflexivity|]. unfold Qdiv. ring. }
    rewrite (Qeq_eqR _ _ E0), Q2R_0. rewrite qv_value by (cbn [den]; exact Dr). cbn [num]. unfold Rdiv. rewrite Rmult_0_l, Rminus_0_r, Rabs_R0. lra.
  - apply KD; cbn [num den]; assumption.
Qed.

(** a Real that is a rational number *)
Lemma rational_real p fpow i c : (1 <= p)%Z -> (forall x y, (x == 1)%Q -> (fpow x y == 1)%Q) -> (real_to_float p fpow (Real i (Rat 1 1) c) == rat_to_float p c)%Q.
Proof.
  intros Hp H1. unfold real_to_float, fmul. cbn [coe rad idx].
  assert (E1 : (rnd p (fpow (rat_to_float 53 (Rat 1 1)) (fdiv 53 1 (rnd 53 (inject_Z i)))) == 1)%Q).
  { apply (rnd_int p 1); [exact Hp|change (Z.abs 1) with (2 ^ 0)%Z; apply Z.pow_le_mono_r; lia|]. apply H1. apply (rat_to_float_int 53 1); lia. }
  transitivity (rnd p (rat_to_float p c)); [apply rnd_wd; rewrite E1; ring|]. unfold rat_to_float, fdiv. apply rnd_idem, Hp.
Qed.

(** ** Library functions that meet the hypotheses *)
(** a rational number close to a positive real: the approximation of v with 2^53 steps per 1 or per v, whichever is finer *)
Definition near (v : R) : Q := let s := (up (/ v) * 2 ^ 53)%Z in (up (v * IZR s) # Z.to_pos s).
Lemma near_close v : 0 < v -> Rabs (Q2R (near v) - v) <= 2 * ulp 53 * v.
Proof.
  intros Hv. unfold near. set (k := up (/ v)). set (s := (k * 2 ^ 53)%Z).
  assert (IV : 0 < / v) by (apply Rinv_0_lt_compat, Hv). destruct (archimed (/ v)) as [A _]. fold k in A.
  assert (K0 : (0 < k)%Z) by (apply lt_IZR; lra). assert (S0 : (0 < s)%Z) by (unfold s; lia). assert (RS : 0 < IZR s) by (apply IZR_lt; exact S0).
  destruct (archimed (v * IZR s)) as [B1 B2]. set (n := up (v * IZR s)) in *.
  assert (E : Q2R (n # Z.to_pos s) = IZR n / IZR s) by (unfold Q2R; cbn [QArith_base.Qnum QArith_base.Qden]; rewrite Z2Pos.id by exact S0; reflexivity).
  rewrite E. assert (T : / IZR s <= ulp 53 * v).
  { unfold s, ulp. rewrite mult_IZR, Rinv_mult. rewrite Rmult_comm. apply Rmult_le_compat_l; [left; apply Rinv_0_lt_compat, IZR_lt; reflexivity|].
    rewrite <- (Rinv_inv v). apply Rinv_le_contravar; lra. }
  assert (X : IZR n / IZR s - v = (IZR n - v * IZR s) * / IZR s) by (field; lra). rewrite X.
  assert (IS : 0 < / IZR s) by (apply Rinv_0_lt_compat, RS). apply Rabs_le. split; nra.
Qed.
Definition good_pow (x y : Q) : Q := if Qeq_bool x 1 then 1%Q else near (Rpower (Q2R x) (Q2R y)).
Lemma good_pow_one x y : (x == 1)%Q -> (good_pow x y == 1)%Q.
Proof. intros H. unfold good_pow. apply Qeq_bool_iff in H. rewrite H. reflexivity. Qed.
Lemma good_pow_accurate : pow_accurate good_pow.
Proof.
  intros x y Hx. unfold good_pow. destruct (Qeq_bool x 1) eqn:E; [|apply near_close, exp_pos]. apply Qeq_bool_iff in E. rewrite (Qeq_eqR _ _ E), Q2R_1.
  unfold Rpower. rewrite ln_1, Rmult_0_r, exp_0. pose proof (ulp_pos 53 ltac:(lia)). rewrite Rminus_eq_0, Rabs_R0. lra.
Qed.

Definition good_lpow (p : Z) (x y : Q) : Q := rnd p (Qpower x (Qfloor y)).
Lemma Q2R_Qpower x n : (0 < x)%Q -> Q2R (Qpower x n) = powerRZ (Q2R x) n.
Proof.
  intros Hx. assert (X := proj1 (Q2R_pos x) Hx).
  assert (K : forall k, Q2R (Qpower_positive x k) = Q2R x ^ Pos.to_nat k).
  { induction k as [|k IH] using Pos.peano_ind; [change (Pos.to_nat 1) with 1%nat; cbn [Qpower_positive pow]; rewrite Rmult_1_r; reflexivity|]. rewrite <- Pos.add_1_r.
    assert (E : (Qpower_positive x (k + 1) == Qpower_positive x k * x)%Q) by (rewrite Qpower_plus_positive; reflexivity).
    rewrite (Qeq_eqR _ _ E), Q2R_mult, IH. rewrite Pos2Nat.inj_add, pow_add. change (Pos.to_nat 1) with 1%nat. ring. }
  destruct n as [|n|n]; cbn [Qpower powerRZ]; [apply Q2R_1|apply K|].
  rewrite Q2R_inv; [rewrite K; reflexivity|]. intros C. apply Qeq_eqR in C. rewrite K, Q2R_0 in C. pose proof (pow_lt (Q2R x) (Pos.to_nat n) X). lra.
Qed.
Lemma good_lpow_within p : (2 <= p)%Z -> pow_within p 1 (good_lpow p).
Proof.
  intros Hp x y n Hx Ey _. unfold good_lpow. assert (Qfloor y = n) as -> by (rewrite (Qfloor_comp _ _ Ey); apply Qfloor_Z).
  rewrite <- (Q2R_Qpower x n Hx). apply within_rnd; [lia|]. apply Q2R_pos. rewrite (Q2R_Qpower x n Hx). apply powerRZ_lt, Q2R_pos, Hx.
Qed.
Lemma good_lpow_1 p x y : (1 <= p)%Z -> (y == 1)%Q -> (good_lpow p x y == rnd p x)%Q.
Proof. intros Hp Ey. unfold good_lpow. assert (Qfloor y = 1%Z) as -> by (rewrite (Qfloor_comp _ _ Ey); reflexivity). reflexivity. Qed.
