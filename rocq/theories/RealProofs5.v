(** Real::pow, histories, order, equality, junk independence. *)
From Coq Require Import ZArith Znumtheory QArith Qreals Reals String Lia Lra Bool List.
From Verif Require Import Base AdapterModel AdapterProofs FactorizeModel FactorizeProofs4 RationalModel RationalSpec RationalProofs RationalProofs2 RealModel RealSpec Valuation RealProofs1 RealProofs2 RealProofs3 RealProofs4.
Import ListNotations.
Open Scope Z_scope.

Lemma wf_one w : 1 < w -> wf w (Real 1 (Rat 1 1) (Rat 1 1)).
Proof. intros. unfold wf. cbn. assert (2 ^ 1 < 2 ^ w) by (apply Z.pow_lt_mono_r; lia). lia. Qed.
Lemma rat1_R : Q2R (qv (Rat 1 1)) = 1%R. Proof. rewrite qv_R by (cbn; lia). cbn [num den]. field. Qed.
Lemma rv_one : rv (Real 1 (Rat 1 1) (Rat 1 1)) = 1%R.
Proof. rewrite rv_root. cbn [coe rad idx]. rewrite rat1_R, root_one. ring. Qed.
Lemma of_int1_value E x : 1 < ew E -> fac_sound E -> fac_exact E -> real_of_int E 1 = Ok x -> good (ew E) x /\ canonical x /\ rv x = 1%R.
Proof.
  intros Hw FS FE H. unfold real_of_int in H. apply bind_ok in H as (c & Hc & H). apply of_int_inv in Hc as ->.
  apply make_good in H as (G & C & V); try assumption; [|now apply wf_one]. rewrite V, rv_one. auto.
Qed.
Lemma radical_npow x n : (0 < Q2R (qv (rad x)))%R -> (radical x ^ n = root (Q2R (qv (rad x)) ^ n) (idx x))%R.
Proof.
  intros P. induction n as [|n IH]; cbn [pow]; [now rewrite root_one|]. rewrite root_mul by (try assumption; now apply pow_lt). rewrite <- IH. reflexivity.
Qed.
Lemma powerRZ_pos x e : 0 <= e -> powerRZ x e = (x ^ Z.to_nat e)%R.
Proof. destruct e; [reflexivity| |lia]. reflexivity. Qed.
Lemma pow_pos_int E a e x : 1 < ew E -> fac_sound E -> fac_exact E -> wf (ew E) a -> real_pow_pos E a (Rat e 1) = Ok x ->
  good (ew E) x /\ canonical x /\ rv x = powerRZ (rv a) e.
Proof.
  intros Hw FS FE W H. pose proof W as (Ia & Na & Da & Ca). pose proof (rad_pos _ _ W) as RP. unfold real_pow_pos in H. unfold is_int in H. cbn [den Z.eqb Pos.eqb] in H.
  apply bind_ok in H as (c & Hc & H). apply bind_ok in H as (r & Hr & H).
  pose proof (rpow_inv _ _ _ _ Hc Ca) as (He & Dc & _). pose proof (rpow_inv _ _ _ _ Hr ltac:(lia)) as (_ & _ & _ & Dr & Nr).
  apply rpow_R in Hc; [|assumption]. apply rpow_R in Hr; [|lia].
  apply canonical_good in H as (G & C & V); try assumption.
  - split; [assumption|]. split; [assumption|]. rewrite V, powerRZ_pos by assumption. rewrite rv_radical. cbn [coe]. rewrite ?radical_root. cbn [rad idx].
    rewrite Hc, Hr, <- radical_npow by assumption. rewrite (rv_radical a), Rpow_mult_distr. reflexivity.
  - split; cbn [idx rad coe]; auto.
Qed.
Lemma negate_int w e r : rat_negate w (Rat e 1) = Ok r -> r = Rat (- e) 1.
Proof.
  unfold rat_negate. cbn [num den]. intros H. apply bind_ok in H as (n & Hn & H). apply chk_inv in Hn as [-> _]. apply rat_make_inv in H as [_ H]. now apply of_int_inv in H.
Qed.
Lemma rat_lt_int w e b : rat_lt w (Rat e 1) (Rat 0 1) = Ok b -> b = (e <? 0).
Proof.
  unfold rat_lt. intros H. apply bind_ok in H as (c & Hc & H). apply rat_cmp_inv in Hc. cbn [num den] in Hc. rewrite Z.mul_1_r, Z.mul_0_l in Hc. subst c.
  injection H as <-. reflexivity.
Qed.
Lemma powerRZ_inv_neg x e : 0 < e -> powerRZ (/ x) e = powerRZ x (- e).
Proof. intros H. destruct e; [lia| |lia]. cbn. now rewrite pow_inv. Qed.

Lemma pow_fuel_int E : 1 < ew E -> fac_sound E -> fac_exact E -> forall fuel a e x, good (ew E) a -> real_pow_fuel fuel E a (Rat e 1) = Ok x ->
  good (ew E) x /\ (e <> 1 -> 0 <= e -> canonical x) /\ (e < 0 -> num (coe a) <> 0) /\ rv x = powerRZ (rv a) e.
Proof.
  intros Hw FS FE. induction fuel as [|f IH]; intros a e x G H; cbn [real_pow_fuel] in H; [discriminate|].
  apply bind_ok in H as (z & Hz & H). apply rat_eq_inv in Hz. cbn [num den] in Hz. rewrite Z.mul_1_r, Z.mul_0_l in Hz. destruct z.
  { symmetry in Hz. apply Z.eqb_eq in Hz as ->. apply of_int1_value in H as (G' & C' & V); try assumption. repeat split; try assumption; auto; try lia; apply G'. }
  apply bind_ok in H as (o & Ho & H). apply rat_eq_inv in Ho. cbn [num den] in Ho. rewrite Z.mul_1_r, Z.mul_1_l in Ho. destruct o.
  { symmetry in Ho. apply Z.eqb_eq in Ho as ->. injection H as <-. split; [assumption|]. split; [lia|]. split; [lia|]. symmetry; apply powerRZ_1. }
  apply bind_ok in H as (n & Hn & H). apply rat_lt_int in Hn. destruct n.
  - symmetry in Hn. apply Z.ltb_lt in Hn. apply bind_ok in H as (ia & Hi & H). apply real_inverse_value in Hi as (Gi & NZ & Vi); [|assumption].
    apply bind_ok in H as (np & Hp & H). apply negate_int in Hp as ->. apply IH in H as (Gx & _ & _ & V); [|assumption].
    split; [assumption|]. split; [lia|]. split; [auto|]. rewrite V, Vi, powerRZ_inv_neg by lia. f_equal. lia.
  - apply pow_pos_int in H as (Gx & C & V); try assumption; [|apply G]. symmetry in Hn. apply Z.ltb_ge in Hn. split; [assumption|]. split; [auto|]. split; [lia|assumption].
Qed.

(** ** fractional powers of positive numbers *)
Lemma rv_positive w a : wf w a -> 0 < num (coe a) -> 0 < den (coe a) -> (0 < rv a)%R.
Proof. intros W N D. rewrite rv_radical, qv_R by lia. apply Rmult_lt_0_compat; [|apply radical_pos]. apply Rdiv_lt_0_compat; now apply IZR_lt. Qed.
Lemma root_frac x n i d : (0 < x)%R -> 1 <= i -> 1 <= d -> 0 <= n -> root (x ^ Z.to_nat n) (i * d) = Rpower (root x i) (IZR n / IZR d).
Proof.
  intros Hx Hi Hd Hn. unfold root. rewrite <- Rpower_pow by assumption. rewrite !Rpower_mult, INR_IZR_INZ, Z2Nat.id, mult_IZR by lia. f_equal. field. split; apply IZR_nz; lia.
Qed.
Lemma pow_pos_frac E a p x : 1 < ew E -> fac_sound E -> fac_exact E -> wf (ew E) a -> 0 < num (coe a) -> 0 < den (coe a) ->
  0 < den p -> 0 <= num p -> idx a * den p < 2 ^ ew E -> real_pow_pos E a p = Ok x ->
  good (ew E) x /\ canonical x /\ rv x = Rpower (rv a) (Q2R (qv p)).
Proof.
  intros Hw FS FE W NC DC DP NP B H. pose proof W as (Ia & Na & Da & Ca). pose proof (rad_pos _ _ W) as RP. pose proof (rv_positive _ _ W NC DC) as VP.
  destruct (is_int p) eqn:I.
  - destruct p as [n d]. unfold is_int in I. cbn [num den] in *. apply Z.eqb_eq in I as ->. apply pow_pos_int in H as (G & C & V); try assumption.
    split; [assumption|]. split; [assumption|]. rewrite V, powerRZ_pos by assumption. rewrite <- Rpower_pow by assumption. rewrite INR_IZR_INZ, Z2Nat.id by assumption.
    rewrite qv_R by (cbn; lia). cbn [num den]. f_equal. field.
  - unfold real_pow_pos in H. rewrite I in H. apply bind_ok in H as (n & Hn & H). apply of_int_inv in Hn as ->. apply bind_ok in H as (r & Hr & H).
    cbv zeta in H. apply bind_ok in H as (cb & Hcb & H).
    pose proof (rpow_inv _ _ _ _ Hcb ltac:(lia)) as (_ & _ & _ & Dc & Nc). pose proof (rpow_inv _ _ _ _ Hr ltac:(lia)) as (_ & _ & _ & Dr & Nr).
    apply rpow_R in Hcb; [|lia]. apply rpow_R in Hr; [|lia].
    unfold uwrap in H. rewrite !Z.mod_small in H by nia.
    apply bind_ok in H as (b & Hb & H). apply make_good in Hb as (Gb & _ & Vb); try assumption;
      [|split; cbn [idx rad coe num den]; [nia|]; repeat split; [now apply Nc|now apply Dc|lia]].
    apply bind_ok in H as (y & Hy & H). apply real_mul_good in Hy as (Gy & _ & Vy); try assumption;
      [|split; cbn [idx rad coe num den]; [nia|]; repeat split; [now apply Nr|now apply Dr|lia]|apply Gb].
    apply canonical_good in H as (G & C & V); try assumption; [|apply Gy]. split; [assumption|]. split; [assumption|].
    rewrite V, Vy, Vb. rewrite !rv_root. cbn [coe rad idx]. rewrite rat1_R, !Rmult_1_l, Hr, Hcb.
    assert (QP : (0 < Q2R (qv (coe a)))%R) by (rewrite qv_R by lia; apply Rdiv_lt_0_compat; now apply IZR_lt).
    rewrite (qv_R p) by lia. rewrite root_frac by lra || lia.
    replace (den p) with (1 * den p) at 2 by ring. rewrite root_frac by lra || lia. rewrite (root_1 (Q2R (qv (coe a)))) by assumption.
    rewrite Rpower_mult_distr by (try assumption; apply root_pos). f_equal. ring.
Qed.
Lemma negate_den w p np : 0 < den p -> rat_negate w p = Ok np -> 0 < den np <= den p /\ num np * den p = - num p * den np.
Proof.
  intros D H. unfold rat_negate in H. apply bind_ok in H as (n & Hn & H). apply chk_inv in Hn as [-> _]. pose proof (rat_make_pos _ _ _ _ H D) as P.
  pose proof (rat_make_lowest _ _ _ _ H) as L. apply rat_make_inv in H as [_ H]. apply rat_normalize_val in H as [_ H]; [|cbn; lia]. cbn [num den] in H.
  split; [|lia]. split; [assumption|]. apply Z.divide_pos_le; [assumption|]. apply Z.gauss with (num np).
  - exists (- num p). lia.
  - rewrite Z.gcd_comm. exact L.
Qed.
Lemma rat_lt0 w p b : 0 < den p -> rat_lt w p (Rat 0 1) = Ok b -> b = (num p <? 0).
Proof.
  intros D. unfold rat_lt. intros H. apply bind_ok in H as (c & Hc & H). apply rat_cmp_inv in Hc. cbn [num den] in Hc. rewrite Z.mul_1_r, Z.mul_0_l in Hc. subst c.
  injection H as <-. reflexivity.
Qed.
Lemma inverse_sign w a x : wf w a -> 0 < num (coe a) -> 0 < den (coe a) -> real_inverse w a = Ok x -> 0 < num (coe x) /\ 0 < den (coe x) /\ idx x = idx a.
Proof.
  intros W N D H. unfold real_inverse in H. apply bind_ok in H as (c & Hc & H). apply bind_ok in H as (r & Hr & H). injection H as <-. cbn [coe idx].
  apply inverse_pos in Hc as (? & ? & ?); auto.
Qed.
Lemma pow_fuel_frac E : 1 < ew E -> fac_sound E -> fac_exact E -> forall fuel a p x, good (ew E) a -> 0 < num (coe a) -> 0 < den (coe a) ->
  0 < den p -> idx a * den p < 2 ^ ew E -> real_pow_fuel fuel E a p = Ok x ->
  good (ew E) x /\ rv x = Rpower (rv a) (Q2R (qv p)).
Proof.
  intros Hw FS FE. induction fuel as [|f IH]; intros a p x G NC DC DP B H; cbn [real_pow_fuel] in H; [discriminate|].
  pose proof (rv_positive _ _ (proj1 G) NC DC) as VP.
  apply bind_ok in H as (z & Hz & H). apply rat_eq_inv in Hz. cbn [num den] in Hz. rewrite Z.mul_1_r, Z.mul_0_l in Hz. destruct z.
  { symmetry in Hz. apply Z.eqb_eq in Hz. apply of_int1_value in H as (G' & C' & V); try assumption. split; [assumption|]. rewrite V, qv_R by lia. rewrite Hz.
    unfold Rdiv. rewrite Rmult_0_l, Rpower_O by assumption. reflexivity. }
  apply bind_ok in H as (o & Ho & H). apply rat_eq_inv in Ho. cbn [num den] in Ho. rewrite Z.mul_1_r, Z.mul_1_l in Ho. destruct o.
  { symmetry in Ho. apply Z.eqb_eq in Ho. injection H as <-. split; [assumption|]. rewrite qv_R by lia. rewrite Ho. unfold Rdiv. rewrite Rinv_r by (apply IZR_nz; lia).
    now rewrite Rpower_1. }
  apply bind_ok in H as (n & Hn & H). apply rat_lt0 in Hn; [|assumption]. destruct n.
  - apply bind_ok in H as (ia & Hi & H). pose proof (inverse_sign _ _ _ (proj1 G) NC DC Hi) as (Ni & Di & Ii). apply real_inverse_value in Hi as (Gi & NZ & Vi); [|assumption].
    apply bind_ok in H as (np & Hp & H). apply negate_den in Hp as [[P1 P2] Pe]; [|assumption]. destruct G as [(? & _) _]. apply IH in H as (Gx & V); try assumption; [|rewrite Ii; nia].
    split; [assumption|]. rewrite V, Vi. rewrite !qv_R by lia.
    unfold Rpower. rewrite ln_Rinv by assumption. f_equal.
    assert (EQ : (IZR (num np) / IZR (den np) = - (IZR (num p) / IZR (den p)))%R).
    { apply (f_equal IZR) in Pe. rewrite !mult_IZR, opp_IZR in Pe. apply Rmult_eq_reg_r with (IZR (den np) * IZR (den p))%R; [|apply Rmult_integral_contrapositive_currified; apply IZR_nz; lia].
      transitivity (IZR (num np) * IZR (den p))%R; [field|rewrite Pe; field]; repeat split; apply IZR_nz; lia. }
    rewrite EQ. ring.
  - symmetry in Hn. apply Z.ltb_ge in Hn. apply pow_pos_frac in H as (Gx & C & V); try assumption; [auto|apply G].
Qed.
