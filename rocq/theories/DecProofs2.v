(** decimal_places counts the digits of a decimal number. *)
From Coq Require Import ZArith QArith Qround Qabs Qpower Lqa Lia Bool List.
From Verif Require Import Base DecModel DecProofs1.
Import ListNotations.
Open Scope Z_scope.

(** ** The inequalities *)
Lemma cond_true_mid (u d z fd g c eps r : Q) :
  (0 < u -> u <= 1 # 1000 -> 0 < d -> d <= 1 # 10 -> 0 <= z -> 28 * z <= d -> d <= fd -> fd <= 1 - d -> fd <= 1 # 2 \/ 14 * u <= d ->
   fd - 3 * z <= g -> g <= fd + 3 * z -> (1 - u) * g <= c -> c <= (1 + u) * g -> 0 <= eps -> eps <= (41 # 2) * z -> (1 - u) * (1 - eps) <= r ->
   eps < c /\ c < r)%Q.
Proof.
  intros U0 U1 D0 D1 Z0 Z1 F1 F2 F3 G1 G2 C1 C2 E0 E1 R1.
  assert (0 <= g)%Q by lra. assert (g <= 1)%Q by lra. assert (0 <= u * g)%Q by nra. assert (u * g <= (1 # 1000) * g)%Q by nra. assert (u * g <= u)%Q by nra.
  assert (0 <= u * eps)%Q by nra. assert (u * eps <= (1 # 1000) * eps)%Q by nra.
  split; [lra|]. destruct F3; lra.
Qed.
Lemma cond_true_first (u d z fd g c eps r : Q) :
  (0 < u -> u <= 1 # 1000 -> 0 < d -> d <= 1 # 10 -> 0 <= z -> 28 * z <= d -> d <= fd -> fd <= 1 - d -> fd <= 1 # 2 \/ 14 * u <= d ->
   fd - 3 * z <= g -> g <= fd + 3 * z -> (1 - u) * g <= c -> c <= (1 + u) * g -> 0 <= eps -> eps <= (21 # 10) * u * c -> (1 - u) * (1 - eps) <= r ->
   eps < c /\ c < r)%Q.
Proof.
  intros U0 U1 D0 D1 Z0 Z1 F1 F2 F3 G1 G2 C1 C2 E0 E1 R1.
  assert (0 <= g)%Q by lra. assert (g <= 1)%Q by lra. assert (0 <= u * g)%Q by nra. assert (u * g <= (1 # 1000) * g)%Q by nra. assert (u * g <= u)%Q by nra.
  assert (0 < c)%Q by lra. assert (c <= 1001 # 1000)%Q by lra. assert (u * c <= (1 # 1000) * c)%Q by nra. assert (u * c <= (1001 # 1000) * u)%Q by nra.
  assert (0 <= u * eps)%Q by nra. assert (u * eps <= (1 # 1000) * eps)%Q by nra.
  split; [lra|]. destruct F3; lra.
Qed.
Lemma cond_false_end (u t g c eps r : Q) :
  (0 < u -> u <= 1 # 1000 -> u <= t -> 28 * t <= 1 -> 0 <= g -> g <= 3 * t \/ (g <= 1 /\ 1 - 3 * t <= g) ->
   (1 - u) * g <= c -> c <= (1 + u) * g -> (197 # 10) * t <= eps -> eps <= 1 -> r <= (1 + u) * (1 - eps) ->
   c <= eps \/ r <= c)%Q.
Proof.
  intros U0 U1 T1 T2 G0 G C1 C2 E1 E2 R1.
  assert (0 <= u * (1 - eps))%Q by nra. assert (u * (1 - eps) <= u)%Q by nra.
  destruct G as [G|[G G']].
  - left. assert (u * g <= (1 # 1000) * g)%Q by nra. lra.
  - right. assert (u * g <= u)%Q by nra. lra.
Qed.

(** ** Small facts *)
Lemma flt_spec x y : flt x y = true <-> (x < y)%Q.
Proof.
  unfold flt. rewrite negb_true_iff. destruct (Qle_bool y x) eqn:E.
  - apply Qle_bool_iff in E. split; [discriminate|intros; lra].
  - split; [|reflexivity]. intros _. apply Qnot_le_lt. intros C. apply Qle_bool_iff in C. congruence.
Qed.
Lemma flt_false x y : flt x y = false <-> (y <= x)%Q.
Proof. destruct (flt x y) eqn:E. - apply flt_spec in E. split; [discriminate|intros; lra]. - split; [|reflexivity]. intros _. apply Qnot_lt_le. intros C. apply flt_spec in C. congruence. Qed.
Lemma floor_is x q : (inject_Z q <= x)%Q -> (x < inject_Z q + 1)%Q -> Qfloor x = q.
Proof.
  intros A B. pose proof (Qfloor_le x) as L. pose proof (Qlt_floor x) as U. rewrite inject_Z_plus in U. change (inject_Z 1) with 1%Q in U.
  assert (inject_Z (Qfloor x) < inject_Z (q + 1))%Q by (rewrite inject_Z_plus; change (inject_Z 1) with 1%Q; lra).
  assert (inject_Z q < inject_Z (Qfloor x + 1))%Q by (rewrite inject_Z_plus; change (inject_Z 1) with 1%Q; lra).
  rewrite <- Zlt_Qlt in *. lia.
Qed.
Lemma P2_neg_small p : 24 <= p -> (P2 (- p) <= 1 # 1000)%Q.
Proof. intros H. apply Qle_trans with (P2 (-24)); [apply P2_le; lia|]. unfold P2. cbn. discriminate. Qed.
Lemma P2_neg_mul p n : 0 <= p -> (P2 (- p) * inject_Z n <= 1)%Q <-> n <= 2 ^ p.
Proof.
  intros Hp. pose proof (P2_inv p) as I. pose proof (P2_pos p) as P. pose proof (P2_pos (- p)) as P'. rewrite Zle_Qle, <- P2_nonneg by lia. split; intros H.
  - assert (P2 p * (P2 (- p) * inject_Z n) <= P2 p * 1)%Q by (apply Qmult_le_l; assumption).
    assert (P2 p * (P2 (- p) * inject_Z n) == inject_Z n)%Q by (transitivity ((P2 (- p) * P2 p) * inject_Z n)%Q; [ring|rewrite I; ring]). lra.
  - rewrite <- I. apply Qmult_le_l; assumption.
Qed.
Lemma fepsilon_value p : (fepsilon p == 2 * P2 (- p))%Q.
Proof. unfold fepsilon. rewrite dyadic_value. change (inject_Z 1) with 1%Q. rewrite Qmult_1_l, <- P2_S. replace (- p + 1) with (1 - p) by lia. reflexivity. Qed.
Lemma pow10_rep p j : 0 <= j -> 5 ^ j <= 2 ^ p -> rep p (inject_Z (10 ^ j)).
Proof.
  intros Hj H. exists (5 ^ j), j. split.
  - assert (0 < 5 ^ j) by (apply Z.pow_pos_nonneg; lia). lia.
  - rewrite P2_nonneg by lia. rewrite <- inject_Z_mult. change 10 with (5 * 2). rewrite Z.pow_mul_l. reflexivity.
Qed.
Lemma rep_eq p x y : (x == y)%Q -> rep p x -> rep p y.
Proof. intros E [m [s [H H']]]. exists m, s. split; [assumption|]. rewrite <- E. exact H'. Qed.

(** ** The loop *)
Section Loop.
Variables (p m : Z) (k : nat) (x : Q).
Hypothesis Hp : 24 <= p.
Hypothesis Hm : 1 <= m.
Hypothesis Hm2 : 28 * m <= 2 ^ p.
Hypothesis Hk5 : 5 ^ (Z.of_nat k + 1) <= 2 ^ p.
Hypothesis Hm10 : m mod 10 <> 0.
Hypothesis Hx : (x * inject_Z (10 ^ Z.of_nat k) == inject_Z m)%Q.

Notation u := (P2 (- p)).
Notation v := (rnd p x).

Lemma u_pos : (0 < u)%Q. Proof. apply P2_pos. Qed.
Lemma u_small : (u <= 1 # 1000)%Q. Proof. apply P2_neg_small, Hp. Qed.
Lemma ten_pos j : 0 <= j -> (0 < inject_Z (10 ^ j))%Q.
Proof. intros. change 0%Q with (inject_Z 0). rewrite <- Zlt_Qlt. apply Z.pow_pos_nonneg; lia. Qed.
Lemma um : (28 * (u * inject_Z m) <= 1)%Q.
Proof. assert (u * inject_Z (28 * m) <= 1)%Q by (apply P2_neg_mul; lia). rewrite inject_Z_mult in H. change (inject_Z 28) with 28%Q in H. lra. Qed.
Lemma m_ge1 : (1 <= inject_Z m)%Q. Proof. change 1%Q with (inject_Z 1). rewrite <- Zle_Qle. exact Hm. Qed.
Lemma x_pos : (0 < x)%Q.
Proof.
  pose proof (ten_pos (Z.of_nat k) ltac:(lia)). pose proof m_ge1. apply Qnot_le_lt. intros C.
  assert (x * inject_Z (10 ^ Z.of_nat k) <= 0)%Q by nra. lra.
Qed.

(** 10^j x = m / 10^(k-j) *)
Definition X (j : nat) : Q := (x * inject_Z (10 ^ Z.of_nat j))%Q.
Lemma X_pos j : (0 < X j)%Q.
Proof. unfold X. pose proof x_pos. pose proof (ten_pos (Z.of_nat j) ltac:(lia)). nra. Qed.
Lemma X_rest j : (j <= k)%nat -> (X j * inject_Z (10 ^ Z.of_nat (k - j)) == inject_Z m)%Q.
Proof.
  intros H. unfold X. rewrite <- Hx, <- Qmult_assoc, <- inject_Z_mult, <- Z.pow_add_r by lia.
  replace (Z.of_nat j + Z.of_nat (k - j)) with (Z.of_nat k) by lia. reflexivity.
Qed.
Lemma v_bounds : ((1 - u) * x <= v /\ v <= (1 + u) * x)%Q.
Proof. pose proof (rnd_rel p x). pose proof x_pos. destruct H; [lra|]. lra. Qed.
Lemma v_nonneg : (0 <= v)%Q.
Proof. apply rnd_nonneg; [|lia]. apply Qlt_le_weak, x_pos. Qed.

(** the product v * 10^j as computed *)
Lemma w_bounds j f : (f == inject_Z (10 ^ Z.of_nat j))%Q ->
  (X j - 3 * (u * X j) <= fmul p v f /\ fmul p v f <= X j + 3 * (u * X j))%Q.
Proof.
  intros Hf. pose proof v_bounds as [V1 V2]. pose proof v_nonneg as V0. pose proof u_pos. pose proof u_small. pose proof (X_pos j) as XP.
  pose proof (ten_pos (Z.of_nat j) ltac:(lia)) as T. unfold fmul.
  assert (B1 : ((1 - u) * X j <= v * f)%Q) by (rewrite Hf; unfold X; rewrite Qmult_assoc; apply Qmult_le_compat_r; [assumption|lra]).
  assert (B2 : (v * f <= (1 + u) * X j)%Q) by (rewrite Hf; unfold X; rewrite (Qmult_assoc (1 + u)); apply Qmult_le_compat_r; [assumption|lra]).
  assert (U1 : (0 < u * X j)%Q) by nra. assert (U2 : (u * (u * X j) <= (1 # 1000) * (u * X j))%Q) by nra. assert (0 < u * (u * X j))%Q by nra.
  assert (0 <= v * f)%Q by (rewrite Hf; nra).
  pose proof (rnd_rel p (v * f) H2) as [R1 R2]. set (y := (v * f)%Q) in *. 
  assert (u * y <= u * ((1 + u) * X j))%Q by (apply Qmult_le_l; assumption).
  split; lra.
Qed.
(** the bound eps as computed after the factor became 10^(j+1) *)
Lemma eps_bounds j f : (f == inject_Z (10 ^ (Z.of_nat j + 1)))%Q ->
  ((197 # 10) * (u * X j) <= fmul p (fmul p (fepsilon p) v) f /\ fmul p (fmul p (fepsilon p) v) f <= (41 # 2) * (u * X j))%Q.
Proof.
  intros Hf. pose proof v_bounds as [V1 V2]. pose proof v_nonneg as V0. pose proof u_pos. pose proof u_small. pose proof (X_pos j) as XP. pose proof x_pos as xP.
  pose proof (ten_pos (Z.of_nat j) ltac:(lia)) as T.
  assert (F10 : (f == 10 * inject_Z (10 ^ Z.of_nat j))%Q) by (rewrite Hf, Z.pow_add_r, inject_Z_mult by lia; change (inject_Z (10 ^ 1)) with 10%Q; ring).
  unfold fmul at 2 4. set (a := (fepsilon p * v)%Q).
  assert (A : (a == 2 * (u * v))%Q) by (unfold a; rewrite fepsilon_value; ring).
  assert (ux : (0 < u * x)%Q) by nra. assert (uux : (u * (u * x) <= (1 # 1000) * (u * x))%Q) by nra. assert (uux0 : (0 < u * (u * x))%Q) by nra.
  assert (A1 : (2 * ((999 # 1000) * (u * x)) <= a)%Q) by (assert (u * ((1 - u) * x) <= u * v)%Q by (apply Qmult_le_l; assumption); lra).
  assert (A2 : (a <= 2 * ((1001 # 1000) * (u * x)))%Q) by (assert (u * v <= u * ((1 + u) * x))%Q by (apply Qmult_le_l; assumption); lra).
  assert (A0 : (0 <= a)%Q) by lra. pose proof (rnd_rel p a A0) as [R1 R2]. set (b := rnd p a) in *.
  assert (ua : (u * a <= (1 # 1000) * a)%Q) by nra. assert (ua0 : (0 <= u * a)%Q) by nra.
  assert (B1 : (2 * ((998 # 1000) * (u * x)) <= b)%Q) by lra. assert (B2 : (b <= 2 * ((1003 # 1000) * (u * x)))%Q) by lra.
  assert (E : (u * X j == (u * x) * inject_Z (10 ^ Z.of_nat j))%Q) by (unfold X; ring). set (t := inject_Z (10 ^ Z.of_nat j)) in *. clearbody t.
  assert (UX : (0 < u * X j)%Q) by nra.
  unfold fmul. set (y := (b * f)%Q). assert (Ey : (y == 10 * (b * t))%Q) by (unfold y; rewrite F10; ring).
  assert (Y1 : (20 * ((998 # 1000) * (u * X j)) <= y)%Q) by (assert (2 * ((998 # 1000) * (u * x)) * t <= b * t)%Q by (apply Qmult_le_compat_r; lra); lra).
  assert (Y2 : (y <= 20 * ((1003 # 1000) * (u * X j)))%Q) by (assert (b * t <= 2 * ((1003 # 1000) * (u * x)) * t)%Q by (apply Qmult_le_compat_r; lra); lra).
  assert (Y0 : (0 <= y)%Q) by lra. pose proof (rnd_rel p y Y0) as [Q1 Q2].
  assert (uy : (u * y <= (1 # 1000) * y)%Q) by nra. assert (uy0 : (0 <= u * y)%Q) by nra.
  split; lra.
Qed.

(** the fractional part as computed from a number close to m / 10^(k-j) *)
Lemma frac_bounds j w : (j < k)%nat -> (X j - 3 * (u * X j) <= w)%Q -> (w <= X j + 3 * (u * X j))%Q ->
  exists fd d, (0 < d /\ d <= 1 # 10 /\ 28 * (u * X j) <= d /\ d <= fd /\ fd <= 1 - d /\ (fd <= 1 # 2 \/ 14 * u <= d) /\
    let g := (w - ffloor w)%Q in fd - 3 * (u * X j) <= g /\ g <= fd + 3 * (u * X j) /\
    (1 - u) * g <= fsub p w (ffloor w) /\ fsub p w (ffloor w) <= (1 + u) * g)%Q.
Proof.
  intros Hj W1 W2. pose proof (X_rest j ltac:(lia)) as R. set (N := 10 ^ Z.of_nat (k - j)) in *.
  assert (N10 : exists N', N = 10 * N' /\ 0 < N').
  { exists (10 ^ Z.of_nat (k - j - 1)). split; [|apply Z.pow_pos_nonneg; lia]. unfold N. rewrite <- Z.pow_succ_r by lia. f_equal. lia. }
  destruct N10 as [N' [EN N'pos]].
  pose proof (Z.div_mod m N ltac:(lia)) as DM. pose proof (Z.mod_pos_bound m N ltac:(lia)) as MB. set (q := m / N) in *. set (f := m mod N) in *.
  assert (f <> 0).
  { intros E. apply Hm10. rewrite DM, E, EN. rewrite Z.add_0_r, <- Z.mul_assoc, Z.mul_comm. apply Z.mod_mul. lia. }
  assert (q0 : 0 <= q) by (apply Z.div_pos; lia).
  assert (QN : (0 < inject_Z N)%Q) by (change 0%Q with (inject_Z 0); rewrite <- Zlt_Qlt; lia).
  set (d := (1 / inject_Z N)%Q). assert (Ed : (d * inject_Z N == 1)%Q) by (unfold d; field; lra).
  assert (D0 : (0 < d)%Q) by (unfold d; apply Qlt_shift_div_l; lra).
  assert (D1 : (d <= 1 # 10)%Q). { assert (10 <= inject_Z N)%Q by (change 10%Q with (inject_Z 10); rewrite <- Zle_Qle; lia). nra. }
  assert (EX : (X j == d * inject_Z m)%Q). { rewrite <- R. transitivity (X j * (d * inject_Z N))%Q; [rewrite Ed; ring|ring]. }
  set (fd := (d * inject_Z f)%Q).
  assert (EXq : (X j == inject_Z q + fd)%Q).
  { rewrite EX, DM, inject_Z_plus, inject_Z_mult. unfold fd. transitivity ((d * inject_Z N) * inject_Z q + d * inject_Z f)%Q; [ring|rewrite Ed; ring]. }
  assert (F1 : (1 <= inject_Z f)%Q) by (change 1%Q with (inject_Z 1); rewrite <- Zle_Qle; lia).
  assert (F2 : (inject_Z f <= inject_Z N - 1)%Q).
  { change 1%Q with (inject_Z 1). unfold Qminus. rewrite <- inject_Z_opp, <- inject_Z_plus, <- Zle_Qle. lia. }
  assert (FD1 : (d <= fd)%Q) by (unfold fd; nra).
  assert (FD2 : (fd <= 1 - d)%Q). { unfold fd. rewrite <- Ed. assert (d * inject_Z f <= d * (inject_Z N - 1))%Q by (apply Qmult_le_l; assumption). lra. }
  pose proof um as UM. pose proof u_pos. pose proof u_small.
  assert (Z1 : (28 * (u * X j) <= d)%Q). { rewrite EX. assert (d * (28 * (u * inject_Z m)) <= d * 1)%Q by (apply Qmult_le_l; assumption). lra. }
  assert (FD3 : (fd <= 1 # 2 \/ 14 * u <= d)%Q).
  { destruct (Z_le_gt_dec (2 * f) N) as [L|L].
    - left. assert (inject_Z (2 * f) <= inject_Z N)%Q by (rewrite <- Zle_Qle; exact L). rewrite inject_Z_mult in H2. change (inject_Z 2) with 2%Q in H2.
      assert (d * (2 * inject_Z f) <= d * inject_Z N)%Q by (apply Qmult_le_l; assumption). unfold fd. lra.
    - right. assert (N <= 2 * m) by nia. assert (inject_Z N <= inject_Z (2 * m))%Q by (rewrite <- Zle_Qle; assumption). rewrite inject_Z_mult in H3. change (inject_Z 2) with 2%Q in H3.
      assert (u * inject_Z N <= u * (2 * inject_Z m))%Q by (apply Qmult_le_l; assumption).
      assert (14 * (u * inject_Z N) <= 1)%Q by lra. assert (d * (14 * (u * inject_Z N)) <= d * 1)%Q by (apply Qmult_le_l; assumption).
      assert (d * (14 * (u * inject_Z N)) == 14 * u)%Q by (transitivity (14 * u * (d * inject_Z N))%Q; [ring|rewrite Ed; ring]). lra. }
  assert (FL : Qfloor w = q) by (apply floor_is; lra).
  exists fd, d. assert (G : (0 <= w - ffloor w)%Q) by (unfold ffloor; rewrite FL; lra).
  pose proof (rnd_rel p (w - ffloor w) G) as [S1 S2]. unfold fsub.
  assert (Eg : (w - ffloor w == w - inject_Z q)%Q) by (unfold ffloor; rewrite FL; reflexivity).
  cbv zeta. repeat match goal with |- _ /\ _ => split end; try assumption; try lra.
Qed.

Definition cond (c eps : Q) : bool := (flt eps c && flt c (fsub p 1 eps))%bool.
Lemma sub1 eps : (0 <= eps)%Q -> (eps <= 1)%Q -> ((1 - u) * (1 - eps) <= fsub p 1 eps /\ fsub p 1 eps <= (1 + u) * (1 - eps))%Q.
Proof. intros A B. unfold fsub. destruct (rnd_rel p (1 - eps)) as [S1 S2]; [lra|]. split; lra. Qed.

Lemma cond_first : (0 < k)%nat -> cond (fsub p v (ffloor v)) (fmul p (fepsilon p) (fsub p v (ffloor v))) = true.
Proof.
  intros Hk. pose proof v_bounds as [V1 V2]. pose proof u_pos as U0. pose proof u_small as U1. pose proof x_pos as xP.
  assert (EX : (X 0 == x)%Q) by (unfold X; change (inject_Z (10 ^ Z.of_nat 0)) with 1%Q; ring).
  destruct (frac_bounds 0 v Hk) as [fd [d H]]; [rewrite EX; assert (0 < u * x)%Q by nra; lra|rewrite EX; assert (0 < u * x)%Q by nra; lra|].
  destruct H as [D0 [D1 [Z1 [F1 [F2 [F3 [G1 [G2 [C1 C2]]]]]]]]]. set (c := fsub p v (ffloor v)) in *. set (g := (v - ffloor v)%Q) in *.
  assert (UX : (0 < u * X 0)%Q) by (pose proof (X_pos 0); nra).
  assert (g0 : (0 < g)%Q) by lra. assert (g1 : (g <= 1)%Q) by lra. assert (ug : (u * g <= (1 # 1000) * g)%Q) by nra. assert (ug0 : (0 < u * g)%Q) by nra.
  assert (c0 : (0 < c)%Q) by lra. assert (c1 : (c <= 2)%Q) by lra.
  set (eps := fmul p (fepsilon p) c).
  assert (Ee : (fepsilon p * c == 2 * (u * c))%Q) by (rewrite fepsilon_value; ring). assert (uc : (0 < u * c)%Q) by nra.
  destruct (rnd_rel p (fepsilon p * c)) as [E1 E2]; [lra|]. change (rnd p (fepsilon p * c)) with eps in *. rewrite Ee in E1, E2.
  assert (uuc : (u * (u * c) <= (1 # 1000) * (u * c))%Q) by nra. assert (0 <= u * (u * c))%Q by nra.
  assert (uc1 : (u * c <= (1 # 1000) * 2)%Q) by nra.
  destruct (sub1 eps) as [S1 S2]; [lra|lra|].
  destruct (cond_true_first u d (u * X 0) fd g c eps (fsub p 1 eps)) as [T1 T2]; try assumption; try lra.
  unfold cond. apply andb_true_iff. split; apply flt_spec; assumption.
Qed.
Lemma cond_mid j f f' : (j < k)%nat -> (f == inject_Z (10 ^ Z.of_nat j))%Q -> (f' == inject_Z (10 ^ (Z.of_nat j + 1)))%Q ->
  cond (fsub p (fmul p v f) (ffloor (fmul p v f))) (fmul p (fmul p (fepsilon p) v) f') = true.
Proof.
  intros Hj Hf Hf'. destruct (w_bounds j f Hf) as [W1 W2]. destruct (eps_bounds j f' Hf') as [E1 E2]. pose proof u_pos as U0. pose proof u_small as U1.
  destruct (frac_bounds j (fmul p v f) Hj W1 W2) as [fd [d H]].
  destruct H as [D0 [D1 [Z1 [F1 [F2 [F3 [G1 [G2 [C1 C2]]]]]]]]].
  assert (UX : (0 < u * X j)%Q) by (pose proof (X_pos j); nra).
  set (eps := fmul p (fmul p (fepsilon p) v) f') in *. destruct (sub1 eps) as [S1 S2]; [lra|lra|].
  destruct (cond_true_mid u d (u * X j) fd (fmul p v f - ffloor (fmul p v f)) (fsub p (fmul p v f) (ffloor (fmul p v f))) eps (fsub p 1 eps)) as [T1 T2]; try assumption; try lra.
  unfold cond. apply andb_true_iff. split; apply flt_spec; assumption.
Qed.
Lemma cond_end f f' : (f == inject_Z (10 ^ Z.of_nat k))%Q -> (f' == inject_Z (10 ^ (Z.of_nat k + 1)))%Q ->
  cond (fsub p (fmul p v f) (ffloor (fmul p v f))) (fmul p (fmul p (fepsilon p) v) f') = false.
Proof.
  intros Hf Hf'. destruct (w_bounds k f Hf) as [W1 W2]. destruct (eps_bounds k f' Hf') as [E1 E2]. pose proof u_pos as U0. pose proof u_small as U1.
  assert (EX : (X k == inject_Z m)%Q) by exact Hx. rewrite EX in W1, W2, E1, E2. pose proof um as UM. pose proof m_ge1 as M1.
  assert (T1 : (u <= u * inject_Z m)%Q) by nra. set (t := (u * inject_Z m)%Q) in *.
  set (w := fmul p v f) in *. set (eps := fmul p (fmul p (fepsilon p) v) f') in *. destruct (sub1 eps) as [S1 S2]; [lra|lra|].
  assert (G : (0 <= w - ffloor w)%Q /\ ((w - ffloor w <= 3 * t)%Q \/ ((w - ffloor w <= 1)%Q /\ (1 - 3 * t <= w - ffloor w)%Q))).
  { destruct (Qlt_le_dec w (inject_Z m)) as [L|L].
    - assert (FL : Qfloor w = m - 1). { apply floor_is; unfold Z.sub; rewrite inject_Z_plus; change (inject_Z (-(1))) with (-(1))%Q; lra. }
      unfold ffloor. rewrite FL. unfold Z.sub. rewrite inject_Z_plus. change (inject_Z (-(1))) with (-(1))%Q. split; [lra|right; split; lra].
    - assert (FL : Qfloor w = m) by (apply floor_is; lra). unfold ffloor. rewrite FL. split; [lra|left; lra]. }
  destruct G as [G0 G]. destruct (rnd_rel p (w - ffloor w) G0) as [C1 C2].
  destruct (cond_false_end u t (w - ffloor w) (fsub p w (ffloor w)) eps (fsub p 1 eps)) as [T|T]; try assumption; unfold fsub; try lra.
  - unfold cond. apply andb_false_iff. left. apply flt_false. exact T.
  - unfold cond. apply andb_false_iff. right. apply flt_false. exact T.
Qed.

Lemma factor_next j f : (j <= k)%nat -> (f == inject_Z (10 ^ Z.of_nat j))%Q -> (fmul p f 10 == inject_Z (10 ^ (Z.of_nat j + 1)))%Q.
Proof.
  intros Hj Hf. unfold fmul.
  assert (E : (f * 10 == inject_Z (10 ^ (Z.of_nat j + 1)))%Q) by (rewrite Hf, Z.pow_add_r, inject_Z_mult by lia; reflexivity).
  rewrite rnd_rep; [exact E|lia|]. apply rep_eq with (inject_Z (10 ^ (Z.of_nat j + 1))); [symmetry; exact E|].
  apply pow10_rep; [lia|]. apply Z.le_trans with (5 ^ (Z.of_nat k + 1)); [apply Z.pow_le_mono_r; lia|assumption].
Qed.
Lemma loop_counts : forall i n j f c eps, (j + i = k)%nat -> (i <= n)%nat -> (f == inject_Z (10 ^ (Z.of_nat j + 1)))%Q ->
  cond c eps = (match i with O => false | _ => true end) -> decimal_loop p n v c f eps j = k.
Proof.
  induction i as [|i IH]; intros n j f c eps Hj Hn Hf Hc.
  - destruct n; cbn [decimal_loop]; unfold cond in Hc; rewrite Hc; lia.
  - destruct n as [|n]; [lia|]. cbn [decimal_loop]. unfold cond in Hc at 1. rewrite Hc.
    assert (Hf2 : (f == inject_Z (10 ^ Z.of_nat (S j)))%Q) by (rewrite Hf; replace (Z.of_nat (S j)) with (Z.of_nat j + 1) by lia; reflexivity).
    pose proof (factor_next (S j) f ltac:(lia) Hf2) as Hf3.
    apply IH; [lia|lia|exact Hf3|]. destruct i as [|i].
    + apply cond_end; replace k with (S j) by lia; assumption.
    + apply cond_mid with (j := S j); [lia|assumption|assumption].
Qed.

Lemma v_abs : Qabs v = v.
Proof. pose proof v_nonneg as V. destruct v as [a b]. unfold Qle in V. cbn in V. cbn. rewrite Z.abs_eq by lia. reflexivity. Qed.
Lemma decimal_places_k F : fprec F = p -> (0 < k)%nat -> (k <= fdig F)%nat -> decimal_places F v = k.
Proof.
  intros HF Hk Hd. unfold decimal_places. rewrite HF, v_abs. apply loop_counts with (i := k); [lia|exact Hd|reflexivity|].
  rewrite cond_first by exact Hk. destruct k; [lia|reflexivity].
Qed.
End Loop.

(** an integer has no decimal places *)
Lemma decimal_places_0 F v : (exists n, 0 <= n /\ (v == inject_Z n)%Q) -> decimal_places F v = 0%nat.
Proof.
  intros [n [Hn E]]. unfold decimal_places.
  assert (EA : (Qabs v == inject_Z n)%Q). { rewrite Qabs_pos; [exact E|]. rewrite E. change 0%Q with (inject_Z 0). rewrite <- Zle_Qle. exact Hn. }
  assert (FL : Qfloor (Qabs v) = n) by (apply floor_is; rewrite EA; lra).
  set (a := Qabs v) in *. unfold fsub. rewrite (rnd_0 _ (a - ffloor a)) by (unfold ffloor; rewrite FL, EA; ring).
  unfold fmul. rewrite (rnd_0 _ (fepsilon (fprec F) * 0)) by ring. destruct (fdig F); reflexivity.
Qed.
