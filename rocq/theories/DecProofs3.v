(** The nearest number; exactness of one-digit and of dyadic decimals; what Rational(long double) makes of a rounded decimal. *)
From Coq Require Import ZArith QArith Qround Qabs Qpower Lqa Lia Bool List String.
From Verif Require Import Base AdapterModel AdapterProofs RationalModel RationalProofs RationalSpec DecModel DecSpec DecProofs1 DecProofs2.
Import ListNotations.
Open Scope Z_scope.

Lemma Qabs_diff a b : (Qabs (a - b) == Qabs (b - a))%Q.
Proof. rewrite <- Qabs_opp. apply Qabs_wd. ring. Qed.
Lemma Qabs_cases a : ((0 <= a /\ Qabs a == a) \/ (a <= 0 /\ Qabs a == - a))%Q.
Proof. destruct (Qlt_le_dec a 0); [right|left]; split; try lra. - apply Qabs_neg. lra. - apply Qabs_pos. lra. Qed.

(** no number of p bits is nearer *)
Lemma rnd_nearest_pos p x z : 1 <= p -> (0 < x)%Q -> rep p z -> (Qabs (x - rnd p x) <= Qabs (x - z))%Q.
Proof.
  intros Hp Hx [n [s [Hn Ez]]]. destruct (rnd_spec p x Hx) as [e [m [E1 [E2 [R [M0 [R1 _]]]]]]].
  set (U := P2 (e - p + 1)) in *. assert (PU : (0 < U)%Q) by apply P2_pos. rewrite R.
  (* 2^e is a multiple of the unit *)
  assert (Nearest : forall k, (Qabs (x - inject_Z m * U) <= Qabs (x - inject_Z k * U))%Q).
  { intros k. destruct (Z.eq_dec k m) as [->|Hk]; [lra|].
    assert (1 <= Qabs (inject_Z k - inject_Z m))%Q. { apply Qnot_lt_le. intros C. apply int_close in C. contradiction. }
    assert (T : (Qabs (inject_Z k * U - inject_Z m * U) == Qabs (inject_Z k - inject_Z m) * U)%Q).
    { transitivity (Qabs (inject_Z k - inject_Z m) * Qabs U)%Q; [|rewrite (Qabs_pos U) by lra; reflexivity]. rewrite <- Qabs_Qmult. apply Qabs_wd. ring. }
    assert (U <= Qabs (inject_Z k * U - inject_Z m * U))%Q by (rewrite T; nra).
    pose proof (Qabs_triangle (inject_Z k * U - x) (x - inject_Z m * U)) as Tr.
    assert (E : (inject_Z k * U - x + (x - inject_Z m * U) == inject_Z k * U - inject_Z m * U)%Q) by ring. rewrite E in Tr.
    rewrite (Qabs_diff (inject_Z k * U) x) in Tr. lra. }
  destruct (Qlt_le_dec z (P2 e)) as [L|L].
  - assert (B : (P2 e == inject_Z (2 ^ (p - 1)) * U)%Q) by (rewrite <- P2_nonneg by lia; unfold U; rewrite <- P2_plus; replace (p - 1 + (e - p + 1)) with e by lia; reflexivity).
    apply Qle_trans with (Qabs (x - inject_Z (2 ^ (p - 1)) * U)); [apply Nearest|]. rewrite <- B. rewrite !Qabs_pos by lra. lra.
  - assert (exists k, (z == inject_Z k * U)%Q) as [k ->]; [|apply Nearest].
    assert (Ps := P2_pos s).
    assert (e <= p + s). { destruct (Z_le_gt_dec e (p + s)) as [|G]; [assumption|exfalso].
      assert (z <= P2 (p + s))%Q. { rewrite Ez, P2_plus, (P2_nonneg p) by lia. apply Qmult_le_compat_r; [rewrite <- Zle_Qle; lia|lra]. }
      assert (P2 (p + s + 1) <= P2 e)%Q by (apply P2_le; lia). rewrite P2_S in H0. pose proof (P2_pos (p + s)). lra. }
    destruct (Z.eq_dec n (2 ^ p)) as [->|Hn2].
    + exists (2 ^ (p + s - (e - p + 1))). rewrite Ez. destruct (Z.eq_dec e (p + s)) as [->|].
      * rewrite <- !P2_nonneg by lia. unfold U. rewrite <- !P2_plus. replace (p + s - (p + s - p + 1) + (p + s - p + 1)) with (p + s) by lia. reflexivity.
      * rewrite <- !P2_nonneg by lia. unfold U. rewrite <- !P2_plus. replace (p + s - (e - p + 1) + (e - p + 1)) with (p + s) by lia. reflexivity.
    + assert (e < p + s).
      { apply P2_lt_inv. apply Qle_lt_trans with z; [assumption|]. rewrite Ez, P2_plus, (P2_nonneg p) by lia. apply Qmult_lt_r; [assumption|]. rewrite <- Zlt_Qlt. lia. }
      exists (n * 2 ^ (s - (e - p + 1))). rewrite Ez, inject_Z_mult, <- P2_nonneg by lia. unfold U. rewrite <- Qmult_assoc, <- P2_plus.
      replace (s - (e - p + 1) + (e - p + 1)) with s by lia. reflexivity.
Qed.
Lemma rnd_ge p x z : 1 <= p -> (0 < x)%Q -> rep p z -> (z <= x)%Q -> (z <= rnd p x)%Q.
Proof.
  intros Hp Hx Hz L. pose proof (rnd_nearest_pos p x z Hp Hx Hz) as N. apply Qnot_lt_le. intros C.
  rewrite (Qabs_pos (x - rnd p x)), (Qabs_pos (x - z)) in N by lra. lra.
Qed.
Lemma int_rep p n : 0 <= n <= 2 ^ p -> rep p (inject_Z n).
Proof. intros H. exists n, 0. split; [assumption|]. change (P2 0) with 1%Q. ring. Qed.

(** Kahan: dividing by ten and multiplying by ten again loses nothing *)
Lemma one_digit p m x f : 24 <= p -> 1 <= m -> 28 * m <= 2 ^ p -> (x * 10 == inject_Z m)%Q -> (f == 10)%Q -> (inject_Z m <= rnd p (rnd p x * f))%Q.
Proof.
  intros Hp Hm Hm2 Hx Hf.
  assert (M1 : (1 <= inject_Z m)%Q) by (change 1%Q with (inject_Z 1); rewrite <- Zle_Qle; exact Hm).
  assert (xP : (0 < x)%Q) by lra.
  destruct (rnd_spec p x xP) as [e [V [E1 [E2 [R [V0 [R1 _]]]]]]].
  set (g := e - p + 1) in *. set (G := P2 g) in *. assert (PG : (0 < G)%Q) by apply P2_pos.
  (* e is small *)
  assert (He : e + 8 < p).
  { apply P2_lt_inv. rewrite P2_plus, (P2_nonneg p) by lia. change (P2 8) with 256%Q.
    assert (inject_Z (28 * m) <= inject_Z (2 ^ p))%Q by (rewrite <- Zle_Qle; exact Hm2). rewrite inject_Z_mult in H. change (inject_Z 28) with 28%Q in H. lra. }
  assert (Em : (inject_Z m == inject_Z (m * 2 ^ (- g)) * G)%Q).
  { rewrite inject_Z_mult, <- P2_nonneg by lia. rewrite <- Qmult_assoc. unfold G. rewrite <- P2_plus. replace (- g + g) with 0 by lia. change (P2 0) with 1%Q. ring. }
  set (y := (rnd p x * f)%Q). assert (Ey : (y == inject_Z (10 * V) * G)%Q) by (unfold y; rewrite Hf, R, inject_Z_mult; change (inject_Z 10) with 10%Q; ring).
  assert (Ev : exists h, m * 2 ^ (- g) = 2 * h). { exists (m * 2 ^ (- g - 1)). replace (- g) with (Z.succ (- g - 1)) at 1 by lia. rewrite Z.pow_succ_r by lia. ring. }
  destruct Ev as [h Eh].
  set (D := m * 2 ^ (- g) - 10 * V) in *.
  assert (ED : (inject_Z m - y == inject_Z D * G)%Q) by (rewrite Em, Ey; unfold D, Z.sub; rewrite inject_Z_plus, inject_Z_opp; ring).
  assert (Dabs : (Qabs (inject_Z D) <= 5)%Q).
  { assert (T : (inject_Z m - y == 10 * (x - inject_Z V * G))%Q) by (rewrite <- Hx, Ey, inject_Z_mult; change (inject_Z 10) with 10%Q; ring).
    assert (A : (Qabs (inject_Z m - y) <= 5 * G)%Q) by (rewrite T, Qabs_Qmult; change (Qabs 10) with 10%Q; lra).
    rewrite ED, Qabs_Qmult, (Qabs_pos G) in A by lra. apply Qmult_le_r in A; assumption. }
  assert (D4 : D <= 4).
  { assert (D <= 5). { rewrite Zle_Qle. change (inject_Z 5) with 5%Q. pose proof (Qle_Qabs (inject_Z D)). lra. }
    assert (D = 2 * (h - 5 * V)) by (unfold D; lia). lia. }
  assert (D5 : -5 <= D). { rewrite Zle_Qle. change (inject_Z (-5)) with (-(5))%Q. pose proof (Qle_Qabs (- inject_Z D)) as A. rewrite Qabs_opp in A. lra. }
  assert (G8 : (256 * G <= P2 e)%Q). { change 256%Q with (P2 8). unfold G. rewrite <- P2_plus. apply P2_le. unfold g. lia. }
  assert (B : (- (5) <= inject_Z D)%Q) by (change (- (5))%Q with (inject_Z (-5)); rewrite <- Zle_Qle; lia).
  assert (B' : (inject_Z D <= 4)%Q) by (change 4%Q with (inject_Z 4); rewrite <- Zle_Qle; lia).
  assert (DG1 : (inject_Z D * G <= 4 * G)%Q) by (apply Qmult_le_compat_r; lra). assert (DG2 : (- (5) * G <= inject_Z D * G)%Q) by (apply Qmult_le_compat_r; lra).
  assert (Y1 : (8 * P2 e <= y)%Q) by lra.
  assert (Pe := P2_pos e). rewrite P2_S in E2.
  assert (Y2 : (y < 32 * P2 e)%Q) by lra.
  assert (y0 : (0 < y)%Q) by lra.
  destruct (Z_le_gt_dec D 0) as [Dneg|Dpos].
  { apply rnd_ge; [lia|assumption|apply int_rep; lia|]. assert (inject_Z D <= 0)%Q by (change 0%Q with (inject_Z 0); rewrite <- Zle_Qle; exact Dneg). nra. }
  destruct (rnd_spec p y y0) as [e' [Y [F1 [F2 [RY [_ [Q1 Q2]]]]]]].
  assert (e + 3 < e' + 1). { apply P2_lt_inv. rewrite P2_plus. change (P2 3) with 8%Q. lra. }
  assert (e' < e + 5). { apply P2_lt_inv. rewrite (P2_plus e 5). change (P2 5) with 32%Q. lra. }
  set (g' := e' - p + 1) in *. set (U := P2 g') in *. assert (PU : (0 < U)%Q) by apply P2_pos.
  assert (UG : (8 * G <= U)%Q). { change 8%Q with (P2 3). unfold G, U. rewrite <- P2_plus. apply P2_le. unfold g, g'. lia. }
  set (Mm := m * 2 ^ (- g')). assert (EM : (inject_Z m == inject_Z Mm * U)%Q).
  { unfold Mm. rewrite inject_Z_mult, <- P2_nonneg by (unfold g'; lia). rewrite <- Qmult_assoc. unfold U. rewrite <- P2_plus. replace (- g' + g') with 0 by lia. change (P2 0) with 1%Q. ring. }
  assert (EvM : Z.even Mm = true).
  { unfold Mm. replace (- g') with (Z.succ (- g' - 1)) by lia. rewrite Z.pow_succ_r by (unfold g'; lia). rewrite Z.even_mul, Z.even_mul. cbn. apply orb_true_r. }
  rewrite RY. rewrite EM. apply Qmult_le_compat_r; [|lra]. rewrite <- Zle_Qle.
  destruct (Z_le_gt_dec Mm Y) as [|C]; [assumption|exfalso].
  assert (L : (inject_Z Y * U <= inject_Z Mm * U - U)%Q).
  { assert (inject_Z Y <= inject_Z Mm - 1)%Q by (change 1%Q with (inject_Z 1); unfold Qminus; rewrite <- inject_Z_opp, <- inject_Z_plus, <- Zle_Qle; lia).
    assert (inject_Z Y * U <= (inject_Z Mm - 1) * U)%Q by (apply Qmult_le_compat_r; lra). lra. }
  assert (P : (0 <= y - inject_Z Y * U)%Q) by lra. rewrite (Qabs_pos _ P) in Q1, Q2.
  assert (Eq : ((y - inject_Z Y * U) * 2 == U)%Q) by lra.
  assert (Z.even Y = true) by (apply Q2; exact Eq).
  assert (Y = Mm - 1).
  { assert (inject_Z Mm - inject_Z Y <= 1)%Q. { apply Qmult_le_r with (z := U); [assumption|]. lra. }
    assert (Mm - Y <= 1). { rewrite Zle_Qle. unfold Z.sub. rewrite inject_Z_plus, inject_Z_opp. change (inject_Z 1) with 1%Q. lra. } lia. }
  rewrite H2, Z.even_sub, EvM in H1. discriminate.
Qed.

(** ** Rational(long double) *)
(** the numerator that is computed for m / 10^k *)
Definition read_numerator (p m : Z) (k : nat) (x : Q) : Z :=
  if Qle_bool (inject_Z m) (rnd p (rnd p x * inject_Z (10 ^ Z.of_nat k))) then m else m - 1.

Lemma pow10_value k : Zpos (pow10 k) = 10 ^ Z.of_nat k.
Proof. unfold pow10. rewrite Z2Pos.id; [reflexivity|]. apply Z.pow_pos_nonneg; lia. Qed.
Lemma digits10_fits w k : 2 <= w -> (k <= int_digits10 w)%nat -> 10 ^ Z.of_nat k < 2 ^ (w - 1).
Proof.
  intros Hw Hk. unfold int_digits10 in Hk.
  assert (K : 2136 * Z.of_nat k <= 643 * (w - 1)).
  { assert (0 <= (w - 1) * 643 / 2136) by (apply Z.div_pos; lia). assert (Z.of_nat k <= (w - 1) * 643 / 2136) by lia.
    pose proof (Z.mul_div_le ((w - 1) * 643) 2136 ltac:(lia)). lia. }
  destruct k as [|k]. { change (10 ^ Z.of_nat 0) with 1. change 1 with (2 ^ 0). apply Z.pow_lt_mono_r; lia. }
  assert (A : 10 ^ 643 < 2 ^ 2136) by (vm_compute; reflexivity).
  set (a := Z.of_nat (S k)) in *. assert (0 < a) by lia.
  destruct (Z_lt_le_dec (10 ^ a) (2 ^ (w - 1))) as [|C]; [assumption|exfalso].
  assert ((2 ^ (w - 1)) ^ 2136 <= (10 ^ a) ^ 2136). { apply Z.pow_le_mono_l. split; [apply Z.pow_nonneg; lia|exact C]. }
  rewrite <- !Z.pow_mul_r in H0 by lia.
  assert (10 ^ (a * 2136) <= 10 ^ (643 * (w - 1))) by (apply Z.pow_le_mono_r; lia).
  assert (B : (10 ^ 643) ^ (w - 1) < (2 ^ 2136) ^ (w - 1)). { apply Z.pow_lt_mono_l; [lia|]. split; [apply Z.pow_nonneg; lia|exact A]. }
  rewrite <- !Z.pow_mul_r in B by lia. replace (2136 * (w - 1)) with ((w - 1) * 2136) in B by ring. lia.
Qed.

Lemma ftrunc_opp y : ftrunc (- y) = - ftrunc y.
Proof.
  unfold ftrunc. destruct (Qle_bool 0 y) eqn:A, (Qle_bool 0 (- y)) eqn:B.
  - apply Qle_bool_iff in A, B. assert (E : (y == 0)%Q) by lra.
    assert (Qfloor y = 0) by (apply floor_is; change (inject_Z 0) with 0%Q; lra).
    assert (Qfloor (- y) = 0) by (apply floor_is; change (inject_Z 0) with 0%Q; lra). lia.
  - rewrite Qopp_involutive. reflexivity.
  - lia.
  - assert (~ (0 <= y)%Q) by (intros C; apply Qle_bool_iff in C; congruence). assert (~ (0 <= - y)%Q) by (intros C; apply Qle_bool_iff in C; congruence).
    exfalso. destruct (Qlt_le_dec y 0); [apply H0; lra|apply H; lra].
Qed.
Lemma opp_mul v d : (- v * d)%Q = (- (v * d))%Q.
Proof. destruct v, d. unfold Qmult, Qopp. cbn [QArith_base.Qnum QArith_base.Qden]. f_equal. ring. Qed.
Lemma Qabs_opp_eq v : Qabs (- v) = Qabs v.
Proof. destruct v. unfold Qopp. cbn. rewrite Z.abs_opp. reflexivity. Qed.

Lemma shortest_x x m k : shortest_decimal x m k -> (x * inject_Z (10 ^ Z.of_nat k) == inject_Z m)%Q.
Proof.
  intros (_ & E & _). rewrite E. rewrite <- pow10_value. unfold Qeq, Qmult, inject_Z. cbn [QArith_base.Qnum QArith_base.Qden]. lia.
Qed.
Lemma places F x m k : good_format F -> shortest_decimal x m k -> 28 * m <= 2 ^ fprec F -> (k <= fdig F)%nat -> decimal_places F (rnd (fprec F) x) = k.
Proof.
  intros (F1 & _ & _ & F4) S Hm Hk. pose proof (shortest_x x m k S) as Ex. destruct S as (M0 & E & S).
  destruct (Z.eq_dec m 0) as [->|Hm0].
  { assert (k = 0%nat) as -> by (destruct S; [assumption|exfalso; apply H; reflexivity]). apply decimal_places_0. exists 0. split; [lia|].
    rewrite rnd_0; [reflexivity|]. rewrite E. unfold Qeq. cbn. reflexivity. }
  destruct k as [|k].
  - apply decimal_places_0. exists m. split; [lia|]. change (inject_Z (10 ^ Z.of_nat 0)) with 1%Q in Ex. rewrite rnd_rep; [lra|lia|].
    apply rep_eq with (inject_Z m); [lra|]. apply int_rep. lia.
  - apply decimal_places_k with (m := m); try lia; try assumption.
    apply Z.le_trans with (5 ^ (Z.of_nat (fdig F) + 1)); [apply Z.pow_le_mono_r; lia|assumption].
Qed.

Lemma product_close F x m k : good_format F -> shortest_decimal x m k -> 28 * m <= 2 ^ fprec F -> (k <= fdig F)%nat ->
  let y := rnd (fprec F) (rnd (fprec F) x * inject_Z (10 ^ Z.of_nat k)) in
  (inject_Z m - (3 # 28) <= y /\ y <= inject_Z m + (3 # 28) /\ 0 <= y)%Q.
Proof.
  intros (F1 & _ & _ & F4) S Hm Hk y. pose proof (shortest_x x m k S) as Ex. destruct S as (M0 & E & S). set (p := fprec F) in *.
  assert (xN : (0 <= x)%Q) by (rewrite E; unfold Qle; cbn; lia).
  assert (T : (0 < inject_Z (10 ^ Z.of_nat k))%Q) by (change 0%Q with (inject_Z 0); rewrite <- Zlt_Qlt; apply Z.pow_pos_nonneg; lia).
  assert (vN : (0 <= rnd p x)%Q) by (apply rnd_nonneg; [assumption|lia]).
  assert (yN : (0 <= y)%Q) by (apply rnd_nonneg; [nra|lia]).
  destruct (Z.eq_dec m 0) as [->|Hm0].
  { assert (x == 0)%Q by (rewrite E; reflexivity). assert (E0 : rnd p x = 0%Q) by (apply rnd_0; assumption).
    assert (EY : y = 0%Q) by (unfold y; rewrite E0; apply rnd_0; ring). rewrite EY. change (inject_Z 0) with 0%Q. repeat split; lra. }
  assert (Hp : 24 <= p) by exact F1. assert (H1 : 1 <= m) by lia.
  pose proof (w_bounds p m k x Hp H1 Ex k (inject_Z (10 ^ Z.of_nat k)) (Qeq_refl _)) as [W1 W2]. unfold X in W1, W2. rewrite Ex in W1, W2.
  assert (U : (28 * (P2 (- p) * inject_Z m) <= 1)%Q) by (eapply um; eassumption || exact Ex). unfold fmul in W1, W2. fold y in W1, W2. repeat split; try assumption; lra.
Qed.

Lemma rat_of_nonneg_float w F x m k : good_format F -> shortest_decimal x m k -> 28 * m <= 2 ^ fprec F ->
  (k <= fdig F)%nat -> 2 <= w -> (k <= int_digits10 w)%nat -> m < 2 ^ (w - 1) ->
  rat_of_float w F (rnd (fprec F) x) = rat_normalize w (Rat (read_numerator (fprec F) m k x) (10 ^ Z.of_nat k)) /\
  rat_of_float w F (- rnd (fprec F) x) = rat_normalize w (Rat (- read_numerator (fprec F) m k x) (10 ^ Z.of_nat k)) /\
  0 <= read_numerator (fprec F) m k x <= m /\ m - 1 <= read_numerator (fprec F) m k x.
Proof.
  intros HF S Hm Hk Hw Hd Hr. pose proof (places F x m k HF S Hm Hk) as PL. pose proof (product_close F x m k HF S Hm Hk) as (B1 & B2 & B3).
  unfold read_numerator. set (p := fprec F) in *. set (v := rnd p x) in *. set (D := 10 ^ Z.of_nat k) in *. set (y := rnd p (v * inject_Z D)) in *.
  assert (M0 : 0 <= m) by (destruct S; assumption).
  set (n := if Qle_bool (inject_Z m) y then m else m - 1).
  assert (Tn : ftrunc y = n /\ 0 <= n <= m /\ m - 1 <= n).
  { unfold ftrunc, n. assert (Qle_bool 0 y = true) as -> by (apply Qle_bool_iff; exact B3).
    destruct (Qle_bool (inject_Z m) y) eqn:L.
    - apply Qle_bool_iff in L. split; [apply floor_is; lra|lia].
    - assert (L' : (y < inject_Z m)%Q) by (apply Qnot_le_lt; intros C; apply Qle_bool_iff in C; congruence).
      assert (Qfloor y = m - 1) as ->. { apply floor_is; unfold Z.sub; rewrite inject_Z_plus; change (inject_Z (-(1))) with (-(1))%Q; lra. }
      split; [reflexivity|]. assert (m <> 0); [|lia]. intros ->. change (inject_Z 0) with 0%Q in L'. lra. }
  destruct Tn as (Tn & N1 & N2).
  assert (NB : (int_digits10 w <? k)%nat = false) by (apply Nat.ltb_ge; assumption).
  split; [|split; [|split; assumption]].
  - unfold rat_of_float. fold p. rewrite PL, NB. rewrite Nat.min_l by assumption. fold D. unfold fmul. fold y. rewrite Tn. rewrite chk_ok by lia. reflexivity.
  - unfold rat_of_float, decimal_places. fold p. rewrite Qabs_opp_eq. unfold decimal_places in PL. fold p in PL. rewrite PL, NB.
    rewrite Nat.min_l by assumption. fold D. unfold fmul. rewrite opp_mul, rnd_opp. fold y. rewrite ftrunc_opp, Tn. rewrite chk_ok by lia. reflexivity.
Qed.

(** when the numerator is right *)
Lemma numerator_exact F x m k : good_format F -> shortest_decimal x m k -> 28 * m <= 2 ^ fprec F -> (k <= fdig F)%nat ->
  ((k <= 1)%nat \/ (5 ^ Z.of_nat k | m)) -> read_numerator (fprec F) m k x = m.
Proof.
  intros HF S Hm Hk H. pose proof (shortest_x x m k S) as Ex. destruct S as (M0 & E & S'). destruct HF as (F1 & _).
  unfold read_numerator. set (p := fprec F) in *.
  assert (Done : (inject_Z m <= rnd p (rnd p x * inject_Z (10 ^ Z.of_nat k)))%Q -> (if Qle_bool (inject_Z m) (rnd p (rnd p x * inject_Z (10 ^ Z.of_nat k))) then m else m - 1) = m).
  { intros L. apply Qle_bool_iff in L. rewrite L. reflexivity. }
  apply Done. clear Done.
  assert (Dy : (5 ^ Z.of_nat k | m) -> (inject_Z m <= rnd p (rnd p x * inject_Z (10 ^ Z.of_nat k)))%Q).
  { intros [a Ha]. assert (0 < 5 ^ Z.of_nat k) by (apply Z.pow_pos_nonneg; lia).
    assert (Rx : rep p x).
    { exists a, (- Z.of_nat k). split; [nia|].
      assert (T : (x * inject_Z (2 ^ Z.of_nat k) == inject_Z a)%Q).
      { assert (0 < inject_Z (5 ^ Z.of_nat k))%Q by (change 0%Q with (inject_Z 0); rewrite <- Zlt_Qlt; assumption).
        apply Qmult_inj_r with (z := inject_Z (5 ^ Z.of_nat k)); [lra|]. rewrite <- (inject_Z_mult a), <- Ha, <- Ex.
        change 10 with (2 * 5). rewrite Z.pow_mul_l, inject_Z_mult. ring. }
      rewrite <- T. rewrite <- P2_nonneg by lia. rewrite <- Qmult_assoc, <- P2_plus. replace (Z.of_nat k + - Z.of_nat k) with 0 by lia. change (P2 0) with 1%Q. ring. }
    assert (Ev : (rnd p x == x)%Q) by (apply rnd_rep; [lia|assumption]).
    assert (Ey : (rnd p x * inject_Z (10 ^ Z.of_nat k) == inject_Z m)%Q) by (rewrite Ev; exact Ex).
    rewrite rnd_rep; [rewrite Ey; lra|lia|]. apply rep_eq with (inject_Z m); [symmetry; exact Ey|]. apply int_rep. lia. }
  destruct H as [H|H]; [|apply Dy; exact H].
  destruct k as [|k]; [apply Dy; exists m; change (5 ^ Z.of_nat 0) with 1; lia|]. assert (k = 0%nat) as -> by lia.
  destruct (Z.eq_dec m 0) as [->|Hm0]; [apply Dy; exists 0; lia|].
  apply one_digit; try lia; [exact Ex|reflexivity].
Qed.
