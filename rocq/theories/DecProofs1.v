(** Rounding to nearest: error bounds, exactness on representable numbers. *)
From Coq Require Import ZArith QArith Qround Qabs Qpower Lqa Lia Bool List.
From Verif Require Import Base DecModel.
Import ListNotations.
Open Scope Z_scope.

(** ** Powers of two *)
Definition P2 (s : Z) : Q := Qpower 2 s.
Lemma P2_pos s : (0 < P2 s)%Q.
Proof. unfold P2. apply Qpower_0_lt. reflexivity. Qed.
Lemma P2_plus a b : (P2 (a + b) == P2 a * P2 b)%Q.
Proof. unfold P2. apply Qpower_plus. discriminate. Qed.
Lemma P2_nonneg s : 0 <= s -> (P2 s == inject_Z (2 ^ s))%Q.
Proof. intros H. unfold P2. rewrite Zpower_Qpower by lia. reflexivity. Qed.
Lemma P2_inv s : (P2 (- s) * P2 s == 1)%Q.
Proof. rewrite <- P2_plus. replace (- s + s) with 0 by lia. reflexivity. Qed.
Lemma P2_S s : (P2 (s + 1) == 2 * P2 s)%Q.
Proof. rewrite P2_plus. change (P2 1) with 2%Q. ring. Qed.
Lemma P2_le a b : a <= b -> (P2 a <= P2 b)%Q.
Proof.
  intros H. replace b with (a + (b - a)) by lia. rewrite P2_plus, (P2_nonneg (b - a)) by lia.
  pose proof (P2_pos a). assert (1 <= inject_Z (2 ^ (b - a)))%Q.
  { change 1%Q with (inject_Z 1). rewrite <- Zle_Qle. assert (0 < 2 ^ (b - a)) by (apply Z.pow_pos_nonneg; lia). lia. }
  nra.
Qed.
Lemma P2_lt_inv a b : (P2 a < P2 b)%Q -> a < b.
Proof. intros H. destruct (Z_lt_le_dec a b); [assumption|]. pose proof (P2_le b a l). lra. Qed.

Lemma dyadic_value m s : (dyadic m s == inject_Z m * P2 s)%Q.
Proof.
  unfold dyadic. destruct (Z.leb_spec 0 s).
  - rewrite (P2_nonneg s) by lia. rewrite inject_Z_mult. reflexivity.
  - assert (E : (P2 s * P2 (- s) == 1)%Q) by (rewrite Qmult_comm; apply P2_inv).
    rewrite (P2_nonneg (- s)) in E by lia.
    assert (0 < 2 ^ (- s)) by (apply Z.pow_pos_nonneg; lia).
    assert (m # Z.to_pos (2 ^ (- s)) == inject_Z m / inject_Z (2 ^ (- s)))%Q as ->.
    { unfold Qdiv, Qmult, Qinv, inject_Z, Qeq; cbn [Qnum Qden]. destruct (2 ^ (- s)) as [|q|q]; try lia. cbn [Z.to_pos Qnum Qden]. lia. }
    assert (~ inject_Z (2 ^ (- s)) == 0)%Q. { intros E0. rewrite E0 in E. lra. }
    assert (P2 s == / inject_Z (2 ^ (- s)))%Q as ->; [|reflexivity].
    rewrite <- (Qmult_1_l (/ inject_Z (2 ^ (- s)))), <- E. field. assumption.
Qed.

(** ** The exponent *)
Lemma ilog2_spec n d : 0 < n -> 0 < d -> (P2 (ilog2 n d) * inject_Z d <= inject_Z n /\ inject_Z n < P2 (ilog2 n d + 1) * inject_Z d)%Q.
Proof.
  intros Hn Hd. unfold ilog2.
  pose proof (Z.log2_spec n Hn) as [N1 N2]. pose proof (Z.log2_spec d Hd) as [D1 D2].
  pose proof (Z.log2_nonneg n). pose proof (Z.log2_nonneg d).
  set (a := Z.log2 n) in *. set (b := Z.log2 d) in *. set (e := a - b).
  assert (QN1 : (P2 a <= inject_Z n)%Q) by (rewrite P2_nonneg, <- Zle_Qle by lia; lia).
  assert (QN2 : (inject_Z n < P2 (a + 1))%Q) by (rewrite P2_nonneg, <- Zlt_Qlt by lia; lia).
  assert (QD1 : (P2 b <= inject_Z d)%Q) by (rewrite P2_nonneg, <- Zle_Qle by lia; lia).
  assert (QD2 : (inject_Z d < P2 (b + 1))%Q) by (rewrite P2_nonneg, <- Zlt_Qlt by lia; lia).
  assert (Ea : (P2 a == P2 e * P2 b)%Q) by (rewrite <- P2_plus; unfold e; replace (a - b + b) with a by lia; reflexivity).
  rewrite P2_S in QN2, QD2. pose proof (P2_pos e) as Pe. pose proof (P2_pos b) as Pb. pose proof (P2_pos a) as Pa.
  assert (T : (if 0 <=? e then d * 2 ^ e <=? n else d <=? n * 2 ^ (- e)) = true <-> (P2 e * inject_Z d <= inject_Z n)%Q).
  { destruct (Z.leb_spec 0 e).
    - rewrite Z.leb_le, Zle_Qle, inject_Z_mult, <- (P2_nonneg e) by lia. rewrite Qmult_comm. reflexivity.
    - rewrite Z.leb_le, Zle_Qle, inject_Z_mult, <- (P2_nonneg (- e)) by lia. pose proof (P2_inv e) as I. pose proof (P2_pos (- e)). split; intros L.
      + assert (P2 e * inject_Z d <= P2 e * (inject_Z n * P2 (- e)))%Q by (apply Qmult_le_l; assumption).
        assert (P2 e * (inject_Z n * P2 (- e)) == inject_Z n)%Q by (transitivity (inject_Z n * (P2 (- e) * P2 e))%Q; [ring|rewrite I; ring]). lra.
      + assert (P2 (- e) * (P2 e * inject_Z d) <= P2 (- e) * inject_Z n)%Q by (apply Qmult_le_l; assumption).
        assert (P2 (- e) * (P2 e * inject_Z d) == inject_Z d)%Q by (rewrite Qmult_assoc, I; ring).
        rewrite (Qmult_comm (inject_Z n)). lra. }
  destruct (if 0 <=? e then d * 2 ^ e <=? n else d <=? n * 2 ^ (- e)) eqn:Et.
  - split; [apply T; reflexivity|]. rewrite P2_S. nra.
  - split.
    + assert (P2 e == 2 * P2 (e - 1))%Q by (rewrite <- P2_S; replace (e - 1 + 1) with e by lia; reflexivity).
      pose proof (P2_pos (e - 1)). nra.
    + replace (e - 1 + 1) with e by lia. apply Qnot_le_lt. intros C. apply T in C. discriminate.
Qed.

(** ** Rounding to an integer *)
Lemma rne_spec a b : 0 <= a -> 0 < b ->
  2 * Z.abs (a - rne a b * b) <= b /\ (2 * Z.abs (a - rne a b * b) = b -> Z.even (rne a b) = true) /\ 0 <= rne a b.
Proof.
  intros Ha Hb. unfold rne. pose proof (Z.div_mod a b ltac:(lia)) as E. pose proof (Z.mod_pos_bound a b Hb) as B.
  assert (0 <= a / b) by (apply Z.div_pos; lia).
  set (q := a / b) in *. set (r := a mod b) in *. clearbody q r.
  destruct (Z.compare_spec (2 * r) b) as [C|C|C].
  - destruct (Z.even q) eqn:Ev.
    + repeat split; try lia; try (intros; assumption).
    + split; [|split]; try lia; nia || (intros _; rewrite Z.even_add, Ev; reflexivity).
  - split; [|split]; try lia; nia || (intros; nia).
  - split; [|split]; try lia; nia || (intros; nia).
Qed.

(** the result: a multiple of the unit in the last place, at most half a unit away *)
Lemma rnd_pos_spec p n d : 0 < n -> 0 < d ->
  let e := ilog2 n d in let u := P2 (e - p + 1) in
  exists m, (rnd_pos p n d == inject_Z m * u)%Q /\ 0 <= m /\
    (Qabs (inject_Z n - inject_Z m * u * inject_Z d) * 2 <= u * inject_Z d)%Q /\
    ((Qabs (inject_Z n - inject_Z m * u * inject_Z d) * 2 == u * inject_Z d)%Q -> Z.even m = true).
Proof.
  intros Hn Hd e u. unfold rnd_pos. fold e. set (s := e - p + 1) in *.
  assert (Qd : (0 < inject_Z d)%Q) by (change 0%Q with (inject_Z 0); rewrite <- Zlt_Qlt; lia).
  assert (ABS : forall x, (Qabs (inject_Z x) == inject_Z (Z.abs x))%Q) by (intros x; destruct x; reflexivity).
  destruct (Z.leb_spec 0 s) as [Hs|Hs].
  - assert (0 < 2 ^ s) by (apply Z.pow_pos_nonneg; lia).
    destruct (rne_spec n (d * 2 ^ s) ltac:(lia) ltac:(nia)) as [R1 [R2 R3]]. set (m := rne n (d * 2 ^ s)) in *.
    exists m. split; [apply dyadic_value|]. split; [assumption|].
    assert (Eq1 : (inject_Z n - inject_Z m * u * inject_Z d == inject_Z (n - m * (d * 2 ^ s)))%Q).
    { unfold u. rewrite (P2_nonneg s) by lia. unfold Z.sub. rewrite inject_Z_plus, inject_Z_opp, !inject_Z_mult. ring. }
    assert (Eq2 : (u * inject_Z d == inject_Z (d * 2 ^ s))%Q) by (unfold u; rewrite (P2_nonneg s) by lia; rewrite inject_Z_mult; ring).
    rewrite Eq1, Eq2, ABS. split.
    + change 2%Q with (inject_Z 2). rewrite <- inject_Z_mult, <- Zle_Qle. clear - R1. lia.
    + intros E. apply R2. change 2%Q with (inject_Z 2) in E. rewrite <- inject_Z_mult in E. apply (proj1 (inject_Z_injective _ _)) in E. clear - E. rewrite Z.mul_comm in E. exact E.
  - assert (0 < 2 ^ (- s)) by (apply Z.pow_pos_nonneg; lia).
    destruct (rne_spec (n * 2 ^ (- s)) d ltac:(nia) ltac:(nia)) as [R1 [R2 R3]]. set (m := rne (n * 2 ^ (- s)) d) in *.
    exists m. split; [apply dyadic_value|]. split; [assumption|].
    pose proof (P2_inv s) as I. pose proof (P2_pos s) as Ps. rewrite (P2_nonneg (- s)) in I by lia.
    set (X := n * 2 ^ (- s) - m * d) in *.
    assert (Eq1 : (inject_Z n - inject_Z m * u * inject_Z d == P2 s * inject_Z X)%Q).
    { unfold X, u. unfold Z.sub. rewrite inject_Z_plus, inject_Z_opp, !inject_Z_mult.
      transitivity (inject_Z n * (inject_Z (2 ^ (- s)) * P2 s) - inject_Z m * P2 s * inject_Z d)%Q; [rewrite I; ring|ring]. }
    rewrite Eq1, Qabs_Qmult, (Qabs_pos (P2 s)) by lra. rewrite ABS. unfold u. split.
    + rewrite <- Qmult_assoc. apply Qmult_le_l; [assumption|]. change 2%Q with (inject_Z 2). rewrite <- inject_Z_mult, <- Zle_Qle. lia.
    + intros E. apply R2. rewrite <- Qmult_assoc in E. apply Qmult_inj_l in E; [|lra].
      change 2%Q with (inject_Z 2) in E. rewrite <- inject_Z_mult in E. apply (proj1 (inject_Z_injective _ _)) in E. clear - E. rewrite Z.mul_comm in E. exact E.
Qed.

Lemma Q_frac x : (inject_Z (Qnum x) == x * inject_Z (Zpos (Qden x)))%Q.
Proof. destruct x as [n d]. unfold Qeq, Qmult, inject_Z. cbn [Qnum Qden]. lia. Qed.
Lemma rnd_spec p x : (0 < x)%Q ->
  exists e m, (P2 e <= x)%Q /\ (x < P2 (e + 1))%Q /\ (rnd p x == inject_Z m * P2 (e - p + 1))%Q /\ 0 <= m /\
    (Qabs (x - inject_Z m * P2 (e - p + 1)) * 2 <= P2 (e - p + 1))%Q /\
    ((Qabs (x - inject_Z m * P2 (e - p + 1)) * 2 == P2 (e - p + 1))%Q -> Z.even m = true).
Proof.
  intros Hx. pose proof (Q_frac x) as F. destruct x as [n d]. cbn [Qnum Qden] in F.
  assert (Hn : 0 < n) by (unfold Qlt in Hx; cbn in Hx; lia).
  destruct (ilog2_spec n (Zpos d) Hn eq_refl) as [E1 E2].
  destruct (rnd_pos_spec p n (Zpos d) Hn eq_refl) as [m [M1 [M2 [M3 M4]]]].
  set (e := ilog2 n (Z.pos d)) in *. exists e, m.
  assert (Qd : (0 < inject_Z (Z.pos d))%Q) by (change 0%Q with (inject_Z 0); rewrite <- Zlt_Qlt; lia).
  set (D := inject_Z (Z.pos d)) in *. set (u := P2 (e - p + 1)) in *.
  assert (A : (Qabs (inject_Z n - inject_Z m * u * D) == Qabs ((n # d) - inject_Z m * u) * D)%Q).
  { transitivity (Qabs ((n # d) - inject_Z m * u) * Qabs D)%Q; [|rewrite (Qabs_pos D) by lra; reflexivity].
    rewrite <- Qabs_Qmult. apply Qabs_wd. rewrite F. generalize (n # d)%Q, (inject_Z m), u, D. intros. ring. }
  rewrite A in M3, M4. rewrite F in E1, E2.
  split; [apply Qmult_le_r in E1; assumption|]. split; [apply Qmult_lt_r in E2; assumption|].
  split; [unfold rnd; cbn [Qnum Qden]; destruct n; try lia; exact M1|]. split; [assumption|]. split.
  - apply Qmult_le_r with (z := D); [assumption|]. lra.
  - intros E. apply M4. transitivity (Qabs ((n # d) - inject_Z m * u) * 2 * D)%Q; [ring|]. apply Qmult_comp; [exact E|reflexivity].
Qed.

Lemma rnd_0 p x : (x == 0)%Q -> rnd p x = 0%Q.
Proof. destruct x as [n d]. unfold Qeq, rnd. cbn [Qnum Qden]. intros E. assert (n = 0) as -> by lia. reflexivity. Qed.
Lemma rnd_opp p x : rnd p (- x) = (- rnd p x)%Q.
Proof.
  destruct x as [n d]. unfold rnd, Qopp. cbn [Qnum Qden]. destruct n; cbn [Z.opp Qnum Qden]; try reflexivity.
  destruct (rnd_pos p (Z.pos p0) (Z.pos d)) as [a b]. cbn [Qnum Qden]. rewrite Z.opp_involutive. reflexivity.
Qed.

(** the relative error is at most 2^-p *)
Lemma rnd_rel p x : (0 <= x)%Q -> (x - P2 (- p) * x <= rnd p x)%Q /\ (rnd p x <= x + P2 (- p) * x)%Q.
Proof.
  intros Hx. destruct (Qlt_le_dec 0 x) as [H|H].
  2:{ assert (E : (x == 0)%Q) by lra. rewrite (rnd_0 p x E). rewrite E. split; lra. }
  destruct (rnd_spec p x H) as [e [m [E1 [E2 [R [M0 [R1 _]]]]]]]. rewrite R.
  assert (U : (P2 (e - p + 1) == 2 * (P2 (- p) * P2 e))%Q).
  { rewrite <- P2_plus. rewrite <- P2_S. replace (- p + e + 1) with (e - p + 1) by lia. reflexivity. }
  set (y := (inject_Z m * P2 (e - p + 1))%Q) in *. rewrite U in R1. apply Qabs_Qle_condition || idtac.
  pose proof (Qle_Qabs (x - y)) as A1. pose proof (Qle_Qabs (- (x - y))) as A2. rewrite Qabs_opp in A2.
  pose proof (P2_pos (- p)) as Pp. assert (P2 (- p) * P2 e <= P2 (- p) * x)%Q by (apply Qmult_le_l; assumption).
  split; lra.
Qed.
Lemma rnd_nonneg p x : (0 <= x)%Q -> 0 <= p -> (0 <= rnd p x)%Q.
Proof.
  intros Hx Hp. destruct (rnd_rel p x Hx) as [A _]. assert (P2 (- p) <= 1)%Q by (change 1%Q with (P2 0); apply P2_le; lia).
  pose proof (P2_pos (- p)). nra.
Qed.

(** a number of at most p bits is not changed *)
Definition rep (p : Z) (x : Q) : Prop := exists m s, 0 <= m <= 2 ^ p /\ (x == inject_Z m * P2 s)%Q.
Lemma int_close a b : (Qabs (inject_Z a - inject_Z b) < 1)%Q -> a = b.
Proof.
  intros H. unfold Qminus in H. rewrite <- inject_Z_opp, <- inject_Z_plus in H.
  assert (E : (Qabs (inject_Z (a + - b)) == inject_Z (Z.abs (a + - b)))%Q) by (destruct (a + - b); reflexivity).
  rewrite E in H. change 1%Q with (inject_Z 1) in H. rewrite <- Zlt_Qlt in H. lia.
Qed.
Lemma rnd_rep p x : 1 <= p -> rep p x -> (rnd p x == x)%Q.
Proof.
  intros Hp [m [s [Hm E]]].
  destruct (Z.eq_dec m 0) as [->|Hm0]. { rewrite rnd_0; rewrite E; [ring|reflexivity || ring]. }
  pose proof (P2_pos s) as Ps.
  assert (0 < x)%Q. { rewrite E. assert (0 < inject_Z m)%Q by (change 0%Q with (inject_Z 0); rewrite <- Zlt_Qlt; lia). nra. }
  destruct (rnd_spec p x H) as [e [M [E1 [E2 [R [M0 [R1 _]]]]]]]. rewrite R.
  assert (exists k, (x == inject_Z k * P2 (e - p + 1))%Q) as [k Ek].
  { destruct (Z.eq_dec m (2 ^ p)) as [->|Hm2].
    - exists (2 ^ (p - 1)). rewrite E. rewrite <- !P2_nonneg by lia. rewrite <- !P2_plus.
      assert (p + s < e + 1).
      { apply P2_lt_inv. rewrite P2_plus, P2_nonneg by lia. rewrite <- E. exact E2. }
      assert (e <= p + s).
      { destruct (Z_le_gt_dec e (p + s)); [assumption|]. exfalso. 
        assert (P2 (p + s) < P2 e)%Q by (replace e with (p + s + (e - (p + s))) by lia; rewrite (P2_plus (p + s)); rewrite (P2_nonneg (e - (p + s))) by lia;
          assert (2 <= 2 ^ (e - (p + s))) by (change 2 with (2 ^ 1) at 1; apply Z.pow_le_mono_r; lia);
          assert (2 <= inject_Z (2 ^ (e - (p + s))))%Q by (change 2%Q with (inject_Z 2); rewrite <- Zle_Qle; assumption); pose proof (P2_pos (p + s)); nra).
        assert (x == P2 (p + s))%Q by (rewrite E, P2_plus, (P2_nonneg p) by lia; reflexivity). lra. }
      replace (p - 1 + (e - p + 1)) with (p + s) by lia. reflexivity.
    - assert (e < p + s).
      { apply P2_lt_inv. apply Qle_lt_trans with x; [assumption|]. rewrite E, P2_plus, (P2_nonneg p) by lia. apply Qmult_lt_r; [assumption|].
        rewrite <- Zlt_Qlt. lia. }
      exists (m * 2 ^ (s - (e - p + 1))). rewrite inject_Z_mult, <- P2_nonneg by lia. rewrite <- Qmult_assoc, <- P2_plus.
      replace (s - (e - p + 1) + (e - p + 1)) with s by lia. exact E. }
  set (u := P2 (e - p + 1)) in *. assert (Pu : (0 < u)%Q) by apply P2_pos.
  assert (k = M) as ->; [|rewrite Ek; reflexivity].
  apply int_close.
  assert (Qabs (x - inject_Z M * u) == Qabs (inject_Z k - inject_Z M) * u)%Q as EQ.
  { transitivity (Qabs (inject_Z k - inject_Z M) * Qabs u)%Q; [|rewrite (Qabs_pos u) by lra; reflexivity].
    rewrite <- Qabs_Qmult. apply Qabs_wd. rewrite Ek. ring. }
  rewrite EQ in R1. apply Qmult_lt_r with (z := u); [assumption|]. nra.
Qed.
