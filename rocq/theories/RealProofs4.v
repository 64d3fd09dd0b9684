(** Operations on Real: values of sums, products, quotients, powers; histories. *)
From Coq Require Import ZArith Znumtheory QArith Qreals Reals String Lia Lra Bool List.
From Verif Require Import Base AdapterModel AdapterProofs FactorizeModel FactorizeProofs4 RationalModel RationalSpec RationalProofs RationalProofs2 RealModel RealSpec Valuation RealProofs1 RealProofs2 RealProofs3.
Import ListNotations.
Open Scope Z_scope.

Lemma good_wf w x : good w x -> wf w x. Proof. now intros [H _]. Qed.
Lemma canonical_good E x x' : 1 < ew E -> fac_sound E -> fac_exact E -> wf (ew E) x -> real_normalize E x = Ok x' -> good (ew E) x' /\ canonical x' /\ rv x' = rv x.
Proof.
  intros Hw FS FE W H. destruct (normalize_value E x x' Hw FS W H) as [W' V].
  assert (C : canonical x') by (apply (normalize_canonical E x x' Hw FS W H); intros n l Hn Hl; apply (FE n l Hl); lia).
  split; [|auto]. split; [assumption|]. intros I. pose proof C as (m & E1 & _). rewrite E1. cbn [num den]. now apply (canonical_trivial x').
Qed.
Lemma make_good E c r i x : 1 < ew E -> fac_sound E -> fac_exact E -> wf (ew E) (Real i r c) -> real_make E c r i = Ok x -> good (ew E) x /\ canonical x /\ rv x = rv (Real i r c).
Proof. intros. now apply canonical_good in H3. Qed.

(** ** the radical part *)
Lemma rv_radical x : rv x = (Q2R (qv (coe x)) * radical x)%R. Proof. reflexivity. Qed.
Lemma radical_root x : radical x = root (Q2R (qv (rad x))) (idx x). Proof. reflexivity. Qed.
Lemma radical_pos x : (0 < radical x)%R. Proof. apply root_pos. Qed.
Lemma rad_pos w x : wf w x -> (0 < Q2R (qv (rad x)))%R.
Proof. intros (_ & N & D & _). rewrite qv_R by lia. apply Rdiv_lt_0_compat; now apply IZR_lt. Qed.
Lemma radical_one x : num (rad x) = den (rad x) -> den (rad x) <> 0 -> radical x = 1%R.
Proof. intros E D. rewrite ?radical_root. rewrite qv_R by assumption. rewrite E. unfold Rdiv. rewrite Rinv_r by now apply IZR_nz. apply root_one. Qed.

Lemma equivalent_radical w a b : good w a -> good w b -> is_equivalent w a b = Ok true -> radical a = radical b.
Proof.
  intros [Wa Ga] [Wb Gb] H. pose proof Wa as (Ia & Na & Da & _). pose proof Wb as (Ib & Nb & Db & _).
  unfold is_equivalent in H. apply bind_ok in H as (s & Hs & H). apply rat_eq_inv in Hs. apply bind_ok in H as (o & Ho & H). apply rat_eq_inv in Ho.
  cbn [num den] in Ho. rewrite Z.mul_1_r, Z.mul_1_l in Ho.
  assert (SQ : s = true -> Q2R (qv (rad a)) = Q2R (qv (rad b))).
  { intros ->. symmetry in Hs. apply Z.eqb_eq in Hs. apply Q2R_eq. apply qdiv_eq; try lia. }
  destruct (s && o)%bool eqn:SO.
  - apply andb_true_iff in SO as [S O]. rewrite O in Ho. symmetry in Ho. apply Z.eqb_eq in Ho. rewrite (radical_one a) by lia.
    specialize (SQ S). rewrite ?radical_root. rewrite <- SQ. rewrite qv_R by lia. rewrite Ho. unfold Rdiv. rewrite Rinv_r by (apply IZR_nz; lia). now rewrite root_one.
  - destruct ((idx a =? idx b) && (idx a =? 1))%bool eqn:II.
    + apply andb_true_iff in II as [I1 I2]. apply Z.eqb_eq in I1, I2. rewrite !radical_one by (try apply Ga; try apply Gb; lia). reflexivity.
    + injection H as H. apply andb_true_iff in H as [S I1]. apply Z.eqb_eq in I1. rewrite !radical_root. now rewrite (SQ S), I1.
Qed.
Lemma coe_change i r c x : rv (Real i r c) = (Q2R (qv c) * radical (Real i r x))%R. Proof. reflexivity. Qed.

Lemma real_add_value E a b x : 1 < ew E -> fac_sound E -> fac_exact E -> good (ew E) a -> good (ew E) b -> real_add E a b = Ok x ->
  good (ew E) x /\ canonical x /\ rv x = (rv a + rv b)%R.
Proof.
  intros Hw FS FE Ga Gb H. unfold real_add in H. apply bind_ok in H as (e & He & H). destruct e; [|discriminate].
  apply equivalent_radical in He; [|assumption|assumption]. apply bind_ok in H as (c & Hc & H).
  pose proof Ga as [(Ia & Na & Da & Ca) _]. pose proof Gb as [(Ib & Nb & Db & Cb) _].
  apply rat_add_exact in Hc as [Dc Qc]; [|assumption|assumption].
  apply canonical_good in H as (G & C & V); try assumption; [|split; [assumption|]; split; [assumption|]; split; assumption].
  split; [assumption|]. split; [assumption|]. rewrite V, !rv_radical. cbn [coe]. rewrite (radical_root (Real _ _ _)). cbn [rad idx]. rewrite <- (radical_root a).
  rewrite (Q2R_eq _ _ Qc), Q2R_plus, <- He. ring.
Qed.
Lemma real_negate_value E a x : 1 < ew E -> fac_sound E -> fac_exact E -> wf (ew E) a -> real_negate E a = Ok x ->
  good (ew E) x /\ canonical x /\ rv x = (- rv a)%R.
Proof.
  intros Hw FS FE W H. unfold real_negate in H. apply bind_ok in H as (c & Hc & H). pose proof W as (Ia & Na & Da & Ca).
  apply rat_negate_exact in Hc as [Dc Qc]; [|assumption].
  apply make_good in H as (G & C & V); try assumption; [|split; [assumption|]; split; [assumption|]; split; assumption].
  split; [assumption|]. split; [assumption|]. rewrite V, !rv_radical. cbn [coe]. rewrite (radical_root (Real _ _ _)). cbn [rad idx]. rewrite <- (radical_root a).
  rewrite (Q2R_eq _ _ Qc), Q2R_opp. ring.
Qed.
Lemma real_sub_value E a b x : 1 < ew E -> fac_sound E -> fac_exact E -> good (ew E) a -> good (ew E) b -> real_sub E a b = Ok x ->
  good (ew E) x /\ canonical x /\ rv x = (rv a - rv b)%R.
Proof.
  intros Hw FS FE Ga Gb H. unfold real_sub in H. apply bind_ok in H as (nb & Hn & H). apply real_negate_value in Hn as (Gn & _ & Vn); try assumption; [|apply Gb].
  apply bind_ok in H as (s & Hs & H). apply real_add_value in Hs as (Gs & _ & Vs); try assumption.
  apply canonical_good in H as (G & C & V); try assumption; [|apply Gs]. split; [assumption|]. split; [assumption|]. rewrite V, Vs, Vn. ring.
Qed.

(** ** rational powers with an integer exponent *)
Lemma pow_cast_inv w b e x : pow_cast w b e 1 = Ok x -> x = b ^ e /\ 0 <= e.
Proof.
  unfold pow_cast. cbn [Z.eqb]. destruct (_ && _)%bool; [|discriminate]. intros H. apply bind_ok in H as (y & Hy & H).
  rewrite Z.div_1_r in Hy. apply dpow_inv in Hy as [-> He]. now apply chk_inv in H as [-> _].
Qed.
Lemma rpow_inv w r e p : rpow w r (Rat e 1) = Ok p -> den r <> 0 ->
  0 <= e /\ den p <> 0 /\ num p * den r ^ e = num r ^ e * den p /\ (0 < den r -> 0 < den p) /\ (0 < den r -> 0 < num r -> 0 < num p).
Proof.
  intros H D. unfold rpow, rat_pow in H. apply bind_ok in H as (z & Hz & H). apply rat_eq_inv in Hz. cbn [num den] in Hz. rewrite Z.mul_1_r, Z.mul_0_l in Hz.
  destruct z.
  { symmetry in Hz. apply Z.eqb_eq in Hz as ->. apply of_int_inv in H as ->. cbn [num den]. rewrite !Z.pow_0_r. lia. }
  apply bind_ok in H as (o & Ho & H). apply rat_eq_inv in Ho. cbn [num den] in Ho. rewrite Z.mul_1_r, Z.mul_1_l in Ho. destruct o.
  { symmetry in Ho. apply Z.eqb_eq in Ho as ->. injection H as <-. rewrite !Z.pow_1_r. lia. }
  cbn [num den] in H. apply bind_ok in H as (n & Hn & H). apply pow_cast_inv in Hn as [-> He]. apply bind_ok in H as (d & Hd & H). apply pow_cast_inv in Hd as [-> _].
  assert (DZ : den r ^ e <> 0) by now apply Z.pow_nonzero. pose proof H as H2. apply rat_normalize_val in H as [H3 H4]; [|assumption]. cbn [num den] in *.
  split; [assumption|]. split; [assumption|]. split; [lia|].
  assert (DP : 0 < den r -> 0 < den p) by (intros; apply (rat_normalize_pos _ _ _ H2); cbn [den]; apply Z.pow_pos_nonneg; lia).
  split; [assumption|]. intros P1 P2. specialize (DP P1). assert (0 < den r ^ e) by (apply Z.pow_pos_nonneg; lia). assert (0 < num r ^ e) by (apply Z.pow_pos_nonneg; lia). nia.
Qed.
Lemma rpow_R w r e p : rpow w r (Rat e 1) = Ok p -> den r <> 0 -> Q2R (qv p) = (Q2R (qv r) ^ Z.to_nat e)%R.
Proof.
  intros H D. apply rpow_inv in H as (He & Dp & E & _); [|assumption]. rewrite !qv_R by assumption. unfold Rdiv. rewrite Rpow_mult_distr, pow_inv, !pow_IZR, Z2Nat.id by assumption.
  assert (IZR (den r ^ e) <> 0)%R by (apply IZR_nz; now apply Z.pow_nonzero). assert (IZR (den p) <> 0)%R by now apply IZR_nz.
  apply Rmult_eq_reg_r with (IZR (den p) * IZR (den r ^ e))%R; [|now apply Rmult_integral_contrapositive_currified].
  apply (f_equal IZR) in E. rewrite !mult_IZR in E. transitivity (IZR (num p) * IZR (den r ^ e))%R; [field; assumption|]. rewrite E. field. assumption.
Qed.
Lemma of_index_inv w n r : rat_of_index w n = Ok r -> r = Rat (swrap w n) 1. Proof. apply of_int_inv. Qed.
Lemma swrap_nonneg w n : 1 < w -> 0 <= n < 2 ^ w -> 0 <= swrap w n -> swrap w n = n.
Proof.
  intros Hw H. unfold swrap. rewrite Z.mod_small by assumption. destruct (Z.ltb_spec n (2 ^ (w - 1))); [auto|]. intros. lia.
Qed.
Lemma root_npow_mul x q i : (0 < x)%R -> 1 <= q -> 1 <= i -> root (x ^ Z.to_nat q) (q * i) = root x i.
Proof.
  intros Hx Hq Hi. unfold root. rewrite <- Rpower_pow by assumption. rewrite Rpower_mult, INR_IZR_INZ, Z2Nat.id, mult_IZR by lia. f_equal.
  field. split; apply IZR_nz; lia.
Qed.
Lemma real_mul_value E a b x : 1 < ew E -> fac_sound E -> wf (ew E) a -> wf (ew E) b -> real_mul E a b = Ok x ->
  exists y, wf (ew E) y /\ real_normalize E y = Ok x /\ rv y = (rv a * rv b)%R .
Proof.
  intros Hw FS Wa Wb H. pose proof Wa as (Ia & Na & Da & Ca). pose proof Wb as (Ib & Nb & Db & Cb). pose proof (rad_pos _ _ Wa) as RPa. pose proof (rad_pos _ _ Wb) as RPb.
  unfold real_mul in H. apply bind_ok in H as (l & Hl & H). unfold ulcm in Hl. destruct (Z.ltb_spec (Z.lcm (idx a) (idx b)) (2 ^ ew E)) as [Ll|]; [|discriminate].
  injection Hl as El. rewrite El in Ll.
  assert (Pl : 0 < l). { rewrite <- El. pose proof (Z.lcm_nonneg (idx a) (idx b)). assert (Z.lcm (idx a) (idx b) <> 0) by (rewrite Z.lcm_eq_0; lia). lia. }
  assert (Q : forall i q, uquot l i = Ok q -> 1 <= i -> (i | l) -> l = q * i /\ 1 <= q < 2 ^ ew E).
  { intros i q Hq Hi [k Ek]. unfold uquot in Hq. destruct (Z.eqb_spec i 0); [lia|]. injection Hq as <-. rewrite Ek, Z.div_mul by lia. split; [reflexivity|nia]. }
  apply bind_ok in H as (qa & Hqa & H). apply Q in Hqa as [Eqa Bqa]; [|lia|rewrite <- El; apply Z.divide_lcm_l].
  apply bind_ok in H as (ea & Hea & H). apply of_index_inv in Hea as ->. apply bind_ok in H as (pa & Hpa & H).
  apply bind_ok in H as (qb & Hqb & H). apply Q in Hqb as [Eqb Bqb]; [|lia|rewrite <- El; apply Z.divide_lcm_r].
  apply bind_ok in H as (eb & Heb & H). apply of_index_inv in Heb as ->. apply bind_ok in H as (pb & Hpb & H).
  pose proof (rpow_inv _ _ _ _ Hpa ltac:(lia)) as (Sa & Dpa & _ & Ppa & Npa). pose proof (rpow_inv _ _ _ _ Hpb ltac:(lia)) as (Sb & Dpb & _ & Ppb & Npb).
  apply rpow_R in Hpa; [|lia]. apply rpow_R in Hpb; [|lia]. rewrite swrap_nonneg in Hpa, Hpb by (try assumption; lia).
  apply bind_ok in H as (r & Hr & H). apply bind_ok in H as (c & Hc & H). apply rat_mul_exact in Hc as (_ & _ & Dc & Qc).
  pose proof Hr as Hr2. apply rat_mul_pos in Hr2. apply rat_mul_exact in Hr as (_ & _ & Dr & Qr).
  assert (PDr : 0 < den r) by (apply Hr2; apply Z.mul_pos_pos; auto).
  assert (PNr : 0 < num r).
  { apply Qeq_eqR in Qr. rewrite Q2R_mult, !qv_R in Qr by assumption.
    assert (0 < IZR (num pa) / IZR (den pa))%R by (apply Rdiv_lt_0_compat; apply IZR_lt; auto).
    assert (0 < IZR (num pb) / IZR (den pb))%R by (apply Rdiv_lt_0_compat; apply IZR_lt; auto).
    assert (0 < IZR (num r) / IZR (den r))%R by (rewrite Qr; now apply Rmult_lt_0_compat).
    apply lt_IZR. replace (IZR (num r)) with (IZR (num r) / IZR (den r) * IZR (den r))%R by (field; apply IZR_nz; lia).
    apply Rmult_lt_0_compat; [assumption|now apply IZR_lt]. }
  exists (Real l r c). split; [split; cbn [idx rad coe]; [lia|auto]|]. split; [assumption|].
  rewrite !rv_root. cbn [coe rad idx]. rewrite (Q2R_eq _ _ Qc), (Q2R_eq _ _ Qr), !Q2R_mult, Hpa, Hpb.
  rewrite root_mul by now apply pow_lt. rewrite Eqa at 1. rewrite root_npow_mul by (try assumption; lia). rewrite Eqb. rewrite root_npow_mul by (try assumption; lia). ring.
Qed.
Lemma real_mul_good E a b x : 1 < ew E -> fac_sound E -> fac_exact E -> wf (ew E) a -> wf (ew E) b -> real_mul E a b = Ok x ->
  good (ew E) x /\ canonical x /\ rv x = (rv a * rv b)%R.
Proof.
  intros Hw FS FE Wa Wb H. apply real_mul_value in H as (y & Wy & H & V); try assumption. apply canonical_good in H as (G & C & V'); try assumption.
  rewrite V', V. auto.
Qed.
Lemma inverse_pos w a r : 0 < num a -> 0 < den a -> rat_inverse w a = Ok r -> 0 < num r /\ 0 < den r /\ num r * num a = den a * den r.
Proof.
  intros N D H. unfold rat_inverse in H. pose proof H as H2. apply rat_make_pos in H2; [|assumption]. apply rat_make_inv in H as [_ H].
  apply rat_normalize_val in H; [|cbn; lia]. cbn [num den] in H. split; [nia|]. split; [assumption|nia].
Qed.
Lemma real_inverse_value w a x : good w a -> real_inverse w a = Ok x -> good w x /\ num (coe a) <> 0 /\ rv x = (/ rv a)%R.
Proof.
  intros [W G] H. pose proof W as (Ia & Na & Da & Ca). pose proof (rad_pos _ _ W) as RP. unfold real_inverse in H.
  apply bind_ok in H as (c & Hc & H). apply bind_ok in H as (r & Hr & H). injection H as <-.
  apply rat_inverse_exact in Hc as (Dc & Nc & Qc); [|assumption]. pose proof Hr as Hr2. apply inverse_pos in Hr2 as (Nr & Dr & Er); try assumption.
  apply rat_inverse_exact in Hr as (_ & _ & Qr); [|lia].
  split; [split; [split; cbn [idx rad coe]; auto|cbn [idx rad]; intros I; specialize (G I); nia]|]. split; [assumption|].
  rewrite !rv_root. cbn [coe rad idx].
  assert (QC0 : ~ (qv (coe a) == 0)%Q). { unfold qv. intros X. apply Nc. assert (Y := inj0 _ Ca). apply inject_Z_injective. transitivity (inject_Z (num (coe a)) / inject_Z (den (coe a)) * inject_Z (den (coe a)))%Q; [field; assumption|]. rewrite X. ring. }
  assert (QR0 : ~ (qv (rad a) == 0)%Q). { intros X. apply Qeq_eqR in X. unfold Q2R in X at 2. cbn in X. lra. }
  rewrite (Q2R_eq _ _ Qc), (Q2R_eq _ _ Qr), !Q2R_inv by assumption.
  assert (RI : root (/ Q2R (qv (rad a))) (idx a) = (/ root (Q2R (qv (rad a))) (idx a))%R).
  { apply Rmult_eq_reg_r with (root (Q2R (qv (rad a))) (idx a)); [|pose proof (root_pos (Q2R (qv (rad a))) (idx a)); lra].
    rewrite <- root_mul by (try assumption; now apply Rinv_0_lt_compat). rewrite !Rinv_l by (try lra; pose proof (root_pos (Q2R (qv (rad a))) (idx a)); lra). apply root_one. }
  rewrite RI. rewrite Rinv_mult. reflexivity.
Qed.
Lemma real_div_value E a b x : 1 < ew E -> fac_sound E -> fac_exact E -> wf (ew E) a -> good (ew E) b -> real_div E a b = Ok x ->
  good (ew E) x /\ canonical x /\ rv x = (rv a / rv b)%R.
Proof.
  intros Hw FS FE Wa Gb H. unfold real_div in H. apply bind_ok in H as (ib & Hi & H). apply real_inverse_value in Hi as (Gi & _ & Vi); [|assumption].
  apply real_mul_good in H as (G & C & V); try assumption; [|apply Gi]. rewrite V, Vi. auto.
Qed.
