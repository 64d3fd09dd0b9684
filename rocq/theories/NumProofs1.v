(** Relative errors. *)
From Coq Require Import ZArith QArith Qreals Qabs Reals Lra Lia List.
From Verif Require Import Base DecModel DecSpec DecProofs1 DecProofs3 NumModel NumSpec.
Import ListNotations.
Open Scope R_scope.

Lemma Rabs_bounds a b : Rabs a <= b -> - b <= a <= b.
Proof. unfold Rabs. destruct (Rcase_abs a); lra. Qed.
Lemma pow2_pos p : 0 < IZR (2 ^ p) \/ (p < 0)%Z.
Proof. destruct (Z_lt_le_dec p 0); [now right|left]. apply IZR_lt, Z.pow_pos_nonneg; lia. Qed.
Lemma ulp_pos p : (0 <= p)%Z -> 0 < ulp p.
Proof. intros. apply Rinv_0_lt_compat. destruct (pow2_pos p); [assumption|lia]. Qed.
Lemma ulp_le p q : (0 <= p <= q)%Z -> ulp q <= ulp p.
Proof. intros. unfold ulp. apply Rinv_le_contravar; [destruct (pow2_pos p); [assumption|lia]|]. apply IZR_le, Z.pow_le_mono_r; lia. Qed.
Lemma ulp_half p : (1 <= p)%Z -> ulp p <= / 2.
Proof. intros. replace (/ 2) with (ulp 1) by reflexivity. apply ulp_le. lia. Qed.
Lemma Q2R_P2_neg p : (0 <= p)%Z -> Q2R (P2 (- p)) = ulp p.
Proof.
  intros Hp. pose proof (P2_inv p) as E. rewrite (P2_nonneg p Hp) in E. apply Qeq_eqR in E. rewrite Q2R_mult in E.
  replace (Q2R (inject_Z (2 ^ p))) with (IZR (2 ^ p)) in E by (unfold Q2R, inject_Z; cbn; now rewrite Rinv_1, Rmult_1_r).
  replace (Q2R 1) with 1 in E by (unfold Q2R; cbn; lra). unfold ulp. destruct (pow2_pos p); [|lia]. apply (Rmult_eq_reg_r (IZR (2 ^ p))); [|lra].
  rewrite E. field. lra.
Qed.
Lemma Q2R_Z n : Q2R (inject_Z n) = IZR n.
Proof. unfold Q2R, inject_Z; cbn. now rewrite Rinv_1, Rmult_1_r. Qed.
Lemma rnd_err p x : (0 <= p)%Z -> Rabs (Q2R (rnd p x) - Q2R x) <= ulp p * Rabs (Q2R x).
Proof.
  intros Hp.
  assert (Pos : forall x, (0 <= x)%Q -> Rabs (Q2R (rnd p x) - Q2R x) <= ulp p * Rabs (Q2R x)).
  { clear x. intros x Hx. destruct (rnd_rel p x Hx) as [A B]. apply Qle_Rle in A. apply Qle_Rle in B. apply Qle_Rle in Hx.
    rewrite Q2R_minus, Q2R_mult, Q2R_P2_neg in A by assumption. rewrite Q2R_plus, Q2R_mult, Q2R_P2_neg in B by assumption.
    replace (Q2R 0) with 0 in Hx by (unfold Q2R; cbn; lra). rewrite (Rabs_pos_eq (Q2R x)) by assumption. apply Rabs_le. lra. }
  destruct (Qlt_le_dec x 0) as [N|N]; [|now apply Pos].
  assert (H : (0 <= - x)%Q) by (apply Qopp_le_compat in N || (apply Qlt_le_weak in N; apply Qopp_le_compat in N); exact N).
  specialize (Pos _ H). rewrite rnd_opp, !Q2R_opp, Rabs_Ropp in Pos. rewrite <- Rabs_Ropp. replace (- (Q2R (rnd p x) - Q2R x)) with (- Q2R (rnd p x) - - Q2R x) by ring. exact Pos.
Qed.

(** ** within *)
Section Within.
Context (u : R) (Hu : 0 <= u < 1).
Lemma base_pos k : 0 < (1 - u) ^ k.
Proof. apply pow_lt. lra. Qed.
Lemma base_le1 k : (1 - u) ^ k <= 1.
Proof. induction k; cbn; [lra|]. pose proof (base_pos k). nra. Qed.
Lemma within_pos k a b : 0 < b -> within u k a b -> 0 < a.
Proof. intros Hb [A _]. pose proof (base_pos k). assert (0 < b * (1 - u) ^ k) by (apply Rmult_lt_0_compat; assumption). lra. Qed.
Lemma within_refl a : within u 0 a a.
Proof. split; cbn; lra. Qed.
Lemma within_more k j a b : 0 <= b -> within u k a b -> (k <= j)%nat -> within u j a b.
Proof.
  intros Hb W L. destruct W as [A B]. assert (Ha : 0 <= a) by (pose proof (base_pos k); assert (0 <= b * (1 - u) ^ k) by (apply Rmult_le_pos; lra); lra). replace j with (k + (j - k))%nat by lia. unfold within. rewrite pow_add.
  pose proof (base_pos k). pose proof (base_pos (j - k)). pose proof (base_le1 (j - k)). split.
  - apply Rle_trans with (b * (1 - u) ^ k); [|exact A]. rewrite <- Rmult_assoc. rewrite <- (Rmult_1_r (b * (1 - u) ^ k)) at 2. apply Rmult_le_compat_l; [|assumption]. apply Rmult_le_pos; lra.
  - apply Rle_trans with (a * (1 - u) ^ k); [|exact B]. rewrite <- Rmult_assoc. rewrite <- (Rmult_1_r (a * (1 - u) ^ k)) at 2. apply Rmult_le_compat_l; [|assumption]. apply Rmult_le_pos; lra.
Qed.
Lemma within_trans k j a b c : within u k a b -> within u j b c -> within u (k + j) a c.
Proof.
  intros [A B] [C E]. unfold within. rewrite pow_add. pose proof (base_pos k). pose proof (base_pos j). split.
  - apply Rle_trans with (b * (1 - u) ^ k); [|exact A]. rewrite (Rmult_comm ((1 - u) ^ k)), <- Rmult_assoc. apply Rmult_le_compat_r; lra.
  - apply Rle_trans with (b * (1 - u) ^ j); [|exact E]. rewrite <- Rmult_assoc. apply Rmult_le_compat_r; lra.
Qed.
Lemma within_add k a b c d : within u k a b -> within u k c d -> within u k (a + c) (b + d).
Proof. intros [A B] [C E]. split; rewrite Rmult_plus_distr_r; lra. Qed.
Lemma within_mul k j a b c d : 0 < b -> 0 < d -> within u k a b -> within u j c d -> within u (k + j) (a * c) (b * d).
Proof.
  intros Hb Hd W1 W2. pose proof (within_pos _ _ _ Hb W1). pose proof (within_pos _ _ _ Hd W2). destruct W1 as [A B]. destruct W2 as [C E].
  pose proof (base_pos k). pose proof (base_pos j). unfold within. rewrite pow_add. split.
  - replace (b * d * ((1 - u) ^ k * (1 - u) ^ j)) with ((b * (1 - u) ^ k) * (d * (1 - u) ^ j)) by ring. apply Rmult_le_compat; try assumption; apply Rmult_le_pos; lra.
  - replace (a * c * ((1 - u) ^ k * (1 - u) ^ j)) with ((a * (1 - u) ^ k) * (c * (1 - u) ^ j)) by ring. apply Rmult_le_compat; try assumption; apply Rmult_le_pos; lra.
Qed.
Lemma within_inv k a b : 0 < b -> within u k a b -> within u k (/ a) (/ b).
Proof.
  intros Hb W. pose proof (within_pos _ _ _ Hb W) as Ha. destruct W as [A B]. pose proof (base_pos k). split.
  - apply (Rmult_le_reg_l (a * b)); [apply Rmult_lt_0_compat; assumption|]. replace (a * b * (/ b * (1 - u) ^ k)) with (a * (1 - u) ^ k) by (field; lra).
    replace (a * b * / a) with b by (field; lra). exact B.
  - apply (Rmult_le_reg_l (a * b)); [apply Rmult_lt_0_compat; assumption|]. replace (a * b * (/ a * (1 - u) ^ k)) with (b * (1 - u) ^ k) by (field; lra).
    replace (a * b * / b) with a by (field; lra). exact A.
Qed.
Lemma within_div k j a b c d : 0 < b -> 0 < d -> within u k a b -> within u j c d -> within u (k + j) (a / c) (b / d).
Proof. intros Hb Hd W1 W2. apply within_mul; [exact Hb|now apply Rinv_0_lt_compat|exact W1|]. now apply within_inv. Qed.
Lemma within_pow k a b n : 0 < b -> within u k a b -> within u (n * k) (a ^ n) (b ^ n).
Proof. intros Hb W. induction n as [|n IH]; cbn [pow Nat.mul]; [apply within_refl|]. apply within_mul; [exact Hb|now apply pow_lt|exact W|exact IH]. Qed.
Lemma within_rel a b : 0 < b -> Rabs (a - b) <= u * b -> within u 1 a b.
Proof.
  intros Hb H. apply Rabs_bounds in H. split; rewrite pow_1; [nra|]. assert (a <= b + u * b) by lra. assert (a * (1 - u) <= (b + u * b) * (1 - u)) by (apply Rmult_le_compat_r; lra).
  assert (0 <= u * u * b) by (apply Rmult_le_pos; [apply Rmult_le_pos|]; lra). nra.
Qed.
(** k roundings, k small against 1/u: relative error 2ku *)
Lemma bernoulli k : 1 - INR k * u <= (1 - u) ^ k.
Proof. induction k as [|k IH]; [cbn; lra|]. rewrite S_INR. cbn [pow]. pose proof (pos_INR k). pose proof (base_le1 k). nra. Qed.
Lemma within_error k a b : 0 < b -> within u k a b -> 2 * INR k * u <= 1 -> Rabs (a - b) <= 2 * INR k * u * b.
Proof.
  intros Hb W S. pose proof (within_pos _ _ _ Hb W) as Ha. destruct W as [A B]. pose proof (bernoulli k) as BN. pose proof (pos_INR k).
  set (t := INR k * u) in *. assert (0 <= t) by (apply Rmult_le_pos; lra). assert (2 * t <= 1) by (unfold t; lra).
  assert (a * (1 - t) <= b) by (apply Rle_trans with (a * (1 - u) ^ k); [apply Rmult_le_compat_l; lra|exact B]).
  assert (b * (1 - t) <= a) by (apply Rle_trans with (b * (1 - u) ^ k); [apply Rmult_le_compat_l; lra|exact A]).
  replace (2 * INR k * u * b) with (2 * t * b) by (unfold t; ring). apply Rabs_le. split; [nra|].
  (* a <= b / (1 - t) <= b (1 + 2 t) *)
  assert (b * 1 <= b * ((1 + 2 * t) * (1 - t))) by (apply Rmult_le_compat_l; nra).
  assert (a * (1 - t) <= (b * (1 + 2 * t)) * (1 - t)) by nra. assert (a <= b * (1 + 2 * t)) by (apply (Rmult_le_reg_r (1 - t)); lra). lra.
Qed.
End Within.

Lemma within_rnd p x : (1 <= p)%Z -> (0 < x)%Q -> within (ulp p) 1 (Q2R (rnd p x)) (Q2R x).
Proof.
  intros Hp Hx. apply Qlt_Rlt in Hx. replace (Q2R 0) with 0 in Hx by (unfold Q2R; cbn; lra).
  pose proof (ulp_pos p ltac:(lia)). pose proof (ulp_half p Hp). apply within_rel; [lra|exact Hx|]. pose proof (rnd_err p x ltac:(lia)) as E. rewrite (Rabs_pos_eq (Q2R x)) in E by lra. exact E.
Qed.
