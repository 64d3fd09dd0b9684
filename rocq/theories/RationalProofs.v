From Coq Require Import ZArith Znumtheory QArith String Ascii Lia Bool List.
From Verif Require Import Base HugeModel HugeSpec AdapterModel AdapterProofs RationalModel RationalSpec.
Import ListNotations.
Open Scope Z_scope.

(** ** denotation lemmas *)
Lemma inj0 d : d <> 0 -> ~ (inject_Z d == 0)%Q.
Proof. intros H E. apply H. now apply (inject_Z_injective d 0). Qed.
Lemma qdiv_eq a b c d : b <> 0 -> d <> 0 -> a * d = c * b -> (inject_Z a / inject_Z b == inject_Z c / inject_Z d)%Q.
Proof.
  intros Hb Hd E. apply inj0 in Hb. apply inj0 in Hd.
  assert (F : (inject_Z a * inject_Z d == inject_Z c * inject_Z b)%Q) by (rewrite <- !inject_Z_mult; now rewrite E).
  assert (X : (inject_Z a / inject_Z b == (inject_Z a * inject_Z d) / (inject_Z b * inject_Z d))%Q) by (field; auto).
  rewrite X, F. field; auto.
Qed.
Lemma qdiv_eq_inv a b c d : b <> 0 -> d <> 0 -> (inject_Z a / inject_Z b == inject_Z c / inject_Z d)%Q -> a * d = c * b.
Proof.
  intros Hb Hd E. apply inj0 in Hb. apply inj0 in Hd. apply inject_Z_injective. rewrite !inject_Z_mult.
  transitivity ((inject_Z a / inject_Z b) * (inject_Z b * inject_Z d))%Q; [field; auto|]. rewrite E. field; auto.
Qed.
Lemma qv_add_num a b : den a <> 0 -> den b <> 0 ->
  (qv a + qv b == inject_Z (num a * den b + num b * den a) / inject_Z (den a * den b))%Q.
Proof. intros Ha Hb. unfold qv. apply inj0 in Ha. apply inj0 in Hb. rewrite inject_Z_plus, !inject_Z_mult. field; auto. Qed.
Lemma qv_mul_num a b : den a <> 0 -> den b <> 0 -> (qv a * qv b == inject_Z (num a * num b) / inject_Z (den a * den b))%Q.
Proof. intros Ha Hb. unfold qv. apply inj0 in Ha. apply inj0 in Hb. rewrite !inject_Z_mult. field; auto. Qed.

(** ** basic operations *)
Lemma bind_ok {A B} (x : res A) (f : A -> res B) y : bind x f = Ok y -> exists a, x = Ok a /\ f a = Ok y.
Proof. destruct x; cbn; try discriminate. eauto. Qed.
Lemma quot_w_inv w a b q : quot_w w a b = Ok q -> b <> 0 /\ q = Z.quot a b /\ - 2 ^ (w - 1) <= q < 2 ^ (w - 1).
Proof. unfold quot_w. destruct (Z.eqb_spec b 0); [discriminate|]. intros H. apply chk_inv in H as [-> H]. auto. Qed.
Lemma adapter_gcd_inv w a b g : adapter_gcd w a b = Ok g -> g = Z.gcd a b.
Proof. unfold adapter_gcd. destruct (chk w (Z.abs a)); cbn; try discriminate. destruct (chk w (Z.abs b)); cbn; try discriminate. now intros [= <-]. Qed.
Lemma adapter_lcm_inv w a b g : adapter_lcm w a b = Ok g -> g = Z.lcm a b.
Proof.
  unfold adapter_lcm. destruct (chk w (Z.abs a)); cbn; try discriminate. destruct (chk w (Z.abs b)); cbn; try discriminate.
  intros H. now apply chk_inv in H.
Qed.
Lemma quot_exact a g : g <> 0 -> (g | a) -> Z.quot a g * g = a.
Proof. intros Hg [k ->]. now rewrite Z.quot_mul. Qed.

(** the three facts about normalize *)
Lemma rat_normalize_inv w r r' : rat_normalize w r = Ok r' ->
  exists g, g <> 0 /\ Z.abs g = Z.gcd (num r) (den r) /\ num r = num r' * g /\ den r = den r' * g.
Proof.
  unfold rat_normalize, adapter_abs. intros H.
  apply bind_ok in H as (a & Ha & H). apply chk_inv in Ha as [-> _].
  apply bind_ok in H as (b & Hb & H). apply chk_inv in Hb as [-> _].
  apply bind_ok in H as (g & Hg & H). apply adapter_gcd_inv in Hg. rewrite Z.gcd_abs_l, Z.gcd_abs_r in Hg.
  apply bind_ok in H as (n & Hn & H). apply quot_w_inv in Hn as (G0 & Hn & _).
  apply bind_ok in H as (d & Hd & H). apply quot_w_inv in Hd as (_ & Hd & _).
  pose proof (Z.gcd_nonneg (num r) (den r)) as GN.
  pose proof (quot_exact (num r) g G0 ltac:(rewrite Hg; apply Z.gcd_divide_l)) as E1.
  pose proof (quot_exact (den r) g G0 ltac:(rewrite Hg; apply Z.gcd_divide_r)) as E2. rewrite <- Hn in E1. rewrite <- Hd in E2.
  destruct (Z.eqb_spec d (-1)) as [->|N].
  - apply bind_ok in H as (n' & Hn' & H). apply chk_inv in Hn' as [-> _]. injection H as <-. exists (- g). cbn [num den]. lia.
  - injection H as <-. exists g. cbn [num den]. lia.
Qed.
Lemma rat_normalize_val w r r' : rat_normalize w r = Ok r' -> den r <> 0 -> den r' <> 0 /\ num r * den r' = num r' * den r.
Proof. intros H Hd. apply rat_normalize_inv in H as (g & G & _ & E1 & E2). rewrite E1, E2 in *. split; [nia|ring]. Qed.
Lemma rat_normalize_lowest w r r' : rat_normalize w r = Ok r' -> Z.gcd (num r') (den r') = 1.
Proof.
  intros H. apply rat_normalize_inv in H as (g & G & A & E1 & E2). rewrite E1, E2 in A.
  rewrite Z.gcd_mul_mono_r in A. pose proof (Z.gcd_nonneg (num r') (den r')). assert (0 < Z.abs g) by lia. nia.
Qed.
Lemma rat_normalize_pos w r r' : rat_normalize w r = Ok r' -> 0 < den r -> 0 < den r'.
Proof.
  unfold rat_normalize, adapter_abs. intros H Hp.
  apply bind_ok in H as (a & Ha & H). apply chk_inv in Ha as [-> _].
  apply bind_ok in H as (b & Hb & H). apply chk_inv in Hb as [-> _].
  apply bind_ok in H as (g & Hg & H). apply adapter_gcd_inv in Hg. rewrite Z.gcd_abs_l, Z.gcd_abs_r in Hg.
  apply bind_ok in H as (n & Hn & H). apply quot_w_inv in Hn as (G0 & Hn & _).
  apply bind_ok in H as (d & Hd & H). apply quot_w_inv in Hd as (_ & Hd & _).
  pose proof (Z.gcd_nonneg (num r) (den r)) as GN.
  pose proof (quot_exact (den r) g G0 ltac:(rewrite Hg; apply Z.gcd_divide_r)) as E2. rewrite <- Hd in E2.
  destruct (Z.eqb_spec d (-1)) as [->|N].
  - apply bind_ok in H as (n' & Hn' & H). injection H as <-. cbn. lia.
  - injection H as <-. cbn. nia.
Qed.

Lemma rat_make_inv w n d r : rat_make w n d = Ok r -> d <> 0 /\ rat_normalize w (Rat n d) = Ok r.
Proof. unfold rat_make. destruct (Z.eqb_spec d 0); [discriminate|auto]. Qed.

Lemma rat_make_exact w n d r : rat_make w n d = Ok r -> den r <> 0 /\ (qv r == inject_Z n / inject_Z d)%Q.
Proof.
  intros H. apply rat_make_inv in H as [D H]. apply rat_normalize_val in H; [|assumption]. cbn in H. destruct H as [H1 H2].
  split; [assumption|]. apply qdiv_eq; auto.
Qed.
Lemma rat_add_val w a b r : rat_add w a b = Ok r -> den a <> 0 -> den b <> 0 ->
  den r <> 0 /\ num r * (den a * den b) = (num a * den b + num b * den a) * den r.
Proof.
  unfold rat_add. intros H Ha Hb.
  apply bind_ok in H as (l & Hl & H). apply adapter_lcm_inv in Hl.
  apply bind_ok in H as (qa & Hqa & H). apply quot_w_inv in Hqa as (_ & Hqa & _).
  apply bind_ok in H as (x & Hx & H). apply chk_inv in Hx as [-> _].
  apply bind_ok in H as (qb & Hqb & H). apply quot_w_inv in Hqb as (_ & Hqb & _).
  apply bind_ok in H as (y & Hy & H). apply chk_inv in Hy as [-> _].
  apply bind_ok in H as (s & Hs & H). apply chk_inv in Hs as [-> _].
  assert (L0 : l <> 0) by (rewrite Hl; intros E; apply Z.lcm_eq_0 in E; tauto).
  pose proof (quot_exact l (den a) Ha ltac:(rewrite Hl; apply Z.divide_lcm_l)) as E1. rewrite <- Hqa in E1.
  pose proof (quot_exact l (den b) Hb ltac:(rewrite Hl; apply Z.divide_lcm_r)) as E2. rewrite <- Hqb in E2.
  apply rat_normalize_val in H; [|assumption]. cbn in H. destruct H as [H1 H2]. split; [assumption|].
  apply (Z.mul_reg_r _ _ l L0).
  transitivity ((num r * l) * (den a * den b)); [ring|]. rewrite <- H2.
  transitivity ((num a * (qa * den a) * den b + num b * (qb * den b) * den a) * den r); [ring|]. rewrite E1, E2. ring.
Qed.
Lemma rat_add_exact w a b r : den a <> 0 -> den b <> 0 -> rat_add w a b = Ok r -> den r <> 0 /\ (qv r == qv a + qv b)%Q.
Proof.
  intros Ha Hb H. apply rat_add_val in H as [H1 H2]; try assumption. split; [assumption|].
  rewrite qv_add_num by assumption. apply qdiv_eq; [assumption|nia|assumption].
Qed.
Lemma rat_negate_exact w a r : den a <> 0 -> rat_negate w a = Ok r -> den r <> 0 /\ (qv r == - qv a)%Q.
Proof.
  unfold rat_negate. intros Ha H. apply bind_ok in H as (n & Hn & H). apply chk_inv in Hn as [-> _].
  apply rat_make_exact in H as [H1 H2]. split; [assumption|]. rewrite H2. unfold qv. rewrite inject_Z_opp. apply inj0 in Ha. field. assumption.
Qed.
Lemma rat_sub_exact w a b r : den a <> 0 -> den b <> 0 -> rat_sub w a b = Ok r -> den r <> 0 /\ (qv r == qv a - qv b)%Q.
Proof.
  unfold rat_sub. intros Ha Hb H. apply bind_ok in H as (nb & Hn & H). apply rat_negate_exact in Hn as [N1 N2]; [|assumption].
  apply rat_add_exact in H as [H1 H2]; try assumption. split; [assumption|]. rewrite H2, N2. reflexivity.
Qed.
Lemma rat_mul_inv w a b r : rat_mul w a b = Ok r -> exists g1 g2, g1 <> 0 /\ g2 <> 0 /\
  g1 = Z.gcd (num a) (den b) /\ g2 = Z.gcd (num b) (den a) /\
  num r * (g1 * g2) = num a * num b /\ den r * (g1 * g2) = den a * den b /\ den r <> 0 /\
  num r = Z.quot (num a) g1 * Z.quot (num b) g2 /\ den r = Z.quot (den a) g2 * Z.quot (den b) g1.
Proof.
  unfold rat_mul. intros H.
  apply bind_ok in H as (g1 & Hg1 & H). apply adapter_gcd_inv in Hg1.
  apply bind_ok in H as (g2 & Hg2 & H). apply adapter_gcd_inv in Hg2.
  apply bind_ok in H as (n1 & Hn1 & H). apply quot_w_inv in Hn1 as (G1 & Hn1 & _).
  apply bind_ok in H as (n2 & Hn2 & H). apply quot_w_inv in Hn2 as (G2 & Hn2 & _).
  apply bind_ok in H as (n & Hn & H). apply chk_inv in Hn as [-> _].
  apply bind_ok in H as (d1 & Hd1 & H). apply quot_w_inv in Hd1 as (_ & Hd1 & _).
  apply bind_ok in H as (d2 & Hd2 & H). apply quot_w_inv in Hd2 as (_ & Hd2 & _).
  apply bind_ok in H as (d & Hd & H). apply chk_inv in Hd as [-> _].
  destruct (Z.eqb_spec (d1 * d2) 0); [discriminate|]. injection H as <-.
  pose proof (quot_exact (num a) g1 G1 ltac:(rewrite Hg1; apply Z.gcd_divide_l)) as E1.
  pose proof (quot_exact (den b) g1 G1 ltac:(rewrite Hg1; apply Z.gcd_divide_r)) as E2.
  pose proof (quot_exact (num b) g2 G2 ltac:(rewrite Hg2; apply Z.gcd_divide_l)) as E3.
  pose proof (quot_exact (den a) g2 G2 ltac:(rewrite Hg2; apply Z.gcd_divide_r)) as E4.
  exists g1, g2. cbn. repeat split; try assumption; try (subst; reflexivity).
  - transitivity ((n1 * g1) * (n2 * g2)); [ring|]. subst n1 n2. rewrite E1, E3. reflexivity.
  - transitivity ((d1 * g2) * (d2 * g1)); [ring|]. subst d1 d2. rewrite E4, E2. reflexivity.
Qed.
Lemma rat_mul_exact w a b r : rat_mul w a b = Ok r -> den a <> 0 /\ den b <> 0 /\ den r <> 0 /\ (qv r == qv a * qv b)%Q.
Proof.
  intros H. apply rat_mul_inv in H as (g1 & g2 & G1 & G2 & _ & _ & N & D & D0 & _).
  assert (den a * den b <> 0) by (rewrite <- D; repeat (rewrite Z.mul_eq_0); tauto).
  assert (Ha : den a <> 0) by nia. assert (Hb : den b <> 0) by nia. repeat split; try assumption.
  rewrite qv_mul_num by assumption. apply qdiv_eq; [assumption|nia|]. rewrite <- N, <- D. ring.
Qed.
Lemma rat_inverse_exact w a r : den a <> 0 -> rat_inverse w a = Ok r -> den r <> 0 /\ num a <> 0 /\ (qv r == / qv a)%Q.
Proof.
  unfold rat_inverse. intros Ha H. pose proof H as H0. apply rat_make_inv in H0 as [N _]. apply rat_make_exact in H as [H1 H2].
  repeat split; try assumption. rewrite H2. unfold qv. apply inj0 in Ha. apply inj0 in N. field; auto.
Qed.
Lemma rat_div_exact w a b r : den b <> 0 -> rat_div w a b = Ok r -> den r <> 0 /\ num b <> 0 /\ (qv r == qv a / qv b)%Q.
Proof.
  unfold rat_div. intros Hb H. apply bind_ok in H as (ib & Hi & H). apply rat_inverse_exact in Hi as (I1 & I2 & I3); [|assumption].
  apply rat_mul_exact in H as (_ & _ & H1 & H2). repeat split; try assumption. rewrite H2, I3. reflexivity.
Qed.

(** ** lowest terms *)
Lemma rat_make_lowest w n d r : rat_make w n d = Ok r -> lowest_terms r.
Proof. intros H. apply rat_make_inv in H as [_ H]. now apply rat_normalize_lowest in H. Qed.
Lemma rat_add_lowest w a b r : rat_add w a b = Ok r -> lowest_terms r.
Proof.
  unfold rat_add. intros H.
  do 6 (apply bind_ok in H as (? & _ & H)). now apply rat_normalize_lowest in H.
Qed.
Lemma gcd_coprime_mul a b c d : Z.gcd a c = 1 -> Z.gcd a d = 1 -> Z.gcd b c = 1 -> Z.gcd b d = 1 -> Z.gcd (a * b) (c * d) = 1.
Proof.
  intros. apply Zgcd_1_rel_prime. apply rel_prime_mult; apply rel_prime_sym; apply rel_prime_mult; apply rel_prime_sym; now apply Zgcd_1_rel_prime.
Qed.
Lemma gcd_quot_coprime a b g : g = Z.gcd a b -> g <> 0 -> Z.gcd (Z.quot a g) (Z.quot b g) = 1.
Proof.
  intros E H. pose proof (quot_exact a g H ltac:(rewrite E; apply Z.gcd_divide_l)) as E1.
  pose proof (quot_exact b g H ltac:(rewrite E; apply Z.gcd_divide_r)) as E2.
  assert (X : Z.gcd (Z.quot a g * g) (Z.quot b g * g) = g) by (rewrite E1, E2; auto).
  rewrite Z.gcd_mul_mono_r in X. pose proof (Z.gcd_nonneg a b). rewrite Z.abs_eq in X by lia. nia.
Qed.
Lemma gcd_coprime_sub a b a' b' : Z.gcd a b = 1 -> (a' | a) -> (b' | b) -> Z.gcd a' b' = 1.
Proof.
  intros E Da Db. apply Zgcd_1_rel_prime. apply Zgcd_1_rel_prime in E. constructor; try (apply Z.divide_1_l).
  intros x Xa Xb. apply (rel_prime_sym a b) in E. destruct E as [_ _ E]. apply E; [now apply Z.divide_trans with b'|now apply Z.divide_trans with a'].
Qed.
Lemma quot_divides a g : g <> 0 -> (g | a) -> (Z.quot a g | a).
Proof. intros H D. exists g. rewrite Z.mul_comm. symmetry. now apply quot_exact. Qed.
Lemma rat_mul_lowest w a b r : lowest_terms a -> lowest_terms b -> rat_mul w a b = Ok r -> lowest_terms r.
Proof.
  unfold lowest_terms. intros La Lb H. apply rat_mul_inv in H as (g1 & g2 & G1 & G2 & E1 & E2 & _ & _ & _ & N & D).
  rewrite N, D. apply gcd_coprime_mul.
  - apply gcd_coprime_sub with (num a) (den a); [assumption| |]; apply quot_divides; try assumption; [rewrite E1; apply Z.gcd_divide_l|rewrite E2; apply Z.gcd_divide_r].
  - apply gcd_quot_coprime; assumption.
  - apply gcd_quot_coprime; assumption.
  - apply gcd_coprime_sub with (num b) (den b); [assumption| |]; apply quot_divides; try assumption; [rewrite E2; apply Z.gcd_divide_l|rewrite E1; apply Z.gcd_divide_r].
Qed.
Lemma rat_negate_lowest w a r : rat_negate w a = Ok r -> lowest_terms r.
Proof. unfold rat_negate. intros H. apply bind_ok in H as (? & _ & H). now apply rat_make_lowest in H. Qed.
Lemma rat_sub_lowest w a b r : rat_sub w a b = Ok r -> lowest_terms r.
Proof. unfold rat_sub. intros H. apply bind_ok in H as (? & _ & H). now apply rat_add_lowest in H. Qed.
Lemma rat_inverse_lowest w a r : rat_inverse w a = Ok r -> lowest_terms r.
Proof. apply rat_make_lowest. Qed.
Lemma rat_div_lowest w a b r : lowest_terms a -> rat_div w a b = Ok r -> lowest_terms r.
Proof. unfold rat_div. intros La H. apply bind_ok in H as (i & Hi & H). apply rat_inverse_lowest in Hi. now apply rat_mul_lowest in H. Qed.

(** ** sign of the denominator *)
Lemma rat_make_pos w n d r : rat_make w n d = Ok r -> 0 < d -> 0 < den r.
Proof. intros H Hd. apply rat_make_inv in H as [_ H]. now apply rat_normalize_pos in H. Qed.
Lemma rat_add_pos w a b r : den a <> 0 -> den b <> 0 -> rat_add w a b = Ok r -> 0 < den r.
Proof.
  unfold rat_add. intros Ha Hb H. apply bind_ok in H as (l & Hl & H). apply adapter_lcm_inv in Hl.
  do 5 (apply bind_ok in H as (? & _ & H)). apply rat_normalize_pos in H; [assumption|]. cbn.
  pose proof (Z.lcm_nonneg (den a) (den b)). assert (Z.lcm (den a) (den b) <> 0); [|lia]. intros E. apply Z.lcm_eq_0 in E. tauto.
Qed.
Lemma rat_mul_pos w a b r : rat_mul w a b = Ok r -> (0 < den r <-> 0 < den a * den b).
Proof.
  intros H. apply rat_mul_inv in H as (g1 & g2 & G1 & G2 & E1 & E2 & _ & D & D0 & _).
  pose proof (Z.gcd_nonneg (num a) (den b)). pose proof (Z.gcd_nonneg (num b) (den a)).
  assert (0 < g1 * g2) by nia. rewrite <- D. nia.
Qed.
Lemma rat_negate_pos w a r : rat_negate w a = Ok r -> 0 < den a -> 0 < den r.
Proof. unfold rat_negate. intros H Ha. apply bind_ok in H as (? & _ & H). now apply rat_make_pos in H. Qed.

(** ** comparison *)
Lemma cross_compare a b : 0 < den a * den b -> (qv a ?= qv b)%Q = (num a * den b ?= num b * den a).
Proof.
  intros H. assert (Ha : den a <> 0) by nia. assert (Hb : den b <> 0) by nia.
  pose proof (inj0 _ Ha) as Ia. pose proof (inj0 _ Hb) as Ib.
  assert (Pz : (0 < inject_Z (den a * den b))%Q) by (change 0%Q with (inject_Z 0); now rewrite <- Zlt_Qlt).
  assert (Ea : (qv a * inject_Z (den a * den b) == inject_Z (num a * den b))%Q) by (unfold qv; rewrite !inject_Z_mult; field; auto).
  assert (Eb : (qv b * inject_Z (den a * den b) == inject_Z (num b * den a))%Q) by (unfold qv; rewrite !inject_Z_mult; field; auto).
  destruct (Z.compare_spec (num a * den b) (num b * den a)) as [E|E|E].
  - apply Qeq_alt. apply qdiv_eq; assumption.
  - apply Qlt_alt. apply (Qmult_lt_r _ _ _ Pz). rewrite Ea, Eb. now rewrite <- Zlt_Qlt.
  - apply Qgt_alt. apply (Qmult_lt_r _ _ _ Pz). rewrite Ea, Eb. now rewrite <- Zlt_Qlt.
Qed.
Lemma rat_cmp_inv w a b c : rat_cmp w a b = Ok c -> c = (num a * den b ?= num b * den a).
Proof.
  unfold rat_cmp. intros H. apply bind_ok in H as (x & Hx & H). apply chk_inv in Hx as [-> _].
  apply bind_ok in H as (y & Hy & H). apply chk_inv in Hy as [-> _]. now injection H as <-.
Qed.
Lemma rat_cmp_same_sign w a b c : 0 < den a * den b -> rat_cmp w a b = Ok c -> c = (qv a ?= qv b)%Q.
Proof. intros H E. apply rat_cmp_inv in E. now rewrite cross_compare. Qed.
Lemma rat_cmp_opposite w a b c : den a * den b < 0 -> rat_cmp w a b = Ok c -> c = CompOpp (qv a ?= qv b)%Q.
Proof.
  intros H E. apply rat_cmp_inv in E. subst c.
  assert (X : (qv a == qv (Rat (- num a) (- den a)))%Q) by (unfold qv; cbn; apply qdiv_eq; [nia|nia|ring]).
  rewrite X, cross_compare by (cbn; nia). cbn. replace (num b * - den a) with (- (num b * den a)) by ring.
  replace (- num a * den b) with (- (num a * den b)) by ring. rewrite Z.compare_opp.
  apply Z.compare_antisym.
Qed.
Lemma rat_eq_exact w a b e : den a <> 0 -> den b <> 0 -> rat_eq w a b = Ok e -> (e = true <-> (qv a == qv b)%Q).
Proof.
  unfold rat_eq. intros Ha Hb H. apply bind_ok in H as (x & Hx & H). apply chk_inv in Hx as [-> _].
  apply bind_ok in H as (y & Hy & H). apply chk_inv in Hy as [-> _]. injection H as <-. rewrite Z.eqb_eq. split.
  - intros E. apply qdiv_eq; assumption.
  - apply qdiv_eq_inv; assumption.
Qed.
Lemma rat_ne_exact w a b e : den a <> 0 -> den b <> 0 -> rat_ne w a b = Ok e -> (e = true <-> ~ (qv a == qv b)%Q).
Proof.
  intros Ha Hb H. assert (E : rat_eq w a b = Ok (negb e)).
  { unfold rat_ne, rat_eq in *. apply bind_ok in H as (x & -> & H). apply bind_ok in H as (y & -> & H). injection H as <-.
    cbn. now rewrite negb_involutive. }
  apply rat_eq_exact in E; try assumption. destruct e; cbn in E; split.
  - intros _ Q. apply E in Q. discriminate.
  - reflexivity.
  - discriminate.
  - intros N. exfalso. apply N. now apply E.
Qed.

(** ** outcomes *)
Lemma ou_ok {A} (a : A) : ok_or_ub (Ok a). Proof. left; eauto. Qed.
Lemma ou_chk w x : ok_or_ub (chk w x). Proof. destruct (chk_cases w x) as [-> | ->]; [left|right]; eauto. Qed.
Lemma ou_quot w x y : ok_or_ub (quot_w w x y). Proof. unfold quot_w. destruct (y =? 0); [right; eauto|apply ou_chk]. Qed.
Lemma ou_bind {A B} (x : res A) (f : A -> res B) : ok_or_ub x -> (forall a, x = Ok a -> ok_or_ub (f a)) -> ok_or_ub (bind x f).
Proof. intros [[a E]|[u E]] H; rewrite E; cbn; [apply H; assumption|right; eauto]. Qed.
Lemma oud_bind {A B} (x : res A) (f : A -> res B) : ok_ub_div x -> (forall a, x = Ok a -> ok_ub_div (f a)) -> ok_ub_div (bind x f).
Proof. intros [[[a E]|[u E]]|E] H; rewrite E; cbn; [apply H; assumption|left; right; eauto|right; reflexivity]. Qed.
Lemma ou_gcd w x y : ok_or_ub (adapter_gcd w x y).
Proof. unfold adapter_gcd. repeat (apply ou_bind; [apply ou_chk|intros ? _]). apply ou_ok. Qed.
Lemma ou_lcm w x y : ok_or_ub (adapter_lcm w x y).
Proof. unfold adapter_lcm. repeat (apply ou_bind; [apply ou_chk|intros ? _]). apply ou_chk. Qed.
Lemma normalize_outcome w r : ok_or_ub (rat_normalize w r).
Proof.
  unfold rat_normalize, adapter_abs. do 5 (apply ou_bind; [first [apply ou_chk|apply ou_gcd|apply ou_quot]|intros ? _]).
  destruct (_ =? -1); [|apply ou_ok]. apply ou_bind; [apply ou_chk|]. intros. apply ou_ok.
Qed.
Lemma make_outcome w n d : (d = 0 /\ rat_make w n d = Throw division_by_zero) \/ (d <> 0 /\ ok_or_ub (rat_make w n d)).
Proof. unfold rat_make. destruct (Z.eqb_spec d 0); [left; auto|right]. split; [assumption|apply normalize_outcome]. Qed.
Lemma add_outcome w a b : ok_or_ub (rat_add w a b).
Proof.
  unfold rat_add. apply ou_bind; [apply ou_lcm|intros ? _].
  do 5 (apply ou_bind; [first [apply ou_chk|apply ou_quot]|intros ? _]). apply normalize_outcome.
Qed.
Lemma negate_outcome w a : den a <> 0 -> ok_or_ub (rat_negate w a).
Proof. intros H. unfold rat_negate. apply ou_bind; [apply ou_chk|intros n _]. destruct (make_outcome w n (den a)) as [[? _]|[_ X]]; [contradiction|assumption]. Qed.
Lemma sub_outcome w a b : den b <> 0 -> ok_or_ub (rat_sub w a b).
Proof. intros H. unfold rat_sub. apply ou_bind; [now apply negate_outcome|intros ? _]. apply add_outcome. Qed.
Lemma mul_outcome w a b : den a <> 0 -> den b <> 0 -> ok_or_ub (rat_mul w a b).
Proof.
  intros Ha Hb. unfold rat_mul. apply ou_bind; [apply ou_gcd|intros g1 E1]. apply ou_bind; [apply ou_gcd|intros g2 E2].
  apply adapter_gcd_inv in E1. apply adapter_gcd_inv in E2.
  apply ou_bind; [apply ou_quot|intros n1 _]. apply ou_bind; [apply ou_quot|intros n2 _]. apply ou_bind; [apply ou_chk|intros n _].
  apply ou_bind; [apply ou_quot|intros d1 D1]. apply ou_bind; [apply ou_quot|intros d2 D2]. apply ou_bind; [apply ou_chk|intros d D].
  apply quot_w_inv in D1 as (G2 & D1 & _). apply quot_w_inv in D2 as (G1 & D2 & _). apply chk_inv in D as [-> _].
  pose proof (quot_exact (den b) g1 G1 ltac:(rewrite E1; apply Z.gcd_divide_r)) as Q2.
  pose proof (quot_exact (den a) g2 G2 ltac:(rewrite E2; apply Z.gcd_divide_r)) as Q1. rewrite <- D1 in Q1. rewrite <- D2 in Q2.
  destruct (Z.eqb_spec (d1 * d2) 0); [nia|apply ou_ok].
Qed.
Lemma inverse_outcome w a : (num a = 0 /\ rat_inverse w a = Throw division_by_zero) \/ (num a <> 0 /\ ok_or_ub (rat_inverse w a)).
Proof. apply make_outcome. Qed.
Lemma div_outcome w a b : den a <> 0 -> den b <> 0 ->
  (num b = 0 /\ rat_div w a b = Throw division_by_zero) \/ (num b <> 0 /\ ok_or_ub (rat_div w a b)).
Proof.
  intros Ha Hb. unfold rat_div. destruct (inverse_outcome w b) as [[N E]|[N E]].
  - left. rewrite E. auto.
  - right. split; [assumption|]. apply ou_bind; [assumption|]. intros i Hi. apply rat_inverse_exact in Hi as (I1 & _); [|assumption].
    now apply mul_outcome.
Qed.

(** ** no overflow for small components *)
Lemma quot_abs_le a g : g <> 0 -> Z.abs (Z.quot a g) <= Z.abs a.
Proof.
  intros H. rewrite <- Z.quot_abs by assumption.
  pose proof (Z.mul_quot_le (Z.abs a) (Z.abs g) ltac:(lia) ltac:(lia)). pose proof (Z.quot_pos (Z.abs a) (Z.abs g) ltac:(lia) ltac:(lia)). nia.
Qed.
Lemma quot_ok w a b : b <> 0 -> Z.abs a < 2 ^ (w - 1) -> quot_w w a b = Ok (Z.quot a b).
Proof.
  intros Hb Ha. unfold quot_w. destruct (Z.eqb_spec b 0); [contradiction|]. apply chk_ok. pose proof (quot_abs_le a b Hb). lia.
Qed.
Lemma gcd_ok' w a b : Z.abs a < 2 ^ (w - 1) -> Z.abs b < 2 ^ (w - 1) -> adapter_gcd w a b = Ok (Z.gcd a b).
Proof. intros. unfold adapter_gcd. rewrite !chk_ok by lia. reflexivity. Qed.
Lemma abs_mul_le x y B : Z.abs x <= B -> Z.abs y <= B -> Z.abs (x * y) <= B * B.
Proof. intros. rewrite Z.abs_mul. apply Z.mul_le_mono_nonneg; lia. Qed.
Lemma chk_abs w x B : Z.abs x <= B -> B < 2 ^ (w - 1) -> chk w x = Ok x.
Proof. intros. apply chk_ok. lia. Qed.
Lemma lcm_le a b : a <> 0 -> b <> 0 -> Z.lcm a b <= Z.abs a * Z.abs b.
Proof.
  intros Ha Hb. rewrite <- Z.abs_mul. apply Z.divide_pos_le; [lia|]. apply Z.divide_abs_r.
  apply Z.lcm_least; [apply Z.divide_factor_l|apply Z.divide_factor_r].
Qed.
Lemma normalize_ok w r : den r <> 0 -> Z.abs (num r) < 2 ^ (w - 1) -> Z.abs (den r) < 2 ^ (w - 1) -> exists r', rat_normalize w r = Ok r' /\
  Z.abs (num r') <= Z.abs (num r) /\ Z.abs (den r') <= Z.abs (den r).
Proof.
  intros Hd H1 H2. unfold rat_normalize, adapter_abs. rewrite !chk_ok by lia. cbn [bind].
  rewrite gcd_ok' by lia. cbn [bind]. rewrite Z.gcd_abs_l, Z.gcd_abs_r.
  assert (G : Z.gcd (num r) (den r) <> 0) by (intros E; apply Z.gcd_eq_0_r in E; contradiction).
  rewrite !quot_ok by assumption. cbn [bind]. pose proof (quot_abs_le (num r) _ G). pose proof (quot_abs_le (den r) _ G).
  destruct (Z.eqb_spec (Z.quot (den r) (Z.gcd (num r) (den r))) (-1)).
  - rewrite chk_ok by lia. cbn [bind]. eexists. split; [reflexivity|]. cbn. lia.
  - eexists. split; [reflexivity|]. cbn. lia.
Qed.
Lemma make_ok w n d : d <> 0 -> Z.abs n < 2 ^ (w - 1) -> Z.abs d < 2 ^ (w - 1) -> exists r, rat_make w n d = Ok r /\ Z.abs (num r) <= Z.abs n /\ Z.abs (den r) <= Z.abs d.
Proof. intros Hd H1 H2. unfold rat_make. destruct (Z.eqb_spec d 0); [contradiction|]. now apply (normalize_ok w (Rat n d)). Qed.
Lemma lcm_quot_le a b : a <> 0 -> b <> 0 -> Z.abs (Z.quot (Z.lcm a b) a) <= Z.abs b.
Proof.
  intros Ha Hb. pose proof (quot_exact (Z.lcm a b) a Ha (Z.divide_lcm_l a b)) as E. pose proof (lcm_le a b Ha Hb) as L.
  pose proof (Z.lcm_nonneg a b) as L0. rewrite <- E in L at 1.
  assert (Z.abs (Z.quot (Z.lcm a b) a * a) <= Z.abs a * Z.abs b) by (rewrite E, Z.abs_eq; lia).
  rewrite Z.abs_mul in H. nia.
Qed.
Lemma add_ok w B a b : small B a -> small B b -> den a <> 0 -> den b <> 0 -> 2 * (B * B) < 2 ^ (w - 1) -> exists r, rat_add w a b = Ok r /\ small (2 * (B * B)) r.
Proof.
  intros [A1 A2] [B1 B2] Ha Hb HB. assert (P : 0 < B) by lia. assert (PB : B <= B * B) by nia.
  unfold rat_add, adapter_lcm. rewrite (chk_ok w (Z.abs (den a))) by lia. rewrite (chk_ok w (Z.abs (den b))) by lia. cbn [bind].
  pose proof (lcm_le (den a) (den b) Ha Hb) as L. pose proof (Z.lcm_nonneg (den a) (den b)) as L0.
  assert (L1 : Z.lcm (den a) (den b) <= B * B) by nia.
  rewrite (chk_ok w (Z.lcm (den a) (den b))) by lia. cbn [bind]. rewrite !quot_ok by (try assumption; lia). cbn [bind].
  pose proof (lcm_quot_le (den a) (den b) Ha Hb) as Q1. pose proof (lcm_quot_le (den b) (den a) Hb Ha) as Q2. rewrite Z.lcm_comm in Q2.
  set (qa := Z.quot (Z.lcm (den a) (den b)) (den a)) in *. set (qb := Z.quot (Z.lcm (den a) (den b)) (den b)) in *.
  clearbody qa qb.
  assert (X1 : Z.abs (num a * qa) <= B * B) by (apply abs_mul_le; lia).
  assert (X2 : Z.abs (num b * qb) <= B * B) by (apply abs_mul_le; lia).
  rewrite (chk_ok w (num a * qa)) by lia. cbn [bind]. rewrite (chk_ok w (num b * qb)) by lia. cbn [bind].
  rewrite (chk_ok w (num a * qa + num b * qb)) by lia. cbn [bind].
  destruct (normalize_ok w (Rat (num a * qa + num b * qb) (Z.lcm (den a) (den b)))) as (r & E & R1 & R2); cbn [num den] in *; try lia.
  { intros E. apply Z.lcm_eq_0 in E. tauto. }
  exists r. split; [assumption|]. unfold small. clear - R1 R2 X1 X2 L1 L0. lia.
Qed.
Lemma negate_ok w B a : small B a -> den a <> 0 -> B < 2 ^ (w - 1) -> exists r, rat_negate w a = Ok r /\ small B r.
Proof.
  intros [A1 A2] Ha HB. unfold rat_negate. rewrite chk_ok by lia. cbn [bind].
  destruct (make_ok w (- num a) (den a) Ha) as (r & E & R1 & R2); try lia. exists r. split; [assumption|]. unfold small. lia.
Qed.
Lemma sub_ok w B a b : small B a -> small B b -> den a <> 0 -> den b <> 0 -> 2 * (B * B) < 2 ^ (w - 1) -> exists r, rat_sub w a b = Ok r /\ small (2 * (B * B)) r.
Proof.
  intros SA SB Ha Hb HB. assert (0 < B) by (destruct SA; lia). unfold rat_sub. destruct (negate_ok w B b SB Hb) as (nb & E & S); [nia|].
  rewrite E. cbn [bind]. apply rat_negate_exact in E as [N _]; [|assumption]. now apply add_ok.
Qed.
Lemma mul_ok w B a b : small B a -> small B b -> den a <> 0 -> den b <> 0 -> B * B < 2 ^ (w - 1) -> exists r, rat_mul w a b = Ok r /\ small (B * B) r.
Proof.
  intros [A1 A2] [B1 B2] Ha Hb HB. assert (P : 0 < B) by lia. assert (PB : B <= B * B) by nia. unfold rat_mul.
  rewrite (gcd_ok' w (num a)), (gcd_ok' w (num b)) by lia. cbn [bind].
  assert (G1 : Z.gcd (num a) (den b) <> 0) by (intros E; apply Z.gcd_eq_0_r in E; contradiction).
  assert (G2 : Z.gcd (num b) (den a) <> 0) by (intros E; apply Z.gcd_eq_0_r in E; contradiction).
  set (g1 := Z.gcd (num a) (den b)) in *. set (g2 := Z.gcd (num b) (den a)) in *.
  rewrite !quot_ok by (try assumption; lia). cbn [bind].
  pose proof (quot_abs_le (num a) g1 G1). pose proof (quot_abs_le (num b) g2 G2).
  pose proof (quot_abs_le (den a) g2 G2). pose proof (quot_abs_le (den b) g1 G1).
  pose proof (quot_exact (den b) g1 G1 (Z.gcd_divide_r _ _)) as Q2. pose proof (quot_exact (den a) g2 G2 (Z.gcd_divide_r _ _)) as Q1.
  generalize dependent (Z.quot (num a) g1). intros n1 Hn1. generalize dependent (Z.quot (num b) g2). intros n2 Hn2.
  generalize dependent (Z.quot (den a) g2). intros d1 Hd1 Q1. generalize dependent (Z.quot (den b) g1). intros d2 Hd2 Q2.
  clearbody g1 g2.
  assert (X1 : Z.abs (n1 * n2) <= B * B) by (apply abs_mul_le; eapply Z.le_trans; eassumption).
  assert (X2 : Z.abs (d1 * d2) <= B * B) by (apply abs_mul_le; eapply Z.le_trans; eassumption).
  rewrite (chk_abs w _ _ X1 HB). cbn [bind]. rewrite (chk_abs w _ _ X2 HB). cbn [bind].
  destruct (Z.eqb_spec (d1 * d2) 0) as [E|E]; [apply Z.mul_eq_0 in E; destruct E; subst; lia|].
  eexists. split; [reflexivity|]. split; cbn [num den]; assumption.
Qed.
Lemma inverse_ok w B a : small B a -> num a <> 0 -> B < 2 ^ (w - 1) -> exists r, rat_inverse w a = Ok r /\ small B r.
Proof.
  intros [A1 A2] Ha HB. unfold rat_inverse. destruct (make_ok w (den a) (num a) Ha) as (r & E & R1 & R2); try lia.
  exists r. split; [assumption|]. unfold small. lia.
Qed.
Lemma div_ok w B a b : small B a -> small B b -> den a <> 0 -> den b <> 0 -> num b <> 0 -> B * B < 2 ^ (w - 1) -> exists r, rat_div w a b = Ok r /\ small (B * B) r.
Proof.
  intros SA SB Ha Hb Nb HB. assert (0 < B) by (destruct SA; lia). unfold rat_div. destruct (inverse_ok w B b SB Nb) as (i & E & S); [nia|].
  rewrite E. cbn [bind]. apply rat_inverse_exact in E as (N & _); [|assumption]. now apply mul_ok.
Qed.
Lemma cmp_ok w B a b : small B a -> small B b -> B * B < 2 ^ (w - 1) -> rat_cmp w a b = Ok (num a * den b ?= num b * den a) /\
  rat_eq w a b = Ok (num a * den b =? num b * den a) /\ rat_ne w a b = Ok (negb (num a * den b =? num b * den a)).
Proof.
  intros [A1 A2] [B1 B2] HB. assert (0 <= B) by lia.
  assert (Z.abs (num a * den b) <= B * B) by (rewrite Z.abs_mul; apply Z.mul_le_mono_nonneg; lia).
  assert (Z.abs (num b * den a) <= B * B) by (rewrite Z.abs_mul; apply Z.mul_le_mono_nonneg; lia).
  unfold rat_cmp, rat_eq, rat_ne. rewrite !chk_ok by lia. auto.
Qed.
