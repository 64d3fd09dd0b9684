(** The exponent of a prime in a number. *)
From Coq Require Import ZArith Znumtheory Lia List.
Import ListNotations.
Open Scope Z_scope.

Fixpoint val_fuel (f : nat) (p n : Z) : Z :=
  match f with O => 0 | S f' => if n mod p =? 0 then 1 + val_fuel f' p (n / p) else 0 end.
Definition val (p n : Z) : Z := val_fuel (Z.to_nat (Z.abs n)) p n.

Lemma val_fuel_spec p : 1 < p -> forall f n, n <> 0 -> Z.abs n <= Z.of_nat f ->
  0 <= val_fuel f p n /\ exists m, n = p ^ val_fuel f p n * m /\ ~ (p | m).
Proof.
  intros Hp. induction f as [|f IH]; intros n Hn L; [lia|]. cbn [val_fuel].
  destruct (Z.eqb_spec (n mod p) 0) as [E|E].
  - apply Z.mod_divide in E; [|lia]. destruct E as [q ->]. rewrite Z.div_mul by lia. rewrite Z.abs_mul in L.
    assert (Hq : q <> 0) by (intros ->; lia). assert (Z.abs q < Z.of_nat (S f)) by nia.
    destruct (IH q Hq ltac:(lia)) as (V0 & m & E & Nd). split; [lia|]. exists m. split; [|assumption].
    rewrite Z.pow_add_r, Z.pow_1_r by lia. rewrite E at 1. ring.
  - split; [lia|]. exists n. split; [rewrite Z.pow_0_r; lia|]. intros D. apply E. now apply Z.mod_divide; [lia|].
Qed.
Lemma val_nonneg p n : 1 < p -> n <> 0 -> 0 <= val p n.
Proof. intros Hp Hn. apply val_fuel_spec; lia. Qed.
Lemma val_spec p n : 1 < p -> n <> 0 -> exists m, n = p ^ val p n * m /\ ~ (p | m).
Proof. intros Hp Hn. unfold val. apply (val_fuel_spec p Hp); [assumption|lia]. Qed.
Lemma val_unique p k m k' m' : 1 < p -> 0 <= k -> 0 <= k' -> p ^ k * m = p ^ k' * m' -> ~ (p | m) -> ~ (p | m') -> k = k' /\ m = m'.
Proof.
  intros Hp Hk Hk' E N N'.
  assert (W : forall a b x y, 0 <= a < b -> p ^ a * x = p ^ b * y -> (p | x)).
  { intros a b x y H F. replace b with (a + (1 + (b - a - 1))) in F by lia. rewrite !Z.pow_add_r, Z.pow_1_r, <- !Z.mul_assoc in F by lia.
    apply Z.mul_reg_l in F; [|apply Z.pow_nonzero; lia]. exists (p ^ (b - a - 1) * y). rewrite F. ring. }
  destruct (Z.lt_trichotomy k k') as [L|[->|L]].
  - exfalso. apply N. now apply (W k k' m m').
  - split; [reflexivity|]. apply Z.mul_reg_l in E; [assumption|apply Z.pow_nonzero; lia].
  - exfalso. apply N'. apply (W k' k m' m); [lia|auto].
Qed.
Lemma val_intro p n k m : 1 < p -> 0 <= k -> n = p ^ k * m -> ~ (p | m) -> val p n = k.
Proof.
  intros Hp Hk -> N. assert (m <> 0) by (intros ->; apply N, Z.divide_0_r).
  assert (p ^ k <> 0) by (apply Z.pow_nonzero; lia).
  assert (Hn : p ^ k * m <> 0) by (apply Z.neq_mul_0; auto).
  destruct (val_spec p _ Hp Hn) as (m' & E & N'). symmetry. now apply (val_unique p k m _ m'); [|assumption|apply val_nonneg|..].
Qed.
Lemma val_mul p a b : prime p -> a <> 0 -> b <> 0 -> val p (a * b) = val p a + val p b.
Proof.
  intros P Ha Hb. assert (Hp : 1 < p) by (destruct P; lia).
  destruct (val_spec p a Hp Ha) as (x & Ea & Nx). destruct (val_spec p b Hp Hb) as (y & Eb & Ny).
  pose proof (val_nonneg p a Hp Ha). pose proof (val_nonneg p b Hp Hb).
  apply val_intro with (x * y); [assumption|lia| |].
  - rewrite Z.pow_add_r by lia. rewrite Ea at 1. rewrite Eb at 1. ring.
  - intros D. apply prime_mult in D; tauto.
Qed.
Lemma val_1 p : 1 < p -> val p 1 = 0.
Proof. intros H. apply val_intro with 1; [assumption|lia|reflexivity|]. intros D. apply Z.divide_1_r_nonneg in D; lia. Qed.
Lemma val_opp p a : 1 < p -> a <> 0 -> val p (- a) = val p a.
Proof.
  intros Hp Ha. destruct (val_spec p a Hp Ha) as (x & Ea & Nx). apply val_intro with (- x); [assumption|now apply val_nonneg| |].
  - rewrite Ea at 1. ring.
  - intros D. apply Nx. now apply -> Z.divide_opp_r in D.
Qed.
Lemma val_pow p a n : prime p -> a <> 0 -> 0 <= n -> val p (a ^ n) = n * val p a.
Proof.
  intros P Ha. assert (Hp : 1 < p) by (destruct P; lia). revert n. apply natlike_ind.
  - rewrite Z.pow_0_r. now rewrite val_1.
  - intros n Hn IH. rewrite Z.pow_succ_r by assumption. rewrite val_mul, IH by (try assumption; apply Z.pow_nonzero; lia). lia.
Qed.
Lemma val_self p : prime p -> val p p = 1.
Proof. intros P. assert (1 < p) by (destruct P; lia). apply val_intro with 1; [assumption|lia|ring|]. intros D. apply Z.divide_1_r_nonneg in D; lia. Qed.
Lemma val_other p q : prime p -> prime q -> p <> q -> val p q = 0.
Proof.
  intros P Q N. assert (1 < p) by (destruct P; lia). apply val_intro with q; [assumption|lia|rewrite Z.pow_0_r; ring|].
  intros D. apply N. now apply prime_div_prime.
Qed.
Lemma val_divide_pow p n k : 1 < p -> n <> 0 -> 0 <= k -> ((p ^ k | n) <-> k <= val p n).
Proof.
  intros Hp Hn Hk. destruct (val_spec p n Hp Hn) as (m & E & N). pose proof (val_nonneg p n Hp Hn). split.
  - intros [q Eq]. destruct (Z.le_gt_cases k (val p n)); [assumption|exfalso]. apply N.
    replace k with (val p n + (1 + (k - val p n - 1))) in Eq by lia. rewrite !Z.pow_add_r, Z.pow_1_r in Eq by lia.
    rewrite Eq in E at 1. assert (X : q * p ^ (k - val p n - 1) * p = m).
    { apply Z.mul_reg_l with (p ^ val p n); [apply Z.pow_nonzero; lia|]. rewrite <- E. ring. }
    exists (q * p ^ (k - val p n - 1)). now rewrite X.
  - intros L. exists (p ^ (val p n - k) * m). rewrite E at 1. replace (val p n) with (k + (val p n - k)) at 1 by lia.
    rewrite Z.pow_add_r by lia. ring.
Qed.
Lemma val_pos_divide p n : 1 < p -> n <> 0 -> (0 < val p n <-> (p | n)).
Proof. intros Hp Hn. pose proof (val_divide_pow p n 1 Hp Hn ltac:(lia)) as H. rewrite Z.pow_1_r in H. rewrite H. lia. Qed.

Lemma pos_ind (P : Z -> Prop) : (forall n, (forall m, 0 <= m < n -> P m) -> P n) -> forall n, P n.
Proof.
  intros H n. destruct (Z.le_gt_cases 0 n) as [L|G].
  - revert n L. apply Z_lt_induction. exact H.
  - apply H. intros. lia.
Qed.
Lemma prime_divisor_exists n : 1 < n -> exists p, prime p /\ (p | n).
Proof.
  revert n. apply (pos_ind (fun n => 1 < n -> exists p, prime p /\ (p | n))). intros n IH Hn.
  destruct (prime_dec n) as [P|NP]; [exists n; split; [assumption|apply Z.divide_refl]|].
  destruct (not_prime_divide n ltac:(lia) NP) as (m & Hm & D). destruct (IH m ltac:(lia) ltac:(lia)) as (p & P & Dp).
  exists p. split; [assumption|]. now apply Z.divide_trans with m.
Qed.
(** equal exponents at every prime: equal numbers *)
Lemma val_eq a b : 0 < a -> 0 < b -> (forall p, prime p -> val p a = val p b) -> a = b.
Proof.
  revert a b. apply (pos_ind (fun a => forall b, 0 < a -> 0 < b -> (forall p, prime p -> val p a = val p b) -> a = b)).
  intros a IH b Ha Hb H. destruct (Z.eq_dec a 1) as [->|N1].
  - destruct (Z.eq_dec b 1) as [|Nb]; [auto|exfalso]. destruct (prime_divisor_exists b ltac:(lia)) as (p & P & D).
    assert (Hp : 1 < p) by (destruct P; lia). apply val_pos_divide in D; [|assumption|lia]. rewrite <- H, val_1 in D by assumption. lia.
  - destruct (prime_divisor_exists a ltac:(lia)) as (p & P & D). assert (Hp : 1 < p) by (destruct P; lia).
    pose proof D as D2. apply val_pos_divide in D; [|assumption|lia]. rewrite H in D by assumption. apply val_pos_divide in D; [|assumption|lia].
    destruct D2 as [x ->]. destruct D as [y ->]. f_equal. apply IH; try nia. intros q Q. specialize (H q Q).
    rewrite !val_mul in H by (try assumption; nia). lia.
Qed.
(** exponents divisible by d: a d-th power *)
Lemma val_power d a : 0 < d -> 0 < a -> (forall p, prime p -> (d | val p a)) -> exists k, 0 < k /\ a = k ^ d.
Proof.
  intros Hd. revert a. apply (pos_ind (fun a => 0 < a -> (forall p, prime p -> (d | val p a)) -> exists k, 0 < k /\ a = k ^ d)).
  intros a IH Ha H. destruct (Z.eq_dec a 1) as [->|N1]; [exists 1; split; [lia|now rewrite Z.pow_1_l by lia]|].
  destruct (prime_divisor_exists a ltac:(lia)) as (p & P & D). assert (Hp : 1 < p) by (destruct P; lia).
  apply val_pos_divide in D; [|assumption|lia]. destruct (H p P) as [q Eq].
  destruct (val_spec p a Hp ltac:(lia)) as (m & E & N). rewrite Eq in E. assert (0 < q) by nia.
  rewrite Z.pow_mul_r in E by lia. assert (Pq : 1 < p ^ q) by (apply Z.pow_gt_1; lia). assert (Pqd : 1 < (p ^ q) ^ d) by (apply Z.pow_gt_1; lia).
  assert (Hm : 0 < m) by nia.
  destruct (IH m ltac:(nia) Hm) as (k & Hk & Ek).
  { intros r R. destruct (Z.eq_dec r p) as [->|Nr].
    - exists 0. apply val_intro with m; [assumption|lia|rewrite Z.pow_0_r; ring|assumption].
    - pose proof (H r R) as X. rewrite E in X. rewrite val_mul, val_pow, val_pow, val_other in X by (try assumption; try lia).
      rewrite !Z.mul_0_r in X. exact X. }
  exists (p ^ q * k). split; [nia|]. rewrite E, Ek, Z.pow_mul_l. reflexivity.
Qed.
