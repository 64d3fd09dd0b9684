(** Exactness below 9006403; Pollard-Rho and factorize. *)
From Coq Require Import ZArith Znumtheory Zpow_facts String Lia Bool List.
From Verif Require Import Base AdapterModel AdapterProofs FactorizeModel FactorizeProofs1 FactorizeProofs2.
Import ListNotations.
Open Scope Z_scope.

Lemma fast_b_tiny n ws : n < 841 -> fast_b n ws = tiny_b n.
Proof.
  intros H. unfold fast_b, tiny_b. destruct (Z.geb_spec n 9006403); [lia|]. destruct (Z.geb_spec n 489997); [lia|].
  destruct (Z.geb_spec n 42799); [lia|]. destruct (Z.geb_spec n 841); [lia|]. reflexivity.
Qed.
Lemma fast_b_0 n ws : 841 <= n < 42799 -> fast_b n ws = (no_divisor_to 103 n && fermat_b 2 n)%bool.
Proof.
  intros H. unfold fast_b. destruct (Z.geb_spec n 9006403); [lia|]. destruct (Z.geb_spec n 489997); [lia|].
  destruct (Z.geb_spec n 42799); [lia|]. destruct (Z.geb_spec n 841); [reflexivity|lia].
Qed.
Lemma fast_b_1 n ws : 42799 <= n < 489997 -> fast_b n ws = (no_divisor_to 43 n && (fermat_b 2 n && fermat_b 5 n))%bool.
Proof.
  intros H. unfold fast_b. destruct (Z.geb_spec n 9006403); [lia|]. destruct (Z.geb_spec n 489997); [lia|].
  destruct (Z.geb_spec n 42799); [reflexivity|lia].
Qed.
Lemma fast_b_2 n ws : 489997 <= n < 9006403 -> fast_b n ws = (no_divisor_to 101 n && (euler_b 2 n && (euler_b 3 n && euler_b 5 n)))%bool.
Proof.
  intros H. unfold fast_b. destruct (Z.geb_spec n 9006403); [lia|]. destruct (Z.geb_spec n 489997); [reflexivity|lia].
Qed.
Lemma fermat_b_eq a n : fermat_b a n = true -> a ^ (n - 1) mod n = 1.
Proof. apply Z.eqb_eq. Qed.

(** the smallest prime factor *)
Lemma least_prime_factor : forall n, 1 < n -> exists p, prime p /\ (p | n) /\ forall q, prime q -> (q | n) -> p <= q.
Proof.
  intros n H. assert (G : 0 <= n) by lia. revert n G H.
  apply (Zlt_0_ind (fun n => 1 < n -> exists p, prime p /\ (p | n) /\ forall q, prime q -> (q | n) -> p <= q)).
  intros n IH G H. destruct (prime_dec n) as [P|P].
  - exists n. split; [assumption|]. split; [apply Z.divide_refl|]. intros q Q D.
    destruct (prime_divisors n P q D) as [?|[?|[?|?]]]; destruct Q; lia.
  - destruct (not_prime_divide n H P) as (a & Ha & [b E]). assert (Hb : 1 < b < n) by nia.
    destruct (IH a ltac:(lia) ltac:(lia)) as (p & Pp & [k Dp] & Mp). destruct (IH b ltac:(lia) ltac:(lia)) as (q & Pq & [l Dq] & Mq).
    destruct (Z.le_gt_cases p q).
    + exists p. split; [assumption|]. split; [exists (b * k); lia|]. intros r R D. rewrite E in D.
      apply prime_mult in D; [|assumption]. destruct D as [D|D]; [specialize (Mq r R D); lia|auto].
    + exists q. split; [assumption|]. split; [exists (l * a); lia|]. intros r R D. rewrite E in D.
      apply prime_mult in D; [|assumption]. destruct D as [D|D]; [auto|specialize (Mp r R D); lia].
Qed.
Lemma exact_gen lo hi bound B bad n :
  sweep_range lo hi bound bad = true -> 2 <= B <= 103 -> lo = B + 1 -> bound <= hi * hi -> 1 < n < bound -> 0 < hi ->
  no_divisor_to B n = true -> 2 ^ (n - 1) mod n = 1 ->
  (forall p m, prime p -> n = p * m -> p <= m -> (forall q, prime q -> (q | m) -> p <= q) -> bad p m = true) -> prime n.
Proof.
  intros SW HB Hlo Hhi Hn Hp H1 H2 H3. destruct (prime_dec n) as [P|NP]; [assumption|exfalso].
  destruct (least_prime_factor n ltac:(lia)) as (p & Pp & [m E] & Mp). assert (P1 : 1 < p) by (destruct Pp; lia).
  assert (Em : n = p * m) by lia. assert (M0 : 0 < m) by nia.
  assert (M1 : m <> 1) by (intros ->; apply NP; rewrite Em, Z.mul_1_r; assumption).
  destruct (prime_factor_exists m ltac:(lia)) as (q & Pq & Dq).
  assert (Lm : p <= m). { pose proof (Z.divide_pos_le q m M0 Dq). specialize (Mp q Pq ltac:(rewrite E; now apply Z.divide_mul_l)). lia. }
  assert (Dp : (p | n)) by (exists m; lia).
  pose proof (no_divisor_inv B n p H1 Pp Dp ltac:(lia)) as Lp. assert (p < hi) by nia.
  pose proof (sweep_range_spec lo hi bound bad p SW Pp ltac:(lia)) as S.
  pose proof (sweep_p_spec bound bad p m Pp ltac:(lia) Lm S ltac:(lia)) as X.
  rewrite <- Em in X. specialize (X H2).
  rewrite H3 in X; try assumption; [discriminate|].
  intros r R D. apply Mp; [assumption|]. rewrite E. now apply Z.divide_mul_l.
Qed.
Lemma exact_0 n : 841 <= n < 42799 -> no_divisor_to 103 n = true -> fermat_b 2 n = true -> prime n.
Proof.
  intros H H1 H2. apply (exact_gen 104 207 42799 103 bad0 n sweep0); try lia; try assumption.
  - now apply fermat_b_eq.
  - intros p m Pp E L _. unfold bad0. rewrite (nd_small 103 n m p ltac:(lia) H1 E). cbv zeta. rewrite <- E, fermat_c_spec, H2 by lia.
    apply proj1, Z.leb_le in H. rewrite H. reflexivity.
Qed.
Lemma exact_1 n : 42799 <= n < 489997 -> no_divisor_to 43 n = true -> fermat_b 2 n = true -> fermat_b 5 n = true -> prime n.
Proof.
  intros H H1 H2 H3. apply (exact_gen 44 700 489997 43 bad1 n sweep1); try lia; try assumption.
  - now apply fermat_b_eq.
  - intros p m Pp E L _. unfold bad1. rewrite (nd_small 43 n m p ltac:(lia) H1 E). cbv zeta. rewrite <- E, !fermat_c_spec, H2, H3 by lia.
    apply proj1, Z.leb_le in H. rewrite H. reflexivity.
Qed.
(** a cofactor below the cube of the smallest prime factor is prime, so the order condition transfers *)
Lemma cofactor_fermat n p m : prime p -> 208 < p -> n = p * m -> n < 9006403 -> p <= m -> (forall q, prime q -> (q | m) -> p <= q) ->
  2 ^ (n - 1) mod n = 1 -> 2 ^ (p - 1) mod m = 1.
Proof.
  intros Pp Hp E Hn Hm Mq F.
  assert (Pm : prime m).
  { destruct (prime_dec m) as [|NP]; [assumption|exfalso]. destruct (small_prime_factor m ltac:(lia) NP) as (q & l & Pq & El & Lq).
    assert (p <= q) by (apply Mq; [assumption|exists l; lia]). assert (p * (q * l) < 9006403) by (rewrite <- El; lia).
    assert (209 * 209 <= q * l) by nia. nia. }
  assert (F2 : 2 ^ (n - 1) mod m = 1).
  { assert (0 < n) by (rewrite E; apply Z.mul_pos_pos; lia). rewrite (Znumtheory.Zmod_div_mod m n) by (first [lia | exists p; lia]). rewrite F. apply Z.mod_small. lia. }
  replace (n - 1) with ((m - 1) * p + (p - 1)) in F2 by lia.
  rewrite Z.pow_add_r in F2 by (try apply Z.mul_nonneg_nonneg; lia). rewrite Z.pow_mul_r in F2 by lia.
  rewrite <- Z.mul_mod_idemp_l in F2 by lia. rewrite (Zpower_mod (2 ^ (m - 1))) in F2 by lia.
  rewrite fermat1 in F2; [|assumption|lia|apply not_div_small; lia].
  rewrite Z.pow_1_l, Z.mod_1_l, Z.mul_1_l in F2 by lia. exact F2.
Qed.
Lemma exact_2 n : 489997 <= n < 9006403 -> n <> 9006401 -> no_divisor_to 101 n = true ->
  euler_b 2 n = true -> euler_b 3 n = true -> euler_b 5 n = true -> prime n.
Proof.
  intros H Hx H1 H2 H3 H4.
  assert (F : 2 ^ (n - 1) mod n = 1) by (apply euler_fermat2; [lia|apply no_divisor_odd with 101; [lia|assumption]|assumption]).
  apply (exact_gen 102 3002 9006403 101 bad2 n sweep2); try lia; try assumption.
  intros p m Pp E L Mq. assert (P1 : 1 < p) by (destruct Pp; lia). unfold bad2. rewrite (nd_mid 101 n m p ltac:(lia) H1 E). cbv zeta.
  assert (G : (if 208 <? p then pmz 2 m (p - 1) =? 1 else true) = true).
  { destruct (Z.ltb_spec 208 p); [|reflexivity]. rewrite pmz_spec by lia. apply Z.eqb_eq. apply (cofactor_fermat n); try assumption; lia. }
  rewrite G. rewrite <- E, !euler_c_spec, H2, H3, H4 by lia. apply Z.eqb_neq in Hx. rewrite Hx. reflexivity.
Qed.

Lemma fast_b_small_exact n ws : n < 9006403 -> n <> 9006401 -> (fast_b n ws = true <-> prime n).
Proof.
  intros Hn Hx. split; [|intros P; apply fast_b_prime; [assumption|lia]].
  intros H. destruct (Z.lt_ge_cases n 841) as [L|G].
  - rewrite fast_b_tiny in H by assumption. apply brute_spec; [|assumption]. split; [|assumption].
    destruct (Z.lt_ge_cases n 0); [|lia]. unfold tiny_b in H. destruct (Z.geb_spec n 25); [lia|]. destruct (Z.geb_spec n 4); lia.
  - destruct (Z.lt_ge_cases n 42799).
    { rewrite fast_b_0 in H by lia. apply andb_true_iff in H as [A1 A2]. apply exact_0; try assumption; lia. }
    destruct (Z.lt_ge_cases n 489997).
    { rewrite fast_b_1 in H by lia. apply andb_true_iff in H as [A1 A2]. apply andb_true_iff in A2 as [A2 A3]. apply exact_1; try assumption; lia. }
    rewrite fast_b_2 in H by lia. apply andb_true_iff in H as [A1 A2]. apply andb_true_iff in A2 as [A2 A3]. apply andb_true_iff in A3 as [A3 A4].
    apply exact_2; try assumption; lia.
Qed.
