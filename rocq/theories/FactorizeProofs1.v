(** Number theory for the primality tests: Fermat, Euler, Miller-Rabin on primes; the trial-division path. *)
From Coq Require Import ZArith Znumtheory Zpow_facts String Lia Bool List.
From Verif Require Import Base AdapterModel AdapterProofs FactorizeModel Fermat.
Import ListNotations.
Open Scope Z_scope.

Lemma mod_divide a b n : n <> 0 -> a mod n = b mod n <-> (n | a - b).
Proof.
  intros Hn. split.
  - intros E. apply Z.mod_divide; [assumption|]. rewrite Zminus_mod, E, Z.sub_diag. apply Z.mod_0_l. assumption.
  - intros [k E]. replace a with (b + k * n) by lia. apply Z.mod_add. assumption.
Qed.

Lemma fermat1 p a : prime p -> 0 <= a -> ~ (p | a) -> a ^ (p - 1) mod p = 1.
Proof.
  intros Hp Ha N. assert (P1 : 1 < p) by (destruct Hp; lia).
  pose proof (fermat_Z a p Hp Ha) as F. apply mod_divide in F; [|lia].
  replace (a ^ p - a) with (a * (a ^ (p - 1) - 1)) in F.
  - apply prime_mult in F; [|assumption]. destruct F as [F|F]; [contradiction|].
    rewrite <- (Z.mod_small 1 p) at 2 by lia. apply mod_divide; [lia|assumption].
  - replace p with (1 + (p - 1)) at 2 by lia. rewrite Z.pow_add_r by lia. rewrite Z.pow_1_r. ring.
Qed.

Lemma sqrt1 p x : prime p -> (x * x) mod p = 1 -> x mod p = 1 \/ x mod p = p - 1.
Proof.
  intros Hp E. assert (P1 : 1 < p) by (destruct Hp; lia).
  rewrite <- (Z.mod_small 1 p) in E by lia. apply mod_divide in E; [|lia].
  replace (x * x - 1) with ((x - 1) * (x + 1)) in E by ring. apply prime_mult in E; [|assumption]. destruct E as [E|E].
  - left. rewrite <- (Z.mod_small 1 p) by lia. apply mod_divide; [lia|assumption].
  - right. rewrite <- (Z.mod_small (p - 1) p) by lia. apply mod_divide; [lia|]. replace (x - (p - 1)) with (x + 1 - p) by lia.
    apply Z.divide_sub_r; [assumption|apply Z.divide_refl].
Qed.

Lemma prime_odd p : prime p -> 2 < p -> Z.odd p = true.
Proof.
  intros Hp H. rewrite <- Z.negb_even. destruct (Z.even p) eqn:E; [|reflexivity].
  apply Z.even_spec in E as [k E].
  assert (D : (2 | p)) by (exists k; lia). apply prime_divisors in D; [lia|assumption].
Qed.

Lemma euler_prime p a : prime p -> 2 < p -> 0 <= a -> ~ (p | a) -> a ^ (p / 2) mod p = 1 \/ a ^ (p / 2) mod p = p - 1.
Proof.
  intros Hp H Ha N. apply sqrt1; [assumption|]. rewrite <- Z.pow_2_r, <- Z.pow_mul_r by (try apply Z.div_pos; lia).
  assert (E : p / 2 * 2 = p - 1).
  { pose proof (prime_odd p Hp H) as O. pose proof (Z.div_mod p 2 ltac:(lia)) as D. rewrite Zmod_odd, O in D. lia. }
  rewrite E. now apply fermat1.
Qed.

Lemma pow_pow2 x i : x ^ (2 ^ Z.of_nat (S i)) = (x ^ (2 ^ Z.of_nat i)) * (x ^ (2 ^ Z.of_nat i)).
Proof.
  rewrite Nat2Z.inj_succ, Z.pow_succ_r by lia. rewrite <- Z.pow_2_r, <- Z.pow_mul_r by (try apply Z.pow_nonneg; lia). f_equal. lia.
Qed.
Lemma miller_prime p x s : prime p -> x ^ (2 ^ Z.of_nat s) mod p = 1 ->
  x mod p = 1 \/ exists i, (i < s)%nat /\ x ^ (2 ^ Z.of_nat i) mod p = p - 1.
Proof.
  intros Hp. induction s as [|s IH]; intros H.
  - left. change (2 ^ Z.of_nat 0) with 1 in H. now rewrite Z.pow_1_r in H.
  - rewrite pow_pow2 in H. apply sqrt1 in H; [|assumption]. destruct H as [H|H].
    + destruct (IH H) as [?|(i & ? & ?)]; [auto|]. right. exists i. split; [lia|assumption].
    + right. exists s. split; [lia|assumption].
Qed.

Lemma not_div_small p a : 0 < a < p -> ~ (p | a).
Proof. intros H D. apply Z.divide_pos_le in D; lia. Qed.

(** ** split2, mr_inner, mr_loop *)
Lemma split2_spec : forall fuel d s, 0 < d < 2 ^ Z.of_nat fuel ->
  exists d' s', split2 fuel d s = Ok (d', s') /\ Z.odd d' = true /\ 0 < d' /\ (s <= s')%nat /\ d = d' * 2 ^ Z.of_nat (s' - s).
Proof.
  induction fuel as [|f IH]; intros d s H; [cbn in H; lia|]. cbn [split2].
  destruct (Z.odd d) eqn:O.
  - exists d, s. rewrite Nat.sub_diag. change (2 ^ Z.of_nat 0) with 1. repeat split; try lia; assumption.
  - pose proof (odd_half d ltac:(lia)) as E. rewrite O in E.
    rewrite Nat2Z.inj_succ, Z.pow_succ_r in H by lia.
    destruct (IH (Z.shiftr d 1) (S s) ltac:(lia)) as (d' & s' & -> & O' & P' & L & E').
    exists d', s'. repeat split; try lia; try assumption. rewrite E, E'.
    replace (s' - s)%nat with (S (s' - S s)) by lia. rewrite Nat2Z.inj_succ, Z.pow_succ_r by lia. ring.
Qed.

(** the chain x, x^2, x^4, ... hits n-1 within s steps *)
Definition chain_hits (n x : Z) (s : nat) : bool := existsb (fun i => x ^ (2 ^ Z.of_nat i) mod n =? n - 1) (seq 0 s).

Lemma chain_hits_spec n x s : chain_hits n x s = true <-> exists i, (i < s)%nat /\ x ^ (2 ^ Z.of_nat i) mod n = n - 1.
Proof.
  unfold chain_hits. rewrite existsb_exists. split.
  - intros (i & H & E). apply in_seq in H. apply Z.eqb_eq in E. exists i. split; [lia|assumption].
  - intros (i & H & E). exists i. rewrite in_seq. split; [lia|]. now apply Z.eqb_eq.
Qed.

Lemma mr_inner_spec w n : 1 < w -> 1 < n <= 2 ^ (w - 2) -> forall s x, 0 <= x < n ->
  mr_inner w n s x = Ok (chain_hits n x s).
Proof.
  intros Hw Hn. assert (P : 2 ^ (w - 1) = 2 * 2 ^ (w - 2)) by (rewrite <- Z.pow_succ_r by lia; f_equal; lia).
  induction s as [|s IH]; intros x Hx; [reflexivity|].
  cbn [mr_inner]. rewrite chk_ok by lia. cbn [bind].
  assert (E0 : chain_hits n x (S s) = ((x + 1 =? n) || chain_hits n ((x * x) mod n) s)%bool).
  { apply eq_true_iff_eq. rewrite orb_true_iff, !chain_hits_spec, Z.eqb_eq. split.
    - intros ([|i] & Hi & E).
      + left. change (2 ^ Z.of_nat 0) with 1 in E. rewrite Z.pow_1_r, Z.mod_small in E by lia. lia.
      + right. exists i. split; [lia|]. rewrite <- E. rewrite <- Zpower_mod by lia. f_equal.
        rewrite Nat2Z.inj_succ, Z.pow_succ_r by lia. rewrite Z.pow_mul_r by (try apply Z.pow_nonneg; lia). now rewrite Z.pow_2_r.
    - intros [E|(i & Hi & E)].
      + exists 0%nat. split; [lia|]. change (2 ^ Z.of_nat 0) with 1. rewrite Z.pow_1_r, Z.mod_small by lia. lia.
      + exists (S i). split; [lia|]. rewrite <- E. rewrite <- Zpower_mod by lia. f_equal.
        rewrite Nat2Z.inj_succ, Z.pow_succ_r by lia. rewrite Z.pow_mul_r by (try apply Z.pow_nonneg; lia). now rewrite Z.pow_2_r. }
  rewrite E0. destruct (Z.eqb_spec (x + 1) n); [reflexivity|].
  rewrite mulmod_spec by lia. cbn [bind orb]. apply IH. apply Z.mod_pos_bound. lia.
Qed.

Lemma chain_hits_mod n x s : 1 < n -> chain_hits n (x mod n) s = chain_hits n x s.
Proof.
  intros H. apply eq_true_iff_eq. rewrite !chain_hits_spec.
  split; intros (i & Hi & E); exists i; (split; [assumption|]); rewrite <- E; [rewrite (Zpower_mod x)|rewrite (Zpower_mod x)]; auto; lia.
Qed.

(** what the Miller-Rabin loop computes, as written (break after the first conclusive witness) *)
Fixpoint mr_pure (n d : Z) (s : nat) (ws : list Z) : bool :=
  match ws with
  | [] => true
  | a :: ws' => if a ^ d mod n =? 1 then mr_pure n d s ws' else chain_hits n (a ^ d) s
  end.
Lemma mr_loop_sound w n d s : 1 < w -> 1 < n <= 2 ^ (w - 2) -> 0 <= d -> forall ws b, Forall (fun a => 0 <= a) ws ->
  mr_loop w n d s ws = Ok b -> b = mr_pure n d s ws.
Proof.
  intros Hw Hn Hd. induction ws as [|a ws IH]; intros b F; cbn [mr_loop mr_pure].
  - now intros [= <-].
  - inversion F as [|? ? A F']; subst.
    destruct (adapter_modpow w a d n) as [x| | |] eqn:M; cbn [bind]; try discriminate.
    apply modpow_sound in M; try lia. subst x.
    destruct (a ^ d mod n =? 1); [now apply IH|].
    rewrite mr_inner_spec by (try assumption; apply Z.mod_pos_bound; lia). cbn [bind].
    rewrite chain_hits_mod by lia. destruct (chain_hits n (a ^ d) s); now intros [= <-].
Qed.
Lemma mr_loop_ok w n d s : 1 < w -> 1 < n <= 2 ^ (w - 2) -> (n - 1) * (n - 1) < 2 ^ (w - 1) -> 0 <= d ->
  forall ws, Forall (fun a => 0 <= a < 2 ^ (w - 1)) ws -> mr_loop w n d s ws = Ok (mr_pure n d s ws).
Proof.
  intros Hw Hn Hn2 Hd. induction ws as [|a ws IH]; intros F; cbn [mr_loop mr_pure]; [reflexivity|].
  inversion F as [|? ? A F']; subst. rewrite modpow_spec by lia. cbn [bind].
  destruct (a ^ d mod n =? 1); [now apply IH|].
  rewrite mr_inner_spec by (try assumption; apply Z.mod_pos_bound; lia). cbn [bind].
  rewrite chain_hits_mod by lia. destruct (chain_hits n (a ^ d) s); reflexivity.
Qed.
Lemma mr_loop_outcome w n d s : 1 < w -> 1 < n <= 2 ^ (w - 2) -> 0 <= d -> forall ws, Forall (fun a => 0 <= a) ws ->
  (exists b, mr_loop w n d s ws = Ok b) \/ (exists u, mr_loop w n d s ws = Ub u).
Proof.
  intros Hw Hn Hd. induction ws as [|a ws IH]; intros F; cbn [mr_loop]; [eauto|].
  inversion F as [|? ? A F']; subst.
  destruct (modpow_outcome w a d n Hd) as [[x E]|[u E]]; rewrite E; cbn [bind]; [|eauto].
  apply modpow_sound in E; try lia. subst x.
  destruct (a ^ d mod n =? 1); [now apply IH|].
  rewrite mr_inner_spec by (try assumption; apply Z.mod_pos_bound; lia). cbn [bind].
  destruct (chain_hits n (a ^ d mod n) s); eauto.
Qed.
Lemma mr_pure_prime n d s ws : prime n -> n - 1 = d * 2 ^ Z.of_nat s -> 0 < d -> Forall (fun a => 0 < a < n) ws ->
  mr_pure n d s ws = true.
Proof.
  intros Hp E Hd. induction ws as [|a ws IH]; intros F; cbn [mr_pure]; [reflexivity|].
  inversion F as [|? ? A F']; subst. destruct (Z.eqb_spec (a ^ d mod n) 1); [now apply IH|].
  apply chain_hits_spec.
  pose proof (miller_prime n (a ^ d) s Hp) as M. rewrite <- Z.pow_mul_r, <- E in M by (try apply Z.pow_nonneg; lia).
  rewrite fermat1 in M; [|assumption|lia|now apply not_div_small]. destruct (M eq_refl); [congruence|assumption].
Qed.

(** ** trial division *)
Lemma prime_factor_exists : forall n, 1 < n -> exists p, prime p /\ (p | n).
Proof.
  intros n H. assert (G : 0 <= n) by lia. revert n G H.
  apply (Zlt_0_ind (fun n => 1 < n -> exists p, prime p /\ (p | n))).
  intros n IH G H. destruct (prime_dec n) as [P|P]; [exists n; split; [assumption|apply Z.divide_refl]|].
  destruct (not_prime_divide n H P) as (d & Hd & D).
  destruct (IH d ltac:(lia) ltac:(lia)) as (p & Pp & Dp). exists p. split; [assumption|]. now apply Z.divide_trans with d.
Qed.
Lemma small_prime_factor n : 1 < n -> ~ prime n -> exists p m, prime p /\ n = p * m /\ p <= m.
Proof.
  intros H P. destruct (not_prime_divide n H P) as (d & Hd & [e E]).
  assert (X : exists d e, 1 < d /\ d <= e /\ n = d * e).
  { destruct (Z.le_gt_cases d e); [exists d, e|exists e, d]; split; try nia. }
  clear d e Hd E. destruct X as (d & e & Hd & De & E).
  destruct (prime_factor_exists d Hd) as (p & Pp & [k K]). assert (1 < p) by (destruct Pp; lia).
  exists p, (k * e). split; [assumption|]. assert (0 < k) by nia. split; [nia|]. nia.
Qed.
Lemma not_prime_mult p m : 1 < p -> 1 < m -> ~ prime (p * m).
Proof.
  intros Hp Hm P. assert (D : (p | p * m)) by (exists m; ring). apply prime_divisors in D; [|assumption]. nia.
Qed.
Lemma prime_not_div n p : prime n -> 1 < p < n -> n mod p <> 0.
Proof. intros P H E. apply Z.mod_divide in E; [|lia]. apply prime_divisors in E; [lia|assumption]. Qed.

Lemma slow_loop_spec : forall fuel n i S, 0 < i -> S <= i + 6 * Z.of_nat fuel ->
  slow_loop fuel n i S = true <-> forall k, 0 <= k -> i + 6 * k < S -> n mod (i + 6 * k) <> 0 /\ n mod (i + 6 * k + 2) <> 0.
Proof.
  induction fuel as [|f IH]; intros n i S Hi HS; cbn [slow_loop].
  - split; [|reflexivity]. intros _ k Hk L. lia.
  - destruct (Z.ltb_spec i S) as [L|G].
    + destruct (Z.eqb_spec (n mod i) 0) as [E|N]; cbn [orb].
      { split; [discriminate|]. intros H. specialize (H 0 ltac:(lia) ltac:(lia)). replace (i + 6 * 0) with i in H by lia. tauto. }
      destruct (Z.eqb_spec (n mod (i + 2)) 0) as [E2|N2].
      { split; [discriminate|]. intros H. specialize (H 0 ltac:(lia) ltac:(lia)). replace (i + 6 * 0) with i in H by lia. tauto. }
      rewrite IH by lia. split.
      * intros H k Hk Lk. destruct (Z.eq_dec k 0) as [->|]; [replace (i + 6 * 0) with i by lia; auto|].
        specialize (H (k - 1) ltac:(lia) ltac:(lia)). replace (i + 6 + 6 * (k - 1)) with (i + 6 * k) in H by lia. exact H.
      * intros H k Hk Lk. specialize (H (k + 1) ltac:(lia) ltac:(lia)). replace (i + 6 + 6 * k) with (i + 6 * (k + 1)) by lia. exact H.
    + split; [|reflexivity]. intros _ k Hk Lk. lia.
Qed.

Lemma prime_3 : prime 3. Proof. exact prime_3. Qed.
Lemma prime_by_small n : 1 < n -> (forall p, prime p -> p * p <= n -> n mod p <> 0) -> prime n.
Proof.
  intros H Q. destruct (prime_dec n) as [P|P]; [assumption|exfalso].
  destruct (small_prime_factor n H P) as (p & m & Pp & E & L). assert (1 < p) by (destruct Pp; lia).
  apply (Q p Pp); [nia|]. rewrite E. rewrite Z.mul_comm. apply Z.mod_mul. lia.
Qed.

Lemma slow_path_correct n : is_prime_slow_path n = true <-> prime n.
Proof.
  unfold is_prime_slow_path.
  destruct (Z.ltb_spec n 2) as [L2|G2]; [split; [discriminate|intros [? _]; lia]|].
  destruct (Z.eqb_spec n 2) as [->|N2]; cbn [orb]; [split; [intros _; exact prime_2|reflexivity]|].
  destruct (Z.eqb_spec n 3) as [->|N3]; cbn [orb]; [split; [intros _; exact prime_3|reflexivity]|].
  destruct (Z.eqb_spec (n mod 2) 0) as [E|M2].
  { split; [discriminate|]. intros P. exfalso. apply (prime_not_div n 2 P); [lia|assumption]. }
  destruct (Z.eqb_spec (n mod 3) 0) as [E|M3].
  { split; [discriminate|]. intros P. exfalso. apply (prime_not_div n 3 P); [lia|assumption]. }
  destruct (Z.ltb_spec n 9) as [L9|G9].
  { split; [|reflexivity]. intros _. apply prime_by_small; [lia|]. intros p Pp Lp. assert (1 < p) by (destruct Pp; lia).
    assert (p = 2) by nia. subst. assumption. }
  cbv zeta. rewrite slow_loop_spec by lia. pose proof (Z.sqrt_spec n ltac:(lia)) as SQ. cbv zeta in SQ. split.
  - intros H. apply prime_by_small; [lia|]. intros p Pp Lp E. assert (P1 : 1 < p) by (destruct Pp; lia).
    assert (p <> 2) by (intros ->; contradiction). assert (p <> 3) by (intros ->; contradiction).
    assert (PS : p <= Z.sqrt n) by (apply Z.sqrt_le_square; nia).
    assert (p mod 2 <> 0).
    { intros C. apply (prime_not_div p 2 Pp); [lia|assumption]. }
    assert (p mod 3 <> 0).
    { intros C. apply (prime_not_div p 3 Pp); [lia|assumption]. }
    assert (C : p mod 6 = 5 \/ p mod 6 = 1).
    { pose proof (Z.mod_pos_bound p 6 ltac:(lia)) as B. pose proof (Z.div_mod p 6 ltac:(lia)) as D.
      assert (p mod 2 = (p mod 6) mod 2) by (rewrite <- Znumtheory.Zmod_div_mod; [reflexivity|lia|lia|exists 3; reflexivity]).
      assert (p mod 3 = (p mod 6) mod 3) by (rewrite <- Znumtheory.Zmod_div_mod; [reflexivity|lia|lia|exists 2; reflexivity]).
      assert (Q : p mod 6 = 0 \/ p mod 6 = 1 \/ p mod 6 = 2 \/ p mod 6 = 3 \/ p mod 6 = 4 \/ p mod 6 = 5) by lia.
      destruct Q as [Q|[Q|[Q|[Q|[Q|Q]]]]]; rewrite Q in *; cbn in *; try lia; auto. }
    pose proof (Z.div_mod p 6 ltac:(lia)) as D. pose proof (Z.div_pos p 6 ltac:(lia) ltac:(lia)) as D0.
    destruct C as [C|C]; rewrite C in D.
    + destruct (H (p / 6) D0 ltac:(lia)) as [K1 _]. replace (5 + 6 * (p / 6)) with p in K1 by lia. contradiction.
    + destruct (H (p / 6 - 1) ltac:(lia) ltac:(lia)) as [_ K2]. replace (5 + 6 * (p / 6 - 1) + 2) with p in K2 by lia. contradiction.
  - intros P k Hk L. assert (5 + 6 * k <= Z.sqrt n) by lia.
    set (s := Z.sqrt n) in *. clearbody s.
    assert (5 * 5 <= s * s) by (apply Z.mul_le_mono_nonneg; lia). assert (s * 5 <= s * s) by (apply Z.mul_le_mono_nonneg_l; lia).
    assert (s * 5 <= n) by lia. clear SQ L.
    split; (apply prime_not_div; [assumption|]); split; lia.
Qed.

(** ** trial divisors *)
Lemma primes_to_in b p : In p (primes_to b) -> 1 < p <= b.
Proof.
  unfold primes_to. rewrite filter_In, Z.leb_le. intros [H L]. split; [|assumption].
  assert (F : Forall (fun x => 1 < x) [2; 3; 5; 7; 11; 13; 17; 19; 23; 29; 31; 37; 41; 43; 47; 53; 59; 61; 67; 71; 73; 79; 83; 89; 97; 101; 103])
    by (repeat constructor). rewrite Forall_forall in F. now apply F.
Qed.
Lemma no_divisor_prime b n : prime n -> b < n -> no_divisor_to b n = true.
Proof.
  intros P L. unfold no_divisor_to. apply forallb_forall. intros p H. apply primes_to_in in H.
  apply negb_true_iff, Z.eqb_neq. apply prime_not_div; [assumption|lia].
Qed.
Lemma small_primes_complete :
  forallb (fun k => implb (is_prime_slow_path (Z.of_nat k)) (existsb (Z.eqb (Z.of_nat k)) (primes_to 103))) (seq 0 104) = true.
Proof. vm_compute. reflexivity. Qed.
Lemma implb_t b : implb true b = b. Proof. reflexivity. Qed.
Lemma small_prime_in p : prime p -> p <= 103 -> In p (primes_to 103).
Proof.
  intros P L. assert (P1 : 1 < p) by (destruct P; lia).
  pose proof (proj1 (forallb_forall _ _) small_primes_complete (Z.to_nat p)) as T.
  assert (I : In (Z.to_nat p) (seq 0 104)) by (apply in_seq; lia).
  specialize (T I). cbv beta in T. rewrite Z2Nat.id in T by lia.
  rewrite (proj2 (slow_path_correct p) P) in T.
  rewrite implb_t in T. apply existsb_exists in T as (q & Hq & E). apply Z.eqb_eq in E. now subst q.
Qed.
Lemma primes_to_mono b p : In p (primes_to 103) -> p <= b -> In p (primes_to b).
Proof. unfold primes_to. rewrite !filter_In. intros [H _] L. split; [exact H|]. now apply Z.leb_le. Qed.
Lemma no_divisor_spec b n : no_divisor_to b n = true -> forall p, In p (primes_to b) -> n mod p <> 0.
Proof.
  unfold no_divisor_to. generalize (primes_to b). intros l H p I. rewrite forallb_forall in H. specialize (H p I).
  now apply negb_true_iff, Z.eqb_neq in H.
Qed.
Lemma no_divisor_inv b n p : no_divisor_to b n = true -> prime p -> (p | n) -> b <= 103 -> b < p.
Proof.
  intros N P D Hb. apply Z.nle_gt. intros C. assert (P1 : 1 < p) by (destruct P; lia).
  apply (no_divisor_spec b n N p (primes_to_mono b p (small_prime_in p P ltac:(lia)) C)). apply Z.mod_divide; [lia|assumption].
Qed.
