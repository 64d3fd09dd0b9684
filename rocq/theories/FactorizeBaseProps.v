(** C19: which base decides. *)
From Coq Require Import ZArith Znumtheory Lia Bool List Sorted.
From Verif Require Import Base AdapterModel AdapterProofs FactorizeModel FactorizeProofs1 FactorizeProofs2 FactorizeProofs3 FactorizeProofs4 FactorizeBaseSpec FactorizeProps.
Import ListNotations.
Open Scope Z_scope.

Lemma bases_used i128 n : witnesses i128 n = bases i128 n.
Proof.
  unfold bases, witnesses. destruct i128; cbn [andb]; unfold psi_128, psi_64; cbn [count_for app];
  repeat match goal with |- context [?a >=? ?b] => rewrite (Z.geb_leb a b) end;
  repeat match goal with |- context [?a <? ?b] => rewrite (Z.ltb_antisym b a) end;
  repeat match goal with |- context [?a <=? ?b] => destruct (Z.leb_spec a b); cbn [negb]; try (exfalso; lia); try reflexivity end.
Qed.
Lemma first_base_decides n d s : 0 < d -> forall ws, mr_pure n d s ws = true <->
  (forall a, In a ws -> a ^ d mod n = 1) \/ exists pre a post, ws = pre ++ a :: post /\ (forall q, In q pre -> q ^ d mod n = 1) /\ a ^ d mod n <> 1 /\ exists j, (j < s)%nat /\ a ^ (d * 2 ^ Z.of_nat j) mod n = n - 1.
Proof.
  intros D. induction ws as [|a ws IH]; cbn [mr_pure]; [split; [left; intros a []|reflexivity]|]. destruct (Z.eqb_spec (a ^ d mod n) 1) as [E|N].
  - rewrite IH. split.
    + intros [A|(pre & b & post & -> & P & X)]; [left; intros q [<-|I]; auto|]. right. exists (a :: pre), b, post. split; [reflexivity|]. split; [intros q [<-|I]; auto|exact X].
    + intros [A|([|q pre] & b & post & Q & P & X)]; [left; intros q I; apply A; now right| |].
      * injection Q as -> _. tauto.
      * injection Q as <- ->. right. exists pre, b, post. split; [reflexivity|]. split; [intros q I; apply P; now right|exact X].
  - rewrite chain_hits_spec. assert (J : forall j, (a ^ d) ^ (2 ^ Z.of_nat j) = a ^ (d * 2 ^ Z.of_nat j)) by (intros j; rewrite Z.pow_mul_r by (try apply Z.pow_nonneg; lia); reflexivity). split.
    + intros (j & Hj & X). right. exists [], a, ws. split; [reflexivity|]. split; [intros q []|]. split; [exact N|]. exists j. split; [exact Hj|]. rewrite <- J. exact X.
    + intros [A|([|q pre] & b & post & Q & P & Nb & j & Hj & X)]; [destruct (N (A a (or_introl eq_refl)))| |].
      * injection Q as <- _. exists j. split; [exact Hj|]. rewrite J. exact X.
      * injection Q as <- ->. destruct (N (P a (or_introl eq_refl))).
Qed.
(** ** The first base a with a^d mod n <> 1 decides alone *)
Theorem C19_first_base_decides w i128 n b d s : 1 < w -> 9006403 <= n <= 2 ^ (w - 2) -> is_prime w i128 n = Ok b -> n - 1 = d * 2 ^ Z.of_nat s -> Z.odd d = true ->
  (b = true <-> (forall p, prime p -> p <= 89 -> ~ (p | n)) /\
     ((forall a, In a (bases i128 n) -> a ^ d mod n = 1) \/
      exists pre a post, bases i128 n = pre ++ a :: post /\ (forall q, In q pre -> q ^ d mod n = 1) /\ a ^ d mod n <> 1 /\ exists j, (j < s)%nat /\ a ^ (d * 2 ^ Z.of_nat j) mod n = n - 1)).
Proof.
  intros Hw Hn E Ed Od. rewrite <- bases_used. unfold is_prime in E. destruct (Z.ltb_spec n 100000); [lia|].
  apply fast_sound in E; [|assumption|lia|apply witnesses_nonneg]. subst b. unfold fast_b. destruct (Z.geb_spec n 9006403); [|lia]. rewrite andb_true_iff, no_divisor_iff by lia.
  assert (D0 : 0 < d) by (assert (0 < 2 ^ Z.of_nat s) by (apply Z.pow_pos_nonneg; lia); nia).
  unfold mr_b. destruct (split2_spec (bits_fuel n) (n - 1) 0) as (d' & s' & -> & O' & P' & L & E').
  { pose proof (bits_fuel_bound n ltac:(lia)). lia. }
  rewrite Nat.sub_0_r in E'. destruct (odd_part_unique d s d' s') as [-> ->]; try assumption; [congruence|]. rewrite (first_base_decides n d' s' D0). reflexivity.
Qed.
Print Assumptions C19_first_base_decides.
(** what a correct test to the same bases accepts is accepted, so a rejected number is composite for one of the bases; the converse fails (C19_composite_accepted_refuted) *)
Theorem C19_weaker_than_the_strong_tests w i128 n b d s : 1 < w -> 9006403 <= n <= 2 ^ (w - 2) -> is_prime w i128 n = Ok b -> n - 1 = d * 2 ^ Z.of_nat s -> Z.odd d = true ->
  (forall p, prime p -> p <= 89 -> ~ (p | n)) -> (forall a, In a (bases i128 n) -> passes n d s a) -> b = true.
Proof.
  intros Hw Hn E Ed Od ND A. apply (C19_first_base_decides w i128 n b d s Hw Hn E Ed Od). split; [exact ND|]. clear - A. induction (bases i128 n) as [|a l IH]; [left; intros a []|].
  destruct (Z.eq_dec (a ^ d mod n) 1) as [E|N].
  - destruct IH as [B|(pre & c & post & -> & P & X)]; [intros q I; apply A; now right|left; intros q [<-|I]; auto|]. right. exists (a :: pre), c, post. split; [reflexivity|]. split; [intros q [<-|I]; auto|exact X].
  - right. exists [], a, l. split; [reflexivity|]. split; [intros q []|]. split; [exact N|]. destruct (A a (or_introl eq_refl)) as [H|H]; [contradiction|exact H].
Qed.
Print Assumptions C19_weaker_than_the_strong_tests.
(** ** The table: from 4759123141 on the bases are all the primes up to some bound *)
Theorem C19_bases_are_the_first_primes i128 n : 4759123141 <= n -> exists B, 11 <= B /\ forall p, In p (bases i128 n) <-> prime p /\ p <= B.
Proof.
  intros Hn. assert (G : forall k, (5 <= k <= 20)%nat -> exists B, 11 <= B <= 71 /\ forall p, In p (firstn k primes_below_73) <-> prime p /\ p <= B).
  { intros k K. assert (C : exists B, 11 <= B <= 71 /\ firstn k primes_below_73 = filter (fun p => p <=? B) primes_below_73).
    { do 5 (destruct k as [|k]; [exfalso; lia|]). do 16 (destruct k as [|k]; [match goal with |- context [firstn ?m _] => exists (nth (pred m) primes_below_73 0) end; split; [cbn; lia|reflexivity]|]). exfalso. lia. }
    destruct C as (B & HB & ->). exists B. split; [exact HB|]. intros p. rewrite filter_In, Z.leb_le.
    assert (AP : forall q, In q primes_below_73 <-> prime q /\ q <= 71).
    { intros q. split.
      - intros I. assert (T : forallb (fun q => (q <=? 71) && is_prime_slow_path q)%bool primes_below_73 = true) by (vm_compute; reflexivity). rewrite forallb_forall in T. apply T in I. apply andb_true_iff in I as [I1 I2]. split; [apply slow_path_correct; exact I2|now apply Z.leb_le].
      - intros [P L]. assert (T : forallb (fun j => (negb (is_prime_slow_path (Z.of_nat j)) || existsb (Z.eqb (Z.of_nat j)) primes_below_73)%bool) (seq 0 72) = true) by (vm_compute; reflexivity). rewrite forallb_forall in T. pose proof (prime_ge_2 q P).
        specialize (T (Z.to_nat q) ltac:(apply in_seq; lia)). rewrite Z2Nat.id in T by lia. apply orb_true_iff in T as [T|T].
        + apply negb_true_iff in T. assert (X : is_prime_slow_path q = true) by (apply slow_path_correct; exact P). congruence.
        + apply existsb_exists in T as (x & I & X). apply Z.eqb_eq in X. now subst x. }
    rewrite AP. split; [tauto|]. intros [P L]. split; [split; [exact P|lia]|exact L]. }
  unfold bases. destruct (Z.ltb_spec n 4759123141); [lia|].
  assert (R : (5 <= (if i128 then count_for psi_128 20 n else count_for psi_64 12 n) <= 20)%nat).
  { destruct i128; unfold psi_128, psi_64; cbn [count_for app]; repeat match goal with |- context [if ?c then _ else _] => destruct c end; lia. }
  destruct (G _ R) as (B & HB & H0). exists B. split; [lia|exact H0].
Qed.
Print Assumptions C19_bases_are_the_first_primes.
Example C19_bases_ex : bases false 4759123141 = [2; 3; 5; 7; 11] /\ bases false 3825123056546413051 = [2; 3; 5; 7; 11; 13; 17; 19; 23; 29; 31; 37] /\ List.length (bases true (2 ^ 126)) = 20%nat /\ bases true 10000000 = [2; 7; 61].
Proof. repeat split; reflexivity. Qed.
