(** C17-C21: primality and factorisation.

    Vocabulary: [is_prime w i128 n] models is_prime<T>(n) for a T of [w] bits, [is_prime_prob] is_prime(n, true) with the raw draws
    [rnd]; [prime] and [( | )] are the standard library's.  [Fuel] is "does not end"; [Ub] is undefined behaviour. *)
From Coq Require Import ZArith Znumtheory String Lia Bool List Permutation Sorted.
From Verif Require Import Base AdapterModel AdapterProofs FactorizeModel FactorizeProofs1 FactorizeProofs2 FactorizeProofs3 FactorizeProofs4.
Import ListNotations.
Open Scope Z_scope.

(** ** C17 a prime is never rejected *)
Theorem C17_prime_never_rejected w i128 p : 1 < w -> prime p -> p <= 2 ^ (w - 2) ->
  is_prime w i128 p = Ok true \/ exists u, is_prime w i128 p = Ub u.
Proof. exact (is_prime_prime w i128 p). Qed.
Theorem C17_prime_never_rejected_prob w i128 rnd k p : 1 < w -> prime p -> p <= 2 ^ (w - 2) ->
  is_prime_prob w i128 rnd k p = Ok true \/ exists u, is_prime_prob w i128 rnd k p = Ub u.
Proof. exact (is_prime_prob_prime w i128 rnd k p). Qed.
(** when the square of p-1 fits in T the answer is [true], without undefined behaviour *)
Theorem C17_prime_accepted w i128 p : 10 <= w -> prime p -> (p - 1) * (p - 1) < 2 ^ (w - 1) -> is_prime w i128 p = Ok true.
Proof. exact (is_prime_prime_ok w i128 p). Qed.
Theorem C17_prime_accepted_prob w i128 rnd k p : 10 <= w -> prime p -> (p - 1) * (p - 1) < 2 ^ (w - 1) ->
  is_prime_prob w i128 rnd k p = Ok true.
Proof. exact (is_prime_prob_prime_ok w i128 rnd k p). Qed.
(** the square matters: is_prime<int>(100003) overflows *)
Theorem C17_int_overflow_refuted : prime 100003 /\ exists u, is_prime 32 false 100003 = Ub u.
Proof.
  split; [apply (is_prime_exact 64 false 100003 true); [lia|lia|vm_compute; reflexivity|reflexivity]|].
  eexists. vm_compute. reflexivity.
Qed.
Example C17_hyp : prime 15485863 /\ is_prime 64 false 15485863 = Ok true.
Proof.
  split; [apply prime_by_small; [lia|]|vm_compute; reflexivity].
  assert (A : forallb (fun k => negb (15485863 mod (2 + Z.of_nat k) =? 0)) (seq 0 4000) = true) by (vm_compute; reflexivity).
  intros p [P _] L E. rewrite forallb_forall in A. specialize (A (Z.to_nat (p - 2))).
  assert (I : In (Z.to_nat (p - 2)) (seq 0 4000)) by (apply in_seq; nia). specialize (A I).
  rewrite Z2Nat.id in A by lia. replace (2 + (p - 2)) with p in A by lia. rewrite E in A. discriminate.
Qed.

(** ** C18 the verdict is exact below 9006403, except for 9006401 *)
Theorem C18_exact_below_9006403 w i128 n b : n < 9006403 -> n <> 9006401 -> is_prime w i128 n = Ok b -> (b = true <-> prime n).
Proof. exact (is_prime_exact w i128 n b). Qed.
Theorem C18_exact_below_9006403_prob w i128 rnd k n b : n < 9006403 -> n <> 9006401 -> is_prime_prob w i128 rnd k n = Ok b ->
  (b = true <-> prime n).
Proof. exact (is_prime_prob_exact w i128 rnd k n b). Qed.
(** and there is a verdict for the types of 48 bits or more *)
Theorem C18_returns w i128 n : 48 <= w -> n < 9006403 -> exists b, is_prime w i128 n = Ok b.
Proof. exact (is_prime_small_returns w i128 n). Qed.
Theorem C18_9006401_refuted : 9006401 = 1733 * 5197 /\ ~ prime 9006401 /\ is_prime 64 false 9006401 = Ok true /\ is_prime 128 true 9006401 = Ok true.
Proof. split; [reflexivity|]. split; [apply (not_prime_mult 1733 5197); lia|]. split; vm_compute; reflexivity. Qed.
Example C18_hyp : is_prime 64 false 8999999 = Ok false /\ is_prime 64 false 2047 = Ok false /\ is_prime 64 false 8999993 = Ok true.
Proof. repeat split; vm_compute; reflexivity. Qed.

(** ** C19 from 9006403 on, the first base whose power is not 1 decides: base 2 *)
Theorem C19_base_2_decides w i128 n b d s : 1 < w -> 9006403 <= n <= 2 ^ (w - 2) -> is_prime w i128 n = Ok b ->
  n - 1 = d * 2 ^ Z.of_nat s -> Z.odd d = true -> 2 ^ d mod n <> 1 ->
  (b = true <-> (forall p, prime p -> p <= 89 -> ~ (p | n)) /\
                exists j, (j < s)%nat /\ 2 ^ (d * 2 ^ Z.of_nat j) mod n = n - 1).
Proof. exact (is_prime_verdict w i128 n b d s). Qed.
(** so a composite is accepted although base 7, which is in the witness list, proves it composite *)
Theorem C19_composite_accepted_refuted :
  9056501 = 1229 * 7369 /\ ~ prime 9056501 /\ is_prime 64 false 9056501 = Ok true /\
  In 7 (witnesses false 9056501) /\ fermat_test 64 7 9056501 = Ok false.
Proof.
  split; [reflexivity|]. split; [apply (not_prime_mult 1229 7369); lia|]. split; [vm_compute; reflexivity|].
  split; [vm_compute; auto|vm_compute; reflexivity].
Qed.
Example C19_hyp : 9056501 - 1 = 2264125 * 2 ^ Z.of_nat 2 /\ Z.odd 2264125 = true /\ adapter_modpow 64 2 2264125 9056501 <> Ok 1.
Proof. repeat split; [vm_compute; discriminate]. Qed.

(** ** C20 factorize *)
(** the elements added to the multiset multiply to n, each passes is_prime; nothing is removed; the order is ascending *)
Theorem C20_product w i128 rnd fuel n ret k l k' : 1 < w -> 1 <= n <= 2 ^ (w - 2) ->
  factorize w i128 rnd fuel n ret k = Ok (l, k') ->
  exists fs, Permutation l (fs ++ ret) /\ fold_right Z.mul 1 fs = n /\ Forall (fun p => 1 < p /\ is_prime w i128 p = Ok true) fs.
Proof. intros Hw Hn. exact (factorize_spec w i128 rnd Hw fuel n ret k l k' Hn). Qed.
Theorem C20_sorted w i128 rnd fuel n ret k l k' : Sorted Z.le ret -> factorize w i128 rnd fuel n ret k = Ok (l, k') -> Sorted Z.le l.
Proof. exact (factorize_sorted w i128 rnd fuel n ret k l k'). Qed.
(** below 9006401 it is the prime factorisation: any list of primes with product n is a permutation of the result *)
Theorem C20_prime_factorization w i128 rnd fuel n k l k' : 1 < w -> 1 <= n <= 2 ^ (w - 2) -> n < 9006401 ->
  factorize w i128 rnd fuel n [] k = Ok (l, k') ->
  Forall prime l /\ fold_right Z.mul 1 l = n /\ forall qs, Forall prime qs -> fold_right Z.mul 1 qs = n -> Permutation l qs.
Proof.
  intros Hw Hn Hs E. destruct (factorize_spec w i128 rnd Hw fuel n [] k l k' Hn E) as (fs & P & Z & F). rewrite app_nil_r in P.
  assert (FP : Forall prime fs).
  { rewrite Forall_forall in *. intros p I. destruct (F p I) as [A B].
    apply (is_prime_exact w i128 p true); [| |assumption|reflexivity].
    - assert (p <= n); [|lia]. rewrite <- Z. apply factors_le; [|assumption]. rewrite Forall_forall. intros x X. now apply F.
    - assert (p <= n); [|lia]. rewrite <- Z. apply factors_le; [|assumption]. rewrite Forall_forall. intros x X. now apply F. }
  split; [eapply Permutation_Forall; [symmetry; exact P|exact FP]|].
  split; [now rewrite <- Z; apply zprod_perm|].
  intros qs Q Zq. rewrite P. apply factorization_unique; try assumption. now rewrite Z.
Qed.
(** the only other outcome is not ending, as long as the square of n-1 fits *)
Theorem C20_no_error w i128 rnd fuel n ret k : 10 <= w -> 1 <= n -> (n - 1) * (n - 1) < 2 ^ (w - 1) ->
  (exists l k', factorize w i128 rnd fuel n ret k = Ok (l, k')) \/ factorize w i128 rnd fuel n ret k = Fuel.
Proof. intros Hw. exact (factorize_outcome w i128 rnd Hw fuel n ret k). Qed.
(** n <= 0 is undefined behaviour *)
Theorem C20_non_positive_refuted w i128 rnd fuel n ret k : n <= 0 -> exists u, factorize w i128 rnd (S (S fuel)) n ret k = Ub u.
Proof. exact (factorize_low w i128 rnd fuel n ret k). Qed.
Theorem C20_composite_element_refuted :
  ~ prime 9006401 /\ forall rnd k, factorize 64 false rnd 5 9006401 [] k = Ok ([9006401], k).
Proof.
  split; [apply (not_prime_mult 1733 5197); lia|]. intros rnd k.
  assert (E : is_prime 64 false 9006401 = Ok true) by (vm_compute; reflexivity).
  cbn [factorize]. change (9006401 =? 1) with false. cbv iota. unfold pollard_rho. change (9006401 =? 4) with false. cbv iota.
  rewrite E. cbn [bind]. change (quot_w 64 9006401 9006401) with (Ok 1). cbn [bind]. rewrite E. cbn [bind ms_insert].
  reflexivity.
Qed.
Example C20_hyp : factorize 64 false (fun k => Z.of_nat k + 1) 50 720720 [] 0 = Ok ([2; 2; 2; 2; 3; 3; 5; 7; 11; 13], 12%nat).
Proof. vm_compute. reflexivity. Qed.

(** ** C21 Pollard_Rho *)
Theorem C21_divisor w i128 rnd fuel n k d k' : 1 < w -> 2 <= n <= 2 ^ (w - 2) -> pollard_rho w i128 rnd fuel n k = Ok (d, k') ->
  (d | n) /\ 1 < d /\ (is_prime w i128 n = Ok true /\ d = n \/ (is_prime w i128 n = Ok false \/ n = 4) /\ d < n).
Proof. exact (pollard_divisor w i128 rnd fuel n k d k'). Qed.
Theorem C21_no_error w i128 rnd fuel n k : 10 <= w -> 2 <= n -> (n - 1) * (n - 1) < 2 ^ (w - 1) ->
  (exists d k', pollard_rho w i128 rnd fuel n k = Ok (d, k')) \/ pollard_rho w i128 rnd fuel n k = Fuel.
Proof. exact (pollard_outcome w i128 rnd fuel n k). Qed.
Example C21_hyp : pollard_rho 64 false (fun _ => 0) 50 8051 0 = Ok (97, 1%nat) /\ pollard_rho 64 false (fun _ => 5) 50 10403 3 = Ok (101, 4%nat).
Proof. split; vm_compute; reflexivity. Qed.

Print Assumptions C17_prime_never_rejected.
Print Assumptions C17_prime_never_rejected_prob.
Print Assumptions C17_prime_accepted.
Print Assumptions C17_prime_accepted_prob.
Print Assumptions C17_int_overflow_refuted.
Print Assumptions C18_exact_below_9006403.
Print Assumptions C18_exact_below_9006403_prob.
Print Assumptions C18_returns.
Print Assumptions C18_9006401_refuted.
Print Assumptions C19_base_2_decides.
Print Assumptions C19_composite_accepted_refuted.
Print Assumptions C20_product.
Print Assumptions C20_sorted.
Print Assumptions C20_prime_factorization.
Print Assumptions C20_no_error.
Print Assumptions C20_non_positive_refuted.
Print Assumptions C20_composite_element_refuted.
Print Assumptions C21_divisor.
Print Assumptions C21_no_error.
