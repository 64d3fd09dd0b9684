(** C66: factorize ends with probability one.

    [factorize w i128 rnd fuel n ret k]: factorize(n, ret) when the draws number k, k+1, ... of the random source [rnd] come next; [Fuel] is
    "has not ended within [fuel] rounds", so a result that is the same for all large [fuel] is the result of the program.
    [rho_do w c n fuel 0 0 1]: one round of the endless loop in Pollard_Rho, with the draw c: [Ok (Some d)] returns d, [Ok None] draws again. *)
From Coq Require Import ZArith Znumtheory String Lia Bool List Permutation.
From Verif Require Import Base AdapterModel AdapterProofs FactorizeModel FactorizeSpec FactorizeProofs1 FactorizeProofs2 FactorizeProofs3 FactorizeProofs4 FactorizeProofs5 FactorizeProofs6 FactorizeProps.
Import ListNotations.
Open Scope Z_scope.

(** ** Every round ends, whatever is drawn *)
Theorem C66_round_ends w c n : 1 < w -> 1 <= c < n -> n <= 2 ^ (w - 2) ->
  exists o, forall fuel, (Z.to_nat n + 2 <= fuel)%nat -> rho_do w c n fuel 0 0 1 = Ok o.
Proof. intros Hw Hc Hn. exact (rho_do_ends w c n Hw Hc Hn). Qed.
Print Assumptions C66_round_ends.

(** ** Every lucky draw returns a proper divisor at once, and for every composite number there are such draws *)
Theorem C66_lucky_draw_hits w n c : 10 <= w -> 4 < n <= 2 ^ (w - 2) -> 1 <= c <= n - 2 -> lucky n c ->
  exists d, 1 < d < n /\ (d | n) /\ forall fuel, (1 <= fuel)%nat -> rho_do w c n fuel 0 0 1 = Ok (Some d).
Proof.
  intros Hw Hn Hc Lk. destruct (lucky_finds w n c Hw Hn Hc Lk) as (_ & d & E). exists d.
  pose proof (rho_do_inv w c n ltac:(lia) ltac:(lia) ltac:(lia) 1 0 0 1 ltac:(lia) ltac:(lia) ltac:(lia)) as R. rewrite (E 1%nat) in R by lia.
  destruct R as [R1 R2]. auto.
Qed.
Print Assumptions C66_lucky_draw_hits.
Theorem C66_lucky_draws_exist n : 4 < n -> ~ prime n -> exists c, 1 <= c <= n - 2 /\ lucky n c.
Proof. exact (some_lucky n). Qed.
Print Assumptions C66_lucky_draws_exist.
Theorem C66_uniform_is_fair rnd : all_values_recur rnd -> fair rnd.
Proof. exact (recur_fair rnd). Qed.
Print Assumptions C66_uniform_is_fair.

(** ** So a fair source ends it *)
Theorem C66_ends w i128 rnd n ret k : 10 <= w -> fair rnd -> 1 <= n -> (n - 1) * (n - 1) < 2 ^ (w - 1) ->
  exists l k' rounds, forall fuel, (rounds <= fuel)%nat -> factorize w i128 rnd fuel n ret k = Ok (l, k').
Proof. intros Hw Fr. exact (fun H => factorize_ends w i128 rnd Hw Fr (S (Z.to_nat n)) n ret k (Nat.lt_succ_diag_r _) H). Qed.
Print Assumptions C66_ends.
(** and below 9006401 with the prime factorisation *)
Theorem C66_ends_with_the_primes w i128 rnd n k : 48 <= w -> fair rnd -> 1 <= n < 9006401 ->
  exists l k' rounds, (forall fuel, (rounds <= fuel)%nat -> factorize w i128 rnd fuel n [] k = Ok (l, k')) /\
    Forall prime l /\ fold_right Z.mul 1 l = n.
Proof.
  intros Hw Fr Hn. assert (2 ^ 46 <= 2 ^ (w - 2)) by (apply Z.pow_le_mono_r; lia). assert (2 ^ 47 <= 2 ^ (w - 1)) by (apply Z.pow_le_mono_r; lia).
  destruct (C66_ends w i128 rnd n [] k ltac:(lia) Fr ltac:(lia) ltac:(nia)) as (l & k' & F & E). exists l, k', F. split; [exact E|].
  destruct (C20_prime_factorization w i128 rnd F n k l k' ltac:(lia) ltac:(lia) ltac:(lia) (E F ltac:(lia))) as (A & B & _). auto.
Qed.
Print Assumptions C66_ends_with_the_primes.

(** ** No history is hopeless: whatever has been drawn before, there is a continuation that ends it *)
Theorem C66_no_dead_end w i128 rnd n ret k seen : 10 <= w -> 1 <= n -> (n - 1) * (n - 1) < 2 ^ (w - 1) ->
  exists rnd', (forall j, (j < seen)%nat -> rnd' j = rnd j) /\
    exists l k' rounds, forall fuel, (rounds <= fuel)%nat -> factorize w i128 rnd' fuel n ret k = Ok (l, k').
Proof.
  intros Hw Hn Hs. set (ruler := fun k : nat => Z.of_nat k - Z.sqrt (Z.of_nat k) * Z.sqrt (Z.of_nat k)).
  exists (fun j => if (j <? seen)%nat then rnd j else ruler j). split.
  - intros j Hj. destruct (Nat.ltb_spec j seen); [reflexivity|lia].
  - apply C66_ends; [exact Hw| |exact Hn|exact Hs].
    apply recur_fair. intros a b v j Hv. destruct (ruler_recurs a b v (j + seen)%nat Hv) as (k' & Hk & R). exists k'. split; [lia|].
    unfold random_digit in *. destruct (Nat.ltb_spec k' seen); [lia|exact R].
Qed.
Print Assumptions C66_no_dead_end.

(** ** Hypotheses met: a fair source exists; 91 * 97 *)
Example C66_fair_example : fair (fun k => Z.of_nat k - Z.sqrt (Z.of_nat k) * Z.sqrt (Z.of_nat k)).
Proof. exact (recur_fair _ ruler_recurs). Qed.
Example C66_lucky_example : lucky 8827 26 /\ lucky 49 12.
Proof. split; [left; split; [reflexivity|intros D; apply Z.mod_divide in D; [discriminate|lia]]|].
  right. left. exists 7. split; [apply (is_prime_exact 64 false 7 true); [lia|lia|reflexivity|reflexivity]|]. repeat split; [lia|exists 2; reflexivity|]. intros D; apply Z.mod_divide in D; [discriminate|lia].
Qed.
Example C66_example : (8827 - 1) * (8827 - 1) < 2 ^ (64 - 1) /\
  factorize 64 false (fun k => Z.of_nat k - Z.sqrt (Z.of_nat k) * Z.sqrt (Z.of_nat k)) 100 8827 [] 0 = Ok ([7; 13; 97], 3%nat).
Proof. split; [lia|vm_compute; reflexivity]. Qed.

(** ** The premise about the source is needed: with a source that always gives 1, factorize(25) never ends *)
Theorem C66_unfair_source_refuted : forall fuel k, factorize 64 false (fun _ => 0) fuel 25 [] k = Fuel.
Proof.
  assert (A : forall f, rho_do 64 1 25 (S f) 0 0 1 = Ok None).
  { intros f. cbn [rho_do]. assert (E : rho_inner 64 1 25 128 0 0 1 = Ok (5, 5, 1)) by (vm_compute; reflexivity). rewrite E. reflexivity. }
  assert (B : forall f k, rho_while 64 25 (fun _ => 0) f k = Fuel).
  { induction f as [|f IH]; intros k; [reflexivity|]. cbn [rho_while]. change (random_digit (fun _ : nat => 0) k 1 (25 - 2)) with (Ok 1). cbn [bind]. rewrite A. apply IH. }
  intros fuel k. destruct fuel as [|f]; [reflexivity|]. cbn [factorize]. change (25 =? 1) with false. cbv iota. unfold pollard_rho. change (25 =? 4) with false. cbv iota.
  change (is_prime 64 false 25) with (Ok false). cbn [bind]. rewrite B. reflexivity.
Qed.
Print Assumptions C66_unfair_source_refuted.
