(** Termination of factorize for every fair random source. *)
From Coq Require Import ZArith Znumtheory String Lia Bool List Wf_nat.
From Verif Require Import Base AdapterModel AdapterProofs FactorizeModel FactorizeSpec FactorizeProofs1 FactorizeProofs2 FactorizeProofs3 FactorizeProofs4 FactorizeProofs5.
Import ListNotations.
Open Scope Z_scope.

Lemma rho_while_ends w num rnd : 10 <= w -> 3 <= num <= 2 ^ (w - 2) -> forall m k,
  (exists c, random_digit rnd (k + m) 1 (num - 2) = Ok c /\ finds w num c) ->
  exists d k', (k < k' <= S (k + m))%nat /\ forall fuel, (m + Z.to_nat num + 3 <= fuel)%nat -> rho_while w num rnd fuel k = Ok (d, k').
Proof.
  intros Hw Hn. induction m as [|m IH]; intros k H.
  - rewrite Nat.add_0_r in H. destruct H as (c & R & _ & d & F). exists d, (S k). split; [lia|]. intros fuel L. destruct fuel as [|f]; [lia|].
    cbn [rho_while]. rewrite R. cbn [bind]. rewrite F by lia. reflexivity.
  - replace (k + S m)%nat with (S k + m)%nat in H by lia. destruct (IH (S k) H) as (d & k' & Hk & E).
    set (c := 1 + rnd k mod (num - 2 - 1 + 1)).
    assert (Hc : 1 <= c < num) by (pose proof (Z.mod_pos_bound (rnd k) (num - 2 - 1 + 1) ltac:(lia)); unfold c; lia).
    assert (R : random_digit rnd k 1 (num - 2) = Ok c) by (unfold random_digit; destruct (Z.ltb_spec (num - 2) 1); [lia|reflexivity]).
    destruct (rho_do_ends w c num ltac:(lia) Hc ltac:(lia)) as ([d0|] & E0).
    + exists d0, (S k). split; [lia|]. intros fuel L. destruct fuel as [|f]; [lia|]. cbn [rho_while]. rewrite R. cbn [bind]. rewrite E0 by lia. reflexivity.
    + exists d, k'. split; [lia|]. intros fuel L. destruct fuel as [|f]; [lia|]. cbn [rho_while]. rewrite R. cbn [bind]. rewrite E0 by lia. cbn [bind]. apply E. lia.
Qed.

Lemma pollard_ends w i rnd num k : 10 <= w -> fair rnd -> 2 <= num -> (num - 1) * (num - 1) < 2 ^ (w - 1) ->
  exists d k' F, (k <= k')%nat /\ forall fuel, (F <= fuel)%nat -> pollard_rho w i rnd fuel num k = Ok (d, k').
Proof.
  intros Hw Fr Hn Hs. pose proof (square_fits w num ltac:(lia) ltac:(lia) Hs) as L. unfold pollard_rho.
  destruct (Z.eqb_spec num 4) as [|N4]; [exists 2, k, 0%nat; auto|].
  destruct (is_prime_returns w i num Hw Hs) as [b E]. rewrite E. cbn [bind]. destruct b; [exists num, k, 0%nat; auto|].
  assert (NP : ~ prime num) by (intros P; rewrite (is_prime_prime_ok w i num Hw P Hs) in E; discriminate).
  assert (N2 : num <> 2) by (intros ->; apply NP, prime_2).
  assert (N3 : num <> 3) by (intros ->; apply NP, prime_3).
  destruct (Fr num k ltac:(lia) NP) as (k' & c & Hk' & R & Lk).
  assert (Hf : finds w num c).
  { apply lucky_finds; [exact Hw|lia| |exact Lk]. unfold random_digit in R. destruct (Z.ltb_spec (num - 2) 1); [lia|]. assert (Ec : 1 + rnd k' mod (num - 2 - 1 + 1) = c) by congruence. clear R.
    pose proof (Z.mod_pos_bound (rnd k') (num - 2 - 1 + 1) ltac:(lia)). lia. }
  destruct (rho_while_ends w num rnd Hw ltac:(lia) (k' - k) k) as (d & k2 & Hk2 & X).
  { exists c. replace (k + (k' - k))%nat with k' by lia. split; assumption. }
  exists d, k2, (k' - k + Z.to_nat num + 3)%nat. split; [lia|]. exact X.
Qed.

Lemma factorize_ends w i rnd : 10 <= w -> fair rnd -> forall N n ret k, (Z.to_nat n < N)%nat -> 1 <= n -> (n - 1) * (n - 1) < 2 ^ (w - 1) ->
  exists l k' F, forall fuel, (F <= fuel)%nat -> factorize w i rnd fuel n ret k = Ok (l, k').
Proof.
  intros Hw Fr. induction N as [|N IH]; intros n ret k LN Hn Hs; [lia|].
  destruct (Z.eq_dec n 1) as [->|N1]; [exists ret, k, 1%nat; intros [|f] L; [lia|reflexivity]|].
  pose proof (square_fits w n ltac:(lia) ltac:(lia) Hs) as L. pose proof (pow_split w ltac:(lia)) as PS.
  destruct (pollard_ends w i rnd n k Hw Fr ltac:(lia) Hs) as (d & k1 & F1 & _ & E1).
  pose proof (E1 F1 ltac:(lia)) as E1'. apply pollard_divisor in E1'; [|lia|lia]. destruct E1' as ([e Ee] & D1 & Cases).
  assert (Q : quot_w w n d = Ok e).
  { unfold quot_w. destruct (Z.eqb_spec d 0); [lia|]. assert (Q : n ÷ d = e) by (rewrite Ee, Z.quot_mul; lia). rewrite Q. assert (1 <= e <= n) by nia. apply chk_ok; lia. }
  assert (He : 1 <= e < n) by nia. assert (Hd : 1 <= d <= n) by nia.
  assert (Hs1 : (d - 1) * (d - 1) < 2 ^ (w - 1)) by nia. assert (Hs2 : (e - 1) * (e - 1) < 2 ^ (w - 1)) by nia.
  destruct (is_prime_returns w i d Hw Hs1) as [b1 P1]. destruct (is_prime_returns w i e Hw Hs2) as [b2 P2].
  assert (A : exists l1 k2 F2, forall fuel, (F2 <= fuel)%nat -> (if b1 then Ok (ms_insert d ret, k1) else factorize w i rnd fuel d ret k1) = Ok (l1, k2)).
  { destruct b1; [exists (ms_insert d ret), k1, 0%nat; reflexivity|].
    assert (d < n). { destruct Cases as [[C1 C2]|[_ C]]; [subst d; congruence|exact C]. } apply IH; lia. }
  destruct A as (l1 & k2 & F2 & A).
  assert (B : exists l2 k3 F3, forall fuel, (F3 <= fuel)%nat -> (if b2 then Ok (ms_insert e l1, k2) else factorize w i rnd fuel e l1 k2) = Ok (l2, k3)).
  { destruct b2; [exists (ms_insert e l1), k2, 0%nat; reflexivity|]. apply IH; lia. }
  destruct B as (l2 & k3 & F3 & B).
  exists l2, k3, (S (F1 + F2 + F3)). intros fuel LF. destruct fuel as [|f]; [lia|]. cbn [factorize].
  destruct (Z.eqb_spec n 1); [lia|]. rewrite E1 by lia. cbn [bind]. rewrite Q. cbn [bind]. rewrite P1. cbn [bind]. rewrite A by lia. cbn [bind].
  rewrite P2. cbn [bind]. apply B. lia.
Qed.

(** fair sources exist: 0, 0 1 2, 0 1 2 3 4, ... *)
Lemma ruler_recurs : all_values_recur (fun k => Z.of_nat k - Z.sqrt (Z.of_nat k) * Z.sqrt (Z.of_nat k)).
Proof.
  intros a b v k Hv. set (s := Z.of_nat k + (v - a)). exists (Z.to_nat (s * s + (v - a))). split; [unfold s; nia|].
  unfold random_digit. destruct (Z.ltb_spec b a); [lia|]. rewrite Z2Nat.id by (unfold s; nia).
  rewrite (Z.sqrt_unique (s * s + (v - a)) s) by (unfold s; nia).
  replace (s * s + (v - a) - s * s) with (v - a) by ring. rewrite Z.mod_small by lia. f_equal. lia.
Qed.
Lemma recur_fair rnd : all_values_recur rnd -> fair rnd.
Proof. intros H n k Hn NP. destruct (some_lucky n Hn NP) as (c & Hc & L). destruct (H 1 (n - 2) c k Hc) as (k' & Hk & R). exists k', c. auto. Qed.
