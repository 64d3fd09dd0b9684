(** is_prime, Pollard_Rho and factorize: every draw of the random source. *)
From Coq Require Import ZArith Znumtheory Zpow_facts String Lia Bool List Permutation Sorted.
From Verif Require Import Base AdapterModel AdapterProofs FactorizeModel FactorizeProofs1 FactorizeProofs2 FactorizeProofs3.
Import ListNotations.
Open Scope Z_scope.

(** ** is_prime *)
Lemma witnesses_nonneg i n : Forall (fun a => 0 <= a) (witnesses i n).
Proof. eapply Forall_impl; [|apply witnesses_bound]. intros; cbv beta in *; lia. Qed.
Lemma witnesses_below i n : 9006403 <= n -> Forall (fun a => 0 < a < n) (witnesses i n).
Proof. intros. eapply Forall_impl; [|apply witnesses_bound]. intros; cbv beta in *; lia. Qed.
Lemma draws_below rnd n k len : 9006403 <= n -> Forall (fun a => 0 < a < n) (draws rnd k n len).
Proof. intros. eapply Forall_impl; [|apply (draws_bound rnd n ltac:(lia))]. intros; cbv beta in *; lia. Qed.
Lemma small_ws n w ws : n < 9006403 -> fast_path_with w n ws = fast_path_with w n [].
Proof. intros H. unfold fast_path_with. destruct (Z.geb_spec n 9006403); [lia|reflexivity]. Qed.

Lemma fast_prime w n ws : 1 < w -> prime n -> n <= 2 ^ (w - 2) -> (9006403 <= n -> Forall (fun a => 0 < a < n) ws) ->
  fast_path_with w n ws = Ok true \/ exists u, fast_path_with w n ws = Ub u.
Proof.
  intros Hw P Hn F. destruct (Z.lt_ge_cases n 9006403) as [L|G].
  - rewrite small_ws by assumption. destruct (fast_outcome w n [] Hw Hn ltac:(constructor)) as [[b E]|U]; [|auto].
    left. rewrite E. apply fast_sound_small in E; [|assumption]. rewrite fast_b_prime in E by (assumption || lia). now subst.
  - specialize (F G). assert (F' : Forall (fun a => 0 <= a) ws) by (eapply Forall_impl; [|exact F]; intros; cbv beta in *; lia).
    destruct (fast_outcome w n ws Hw Hn F') as [[b E]|U]; [|auto].
    left. rewrite E. apply fast_sound in E; try assumption. rewrite fast_b_prime in E; auto. now subst.
Qed.
Lemma fast_prime_ok w n ws : 10 <= w -> prime n -> (n - 1) * (n - 1) < 2 ^ (w - 1) -> (9006403 <= n -> Forall (fun a => 0 < a < n) ws) ->
  fast_path_with w n ws = Ok true.
Proof.
  intros Hw P Hn F. destruct (Z.lt_ge_cases n 9006403) as [L|G].
  - rewrite small_ws by assumption. rewrite fast_ok by (try assumption; constructor). f_equal. apply fast_b_prime; [assumption|lia].
  - specialize (F G). rewrite fast_ok; [f_equal; apply fast_b_prime; auto|assumption|assumption|].
    assert (n < 2 ^ (w - 1)).
    { pose proof (square_fits w n ltac:(lia) ltac:(lia) Hn) as S. rewrite (pow_split w) by lia. pose proof (Z.pow_pos_nonneg 2 (w - 2)). lia. }
    eapply Forall_impl; [|exact F]. intros; cbv beta in *; lia.
Qed.
Lemma is_prime_prime w i n : 1 < w -> prime n -> n <= 2 ^ (w - 2) -> is_prime w i n = Ok true \/ exists u, is_prime w i n = Ub u.
Proof.
  intros Hw P Hn. unfold is_prime. destruct (Z.ltb_spec n 100000).
  - left. now rewrite (proj2 (slow_path_correct n) P).
  - apply fast_prime; try assumption. apply witnesses_below.
Qed.
Lemma is_prime_prob_prime w i rnd k n : 1 < w -> prime n -> n <= 2 ^ (w - 2) ->
  is_prime_prob w i rnd k n = Ok true \/ exists u, is_prime_prob w i rnd k n = Ub u.
Proof.
  intros Hw P Hn. unfold is_prime_prob. destruct (Z.ltb_spec n 100000).
  - left. now rewrite (proj2 (slow_path_correct n) P).
  - apply fast_prime; try assumption. intros. now apply draws_below.
Qed.
Lemma is_prime_prime_ok w i n : 10 <= w -> prime n -> (n - 1) * (n - 1) < 2 ^ (w - 1) -> is_prime w i n = Ok true.
Proof.
  intros Hw P Hn. unfold is_prime. destruct (Z.ltb_spec n 100000).
  - now rewrite (proj2 (slow_path_correct n) P).
  - apply fast_prime_ok; try assumption. apply witnesses_below.
Qed.
Lemma is_prime_prob_prime_ok w i rnd k n : 10 <= w -> prime n -> (n - 1) * (n - 1) < 2 ^ (w - 1) -> is_prime_prob w i rnd k n = Ok true.
Proof.
  intros Hw P Hn. unfold is_prime_prob. destruct (Z.ltb_spec n 100000).
  - now rewrite (proj2 (slow_path_correct n) P).
  - apply fast_prime_ok; try assumption. intros. now apply draws_below.
Qed.

Lemma is_prime_exact w i n b : n < 9006403 -> n <> 9006401 -> is_prime w i n = Ok b -> (b = true <-> prime n).
Proof.
  intros Hn Hx. unfold is_prime. destruct (Z.ltb_spec n 100000).
  - intros [= <-]. apply slow_path_correct.
  - intros E. apply fast_sound_small in E; [|assumption]. subst b. now apply fast_b_small_exact.
Qed.
Lemma is_prime_prob_exact w i rnd k n b : n < 9006403 -> n <> 9006401 -> is_prime_prob w i rnd k n = Ok b -> (b = true <-> prime n).
Proof.
  intros Hn Hx. unfold is_prime_prob. destruct (Z.ltb_spec n 100000).
  - intros [= <-]. apply slow_path_correct.
  - intros E. apply fast_sound_small in E; [|assumption]. subst b. now apply fast_b_small_exact.
Qed.
Lemma is_prime_small_returns w i n : 48 <= w -> n < 9006403 -> exists b, is_prime w i n = Ok b.
Proof.
  intros Hw Hn. unfold is_prime. destruct (Z.ltb_spec n 100000); [eauto|].
  unfold is_prime_fast_path. rewrite small_ws by assumption. exists (fast_b n []). apply fast_ok; [lia| |constructor].
  assert (2 ^ 47 <= 2 ^ (w - 1)) by (apply Z.pow_le_mono_r; lia). change (2 ^ 47) with 140737488355328 in *. nia.
Qed.

Lemma is_prime_low w i n : n <= 1 -> is_prime w i n = Ok false.
Proof.
  intros H. unfold is_prime. destruct (Z.ltb_spec n 100000); [|lia]. unfold is_prime_slow_path.
  destruct (Z.ltb_spec n 2); [reflexivity|lia].
Qed.

(** the verdict above 9006403 *)
Lemma witnesses_two i n : exists ws, witnesses i n = 2 :: ws.
Proof.
  unfold witnesses. repeat match goal with |- context [if ?c then _ else _] => destruct c end; cbn; eauto.
Qed.
Lemma odd_part_unique d s d' s' : Z.odd d = true -> Z.odd d' = true -> d * 2 ^ Z.of_nat s = d' * 2 ^ Z.of_nat s' -> d = d' /\ s = s'.
Proof.
  revert s'. induction s as [|s IH]; intros [|s'] O O' E.
  - change (2 ^ Z.of_nat 0) with 1 in E. split; [lia|reflexivity].
  - exfalso. change (2 ^ Z.of_nat 0) with 1 in E. rewrite Nat2Z.inj_succ, Z.pow_succ_r in E by lia.
    rewrite Z.mul_1_r in E. rewrite E in O. rewrite Z.odd_mul, Z.odd_mul in O. cbn [Z.odd andb] in O. now rewrite andb_false_r in O.
  - exfalso. change (2 ^ Z.of_nat 0) with 1 in E. rewrite Nat2Z.inj_succ, Z.pow_succ_r in E by lia.
    rewrite Z.mul_1_r in E. rewrite <- E in O'. rewrite Z.odd_mul, Z.odd_mul in O'. cbn [Z.odd andb] in O'. now rewrite andb_false_r in O'.
  - rewrite !Nat2Z.inj_succ, !Z.pow_succ_r in E by lia. destruct (IH s' O O') as [-> ->]; [lia|auto].
Qed.
Lemma no_divisor_iff b n : b <= 103 -> no_divisor_to b n = true <-> forall p, prime p -> p <= b -> ~ (p | n).
Proof.
  intros Hb. split.
  - intros H p P L D. pose proof (no_divisor_inv b n p H P D Hb). lia.
  - intros H. unfold no_divisor_to. apply forallb_forall. intros p I. apply negb_true_iff, Z.eqb_neq. intros E.
    pose proof (primes_to_in b p I) as B. apply Z.mod_divide in E; [|lia].
    destruct (prime_factor_exists p ltac:(lia)) as (q & Pq & Dq). apply (H q Pq).
    + apply Z.divide_pos_le in Dq; lia.
    + now apply Z.divide_trans with p.
Qed.
Lemma is_prime_verdict w i n b d s : 1 < w -> 9006403 <= n <= 2 ^ (w - 2) -> is_prime w i n = Ok b ->
  n - 1 = d * 2 ^ Z.of_nat s -> Z.odd d = true -> 2 ^ d mod n <> 1 ->
  (b = true <-> (forall p, prime p -> p <= 89 -> ~ (p | n)) /\ exists j, (j < s)%nat /\ 2 ^ (d * 2 ^ Z.of_nat j) mod n = n - 1).
Proof.
  intros Hw Hn E Ed Od N1. unfold is_prime in E. destruct (Z.ltb_spec n 100000); [lia|].
  apply fast_sound in E; [|assumption|lia|apply witnesses_nonneg]. subst b.
  unfold fast_b. destruct (Z.geb_spec n 9006403); [|lia]. rewrite andb_true_iff, no_divisor_iff by lia.
  assert (X : mr_b n (witnesses i n) = true <-> exists j, (j < s)%nat /\ 2 ^ (d * 2 ^ Z.of_nat j) mod n = n - 1); [|now rewrite X].
  unfold mr_b. destruct (split2_spec (bits_fuel n) (n - 1) 0) as (d' & s' & -> & O' & P' & L & E').
  { pose proof (bits_fuel_bound n ltac:(lia)). lia. }
  rewrite Nat.sub_0_r in E'. destruct (odd_part_unique d s d' s') as [-> ->]; try assumption; [congruence|].
  destruct (witnesses_two i n) as [ws ->]. cbn [mr_pure]. destruct (Z.eqb_spec (2 ^ d' mod n) 1); [contradiction|].
  rewrite chain_hits_spec. split; intros (j & Hj & X); exists j; (split; [assumption|]); rewrite <- X; f_equal;
    rewrite Z.pow_mul_r by (try apply Z.pow_nonneg; lia); reflexivity.
Qed.

(** ** Pollard-Rho *)
Lemma rho_f_ok w c num x : 1 < w -> 1 <= c < num -> num <= 2 ^ (w - 2) -> 0 <= x < num -> rho_f w c num x = Ok ((x * x + c) mod num).
Proof.
  intros Hw Hc Hn Hx. pose proof (pow_split w Hw) as P. unfold rho_f.
  pose proof (Z.mod_pos_bound (x * x) num ltac:(lia)) as B.
  rewrite mulmod_spec by lia. cbn [bind]. rewrite rem_w_pos by lia. cbn [bind]. rewrite (Z.mod_small c) by lia.
  rewrite chk_ok by lia. cbn [bind].
  rewrite rem_w_pos by lia. now rewrite Z.add_mod_idemp_l by lia.
Qed.
Lemma rho_inner_inv w c num : 1 < w -> 1 <= c < num -> num <= 2 ^ (w - 2) ->
  forall i t r p, 0 <= t < num -> 0 <= r < num -> 0 < p < num ->
  exists t' r' p', rho_inner w c num i t r p = Ok (t', r', p') /\ 0 <= t' < num /\ 0 <= r' < num /\ 0 < p' < num.
Proof.
  intros Hw Hc Hn. pose proof (pow_split w Hw) as P.
  induction i as [|i IH]; intros t r p Ht Hr Hp; cbn [rho_inner]; [exists t, r, p; auto|].
  pose proof (Z.mod_pos_bound (t * t + c) num ltac:(lia)) as B1. rewrite (rho_f_ok w c num t) by lia. cbn [bind].
  pose proof (Z.mod_pos_bound (r * r + c) num ltac:(lia)) as B2. rewrite (rho_f_ok w c num r) by lia. cbn [bind].
  set (t1 := (t * t + c) mod num) in *. set (r1 := (r * r + c) mod num) in *.
  pose proof (Z.mod_pos_bound (r1 * r1 + c) num ltac:(lia)) as B3. rewrite (rho_f_ok w c num r1) by lia. cbn [bind].
  set (r2 := (r1 * r1 + c) mod num) in *.
  destruct (t1 =? r2); [exists t1, r2, p; auto|].
  rewrite chk_ok by lia. cbn [bind]. unfold adapter_abs. rewrite chk_ok by lia. cbn [bind].
  rewrite mulmod_spec by lia. cbn [bind].
  pose proof (Z.mod_pos_bound (p * Z.abs (t1 - r2)) num ltac:(lia)) as B4.
  destruct (Z.eqb_spec ((p * Z.abs (t1 - r2)) mod num) 0); [exists t1, r2, p; auto|].
  apply IH; try lia.
Qed.
Lemma gcd_ok w a b : 0 <= a < 2 ^ (w - 1) -> 0 <= b < 2 ^ (w - 1) -> adapter_gcd w a b = Ok (Z.gcd a b).
Proof. intros. unfold adapter_gcd. rewrite !chk_ok by lia. reflexivity. Qed.
Lemma rho_do_inv w c num : 1 < w -> 1 <= c < num -> num <= 2 ^ (w - 2) ->
  forall fuel t r p, 0 <= t < num -> 0 <= r < num -> 0 < p < num ->
  match rho_do w c num fuel t r p with
  | Ok (Some d) => 1 < d < num /\ (d | num)
  | Ok None => True
  | Fuel => True
  | _ => False
  end.
Proof.
  intros Hw Hc Hn. pose proof (pow_split w Hw) as P.
  induction fuel as [|f IH]; intros t r p Ht Hr Hp; cbn [rho_do]; [exact I|].
  destruct (rho_inner_inv w c num Hw Hc Hn 128 t r p Ht Hr Hp) as (t' & r' & p' & -> & Ht' & Hr' & Hp'). cbn [bind].
  rewrite gcd_ok by lia. cbn [bind]. rewrite Z.gtb_ltb. destruct (Z.ltb_spec 1 (Z.gcd p' num)) as [G|G].
  - split; [|apply Z.gcd_divide_r]. split; [assumption|].
    pose proof (Z.divide_pos_le (Z.gcd p' num) p' ltac:(lia) (Z.gcd_divide_l p' num)). lia.
  - destruct (t' =? r'); [exact I|]. now apply IH.
Qed.
Lemma rho_while_inv w num rnd : 1 < w -> 3 <= num <= 2 ^ (w - 2) ->
  forall fuel k, match rho_while w num rnd fuel k with
  | Ok (d, _) => 1 < d < num /\ (d | num)
  | Fuel => True
  | _ => False
  end.
Proof.
  intros Hw Hn. induction fuel as [|f IH]; intros k; cbn [rho_while]; [exact I|].
  unfold random_digit. destruct (Z.ltb_spec (num - 2) 1); [lia|]. cbn [bind].
  pose proof (Z.mod_pos_bound (rnd k) (num - 2 - 1 + 1) ltac:(lia)) as B.
  pose proof (rho_do_inv w (1 + rnd k mod (num - 2 - 1 + 1)) num Hw ltac:(lia) ltac:(lia) (S f) 0 0 1 ltac:(lia) ltac:(lia) ltac:(lia)) as R.
  destruct (rho_do w (1 + rnd k mod (num - 2 - 1 + 1)) num (S f) 0 0 1) as [[d|]| | |]; try contradiction; cbn [bind]; auto.
  apply IH.
Qed.
Lemma pollard_divisor w i rnd fuel num k d k' : 1 < w -> 2 <= num <= 2 ^ (w - 2) -> pollard_rho w i rnd fuel num k = Ok (d, k') ->
  (d | num) /\ 1 < d /\ (is_prime w i num = Ok true /\ d = num \/ (is_prime w i num = Ok false \/ num = 4) /\ d < num).
Proof.
  intros Hw Hn. unfold pollard_rho. destruct (Z.eqb_spec num 4) as [->|N4].
  - intros [= <- <-]. split; [exists 2; reflexivity|]. split; [lia|]. right. split; [auto|lia].
  - destruct (is_prime w i num) as [b| | |] eqn:E; cbn [bind]; try discriminate. destruct b.
    + intros [= <- <-]. split; [apply Z.divide_refl|]. split; [lia|]. auto.
    + assert (num <> 2).
      { intros ->. unfold is_prime in E. cbn in E. discriminate. }
      pose proof (rho_while_inv w num rnd Hw ltac:(lia) fuel k) as R. destruct (rho_while w num rnd fuel k) as [[d' k'']| | |]; try discriminate.
      intros [= <- <-]. destruct R as [R1 R2]. split; [assumption|]. split; [lia|]. right. split; [auto|lia].
Qed.
Lemma pollard_low w i rnd fuel num k : num <= 1 -> exists u, pollard_rho w i rnd (S fuel) num k = Ub u.
Proof.
  intros H. unfold pollard_rho. destruct (Z.eqb_spec num 4); [lia|]. rewrite is_prime_low by assumption. cbn [bind rho_while].
  unfold random_digit. destruct (Z.ltb_spec (num - 2) 1); [|lia]. cbn [bind]. eauto.
Qed.

(** ** factorize *)
Lemma ms_insert_perm x l : Permutation (ms_insert x l) (x :: l).
Proof.
  induction l as [|y l IH]; cbn [ms_insert]; [reflexivity|]. destruct (x <? y); [reflexivity|].
  rewrite IH. apply perm_swap.
Qed.
Lemma ms_insert_hd x y l : y <= x -> HdRel Z.le y l -> HdRel Z.le y (ms_insert x l).
Proof. intros H D. destruct l as [|z l]; cbn [ms_insert]; [now constructor|]. inversion D; subst. destruct (x <? z); now constructor. Qed.
Lemma ms_insert_sorted x l : Sorted Z.le l -> Sorted Z.le (ms_insert x l).
Proof.
  induction 1 as [|y l S IH D]; cbn [ms_insert]; [repeat constructor|].
  destruct (Z.ltb_spec x y); [constructor; [now constructor|constructor; lia]|].
  constructor; [assumption|]. now apply ms_insert_hd.
Qed.
Definition zprod (l : list Z) : Z := fold_right Z.mul 1 l.
Lemma zprod_perm l l' : Permutation l l' -> zprod l = zprod l'.
Proof. induction 1; cbn [zprod fold_right] in *; try lia. fold (zprod l) (zprod l') in *. now rewrite IHPermutation. Qed.
Lemma zprod_app l l' : zprod (l ++ l') = zprod l * zprod l'.
Proof. induction l as [|x l IH]; cbn [app zprod fold_right]; [unfold zprod; lia|]. fold (zprod (l ++ l')) (zprod l). rewrite IH. ring. Qed.

Lemma factorize_spec w i rnd : 1 < w -> forall fuel n ret k l k', 1 <= n <= 2 ^ (w - 2) ->
  factorize w i rnd fuel n ret k = Ok (l, k') ->
  exists fs, Permutation l (fs ++ ret) /\ zprod fs = n /\ Forall (fun p => 1 < p /\ is_prime w i p = Ok true) fs.
Proof.
  intros Hw. induction fuel as [|f IH]; intros n ret k l k' Hn; cbn [factorize]; [discriminate|].
  destruct (Z.eqb_spec n 1) as [->|N1].
  { intros [= <- <-]. exists []. repeat split; auto. }
  destruct (pollard_rho w i rnd f n k) as [[d k1]| | |] eqn:PR; cbn [bind]; try discriminate.
  apply pollard_divisor in PR; [|assumption|lia]. destruct PR as ([e Ee] & D1 & _).
  unfold quot_w. destruct (Z.eqb_spec d 0); [lia|].
  assert (Q : n ÷ d = e) by (rewrite Ee, Z.quot_mul; lia). rewrite Q. assert (He : 1 <= e <= n) by nia.
  assert (Hd : 1 <= d <= n) by nia.
  destruct (chk w e) as [e'| | |] eqn:C; cbn [bind]; try discriminate. apply chk_inv in C as [-> _].
  destruct (is_prime w i d) as [b1| | |] eqn:P1; cbn [bind]; try discriminate.
  assert (S1 : forall l1 k1', (if b1 then Ok (ms_insert d ret, k1) else factorize w i rnd f d ret k1) = Ok (l1, k1') ->
     exists fs, Permutation l1 (fs ++ ret) /\ zprod fs = d /\ Forall (fun p => 1 < p /\ is_prime w i p = Ok true) fs).
  { intros l1 k1'. destruct b1.
    - intros [= <- <-]. exists [d]. split; [apply ms_insert_perm|]. split; [cbn; lia|]. repeat constructor; assumption.
    - apply IH. lia. }
  destruct (if b1 then Ok (ms_insert d ret, k1) else factorize w i rnd f d ret k1) as [[l1 k1']| | |]; cbn [bind]; try discriminate.
  destruct (S1 l1 k1' eq_refl) as (fs1 & Pm1 & Z1 & F1).
  destruct (is_prime w i e) as [b2| | |] eqn:P2; cbn [bind]; try discriminate.
  destruct b2.
  - intros [= <- <-]. exists (e :: fs1). split; [rewrite ms_insert_perm; now rewrite Pm1|].
    split; [cbn [zprod fold_right]; fold (zprod fs1); lia|]. constructor; [|assumption]. split; [|assumption].
    destruct (Z.eq_dec e 1) as [->|]; [|lia]. rewrite is_prime_low in P2 by lia. discriminate.
  - intros E. apply IH in E; [|lia]. destruct E as (fs2 & Pm2 & Z2 & F2). exists (fs2 ++ fs1).
    split; [rewrite Pm2, Pm1; now rewrite app_assoc|]. split; [rewrite zprod_app; lia|]. apply Forall_app; auto.
Qed.
Lemma factorize_sorted w i rnd : forall fuel n ret k l k', Sorted Z.le ret -> factorize w i rnd fuel n ret k = Ok (l, k') -> Sorted Z.le l.
Proof.
  induction fuel as [|f IH]; intros n ret k l k' S; cbn [factorize]; [discriminate|].
  destruct (n =? 1). { now intros [= <- <-]. }
  destruct (pollard_rho w i rnd f n k) as [[d k1]| | |]; cbn [bind]; try discriminate.
  destruct (quot_w w n d) as [e| | |]; cbn [bind]; try discriminate.
  destruct (is_prime w i d) as [b1| | |]; cbn [bind]; try discriminate.
  assert (S1 : forall l1 k1', (if b1 then Ok (ms_insert d ret, k1) else factorize w i rnd f d ret k1) = Ok (l1, k1') -> Sorted Z.le l1).
  { intros l1 k1'. destruct b1; [intros [= <- <-]; now apply ms_insert_sorted|now apply IH]. }
  destruct (if b1 then Ok (ms_insert d ret, k1) else factorize w i rnd f d ret k1) as [[l1 k1']| | |]; cbn [bind]; try discriminate.
  specialize (S1 l1 k1' eq_refl).
  destruct (is_prime w i e) as [b2| | |]; cbn [bind]; try discriminate.
  destruct b2; [intros [= <- <-]; now apply ms_insert_sorted|now apply IH].
Qed.
Lemma factorize_low w i rnd fuel n ret k : n <= 0 -> exists u, factorize w i rnd (S (S fuel)) n ret k = Ub u.
Proof.
  intros H. cbn [factorize]. destruct (Z.eqb_spec n 1); [lia|].
  destruct (pollard_low w i rnd fuel n k ltac:(lia)) as [u ->]. cbn [bind]. eauto.
Qed.
Lemma zprod_in p l : In p l -> (p | zprod l).
Proof. induction l as [|x l IH]; cbn; [easy|]. intros [->|H]; [apply Z.divide_mul_l, Z.divide_refl|now apply Z.divide_mul_r, IH]. Qed.
Lemma zprod_pos l : Forall (fun p => 1 < p) l -> 1 <= zprod l.
Proof. induction 1; cbn; [lia|]. fold (zprod l). nia. Qed.
Lemma factors_le l p : Forall (fun p => 1 < p) l -> In p l -> p <= zprod l.
Proof. intros F I. apply Z.divide_pos_le; [pose proof (zprod_pos l F); lia|now apply zprod_in]. Qed.

(** uniqueness of prime factorisation *)
Lemma prime_in_zprod p l : prime p -> Forall prime l -> (p | zprod l) -> In p l.
Proof.
  intros P. induction 1 as [|q l Q F IH]; cbn [zprod fold_right].
  - intros D. exfalso. apply Z.divide_1_r_nonneg in D; [|destruct P; lia]. destruct P; lia.
  - intros D. apply prime_mult in D; [|assumption]. destruct D as [D|D].
    + left. symmetry. apply prime_div_prime; assumption.
    + right. now apply IH.
Qed.
Lemma factorization_unique : forall l l', Forall prime l -> Forall prime l' -> zprod l = zprod l' -> Permutation l l'.
Proof.
  induction l as [|p l IH]; intros l' F F' E.
  - destruct l' as [|q l']; [constructor|exfalso]. inversion F' as [|? ? Q F'']; subst.
    assert (1 <= zprod l'). { apply zprod_pos. eapply Forall_impl; [|exact F'']. intros a [A _]; exact A. }
    cbn in E. fold (zprod l') in E. destruct Q. nia.
  - inversion F as [|? ? P Fl]; subst.
    assert (I : In p l'). { apply prime_in_zprod; try assumption. rewrite <- E. apply zprod_in. now left. }
    apply in_split in I as (l1 & l2 & ->).
    assert (Permutation l (l1 ++ l2)).
    { apply IH; [assumption| |].
      - apply Forall_app in F' as [A B]. apply Forall_app. split; [assumption|now inversion B].
      - rewrite zprod_app in *. cbn [zprod fold_right] in E. fold (zprod l) (zprod l2) in E.
        assert (0 < p) by (destruct P; lia). apply (Z.mul_reg_l _ _ p); lia. }
    rewrite H. now apply Permutation_middle.
Qed.

(** no undefined behaviour, no exception: the only other outcome is not ending (Fuel) *)
Lemma is_prime_returns w i n : 10 <= w -> (n - 1) * (n - 1) < 2 ^ (w - 1) -> exists b, is_prime w i n = Ok b.
Proof.
  intros Hw Hn. unfold is_prime. destruct (n <? 100000); [eauto|]. unfold is_prime_fast_path. eexists. apply fast_ok; try assumption.
  assert (512 <= 2 ^ (w - 1)) by (change 512 with (2 ^ 9); apply Z.pow_le_mono_r; lia).
  eapply Forall_impl; [|apply witnesses_bound]. intros; cbv beta in *; lia.
Qed.
Lemma pollard_outcome w i rnd fuel num k : 10 <= w -> 2 <= num -> (num - 1) * (num - 1) < 2 ^ (w - 1) ->
  (exists d k', pollard_rho w i rnd fuel num k = Ok (d, k')) \/ pollard_rho w i rnd fuel num k = Fuel.
Proof.
  intros Hw Hn Hs. pose proof (square_fits w num ltac:(lia) ltac:(lia) Hs) as L. unfold pollard_rho.
  destruct (Z.eqb_spec num 4); [eauto|]. destruct (is_prime_returns w i num Hw Hs) as [b E]. rewrite E. cbn [bind].
  destruct b; [eauto|].
  assert (num <> 2). { intros ->. unfold is_prime in E. cbn in E. discriminate. }
  pose proof (rho_while_inv w num rnd ltac:(lia) ltac:(lia) fuel k) as R.
  destruct (rho_while w num rnd fuel k) as [[d k'']| | |]; try contradiction; eauto.
Qed.
Lemma factorize_outcome w i rnd : 10 <= w -> forall fuel n ret k, 1 <= n -> (n - 1) * (n - 1) < 2 ^ (w - 1) ->
  (exists l k', factorize w i rnd fuel n ret k = Ok (l, k')) \/ factorize w i rnd fuel n ret k = Fuel.
Proof.
  intros Hw. induction fuel as [|f IH]; intros n ret k Hn Hs; cbn [factorize]; [auto|].
  destruct (Z.eqb_spec n 1) as [->|N1]; [eauto|].
  pose proof (square_fits w n ltac:(lia) ltac:(lia) Hs) as L. pose proof (pow_split w ltac:(lia)) as PS.
  destruct (pollard_outcome w i rnd f n k Hw ltac:(lia) Hs) as [(d & k1 & E)|E]; rewrite E; cbn [bind]; [|auto].
  apply pollard_divisor in E; [|lia|lia]. destruct E as ([e Ee] & D1 & _).
  unfold quot_w. destruct (Z.eqb_spec d 0); [lia|].
  assert (Q : n ÷ d = e) by (rewrite Ee, Z.quot_mul; lia). rewrite Q. assert (He : 1 <= e <= n) by nia. assert (Hd : 1 <= d <= n) by nia.
  rewrite chk_ok by lia. cbn [bind].
  assert (Hs1 : (d - 1) * (d - 1) < 2 ^ (w - 1)) by nia. assert (Hs2 : (e - 1) * (e - 1) < 2 ^ (w - 1)) by nia.
  destruct (is_prime_returns w i d Hw Hs1) as [b1 ->]. cbn [bind].
  assert (S1 : (exists l k', (if b1 then Ok (ms_insert d ret, k1) else factorize w i rnd f d ret k1) = Ok (l, k')) \/
     (if b1 then Ok (ms_insert d ret, k1) else factorize w i rnd f d ret k1) = Fuel).
  { destruct b1; [eauto|]. apply IH; [lia|assumption]. }
  destruct S1 as [(l1 & k1' & ->)| ->]; cbn [bind]; [|auto].
  destruct (is_prime_returns w i e Hw Hs2) as [b2 ->]. cbn [bind]. destruct b2; [eauto|]. apply IH; [lia|assumption].
Qed.
