(** Termination: every round of Pollard_Rho's loop ends, and for every composite number some draw makes it find a divisor. *)
From Coq Require Import ZArith Znumtheory String Lia Bool List Wf_nat.
From Verif Require Import Base AdapterModel AdapterProofs FactorizeModel FactorizeSpec FactorizeProofs1 FactorizeProofs2 FactorizeProofs3 FactorizeProofs4.
Import ListNotations.
Open Scope Z_scope.

(** ** The sequence x_0 = 0, x_(j+1) = x_j^2 + c *)
Fixpoint rho_seq (c num : Z) (j : nat) : Z := match j with O => 0 | S j => (rho_seq c num j * rho_seq c num j + c) mod num end.
Lemma rho_seq_range c num j : 0 < num -> 0 <= rho_seq c num j < num.
Proof. intros. destruct j; cbn [rho_seq]; [lia|]. apply Z.mod_pos_bound. lia. Qed.

Lemma repeats (f : nat -> Z) m : NoDup (map f (seq 0 m)) \/ exists a b, (a < b < m)%nat /\ f a = f b.
Proof.
  induction m as [|m IH]; [left; constructor|].
  destruct IH as [IH|(a & b & H & E)]; [|right; exists a, b; split; [lia|exact E]].
  destruct (in_dec Z.eq_dec (f m) (map f (seq 0 m))) as [I|I].
  - right. apply in_map_iff in I. destruct I as (a & E & I). apply in_seq in I. exists a, m. split; [lia|exact E].
  - left. rewrite seq_S, map_app. cbn [map Nat.add].
    apply (NoDup_Add (a := f m) (l := map f (seq 0 m))).
    + replace (map f (seq 0 m)) with (map f (seq 0 m) ++ []) at 1 by apply app_nil_r. apply Add_app.
    + split; assumption.
Qed.
Lemma rho_repeats c num : 0 < num -> exists a b, (a < b < S (Z.to_nat num))%nat /\ rho_seq c num a = rho_seq c num b.
Proof.
  intros Hn. destruct (repeats (rho_seq c num) (S (Z.to_nat num))) as [N|E]; [exfalso|exact E].
  assert (I : incl (map (rho_seq c num) (seq 0 (S (Z.to_nat num)))) (map Z.of_nat (seq 0 (Z.to_nat num)))).
  { intros x X. apply in_map_iff in X. destruct X as (j & <- & _). pose proof (rho_seq_range c num j Hn).
    apply in_map_iff. exists (Z.to_nat (rho_seq c num j)). split; [lia|]. apply in_seq. lia. }
  pose proof (NoDup_incl_length N I) as L. rewrite !map_length, !seq_length in L. lia.
Qed.
Lemma rho_seq_shift c num a b i : rho_seq c num a = rho_seq c num b -> rho_seq c num (i + a) = rho_seq c num (i + b).
Proof. intros E. induction i as [|i IH]; [exact E|]. cbn [Nat.add rho_seq]. now rewrite IH. Qed.
Lemma rho_period c num a l : rho_seq c num a = rho_seq c num (a + l) -> forall q j, (a <= j)%nat -> rho_seq c num j = rho_seq c num (j + q * l).
Proof.
  intros E q j Hj. induction q as [|q IH]; [f_equal; lia|]. rewrite IH.
  replace (j + S q * l)%nat with ((j - a + q * l) + (a + l))%nat by lia. replace (j + q * l)%nat with ((j - a + q * l) + a)%nat by lia.
  apply rho_seq_shift, E.
Qed.
(** Floyd: the two walkers meet *)
Lemma rho_meets c num : 0 < num -> exists j, (1 <= j <= Z.to_nat num)%nat /\ rho_seq c num j = rho_seq c num (2 * j).
Proof.
  intros Hn. destruct (rho_repeats c num Hn) as (a & b & H & E).
  set (l := (b - a)%nat). assert (Hl : (1 <= l)%nat) by lia. assert (Eb : b = (a + l)%nat) by lia. rewrite Eb in E.
  pose proof (rho_period c num a l E) as P.
  set (q := S ((a - 1) / l)). exists (q * l)%nat.
  assert (D : (a - 1 = l * ((a - 1) / l) + (a - 1) mod l)%nat) by (apply Nat.div_mod; lia).
  assert (M : ((a - 1) mod l < l)%nat) by (apply Nat.mod_upper_bound; lia).
  assert (Q : (q * l = l * ((a - 1) / l) + l)%nat) by (unfold q; nia).
  split; [destruct a; nia|]. replace (2 * (q * l))%nat with (q * l + q * l)%nat by lia. apply P. lia.
Qed.

Section Rho.
Context (w c num : Z) (Hw : 1 < w) (Hc : 1 <= c < num) (Hn : num <= 2 ^ (w - 2)).
Notation x := (rho_seq c num).

(** what [i] steps from place [a] do *)
Lemma rho_inner_steps : forall i a p, 0 < p < num ->
  exists b p', rho_inner w c num i (x a) (x (2 * a)) p = Ok (x b, x (2 * b), p') /\ 0 < p' < num /\ (a <= b <= a + i)%nat /\
    (b = (a + i)%nat \/ x b = x (2 * b) \/ 1 < Z.gcd p' num) /\
    (forall P, (P | num) -> (P | p) -> (P | p')) /\
    (forall j, (a < j < b)%nat -> x j <> x (2 * j)) /\
    (forall P j, 1 < P -> (P | num) -> (a < j <= a + i)%nat -> (P | x j - x (2 * j)) -> (forall j', (a < j' <= j)%nat -> x j' <> x (2 * j')) -> 1 < Z.gcd p' num).
Proof.
  pose proof (pow_split w Hw) as PS.
  assert (G1 : forall P y, 1 < P -> 0 < y -> (P | y) -> (P | num) -> 1 < Z.gcd y num).
  { intros P y HP Hy D1 D2. pose proof (Z.gcd_greatest _ _ _ D1 D2) as D. apply Z.divide_pos_le in D; [lia|].
    pose proof (Z.gcd_nonneg y num). destruct (Z.eq_dec (Z.gcd y num) 0) as [E|]; [|lia]. apply Z.gcd_eq_0_l in E. lia. }
  induction i as [|i IH]; intros a p Hp; cbn [rho_inner].
  - exists a, p. split; [reflexivity|]. split; [exact Hp|]. split; [lia|]. split; [left; lia|]. split; [auto|]. split; [intros; lia|intros; lia].
  - pose proof (rho_seq_range c num a ltac:(lia)) as B1. pose proof (rho_seq_range c num (2 * a) ltac:(lia)) as B2.
    rewrite (rho_f_ok w c num (x a)) by lia. cbn [bind]. rewrite (rho_f_ok w c num (x (2 * a))) by lia. cbn [bind].
    change ((x a * x a + c) mod num) with (x (S a)). change ((x (2 * a) * x (2 * a) + c) mod num) with (x (S (2 * a))).
    pose proof (rho_seq_range c num (S (2 * a)) ltac:(lia)) as B3. rewrite (rho_f_ok w c num (x (S (2 * a)))) by lia. cbn [bind].
    change ((x (S (2 * a)) * x (S (2 * a)) + c) mod num) with (x (S (S (2 * a)))).
    replace (S (S (2 * a))) with (2 * S a)%nat by lia.
    pose proof (rho_seq_range c num (S a) ltac:(lia)) as B4. pose proof (rho_seq_range c num (2 * S a) ltac:(lia)) as B5.
    set (t := x (S a)) in *. set (r := x (2 * S a)) in *.
    destruct (Z.eqb_spec t r) as [E|N].
    { exists (S a), p. split; [reflexivity|]. split; [exact Hp|]. split; [lia|]. split; [right; left; exact E|]. split; [auto|]. split; [intros; lia|].
      intros P j _ _ Hj _ NE. exfalso. apply (NE (S a)); [lia|exact E]. }
    rewrite chk_ok by lia. cbn [bind]. unfold adapter_abs. rewrite chk_ok by lia. cbn [bind]. rewrite mulmod_spec by lia. cbn [bind].
    pose proof (Z.mod_pos_bound (p * Z.abs (t - r)) num ltac:(lia)) as B6.
    destruct (Z.eqb_spec ((p * Z.abs (t - r)) mod num) 0) as [Q|Q].
    + assert (G : 1 < Z.gcd p num).
      { pose proof (Z.gcd_nonneg p num) as G0. destruct (Z_lt_le_dec 1 (Z.gcd p num)) as [|L]; [assumption|exfalso].
        assert (Z.gcd p num <> 0) by (intros E; apply Z.gcd_eq_0_l in E; lia). assert (Z.gcd p num = 1) by lia.
        apply Z.mod_divide in Q; [|lia]. apply Z.gauss in Q; [|now rewrite Z.gcd_comm]. apply Z.divide_pos_le in Q; lia. }
      exists (S a), p. split; [reflexivity|]. split; [exact Hp|]. split; [lia|]. split; [right; right; exact G|]. split; [auto|]. split; [intros; lia|].
      intros; exact G.
    + set (q := (p * Z.abs (t - r)) mod num) in *.
      assert (Dq : forall P, (P | num) -> (P | p) \/ (P | t - r) -> (P | q)).
      { intros P HP HD. unfold q.
        rewrite Z.mod_eq by lia. apply Z.divide_sub_r; [|apply Z.divide_mul_l; exact HP].
        destruct HD as [HD|HD]; [apply Z.divide_mul_l; exact HD|apply Z.divide_mul_r, Z.divide_abs_r; exact HD]. }
      destruct (IH (S a) q ltac:(lia)) as (b & p' & R & Hp' & Hb & End & Keep & Dist & Hit). fold t r in R.
      exists b, p'. split; [exact R|]. split; [exact Hp'|]. split; [lia|]. split; [destruct End as [->|[|]]; [left; lia|auto|auto]|].
      split; [intros P HP HD; apply Keep; auto|]. split.
      * intros j Hj. destruct (Nat.eq_dec j (S a)) as [->|]; [exact N|]. apply Dist. lia.
      * intros P j HP1 HP2 Hj HD NE. destruct (Nat.eq_dec j (S a)) as [->|NJ].
        -- apply (G1 P); [exact HP1|lia| |exact HP2]. apply Keep; [exact HP2|]. apply Dq; [exact HP2|]. right. exact HD.
        -- apply (Hit P j); auto; try lia. intros j' Hj'. apply NE. lia.
Qed.

(** the do loop: ends, and the fuel does not matter then *)
Lemma rho_do_mono : forall fuel t r p o, rho_do w c num fuel t r p = Ok o -> forall fuel', (fuel <= fuel')%nat -> rho_do w c num fuel' t r p = Ok o.
Proof.
  induction fuel as [|f IH]; intros t r p o E fuel' L; [discriminate|]. destruct fuel' as [|f']; [lia|]. cbn [rho_do] in *.
  destruct (rho_inner w c num 128 t r p) as [[[t' r'] p']| | |]; cbn [bind] in *; try discriminate.
  destruct (adapter_gcd w p' num); cbn [bind] in *; try discriminate. destruct (_ >? 1); [exact E|]. destruct (t' =? r'); [exact E|].
  apply (IH _ _ _ _ E). lia.
Qed.
Lemma rho_do_ends_from j : (1 <= j)%nat -> x j = x (2 * j) -> forall fuel a p, 0 < p < num -> (j < a + fuel)%nat -> (a < j)%nat ->
  exists o, rho_do w c num fuel (x a) (x (2 * a)) p = Ok o.
Proof.
  pose proof (pow_split w Hw) as PS.
  intros Hj Ej. induction fuel as [|f IH]; intros a p Hp L A; [lia|]. cbn [rho_do].
  destruct (rho_inner_steps 128 a p Hp) as (b & p' & -> & Hp' & Hb & End & _ & Dist & _). cbn [bind].
  rewrite gcd_ok by lia. cbn [bind]. rewrite Z.gtb_ltb. destruct (Z.ltb_spec 1 (Z.gcd p' num)); [eauto|].
  destruct (Z.eqb_spec (x b) (x (2 * b))) as [|N]; [eauto|].
  destruct End as [->|[|]]; [|contradiction|lia].
  apply IH; [exact Hp'|lia|]. destruct (le_lt_dec j (a + 128)) as [C|]; [|assumption]. exfalso.
  destruct (Nat.eq_dec j (a + 128)) as [->|]; [contradiction|]. apply (Dist j); [lia|exact Ej].
Qed.
Lemma rho_do_ends : exists o, forall fuel, (Z.to_nat num + 2 <= fuel)%nat -> rho_do w c num fuel 0 0 1 = Ok o.
Proof.
  destruct (rho_meets c num ltac:(lia)) as (j & Hj & Ej).
  destruct (rho_do_ends_from j ltac:(lia) Ej (Z.to_nat num + 2) 0 1 ltac:(lia) ltac:(lia) ltac:(lia)) as (o & E). cbn [rho_seq Nat.mul Nat.add] in E.
  exists o. intros fuel L. apply (rho_do_mono _ _ _ _ _ E). exact L.
Qed.
(** a common factor with an early difference is found *)
Lemma rho_do_finds P j : 1 < P -> (P | num) -> (1 <= j <= 128)%nat -> (P | x j - x (2 * j)) -> (forall j', (1 <= j' <= j)%nat -> x j' <> x (2 * j')) ->
  exists d, forall fuel, (1 <= fuel)%nat -> rho_do w c num fuel 0 0 1 = Ok (Some d).
Proof.
  pose proof (pow_split w Hw) as PS.
  intros HP1 HP2 Hj HD NE.
  destruct (rho_inner_steps 128 0 1 ltac:(lia)) as (b & p' & E & Hp' & Hb & _ & _ & _ & Hit).
  assert (G : 1 < Z.gcd p' num) by (apply (Hit P j); auto; try lia; intros; apply NE; lia).
  exists (Z.gcd p' num). intros fuel L. destruct fuel as [|f]; [lia|]. cbn [rho_do]. change (x 0) with 0 in E. change (x (2 * 0)) with 0 in E. rewrite E. cbn [bind].
  rewrite gcd_ok by lia. cbn [bind]. rewrite Z.gtb_ltb. destruct (Z.ltb_spec 1 (Z.gcd p' num)); [reflexivity|lia].
Qed.
End Rho.

(** ** Some draw succeeds *)
Lemma mod_ne n a b : 0 < n -> ~ (n | a - b) -> a mod n <> b mod n.
Proof. intros Hn N E. apply N, Z.mod_divide; [lia|]. rewrite Zminus_mod, E, Z.sub_diag. apply Z.mod_0_l. lia. Qed.
Lemma mod_divide_diff P n a b : 0 < n -> (P | n) -> (P | a - b) -> (P | a mod n - b mod n).
Proof.
  intros Hn D1 D2. rewrite !Z.mod_eq by lia. replace (a - n * (a / n) - (b - n * (b / n))) with ((a - b) - n * (a / n - b / n)) by ring.
  apply Z.divide_sub_r; [exact D2|]. apply Z.divide_mul_l. exact D1.
Qed.
Definition finds (w num c : Z) : Prop := 1 <= c <= num - 2 /\ exists d, forall fuel, (1 <= fuel)%nat -> rho_do w c num fuel 0 0 1 = Ok (Some d).

Lemma finds_common w num c : 1 < w -> 2 <= num <= 2 ^ (w - 2) -> 1 <= c <= num - 2 -> 1 < Z.gcd c num -> ~ (num | c * c) -> finds w num c.
Proof.
  intros Hw Hn Hc G NS. split; [exact Hc|].
  assert (X1 : rho_seq c num 1 = c mod num) by (cbn [rho_seq]; rewrite Z.mul_0_l, Z.add_0_l; reflexivity).
  assert (X2 : rho_seq c num 2 = (c * c + c) mod num) by (change (rho_seq c num 2) with ((rho_seq c num 1 * rho_seq c num 1 + c) mod num); rewrite X1, (Z.mod_small c) by lia; reflexivity).
  apply (rho_do_finds w c num Hw ltac:(lia) ltac:(lia) (Z.gcd c num) 1); [exact G|apply Z.gcd_divide_r|lia| |].
  - change (2 * 1)%nat with 2%nat. rewrite X1, X2. apply mod_divide_diff; [lia|apply Z.gcd_divide_r|].
    replace (c - (c * c + c)) with (c * - c) by ring. apply Z.divide_mul_l, Z.gcd_divide_l.
  - intros j Hj. replace j with 1%nat by lia. change (2 * 1)%nat with 2%nat. rewrite X1, X2. apply mod_ne; [lia|].
    replace (c - (c * c + c)) with (- (c * c)) by ring. rewrite Z.divide_opp_r. exact NS.
Qed.
Lemma finds_square w p c : 1 < w -> p * p <= 2 ^ (w - 2) -> prime p -> p <> 2 -> p <> 5 -> 1 <= c <= p * p - 2 -> (p | c + 2) -> ~ (p * p | c + 2) -> finds w (p * p) c.
Proof.
  intros Hw Hn Pp N2 N5 Hc [k Ek] NS. pose proof (prime_ge_2 _ Pp) as P2. split; [exact Hc|].
  assert (D0 : (p | p * p)) by (exists p; ring).
  set (n := p * p) in *. assert (Hp : 0 < n) by nia.
  assert (X1 : rho_seq c n 1 = c mod n) by (cbn [rho_seq]; rewrite Z.mul_0_l, Z.add_0_l; reflexivity).
  assert (St : forall j a b, rho_seq c n j = a mod n -> (n | a * a + c - b) -> rho_seq c n (S j) = b mod n).
  { intros j a b E D. cbn [rho_seq]. rewrite E. rewrite Z.add_mod, <- Z.mul_mod, <- Z.add_mod by lia.
    destruct D as [k' Ek']. replace (a * a + c) with (b + k' * n) by lia. apply Z.mod_add. lia. }
  assert (Ec : c = k * p - 2) by lia.
  assert (X2 : rho_seq c n 2 = (2 - 3 * (k * p)) mod n) by (apply (St 1%nat c); [exact X1|exists (k * k); rewrite Ec; unfold n; ring]).
  assert (X3 : rho_seq c n 3 = (2 - 11 * (k * p)) mod n) by (apply (St 2%nat (2 - 3 * (k * p))); [exact X2|exists (9 * k * k); rewrite Ec; unfold n; ring]).
  assert (X4 : rho_seq c n 4 = (2 - 43 * (k * p)) mod n) by (apply (St 3%nat (2 - 11 * (k * p))); [exact X3|exists (121 * k * k); rewrite Ec; unfold n; ring]).
  assert (No : forall q, prime q -> q <> p -> ~ (p | q)).
  { intros q Pq Ne D. pose proof (prime_ge_2 _ Pq). destruct (prime_divisors q Pq p D) as [|[|[|]]]; lia. }
  assert (No2 : ~ (p | 2)) by (apply No; [exact prime_2|lia]).
  assert (No5 : ~ (p | 5)) by (apply No; [|lia]; apply prime_intro; [lia|]; intros i Hi; apply Zgcd_1_rel_prime; assert (C : i = 1 \/ i = 2 \/ i = 3 \/ i = 4) by lia; destruct C as [->|[->|[->| ->]]]; reflexivity).
  assert (Nok : ~ (p | k)) by (intros [i Ei]; apply NS; exists i; rewrite Ek, Ei; unfold n; ring).
  apply (rho_do_finds w c n Hw ltac:(lia) Hn p 2); [lia|exact D0|lia| |].
  - change (2 * 2)%nat with 4%nat. rewrite X2, X4. apply mod_divide_diff; [lia|exact D0|]. exists (40 * k). ring.
  - intros j Hj. assert (J : j = 1%nat \/ j = 2%nat) by lia. destruct J as [->| ->].
    + change (2 * 1)%nat with 2%nat. rewrite X1, X2. apply mod_ne; [lia|]. intros D.
      assert (D' : (p | c - (2 - 3 * (k * p)))) by (apply Z.divide_trans with n; assumption).
      assert (D4 : (p | 2 * 2)).
      { replace (2 * 2) with (4 * k * p - (c - (2 - 3 * (k * p)))) by (rewrite Ec; ring). apply Z.divide_sub_r; [exists (4 * k); ring|exact D']. }
      apply prime_mult in D4; [|exact Pp]. tauto.
    + change (2 * 2)%nat with 4%nat. rewrite X2, X4. apply mod_ne; [lia|]. intros [i Ei].
      assert (D : (p | 2 * (2 * (2 * (5 * k))))) by (exists i; apply (Z.mul_cancel_r _ _ p); [lia|]; unfold n in Ei; transitivity (2 - 3 * (k * p) - (2 - 43 * (k * p))); [ring|rewrite Ei; ring]).
      repeat (apply prime_mult in D; [|exact Pp]; destruct D as [D|D]; [tauto|]). tauto.
Qed.
Lemma lucky_finds w num c : 10 <= w -> 4 < num <= 2 ^ (w - 2) -> 1 <= c <= num - 2 -> lucky num c -> finds w num c.
Proof.
  intros Hw Hn Hc [[G N]|[(p & Pp & N5 & E & D & N)|[E C]]].
  - apply finds_common; auto; lia.
  - subst num. apply finds_square; auto; try lia.
  - subst num. split; [exact Hc|].
    apply (rho_do_finds w c 25 ltac:(lia) ltac:(lia) ltac:(lia) 5 2); [lia|exists 5; reflexivity|lia| |].
    + destruct C as [->|[->|[->| ->]]]; (apply Z.mod_divide; [lia|vm_compute; reflexivity]).
    + intros j Hj. assert (J : j = 1%nat \/ j = 2%nat) by lia. destruct C as [->|[->|[->| ->]]]; destruct J as [->| ->]; vm_compute; discriminate.
Qed.
Lemma some_lucky num : 4 < num -> ~ prime num -> exists c, 1 <= c <= num - 2 /\ lucky num c.
Proof.
  intros Hn NP. destruct (least_prime_factor num ltac:(lia)) as (p & Pp & D & _). pose proof (prime_ge_2 _ Pp) as P2.
  assert (L : p < num).
  { pose proof (Z.divide_pos_le p num ltac:(lia) D). destruct (Z.eq_dec p num) as [->|]; [contradiction|lia]. }
  destruct (Z.eq_dec num (p * p)) as [E|NS].
  - destruct (Z.eq_dec p 5) as [->|N5]; [exists 2; split; [lia|]; right; right; lia|].
    exists (p - 2). split; [nia|]. right. left. exists p. replace (p - 2 + 2) with p by ring.
    split; [exact Pp|]. split; [exact N5|]. split; [exact E|]. split; [apply Z.divide_refl|]. intros X. apply Z.divide_pos_le in X; nia.
  - exists p. destruct D as [m Em]. assert (2 <= m) by nia. split; [nia|]. left.
    assert (G : Z.gcd p num = p) by (apply Z.divide_gcd_iff; [lia|exists m; exact Em]). rewrite G. split; [lia|].
    intros [k Ek]. assert (E : p = k * m) by nia. assert (D : (m | p)) by (exists k; exact E).
    destruct (prime_divisors p Pp m D) as [|[|[|]]]; try lia; subst m; lia.
Qed.
