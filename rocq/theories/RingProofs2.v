(** Proofs: what the operations do with integer coefficients. *)
From Coq Require Import ZArith Znumtheory QArith Qreals Reals String Ascii Lia Lra Bool List Permutation Sorted.
From Verif Require Import Base AdapterModel AdapterProofs RationalModel RationalSpec RationalProofs RationalProofs2 RealModel RealSpec RealProofs1 RealProofs3 PolyModel PolySpec PolyProofs1 PolyProofs2 PolyProofs3 PolyProofs6 ExprModel ParserModel TextSpec TextProofs1.
Import ListNotations.
Open Scope Z_scope.

Lemma qok_z n : qok (Rat n 1). Proof. split; [cbn; lia|]. unfold lowest_terms. cbn [num den]. apply Z.gcd_1_r. Qed.
Lemma qv_z n : (qv (Rat n 1) == inject_Z n)%Q. Proof. unfold qv. cbn [num den]. field. Qed.
Lemma add_rng w a b r : rat_add w (Rat a 1) (Rat b 1) = Ok r -> - 2 ^ (w - 1) <= a + b < 2 ^ (w - 1).
Proof.
  intros H. unfold rat_add in H. cbn [num den] in H. apply bind_ok in H as (l & Hl & H). apply adapter_lcm_inv in Hl. change (Z.lcm 1 1) with 1 in Hl. subst l. apply bind_ok in H as (q & Hq & H). apply quot_w_inv in Hq as (_ & -> & _). change (Z.quot 1 1) with 1 in H.
  apply bind_ok in H as (x & Hx & H). apply chk_inv in Hx as [-> _]. apply bind_ok in H as (q & Hq & H). apply quot_w_inv in Hq as (_ & -> & _). change (Z.quot 1 1) with 1 in H. apply bind_ok in H as (y & Hy & H). apply chk_inv in Hy as [-> _]. apply bind_ok in H as (z & Hz & H). apply chk_inv in Hz as [_ Hz]. rewrite !Z.mul_1_r in Hz. exact Hz.
Qed.
Lemma mul_rng w a b r : rat_mul w (Rat a 1) (Rat b 1) = Ok r -> - 2 ^ (w - 1) <= a * b < 2 ^ (w - 1).
Proof.
  intros H. unfold rat_mul in H. cbn [num den] in H. apply bind_ok in H as (g1 & H1 & H). apply adapter_gcd_inv in H1. rewrite Z.gcd_1_r in H1. subst g1. apply bind_ok in H as (g2 & H2 & H). apply adapter_gcd_inv in H2. rewrite Z.gcd_1_r in H2. subst g2.
  apply bind_ok in H as (x & Hx & H). apply quot_w_inv in Hx as (_ & -> & _). apply bind_ok in H as (y & Hy & H). apply quot_w_inv in Hy as (_ & -> & _). apply bind_ok in H as (n & Hn & _). apply chk_inv in Hn as [_ Hn]. rewrite !Z.quot_1_r in Hn. exact Hn.
Qed.
Lemma normalize_above w n d r : rat_normalize w (Rat n d) = Ok r -> - 2 ^ (w - 1) < n.
Proof. intros H. unfold rat_normalize in H. apply bind_ok in H as (a & Ha & _). cbn [num] in Ha. apply chk_inv in Ha as [_ B]. lia. Qed.
Lemma add_above w a b r : rat_add w (Rat a 1) (Rat b 1) = Ok r -> - 2 ^ (w - 1) < a + b.
Proof.
  intros H. unfold rat_add in H. cbn [num den] in H. apply bind_ok in H as (l & Hl & H). apply adapter_lcm_inv in Hl. change (Z.lcm 1 1) with 1 in Hl. subst l. apply bind_ok in H as (q & Hq & H). apply quot_w_inv in Hq as (_ & -> & _). change (Z.quot 1 1) with 1 in H.
  apply bind_ok in H as (x & Hx & H). apply chk_inv in Hx as [-> _]. apply bind_ok in H as (q & Hq & H). apply quot_w_inv in Hq as (_ & -> & _). change (Z.quot 1 1) with 1 in H. apply bind_ok in H as (y & Hy & H). apply chk_inv in Hy as [-> _]. apply bind_ok in H as (z & Hz & H). apply chk_inv in Hz as [-> _]. apply normalize_above in H. lia.
Qed.
Lemma mul_above w a b r : rat_mul w (Rat a 1) (Rat b 1) = Ok r -> - 2 ^ (w - 1) < a.
Proof. intros H. unfold rat_mul in H. cbn [num den] in H. apply bind_ok in H as (g & Hg & _). unfold adapter_gcd in Hg. apply bind_ok in Hg as (x & Hx & _). apply chk_inv in Hx as [_ B]. lia. Qed.
Lemma add_zz w a b r : rat_add w (Rat a 1) (Rat b 1) = Ok r -> r = Rat (a + b) 1.
Proof.
  intros H. pose proof (qok_add _ _ _ _ (qok_z a) (qok_z b) H) as Q. apply rat_add_exact in H as [_ V]; [|discriminate|discriminate]. apply qok_int; [exact Q|]. rewrite V, !qv_z, inject_Z_plus. reflexivity.
Qed.
Lemma mul_zz w a b r : rat_mul w (Rat a 1) (Rat b 1) = Ok r -> r = Rat (a * b) 1.
Proof.
  intros H. pose proof (qok_mul _ _ _ _ (qok_z a) (qok_z b) H) as Q. apply rat_mul_exact in H as (_ & _ & _ & V). apply qok_int; [exact Q|]. rewrite V, !qv_z, inject_Z_mult. reflexivity.
Qed.
Lemma neg_zz w a r : rat_negate w (Rat a 1) = Ok r -> r = Rat (- a) 1.
Proof.
  intros H. assert (Q : qok r) by (split; [now apply (rat_negate_pos _ _ _ H)|now apply (rat_negate_lowest _ _ _ H)]). apply rat_negate_exact in H as [_ V]; [|discriminate]. apply qok_int; [exact Q|]. rewrite V, qv_z, inject_Z_opp. reflexivity.
Qed.
Lemma neg_rng w a r : rat_negate w (Rat a 1) = Ok r -> - 2 ^ (w - 1) <= - a < 2 ^ (w - 1).
Proof. intros H. unfold rat_negate in H. apply bind_ok in H as (n & Hn & _). cbn [num] in Hn. now apply chk_inv in Hn. Qed.
Lemma norm_zz w a r : rat_normalize w (Rat a 1) = Ok r -> r = Rat a 1.
Proof. exact (of_int_inv w a r). Qed.
Lemma dpow_inv b e x : dpow b e = Ok x -> x = b ^ e. Proof. unfold dpow. destruct (_ && _)%bool; [|discriminate]. congruence. Qed.
Lemma pow_cast_inv w b n x : pow_cast w b n 1 = Ok x -> x = b ^ n /\ - 2 ^ (w - 1) <= b ^ n < 2 ^ (w - 1).
Proof.
  unfold pow_cast. change (1 =? 0) with false. cbv iota. destruct (_ && _)%bool; [|discriminate]. rewrite Z.div_1_r. intros H. apply bind_ok in H as (y & Hy & H). apply dpow_inv in Hy as ->. now apply chk_inv in H.
Qed.
Lemma pow_zz w a n r : 0 <= n -> - 2 ^ (w - 1) <= a < 2 ^ (w - 1) -> 2 < w -> rpow w (Rat a 1) (Rat n 1) = Ok r -> r = Rat (a ^ n) 1 /\ - 2 ^ (w - 1) <= a ^ n < 2 ^ (w - 1).
Proof.
  intros N A W H. assert (4 <= 2 ^ (w - 1)) by (change 4 with (2 ^ 2); apply Z.pow_le_mono_r; lia). unfold rpow, rat_pow in H. apply bind_ok in H as (z & Hz & H). apply rat_eq_inv in Hz. cbn [num den] in Hz, H. rewrite Z.mul_1_r, Z.mul_0_l in Hz. destruct (Z.eqb_spec n 0) as [->|N0]; subst z.
  - apply of_int_inv in H. subst r. rewrite Z.pow_0_r. split; [reflexivity|lia].
  - apply bind_ok in H as (o & Ho & H). apply rat_eq_inv in Ho. cbn [num den] in Ho. rewrite !Z.mul_1_r in Ho. destruct (Z.eqb_spec n 1) as [->|N1]; subst o.
    + injection H as <-. rewrite Z.pow_1_r. split; [reflexivity|lia].
    + apply bind_ok in H as (x & Hx & H). apply bind_ok in H as (y & Hy & H). apply pow_cast_inv in Hx as [-> B]. apply pow_cast_inv in Hy as [-> _]. rewrite Z.pow_1_l in H by assumption. apply norm_zz in H. now split.
Qed.
Section I.
  Variable P : penv.
  Hypothesis HR : reads P.
  Local Notation E := (pe P).
  Local Notation w := (ew (pe P)).
  Definition rng (n : Z) : Prop := - 2 ^ (w - 1) <= n < 2 ^ (w - 1).
  Lemma norm_unit c x : real_normalize E (Real 1 (Rat 1 1) c) = Ok x -> x = Real 1 (Rat 1 1) c.
  Proof.
    destruct HR as (W & F & _). intros H. assert (4 <= 2 ^ (w - 1)) by (change 4 with (2 ^ 2); apply Z.pow_le_mono_r; lia). assert (2 <= 2 ^ (w - 2)) by (change 2 with (2 ^ 1) at 1; apply Z.pow_le_mono_r; lia).
    unfold real_normalize in H. cbv zeta in H. cbn [idx rad coe is_int num den Z.eqb Pos.eqb bind] in H. unfold decompose in H. destruct (Z.leb_spec 1 (2 ^ (w - 2))); [|lia]. rewrite F in H. cbn [bind decompose_loop pull_all] in H.
    change (1 =? 1) with true in H. cbv iota in H. cbn [bind fold_left] in H. rewrite Z.gcd_1_l in H. rewrite swrap_id in H by lia. change (1 =? 1) with true in H. cbv iota in H. cbn [bind] in H.
    apply bind_ok in H as (o & Ho & H). apply rat_eq_inv in Ho. cbn [num den] in Ho. change (1 * 1 =? 1 * 1) with true in Ho. subst o. apply bind_ok in H as (z & _ & H). destruct z; now injection H as <-.
  Qed.
  Lemma zof n x : real_of_int E n = Ok x -> x = rint n.
  Proof. intros H. unfold real_of_int in H. apply bind_ok in H as (c & Hc & H). apply of_int_inv in Hc as ->. now apply norm_unit in H. Qed.
  Lemma zadd a b x : real_add E (rint a) (rint b) = Ok x -> x = rint (a + b) /\ rng (a + b).
  Proof. intros H. unfold real_add in H. apply bind_ok in H as (e & _ & H). destruct e; [|discriminate]. apply bind_ok in H as (c & Hc & H). cbn [rint coe] in Hc. pose proof (add_rng _ _ _ _ Hc) as B. apply add_zz in Hc as ->. split; [now apply norm_unit in H|exact B]. Qed.
  Lemma zadd_above a b x : real_add E (rint a) (rint b) = Ok x -> - 2 ^ (w - 1) < a + b.
  Proof. intros H. unfold real_add in H. apply bind_ok in H as (e & _ & H). destruct e; [|discriminate]. apply bind_ok in H as (c & Hc & H). cbn [rint coe] in Hc. now apply add_above in Hc. Qed.
  Lemma zneg a x : real_negate E (rint a) = Ok x -> x = rint (- a) /\ rng (- a).
  Proof. intros H. unfold real_negate in H. apply bind_ok in H as (c & Hc & H). cbn [rint coe] in Hc. pose proof (neg_rng _ _ _ Hc) as B. apply neg_zz in Hc as ->. split; [now apply norm_unit in H|exact B]. Qed.
  Lemma zmul a b x : real_mul E (rint a) (rint b) = Ok x -> x = rint (a * b) /\ rng (a * b).
  Proof.
    intros H. pose proof (w3 P HR) as W3. pose proof (w4 P HR) as W4. unfold real_mul in H. cbv zeta in H. cbn [rint idx rad coe] in H. apply bind_ok in H as (l & Hl & H). unfold ulcm in Hl. destruct (_ <? _); [|discriminate]. injection Hl as <-. change (Z.lcm 1 1) with 1 in H. change (uquot 1 1) with (Ok 1) in H. cbn [bind] in H.
    assert (I : rat_of_index w 1 = Ok (Rat 1 1)) by (unfold rat_of_index; rewrite swrap_id by lia; apply of_int_ok; lia). rewrite I in H. cbn [bind] in H. rewrite (rpow_one P HR) in H. cbn [bind] in H. apply bind_ok in H as (r & Hr & H). apply mul_zz in Hr as ->. apply bind_ok in H as (c & Hc & H). pose proof (mul_rng _ _ _ _ Hc) as B. apply mul_zz in Hc as ->. split; [now apply norm_unit in H|exact B].
  Qed.
  Lemma inv1 : real_inverse w (rint 1) = Ok (rint 1).
  Proof.
    pose proof (w3 P HR) as W3. pose proof (w4 P HR) as W4. unfold real_inverse. cbn [idx rad coe rint].
    assert (I : rat_inverse w (Rat 1 1) = Ok (Rat 1 1)) by (unfold rat_inverse, rat_make; cbn [num den Z.eqb]; apply (of_int_ok w 1); lia). now rewrite I.
  Qed.
  Lemma zdiv1 a x : real_div E (rint a) (rint 1) = Ok x -> x = rint a.
  Proof. intros H. unfold real_div in H. rewrite inv1 in H. cbn [bind] in H. apply zmul in H as [H _]. now rewrite Z.mul_1_r in H. Qed.
  Lemma zdiv1_above a x : real_div E (rint a) (rint 1) = Ok x -> - 2 ^ (w - 1) < a.
  Proof. intros H. unfold real_div in H. rewrite inv1 in H. cbn [bind] in H. unfold real_mul in H. cbv zeta in H. do 8 (apply bind_ok in H as (? & _ & H)). apply bind_ok in H as (c & Hc & _). cbn [rint coe] in Hc. now apply mul_above in Hc. Qed.
  Lemma zpow a n x : 0 <= n -> rng a -> real_pow E (rint a) (Rat n 1) = Ok x -> x = rint (a ^ n) /\ rng (a ^ n).
  Proof.
    intros N A H. pose proof (w3 P HR) as W3. pose proof (w4 P HR) as W4. unfold real_pow in H. cbn [real_pow_fuel] in H. apply bind_ok in H as (z & Hz & H). apply rat_eq_inv in Hz. cbn [num den] in Hz. rewrite Z.mul_1_r, Z.mul_0_l in Hz. destruct (Z.eqb_spec n 0) as [->|N0]; subst z.
    - apply zof in H. rewrite Z.pow_0_r. split; [exact H|unfold rng; lia].
    - apply bind_ok in H as (o & Ho & H). apply rat_eq_inv in Ho. cbn [num den] in Ho. rewrite !Z.mul_1_r in Ho. destruct (Z.eqb_spec n 1) as [->|N1]; subst o.
      + injection H as <-. rewrite Z.pow_1_r. now split.
      + apply bind_ok in H as (g & Hg & H). unfold rat_lt in Hg. apply bind_ok in Hg as (c & Hc & Hg). apply rat_cmp_inv in Hc. cbn [num den] in Hc. rewrite Z.mul_1_r, Z.mul_0_l in Hc. subst c. destruct (Z.compare_spec n 0); [lia|lia|]. injection Hg as <-.
        unfold real_pow_pos in H. cbv zeta in H. change (is_int (Rat n 1)) with true in H. cbv iota in H. cbn [rint idx rad coe] in H. apply bind_ok in H as (c & Hc & H). apply bind_ok in H as (r & Hr & H). apply pow_zz in Hc as [-> B]; [|assumption|exact A|lia]. apply pow_zz in Hr as [-> _]; [|assumption|lia|lia]. rewrite Z.pow_1_l in H by assumption. split; [now apply norm_unit in H|exact B].
  Qed.
End I.

(** ** divisibility of factorials *)
Lemma fact_divides a b : (Z.of_nat (fact a) * Z.of_nat (fact b) | Z.of_nat (fact (a + b))).
Proof.
  assert (H : forall n a b, (a + b = n)%nat -> (Z.of_nat (fact a) * Z.of_nat (fact b) | Z.of_nat (fact n))).
  { induction n as [|n IH]; intros x y HN.
    - assert (x = 0 /\ y = 0)%nat as [-> ->] by lia. exists 1. reflexivity.
    - destruct x as [|x]; [cbn [Nat.add] in HN; subst y; exists 1; change (Z.of_nat (fact 0)) with 1; now rewrite !Z.mul_1_l|].
      destruct y as [|y]; [rewrite Nat.add_0_r in HN; rewrite HN; exists 1; change (Z.of_nat (fact 0)) with 1; now rewrite Z.mul_1_l, Z.mul_1_r|].
      assert (A : (x + S y = n)%nat) by lia. assert (B : (S x + y = n)%nat) by lia. destruct (IH _ _ A) as [p Hp]. destruct (IH _ _ B) as [q Hq].
      assert (F : forall k, Z.of_nat (fact (S k)) = Z.of_nat (S k) * Z.of_nat (fact k)) by (intros k; rewrite <- Nat2Z.inj_mul; reflexivity).
      exists (p + q). rewrite (F n). replace (Z.of_nat (S n)) with (Z.of_nat (S x) + Z.of_nat (S y)) by lia. rewrite Z.mul_add_distr_r. rewrite Hp at 1. rewrite Hq. rewrite (F x), (F y). ring. }
  now apply H.
Qed.
Lemma facts_divide v : Forall (fun a => 0 <= a) v -> (fold_right (fun a r => Z.of_nat (fact (Z.to_nat a)) * r) 1 v | Z.of_nat (fact (Z.to_nat (fold_right Z.add 0 v)))).
Proof.
  induction 1 as [|a v A F IH]; [exists 1; reflexivity|]. cbn [fold_right]. assert (0 <= fold_right Z.add 0 v) by (clear - F; induction F; cbn [fold_right]; lia). rewrite Z2Nat.inj_add by assumption.
  eapply Z.divide_trans; [|apply fact_divides]. now apply Z.mul_divide_mono_l.
Qed.
