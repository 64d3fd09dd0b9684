(** Proofs: powers of integer polynomials succeed within the bounds. *)
From Coq Require Import ZArith Znumtheory QArith Qreals Reals String Ascii Lia Lra Bool List Permutation Sorted.
From Verif Require Import Base AdapterModel AdapterProofs RationalModel RationalSpec RationalProofs RationalProofs2 RealModel RealSpec RealProofs1 RealProofs3 PolyModel PolySpec PolyProofs1 PolyProofs2 PolyProofs3 PolyProofs4 PolyProofs6 ExprModel ExprSpec ExprProofs1 ParserModel TextSpec TextProofs1 TextProofs2 PrintSpec RingSpec RingProofs1 RingProofs2 RingProofs3 RingProofs4 RingProofs5 RingProofs6 RingProofs7 RingProofs8.
Import ListNotations.
Open Scope Z_scope.

Definition zfacts (v : list Z) : Z := fold_right (fun a r => Z.of_nat (fact (Z.to_nat a)) * r) 1 v.
Lemma zfacts_pos v : 0 < zfacts v. Proof. induction v as [|e v IH]; cbn [zfacts fold_right]; [lia|]. fold (zfacts v). pose proof (lt_O_fact (Z.to_nat e)). nia. Qed.
Fixpoint rise (t : Z) (k : nat) : Z := match k with O => 1 | S k' => t * rise (t + 1) k' end.
Lemma rise_fact k : forall t, rise (Z.of_nat t + 1) k * Z.of_nat (fact t) = Z.of_nat (fact (t + k)).
Proof.
  induction k as [|k IH]; intros t; [rewrite Nat.add_0_r; cbn [rise]; lia|]. cbn [rise]. replace (t + S k)%nat with (S t + k)%nat by lia. rewrite <- IH. rewrite fact_simpl, Nat2Z.inj_mul. replace (Z.of_nat (S t) + 1) with (Z.of_nat t + 1 + 1) by lia. lia.
Qed.
Lemma rise_pos k : forall t, 0 < t -> 0 < rise t k. Proof. induction k as [|k IH]; intros t T; cbn [rise]; [lia|]. specialize (IH (t + 1)). nia. Qed.
Lemma rise1 k : rise 1 k = Z.of_nat (fact k). Proof. pose proof (rise_fact k 0) as H. cbn [fact Nat.add Z.of_nat] in H. change (0 + 1) with 1 in H. lia. Qed.
(** the product of the powers *)
Fixpoint zmono (xs v : list Z) : Z := match xs, v with x :: xs', e :: v' => x ^ e * zmono xs' v' | _, _ => 1 end.
Lemma zmono_pos : forall xs v, Forall (fun x => 1 <= x) xs -> Forall (fun e => 0 <= e) v -> 1 <= zmono xs v.
Proof. induction xs as [|x xs IH]; intros v X F; [cbn; lia|]. destruct F as [|e v F1 F]; [cbn; lia|]. inversion X; subst. cbn [zmono]. specialize (IH v). assert (0 < x ^ e) by (apply Z.pow_pos_nonneg; lia). specialize (IH ltac:(assumption) F). nia. Qed.
Lemma mono_zmono : forall xs v, length v = length xs -> Forall (fun e => 0 <= e) v -> (PolyProofs4.mono (map IZR xs) v * IZR (zfacts v) = IZR (zmono xs v))%R.
Proof.
  induction xs as [|x xs IH]; intros v L F; [destruct v; [cbn; lra|discriminate]|]. destruct F as [|e v F1 F]; [discriminate|]. injection L as L. specialize (IH v L F). cbn [map PolyProofs4.mono zmono]. change (zfacts (e :: v)) with (Z.of_nat (fact (Z.to_nat e)) * zfacts v). rewrite !mult_IZR, <- IH, <- INR_IZR_INZ, pow_IZR, Z2Nat.id by assumption. field. apply INR_fact_neq_0.
Qed.
Lemma rsum_izr {A} (f : A -> Z) l : rsum (fun a => IZR (f a)) l = IZR (fold_right (fun a r => f a + r) 0 l).
Proof. induction l as [|a l IH]; [reflexivity|]. cbn [fold_right]. rewrite plus_IZR, <- IH. reflexivity. Qed.
(** the terms of the multinomial theorem add up *)
Lemma sum_terms a n : (2 <= length a)%nat -> Z.of_nat (fact n) <> 0 -> fold_right (fun v r => Z.of_nat (fact n) / zfacts v * zmono a v + r) 0 (sols (length a - 2) (Z.of_nat n)) = fold_right Z.add 0 a ^ Z.of_nat n.
Proof.
  intros L NZ. apply eq_IZR. rewrite <- rsum_izr. pose proof (multinomial_sum (length a - 2) (map IZR a) n) as H. rewrite map_length in H. specialize (H ltac:(lia)). assert (X : fold_right Rplus 0%R (map IZR a) = IZR (fold_right Z.add 0 a)) by (clear; induction a as [|x a IH]; [reflexivity|]; cbn [map fold_right]; rewrite plus_IZR, IH; reflexivity). rewrite X in H.
  rewrite <- pow_IZR. assert (F0 : INR (fact n) <> 0%R) by apply INR_fact_neq_0. transitivity (INR (fact n) * rsum (PolyProofs4.mono (map IZR a)) (sols (length a - 2) (Z.of_nat n)))%R; [|rewrite H; field; exact F0].
  rewrite <- rsum_scale. apply rsum_ext. intros v I. apply sols_in in I as (LV & F & S). pose proof (facts_divide v F) as D. rewrite S, Nat2Z.id in D. fold (zfacts v) in D. pose proof (zfacts_pos v) as ZP. rewrite mult_IZR, <- (mono_zmono a v) by (assumption || lia). destruct D as [k Hk]. rewrite Hk, Z.div_mul by lia. rewrite INR_IZR_INZ, Hk, mult_IZR. ring.
Qed.
Lemma pow2_fact n : 2 ^ (Z.of_nat n - 1) <= Z.of_nat (fact n).
Proof.
  destruct n as [|n]; [cbn; lia|]. induction n as [|n IH]; [cbn; lia|]. rewrite fact_simpl, Nat2Z.inj_mul. replace (Z.of_nat (S (S n)) - 1) with (Z.succ (Z.of_nat (S n) - 1)) by lia. rewrite Z.pow_succ_r by lia. nia.
Qed.

Section M.
  Variable P : penv.
  Hypothesis HR : reads P.
  Hypothesis HM : machine P.
  Hypothesis HS : sort_orders P.
  Hypothesis HT : sort_returns P.
  Local Notation E := (pe P).
  Local Notation w := (ew (pe P)).
  Local Notation B := (2 ^ (ew (pe P) - 1)).
  Local Notation iterm := (iterm P name_ok).
  Local Notation ipoly := (ipoly P name_ok).
  Local Notation fitp := (fitp P).

  Lemma div_ok q t : 0 < q < B -> 0 < t < B -> (t | q) -> rat_div w (Rat q 1) (Rat t 1) = Ok (Rat (q / t) 1).
  Proof.
    intros Q T [k ->]. pose proof (w3 P HR). rewrite Z.div_mul by lia. unfold rat_div, rat_inverse, rat_make. cbn [num den]. destruct (Z.eqb_spec t 0); [lia|]. unfold rat_normalize, adapter_abs. cbn [num den Z.abs]. assert (0 < k) by nia. assert (k < B) by nia. rewrite ?Z.abs_eq by lia. rewrite !chk_ok by lia. cbn [bind]. rewrite gcd_ok' by lia. cbn [bind]. rewrite Z.gcd_1_l. rewrite !quot_ok by lia. cbn [bind]. rewrite !Z.quot_1_r. destruct (Z.eqb_spec t (-1)); [lia|]. cbn [bind].
    unfold rat_mul. cbn [num den]. rewrite !gcd_ok' by lia. cbn [bind]. assert (GG : Z.gcd (k * t) t = t) by (rewrite Z.gcd_comm, Z.mul_comm; apply Z.gcd_mul_diag_l; lia). rewrite GG, ?Z.gcd_1_l, ?Z.gcd_1_r. rewrite !quot_ok by lia. cbn [bind]. rewrite Z.quot_mul by lia. rewrite !Z.quot_same by lia. rewrite !Z.mul_1_r. rewrite !chk_ok by lia. reflexivity.
  Qed.
  Lemma div_fact_ok : forall k q t, 0 < q < B -> 0 < t -> t + Z.of_nat k <= B -> (rise t k | q) -> div_fact w (Rat q 1) t k = Ok (Rat (q / rise t k) 1).
  Proof.
    pose proof (w3 P HR) as W3. induction k as [|k IH]; intros q t Q T K D; cbn [div_fact rise] in *; [now rewrite Z.div_1_r|]. unfold rat_of_index. rewrite swrap_small' by lia. rewrite of_int_ok by lia. cbn [bind]. pose proof (rise_pos k (t + 1) ltac:(lia)) as RP. destruct D as [j Hj]. assert (0 < j) by nia. assert (X : q = j * rise (t + 1) k * t) by lia.
    rewrite div_ok by (try lia; exists (j * rise (t + 1) k); exact X). cbn [bind]. assert (Y : q / t = j * rise (t + 1) k) by (rewrite X; apply Z.div_mul; lia). rewrite Y. rewrite IH; [|nia|lia|lia|exists j; reflexivity]. rewrite Z.div_mul by lia. do 2 f_equal. rewrite Hj, Z.div_mul by nia. reflexivity.
  Qed.
  Lemma div_facts_ok : forall v q, 0 < q < B -> Forall (fun e => 0 <= e < B) v -> (zfacts v | q) -> div_facts w (Rat q 1) v = Ok (Rat (q / zfacts v) 1).
  Proof.
    induction v as [|e v IH]; intros q Q F D; cbn [div_facts]; [change (zfacts []) with 1; now rewrite Z.div_1_r|]. inversion F; subst. change (zfacts (e :: v)) with (Z.of_nat (fact (Z.to_nat e)) * zfacts v) in *. pose proof (zfacts_pos v) as VP. pose proof (lt_O_fact (Z.to_nat e)) as FP. destruct D as [j Hj]. assert (0 < j) by nia.
    rewrite div_fact_ok; [|exact Q|lia|lia|rewrite rise1; exists (j * zfacts v); lia]. cbn [bind]. rewrite rise1. assert (Y : q / Z.of_nat (fact (Z.to_nat e)) = j * zfacts v) by (rewrite Hj; replace (j * (Z.of_nat (fact (Z.to_nat e)) * zfacts v)) with (j * zfacts v * Z.of_nat (fact (Z.to_nat e))) by lia; apply Z.div_mul; lia). rewrite Y. rewrite IH; [|nia|assumption|exists j; reflexivity]. rewrite Z.div_mul by lia. do 2 f_equal. rewrite Hj, Z.div_mul by nia. reflexivity.
  Qed.
  Lemma wt1_pow t e : 0 <= e -> Z.abs (co t ^ e) <= wt1 t ^ e /\ 1 <= wt1 t ^ e.
  Proof. intros N. pose proof (wt1_pos t). rewrite Z.abs_pow. split; [apply Z.pow_le_mono_l; unfold wt1; lia|]. assert (0 < wt1 t ^ e) by (apply Z.pow_pos_nonneg; lia). lia. Qed.
  Lemma mul_powers_ok D : forall l v acc, Forall iterm l -> iterm acc -> length v = length l -> Forall (fun e => 0 <= e < B) v -> Forall (fun e => e <= 2 ^ 53) v -> Forall (fun t => 0 <= tdeg (syms t) <= D) l ->
    wt1 acc * zmono (map wt1 l) v < B -> wt1 acc * zmono (map wt1 l) v <= 2 ^ 53 -> tdeg (syms acc) + D * fold_right Z.add 0 v < B ->
    exists t, mul_powers E acc l v = Ok t /\ iterm t /\ wt1 t <= wt1 acc * zmono (map wt1 l) v /\ tdeg (syms t) <= tdeg (syms acc) + D * fold_right Z.add 0 v.
  Proof.
    induction l as [|a l IH]; intros v acc F Ta L V V53 G W W53 DD; [exists acc; split; [reflexivity|]; split; [exact Ta|]; destruct v; [|discriminate]; cbn [map zmono fold_right] in *; lia|].
    destruct V as [|e v V1 V]; [discriminate|]. inversion V53; subst. inversion F as [|? ? Tx F']; subst. inversion G as [|? ? Ga G']; subst. injection L as L. cbn [mul_powers map zmono fold_right] in *. pose proof (w3 P HR) as W3. rewrite of_int_ok by lia. cbn [bind]. destruct (wt1_pow a e ltac:(lia)) as [P1 P2]. pose proof (wt1_pos acc) as PA. pose proof (wt1_pos a) as PX.
    assert (M1 : 1 <= zmono (map wt1 l) v) by (apply zmono_pos; [apply Forall_map, Forall_forall; intros; apply wt1_pos|eapply Forall_impl; [|exact V]; cbn beta; intros; lia]).
    assert (S0 : 0 <= fold_right Z.add 0 v) by (clear - V; induction V; cbn; lia). assert (Q1 : wt1 acc * wt1 a ^ e <= wt1 acc * (wt1 a ^ e * zmono (map wt1 l) v)) by nia. assert (Q2 : wt1 a ^ e <= wt1 acc * wt1 a ^ e) by nia.
    pose proof (tdeg_pos _ (iterm_nonneg P acc Ta)) as PD. assert (DE : e * tdeg (syms a) <= D * e /\ 0 <= D * fold_right Z.add 0 v) by (clear - V1 Ga S0; nia). assert (DA : D * (e + fold_right Z.add 0 v) = D * e + D * fold_right Z.add 0 v) by lia.
    assert (PW : exists p, term_pow E a (Rat e 1) = Ok p /\ iterm p /\ co p = co a ^ e /\ tdeg (syms p) = e * tdeg (syms a)).
    { destruct (Z.eq_dec e 0) as [->|NE].
      - (* the power 0 is 1, whatever the base *)
        destruct (scale_ok P HR 0 ltac:(lia) (syms a) (proj2 Tx) ltac:(lia)) as (m & Hm & Dm). pose proof (scale_powers P name_ok 0 ltac:(lia) _ _ (proj2 Tx) Hm) as [Pm _]. destruct (term_norm_ok P HR (rint 1) m Pm) as (t & Ht & Ct & Dt).
        assert (X : term_pow E a (Rat 0 1) = Ok t). { unfold term_pow. assert (Y : real_pow E (tco a) (Rat 0 1) = Ok (rint 1)). { unfold real_pow. cbn [real_pow_fuel]. pose proof (w4 P HR). rewrite (rat_eq_ok P) by (cbn; lia). cbn [bind Z.eqb]. apply (of_int P HR). cbn. lia. } rewrite Y. cbn [bind]. rewrite Hm. exact Ht. }
        exists t. split; [exact X|]. split; [exact (ipow P name_ok HR a 0 t ltac:(lia) Tx X)|]. split; [unfold co; rewrite Ct; reflexivity|lia].
      - assert (CA : Z.abs (co a) <= wt1 a ^ e). { transitivity (wt1 a); [unfold wt1; lia|]. rewrite <- (Z.pow_1_r (wt1 a)) at 1. apply Z.pow_le_mono_r; lia. }
        apply (pow_term_ok P HR); try assumption; lia. }
    destruct PW as (p & Hp & Tp & Cp & Dp). rewrite Hp. cbn [bind].
    assert (WP : wt1 p <= wt1 a ^ e) by (unfold wt1 at 1; rewrite Cp; lia). assert (CM : Z.abs (co acc * co p) <= wt1 acc * wt1 a ^ e) by (rewrite Z.abs_mul, Cp; assert (CC : Z.abs (co acc) <= wt1 acc) by (unfold wt1; lia); clear - CC P1 P2 PA; nia).
    destruct (mul_ok P HR acc p Ta Tp) as (u & Hu & Tu & Cu & Du); [assert (CC : Z.abs (co acc) <= wt1 acc) by (unfold wt1; lia); clear - CC Q1 P2 PA W; nia|rewrite Cp; lia|lia|lia|]. rewrite Hu. cbn [bind].
    assert (WU : wt1 u <= wt1 acc * wt1 a ^ e) by (unfold wt1 at 1; rewrite Cu; lia). assert (WZ : wt1 u * zmono (map wt1 l) v <= wt1 acc * (wt1 a ^ e * zmono (map wt1 l) v)) by (clear - WU M1; nia).
    destruct (IH v u) as (t & Ht & Tt & Wt & Dt); try assumption; [lia|lia|lia|]. exists t. split; [exact Ht|]. split; [exact Tt|]. split; lia.
  Qed.
End M.
