(** C76: when the operations of Real return. *)
From Coq Require Import ZArith Znumtheory QArith Qreals Reals Lia Bool List String Ascii.
From Verif Require Import Base AdapterModel FactorizeModel FactorizeSpec FactorizeEndProps RationalModel RationalSpec RationalProofs RealModel RealSpec RealProofs3 RealProofs4 RealProofs5 RealProofs6 RealDefSpec RealDefProofs1 RealDefProofs2 RealDefProofs3 RealDefProofs4 DecModel DecSpec DblModel DblSpec DblProofs2 DblProps RealProps.
Import ListNotations.
Open Scope Z_scope.

(** ** construction *)
Theorem C76_make E c r i : 1 < ew E -> fac_sound E -> fac_exact E -> wf (ew E) (Real i r c) -> room (ew E) c r i -> fac_ready E (num r * den r ^ (i - 1)) ->
  exists x, real_make E c r i = Ok x /\ canonical x /\ rv x = rv (Real i r c).
Proof.
  intros Hw FS FE W RM FR. pose proof W as (I & N & D & C). cbn [idx rad coe] in *. destruct (normalize_returns E Hw FS c r i I N D C RM FR) as (x & _ & _ & _ & X & _). exists x. split; [exact X|].
  destruct (make_good E c r i x Hw FS FE W X) as (_ & A & B). auto.
Qed.
Print Assumptions C76_make.
(** ** sum and difference of equal radicals *)
Lemma canonical_is_good w a : canonical a -> idx a < 2 ^ w -> good w a.
Proof.
  intros C I. pose proof C as (m & R & M & I1 & D & _). split; [repeat split; rewrite ?R; cbn [num den]; try assumption; lia|]. rewrite R. cbn [num den]. intros J. exact (canonical_trivial a m C R J).
Qed.
Theorem C76_add E a b m B : 1 < ew E -> fac_sound E -> fac_exact E -> canonical a -> canonical b -> rad a = Rat m 1 -> rad b = rad a -> idx b = idx a -> idx a < 2 ^ ew E -> small B (coe a) -> small B (coe b) ->
  fits (ew E) m -> 2 * (B * B) * m < 2 ^ (ew E - 1) -> fac_ready E m ->
  (exists x, real_add E a b = Ok x /\ canonical x /\ rv x = (rv a + rv b)%R) /\ (exists x, real_sub E a b = Ok x /\ canonical x /\ rv x = (rv a - rv b)%R).
Proof.
  intros Hw FS FE Ca Cb Ra Rb Ib Iw Sa Sb F L FR. pose proof (canonical_is_good _ a Ca Iw) as Ga. assert (Gb : good (ew E) b) by (apply canonical_is_good; [exact Cb|congruence]).
  pose proof Ga as [(I & Np & _ & Da) _]. pose proof Gb as [(_ & _ & _ & Db) _]. rewrite Ra in Np. cbn [num] in Np. split.
  - destruct (add_returns E Hw FS a b m B) as (x & _ & X & _); try assumption; try lia. exists x. split; [exact X|]. destruct (C31_add_exact E a b x Hw FS FE Ga Gb X). auto.
  - destruct (sub_returns E Hw FS FE a b m B) as (x & X); try assumption. exists x. split; [exact X|]. destruct (C31_sub_exact E a b x Hw FS FE Ga Gb X). auto.
Qed.
Print Assumptions C76_add.
(** ** product: m^(l/i) n^(l/j) is the radicand over the common index l *)
Theorem C76_mul E a b m n B : 1 < ew E -> fac_sound E -> fac_exact E -> canonical a -> canonical b -> rad a = Rat m 1 -> rad b = Rat n 1 -> small B (coe a) -> small B (coe b) ->
  let l := Z.lcm (idx a) (idx b) in let P := m ^ (l / idx a) * n ^ (l / idx b) in
  l <= 2 ^ 53 -> l < 2 ^ (ew E - 1) -> fits (ew E) P -> B * B * P < 2 ^ (ew E - 1) -> fac_ready E P ->
  exists x, real_mul E a b = Ok x /\ canonical x /\ rv x = (rv a * rv b)%R.
Proof.
  intros Hw FS FE Ca Cb Ra Rb Sa Sb l P L1 L2 F LB FR. pose proof Ca as (m' & Ra' & M & Ia & Da & _). pose proof Cb as (n' & Rb' & N & Ib & Db & _). rewrite Ra in Ra'. injection Ra' as <-. rewrite Rb in Rb'. injection Rb' as <-.
  destruct (mul_returns E Hw FS a b m n B) as (x & X); try assumption. exists x. split; [exact X|].
  destruct (lcm_parts (idx a) (idx b) Ia Ib) as (_ & _ & _). assert (WW : 2 ^ (ew E - 1) <= 2 ^ ew E) by (apply Z.pow_le_mono_r; lia).
  assert (La : idx a <= l) by (apply Z.divide_pos_le; [pose proof (proj1 (lcm_parts (idx a) (idx b) Ia Ib)); unfold l; lia|apply Z.divide_lcm_l]). assert (Lb : idx b <= l) by (apply Z.divide_pos_le; [pose proof (proj1 (lcm_parts (idx a) (idx b) Ia Ib)); unfold l; lia|apply Z.divide_lcm_r]).
  destruct (C30_mul E a b x Hw FS FE) as [V C]; [apply canonical_is_good; [exact Ca|lia]|apply canonical_is_good; [exact Cb|lia]|exact X|]. auto.
Qed.
Print Assumptions C76_mul.
(** ** quotient: the radicand P/Q over l, cleared of its denominator *)
Theorem C76_div E a b m n B : 1 < ew E -> fac_sound E -> fac_exact E -> canonical a -> canonical b -> rad a = Rat m 1 -> rad b = Rat n 1 -> num (coe b) <> 0 -> small B (coe a) -> small B (coe b) ->
  let l := Z.lcm (idx a) (idx b) in let P := m ^ (l / idx a) in let Q := n ^ (l / idx b) in
  l <= 2 ^ 53 -> l < 2 ^ (ew E - 1) -> fits (ew E) (P * Q ^ (l - 1)) -> fits (ew E) (Q ^ l) -> B * B * (P * Q ^ (l - 1)) < 2 ^ (ew E - 1) -> B * B * Q < 2 ^ (ew E - 1) -> fac_ready E (P * Q ^ (l - 1)) ->
  exists x, real_div E a b = Ok x /\ canonical x /\ rv x = (rv a / rv b)%R.
Proof.
  intros Hw FS FE Ca Cb Ra Rb Nb Sa Sb l P Q L1 L2 F G LB LQ FR. pose proof Ca as (m' & Ra' & M & Ia & Da & _). pose proof Cb as (n' & Rb' & N & Ib & Db & _). rewrite Ra in Ra'. injection Ra' as <-. rewrite Rb in Rb'. injection Rb' as <-.
  destruct (div_returns E Hw FS a b m n B) as (x & X); try assumption. exists x. split; [exact X|].
  assert (WW : 2 ^ (ew E - 1) <= 2 ^ ew E) by (apply Z.pow_le_mono_r; lia).
  assert (La : idx a <= l) by (apply Z.divide_pos_le; [pose proof (proj1 (lcm_parts (idx a) (idx b) Ia Ib)); unfold l; lia|apply Z.divide_lcm_l]). assert (Lb : idx b <= l) by (apply Z.divide_pos_le; [pose proof (proj1 (lcm_parts (idx a) (idx b) Ia Ib)); unfold l; lia|apply Z.divide_lcm_r]).
  destruct (C30_div E a b x Hw FS FE) as [V C]; [apply canonical_is_good; [exact Ca|lia]|apply canonical_is_good; [exact Cb|lia]|exact X|]. auto.
Qed.
Print Assumptions C76_div.
(** ** integer powers *)
Theorem C76_pow E a m B e : 1 < ew E -> fac_sound E -> fac_exact E -> canonical a -> rad a = Rat m 1 -> idx a < 2 ^ ew E -> small B (coe a) -> 0 <= e <= 2 ^ 53 -> e < 2 ^ (ew E - 1) ->
  B ^ e <= 2 ^ 53 -> fits (ew E) (m ^ e) -> B ^ e * m ^ e < 2 ^ (ew E - 1) -> fac_ready E (m ^ e) ->
  exists x, real_pow E a (Rat e 1) = Ok x /\ rv x = powerRZ (rv a) e.
Proof.
  intros Hw FS FE Ca Ra Iw S He Hew L1 F L2 FR. pose proof Ca as (m' & Ra' & M & Ia & Da & _). rewrite Ra in Ra'. injection Ra' as <-.
  assert (X : exists x, real_pow E a (Rat e 1) = Ok x). { destruct (Z.eq_dec e 0) as [->|N0]; [apply pow_zero_returns; assumption|]. apply (pow_nonneg_returns E Hw FS a m B e); try assumption; lia. }
  destruct X as (x & X). exists x. split; [exact X|]. exact (C30_pow_integer E a e x Hw FS FE (canonical_is_good _ a Ca Iw) X).
Qed.
Print Assumptions C76_pow.
Theorem C76_pow_negative E a m B e : 1 < ew E -> fac_sound E -> fac_exact E -> canonical a -> rad a = Rat m 1 -> idx a < 2 ^ ew E -> num (coe a) <> 0 -> small B (coe a) -> 1 <= e <= 2 ^ 53 -> e < 2 ^ (ew E - 1) ->
  B ^ e <= 2 ^ 53 -> B ^ e < 2 ^ (ew E - 1) -> let Q := m ^ e in let i := idx a in fits (ew E) (Q ^ (i - 1)) -> fits (ew E) (Q ^ i) -> B ^ e * Q ^ (i - 1) < 2 ^ (ew E - 1) -> B ^ e * Q < 2 ^ (ew E - 1) -> fac_ready E (Q ^ (i - 1)) ->
  exists x, real_pow E a (Rat (- e) 1) = Ok x /\ rv x = powerRZ (rv a) (- e).
Proof.
  intros Hw FS FE Ca Ra Iw N S He Hew L1 L1w Q i F G L2 L3 FR. pose proof Ca as (m' & Ra' & M & Ia & Da & _). rewrite Ra in Ra'. injection Ra' as <-.
  destruct (pow_neg_returns E Hw FS a m B e) as (x & X); try assumption; try lia. exists x. split; [exact X|]. exact (C30_pow_integer E a (- e) x Hw FS FE (canonical_is_good _ a Ca Iw) X).
Qed.
Print Assumptions C76_pow_negative.
(** ** the order *)
Theorem C76_order w a b m n B : 1 < w -> canonical a -> canonical b -> rad a = Rat m 1 -> rad b = Rat n 1 -> small B (coe a) -> small B (coe b) ->
  let k := idx a * idx b in let P := m ^ idx b in let Q := n ^ idx a in
  k <= 2 ^ 53 -> k < 2 ^ (w - 1) -> B ^ k * P <= 2 ^ 53 -> B ^ k * Q <= 2 ^ 53 -> B ^ k * P * B ^ k < 2 ^ (w - 1) -> B ^ k * Q * B ^ k < 2 ^ (w - 1) ->
  (exists t, real_eq w a b = Ok t) /\ (exists t, real_lt w a b = Ok t) /\ (exists t, real_gt w a b = Ok t).
Proof.
  intros Hw Ca Cb Ra Rb Sa Sb k P Q K1 K2 P1 Q1 P2 Q2. pose proof Ca as (m' & Ra' & M & Ia & Da & _). pose proof Cb as (n' & Rb' & N & Ib & Db & _). rewrite Ra in Ra'. injection Ra' as <-. rewrite Rb in Rb'. injection Rb' as <-.
  apply (lt_returns w Hw a b m n B); assumption.
Qed.
Print Assumptions C76_order.

(** ** The factorisation the standard machine uses is ready for everything below 9006401 once the loops may run long enough *)
Theorem C76_factorisation_ready w i128 rnd junk : 48 <= w -> fair rnd -> exists F, forall fuel, (F <= fuel)%nat -> fac_ready (std_env w i128 rnd fuel junk) 9006400.
Proof.
  intros Hw Fr. assert (G : forall N : nat, Z.of_nat N < 9006401 -> exists F, forall fuel, (F <= fuel)%nat -> fac_ready (std_env w i128 rnd fuel junk) (Z.of_nat N)).
  { induction N as [|N IH]; intros H; [exists 0%nat; intros fuel _ k K; lia|]. destruct IH as (F1 & H1); [lia|]. destruct (C66_ends_with_the_primes w i128 rnd (Z.of_nat (S N)) 0%nat Hw Fr ltac:(lia)) as (l & k' & F2 & H2 & _).
    exists (F1 + F2)%nat. intros fuel L k K. destruct (Z.eq_dec k (Z.of_nat (S N))) as [->|Ne]; [|apply (H1 fuel ltac:(lia) k); lia].
    exists l. cbn [efac std_env]. destruct (Z.ltb_spec (Z.of_nat (S N)) 9006401); [|lia]. rewrite (H2 fuel ltac:(lia)). reflexivity. }
  destruct (G (Z.to_nat 9006400)) as (F & H); [lia|]. exists F. intros fuel L. specialize (H fuel L). rewrite Z2Nat.id in H by lia. exact H.
Qed.
Print Assumptions C76_factorisation_ready.
(** so every root of every whole number below 9006401 is returned and is that root, in the model with exact powers and in the one with doubles *)
Theorem C76_roots w i128 rnd junk : 48 <= w -> fair rnd -> exists F, forall fuel n i, (F <= fuel)%nat -> 1 <= n < 9006401 -> 1 <= i < 2 ^ w ->
  let E := std_env w i128 rnd fuel junk in
  exists x, nth_root E i (Rat n 1) = Ok x /\ canonical x /\ rv x = Rpower (IZR n) (/ IZR i) /\
    forall fp fmt, good_double (DEnv E fp fmt) -> real_make_d (DEnv E fp fmt) (Rat 1 1) (Rat n 1) i = Ok x.
Proof.
  intros Hw Fr. destruct (C76_factorisation_ready w i128 rnd junk Hw Fr) as (F & HF). exists F. intros fuel n i L N I E.
  assert (W : 9006400 <= 2 ^ 46) by lia. assert (W1 : 2 ^ 46 <= 2 ^ (w - 2)) by (apply Z.pow_le_mono_r; lia). assert (W2 : 2 ^ (w - 1) = 2 * 2 ^ (w - 2)) by (replace (w - 1) with (1 + (w - 2)) by lia; rewrite Z.pow_add_r by lia; reflexivity).
  assert (P : num (Rat n 1) * den (Rat n 1) ^ (i - 1) = n) by (cbn [num den]; rewrite Z.pow_1_l by lia; lia).
  destruct (C76_make E (Rat 1 1) (Rat n 1) i) as (x & X & C & V).
  - cbn; lia.
  - apply (std_sound w i128 rnd fuel junk).
  - apply (std_exact w i128 rnd fuel junk). lia.
  - repeat split; cbn [idx rad coe num den ew std_env E]; lia.
  - unfold room. rewrite P. cbn [num den ew std_env E]. rewrite Z.pow_1_l by lia. unfold fits. lia.
  - rewrite P. apply (fac_ready_le _ _ 9006400); [lia|]. apply HF. exact L.
  - exists x. split; [exact X|]. split; [exact C|]. split.
    + rewrite V. unfold rv. cbn [idx rad coe]. rewrite !qv_R by (cbn; lia). cbn [num den]. replace (IZR 1 / IZR 1)%R with 1%R by field. rewrite Rmult_1_l. f_equal. field.
    + intros fp fmt G. pose proof (C75_exact_where_it_fits (DEnv E fp fmt) (LMake (Rat 1 1) (Rat n 1) i) G) as A. cbn [lrun lrun_d de] in A. rewrite X in A. exact A.
Qed.
Print Assumptions C76_roots.

(** ** Bounds met *)
Example C76_make_hyp : wf 64 (Real 3 (Rat 5 12) (Rat 7 2)) /\ room 64 (Rat 7 2) (Rat 5 12) 3.
Proof. split; [repeat split; cbn; lia|]. unfold room, fits. cbn. lia. Qed.
Example C76_mul_hyp : let l := Z.lcm 3 4 in let P := 6 ^ (l / 3) * 10 ^ (l / 4) in l <= 2 ^ 53 /\ l < 2 ^ 63 /\ fits 64 P /\ 1000 * 1000 * P < 2 ^ 63 /\ P < 9006401.
Proof. unfold fits. vm_compute. repeat split; discriminate. Qed.
Example C76_div_hyp : let l := Z.lcm 2 3 in let P := 5 ^ (l / 2) in let Q := 3 ^ (l / 3) in l <= 2 ^ 53 /\ fits 64 (P * Q ^ (l - 1)) /\ fits 64 (Q ^ l) /\ 100 * 100 * (P * Q ^ (l - 1)) < 2 ^ 63 /\ 100 * 100 * Q < 2 ^ 63 /\ P * Q ^ (l - 1) < 9006401.
Proof. unfold fits. vm_compute. repeat split; discriminate. Qed.
Example C76_order_hyp : let k := 2 * 3 in 6 ^ k * 10 ^ 3 <= 2 ^ 53 /\ 6 ^ k * 7 ^ 2 <= 2 ^ 53 /\ 6 ^ k * 10 ^ 3 * 6 ^ k < 2 ^ 63 /\ 6 ^ k * 7 ^ 2 * 6 ^ k < 2 ^ 63.
Proof. vm_compute. repeat split; discriminate. Qed.
Example C76_fair_example : exists F, forall fuel, (F <= fuel)%nat -> fac_ready (std_env 64 true (fun k => Z.of_nat k - Z.sqrt (Z.of_nat k) * Z.sqrt (Z.of_nat k)) fuel 0) 9006400.
Proof. apply C76_factorisation_ready; [lia|exact C66_fair_example]. Qed.
(** ** Outside them: undefined behaviour (signed overflow) although operands and results are short; with doubles as well *)
Theorem C76_overflow_refuted :
  real_mul_d Xd (Real 2 (Rat 2 1) (Rat (2 ^ 40) 1)) (Real 2 (Rat 3 1) (Rat (2 ^ 40) 1)) = Ub "signed overflow"%string /\
  real_div_d Xd (Real 3 (Rat 2 1) (Rat 1 1)) (Real 7 (Rat 3 1) (Rat 1 1)) = Ub "signed overflow"%string /\
  real_lt_d Xd (Real 2 (Rat 2 1) (Rat 1000001 1)) (Real 2 (Rat 3 1) (Rat 1000007 1)) = Ub "signed overflow"%string /\
  real_add_d Xd (Real 2 (Rat 2 1) (Rat (2 ^ 62) 1)) (Real 2 (Rat 2 1) (Rat (2 ^ 62) 1)) = Ub "signed overflow"%string /\
  real_pow_d Xd (Real 2 (Rat 2 1) (Rat 3 1)) (Rat 41 1) = Ub "signed overflow"%string.
Proof. split; [vm_compute; reflexivity|]. split; [vm_compute; reflexivity|]. split; [vm_compute; reflexivity|]. split; vm_compute; reflexivity. Qed.
Print Assumptions C76_overflow_refuted.
